From Coq Require Import String List ZArith Bool Lia.
From Verif Require Import Model.Prelude Model.Registry Spec.Registry.
Import ListNotations.
Open Scope string_scope.

Lemma builtins_ok : register_all (mkRegistry [] []) builtin_calls = Ok builtins.
Proof. vm_compute. reflexivity. Qed.

Lemma dict_get_in {V} (d : list (string * V)) k v :
  dict_get String.eqb d k = Ok v -> In (k, v) d.
Proof.
  induction d as [|[k' v'] d IH]; cbn [dict_get]; [discriminate|].
  destruct (String.eqb_spec k k') as [->|_]; intros H.
  - injection H as ->. now left.
  - right. auto.
Qed.
Lemma dict_get_err {V} (d : list (string * V)) k x :
  dict_get String.eqb d k = Err x -> forall v, ~ In (k, v) d.
Proof.
  induction d as [|[k' v'] d IH]; cbn [dict_get]; [intros _ v []|].
  destruct (String.eqb_spec k k') as [->|n]; intros H v; [discriminate H|].
  intros [E|E]; [injection E as -> ->; now apply n|exact (IH H v E)].
Qed.
Lemma dict_get_keyerror {V} (d : list (string * V)) k x :
  dict_get String.eqb d k = Err x -> x = KeyError.
Proof.
  induction d as [|[k' v'] d IH]; cbn [dict_get]; [now intros [=]|].
  destruct (String.eqb k k'); [discriminate|exact IH].
Qed.

Definition alias_calls : list (string * alias_fn) :=
  flat_map (fun c => match c with Alias a t => [(a, t)] | _ => [] end) builtin_calls.
Definition entry_of (c : registration) : list (string * family_data) :=
  match c with
  | Element f s v sp m k cs =>
      let d := mkFamily f s v sp m k cs in
      (f, d) :: match s with None => [] | Some s => [(s, d)] end
  | Alias _ _ => []
  end.

Lemma builtin_aliases : aliases builtins = alias_calls.
Proof. vm_compute. reflexivity. Qed.

Lemma dict_set_in {V} (d : list (string * V)) k v k' v' :
  In (k', v') (dict_set String.eqb d k v) -> In (k', v') d \/ (k' = k /\ v' = v).
Proof.
  induction d as [|[a b] d IH]; cbn [dict_set].
  - intros [E|[]]. injection E as -> ->. now right.
  - destruct (String.eqb_spec k a) as [->|n]; intros [E|E].
    + injection E as -> ->. now right.
    + left. now right.
    + left. left. exact E.
    + destruct (IH E) as [H|H]; [left; now right|now right].
Qed.

Definition call_of (d : family_data) : registration :=
  Element (fd_family d) (fd_short d) (fd_rank d) (fd_space d) (fd_mapping d) (fd_range d) (fd_cells d).

Lemma register_all_entries cs : forall r r' n d,
  register_all r cs = Ok r' -> In (n, d) (ufl_elements r') ->
  In (n, d) (ufl_elements r) \/ (In (call_of d) cs /\ (n = fd_family d \/ Some n = fd_short d)).
Proof.
  induction cs as [|c cs IH]; intros r r' n d; cbn [register_all].
  { intros [= ->] H. now left. }
  destruct c as [f s v sp m k cl|a t]; cbn [register bind].
  - unfold register_element. destruct (dict_mem String.eqb (ufl_elements r) f); cbn [bind]; [discriminate|].
    intros H Hin. destruct (IH _ _ _ _ H Hin) as [E|[E1 E2]]; [|right; split; [now right|exact E2]].
    cbn [ufl_elements] in E. set (d0 := mkFamily f s v sp m k cl) in *.
    assert (K : In (n, d) (ufl_elements r) \/ (d = d0 /\ (n = f \/ Some n = s))).
    { destruct s as [s|].
      - destruct (dict_set_in _ _ _ _ _ E) as [E'|[-> ->]]; [|right; split; [reflexivity|now right]].
        destruct (dict_set_in _ _ _ _ _ E') as [E2|[-> ->]]; [now left|right; split; [reflexivity|now left]].
      - destruct (dict_set_in _ _ _ _ _ E) as [E'|[-> ->]]; [now left|right; split; [reflexivity|now left]]. }
    destruct K as [K|[-> K]]; [now left|]. right. split; [now left|exact K].
  - intros H Hin. destruct (IH _ _ _ _ H Hin) as [E|[E1 E2]]; [now left|right; split; [now right|exact E2]].
Qed.

Lemma entry_known n d : dict_get String.eqb (ufl_elements builtins) n = Ok d ->
  registered d /\ (n = fd_family d \/ Some n = fd_short d).
Proof.
  intros H. apply dict_get_in in H.
  destruct (register_all_entries _ _ _ _ _ builtins_ok H) as [[]|K]. exact K.
Qed.

Definition family_data_dec (a b : family_data) : {a = b} + {a <> b}.
Proof. repeat decide equality. Defined.

Definition get_entry (n : string) : option family_data :=
  match dict_get String.eqb (ufl_elements builtins) n with Ok d => Some d | Err _ => None end.
Definition entry_is (n : string) (d : family_data) : bool :=
  match dict_get String.eqb (ufl_elements builtins) n with
  | Ok d' => if family_data_dec d' d then true else false
  | Err _ => false
  end.
Lemma entry_isE n d : entry_is n d = true -> dict_get String.eqb (ufl_elements builtins) n = Ok d.
Proof.
  unfold entry_is. destruct (dict_get String.eqb (ufl_elements builtins) n) as [d'|]; [|discriminate].
  destruct (family_data_dec d' d) as [->|]; [reflexivity|discriminate].
Qed.

Definition supported (m : string) : bool := is_ok (pullback_of m).
Definition feec_name (s : string) : bool := existsb (String.eqb s) feec_names.
Definition alias_name (s : string) : bool := existsb (String.eqb s) (map fst alias_calls).

(** Checks of one registration. *)
Definition data_of (c : registration) : list family_data :=
  match c with Element f s v sp m k cs => [mkFamily f s v sp m k cs] | Alias _ _ => [] end.
Definition families : list family_data := flat_map data_of builtin_calls.
Definition check_cells (c : cellnames) : bool :=
  match c with Text s => String.eqb s "triangle" | Names _ => true end.
Definition check (d : family_data) : bool :=
  entry_is (fd_family d) d &&
  match fd_short d with Some s => entry_is s d && negb (alias_name s) && negb (feec_name s) | None => true end &&
  negb (alias_name (fd_family d)) && (negb (feec_name (fd_family d)) || String.eqb (fd_family d) "S") &&
  Nat.leb (fd_rank d) 2 && supported (fd_mapping d) &&
  match fd_range d with Some _ => true | None => false end && check_cells (fd_cells d) &&
  Bool.eqb (substring_of "Guzman-Neilan" (fd_family d) || substring_of "Bernardi-Raugel" (fd_family d))
    (existsb (String.eqb (fd_family d)) ["Bernardi-Raugel"; "Bernardi-Raugel Bubble"; "Guzman-Neilan 1st kind H1";
             "Guzman-Neilan 2nd kind H1"; "Guzman-Neilan H1(div)"; "Guzman-Neilan Bubble"]).
Lemma families_checked : forallb check families = true.
Proof. vm_compute. reflexivity. Qed.

Lemma registered_families d : registered d -> In d families.
Proof.
  intros H. unfold families. apply in_flat_map. exists (call_of d). split; [exact H|]. left. now destruct d.
Qed.
Lemma registered_check d : registered d -> check d = true.
Proof.
  intros H. pose proof families_checked as C. rewrite forallb_forall in C. apply C. exact (registered_families d H).
Qed.

Lemma registered_facts d : registered d ->
  dict_get String.eqb (ufl_elements builtins) (fd_family d) = Ok d /\
  (forall s, fd_short d = Some s ->
     dict_get String.eqb (ufl_elements builtins) s = Ok d /\ alias_name s = false /\ feec_name s = false) /\
  alias_name (fd_family d) = false /\ (feec_name (fd_family d) = true -> fd_family d = "S") /\
  fd_rank d <= 2 /\ is_ok (pullback_of (fd_mapping d)) = true /\
  (exists kr, fd_range d = Some kr) /\ (forall s, fd_cells d = Text s -> s = "triangle") /\
  (substring_of "Guzman-Neilan" (fd_family d) || substring_of "Bernardi-Raugel" (fd_family d) = true
   <-> bubble_family (fd_family d)).
Proof.
  intros H. pose proof (registered_check d H) as C. unfold check in C.
  repeat (apply andb_prop in C; let K := fresh "K" in destruct C as [C K]).
  split; [exact (entry_isE _ _ C)|].
  split. { intros s E. rewrite E in K6. apply andb_prop in K6. destruct K6 as [K6 N2].
           apply andb_prop in K6. destruct K6 as [K6 N1]. split; [exact (entry_isE _ _ K6)|].
           split; [now apply negb_true_iff|now apply negb_true_iff]. }
  split; [now apply negb_true_iff|].
  split. { intros E. rewrite E in K4. cbn [negb orb] in K4. now apply String.eqb_eq. }
  split; [now apply Nat.leb_le|]. split; [exact K2|].
  split. { destruct (fd_range d) as [kr|]; [now exists kr|discriminate]. }
  split. { intros s E. rewrite E in K0. now apply String.eqb_eq. }
  apply Bool.eqb_prop in K. rewrite K. unfold bubble_family. rewrite existsb_exists. split.
  - intros (x & Hx & E). apply String.eqb_eq in E. now subst x.
  - intros Hx. exists (fd_family d). split; [exact Hx|apply String.eqb_refl].
Qed.

Lemma alias_name_get s : alias_name s = false <-> exists x, dict_get String.eqb (aliases builtins) s = Err x.
Proof.
  unfold alias_name. rewrite builtin_aliases. generalize alias_calls as l.
  induction l as [|[k v] l IH]; cbn [map existsb fst dict_get]; [split; [now exists KeyError|reflexivity]|].
  destruct (String.eqb s k); cbn [orb]; [split; [discriminate|intros [x E]; discriminate E]|exact IH].
Qed.

Lemma product_cellE cell :
  match cell with
  | Some (ProductCell _) => true
  | Some (Named k) =>
      existsb (String.eqb (kind_name k)) cubes && negb (existsb (String.eqb (kind_name k)) simplices)
  | None => false
  end = product_cell cell.
Proof. destruct cell as [[[]|]|]; reflexivity. Qed.

Lemma cell_listed_allowed d cell : (forall s, fd_cells d = Text s -> s = "triangle") ->
  match match cell with Some (Named k) => Some (kind_name k) | _ => None end with
  | None => true | Some n => cell_listed n (fd_cells d) end = true <-> cell_allowed (fd_cells d) cell.
Proof.
  intros T. destruct cell as [[k|cs]|]; cbn [cell_allowed]; [|tauto|tauto].
  unfold cell_listed. destruct (fd_cells d) as [l|s].
  - rewrite existsb_exists. split.
    + intros ([m|] & Hin & E); [|discriminate E]. apply String.eqb_eq in E. now subst m.
    + intros Hin. exists (Some (kind_name k)). split; [exact Hin|apply String.eqb_refl].
  - rewrite (T s eq_refl). destruct k; vm_compute; split; congruence.
Qed.

Lemma order_check kr ord :
  (match ord with
   | NoOrder => Ok tt
   | _ => match kr with
          | None => Err ValueError
          | Some (kmin, kmax) =>
              do! guard (match kmin with None => true | Some m => order_all (Z.leb m) ord end) ValueError ;;
              guard (match kmax with None => true | Some m => order_all (fun z => Z.leb z m) ord end) ValueError
          end
   end = Ok tt /\ order_allowed kr ord) \/
  (match ord with
   | NoOrder => Ok tt
   | _ => match kr with
          | None => Err ValueError
          | Some (kmin, kmax) =>
              do! guard (match kmin with None => true | Some m => order_all (Z.leb m) ord end) ValueError ;;
              guard (match kmax with None => true | Some m => order_all (fun z => Z.leb z m) ord end) ValueError
          end
   end = Err ValueError /\ ~ order_allowed kr ord).
Proof.
  destruct ord as [|z|l].
  - left. split; [reflexivity|exact I].
  - destruct kr as [[lo hi]|].
    2:{ right. split; [reflexivity|]. intros (a & b & E & _). discriminate E. }
    assert (A : match lo with None => true | Some m => order_all (Z.leb m) (Order z) end = true
                <-> match lo with None => True | Some m => (m <= z)%Z end).
    { destruct lo; cbn [order_all]; [apply Z.leb_le|tauto]. }
    assert (B : match hi with None => true | Some m => order_all (fun z => Z.leb z m) (Order z) end = true
                <-> match hi with None => True | Some m => (z <= m)%Z end).
    { destruct hi; cbn [order_all]; [apply Z.leb_le|tauto]. }
    destruct (match lo with None => true | Some m => order_all (Z.leb m) (Order z) end); cbn [guard bind].
    + destruct (match hi with None => true | Some m => order_all (fun z => Z.leb z m) (Order z) end); cbn [guard].
      * left. split; [reflexivity|]. exists lo, hi. split; [reflexivity|split; [now apply A|now apply B]].
      * right. split; [reflexivity|]. intros (a & b & E & [_ W]). injection E as <- <-. apply B in W. discriminate W.
    + right. split; [reflexivity|]. intros (a & b & E & [W _]). injection E as <- <-. apply A in W. discriminate W.
  - destruct kr as [[lo hi]|].
    2:{ right. split; [reflexivity|]. intros (a & b & E & _). discriminate E. }
    assert (A : match lo with None => true | Some m => order_all (Z.leb m) (Orders l) end = true
                <-> Forall (fun z => match lo with None => True | Some m => (m <= z)%Z end) l).
    { destruct lo; cbn [order_all].
      - rewrite forallb_forall, Forall_forall. split; intros H x Hx; apply Z.leb_le, H, Hx.
      - split; [intros _; now apply Forall_forall|reflexivity]. }
    assert (B : match hi with None => true | Some m => order_all (fun z => Z.leb z m) (Orders l) end = true
                <-> Forall (fun z => match hi with None => True | Some m => (z <= m)%Z end) l).
    { destruct hi; cbn [order_all].
      - rewrite forallb_forall, Forall_forall. split; intros H x Hx; apply Z.leb_le, H, Hx.
      - split; [intros _; now apply Forall_forall|reflexivity]. }
    destruct (match lo with None => true | Some m => order_all (Z.leb m) (Orders l) end); cbn [guard bind].
    + destruct (match hi with None => true | Some m => order_all (fun z => Z.leb z m) (Orders l) end); cbn [guard].
      * left. split; [reflexivity|]. exists lo, hi. split; [reflexivity|].
        pose proof (proj1 A eq_refl) as A'. pose proof (proj1 B eq_refl) as B'.
        apply Forall_forall. intros x Hx.
        split; [exact (proj1 (Forall_forall _ _) A' x Hx)|exact (proj1 (Forall_forall _ _) B' x Hx)].
      * right. split; [reflexivity|]. intros (a & b & E & W). injection E as <- <-.
        enough (false = true) by discriminate. apply B. eapply Forall_impl; [|exact W]. now intros x [_ ?].
    + right. split; [reflexivity|]. intros (a & b & E & W). injection E as <- <-.
      enough (false = true) by discriminate. apply A. eapply Forall_impl; [|exact W]. now intros x [? _].
Qed.

Lemma product_nameE f ord :
  (product_name f ord = Ok (on_product f) /\
     (In f ["Discontinuous Lagrange"; "Discontinuous Lagrange L2"] -> is_int ord)) \/
  (product_name f ord = Err TypeError /\ In f ["Discontinuous Lagrange"; "Discontinuous Lagrange L2"] /\
     ~ is_int ord).
Proof.
  unfold product_name, on_product.
  destruct (String.eqb_spec f "Lagrange") as [->|N0].
  { left. split; [reflexivity|]. intros [E|[E|[]]]; discriminate E. }
  destruct (String.eqb_spec f "Discontinuous Lagrange") as [->|N1].
  { destruct ord as [|z|l]; cbn [order_at_least_one bind].
    - right. split; [reflexivity|]. split; [now left|]. intros [z E]. discriminate E.
    - left. split; [reflexivity|]. intros _. now exists z.
    - right. split; [reflexivity|]. split; [now left|]. intros [z E]. discriminate E. }
  destruct (String.eqb_spec f "Discontinuous Lagrange L2") as [->|N2].
  { destruct ord as [|z|l]; cbn [order_at_least_one bind].
    - right. split; [reflexivity|]. split; [right; now left|]. intros [z E]. discriminate E.
    - left. split; [reflexivity|]. intros _. now exists z.
    - right. split; [reflexivity|]. split; [right; now left|]. intros [z E]. discriminate E. }
  left. split; [reflexivity|]. intros [E|[E|[]]]; now subst f.
Qed.

Lemma on_product_bubble f :
  (substring_of "Guzman-Neilan" f || substring_of "Bernardi-Raugel" f = true <-> bubble_family f) ->
  (substring_of "Guzman-Neilan" (on_product f) || substring_of "Bernardi-Raugel" (on_product f) = true
   <-> bubble_family (on_product f)).
Proof.
  intros H. unfold on_product.
  destruct (String.eqb f "Lagrange"); [vm_compute; split; [discriminate|intuition discriminate]|].
  destruct (String.eqb f "Discontinuous Lagrange"); [vm_compute; split; [discriminate|intuition discriminate]|].
  destruct (String.eqb f "Discontinuous Lagrange L2"); [vm_compute; split; [discriminate|intuition discriminate]|].
  exact H.
Qed.

Lemma describe_spec d name cell ord : registered d -> (name = fd_family d \/ Some name = fd_short d) ->
  match describe builtins cell name ord with
  | Ok e => described d cell ord e /\ (compared d cell -> is_int ord)
  | Err x => (x = ValueError /\ (forall e, ~ described d cell ord e) /\ (compared d cell -> is_int ord)) \/
             (x = TypeError /\ compared d cell /\ ~ is_int ord)
  end.
Proof.
  intros R N. destruct (registered_facts d R) as (F1 & F2 & _ & _ & F3 & _ & _ & F4 & F5).
  assert (G : dict_get String.eqb (ufl_elements builtins) name = Ok d).
  { destruct N as [->|E]; [exact F1|]. symmetry in E. exact (proj1 (F2 name E)). }
  unfold describe. rewrite G, product_cellE. clear F1 F2 G.
  assert (P : ((if product_cell cell then product_name (fd_family d) ord else Ok (fd_family d))
                = Ok (if product_cell cell then on_product (fd_family d) else fd_family d) /\
               (compared d cell -> is_int ord)) \/
              ((if product_cell cell then product_name (fd_family d) ord else Ok (fd_family d)) = Err TypeError /\
               compared d cell /\ ~ is_int ord)).
  { unfold compared. destruct (product_cell cell).
    - destruct (product_nameE (fd_family d) ord) as [[E H]|(E & H1 & H2)].
      + left. split; [exact E|]. intros [_ H']. exact (H H').
      + right. now repeat split.
    - left. split; [reflexivity|]. intros [E _]. discriminate E. }
  destruct P as [[PE PI]|(PE & PC & PN)]; rewrite PE; clear PE; cbn [bind].
  2:{ right. split; [reflexivity|]. split; [exact PC|exact PN]. }
  set (fam := if product_cell cell then on_product (fd_family d) else fd_family d) in *.
  pose proof (cell_listed_allowed d cell F4) as CA.
  destruct (match match cell with Some (Named k) => Some (kind_name k) | _ => None end with
            | None => true | Some n => cell_listed n (fd_cells d) end); cbn [guard bind].
  2:{ left. split; [reflexivity|]. split; [|exact PI]. intros e (A & _). apply CA in A. discriminate A. }
  destruct (order_check (fd_range d) ord) as [[-> OA]|[-> ON]]; cbn [bind].
  2:{ left. split; [reflexivity|]. split; [|exact PI]. intros e (_ & A & _). exact (ON A). }
  assert (S : (exists sh, match fd_rank d with
                  | 2 => match option_map ucell_dim cell with None => Err ValueError | Some n => Ok [n; n] end
                  | 1 => match option_map ucell_dim cell with None => Err ValueError | Some n => Ok [n] end
                  | 0 => Ok []
                  | _ => Err ValueError
                  end = Ok sh /\ shape_of (fd_rank d) cell sh) \/
              (match fd_rank d with
                  | 2 => match option_map ucell_dim cell with None => Err ValueError | Some n => Ok [n; n] end
                  | 1 => match option_map ucell_dim cell with None => Err ValueError | Some n => Ok [n] end
                  | 0 => Ok []
                  | _ => Err ValueError
                  end = Err ValueError /\ forall sh, ~ shape_of (fd_rank d) cell sh)).
  { destruct (fd_rank d) as [|[|[|?]]]; [| | |lia]; destruct cell as [c|]; cbn [option_map shape_of repeat].
    - left. now exists [].
    - left. now exists [].
    - left. now exists [ucell_dim c].
    - right. split; [reflexivity|]. now intros sh [E _].
    - left. now exists [ucell_dim c; ucell_dim c].
    - right. split; [reflexivity|]. now intros sh [E _]. }
  destruct S as [(sh & -> & SH)|[-> SN]]; cbn [bind].
  2:{ left. split; [reflexivity|]. split; [|exact PI]. intros e (_ & _ & _ & _ & _ & A & _). exact (SN _ A). }
  split; [|exact PI].
  split; [now apply CA|]. split; [exact OA|]. cbn [ds_family ds_short ds_order ds_shape ds_space ds_mapping ds_embedded].
  do 3 (split; [reflexivity|]). split; [exact SH|]. do 2 (split; [reflexivity|]).
  assert (BF : substring_of "Guzman-Neilan" fam || substring_of "Bernardi-Raugel" fam = true <-> bubble_family fam).
  { unfold fam. destruct (product_cell cell); [exact (on_product_bubble _ F5)|exact F5]. }
  split; intros HB.
  - rewrite (proj2 BF HB). now destruct cell.
  - destruct (substring_of "Guzman-Neilan" fam || substring_of "Bernardi-Raugel" fam); [|reflexivity].
    exfalso. apply HB. now apply BF.
Qed.
