From Coq Require Import String List ZArith Bool Lia.
From Verif Require Import Model.Prelude Model.Registry Spec.Registry Proofs.Registry Proofs.Canonical.
Import ListNotations.
Open Scope string_scope.

Opaque builtins registered.

Lemma get_set {V} (d : list (string * V)) k v k' :
  dict_get String.eqb (dict_set String.eqb d k v) k' = if String.eqb k' k then Ok v else dict_get String.eqb d k'.
Proof.
  induction d as [|[a b] d IH]; cbn [dict_set dict_get].
  - destruct (String.eqb k' k); reflexivity.
  - destruct (String.eqb_spec k a) as [->|N]; cbn [dict_get].
    + destruct (String.eqb k' a); reflexivity.
    + destruct (String.eqb_spec k' a) as [->|N'].
      * destruct (String.eqb_spec a k) as [E|]; [now subst|reflexivity].
      * exact IH.
Qed.
Lemma mem_get {V} (d : list (string * V)) k v : dict_get String.eqb d k = Ok v -> dict_mem String.eqb d k = true.
Proof.
  induction d as [|[a b] d IH]; cbn [dict_get dict_mem]; [discriminate|].
  destruct (String.eqb k a); [reflexivity|exact IH].
Qed.

Lemma register_existing r f d s v sp m k cs : dict_get String.eqb (ufl_elements r) f = Ok d ->
  register_element r f s v sp m k cs = Err ValueError.
Proof. intros H. unfold register_element. rewrite (mem_get _ _ _ H). reflexivity. Qed.

Lemma register_element_get r f s v sp m k cs r' n : register_element r f s v sp m k cs = Ok r' ->
  dict_get String.eqb (ufl_elements r') n =
    (if match s with Some s => String.eqb n s | None => false end || String.eqb n f
     then Ok (mkFamily f s v sp m k cs) else dict_get String.eqb (ufl_elements r) n) /\
  aliases r' = aliases r /\ dict_mem String.eqb (ufl_elements r) f = false.
Proof.
  unfold register_element. destruct (dict_mem String.eqb (ufl_elements r) f); [discriminate|].
  intros H. injection H as <-. cbn [ufl_elements aliases]. split; [|split; reflexivity].
  destruct s as [s|]; rewrite ?get_set.
  - destruct (String.eqb n s); cbn [orb]; [reflexivity|]. destruct (String.eqb n f); reflexivity.
  - cbn [orb]. reflexivity.
Qed.

Lemma elements_kept calls : forall r r' n d, register_all r calls = Ok r' ->
  dict_get String.eqb (ufl_elements r) n = Ok d -> (forall c, In c calls -> ~ In n (short_names c)) ->
  dict_get String.eqb (ufl_elements r') n = Ok d.
Proof.
  induction calls as [|c calls IH]; intros r r' n d; cbn [register_all]; [now intros [= ->]|].
  destruct c as [f s v sp m k cs|a t]; cbn [register].
  - destruct (register_element r f s v sp m k cs) as [r1|e] eqn:E; cbn [bind]; [|discriminate].
    intros H G N. destruct (register_element_get r f s v sp m k cs r1 n E) as (G1 & _ & M).
    apply (IH r1 r' n d H); [|intros c I; apply N; right; exact I].
    rewrite G1.
    assert (N1 : match s with Some s => String.eqb n s | None => false end = false).
    { destruct s as [s|]; [|reflexivity]. apply String.eqb_neq. intros ->.
      apply (N (Element f (Some s) v sp m k cs)); [left; reflexivity|]. left. reflexivity. }
    rewrite N1. cbn [orb]. destruct (String.eqb_spec n f) as [->|]; [|exact G].
    rewrite (mem_get _ _ _ G) in M. discriminate M.
  - cbn [bind]. intros H G N. apply (IH _ r' n d H); [exact G|]. intros c I. apply N. right. exact I.
Qed.

Lemma elements_absent calls : forall r r' n, register_all r calls = Ok r' ->
  (forall c, In c calls -> ~ In n (names_of c)) ->
  dict_get String.eqb (ufl_elements r') n = dict_get String.eqb (ufl_elements r) n /\
  dict_get String.eqb (aliases r') n = dict_get String.eqb (aliases r) n.
Proof.
  induction calls as [|c calls IH]; intros r r' n; cbn [register_all]; [intros [= ->]; split; reflexivity|].
  intros H N. destruct (register r c) as [r1|e] eqn:E; cbn [bind] in H; [|discriminate H].
  assert (N' : forall c, In c calls -> ~ In n (names_of c)) by (intros c' I; apply N; right; exact I).
  destruct (IH r1 r' n H N') as [-> ->]. specialize (N c (or_introl eq_refl)).
  destruct c as [f s v sp m k cs|a t]; cbn [register] in E.
  - destruct (register_element_get r f s v sp m k cs r1 n E) as (-> & -> & _). split; [|reflexivity].
    cbn [names_of In] in N.
    destruct (String.eqb_spec n f) as [->|]; [exfalso; apply N; left; reflexivity|].
    destruct s as [s|]; [|reflexivity].
    destruct (String.eqb_spec n s) as [->|]; [exfalso; apply N; right; left; reflexivity|reflexivity].
  - injection E as <-. cbn [register_alias ufl_elements aliases]. split; [reflexivity|]. rewrite get_set.
    destruct (String.eqb_spec n a) as [->|]; [exfalso; apply N; left; reflexivity|reflexivity].
Qed.

(** The names in use after the import of the module. *)
Definition in_use (f : string) : bool := alias_name f || match get_entry f with Some _ => true | None => false end.

Lemma others_in_use : forallb (fun p => in_use (snd p)) other_names = true.
Proof. vm_compute. reflexivity. Qed.

Definition used_table (table : order -> order -> list (string * list (list (string * order)))) : Prop :=
  forall r p, Forall (fun e => Forall (fun row => Forall (fun x => in_use (fst x) = true) row) (snd e)) (table r p).
Lemma feec_used : used_table feec_table.
Proof.
  intros r p. unfold feec_table.
  repeat (apply Forall_cons; [cbn [snd fst]|]); try apply Forall_nil.
  all: repeat (apply Forall_cons; [cbn [snd fst]|]); try apply Forall_nil.
  all: repeat (apply Forall_cons; [cbn [snd fst]|]); try apply Forall_nil.
  all: vm_compute; reflexivity.
Qed.
Lemma feec_l2_used : used_table feec_table_l2.
Proof.
  intros r p. unfold feec_table_l2.
  repeat (apply Forall_cons; [cbn [snd fst]|]); try apply Forall_nil.
  all: repeat (apply Forall_cons; [cbn [snd fst]|]); try apply Forall_nil.
  all: repeat (apply Forall_cons; [cbn [snd fst]|]); try apply Forall_nil.
  all: vm_compute; reflexivity.
Qed.

Lemma feec_in_use table f tdim ord k f' o' : used_table table -> feec table f tdim ord k = Ok (f', o') -> in_use f' = true.
Proof.
  intros U. unfold feec. destruct (minus_one ord) as [p|e]; cbn [bind]; [|discriminate].
  destruct (dict_get String.eqb (table ord p) f) as [t|e] eqn:E; cbn [bind]; [|discriminate].
  unfold table_item. destruct tdim as [n|]; [|discriminate].
  destruct (py_item t (Z.of_nat n - 1)) as [row|e] eqn:R; cbn [bind]; [|discriminate].
  destruct k as [k|]; [|discriminate]. intros H. apply py_item_ok in H. apply py_item_ok in R. apply dict_get_in in E.
  pose proof (U ord p) as U'. rewrite Forall_forall in U'. specialize (U' _ E). cbn [snd] in U'.
  rewrite Forall_forall in U'. specialize (U' _ R). rewrite Forall_forall in U'. exact (U' _ H).
Qed.

Lemma resolve_same r : (forall f, in_use f = true -> dict_get String.eqb (aliases r) f = dict_get String.eqb (aliases builtins) f) ->
  forall fuel tdim f ord k, in_use f = true ->
  resolve r fuel tdim f ord k = resolve builtins fuel tdim f ord k /\
  forall f' o', resolve builtins fuel tdim f ord k = Some (Ok (f', o')) -> in_use f' = true.
Proof.
  intros A. induction fuel as [|fuel IH]; intros tdim f ord k U.
  { split; [reflexivity|]. intros f' o' H. discriminate H. }
  rewrite !resolve_S, (A f U). destruct (dict_get String.eqb (aliases builtins) f) as [t|e] eqn:E.
  2:{ split; [reflexivity|]. intros f' o' H. injection H as <- <-. exact U. }
  destruct tdim as [n|]; [|split; [reflexivity|intros f' o' H; discriminate H]].
  destruct (t f n ord k) as [[f1 o1]|e] eqn:T; [|split; [reflexivity|intros f' o' H; discriminate H]].
  apply IH. destruct (alias_kind f t E) as [(m & I & ->)|[[I ->]|[I ->]]].
  - unfold to_name in T. injection T as <- <-. pose proof others_in_use as O. rewrite forallb_forall in O. exact (O _ I).
  - exact (feec_in_use feec_table f (Some n) ord k f1 o1 feec_used T).
  - exact (feec_in_use feec_table_l2 f (Some n) ord k f1 o1 feec_l2_used T).
Qed.

Lemma catch_in_use tdim f ord k f' o' : catch_feec tdim f ord k = Ok (f', o') -> in_use f = true -> in_use f' = true.
Proof.
  unfold catch_feec. destruct k as [k|]; [|intros H U; injection H as <- <-; exact U].
  destruct (if String.eqb f "P" || String.eqb f "S" then feec_element f tdim ord (Some k) else Ok (f, ord))
    as [[f1 o1]|e] eqn:E; cbn [bind]; [|discriminate].
  intros H U.
  assert (U1 : in_use f1 = true).
  { destruct (String.eqb f "P" || String.eqb f "S").
    - exact (feec_in_use feec_table f tdim ord (Some k) f1 o1 feec_used E).
    - injection E as <- <-. exact U. }
  destruct (String.eqb f1 "P L2" || String.eqb f1 "S L2").
  - exact (feec_in_use feec_table_l2 f1 tdim o1 (Some k) f' o' feec_l2_used H).
  - injection H as <- <-. exact U1.
Qed.

Lemma canonical_kept calls r' : register_all builtins calls = Ok r' ->
  (forall c n, In c calls -> In n (names_of c) -> in_use n = false) ->
  forall fuel f cell ord k, in_use f = true ->
  canonical r' fuel f cell ord k = canonical builtins fuel f cell ord k.
Proof.
  intros H N fuel f cell ord k U.
  assert (L : forall f, in_use f = true ->
     dict_get String.eqb (ufl_elements r') f = dict_get String.eqb (ufl_elements builtins) f /\
     dict_get String.eqb (aliases r') f = dict_get String.eqb (aliases builtins) f).
  { intros g Ug. apply (elements_absent calls builtins r' g H). intros c Ic Ig. rewrite (N c g Ic Ig) in Ug. discriminate Ug. }
  unfold canonical. destruct (catch_feec (option_map ucell_dim cell) f ord k) as [[f1 o1]|e] eqn:C; [|reflexivity].
  pose proof (catch_in_use _ _ _ _ _ _ C U) as U1.
  destruct (resolve_same r' (fun g Ug => proj2 (L g Ug)) fuel (option_map ucell_dim cell) f1 o1 k U1) as [-> R].
  destruct (resolve builtins fuel (option_map ucell_dim cell) f1 o1 k) as [[[f2 o2]|e]|]; [|reflexivity|reflexivity].
  f_equal. unfold describe. rewrite (proj1 (L f2 (R f2 o2 eq_refl))). reflexivity.
Qed.

(** [in_use] in terms of the calls of the module. *)
Lemma in_use_iff f : in_use f = true <-> exists c, In c builtin_calls /\ In f (names_of c).
Proof.
  unfold in_use. rewrite orb_true_iff. split.
  - intros [A|A].
    + unfold alias_name in A. apply existsb_exists in A. destruct A as (s & I & E). apply String.eqb_eq in E. subst s.
      apply in_map_iff in I. destruct I as ([a t] & Ea & I). cbn [fst] in Ea. subst a.
      unfold alias_calls in I. apply in_flat_map in I. destruct I as (c & I & I2). exists c. split; [exact I|].
      destruct c as [f' s v sp m kr cs|a t']; [destruct I2|]. destruct I2 as [E|[]]. injection E as -> ->. left. reflexivity.
    + unfold get_entry in A. destruct (dict_get String.eqb (ufl_elements builtins) f) as [d|e] eqn:E; [|discriminate A].
      destruct (entry_known _ _ E) as [R Q]. exists (call_of d). split; [exact R|].
      destruct Q as [->|Q]; [left; reflexivity|]. cbn [call_of names_of]. rewrite <- Q. right. left. reflexivity.
  - intros (c & I & J). destruct c as [g s v sp m kr cs|a t].
    + right. unfold get_entry.
      assert (R : registered (mkFamily g s v sp m kr cs)) by exact I.
      destruct (registered_facts _ R) as (F1 & F2 & _). cbn [fd_family fd_short] in *.
      cbn [names_of In] in J. destruct J as [<-|J]; [rewrite F1; reflexivity|].
      destruct s as [s|]; [|destruct J]. destruct J as [<-|[]]. rewrite (proj1 (F2 s eq_refl)). reflexivity.
    + left. cbn [names_of In] in J. destruct J as [<-|[]]. unfold alias_name. apply existsb_exists. exists a.
      split; [|apply String.eqb_refl]. apply in_map_iff. exists (a, t). split; [reflexivity|].
      unfold alias_calls. apply in_flat_map. exists (Alias a t). split; [exact I|]. left. reflexivity.
Qed.

Lemma registration_keeps calls r' : register_all builtins calls = Ok r' ->
  (forall c c' n, In c calls -> In c' builtin_calls -> In n (names_of c) -> ~ In n (names_of c')) ->
  forall fuel f cell ord k c', In c' builtin_calls -> In f (names_of c') ->
  canonical r' fuel f cell ord k = canonical builtins fuel f cell ord k.
Proof.
  intros H N fuel f cell ord k c' I J.
  apply (canonical_kept calls r' H).
  - intros c n Ic In_. destruct (in_use n) eqn:E; [|reflexivity]. exfalso.
    apply in_use_iff in E. destruct E as (c2 & I2 & J2). exact (N c c2 n Ic I2 In_ J2).
  - apply in_use_iff. exists c'. split; assumption.
Qed.

Lemma canonical_terminates f cell ord k :
  exists res, forall fuel, 3 <= fuel -> canonical builtins fuel f cell ord k = Some res.
Proof.
  destruct (canonical_spec f cell ord k) as (res & H & _). exists res. intros fuel L.
  exact (canonical_more _ _ _ _ _ _ _ _ L H).
Qed.

Lemma canonical_family fuel f cell ord k e : canonical builtins fuel f cell ord k = Some (Ok e) ->
  exists d, registered d /\ fd_family d = ds_family e /\ (forall t, ~ In (Alias (ds_family e) t) builtin_calls) /\
    cell_allowed (fd_cells d) cell /\ order_allowed (fd_range d) (ds_order e) /\
    shape_of (fd_rank d) cell (ds_shape e) /\ ds_space e = fd_space d /\ ds_mapping e = fd_mapping d /\
    embedded_of (ds_family e) cell (ds_order e) (ds_embedded e).
Proof.
  intros H. destruct (canonical_ok _ _ _ _ _ _ H) as (d & R & D).
  destruct (described_again d cell _ e R D) as (d' & R' & F' & _ & D' & _).
  exists d'. split; [exact R'|]. split; [exact F'|].
  split. { intros t I. destruct (registered_facts d' R') as (_ & _ & A & _). rewrite F' in A.
    assert (A' : alias_name (ds_family e) = true); [|rewrite A in A'; discriminate A'].
    unfold alias_name. apply existsb_exists. exists (ds_family e). split; [|apply String.eqb_refl].
    apply in_map_iff. exists (ds_family e, t). split; [reflexivity|]. unfold alias_calls. apply in_flat_map.
    exists (Alias (ds_family e) t). split; [exact I|]. left. reflexivity. }
  destruct D' as (D1 & D2 & D3 & D4 & D5 & D6 & D7 & D8 & D9). cbn [retold ds_family ds_shape ds_space ds_mapping ds_embedded] in *.
  repeat (split; [assumption|]). assumption.
Qed.

Lemma canonical_accepts fuel d name cell ord k : registered d -> (name = fd_family d \/ Some name = fd_short d) ->
  k = None \/ name <> "S" -> 1 <= fuel ->
  (forall e, described d cell ord e -> (compared d cell -> is_int ord) ->
     canonical builtins fuel name cell ord k = Some (Ok e)) /\
  ((forall e, ~ described d cell ord e) -> (compared d cell -> is_int ord) ->
     canonical builtins fuel name cell ord k = Some (Err ValueError)) /\
  (compared d cell -> ~ is_int ord -> canonical builtins fuel name cell ord k = Some (Err TypeError)).
Proof.
  intros R N K L. destruct fuel as [|fuel]; [lia|].
  rewrite (canonical_names fuel d name cell ord k R N K). pose proof (describe_spec d name cell ord R N) as S.
  split; [|split].
  - intros e D C. f_equal. exact (describe_accepts d name cell ord e R N D C).
  - intros ND C. destruct (describe builtins cell name ord) as [e|x].
    + contradiction (ND e (proj1 S)).
    + destruct S as [(-> & _)|(_ & S1 & S2)]; [reflexivity|]. contradiction (S2 (C S1)).
  - intros C NI. destruct (describe builtins cell name ord) as [e|x].
    + contradiction (NI (proj2 S C)).
    + destruct S as [(_ & _ & S)|(-> & _)]; [|reflexivity]. contradiction (NI (S C)).
Qed.

Lemma canonical_errors fuel f cell ord k x : canonical builtins fuel f cell ord k = Some (Err x) ->
  x = ValueError \/
  (x = TypeError /\ ((In f feec_names /\ (~ is_int ord \/ cell = None \/ k = None)) \/
                     (product_cell cell = true /\ ~ is_int ord))) \/
  (x = IndexError /\ In f feec_names /\ exists c, cell = Some c /\
     (4 <= ucell_dim c \/ exists z, k = Some z /\ ~ (0 <= z <= Z.of_nat (ucell_dim c))%Z)).
Proof.
  intros H. destruct (canonical_spec f cell ord k) as (res & H3 & S).
  pose proof (canonical_more _ _ (max 3 fuel) _ _ _ _ _ (Nat.le_max_l _ _) H3) as M1.
  pose proof (canonical_more _ _ (max 3 fuel) _ _ _ _ _ (Nat.le_max_r _ _) H) as M2.
  rewrite M1 in M2. injection M2 as ->. destruct S as [->|[[I [[-> S]|[-> S]]]|(-> & P & Q)]].
  - left. reflexivity.
  - right. left. split; [reflexivity|]. left. split; [exact I|]. destruct S as [S|[S|S]]; auto.
    right. left. destruct cell; [discriminate S|reflexivity].
  - right. right. split; [reflexivity|]. split; [exact I|]. destruct S as (n & E & S).
    destruct cell as [c|]; [|discriminate E]. injection E as <-. exists c. split; [reflexivity|].
    destruct S as [S|(z & -> & S)]; [left; exact S|]. right. exists z. split; [reflexivity|].
    unfold row_width in S. destruct (Nat.eqb_spec (ucell_dim c) 0); lia.
  - right. left. split; [reflexivity|]. right. split; assumption.
Qed.

Lemma alias_shadows :
  (exists e, canonical (register_alias builtins "Lagrange" (to_name "DG")) 3 "Lagrange" (Some (Named Triangle)) (Order 1) None
             = Some (Ok e) /\ ds_family e = "Discontinuous Lagrange") /\
  (forall fuel, canonical (register_alias builtins "Lagrange" (to_name "Lagrange")) fuel "Lagrange" (Some (Named Triangle))
                  (Order 1) None = None).
Proof.
  split.
  - eexists. split; [vm_compute; reflexivity|]. reflexivity.
  - intros fuel. unfold canonical. cbn [catch_feec option_map].
    assert (H : resolve (register_alias builtins "Lagrange" (to_name "Lagrange")) fuel (Some (ucell_dim (Named Triangle)))
              "Lagrange" (Order 1) None = None).
    { induction fuel as [|fuel IH]; [reflexivity|]. rewrite resolve_S. unfold register_alias at 1. cbn [aliases].
      rewrite get_set. cbn [String.eqb Ascii.eqb Bool.eqb]. exact IH. }
    rewrite H. reflexivity.
Qed.
