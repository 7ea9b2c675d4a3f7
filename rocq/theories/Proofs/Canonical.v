From Coq Require Import String List ZArith Bool Lia.
From Verif Require Import Model.Prelude Model.Registry Spec.Registry Proofs.Registry.
Import ListNotations.
Open Scope string_scope.

Opaque builtins registered.

Lemma resolve_more r : forall fuel fuel' tdim f ord k x, fuel <= fuel' ->
  resolve r fuel tdim f ord k = Some x -> resolve r fuel' tdim f ord k = Some x.
Proof.
  induction fuel as [|fuel IH]; intros fuel' tdim f ord k x L; cbn [resolve]; [discriminate|].
  destruct fuel' as [|fuel']; [lia|]. cbn [resolve].
  destruct (dict_get String.eqb (aliases r) f) as [t|e]; [|trivial].
  destruct tdim as [n|]; [|trivial].
  destruct (t f n ord k) as [[f' o']|e]; [|trivial]. apply IH. lia.
Qed.

Lemma canonical_more r fuel fuel' f cell ord k x : fuel <= fuel' ->
  canonical r fuel f cell ord k = Some x -> canonical r fuel' f cell ord k = Some x.
Proof.
  intros L. unfold canonical.
  destruct (catch_feec (option_map ucell_dim cell) f ord k) as [[f' o']|e]; [|trivial].
  destruct (resolve r fuel (option_map ucell_dim cell) f' o' k) as [y|] eqn:E; [|discriminate].
  now rewrite (resolve_more r fuel fuel' _ _ _ _ y L E).
Qed.

Lemma resolved_not_alias r : forall fuel tdim f ord k f' o',
  resolve r fuel tdim f ord k = Some (Ok (f', o')) -> exists e, dict_get String.eqb (aliases r) f' = Err e.
Proof.
  induction fuel as [|fuel IH]; intros tdim f ord k f' o'; cbn [resolve]; [discriminate|].
  destruct (dict_get String.eqb (aliases r) f) as [t|e] eqn:E.
  - destruct tdim as [n|]; [|discriminate].
    destruct (t f n ord k) as [[f1 o1]|e]; [apply IH|discriminate].
  - intros H. injection H as <- <-. now exists e.
Qed.

(** The aliases. *)
Definition feec_aliases : list string := ["P- Lambda"; "P Lambda"; "Q- Lambda"; "S Lambda"; "P-"; "Q-"].
Definition feec_aliases_l2 : list string :=
  ["P- Lambda L2"; "P Lambda L2"; "Q- Lambda L2"; "S Lambda L2"; "P- L2"; "Q- L2"].

Lemma alias_kinds : Forall (fun a =>
    (exists m, In (fst a, m) other_names /\ snd a = to_name m) \/
    (In (fst a) feec_aliases /\ snd a = to_feec) \/ (In (fst a) feec_aliases_l2 /\ snd a = to_feec_l2)) alias_calls.
Proof.
  unfold alias_calls, builtin_calls. cbn [flat_map app].
  repeat (apply Forall_cons; [cbn [fst snd]|]); [..|apply Forall_nil].
  all: first [ left; eexists; split; [unfold other_names; repeat (first [left; reflexivity | right])|reflexivity]
             | right; left; split; [unfold feec_aliases; repeat (first [left; reflexivity | right])|reflexivity]
             | right; right; split; [unfold feec_aliases_l2; repeat (first [left; reflexivity | right])|reflexivity] ].
Qed.

Lemma alias_kind f t : dict_get String.eqb (aliases builtins) f = Ok t ->
    (exists m, In (f, m) other_names /\ t = to_name m) \/
    (In f feec_aliases /\ t = to_feec) \/ (In f feec_aliases_l2 /\ t = to_feec_l2).
Proof.
  rewrite builtin_aliases. intros H. apply dict_get_in in H.
  pose proof alias_kinds as A. rewrite Forall_forall in A. exact (A _ H).
Qed.

Lemma plain_targets : forallb (fun p => negb (alias_name (snd p))) other_names = true.
Proof. vm_compute. reflexivity. Qed.
Lemma plain_target f m : In (f, m) other_names -> alias_name m = false.
Proof.
  intros H. pose proof plain_targets as A. rewrite forallb_forall in A. apply negb_true_iff. exact (A _ H).
Qed.

Lemma resolve_S r fuel tdim f ord k : resolve r (S fuel) tdim f ord k =
  match dict_get String.eqb (aliases r) f with
  | Err _ => Some (Ok (f, ord))
  | Ok to =>
      match tdim with
      | None => Some (Err ValueError)
      | Some n =>
          match to f n ord k with
          | Err e => Some (Err e)
          | Ok (f', o') => resolve r fuel tdim f' o' k
          end
      end
  end.
Proof. reflexivity. Qed.

Lemma resolve_plain fuel tdim f ord k : alias_name f = false ->
  resolve builtins (S fuel) tdim f ord k = Some (Ok (f, ord)).
Proof. intros H. apply alias_name_get in H. destruct H as [x H]. cbn [resolve]. now rewrite H. Qed.

(** The name a name stands for, by the list of second names. *)
Definition stands_for (f : string) : string :=
  match find (fun p => String.eqb f (fst p)) other_names with Some p => snd p | None => f end.

Lemma others_get : Forall (fun p => dict_get String.eqb (aliases builtins) (fst p) = Ok (to_name (snd p))) other_names.
Proof. rewrite builtin_aliases. unfold other_names. repeat (apply Forall_cons; [reflexivity|]). apply Forall_nil. Qed.
Lemma other_get f m : In (f, m) other_names -> dict_get String.eqb (aliases builtins) f = Ok (to_name m).
Proof. intros H. pose proof others_get as A. rewrite Forall_forall in A. exact (A _ H). Qed.

Lemma resolve_other fuel n f m ord k : In (f, m) other_names ->
  resolve builtins (S (S fuel)) (Some n) f ord k = Some (Ok (m, ord)).
Proof.
  intros H. rewrite resolve_S, (other_get _ _ H). unfold to_name. apply resolve_plain. exact (plain_target _ _ H).
Qed.
Lemma resolve_other_none fuel f m ord k : In (f, m) other_names ->
  resolve builtins (S fuel) None f ord k = Some (Err ValueError).
Proof. intros H. cbn [resolve]. now rewrite (other_get _ _ H). Qed.

Lemma find_in f p : find (fun p => String.eqb f (fst p)) other_names = Some p -> In (f, snd p) other_names.
Proof.
  intros H. destruct (find_some _ _ H) as [I E]. apply String.eqb_eq in E. subst f. now destruct p.
Qed.

(** A name that is an alias only through the list of second names. *)
Definition direct (f : string) : bool :=
  negb (alias_name f) || existsb (fun p => String.eqb f (fst p)) other_names.
Lemma resolve_direct fuel n f ord k : direct f = true ->
  resolve builtins (S (S fuel)) (Some n) f ord k = Some (Ok (stands_for f, ord)).
Proof.
  intros D. unfold stands_for. destruct (find (fun p => String.eqb f (fst p)) other_names) as [p|] eqn:E.
  - exact (resolve_other fuel n f _ ord k (find_in _ _ E)).
  - apply resolve_plain. unfold direct in D. apply orb_prop in D. destruct D as [D|D]; [now apply negb_true_iff|].
    apply existsb_exists in D. destruct D as (p & I & Ep). exfalso.
    pose proof (find_none _ _ E p I) as N. cbv beta in N. rewrite Ep in N. discriminate N.
Qed.

(** The FEEC tables. *)
Definition good_table (table : order -> order -> list (string * list (list (string * order)))) : Prop :=
  forall r p, Forall (fun e => Forall (fun row => Forall (fun x => direct (fst x) = true) row) (snd e)) (table r p) /\
    Forall (fun e => map (@length _) (snd e) = [2; 3; 4]) (table r p) /\
    Forall (fun e => Forall (fun row => Forall (fun x => snd x = r \/ snd x = p) row) (snd e)) (table r p).

Lemma feec_good : good_table feec_table.
Proof.
  intros r p. unfold feec_table.
  split; [|split]; repeat (apply Forall_cons; [cbn [snd fst]|]); try apply Forall_nil; try reflexivity.
  all: repeat (apply Forall_cons; [cbn [snd fst]|]); try apply Forall_nil.
  all: repeat (apply Forall_cons; [cbn [snd fst]|]); try apply Forall_nil.
  all: first [left; reflexivity | right; reflexivity | vm_compute; reflexivity].
Qed.
Lemma feec_l2_good : good_table feec_table_l2.
Proof.
  intros r p. unfold feec_table_l2.
  split; [|split]; repeat (apply Forall_cons; [cbn [snd fst]|]); try apply Forall_nil; try reflexivity.
  all: repeat (apply Forall_cons; [cbn [snd fst]|]); try apply Forall_nil.
  all: repeat (apply Forall_cons; [cbn [snd fst]|]); try apply Forall_nil.
  all: first [left; reflexivity | right; reflexivity | vm_compute; reflexivity].
Qed.

Lemma py_item_ok {A} (l : list A) i x : py_item l i = Ok x -> In x l.
Proof.
  unfold py_item. destruct (_ && _)%Z; [|discriminate].
  destruct (nth_error l _) eqn:E; [|discriminate]. intros H. injection H as ->. now apply nth_error_In in E.
Qed.
Lemma py_item_err {A} (l : list A) i e : py_item l i = Err e ->
  e = IndexError /\ (i < - Z.of_nat (length l) \/ Z.of_nat (length l) <= i)%Z.
Proof.
  unfold py_item. set (n := Z.of_nat (length l)).
  assert (N : (0 <= n)%Z) by (unfold n; lia).
  destruct (i <? 0)%Z eqn:E0.
  - destruct ((0 <=? i + n) && (i + n <? n))%Z eqn:E.
    + apply andb_prop in E. destruct E as [E1 E2]. apply Z.leb_le in E1. apply Z.ltb_lt in E2.
      destruct (nth_error l (Z.to_nat (i + n))) eqn:K; [discriminate|].
      apply nth_error_None in K. exfalso. unfold n in *. lia.
    + intros H. injection H as <-. split; [reflexivity|]. apply andb_false_iff in E. lia.
  - destruct ((0 <=? i) && (i <? n))%Z eqn:E.
    + apply andb_prop in E. destruct E as [E1 E2]. apply Z.leb_le in E1. apply Z.ltb_lt in E2.
      destruct (nth_error l (Z.to_nat i)) eqn:K; [discriminate|].
      apply nth_error_None in K. exfalso. unfold n in *. lia.
    + intros H. injection H as <-. split; [reflexivity|]. apply andb_false_iff in E. lia.
Qed.
Lemma py_item_nth {A} (l : list A) i x : py_item l i = Ok x ->
  nth_error l (Z.to_nat (if i <? 0 then i + Z.of_nat (length l) else i))%Z = Some x.
Proof.
  unfold py_item. destruct (_ && _)%Z; [|discriminate].
  destruct (nth_error l _) eqn:E; [|discriminate]. now intros [= ->].
Qed.

Definition row_width (n : nat) : nat := if Nat.eqb n 0 then 4 else n + 1.

Lemma table_facts table f r p t : good_table table -> dict_get String.eqb (table r p) f = Ok t ->
  (forall row, In row t -> Forall (fun x => direct (fst x) = true /\ (snd x = r \/ snd x = p)) row) /\
  map (@length _) t = [2; 3; 4].
Proof.
  intros G H. destruct (G r p) as (G1 & G2 & G3). apply dict_get_in in H.
  rewrite Forall_forall in G1, G2, G3. specialize (G1 _ H). specialize (G2 _ H). specialize (G3 _ H).
  cbn [snd] in *. split; [|exact G2]. intros row I. rewrite Forall_forall in G1, G3.
  specialize (G1 _ I). specialize (G3 _ I). rewrite Forall_forall in *. intros x Ix. split; auto.
Qed.

Lemma table_item_spec table f r p t n k : good_table table -> dict_get String.eqb (table r p) f = Ok t ->
  match table_item t n k with
  | Ok (f', o') => direct f' = true /\ (o' = r \/ o' = p) /\ exists n', n = Some n'
  | Err TypeError => n = None \/ k = None
  | Err IndexError => exists n', n = Some n' /\ (4 <= n' \/ exists z, k = Some z /\
       (z < - Z.of_nat (row_width n') \/ Z.of_nat (row_width n') <= z)%Z)
  | Err _ => False
  end.
Proof.
  intros G H. destruct (table_facts table f r p t G H) as [T W].
  destruct n as [n|]; cbn [table_item]; [|now left].
  assert (L : length t = 3) by (rewrite <- (map_length (@length (string * order)) t), W; reflexivity).
  destruct (py_item t (Z.of_nat n - 1)) as [row|e] eqn:R; cbn [bind].
  2:{ destruct (py_item_err _ _ _ R) as [-> K]. exists n. split; [reflexivity|]. left. rewrite L in K. lia. }
  destruct k as [k|]; [|now right].
  destruct (py_item row k) as [[f' o']|e] eqn:K.
  - pose proof (py_item_ok _ _ _ R) as IR. pose proof (py_item_ok _ _ _ K) as IK.
    pose proof (proj1 (Forall_forall _ _) (T row IR) _ IK) as [D1 D2]. cbn [fst snd] in *.
    split; [exact D1|]. split; [exact D2|]. now exists n.
  - destruct (py_item_err _ _ _ K) as [-> J]. exists n. split; [reflexivity|].
    destruct (Nat.le_gt_cases 4 n) as [?|Hn]; [now left|]. right. exists k. split; [reflexivity|].
    assert (LR : length row = row_width n).
    { apply py_item_nth in R. rewrite L in R.
      destruct t as [|t0 [|t1 [|t2 [|]]]]; try discriminate L. injection W as W0 W1 W2.
      destruct n as [|[|[|[|n]]]]; [..|lia]; cbn in R; injection R as <-; assumption. }
    now rewrite LR in J.
Qed.

Definition feec_error (tdim : option nat) (ord : order) (k : option Z) (e : exn) : Prop :=
  (e = TypeError /\ (~ is_int ord \/ tdim = None \/ k = None)) \/
  (e = IndexError /\ exists n, tdim = Some n /\ (4 <= n \/ exists z, k = Some z /\
       (z < - Z.of_nat (row_width n) \/ Z.of_nat (row_width n) <= z)%Z)).

Lemma feec_spec table f tdim ord k : good_table table ->
  (forall r p, exists t, dict_get String.eqb (table r p) f = Ok t) ->
  match feec table f tdim ord k with
  | Ok (f', o') => direct f' = true /\ is_int ord /\ is_int o' /\ exists n, tdim = Some n
  | Err e => feec_error tdim ord k e
  end.
Proof.
  intros G H. unfold feec. destruct ord as [|z|l]; cbn [minus_one bind].
  1,3: left; split; [reflexivity|]; left; intros [z E]; discriminate E.
  destruct (H (Order z) (Order (z - 1))) as [t E]. rewrite E. cbn [bind].
  pose proof (table_item_spec table f _ _ t tdim k G E) as S.
  destruct (table_item t tdim k) as [[f' o']|e].
  - destruct S as (S1 & S2 & S3). split; [exact S1|]. split; [now exists z|]. split; [|exact S3].
    destruct S2 as [->| ->]; [now exists z|now exists (z - 1)%Z].
  - destruct e; try contradiction S.
    + left. split; [reflexivity|]. right. exact S.
    + right. split; [reflexivity|]. exact S.
Qed.

Lemma feec_defined f : In f feec_aliases \/ f = "P" \/ f = "S" ->
  forall r p, exists t, dict_get String.eqb (feec_table r p) f = Ok t.
Proof.
  intros H r p. assert (I : In f (feec_aliases ++ ["P"; "S"])) by (apply in_or_app; cbn; intuition auto).
  unfold feec_aliases in I. cbn [app In] in I.
  repeat (destruct I as [<-|I]; [eexists; reflexivity|]). destruct I.
Qed.
Lemma feec_l2_defined f : In f feec_aliases_l2 \/ f = "P L2" \/ f = "S L2" ->
  forall r p, exists t, dict_get String.eqb (feec_table_l2 r p) f = Ok t.
Proof.
  intros H r p. assert (I : In f (feec_aliases_l2 ++ ["P L2"; "S L2"])) by (apply in_or_app; cbn; intuition auto).
  unfold feec_aliases_l2 in I. cbn [app In] in I.
  repeat (destruct I as [<-|I]; [eexists; reflexivity|]). destruct I.
Qed.

Lemma resolve_spec tdim f ord k :
  exists res, resolve builtins 3 tdim f ord k = Some res /\
    match res with
    | Ok (f', o') => alias_name f' = false /\ (is_int ord -> is_int o') /\ (o' = ord \/ is_int o')
    | Err e => e = ValueError \/ (In f (feec_aliases ++ feec_aliases_l2) /\ feec_error tdim ord k e)
    end.
Proof.
  assert (N : forall f' o', resolve builtins 3 tdim f ord k = Some (Ok (f', o')) -> alias_name f' = false).
  { intros f' o' H. apply alias_name_get. exact (resolved_not_alias _ _ _ _ _ _ _ _ H). }
  destruct (dict_get String.eqb (aliases builtins) f) as [t|e] eqn:E.
  2:{ assert (A : alias_name f = false) by (apply alias_name_get; now exists e).
      exists (Ok (f, ord)). split; [exact (resolve_plain 2 tdim f ord k A)|]. split; [exact A|]. split; [trivial|now left]. }
  destruct tdim as [n|].
  2:{ exists (Err ValueError). split; [rewrite resolve_S, E; reflexivity|now left]. }
  destruct (alias_kind f t E) as [(m & I & ->)|H].
  { exists (Ok (m, ord)). split; [exact (resolve_other 1 n f m ord k I)|]. split; [exact (plain_target _ _ I)|].
    split; [trivial|now left]. }
  assert (H' : exists table, good_table table /\ In f (feec_aliases ++ feec_aliases_l2) /\
             (forall r p, exists t, dict_get String.eqb (table r p) f = Ok t) /\
             t f n ord k = feec table f (Some n) ord k).
  { destruct H as [[I ->]|[I ->]].
    - exists feec_table. split; [exact feec_good|]. split; [apply in_or_app; now left|].
      split; [exact (feec_defined f (or_introl I))|reflexivity].
    - exists feec_table_l2. split; [exact feec_l2_good|]. split; [apply in_or_app; now right|].
      split; [exact (feec_l2_defined f (or_introl I))|reflexivity]. }
  destruct H' as (table & G & I & D & Et). pose proof (feec_spec table f (Some n) ord k G D) as S.
  destruct (feec table f (Some n) ord k) as [[f1 o1]|e] eqn:F.
  - destruct S as (S1 & S2 & S3 & S4).
    exists (Ok (stands_for f1, o1)).
    assert (R : resolve builtins 3 (Some n) f ord k = Some (Ok (stands_for f1, o1))).
    { rewrite resolve_S, E, Et. exact (resolve_direct 0 n f1 o1 k S1). }
    split; [exact R|]. split; [exact (N _ _ R)|]. split; [trivial|now right].
  - exists (Err e). split; [rewrite resolve_S, E, Et; reflexivity|]. right. split; [exact I|exact S].
Qed.

Lemma feec_names_aliases f : In f (feec_aliases ++ feec_aliases_l2) -> In f feec_names.
Proof. unfold feec_aliases, feec_aliases_l2. intros H. cbn in H. cbn. intuition (subst; auto 20). Qed.

Lemma catch_spec tdim f ord k :
  match catch_feec tdim f ord k with
  | Ok (f', o') => (is_int ord -> is_int o') /\ (o' = ord \/ is_int o') /\ ((f' = f /\ o' = ord) \/ In f feec_names)
  | Err e => In f feec_names /\ feec_error tdim ord k e
  end.
Proof.
  unfold catch_feec. destruct k as [k|]; [|split; [trivial|]; split; [now left|now left]].
  destruct (String.eqb f "P" || String.eqb f "S") eqn:E.
  - assert (D : f = "P" \/ f = "S") by (apply orb_prop in E; destruct E as [E|E]; apply String.eqb_eq in E; auto).
    assert (IN : In f feec_names) by (destruct D as [->| ->]; cbn; auto 20).
    pose proof (feec_spec feec_table f tdim ord (Some k) feec_good (feec_defined f (or_intror D))) as S.
    unfold feec_element. destruct (feec feec_table f tdim ord (Some k)) as [[f1 o1]|e] eqn:F; cbn [bind]; [|split; [exact IN|exact S]].
    destruct S as (S1 & S2 & S3 & S4).
    destruct (String.eqb f1 "P L2" || String.eqb f1 "S L2") eqn:E2.
    2:{ split; [trivial|]. split; [now right|now right]. }
    assert (D2 : f1 = "P L2" \/ f1 = "S L2") by (apply orb_prop in E2; destruct E2 as [E2|E2]; apply String.eqb_eq in E2; auto).
    pose proof (feec_spec feec_table_l2 f1 tdim o1 (Some k) feec_l2_good (feec_l2_defined f1 (or_intror D2))) as S'.
    unfold feec_element_l2. destruct (feec feec_table_l2 f1 tdim o1 (Some k)) as [[f2 o2]|e].
    + destruct S' as (S1' & S2' & S3' & S4'). split; [trivial|]. split; [now right|now right].
    + split; [exact IN|]. destruct S' as [[-> [B|[B|B]]]|B].
      * contradiction.
      * left. auto.
      * left. auto.
      * now right.
  - cbn [bind].
    destruct (String.eqb f "P L2" || String.eqb f "S L2") eqn:E2.
    2:{ split; [trivial|]. split; [now left|now left]. }
    assert (D2 : f = "P L2" \/ f = "S L2") by (apply orb_prop in E2; destruct E2 as [E2|E2]; apply String.eqb_eq in E2; auto).
    assert (IN : In f feec_names) by (destruct D2 as [->| ->]; cbn; auto 20).
    pose proof (feec_spec feec_table_l2 f tdim ord (Some k) feec_l2_good (feec_l2_defined f (or_intror D2))) as S.
    unfold feec_element_l2. destruct (feec feec_table_l2 f tdim ord (Some k)) as [[f1 o1]|e]; [|split; [exact IN|exact S]].
    destruct S as (S1 & S2 & S3 & S4). split; [trivial|]. split; [now right|now right].
Qed.

Lemma describe_known name cell ord :
  match describe builtins cell name ord with
  | Ok e => exists d, registered d /\ (name = fd_family d \/ Some name = fd_short d) /\ described d cell ord e
  | Err x => x = ValueError \/ (x = TypeError /\ product_cell cell = true /\ ~ is_int ord)
  end.
Proof.
  destruct (dict_get String.eqb (ufl_elements builtins) name) as [d|x] eqn:E.
  - destruct (entry_known name d E) as [R N]. pose proof (describe_spec d name cell ord R N) as S.
    destruct (describe builtins cell name ord) as [e|x].
    + exists d. split; [exact R|]. split; [exact N|exact (proj1 S)].
    + destruct S as [[-> _]|(-> & [P _] & Q)]; [left; reflexivity|right].
      split; [reflexivity|]. split; [exact P|exact Q].
  - unfold describe. rewrite E. now left.
Qed.

Lemma canonical_spec f cell ord k :
  exists res, canonical builtins 3 f cell ord k = Some res /\
    match res with
    | Ok e => exists d, registered d /\ described d cell (ds_order e) e /\ (is_int ord -> is_int (ds_order e))
    | Err x => x = ValueError \/ (In f feec_names /\ feec_error (option_map ucell_dim cell) ord k x) \/
               (x = TypeError /\ product_cell cell = true /\ ~ is_int ord)
    end.
Proof.
  unfold canonical. pose proof (catch_spec (option_map ucell_dim cell) f ord k) as C.
  destruct (catch_feec (option_map ucell_dim cell) f ord k) as [[f1 o1]|e].
  2:{ exists (Err e). split; [reflexivity|]. right. left. exact C. }
  destruct C as (C1 & C2 & C3).
  destruct (resolve_spec (option_map ucell_dim cell) f1 o1 k) as (res & -> & S).
  destruct res as [[f2 o2]|e].
  2:{ exists (Err e). split; [reflexivity|]. destruct S as [->|[I S]]; [now left|]. right. left.
      destruct C3 as [[-> ->]|C3]; [split; [exact (feec_names_aliases _ I)|exact S]|].
      split; [exact C3|]. destruct S as [[-> [B|B]]|B].
      - left. split; [reflexivity|]. left. intros H. exact (B (C1 H)).
      - left. split; [reflexivity|]. now right.
      - now right. }
  destruct S as (S1 & S2 & S3). exists (describe builtins cell f2 o2). split; [reflexivity|].
  pose proof (describe_known f2 cell o2) as K. destruct (describe builtins cell f2 o2) as [e|x].
  - destruct K as (d & R & _ & K). exists d. split; [exact R|].
    assert (E : ds_order e = o2) by (destruct K as (_ & _ & _ & _ & E & _); exact E).
    rewrite E. split; [exact K|auto].
  - destruct K as [->|(-> & P & Q)]; [now left|]. right. right. split; [reflexivity|]. split; [exact P|]. auto.
Qed.

(** Idempotence. *)
Definition retold (d : family_data) (e : description) : description :=
  mkDescription (ds_family e) (fd_short d) (ds_order e) (ds_shape e) (ds_space e) (ds_mapping e) (ds_embedded e).

Lemma described_again_as d f f' d' cell ord e : registered d -> described d cell ord e ->
  product_cell cell = true -> fd_family d = f -> on_product f = f' -> on_product f' = f' ->
  dict_get String.eqb (ufl_elements builtins) f' = Ok d' -> fd_family d' = f' ->
  ~ In f' ["Discontinuous Lagrange"; "Discontinuous Lagrange L2"] ->
  fd_range d = fd_range d' -> fd_rank d = fd_rank d' -> fd_space d = fd_space d' -> fd_mapping d = fd_mapping d' ->
  cell_allowed (fd_cells d') cell ->
  registered d' /\ fd_family d' = ds_family e /\ ~ compared d' cell /\ described d' cell ord (retold d' e).
Proof.
  intros R D P Ef Ef' Eff G Ed N E1 E2 E3 E4 C. split; [exact (proj1 (entry_known _ _ G))|].
  destruct D as (D1 & D2 & D3 & D4 & D5 & D6 & D7 & D8 & D9). rewrite P, Ef, Ef' in D3.
  split; [congruence|]. split; [intros [_ I]; rewrite Ed in I; exact (N I)|].
  unfold described, retold. cbn [ds_family ds_short ds_order ds_shape ds_space ds_mapping ds_embedded].
  split; [exact C|]. split; [rewrite <- E1; exact D2|]. split; [rewrite P, Ed, Eff; exact D3|].
  split; [reflexivity|]. split; [exact D5|]. split; [rewrite <- E2; exact D6|].
  split; [rewrite <- E3; exact D7|]. split; [rewrite <- E4; exact D8|exact D9].
Qed.

Definition entry (n : string) : family_data :=
  match dict_get String.eqb (ufl_elements builtins) n with
  | Ok d => d | Err _ => mkFamily "" None 0 L2 "" None (Text "")
  end.
Lemma entry_lagrange : entry "Lagrange" = mkFamily "Lagrange" (Some "CG") 0 H1 "identity" (Some (Some 1, None)%Z) (Names any_cell).
Proof. vm_compute. reflexivity. Qed.
Lemma entry_q : dict_get String.eqb (ufl_elements builtins) "Q" =
  Ok (mkFamily "Q" None 0 H1 "identity" (Some (Some 1, None)%Z) (Names (map Some cubes))).
Proof. vm_compute. reflexivity. Qed.
Lemma entry_dg : entry "Discontinuous Lagrange" =
  mkFamily "Discontinuous Lagrange" (Some "DG") 0 L2 "identity" (Some (Some 0, None)%Z) (Names any_cell).
Proof. vm_compute. reflexivity. Qed.
Lemma entry_dq : dict_get String.eqb (ufl_elements builtins) "DQ" =
  Ok (mkFamily "DQ" None 0 L2 "identity" (Some (Some 0, None)%Z) (Names (map Some cubes))).
Proof. vm_compute. reflexivity. Qed.
Lemma entry_dg_l2 : entry "Discontinuous Lagrange L2" =
  mkFamily "Discontinuous Lagrange L2" (Some "DG L2") 0 L2 "L2 Piola" (Some (Some 0, None)%Z) (Names any_cell).
Proof. vm_compute. reflexivity. Qed.
Lemma entry_dq_l2 : dict_get String.eqb (ufl_elements builtins) "DQ L2" =
  Ok (mkFamily "DQ L2" None 0 L2 "L2 Piola" (Some (Some 0, None)%Z) (Names (map Some cubes))).
Proof. vm_compute. reflexivity. Qed.
Lemma entry_registered d : registered d -> entry (fd_family d) = d.
Proof. intros R. destruct (registered_facts d R) as (F & _). unfold entry. rewrite F. reflexivity. Qed.

Lemma cubes_allowed cell : product_cell cell = true -> cell_allowed (Names (map Some cubes)) cell.
Proof. destruct cell as [[[]|]|]; cbn; try discriminate; auto 10. Qed.

Lemma described_again d cell ord e : registered d -> described d cell ord e ->
  exists d', registered d' /\ fd_family d' = ds_family e /\ ~ compared d' cell /\
    described d' cell ord (retold d' e) /\
    ((product_cell cell = true -> on_product (fd_family d) = fd_family d) -> fd_short d' = ds_short e).
Proof.
  intros R D. destruct (product_cell cell) eqn:P.
  2:{ exists d. destruct D as (D1 & D2 & D3 & D4 & D5 & D6 & D7 & D8 & D9). rewrite P in D3.
      split; [exact R|]. split; [symmetry; exact D3|]. split; [intros [K _]; rewrite P in K; discriminate K|].
      split; [|intros _; symmetry; exact D4].
      unfold described, retold. cbn [ds_family ds_short ds_order ds_shape ds_space ds_mapping ds_embedded].
      rewrite P. split; [exact D1|]. split; [exact D2|]. split; [exact D3|]. split; [reflexivity|].
      split; [exact D5|]. split; [exact D6|]. split; [exact D7|]. split; [exact D8|exact D9]. }
  pose proof (entry_registered d R) as ER. pose proof (cubes_allowed cell P) as CA.
  unfold on_product.
  destruct (String.eqb_spec (fd_family d) "Lagrange") as [E|N0].
  { rewrite E, entry_lagrange in ER. eexists.
    pose proof (described_again_as d "Lagrange" "Q" _ cell ord e R D P E eq_refl eq_refl entry_q eq_refl) as K.
    destruct K as (K1 & K2 & K3 & K4); try (subst d; reflexivity); [cbn; intuition discriminate|exact CA|].
    split; [exact K1|]. split; [exact K2|]. split; [exact K3|]. split; [exact K4|].
    intros A. specialize (A eq_refl). rewrite E in A. discriminate A. }
  destruct (String.eqb_spec (fd_family d) "Discontinuous Lagrange") as [E|N1].
  { rewrite E, entry_dg in ER. eexists.
    pose proof (described_again_as d "Discontinuous Lagrange" "DQ" _ cell ord e R D P E eq_refl eq_refl entry_dq eq_refl) as K.
    destruct K as (K1 & K2 & K3 & K4); try (subst d; reflexivity); [cbn; intuition discriminate|exact CA|].
    split; [exact K1|]. split; [exact K2|]. split; [exact K3|]. split; [exact K4|].
    intros A. specialize (A eq_refl). rewrite E in A. discriminate A. }
  destruct (String.eqb_spec (fd_family d) "Discontinuous Lagrange L2") as [E|N2].
  { rewrite E, entry_dg_l2 in ER. eexists.
    pose proof (described_again_as d "Discontinuous Lagrange L2" "DQ L2" _ cell ord e R D P E eq_refl eq_refl entry_dq_l2 eq_refl) as K.
    destruct K as (K1 & K2 & K3 & K4); try (subst d; reflexivity); [cbn; intuition discriminate|exact CA|].
    split; [exact K1|]. split; [exact K2|]. split; [exact K3|]. split; [exact K4|].
    intros A. specialize (A eq_refl). rewrite E in A. discriminate A. }
  assert (OP : on_product (fd_family d) = fd_family d).
  { unfold on_product. apply String.eqb_neq in N0, N1, N2. rewrite N0, N1, N2. reflexivity. }
  exists d. assert (D' := D). destruct D' as (D1 & D2 & D3 & D4 & D5 & D6 & D7 & D8 & D9). rewrite P, OP in D3.
  split; [exact R|]. split; [symmetry; exact D3|].
  split. { intros [_ [K|[K|[]]]]; [apply N1|apply N2]; symmetry; exact K. }
  split; [|intros _; symmetry; exact D4].
  unfold described, retold. cbn [ds_family ds_short ds_order ds_shape ds_space ds_mapping ds_embedded].
  rewrite P, OP. split; [exact D1|]. split; [exact D2|]. split; [exact D3|]. split; [reflexivity|].
  split; [exact D5|]. split; [exact D6|]. split; [exact D7|]. split; [exact D8|exact D9].
Qed.

Lemma described_unique d cell ord e e' : described d cell ord e -> described d cell ord e' -> e = e'.
Proof.
  intros (_ & _ & A3 & A4 & A5 & A6 & A7 & A8 & A9) (_ & _ & B3 & B4 & B5 & B6 & B7 & B8 & B9).
  destruct e as [f s o sh sp m em], e' as [f' s' o' sh' sp' m' em'].
  cbn [ds_family ds_short ds_order ds_shape ds_space ds_mapping ds_embedded] in *.
  assert (Ef : f = f') by congruence. assert (s = s') by congruence. assert (o = o') by congruence.
  assert (sp = sp') by congruence. assert (m = m') by congruence.
  assert (sh = sh').
  { destruct cell as [c|]; cbn [shape_of] in A6, B6; [congruence|]. destruct A6, B6. congruence. }
  assert (em = em').
  { rewrite <- Ef in B9. destruct A9 as [A9 A9'], B9 as [B9 B9'].
    destruct (in_dec string_dec f ["Bernardi-Raugel"; "Bernardi-Raugel Bubble"; "Guzman-Neilan 1st kind H1";
             "Guzman-Neilan 2nd kind H1"; "Guzman-Neilan H1(div)"; "Guzman-Neilan Bubble"]) as [H'|H'].
    - rewrite (A9 H'), (B9 H'). reflexivity.
    - rewrite (A9' H'), (B9' H'). reflexivity. }
  congruence.
Qed.

Lemma describe_accepts d name cell ord e : registered d -> (name = fd_family d \/ Some name = fd_short d) ->
  described d cell ord e -> (compared d cell -> is_int ord) -> describe builtins cell name ord = Ok e.
Proof.
  intros R N D C. pose proof (describe_spec d name cell ord R N) as S.
  destruct (describe builtins cell name ord) as [e'|x].
  - destruct S as [S _]. f_equal. exact (described_unique _ _ _ _ _ S D).
  - destruct S as [(_ & S & _)|(_ & S1 & S2)]; exfalso; [exact (S e D)|exact (S2 (C S1))].
Qed.

Lemma canonical_names fuel d name cell ord k : registered d -> (name = fd_family d \/ Some name = fd_short d) ->
  k = None \/ name <> "S" ->
  canonical builtins (S fuel) name cell ord k = Some (describe builtins cell name ord).
Proof.
  intros R N K. destruct (registered_facts d R) as (_ & F2 & F3 & F4 & _).
  assert (A : alias_name name = false /\ (feec_name name = true -> name = "S")).
  { destruct N as [->|E]; [split; assumption|]. symmetry in E. destruct (F2 name E) as (_ & A & B).
    split; [exact A|]. rewrite B. discriminate. }
  destruct A as [A B].
  assert (C : catch_feec (option_map ucell_dim cell) name ord k = Ok (name, ord)).
  { unfold catch_feec. destruct k as [k|]; [|reflexivity].
    assert (Q : forall s, In s feec_names -> String.eqb name s = false).
    { intros s I. apply String.eqb_neq. intros ->. destruct K as [K|K]; [discriminate K|]. apply K, B.
      unfold feec_name. apply existsb_exists. exists s. split; [exact I|apply String.eqb_refl]. }
    rewrite (Q "P"), (Q "S") by (cbn; auto 30). cbn [orb bind].
    rewrite (Q "P L2"), (Q "S L2") by (cbn; auto 30). reflexivity. }
  unfold canonical. rewrite C, (resolve_plain fuel _ _ _ _ A). reflexivity.
Qed.

Lemma canonical_ok fuel f cell ord k e : canonical builtins fuel f cell ord k = Some (Ok e) ->
  exists d, registered d /\ described d cell (ds_order e) e.
Proof.
  intros H. destruct (canonical_spec f cell ord k) as (res & H3 & S).
  pose proof (canonical_more _ _ (max 3 fuel) _ _ _ _ _ (Nat.le_max_l _ _) H3) as M1.
  pose proof (canonical_more _ _ (max 3 fuel) _ _ _ _ _ (Nat.le_max_r _ _) H) as M2.
  rewrite M1 in M2. injection M2 as ->. destruct S as (d & R & D & _). exists d. split; assumption.
Qed.

Lemma canonical_again fuel f cell ord k e : canonical builtins fuel f cell ord k = Some (Ok e) ->
  exists e', canonical builtins 1 (ds_family e) cell (ds_order e) None = Some (Ok e') /\ same_element e e' /\
    (ds_short e' = ds_short e \/
     (product_cell cell = true /\ In (ds_family e) ["Q"; "DQ"; "DQ L2"] /\ ds_short e' = None)).
Proof.
  intros H. destruct (canonical_ok _ _ _ _ _ _ H) as (d & R & D).
  destruct (described_again d cell _ e R D) as (d' & R' & F' & C' & D' & S').
  exists (retold d' e). split; [|split].
  - rewrite (canonical_names 0 d' (ds_family e) cell (ds_order e) None R'); [|left; symmetry; exact F'|left; reflexivity].
    f_equal. apply (describe_accepts d'); [exact R'|left; symmetry; exact F'|exact D'|]. intros K. contradiction (C' K).
  - unfold same_element, retold. cbn [ds_family ds_short ds_order ds_shape ds_space ds_mapping ds_embedded]. auto 10.
  - cbn [ds_short retold].
    destruct (product_cell cell) eqn:P; [|left; apply S'; discriminate].
    assert (OP : on_product (fd_family d) = fd_family d \/ In (on_product (fd_family d)) ["Q"; "DQ"; "DQ L2"]).
    { unfold on_product. destruct (String.eqb (fd_family d) "Lagrange"); [right; cbn; auto|].
      destruct (String.eqb (fd_family d) "Discontinuous Lagrange"); [right; cbn; auto|].
      destruct (String.eqb (fd_family d) "Discontinuous Lagrange L2"); [right; cbn; auto|left; reflexivity]. }
    destruct OP as [OP|OP]; [left; apply S'; intros _; exact OP|]. right. split; [reflexivity|].
    assert (F : ds_family e = on_product (fd_family d)) by (destruct D as (_ & _ & D & _); rewrite P in D; exact D).
    rewrite <- F in OP. split; [exact OP|]. rewrite <- F' in OP.
    pose proof (entry_registered d' R') as ER.
    destruct OP as [OP|[OP|[OP|[]]]]; rewrite <- OP in ER; unfold entry in ER;
      rewrite ?entry_q, ?entry_dq, ?entry_dq_l2 in ER; rewrite <- ER; reflexivity.
Qed.

(** Second names. *)
Definition caught (f : string) : bool :=
  String.eqb f "P" || String.eqb f "S" || String.eqb f "P L2" || String.eqb f "S L2".
Lemma catch_id tdim f ord k : k = None \/ caught f = false -> catch_feec tdim f ord k = Ok (f, ord).
Proof.
  intros [->|H]; [reflexivity|]. unfold caught in H. apply orb_false_elim in H. destruct H as [H H4].
  apply orb_false_elim in H. destruct H as [H H3]. unfold catch_feec. destruct k as [k|]; [|reflexivity].
  rewrite H. cbn [bind]. rewrite H3, H4. reflexivity.
Qed.
Lemma others_caught : forallb (fun p => (negb (caught (fst p)) || String.eqb (fst p) "P") && negb (caught (snd p))) other_names = true.
Proof. vm_compute. reflexivity. Qed.

Lemma canonical_other fuel a m c ord k : In (a, m) other_names -> k = None \/ a <> "P" ->
  canonical builtins (S (S fuel)) a (Some c) ord k = canonical builtins (S (S fuel)) m (Some c) ord k.
Proof.
  intros I K. pose proof others_caught as O. rewrite forallb_forall in O. specialize (O _ I). cbn [fst snd] in O.
  apply andb_prop in O. destruct O as [O1 O2].
  assert (C1 : k = None \/ caught a = false).
  { destruct K as [K|K]; [now left|]. right. apply orb_prop in O1. destruct O1 as [O1|O1].
    - now apply negb_true_iff.
    - apply String.eqb_eq in O1. contradiction. }
  unfold canonical. cbn [option_map]. rewrite (catch_id _ a ord k C1).
  rewrite (catch_id _ m ord k); [|right; now apply negb_true_iff].
  rewrite (resolve_other fuel _ a m ord k I), (resolve_plain (S fuel) _ m ord k (plain_target _ _ I)). reflexivity.
Qed.
Lemma canonical_other_none fuel a m ord k : In (a, m) other_names -> k = None \/ a <> "P" ->
  canonical builtins (S fuel) a None ord k = Some (Err ValueError).
Proof.
  intros I K. pose proof others_caught as O. rewrite forallb_forall in O. specialize (O _ I). cbn [fst snd] in O.
  apply andb_prop in O. destruct O as [O1 O2].
  assert (C1 : k = None \/ caught a = false).
  { destruct K as [K|K]; [now left|]. right. apply orb_prop in O1. destruct O1 as [O1|O1].
    - now apply negb_true_iff.
    - apply String.eqb_eq in O1. contradiction. }
  unfold canonical. cbn [option_map]. rewrite (catch_id _ a ord k C1).
  rewrite (resolve_other_none fuel a m ord k I). reflexivity.
Qed.

(** FEEC notation. *)
Definition ending (l2 : bool) (s : string) : string := if l2 then String.append s " L2" else s.
Lemma forms_table c (l2 : bool) name n k r : In name (complex_names c) -> 1 <= n <= 3 -> k <= n ->
  exists x, feec (if l2 then feec_table_l2 else feec_table) (ending l2 name) (Some n) (Order r) (Some (Z.of_nat k))
            = Ok (x, Order (snd (forms c l2 n k r))) /\
    direct x = true /\ stands_for x = fst (forms c l2 n k r) /\ String.eqb x "P L2" || String.eqb x "S L2" = false /\
    alias_name (fst (forms c l2 n k r)) = false.
Proof.
  intros I N K.
  destruct c; cbn [complex_names In] in I; destruct I as [<-|[<-|[]]]; destruct l2;
    (destruct n as [|[|[|[|n]]]]; [lia| | | |lia]); (destruct k as [|[|[|[|k]]]]; try lia);
    eexists; (split; [reflexivity|]); (split; [vm_compute; reflexivity|]); (split; [reflexivity|]); split; vm_compute; reflexivity.
Qed.

Lemma ending_cases c (l2 : bool) name : In name (complex_names c) ->
  (caught (ending l2 name) = true /\
   (l2 = false -> String.eqb (ending l2 name) "P" || String.eqb (ending l2 name) "S" = true) /\
   (l2 = true -> String.eqb (ending l2 name) "P" || String.eqb (ending l2 name) "S" = false /\
                 String.eqb (ending l2 name) "P L2" || String.eqb (ending l2 name) "S L2" = true)) \/
  (caught (ending l2 name) = false /\
   dict_get String.eqb alias_calls (ending l2 name) = Ok (if l2 then to_feec_l2 else to_feec)).
Proof.
  intros I. destruct c; cbn [complex_names In] in I; destruct I as [<-|[<-|[]]]; destruct l2;
    first [ right; split; reflexivity
          | left; split; [reflexivity|]; split; intros; try discriminate; try split; reflexivity ].
Qed.

Lemma canonical_forms fuel fuel' c (l2 : bool) name cell k r : In name (complex_names c) ->
  1 <= ucell_dim cell <= 3 -> k <= ucell_dim cell ->
  canonical builtins (S (S (S fuel))) (ending l2 name) (Some cell) (Order r) (Some (Z.of_nat k)) =
  canonical builtins (S fuel') (fst (forms c l2 (ucell_dim cell) k r)) (Some cell)
    (Order (snd (forms c l2 (ucell_dim cell) k r))) None.
Proof.
  intros I N K. destruct (forms_table c l2 name (ucell_dim cell) k r I N K) as (x & F & D & St & NC & A).
  set (f' := fst (forms c l2 (ucell_dim cell) k r)) in *. set (r' := snd (forms c l2 (ucell_dim cell) k r)) in *.
  assert (RHS : canonical builtins (S fuel') f' (Some cell) (Order r') None = Some (describe builtins (Some cell) f' (Order r'))).
  { unfold canonical. cbn [catch_feec]. rewrite (resolve_plain fuel' _ f' _ None A). reflexivity. }
  rewrite RHS. unfold canonical. cbn [option_map].
  destruct (ending_cases c l2 name I) as [(C & C1 & C2)|[C G]].
  - assert (CF : catch_feec (Some (ucell_dim cell)) (ending l2 name) (Order r) (Some (Z.of_nat k)) = Ok (x, Order r')).
    { unfold catch_feec. destruct l2.
      - destruct (C2 eq_refl) as [-> C2']. cbn [bind]. rewrite C2'. exact F.
      - rewrite (C1 eq_refl). unfold feec_element. rewrite F. cbn [bind]. rewrite NC. reflexivity. }
    rewrite CF, (resolve_direct (S fuel) _ x _ _ D), St. reflexivity.
  - rewrite (catch_id _ _ _ _ (or_intror C)), resolve_S, builtin_aliases, G.
    assert (E : (if l2 then to_feec_l2 else to_feec) (ending l2 name) (ucell_dim cell) (Order r) (Some (Z.of_nat k)) = Ok (x, Order r')).
    { destruct l2; exact F. }
    rewrite E, (resolve_direct fuel _ x _ _ D), St. reflexivity.
Qed.

(** Unknown names. *)
Lemma canonical_unknown fuel f cell ord k : (forall d, registered d -> f <> fd_family d /\ Some f <> fd_short d) ->
  (forall t, ~ In (Alias f t) builtin_calls) -> k = None \/ ~ In f ["P L2"; "S L2"] ->
  canonical builtins (S fuel) f cell ord k = Some (Err ValueError).
Proof.
  intros N A K.
  assert (AN : alias_name f = false).
  { destruct (alias_name f) eqn:E; [|reflexivity]. exfalso. unfold alias_name in E.
    apply existsb_exists in E. destruct E as (s & I & E). apply String.eqb_eq in E. subst s.
    apply in_map_iff in I. destruct I as ([a t] & Ea & I). cbn [fst] in Ea. subst a.
    unfold alias_calls in I. apply in_flat_map in I. destruct I as ([f' s v sp m kr cs|a t'] & I & I2); [destruct I2|].
    destruct I2 as [E|[]]. injection E as -> ->. exact (A t I). }
  assert (C : k = None \/ caught f = false).
  { destruct K as [K|K]; [now left|]. right. unfold caught. 
    assert (P : String.eqb f "P" = false).
    { destruct (String.eqb_spec f "P") as [->|]; [|reflexivity]. vm_compute in AN. discriminate AN. }
    assert (S : String.eqb f "S" = false).
    { destruct (String.eqb_spec f "S") as [->|]; [|reflexivity]. exfalso.
      destruct (dict_get String.eqb (ufl_elements builtins) "S") as [d|e] eqn:E.
      - destruct (entry_known _ _ E) as [R [Q|Q]]; destruct (N d R); contradiction.
      - vm_compute in E. discriminate E. }
    rewrite P, S. cbn [orb].
    destruct (String.eqb_spec f "P L2") as [->|]; [exfalso; apply K; cbn; auto|].
    destruct (String.eqb_spec f "S L2") as [->|]; [exfalso; apply K; cbn; auto|]. reflexivity. }
  unfold canonical. rewrite (catch_id _ f ord k C), (resolve_plain fuel _ f ord k AN). unfold describe.
  destruct (dict_get String.eqb (ufl_elements builtins) f) as [d|e] eqn:E; [|reflexivity].
  exfalso. destruct (entry_known _ _ E) as [R [Q|Q]]; destruct (N d R); contradiction.
Qed.

(** Pullbacks. *)
Lemma pullback_of_names m p : pullback_of m = Ok p -> In (m, p) pullback_names.
Proof.
  unfold pullback_of.
  repeat match goal with |- context [String.eqb m ?n] =>
    destruct (String.eqb_spec m n) as [->|_];
    [intros E; injection E as <-; cbn; tauto|] end.
  discriminate.
Qed.
Lemma canonical_pullback fuel f cell ord k e : canonical builtins fuel f cell ord k = Some (Ok e) ->
  exists p, pullback_of (ds_mapping e) = Ok p /\ In (ds_mapping e, p) pullback_names.
Proof.
  intros H. destruct (canonical_ok _ _ _ _ _ _ H) as (d & R & D).
  destruct (registered_facts d R) as (_ & _ & _ & _ & _ & F & _).
  assert (E : ds_mapping e = fd_mapping d) by (destruct D as (_ & _ & _ & _ & _ & _ & _ & D & _); exact D).
  rewrite E. destruct (pullback_of (fd_mapping d)) as [p|x] eqn:P; [|discriminate F].
  exists p. split; [reflexivity|exact (pullback_of_names _ _ P)].
Qed.
