(** Dof dictionaries of elements that drop FIAT's constraint dofs. *)
From Coq Require Import String List Arith Lia Bool Permutation Sorting.
From Verif Require Import Model.Prelude Model.Cell Model.Element Model.Mapped.
From Verif Require Import Spec.Rowmajor Spec.EntityDofs Spec.Samples.
From Verif Require Import Proofs.Lists Proofs.Cells.
Import ListNotations.

(** ** Dictionaries *)
Lemma dict_set_map : forall K V (eqb : K -> K -> bool), (forall a b, reflect (a = b) (eqb a b)) ->
  forall (d : list (K * V)) k v, NoDup (map fst d) -> In k (map fst d) ->
  dict_set eqb d k v = map (fun kv => if eqb k (fst kv) then (fst kv, v) else kv) d.
Proof.
  intros K V eqb Heq d k v. induction d as [|[k' v'] d IH]; intros ND H; [destruct H|].
  cbn [map fst] in *. inversion ND as [|? ? Hn ND']; subst. cbn [dict_set]. destruct (Heq k k') as [->|Hk].
  - f_equal. rewrite <- (map_id d) at 1. apply map_ext_in. intros [a b] Hab. destruct (Heq k' (fst (a, b))) as [->|]; [|reflexivity].
    exfalso. apply Hn. apply in_map_iff. exists (a, b). split; [reflexivity|exact Hab].
  - f_equal. apply IH; [exact ND'|]. destruct H as [E|H]; [symmetry in E; contradiction|exact H].
Qed.

Lemma filter_perm : forall A (f : A -> bool) l l', Permutation l l' -> Permutation (filter f l) (filter f l').
Proof.
  intros A f l l' H. induction H; cbn [filter].
  - constructor.
  - destruct (f x); [constructor|]; assumption.
  - destruct (f x), (f y); try apply Permutation_refl. constructor.
  - eapply Permutation_trans; eassumption.
Qed.

Lemma filter_seq_lt : forall m n, m <= n -> filter (fun x => x <? m) (seq 0 n) = seq 0 m.
Proof.
  intros m n H. replace n with (m + (n - m)) by lia. rewrite seq_app, filter_app.
  assert (E1 : filter (fun x => x <? m) (seq 0 m) = seq 0 m).
  { assert (G : forall l, (forall x, In x l -> x < m) -> filter (fun x => x <? m) l = l).
    { induction l as [|a l IH]; intros Hl; [reflexivity|]. cbn [filter].
      rewrite (proj2 (Nat.ltb_lt a m) (Hl a (or_introl eq_refl))), IH by (intros; apply Hl; right; assumption). reflexivity. }
    apply G. intros x Hx. apply in_seq in Hx. lia. }
  assert (E2 : filter (fun x => x <? m) (seq (0 + m) (n - m)) = []).
  { assert (G : forall l, (forall x, In x l -> m <= x) -> filter (fun x => x <? m) l = []).
    { induction l as [|a l IH]; intros Hl; [reflexivity|]. cbn [filter].
      rewrite (proj2 (Nat.ltb_ge a m) (Hl a (or_introl eq_refl))). apply IH. intros; apply Hl; right; assumption. }
    apply G. intros x Hx. apply in_seq in Hx. lia. }
  rewrite E1, E2, app_nil_r. reflexivity.
Qed.

Lemma filter_all : forall A (f : A -> bool) l, (forall x, In x l -> f x = true) -> filter f l = l.
Proof.
  intros A f l H. induction l as [|a l IH]; [reflexivity|]. cbn [filter]. rewrite (H a (or_introl eq_refl)), IH; [reflexivity|].
  intros; apply H; right; assumption.
Qed.

Lemma filter_none : forall A (f : A -> bool) l, (forall x, In x l -> f x = false) -> filter f l = [].
Proof.
  intros A f l H. induction l as [|a l IH]; [reflexivity|]. cbn [filter]. rewrite (H a (or_introl eq_refl)). apply IH.
  intros; apply H; right; assumption.
Qed.

Lemma filter_concat_map : forall A (f : A -> bool) (ls : list (list A)), filter f (concat ls) = concat (map (filter f) ls).
Proof. intros A f ls. induction ls as [|l ls IH]; [reflexivity|]. cbn [concat map]. rewrite filter_app, IH. reflexivity. Qed.

Lemma simplex_keys_NoDup : forall d, NoDup (map fst (simplex_topology d)).
Proof.
  intros d. unfold simplex_topology. rewrite map_map. cbn [fst]. apply FinFun.Injective_map_NoDup; [|apply seq_NoDup].
  intros a b E. injection E as E. exact E.
Qed.

(** ** Keeping the dofs numbered below [m] *)
Definition keep (m : nat) (d : edofs) : edofs :=
  map (fun kr => (fst kr, map (fun il => (fst il, filter (fun x => x <? m) (snd il))) (snd kr))) d.

Lemma keep_ok : forall t n m d, m <= n -> edofs_ok t n d -> edofs_ok t m (keep m d).
Proof.
  intros t n m d Hm [[K1 K2] P]. split; [split|].
  - unfold keep. rewrite map_map. cbn [fst]. exact K1.
  - intros k row H. unfold keep in H. apply in_map_iff in H as ([k' row'] & E & H). cbn [fst snd] in E. injection E as <- <-.
    destruct (K2 k' row' H) as (c & Hc & Hp). exists c. split; [exact Hc|]. rewrite map_map. cbn [fst]. exact Hp.
  - unfold partitions in *. replace (concat (all_lists (keep m d))) with (filter (fun x => x <? m) (concat (all_lists d))).
    { rewrite <- (filter_seq_lt m n Hm). apply filter_perm. exact P. }
    rewrite filter_concat_map. f_equal. unfold all_lists, keep. rewrite flat_map_concat_map, (flat_map_concat_map _ (map _ d)), concat_map, !map_map.
    f_equal. apply map_ext. intros [k row]. cbn [fst snd]. rewrite !map_map. apply map_ext. intros [i l]. reflexivity.
Qed.

Lemma keys_row : forall t n d k c, edofs_ok t n d -> NoDup (map fst t) -> In (k, c) t ->
  exists row, dict_get dimkey_eqb d k = Ok row /\ In (k, row) d /\ Permutation (map fst row) (seq 0 c).
Proof.
  intros t n d k c [[K1 K2] _] ND Hc.
  assert (Hk : In k (map fst d)). { apply (Permutation_in k (Permutation_sym K1)). apply in_map_iff. exists (k, c). auto. }
  destruct (dict_get_some dimkey_eqb dimkey_eqb_spec d k Hk) as (row & E). exists row. split; [exact E|].
  apply dict_get_in in E; [|exact dimkey_eqb_spec]. split; [exact E|].
  destruct (K2 k row E) as (c' & Hc' & Hp). replace c with c'; [exact Hp|].
  clear -ND Hc Hc'. induction t as [|[a b] t IH]; [destruct Hc|]. cbn [map fst] in ND. inversion ND as [|? ? Hn ND']; subst.
  destruct Hc as [E|Hc], Hc' as [E'|Hc'].
  - congruence.
  - injection E as -> ->. exfalso. apply Hn. apply in_map_iff. exists (k, c'). auto.
  - injection E' as -> ->. exfalso. apply Hn. apply in_map_iff. exists (k, c). auto.
  - exact (IH ND' Hc Hc').
Qed.

Lemma edofs_NoDup : forall t n d, edofs_ok t n d -> NoDup (map fst t) -> NoDup (map fst d).
Proof. intros t n d [[K1 _] _] ND. exact (Permutation_NoDup (Permutation_sym K1) ND). Qed.

Lemma row_unique : forall (d : edofs) k row row', NoDup (map fst d) -> In (k, row) d -> In (k, row') d -> row = row'.
Proof.
  intros d k row row' ND H H'. apply (dict_in_get dimkey_eqb dimkey_eqb_spec) in H, H'; trivial. congruence.
Qed.

Lemma facet_in : forall sd, In (DI (sd - 1), binom (S sd) (S (sd - 1))) (simplex_topology sd).
Proof. intros sd. unfold simplex_topology. apply in_map_iff. exists (sd - 1). split; [reflexivity|]. apply in_seq. lia. Qed.

Lemma cell_in : forall sd, In (DI sd, binom (S sd) (S sd)) (simplex_topology sd).
Proof. intros sd. unfold simplex_topology. apply in_map_iff. exists sd. split; [reflexivity|]. apply in_seq. lia. Qed.

Lemma binom_over : forall n k, n < k -> binom n k = 0.
Proof. induction n as [|n IH]; intros [|k] H; cbn [binom]; try lia. rewrite !IH by lia. reflexivity. Qed.

Lemma binom_diag : forall n, binom n n = 1.
Proof. induction n as [|n IH]; [reflexivity|]. cbn [binom]. rewrite IH, binom_over by lia. reflexivity. Qed.

Lemma binom_facet : forall n, binom (S n) n = S n.
Proof.
  induction n as [|n IH]; [reflexivity|]. change (binom (S (S n)) (S n)) with (binom (S n) n + binom (S n) (S n)).
  rewrite IH, binom_diag. lia.
Qed.

(** ** Bell, reduced Hsieh-Clough-Tocher *)
Lemma clear_facets_ok : forall sd n m d, m <= n -> edofs_ok (topology (Simplex sd)) n d ->
  (forall k i l x, has_dofs d k i l -> In x l -> (x < m <-> k <> DI (sd - 1))) ->
  exists d', clear_facets sd d = Ok d' /\ edofs_ok (topology (Simplex sd)) m d' /\
    forall k i l, has_dofs d k i l -> (k <> DI (sd - 1) -> has_dofs d' k i l) /\ (k = DI (sd - 1) -> has_dofs d' k i []).
Proof.
  intros sd n m d Hm Hd Hlast. cbn [topology] in *. pose proof (simplex_keys_NoDup sd) as NDt.
  pose proof (edofs_NoDup _ _ _ Hd NDt) as NDd.
  destruct (keys_row _ _ _ _ _ Hd NDt (facet_in sd)) as (row & Eg & Hrow & Hp).
  unfold clear_facets. rewrite Eg. cbn [bind]. eexists. split; [reflexivity|].
  assert (E : dict_set dimkey_eqb d (DI (sd - 1)) (map (fun il => (fst il, [])) row) = keep m d).
  { rewrite (dict_set_map _ _ _ dimkey_eqb_spec) by (trivial; apply in_map_iff; exists (DI (sd - 1), row); auto).
    unfold keep. apply map_ext_in. intros [k r] Hkr. cbn [fst snd]. destruct (dimkey_eqb_spec (DI (sd - 1)) k) as [E|Hk].
    - subst k. rewrite (row_unique d _ r row NDd Hkr Hrow). f_equal. apply map_ext_in. intros [i l] Hil. cbn [fst snd]. f_equal.
      symmetry. apply filter_none. intros x Hx. apply Nat.ltb_ge. destruct (le_lt_dec m x) as [H|H]; [exact H|]. exfalso.
      apply (Hlast (DI (sd - 1)) i l x); trivial. exists row. auto.
    - f_equal. rewrite <- (map_id r) at 1. apply map_ext_in. intros [i l] Hil. cbn [fst snd]. f_equal.
      symmetry. apply filter_all. intros x Hx. apply Nat.ltb_lt. apply (Hlast k i l x); [exists r; auto | exact Hx | congruence]. }
  rewrite E. split; [apply (keep_ok _ n); assumption|].
  intros k i l (r & Hkr & Hil). assert (Hin : In (k, map (fun il => (fst il, filter (fun x => x <? m) (snd il))) r) (keep m d)).
  { unfold keep. apply in_map_iff. exists (k, r). auto. }
  split; intros Hk; (eexists; split; [exact Hin|]); apply in_map_iff; exists (i, l); (split; [|exact Hil]); cbn [fst snd]; f_equal.
  - apply filter_all. intros x Hx. apply Nat.ltb_lt. apply (Hlast k i l x); [exists r; auto | exact Hx | exact Hk].
  - apply filter_none. intros x Hx. apply Nat.ltb_ge. destruct (le_lt_dec m x) as [H|H]; [exact H|]. exfalso.
    apply (Hlast k i l x) in H; [contradiction| exists r; auto | exact Hx].
Qed.

(** ** Mardal-Tai-Winther *)
Lemma mtw_ok : forall sd n d, 0 < sd -> edofs_ok (topology (Simplex sd)) n d ->
  let m := (sd + 1) * (sd + 1) in m <= n ->
  (forall k i l x, has_dofs d k i l -> In x l -> k <> DI (sd - 1) -> m <= x) ->
  (forall i l, has_dofs d (DI (sd - 1)) i l -> exists a b, l = a ++ b /\ length a = sd + 1 /\
     (forall x, In x a -> x < m) /\ (forall x, In x b -> m <= x)) ->
  (forall k i l, has_dofs d k i l -> k <> DI (sd - 1) -> k <> DI sd -> l = []) ->
  exists d', mtw_init sd d = Ok (d', m) /\ edofs_ok (topology (Simplex sd)) m d' /\
    forall i l, has_dofs d (DI (sd - 1)) i l -> has_dofs d' (DI (sd - 1)) i (firstn (sd + 1) l).
Proof.
  intros sd n d Hsd Hd m Hm Hoth Hfac Hlow. cbn [topology] in *. pose proof (simplex_keys_NoDup sd) as NDt.
  pose proof (edofs_NoDup _ _ _ Hd NDt) as NDd.
  destruct (keys_row _ _ _ _ _ Hd NDt (facet_in sd)) as (row & Eg & Hrow & Hp).
  destruct (keys_row _ _ _ _ _ Hd NDt (cell_in sd)) as (crow & Ec & Hcrow & Hcp). rewrite binom_diag in Hcp.
  unfold mtw_init. rewrite Ec. cbn [bind].
  assert (Hcells : exists l0, crow = [(0, l0)]).
  { apply Permutation_sym, Permutation_length_1_inv in Hcp. destruct crow as [|[i l] [|? ?]]; try discriminate. cbn in Hcp.
    injection Hcp as ->. exists l. reflexivity. }
  destruct Hcells as (l0 & ->). cbn [dict_set Nat.eqb]. set (d1 := dict_set dimkey_eqb d (DI sd) [(0, [])]).
  assert (Hkd : In (DI sd) (map fst d)) by (apply in_map_iff; exists (DI sd, [(0, l0)]); auto).
  assert (Hkf : In (DI (sd - 1)) (map fst d)) by (apply in_map_iff; exists (DI (sd - 1), row); auto).
  assert (Hne : DI (sd - 1) <> DI sd) by (intros E; injection E as E; lia).
  assert (E1 : d1 = map (fun kv => if dimkey_eqb (DI sd) (fst kv) then (fst kv, [(0, [])]) else kv) d)
    by (apply dict_set_map; trivial; exact dimkey_eqb_spec).
  assert (Hf1 : map fst d1 = map fst d).
  { rewrite E1, map_map. apply map_ext. intros kv. destruct (dimkey_eqb _ _); reflexivity. }
  assert (Hrow1 : In (DI (sd - 1), row) d1).
  { rewrite E1. apply in_map_iff. exists (DI (sd - 1), row). split; [|exact Hrow]. cbn [fst].
    destruct (dimkey_eqb_spec (DI sd) (DI (sd - 1))); [congruence|reflexivity]. }
  rewrite (dict_in_get dimkey_eqb dimkey_eqb_spec d1 _ row) by (trivial; rewrite Hf1; exact NDd). cbn [bind].
  assert (Hlen : length row = sd + 1).
  { rewrite <- (map_length fst), (Permutation_length Hp), seq_length. replace (S (sd - 1)) with sd by lia.
    rewrite binom_facet. lia. }
  eexists. split; [rewrite map_length, Hlen; reflexivity|].
  assert (E : dict_set dimkey_eqb d1 (DI (sd - 1)) (map (fun il => (fst il, firstn (sd + 1) (snd il))) row) = keep m d).
  { rewrite (dict_set_map _ _ _ dimkey_eqb_spec) by (rewrite Hf1; assumption). rewrite E1, map_map.
    unfold keep. apply map_ext_in. intros [k r] Hkr. cbn [fst snd].
    assert (Hkeep_other : k <> DI (sd - 1) -> forall i l, In (i, l) r -> filter (fun x => x <? m) l = []).
    { intros Hk i l Hil. apply filter_none. intros x Hx. apply Nat.ltb_ge. apply (Hoth k i l x); trivial. exists r. auto. }
    destruct (dimkey_eqb_spec (DI sd) k) as [Ek|Hk].
    - subst k. cbn [fst]. destruct (dimkey_eqb_spec (DI (sd - 1)) (DI sd)) as [C|_]; [contradiction|].
      rewrite (row_unique d _ r _ NDd Hkr Hcrow) in *. cbn [map fst snd]. rewrite (Hkeep_other (fun C => Hne (eq_sym C)) 0 l0 (or_introl eq_refl)). reflexivity.
    - cbn [fst]. destruct (dimkey_eqb_spec (DI (sd - 1)) k) as [Ek|Hk'].
      + subst k. rewrite (row_unique d _ r row NDd Hkr Hrow). f_equal. apply map_ext_in. intros [i l] Hil. cbn [fst snd]. f_equal.
        destruct (Hfac i l) as (a & b & -> & La & Ha & Hb); [exists row; auto|].
        rewrite <- La, firstn_app, firstn_all, Nat.sub_diag, app_nil_r, filter_app.
        rewrite (filter_all _ _ a), (filter_none _ _ b), app_nil_r; [reflexivity| |].
        * intros x Hx. apply Nat.ltb_ge. apply Hb. exact Hx.
        * intros x Hx. apply Nat.ltb_lt. apply Ha. exact Hx.
      + f_equal. rewrite <- (map_id r) at 1. apply map_ext_in. intros [i l] Hil. cbn [fst snd]. f_equal.
        rewrite (Hkeep_other (fun C => Hk' (eq_sym C)) i l Hil). apply (Hlow k i l); [exists r; auto|congruence|congruence]. }
  split; [rewrite E; apply (keep_ok _ n); assumption|].
  intros i l (r & Hkr & Hil). rewrite (row_unique d _ r row NDd Hkr Hrow) in Hil.
  exists (map (fun il => (fst il, firstn (sd + 1) (snd il))) row). split; [|apply in_map_iff; exists (i, l); auto].
  rewrite (dict_set_map _ _ _ dimkey_eqb_spec) by (rewrite Hf1; assumption). apply in_map_iff. exists (DI (sd - 1), row).
  split; [|exact Hrow1]. cbn [fst]. destruct (dimkey_eqb_spec (DI (sd - 1)) (DI (sd - 1))); [reflexivity|congruence].
Qed.

(** ** Piola bubble elements *)
Lemma sorted_seq : forall l c, Permutation l (seq 0 c) -> sorted Nat.leb l = seq 0 c.
Proof.
  intros l c H.
  assert (P : Permutation (sorted Nat.leb l) (seq 0 c)) by (eapply Permutation_trans; [apply sorted_perm|exact H]).
  assert (S1 : StronglySorted (fun a b => Nat.leb a b = true) (sorted Nat.leb l)).
  { apply sorted_sorted.
    - intros a b. destruct (Nat.leb_spec a b), (Nat.leb_spec b a); auto; lia.
    - intros a b e. rewrite !Nat.leb_le. lia. }
  assert (S2 : forall a c, StronglySorted (fun a b => Nat.leb a b = true) (seq a c)).
  { intros a c'. revert a. induction c' as [|c' IH]; intros a; [constructor|]. cbn [seq]. constructor; [apply IH|].
    apply Forall_forall. intros x Hx. apply in_seq in Hx. apply Nat.leb_le. lia. }
  specialize (S2 0 c). revert P S1 S2. generalize (sorted Nat.leb l) (seq 0 c).
  intros a. induction a as [|x a IH]; intros b P Sa Sb.
  - apply Permutation_nil in P. congruence.
  - destruct b as [|y b]; [apply Permutation_sym, Permutation_nil in P; discriminate|].
    inversion Sa as [|? ? Sa' Fa]; subst. inversion Sb as [|? ? Sb' Fb]; subst.
    assert (x = y).
    { rewrite Forall_forall in Fa, Fb.
      assert (Hx : In x (y :: b)) by (apply (Permutation_in x P); left; reflexivity).
      assert (Hy : In y (x :: a)) by (apply (Permutation_in y (Permutation_sym P)); left; reflexivity).
      destruct Hx as [E|Hx]; [congruence|]. destruct Hy as [E|Hy]; [congruence|].
      specialize (Fb x Hx). specialize (Fa y Hy). apply Nat.leb_le in Fa, Fb. lia. }
    subst y. f_equal. apply IH; trivial. exact (Permutation_cons_inv P).
Qed.

Definition tails (row : list (nat * list nat)) : nat := sum (map (fun il => length (tl (snd il))) row).

Lemma sum_perm : forall l l', Permutation l l' -> sum l = sum l'.
Proof. intros l l' H. induction H; cbn; try lia. Qed.

Lemma bubble_loop_ok : forall c a row rd cur, NoDup (map fst row) -> (forall i, a <= i < a + c -> In i (map fst row)) ->
  bubble_loop (seq a c) row rd cur =
  Ok (map (fun il => if (a <=? fst il) && (fst il <? a + c) then (fst il, [cur + (fst il - a)]) else il) row,
      rd + sum (map (fun il => if (a <=? fst il) && (fst il <? a + c) then length (tl (snd il)) else 0) row)).
Proof.
  induction c as [|c IH]; intros a row rd cur ND Hin.
  - cbn [seq bubble_loop].
    assert (Hb : forall x, (a <=? x) && (x <? a + 0) = false).
    { intros x. destruct (Nat.leb_spec a x), (Nat.ltb_spec x (a + 0)); trivial; lia. }
    f_equal. f_equal.
    + rewrite <- (map_id row) at 1. apply map_ext. intros il. rewrite Hb. reflexivity.
    + replace (sum _) with 0; [lia|]. symmetry. clear -Hb. induction row as [|il row IH]; [reflexivity|]. cbn [map]. rewrite Hb. cbn. exact IH.
  - cbn [seq bubble_loop].
    destruct (dict_get_some Nat.eqb Nat.eqb_spec row a) as (l & El); [apply Hin; lia|]. rewrite El. cbn [bind].
    pose proof (dict_get_in Nat.eqb Nat.eqb_spec row a l El) as Hal.
    rewrite (dict_set_map _ _ _ Nat.eqb_spec) by (trivial; apply Hin; lia).
    set (row1 := map _ row).
    assert (Hf : map fst row1 = map fst row).
    { unfold row1. rewrite map_map. apply map_ext. intros il. destruct (Nat.eqb a (fst il)); reflexivity. }
    rewrite IH.
    2:{ rewrite Hf. exact ND. }
    2:{ rewrite Hf. intros i Hi. apply Hin. lia. }
    f_equal. f_equal.
    + unfold row1. rewrite map_map. apply map_ext. intros [i v]. cbn [fst].
      destruct (Nat.eqb_spec a i) as [E|E]; cbn [fst].
      * subst i. destruct (Nat.leb_spec (S a) a); [lia|]. cbn [andb].
        destruct (Nat.leb_spec a a); [|lia]. destruct (Nat.ltb_spec a (a + S c)); [|lia]. cbn [andb]. do 2 f_equal. lia.
      * destruct (Nat.leb_spec (S a) i), (Nat.leb_spec a i), (Nat.ltb_spec i (S a + c)), (Nat.ltb_spec i (a + S c)); try lia; cbn [andb]; trivial.
        replace (cur + 1 + (i - S a)) with (cur + (i - a)) by lia. reflexivity.
    + rewrite <- Nat.add_assoc. f_equal. unfold row1. rewrite map_map. cbn [fst snd].
      clear -ND Hal. induction row as [|[i v] row IHr]; [destruct Hal|]. cbn [map fst snd] in *. inversion ND as [|? ? Hn ND']; subst.
      cbn [sum fold_right]. destruct Hal as [E|Hal].
      * injection E as -> ->. destruct (Nat.eqb_spec a a); [|lia]. cbn [fst snd].
        destruct (Nat.leb_spec (S a) a); [lia|]. cbn [andb]. destruct (Nat.leb_spec a a); [|lia]. destruct (Nat.ltb_spec a (a + S c)); [|lia]. cbn [andb].
        change (fold_right Nat.add 0) with sum. f_equal. rewrite Nat.add_0_l. f_equal. apply map_ext_in. intros [i v] Hiv. cbn [fst snd].
        assert (i <> a). { intros ->. apply Hn. apply in_map_iff. exists (a, v). auto. }
        destruct (Nat.eqb_spec a i); [congruence|]. cbn [fst snd].
        destruct (Nat.leb_spec (S a) i), (Nat.leb_spec a i), (Nat.ltb_spec i (S a + c)), (Nat.ltb_spec i (a + S c)); try lia; reflexivity.
      * specialize (IHr ND' Hal). change (fold_right Nat.add 0) with sum in *.
        assert (i <> a). { intros ->. apply Hn. apply in_map_iff. exists (a, l). auto. }
        destruct (Nat.eqb_spec a i); [congruence|]. cbn [fst snd].
        destruct (Nat.leb_spec (S a) i), (Nat.leb_spec a i), (Nat.ltb_spec i (S a + c)), (Nat.ltb_spec i (a + S c)); try lia; cbn [andb]; lia.
Qed.

Lemma nodup_const : forall (x : string) l, l <> [] -> (forall y, In y l -> y = x) -> nodup string_dec l = [x].
Proof.
  intros x l Hne H. induction l as [|a l IH]; [congruence|]. cbn [nodup]. rewrite (H a (or_introl eq_refl)).
  destruct l as [|b l].
  - reflexivity.
  - destruct (in_dec string_dec x (b :: l)) as [_|Hn].
    + apply IH; [discriminate|]. intros y Hy. apply H. right. exact Hy.
    + exfalso. apply Hn. left. apply H. right. left. reflexivity.
Qed.

Lemma piola_bubble_ok : forall mappings sd n m s d, mappings <> [] -> (forall y, In y mappings -> y = "contravariant piola"%string) ->
  0 < sd -> edofs_ok (topology (Simplex sd)) n d -> m <= n ->
  (forall k i l x, has_dofs d k i l -> In x l -> k <> DI (sd - 1) -> x < m) ->
  (forall i l, has_dofs d (DI (sd - 1)) i l -> exists b, l = (s + i) :: b /\ s + i < m /\ forall x, In x b -> m <= x) ->
  exists d', piola_bubble_init mappings sd n d = Ok (d', m) /\ edofs_ok (topology (Simplex sd)) m d' /\
    forall k i l, has_dofs d k i l -> (k <> DI (sd - 1) -> has_dofs d' k i l) /\ (k = DI (sd - 1) -> has_dofs d' k i [s + i]).
Proof.
  intros mappings sd n m s d Hmne Hmap Hsd Hd Hm Hoth Hfac. cbn [topology] in *. pose proof (simplex_keys_NoDup sd) as NDt.
  pose proof (edofs_NoDup _ _ _ Hd NDt) as NDd.
  destruct (keys_row _ _ _ _ _ Hd NDt (facet_in sd)) as (row & Eg & Hrow & Hp).
  replace (S (sd - 1)) with sd in Hp by lia. rewrite binom_facet in Hp.
  assert (NDr : NoDup (map fst row)) by (apply (Permutation_NoDup (Permutation_sym Hp)), seq_NoDup).
  unfold piola_bubble_init. rewrite (nodup_const _ _ Hmne Hmap). cbn [String.eqb Ascii.eqb Bool.eqb guard bind]. rewrite Eg. cbn [bind].
  destruct (dict_get_some Nat.eqb Nat.eqb_spec row 0) as (l0 & E0).
  { apply (Permutation_in 0 (Permutation_sym Hp)). apply in_seq. lia. }
  rewrite E0. cbn [bind]. pose proof (dict_get_in Nat.eqb Nat.eqb_spec row 0 l0 E0) as Hl0.
  destruct (Hfac 0 l0) as (b0 & -> & _ & _); [exists row; auto|].
  rewrite (sorted_seq _ _ Hp), bubble_loop_ok; [|exact NDr|].
  2:{ intros i Hi. apply (Permutation_in i (Permutation_sym Hp)). apply in_seq. lia. }
  cbn [bind fst snd].
  assert (Hrange : forall i l, In (i, l) row -> i < S sd).
  { intros i l Hi. assert (H : In i (map fst row)) by (apply in_map_iff; exists (i, l); auto).
    apply (Permutation_in i Hp) in H. apply in_seq in H. lia. }
  assert (Erow : map (fun il => if (0 <=? fst il) && (fst il <? 0 + S sd) then (fst il, [s + 0 + (fst il - 0)]) else il) row =
                 map (fun il => (fst il, filter (fun x => x <? m) (snd il))) row).
  { apply map_ext_in. intros [i l] Hil. cbn [fst snd]. pose proof (Hrange i l Hil).
    destruct (Nat.leb_spec 0 i); [|lia]. destruct (Nat.ltb_spec i (0 + S sd)); [|lia]. cbn [andb].
    destruct (Hfac i l) as (b & -> & Hs & Hb); [exists row; auto|]. cbn [filter].
    destruct (Nat.ltb_spec (s + i) m); [|lia]. rewrite (filter_none _ _ b); [do 3 f_equal; lia|].
    intros x Hx. apply Nat.ltb_ge. apply Hb. exact Hx. }
  rewrite Erow.
  assert (E : dict_set dimkey_eqb d (DI (sd - 1)) (map (fun il => (fst il, filter (fun x => x <? m) (snd il))) row) = keep m d).
  { rewrite (dict_set_map _ _ _ dimkey_eqb_spec) by (trivial; apply in_map_iff; exists (DI (sd - 1), row); auto).
    unfold keep. apply map_ext_in. intros [k r] Hkr. cbn [fst snd]. destruct (dimkey_eqb_spec (DI (sd - 1)) k) as [Ek|Hk].
    - subst k. rewrite (row_unique d _ r row NDd Hkr Hrow). reflexivity.
    - f_equal. rewrite <- (map_id r) at 1. apply map_ext_in. intros [i l] Hil. cbn [fst snd]. f_equal.
      symmetry. apply filter_all. intros x Hx. apply Nat.ltb_lt. apply (Hoth k i l x); [exists r; auto | exact Hx | congruence]. }
  rewrite E. exists (keep m d).
  pose proof (keep_ok _ n m d Hm Hd) as Hkeep.
  assert (Hcount : sum (map (fun il => if (0 <=? fst il) && (fst il <? 0 + S sd) then length (tl (snd il)) else 0) row) = n - m).
  { assert (L1 : length (concat (all_lists d)) = n) by (destruct Hd as [_ P]; rewrite (Permutation_length P); apply seq_length).
    assert (L2 : length (concat (all_lists (keep m d))) = m) by (destruct Hkeep as [_ P]; rewrite (Permutation_length P); apply seq_length).
    assert (G : forall dd, incl dd d -> NoDup (map fst dd) ->
      length (concat (all_lists dd)) = length (concat (all_lists (keep m dd))) +
        (if in_dec (fun a b => reflect_dec _ _ (dimkey_eqb_spec a b)) (DI (sd - 1)) (map fst dd) then
           sum (map (fun il => if (0 <=? fst il) && (fst il <? 0 + S sd) then length (tl (snd il)) else 0) row) else 0)).
    { induction dd as [|[k r] dd IH]; intros Hincl ND'; [reflexivity|]. cbn [map fst] in ND'. inversion ND' as [|? ? Hn ND'']; subst.
      specialize (IH (fun x Hx => Hincl x (or_intror Hx)) ND'').
      unfold all_lists, keep in *. cbn [map flat_map fst snd]. rewrite !concat_app, !app_length, IH. clear IH.
      assert (Hkr : In (k, r) d) by (apply Hincl; left; reflexivity). cbn [map fst].
      destruct (reflect_dec _ _ (dimkey_eqb_spec (DI (sd - 1)) k)) as [Ek|Hk].
      - subst k. rewrite (row_unique d _ r row NDd Hkr Hrow) in *. clear Hkr.
        destruct (in_dec _ (DI (sd - 1)) (map fst dd)) as [C|_]; [contradiction|].
        destruct (in_dec _ _ _) as [_|C]; [|exfalso; apply C; left; reflexivity].
        assert (Gr : forall rr, incl rr row -> length (concat (map snd rr)) =
           length (concat (map snd (map (fun il => (fst il, filter (fun x => x <? m) (snd il))) rr))) +
           sum (map (fun il => if (0 <=? fst il) && (fst il <? 0 + S sd) then length (tl (snd il)) else 0) rr)).
        { induction rr as [|[i l] rr IHr]; intros Hir; [reflexivity|]. specialize (IHr (fun x Hx => Hir x (or_intror Hx))).
          cbn [map concat fst snd]. rewrite !app_length, IHr. cbn [sum fold_right]. change (fold_right Nat.add 0) with sum.
          assert (Hil : In (i, l) row) by (apply Hir; left; reflexivity). pose proof (Hrange i l Hil).
          destruct (Nat.leb_spec 0 i); [|lia]. destruct (Nat.ltb_spec i (0 + S sd)); [|lia]. cbn [andb].
          destruct (Hfac i l) as (b & -> & Hs & Hb); [exists row; auto|]. cbn [filter tl].
          destruct (Nat.ltb_spec (s + i) m); [|lia]. rewrite (filter_none _ _ b); [cbn [length]; lia|].
          intros x Hx. apply Nat.ltb_ge. apply Hb. exact Hx. }
        rewrite (Gr row (incl_refl _)). lia.
      - replace (length (concat (map snd r))) with (length (concat (map snd (map (fun il => (fst il, filter (fun x => x <? m) (snd il))) r)))).
        2:{ f_equal. f_equal. rewrite map_map. apply map_ext_in. intros [i l] Hil. cbn [fst snd]. apply filter_all.
            intros x Hx. apply Nat.ltb_lt. apply (Hoth k i l x); [exists r; auto | exact Hx | congruence]. }
        destruct (in_dec _ (DI (sd - 1)) (map fst dd)) as [C|C]; destruct (in_dec _ _ (k :: map fst dd)) as [C'|C']; try lia.
        + exfalso. apply C'. right. exact C.
        + exfalso. destruct C' as [C'|C']; [congruence|contradiction]. }
    specialize (G d (incl_refl _) NDd). rewrite L1, L2 in G.
    destruct (in_dec _ (DI (sd - 1)) (map fst d)) as [_|C]; [lia|]. exfalso. apply C. apply in_map_iff. exists (DI (sd - 1), row). auto. }
  split; [rewrite Hcount; replace (n - (0 + (n - m))) with m by lia; reflexivity|]. split; [exact Hkeep|].
  intros k i l (r & Hkr & Hil). assert (Hin : In (k, map (fun il => (fst il, filter (fun x => x <? m) (snd il))) r) (keep m d)).
  { unfold keep. apply in_map_iff. exists (k, r). auto. }
  split; intros Hk; (eexists; split; [exact Hin|]); apply in_map_iff; exists (i, l); (split; [|exact Hil]); cbn [fst snd]; f_equal.
  - apply filter_all. intros x Hx. apply Nat.ltb_lt. apply (Hoth k i l x); [exists r; auto | exact Hx | exact Hk].
  - subst k. destruct (Hfac i l) as (b & -> & Hs & Hb); [exists r; auto|]. cbn [filter].
    destruct (Nat.ltb_spec (s + i) m); [|lia]. rewrite (filter_none _ _ b); [reflexivity|].
    intros x Hx. apply Nat.ltb_ge. apply Hb. exact Hx.
Qed.

Lemma piola_bubble_mapping : forall mappings sd n d,
  (exists y, In y mappings /\ y <> "contravariant piola"%string) -> piola_bubble_init mappings sd n d = Err ValueError.
Proof.
  intros mappings sd n d (y & Hy & Hne). unfold piola_bubble_init. pose proof (proj2 (nodup_In string_dec mappings y) Hy) as Hy'.
  destruct (nodup string_dec mappings) as [|x [|z r]]; try reflexivity. destruct Hy' as [->|[]].
  destruct (String.eqb_spec y "contravariant piola"); [contradiction|reflexivity].
Qed.

Lemma aw_dofs_ok : edofs_ok (topology (Simplex 2)) awnc_space_dimension awnc_entity_dofs /\
  edofs_ok (topology (Simplex 2)) aw_space_dimension aw_entity_dofs.
Proof.
  split; (split; [split|]).
  - apply Permutation_refl.
  - intros k row H. cbn in H. destruct H as [E|[E|[E|[]]]]; injection E as <- <-; eexists; (split; [cbn; eauto|apply Permutation_refl]).
  - apply Permutation_refl.
  - apply Permutation_refl.
  - intros k row H. cbn in H. destruct H as [E|[E|[E|[]]]]; injection E as <- <-; eexists; (split; [cbn; eauto|apply Permutation_refl]).
  - apply Permutation_refl.
Qed.

Lemma bell_dofs_ok : forall d n, 18 <= n -> edofs_ok (topology (Simplex 2)) n d ->
  (forall k i l x, has_dofs d k i l -> In x l -> (x < 18 <-> k <> DI 1)) ->
  exists d', bell_entity_dofs 2 d = Ok d' /\ edofs_ok (topology (Simplex 2)) bell_space_dimension d'.
Proof. intros d n Hn Hd H. destruct (clear_facets_ok 2 n 18 d Hn Hd H) as (d' & E & Hok & _). exists d'. split; assumption. Qed.

Lemma rhct_dofs_ok : forall d n, 9 <= n -> edofs_ok (topology (Simplex 2)) n d ->
  (forall k i l x, has_dofs d k i l -> In x l -> (x < 9 <-> k <> DI 1)) ->
  exists d', rhct_entity_dofs 2 d = Ok d' /\ edofs_ok (topology (Simplex 2)) rhct_space_dimension d'.
Proof. intros d n Hn Hd H. destruct (clear_facets_ok 2 n 9 d Hn Hd H) as (d' & E & Hok & _). exists d'. split; assumption. Qed.
