(** Flattened entities and product entities. *)
From Coq Require Import List Arith Lia Bool Permutation Sorted.
From Verif Require Import Model.Prelude Model.Cell Model.Element Model.EntityMaps.
From Verif Require Import Spec.Rowmajor Spec.EntityDofs Spec.Layout.
From Verif Require Import Proofs.Lists Proofs.Cells Proofs.Cubes Proofs.EntityDofs Proofs.EntityDofs2 Proofs.Closure.
Import ListNotations.

Definition ents (rows : list (dimkey * nat)) (k : nat) : list (dimkey * nat) :=
  flat_map (fun kn => if Nat.eqb (dk_total (fst kn)) k then map (pair (fst kn)) (seq 0 (snd kn)) else []) rows.

Definition cget (cs : list (nat * nat)) (k : nat) : nat :=
  match dict_get Nat.eqb cs k with Ok n => n | Err _ => 0 end.

Lemma pair_eqb_spec : forall a b, reflect (a = b) (pair_eqb a b).
Proof.
  intros [a1 a2] [b1 b2]. unfold pair_eqb; simpl.
  destruct (Nat.eqb_spec a1 b1), (Nat.eqb_spec a2 b2); simpl; constructor; congruence.
Qed.

Lemma dict_get_app : forall K V (eqb : K -> K -> bool) (a b : list (K * V)) k,
  dict_get eqb (a ++ b) k = match dict_get eqb a k with Ok v => Ok v | Err _ => dict_get eqb b k end.
Proof.
  induction a as [|[x v] a IH]; intros b k; simpl; [reflexivity|]. destruct (eqb k x); [reflexivity | apply IH].
Qed.

Lemma dict_get_block : forall (K : dimkey) fd c0 n a k i,
  dict_get pair_eqb (map (fun e => ((fd, c0 + e), (K, e))) (seq a n)) (k, i)
  = if (k =? fd) && (c0 + a <=? i) && (i <? c0 + a + n) then Ok (K, i - c0) else Err KeyError.
Proof.
  intros K fd c0 n. induction n as [|n IH]; intros a k i; cbn [seq map dict_get].
  - destruct (k =? fd); simpl; [|reflexivity].
    destruct (Nat.leb_spec (c0 + a) i), (Nat.ltb_spec i (c0 + a + 0)); simpl; try reflexivity; lia.
  - rewrite IH. unfold pair_eqb. cbn [fst snd].
    destruct (k =? fd); simpl; [|reflexivity].
    destruct (Nat.eqb_spec i (c0 + a)) as [->|Hn].
    + destruct (Nat.leb_spec (c0 + a) (c0 + a)); [|lia]. destruct (Nat.ltb_spec (c0 + a) (c0 + a + S n)); [|lia].
      simpl. do 2 f_equal. lia.
    + destruct (Nat.leb_spec (c0 + S a) i), (Nat.leb_spec (c0 + a) i), (Nat.ltb_spec i (c0 + S a + n)),
        (Nat.ltb_spec i (c0 + a + S n)); simpl; try reflexivity; lia.
Qed.

Lemma unflatten_fold : forall rows cs m,
  (forall k i, cget cs k <= i -> dict_get pair_eqb m (k, i) = Err KeyError) ->
  forall k i, dict_get pair_eqb (snd (fold_left unflatten_step rows (cs, m))) (k, i)
    = if i <? cget cs k then dict_get pair_eqb m (k, i)
      else match nth_error (ents rows k) (i - cget cs k) with Some x => Ok x | None => Err KeyError end.
Proof.
  induction rows as [|[K n] rows IH]; intros cs m Inv k i.
  - cbn [fold_left snd ents flat_map]. destruct (Nat.ltb_spec i (cget cs k)); [reflexivity|].
    rewrite Inv by assumption. destruct (i - cget cs k); reflexivity.
  - cbn [fold_left]. unfold unflatten_step at 2. cbn [fst snd]. fold (cget cs (dk_total K)).
    set (fd := dk_total K). set (c0 := cget cs fd).
    assert (Cg : forall k, cget (dict_set Nat.eqb cs fd (c0 + n)) k = if k =? fd then c0 + n else cget cs k).
    { intros k'. unfold cget. rewrite (dict_set_get _ _ _ nat_eqb_spec). destruct (k' =? fd); reflexivity. }
    rewrite IH.
    + rewrite Cg, dict_get_app, dict_get_block. cbn [ents flat_map fst snd]. fold fd. fold (ents rows k).
      rewrite (Nat.eqb_sym fd k).
      destruct (Nat.eqb_spec k fd) as [->|Hk].
      * fold c0. cbn [andb]. rewrite Nat.add_0_r.
        destruct (Nat.ltb_spec i c0).
        -- destruct (Nat.ltb_spec i (c0 + n)); [|lia].
           destruct (dict_get pair_eqb m (fd, i)) eqn:G; [reflexivity|].
           destruct (Nat.leb_spec c0 i); [lia|]. cbn [andb]. apply dict_get_err in G as [-> _]. reflexivity.
        -- rewrite (Inv fd i) by assumption. destruct (Nat.leb_spec c0 i); [|lia]. cbn [andb].
           destruct (Nat.ltb_spec i (c0 + n)).
           ++ rewrite nth_error_app1 by (rewrite map_length, seq_length; lia).
              rewrite (map_nth_error (pair K) (i - c0) (seq 0 n) (d := i - c0)); [reflexivity|].
              rewrite (nth_error_nth' (seq 0 n) 0) by (rewrite seq_length; lia). rewrite seq_nth by lia. reflexivity.
           ++ rewrite nth_error_app2 by (rewrite map_length, seq_length; lia).
              rewrite map_length, seq_length. replace (i - c0 - n) with (i - (c0 + n)) by lia. reflexivity.
      * cbn [andb app]. destruct (i <? cget cs k) eqn:L; [|reflexivity].
        destruct (dict_get pair_eqb m (k, i)) eqn:G; [reflexivity|]. apply dict_get_err in G as [-> _]. reflexivity.
    + intros k' i' H. rewrite Cg in H. rewrite dict_get_app, dict_get_block.
      destruct (Nat.eqb_spec k' fd) as [->|Hk].
      * rewrite Inv by (fold c0; lia). cbn [andb]. destruct (Nat.ltb_spec i' (c0 + 0 + n)); [lia|].
        rewrite andb_false_r. reflexivity.
      * rewrite Inv by exact H. reflexivity.
Qed.

Lemma unflatten_get : forall t k i,
  dict_get pair_eqb (compute_unflattening_map t) (k, i)
  = match nth_error (ents (sort_rows t) k) i with Some x => Ok x | None => Err KeyError end.
Proof.
  intros t k i. unfold compute_unflattening_map.
  rewrite unflatten_fold by (intros; reflexivity). cbn. rewrite Nat.sub_0_r. reflexivity.
Qed.

(* ------------------------------------------------------------------ *)
(** ** Two sorted permutations of the same keys agree *)

Lemma sorted_keys_unique : forall (l l' : list dimkey),
  StronglySorted (fun a b => dimkey_leb a b = true) l ->
  StronglySorted (fun a b => dimkey_leb a b = true) l' -> Permutation l l' -> l = l'.
Proof.
  intros l l' S. revert l'. induction S as [|x l S IH H]; intros l' S' P.
  - apply Permutation_nil in P. symmetry; exact P.
  - destruct l' as [|y l']; [symmetry in P; apply Permutation_nil in P; discriminate|].
    assert (x = y).
    { assert (Hx : In x (y :: l')) by (eapply Permutation_in; [exact P | left; reflexivity]).
      assert (Hy : In y (x :: l)) by (eapply Permutation_in; [symmetry; exact P | left; reflexivity]).
      inversion S' as [|? ? S1 H1]; subst. rewrite Forall_forall in H, H1.
      destruct Hx as [->|Hx]; [reflexivity|]. destruct Hy as [->|Hy]; [reflexivity|].
      apply dimkey_leb_antisym; auto. }
    subst y. f_equal. apply IH; [inversion S'; assumption|]. eapply Permutation_cons_inv; exact P.
Qed.

Lemma StronglySorted_map : forall A B (f : A -> B) (R : B -> B -> Prop) l,
  StronglySorted (fun a b => R (f a) (f b)) l -> StronglySorted R (map f l).
Proof.
  induction 1 as [|x l S IH H]; simpl; constructor; [exact IH|]. rewrite Forall_map. exact H.
Qed.

Lemma sort_rows_keys : forall V W (a : list (dimkey * V)) (b : list (dimkey * W)),
  Permutation (map fst a) (map fst b) -> map fst (sort_rows a) = map fst (sort_rows b).
Proof.
  intros V W a b P.
  assert (G : forall X (l : list (dimkey * X)), StronglySorted (fun a b => dimkey_leb a b = true) (map fst (sort_rows l))).
  { intros X l. apply StronglySorted_map. unfold sort_rows.
    apply (sorted_sorted (fun a b : dimkey * X => dimkey_leb (fst a) (fst b))).
    - intros; apply dimkey_leb_total.
    - intros x y z; apply dimkey_leb_trans. }
  apply sorted_keys_unique; [apply G | apply G |].
  unfold sort_rows. rewrite (Permutation_map fst (sorted_perm _ a)), (Permutation_map fst (sorted_perm _ b)). exact P.
Qed.

(** The values of a row in entity order. *)
Lemma row_values_seq : forall (row : list (nat * list nat)) n, Permutation (map fst row) (seq 0 n) ->
  row_values row = map (inrow row) (seq 0 n).
Proof.
  intros row n P. unfold row_values.
  set (s := sorted (fun a b : nat * list nat => fst a <=? fst b) row).
  assert (Ps : Permutation s row) by apply sorted_perm.
  assert (E : map fst s = seq 0 n).
  { apply StronglySorted_lt_perm_eq.
    - apply StronglySorted_le_lt.
      + apply StronglySorted_map. apply (sorted_sorted (fun a b : nat * list nat => fst a <=? fst b)).
        * intros; apply leb_total_nat.
        * intros x y z; apply leb_trans_nat.
      + eapply Permutation_NoDup; [symmetry; rewrite Ps; exact P | apply seq_NoDup].
    - apply seq_StronglySorted.
    - rewrite Ps. exact P. }
  rewrite <- E, map_map. apply map_ext_in. intros [i l] H. cbn [fst snd]. unfold inrow.
  rewrite (dict_in_get _ nat_eqb_spec row i l); [reflexivity | |].
  - eapply Permutation_NoDup; [symmetry; exact P | apply seq_NoDup].
  - eapply Permutation_in; [exact Ps | exact H].
Qed.

Lemma flat_rows_ents : forall t d k, NoDup (map fst t) -> keys_match t d ->
  flat_rows (sort_rows d) k = map (fun x => dof_at d (fst x) (snd x)) (ents (sort_rows t) k).
Proof.
  intros t d k tn km. unfold flat_rows, ents. rewrite map_flat_map.
  assert (Pd : Permutation (sort_rows d) d) by apply sorted_perm.
  assert (Pt : Permutation (sort_rows t) t) by apply sorted_perm.
  assert (E := sort_rows_keys _ _ d t (proj1 km)).
  assert (Hd : forall kr, In kr (sort_rows d) -> In kr d) by (intros; eapply Permutation_in; eauto).
  assert (Ht : forall kn, In kn (sort_rows t) -> In kn t) by (intros; eapply Permutation_in; eauto).
  revert E Hd Ht. generalize (sort_rows t) as st. generalize (sort_rows d) as sd.
  induction sd as [|[K row] sd IH]; intros [|[K' n] st] E Hd Ht; try discriminate E; [reflexivity|].
  cbn [map fst] in E. injection E as <- E. cbn [flat_map fst snd]. f_equal.
  - destruct (dk_total K =? k); [|reflexivity]. rewrite map_map. cbn [fst snd].
    assert (HK : In (K, n) t) by (apply Ht; left; reflexivity).
    assert (HR : In (K, row) d) by (apply Hd; left; reflexivity).
    assert (Er := km_rowof t d tn km K row HR). assert (Cn := km_count_eq t d tn km K n HK).
    assert (Kk : In K (map fst t)) by (apply in_map_iff; exists (K, n); auto).
    destruct (km_count t d tn km K Kk) as [_ P]. rewrite Er, Cn in P.
    rewrite (row_values_seq row n P). apply map_ext. intros i. unfold dof_at. rewrite Er. reflexivity.
  - apply IH; [exact E | |]; intros; [apply Hd | apply Ht]; right; assumption.
Qed.

(* ------------------------------------------------------------------ *)
(** ** The statements *)

Lemma nth_error_enumerate : forall A (l : list A) i x, In (i, x) (enumerate l) <-> nth_error l i = Some x.
Proof.
  intros A l i x. unfold enumerate.
  enough (G : forall a, In (i, x) (enumerate_from a l) <-> a <= i /\ nth_error l (i - a) = Some x).
  { rewrite G, Nat.sub_0_r. split; [tauto | intros; split; [lia | assumption]]. }
  induction l as [|y l IH]; intros a; simpl.
  - split; [contradiction|]. intros [_ H]. destruct (i - a); discriminate.
  - rewrite IH. split.
    + intros [E|[H1 H2]].
      * injection E as -> ->. rewrite Nat.sub_diag. auto.
      * split; [lia|]. replace (i - a) with (S (i - S a)) by lia. exact H2.
    + intros [H1 H2]. destruct (Nat.eq_dec i a) as [->|Hn].
      * rewrite Nat.sub_diag in H2. injection H2 as ->. auto.
      * right. split; [lia|]. replace (i - a) with (S (i - S a)) in H2 by lia. exact H2.
Qed.

Lemma ents_in : forall rows k K I,
  In (K, I) (ents rows k) <-> dk_total K = k /\ exists n, In (K, n) rows /\ I < n.
Proof.
  intros rows k K I. unfold ents. rewrite in_flat_map. split.
  - intros ([K' n] & Hn & H). cbn [fst snd] in H. destruct (Nat.eqb_spec (dk_total K') k) as [E|]; [|destruct H].
    apply in_map_iff in H as (j & Ej & Hj). injection Ej as -> ->. apply in_seq in Hj.
    split; [exact E|]. exists n. split; [exact Hn | lia].
  - intros (E & n & Hn & HI). exists (K, n). split; [exact Hn|]. cbn [fst snd].
    rewrite (proj2 (Nat.eqb_eq _ _) E). apply in_map. apply in_seq; lia.
Qed.

Lemma ents_sorted_in : forall t k K I,
  In (K, I) (ents (sort_rows t) k) <-> dk_total K = k /\ entity_of t (K, I).
Proof.
  intros t k K I. rewrite ents_in. unfold entity_of. cbn [fst snd].
  split; intros (E & n & Hn & HI); (split; [exact E|]); exists n; (split; [|exact HI]);
    [apply (sorted_in _ _ t (K, n)) in Hn; exact Hn | apply (sorted_in _ _ t (K, n)); exact Hn].
Qed.

(** Later entries of [ents] are larger. *)
Lemma ents_order : forall rows k, NoDup (map fst rows) ->
  StronglySorted (fun a b => dimkey_leb (fst a) (fst b) = true) rows ->
  StronglySorted (fun a b => dimkey_leb (fst a) (fst b) = true /\ (fst a = fst b -> snd a < snd b)) (ents rows k).
Proof.
  intros rows k ND S. induction S as [|[K n] rows S IH H]; cbn [ents flat_map]; [constructor|].
  cbn [map fst] in ND. inversion ND as [|? ? Hn ND']; subst. fold (ents rows k). cbn [fst snd].
  destruct (dk_total K =? k); [|apply IH; exact ND'].
  specialize (IH ND').
  assert (G : forall a, Forall (fun x => dimkey_leb K (fst x) = true /\ (K = fst x -> a < snd x)) (ents rows k)).
  { intros a. apply Forall_forall. intros [K' I'] Hx. apply ents_in in Hx as (_ & m & Hm & _). cbn [fst snd].
    rewrite Forall_forall in H. split; [apply (H _ Hm)|]. intros <-.
    exfalso; apply Hn, in_map_iff. exists (K, m); auto. }
  generalize 0 as a. induction n as [|n IHn]; intros a; cbn [seq map app]; [exact IH|].
  constructor; [apply IHn|].
  - clear - H. eapply Forall_impl; [|exact H]. intros x Hx; exact Hx.
  - apply Forall_app. split; [|apply G].
    rewrite Forall_map. apply Forall_forall. intros j Hj. apply in_seq in Hj. cbn [fst snd].
    split; [destruct (dimkey_leb_total K K); assumption | lia].
Qed.

Lemma StronglySorted_nth : forall A (R : A -> A -> Prop) l, StronglySorted R l ->
  forall i j x y, i < j -> nth_error l i = Some x -> nth_error l j = Some y -> R x y.
Proof.
  induction 1 as [|a l S IH H]; intros i j x y Hij Hi Hj; [destruct i; discriminate|].
  destruct j as [|j]; [lia|]. destruct i as [|i]; simpl in *.
  - injection Hi as <-. rewrite Forall_forall in H. apply H. eapply nth_error_In; exact Hj.
  - eapply IH; [|exact Hi | exact Hj]. lia.
Qed.

Lemma unflatten_some : forall c k i K I,
  unflatten_entity c (Some (k, i)) = Ok (K, I) <-> nth_error (ents (sort_rows (topology c)) k) i = Some (K, I).
Proof.
  intros c k i K I. unfold unflatten_entity. rewrite unflatten_get.
  destruct (nth_error (ents (sort_rows (topology c)) k) i); split; congruence.
Qed.

Theorem unflatten_bijective : forall c,
  (* every entity of the product cell is reached from exactly one flat entity, of the summed dimension *)
  (forall K I, entity_of (topology c) (K, I) ->
     exists i, unflatten_entity c (Some (dk_total K, i)) = Ok (K, I) /\
       forall k' i', unflatten_entity c (Some (k', i')) = Ok (K, I) -> k' = dk_total K /\ i' = i) /\
  (* a flat entity is sent to an entity of the product cell of that dimension *)
  (forall k i K I, unflatten_entity c (Some (k, i)) = Ok (K, I) ->
     dk_total K = k /\ entity_of (topology c) (K, I)) /\
  (* the numbering follows the order of dimension tuples, then entity numbers *)
  (forall k i j K I K' I', i < j -> unflatten_entity c (Some (k, i)) = Ok (K, I) ->
     unflatten_entity c (Some (k, j)) = Ok (K', I') ->
     dimkey_leb K K' = true /\ (K = K' -> I < I')) /\
  (* on cubes the flat entities are those of the flattened cell *)
  (cube_cell c -> forall k i,
     entity_of (topology (Hypercube (spatial_dimension c))) (DI k, i) <->
     exists x, unflatten_entity c (Some (k, i)) = Ok x).
Proof.
  intros c. set (t := topology c). assert (tn : NoDup (map fst t)) by apply topology_NoDup.
  assert (Or : forall k, StronglySorted (fun a b => dimkey_leb (fst a) (fst b) = true /\ (fst a = fst b -> snd a < snd b))
                  (ents (sort_rows t) k)).
  { intros k. apply ents_order.
    - eapply Permutation_NoDup; [|exact tn]. symmetry. apply Permutation_map, sorted_perm.
    - apply (sorted_sorted (fun a b : dimkey * nat => dimkey_leb (fst a) (fst b))).
      + intros; apply dimkey_leb_total.
      + intros x y z; apply dimkey_leb_trans. }
  assert (Inj : forall k i j x, nth_error (ents (sort_rows t) k) i = Some x ->
                 nth_error (ents (sort_rows t) k) j = Some x -> i = j).
  { intros k i j x Hi Hj. destruct (lt_eq_lt_dec i j) as [[Hl|E]|Hl]; [|exact E|].
    - destruct (StronglySorted_nth _ _ _ (Or k) i j x x Hl Hi Hj) as [_ G]. specialize (G eq_refl); lia.
    - destruct (StronglySorted_nth _ _ _ (Or k) j i x x Hl Hj Hi) as [_ G]. specialize (G eq_refl); lia. }
  split; [|split; [|split]].
  - intros K I H. assert (In (K, I) (ents (sort_rows t) (dk_total K))) as Hin by (apply ents_sorted_in; auto).
    apply In_nth_error in Hin as [i Hi]. exists i. split; [apply unflatten_some; exact Hi|].
    intros k' i' H'. apply unflatten_some in H'. fold t in H'.
    assert (k' = dk_total K).
    { apply nth_error_In in H'. apply ents_sorted_in in H' as [E _]. auto. }
    subst k'. split; [reflexivity|]. eapply Inj; eauto.
  - intros k i K I H. apply unflatten_some in H. apply nth_error_In in H. apply ents_sorted_in in H. exact H.
  - intros k i j K I K' I' Hij H H'. apply unflatten_some in H, H'.
    apply (StronglySorted_nth _ _ _ (Or k) i j _ _ Hij H H').
  - intros Hc k i. destruct (flatten_cube c Hc) as [KK KV]. fold t in KK, KV.
    assert (Lk : length (ents (sort_rows t) k) = tcount t k).
    { rewrite <- (tcount_perm _ _ k (sorted_perm (fun a b => dimkey_leb (fst a) (fst b)) t)).
      unfold ents, tcount. fold (sort_rows t). clear.
      induction (sort_rows t) as [|[K n] l IH]; cbn [flat_map map sum fst snd]; [reflexivity|].
      rewrite app_length, IH. destruct (dk_total K =? k); [rewrite map_length, seq_length|]; reflexivity. }
    assert (EE : entity_of (topology (Hypercube (spatial_dimension c))) (DI k, i)
                 <-> i < length (ents (sort_rows t) k)).
    { rewrite Lk. unfold entity_of. cbn [fst snd]. split.
      - intros (n & Hn & Hi).
        assert (Hk : In (DI k) (map fst (flatten_topology t))).
        { apply KK. apply in_map_iff. exists (DI k, n); auto. }
        apply in_map_iff in Hk as ([k0 m] & E0 & Hm). cbn in E0; subst k0.
        assert (G := dict_in_get _ dimkey_eqb_spec _ _ _ (proj1 (flatten_topology_keys t)) Hm).
        rewrite flatten_topology_get in G. destruct (existsb (Nat.eqb k) (totals t)); [|discriminate]. injection G as <-.
        apply KV in Hm.
        assert (G1 := dict_in_get _ dimkey_eqb_spec _ _ _ (topology_NoDup (Hypercube (spatial_dimension c))) Hm).
        assert (G2 := dict_in_get _ dimkey_eqb_spec _ _ _ (topology_NoDup (Hypercube (spatial_dimension c))) Hn).
        assert (n = tcount t k) by congruence. lia.
      - intros Hi. exists (tcount t k). split; [|exact Hi]. apply KV.
        apply (dict_get_in _ dimkey_eqb_spec). rewrite flatten_topology_get.
        replace (existsb (Nat.eqb k) (totals t)) with true; [reflexivity|]. symmetry. apply existsb_eqb.
        rewrite <- Lk in Hi. destruct (ents (sort_rows t) k) as [|[K0 I0] r] eqn:Ee; [cbn in Hi; lia|].
        assert (H0 : In (K0, I0) (ents (sort_rows t) k)) by (rewrite Ee; left; reflexivity).
        apply ents_sorted_in in H0 as (E0 & n & Hn & _). cbn [fst] in Hn. unfold totals. apply in_map_iff.
        exists (K0, n); auto. }
    rewrite EE. split.
    + intros Hi. destruct (nth_error (ents (sort_rows t) k) i) as [[K I]|] eqn:E.
      * exists (K, I). apply unflatten_some. exact E.
      * apply nth_error_None in E; lia.
    + intros [[K I] H]. apply unflatten_some in H. apply nth_error_Some. fold t in H. congruence.
Qed.

Theorem flattened_layout : forall F (p : elt F) c d,
  leaves_ok p -> sensible (EFlattened p) -> cell_of p = Ok c -> entity_dofs p = Ok d ->
  exists d', entity_dofs (EFlattened p) = Ok d' /\
    (forall key i l, has_dofs d' key i l ->
       exists k K I, key = DI k /\ unflatten_entity c (Some (k, i)) = Ok (K, I) /\ has_dofs d K I l) /\
    (forall k i K I l, unflatten_entity c (Some (k, i)) = Ok (K, I) -> has_dofs d K I l ->
       has_dofs d' (DI k) i l).
Proof.
  intros F p c d L S Ec Ed.
  assert (Sp : sensible p) by (eapply sensible_sub; [exact S|]; intros; constructor; assumption).
  destruct (entity_dofs_main F p L Sp c Ec) as (d0 & Ed0 & ok). rewrite Ed in Ed0. injection Ed0 as <-.
  assert (km := proj1 ok). assert (tn := topology_NoDup c).
  exists (flatten_entities d). split; [cbn [entity_dofs]; rewrite Ed; reflexivity|].
  destruct (flatten_keys _ d) as [N I0]. split.
  - intros key i l (row & Hr & Hi).
    assert (Hk : In key (map fst (flatten_entities d))) by (apply in_map_iff; exists (key, row); auto).
    apply I0 in Hk as (k & -> & Hk).
    assert (G := dict_in_get _ dimkey_eqb_spec _ _ _ N Hr). rewrite flatten_get in G.
    destruct (existsb (Nat.eqb k) (totals d)); [|discriminate]. injection G as <-.
    apply nth_error_enumerate in Hi. rewrite (flat_rows_ents (topology c) d k tn km) in Hi.
    destruct (nth_error (ents (sort_rows (topology c)) k) i) as [[K I]|] eqn:E.
    2:{ apply nth_error_None in E. assert (i < length (map (fun x => dof_at d (fst x) (snd x)) (ents (sort_rows (topology c)) k))) by (apply nth_error_Some; congruence). rewrite map_length in H; lia. }
    rewrite (map_nth_error _ _ _ E) in Hi. injection Hi as <-. cbn [fst snd].
    exists k, K, I. split; [reflexivity|]. split; [apply unflatten_some; exact E|].
    apply nth_error_In in E. apply ents_sorted_in in E as (_ & n & Hn & HI). cbn [fst snd] in *.
    apply (has_dofs_get (topology c)); [exact tn | exact km|]. split; [apply in_map_iff; exists (K, n); auto|].
    split; [|reflexivity]. rewrite (km_count_eq (topology c) d tn km K n Hn). exact HI.
  - intros k i K I l H Hh. apply unflatten_some in H.
    apply (has_dofs_get (topology c)) in Hh as (HK & HI & ->); [|exact tn | exact km].
    exists (enumerate (flat_rows (sort_rows d) k)). split.
    + apply (dict_get_in _ dimkey_eqb_spec). rewrite flatten_get.
      replace (existsb (Nat.eqb k) (totals d)) with true; [reflexivity|]. symmetry; apply existsb_eqb.
      assert (E := nth_error_In _ _ H). apply ents_sorted_in in E as (E & _).
      destruct (km_row (topology c) d tn km K HK) as [_ Hr]. unfold totals. apply in_map_iff. exists (K, rowof d K). auto.
    + apply nth_error_enumerate. rewrite (flat_rows_ents (topology c) d k tn km).
      rewrite (map_nth_error _ _ _ H). reflexivity.
Qed.
