(** Product cells made of intervals flatten to the cube of their dimension. *)
From Coq Require Import List Arith Lia Bool Permutation.
From Verif Require Import Model.Prelude Model.Cell Spec.Rowmajor Spec.EntityDofs Proofs.Lists Proofs.Cells.
Import ListNotations.

Lemma simplex1_count : forall k, tcount (simplex_topology 1) k = f_cube 1 k.
Proof.
  intros k. cbn [f_cube]. rewrite conv_int.
  destruct k as [|[|k]]; reflexivity.
Qed.

Lemma sum_repeat1 : forall d, sum (repeat 1 d) = d.
Proof. induction d; simpl; congruence. Qed.

Lemma repeat_totals : forall d ns,
  Forall2 (fun m t => In m (totals t)) ns (repeat (simplex_topology 1) d) <-> Forall2 le ns (repeat 1 d).
Proof.
  induction d as [|d IH]; intros ns; cbn [repeat]; split; intros H; inversion H; subst; constructor.
  - match goal with H : In _ _ |- _ => simpl in H; lia end.
  - apply IH; assumption.
  - simpl; lia.
  - apply IH; assumption.
Qed.

Lemma cube_topology : forall c, cube_cell c ->
  (forall k, tcount (topology c) k = f_cube (spatial_dimension c) k) /\
  (forall n, In n (totals (topology c)) <-> n <= spatial_dimension c).
Proof.
  induction c as [d|cs IH|d] using cell_ind'; intros H.
  - inversion H; subst; simpl; split.
    + intros [|k]; reflexivity.
    + intros n; lia.
    + apply simplex1_count.
    + intros n; lia.
  - inversion H as [| | |cs' Hcs]; subst. cbn [topology spatial_dimension]. split.
    + apply tcount_product. rewrite Forall2_map_l, Forall2_map_r.
      clear H. induction IH; inversion Hcs; subst; constructor; auto. apply H; assumption.
    + intros n. rewrite totals_product, le_sum_split.
      assert (F : Forall (fun c => forall n, In n (totals (topology c)) <-> n <= spatial_dimension c) cs).
      { clear H. induction IH; inversion Hcs; subst; constructor; auto. apply H; assumption. }
      clear IH H Hcs.
      split; intros (ns & G & E); exists ns; split; auto; rewrite Forall2_map_r in *.
      * eapply Forall2_impl_in; [|exact G]. intros x y _ Hy. rewrite Forall_forall in F. apply F; exact Hy.
      * eapply Forall2_impl_in; [|exact G]. intros x y _ Hy. rewrite Forall_forall in F. apply F; exact Hy.
  - cbn [topology spatial_dimension]. split.
    + intros k. rewrite tcount_flatten. rewrite (tcount_product _ (repeat 1 d)).
      * rewrite sum_repeat1; reflexivity.
      * clear. induction d; simpl; constructor; auto. apply simplex1_count.
    + intros n. rewrite totals_flatten, totals_product.
      replace (n <= d) with (n <= sum (repeat 1 d)) by (rewrite sum_repeat1; reflexivity).
      rewrite le_sum_split.
      split; intros (ns & G & E); exists ns; split; auto; clear E.
      * apply repeat_totals; exact G.
      * apply repeat_totals; exact G.
Qed.

(** The flattened topology of a cube-like cell is the cube's, as a
    dictionary. *)
Lemma flatten_cube : forall c, cube_cell c ->
  let t := flatten_topology (topology c) in
  let h := topology (Hypercube (spatial_dimension c)) in
  (forall k, In k (map fst t) <-> In k (map fst h)) /\
  (forall k n, In (k, n) t <-> In (k, n) h).
Proof.
  intros c Hc t h.
  destruct (cube_topology c Hc) as [C T].
  destruct (cube_topology (Hypercube (spatial_dimension c)) (cc_hypercube _)) as [C' T'].
  cbn [spatial_dimension] in C', T'.
  assert (K : forall k, In k (map fst t) <-> In k (map fst h)).
  { intros k. unfold t, h. cbn [topology].
    destruct (flatten_topology_keys (topology c)) as [_ I].
    destruct (flatten_topology_keys (product_topology (repeat (simplex_topology 1) (spatial_dimension c)))) as [_ I'].
    rewrite I, I'. split; intros (n & E & H); exists n; split; auto.
    - apply totals_flatten. apply T'. apply T. exact H.
    - apply T. apply T'. cbn [topology]. apply totals_flatten. exact H. }
  split; [exact K|].
  assert (Nt : NoDup (map fst t)) by apply flatten_topology_keys.
  assert (Nh : NoDup (map fst h)) by apply flatten_topology_keys.
  assert (DIt : forall k, In k (map fst t) -> exists n, k = DI n).
  { intros k Hk. apply flatten_topology_keys in Hk as (n & E & _); eauto. }
  assert (G : forall k, dict_get dimkey_eqb t (DI k) = dict_get dimkey_eqb h (DI k)).
  { intros k. unfold t, h. cbn [topology]. rewrite !flatten_topology_get.
    assert (E : existsb (Nat.eqb k) (totals (topology c))
      = existsb (Nat.eqb k) (totals (product_topology (repeat (simplex_topology 1) (spatial_dimension c))))).
    { apply eq_true_iff_eq. rewrite !existsb_eqb, T. cbn [topology] in T'.
      rewrite <- T'. apply totals_flatten. }
    rewrite E. match goal with |- (if ?b then _ else _) = _ => destruct b end; [|reflexivity]. f_equal. rewrite C.
    rewrite <- tcount_flatten. symmetry. apply C'. }
  intros k n. split; intros H.
  - assert (Hk : In k (map fst t)) by (apply in_map_iff; exists (k, n); auto).
    destruct (DIt k Hk) as [m ->].
    apply (dict_get_in _ dimkey_eqb_spec). rewrite <- G. apply (dict_in_get _ dimkey_eqb_spec); assumption.
  - assert (Hk : In k (map fst h)) by (apply in_map_iff; exists (k, n); auto).
    apply K in Hk. destruct (DIt k Hk) as [m ->].
    apply (dict_get_in _ dimkey_eqb_spec). rewrite G. apply (dict_in_get _ dimkey_eqb_spec); assumption.
Qed.
