(** Quadrature elements. *)
From Coq Require Import String List Arith Lia Bool ZArith Ring_theory.
From Verif Require Import Model.Prelude Model.Cell Model.Element Model.Gem Model.PointSet Model.Evaluation Model.Quadrature.
From Verif Require Import Spec.Rowmajor Spec.EntityDofs Spec.Tabulation Spec.Quadrature.
From Verif Require Import Proofs.Lists Proofs.Cells Proofs.Closure Proofs.EntityDofs Proofs.EntityDofs2 Proofs.GemEval Proofs.Tables2 Proofs.Leaf Proofs.Factor Proofs.Sums Proofs.Quad Proofs.Quad2 Proofs.TabProps.
Import ListNotations.
Open Scope fresh_scope.

Lemma pkind_eqb_eq : forall a b, pkind_eqb a b = true <-> a = b.
Proof. intros [] []; split; intros H; try reflexivity; try discriminate; congruence. Qed.

Lemma zip_combine : forall A B (a : list A) (b : list B), zip a b = combine a b.
Proof. induction a as [|x a IH]; intros [|y b]; try reflexivity. cbn. rewrite IH. reflexivity. Qed.

Lemma forallb_zip : forall A B (f : A * B -> bool) (a : list A) (b : list B), length a = length b ->
  forallb f (zip a b) = true <-> Forall2 (fun x y => f (x, y) = true) a b.
Proof.
  induction a as [|x a IH]; intros [|y b] L; try discriminate; cbn [zip forallb].
  - split; [constructor | reflexivity].
  - rewrite andb_true_iff, IH by (simpl in L; lia). split; [intros [H1 H2]; constructor; assumption | intros H; inversion H; auto].
Qed.

Lemma Forall2_same_refl : forall A (P : A -> A -> Prop) l, (forall x, P x x) -> Forall2 P l l.
Proof. intros A P l H. induction l; constructor; auto. Qed.

Section QuadElt.
  Context {F : Type} (o : ops F) (vars : string -> list nat -> F).
  Context (R : ring_theory (f0 o) (f1 o) (fadd o) (fmul o) (fsub o) (fopp o) eq).
  Context (close : F -> F -> bool).
  Local Notation eval := (eval o vars).
  Local Notation fsum := (Gem.fsum o).

  Lemma rule_arrays : forall r : qrule F, rule_ok r -> arrays_ok (q_point_set r).
  Proof using Type.
    fix IH 2. intros r H. destruct H as [kd D pts i w Hne Hi Hd Hw|qs Hne Hq].
    - constructor; assumption.
    - cbn [q_point_set]. constructor; [destruct qs; [congruence | discriminate]|].
      clear Hne. induction Hq as [|q qs H Hq IHq]; constructor; [apply IH; exact H | exact IHq].
  Qed.

  Lemma arrays_ps_ok : forall ps : pset F, arrays_ok ps -> ps_ok ps.
  Proof using Type.
    fix IH 2. intros ps H. destruct H as [kd D pts i Hne Hi Hd|qs Hne Hq].
    - constructor; [exact Hne | cbn; lia | exact Hd].
    - constructor. clear Hne. induction Hq as [|q qs H Hq IHq]; constructor; [apply IH; exact H | exact IHq].
  Qed.

  Lemma arrays_indices : forall ps : pset F, arrays_ok ps -> ps_indices ps <> [].
  Proof using Type.
    fix IH 2. intros ps H. destruct H as [kd D pts i Hne Hi Hd|qs Hne Hq]; [discriminate|].
    cbn [ps_indices]. destruct Hq as [|q qs H Hq]; [congruence|]. cbn [flat_map]. intros E.
    apply app_eq_nil in E as [E _]. revert E. apply IH. exact H.
  Qed.

  (** Comparison never raises on arrays and says whether they are near. *)
  Lemma almost_equal_near : forall a b : pset F, arrays_ok a -> arrays_ok b ->
    exists v, almost_equal close a b = Ok v /\ (v = true <-> near close a b).
  Proof using Type.
    induction a as [pt|s N D i|k D pts ixs|qs IH] using pset_ind'; intros b Ha Hb; inversion Ha as [? ? ? ? Hne Hi Hd|? Hne Hq]; subst.
    - cbn [almost_equal]. destruct b as [|?|kb Db pb mb|qs]; try (exists false; split; [reflexivity|]; split; [discriminate | intros H; inversion H]).
      inversion Hb as [? ? ? j Hne' Hj Hd'|]; subst.
      eexists. split; [reflexivity|]. rewrite !andb_true_iff, pkind_eqb_eq, !Nat.eqb_eq. split.
      + intros [[-> [Hl ->]] H]. constructor. rewrite forallb_zip in H by exact Hl. cbn [fst snd] in H.
        eapply Forall2_impl_in; [|exact H]. intros p q Hp Hq' E. cbn beta in E. rewrite forallb_zip in E by (rewrite Hd, Hd' by assumption; reflexivity). exact E.
      + intros H. inversion H as [? ? ? ? ? ? Hp|]; subst. split; [split; [reflexivity|]; split; [eapply Forall2_length; exact Hp | reflexivity]|].
        rewrite forallb_zip by (eapply Forall2_length; exact Hp). eapply Forall2_impl_in; [|exact Hp].
        intros p q Hp' Hq' E. cbn [fst snd]. rewrite forallb_zip by (rewrite Hd, Hd' by assumption; reflexivity). exact E.
    - destruct b as [|?|kb Db pb mb|qs']; try (exists false; split; [reflexivity|]; split; [discriminate | intros H; inversion H]).
      inversion Hb as [|? Hne' Hq']; subst. cbn [almost_equal].
      destruct (Nat.eqb_spec (length qs) (length qs')) as [L|L].
      2:{ exists false. split; [reflexivity|]. split; [discriminate|]. intros H. inversion H as [|? ? Hf]; subst. apply Forall2_length in Hf. congruence. }
      enough (G : exists v, (fix go (fa fb : list (pset F)) : result bool :=
                 match fa, fb with
                 | x :: fa', y :: fb' => do e <- almost_equal close x y ;; if e then go fa' fb' else Ok false
                 | _, _ => Ok true
                 end) qs qs' = Ok v /\ (v = true <-> Forall2 (near close) qs qs')).
      { destruct G as (v & E & Hv). exists v. split; [exact E|]. rewrite Hv. split; [intros H; constructor; exact H | intros H; inversion H; assumption]. }
      clear Hne Hne' Ha Hb. revert qs' Hq' L. induction IH as [|q qs Hx IH IHq]; intros [|q' qs'] Hq' L; try discriminate.
      + exists true. split; [reflexivity|]. split; [constructor | reflexivity].
      + inversion Hq as [|? ? Hq1 Hq2]; subst. inversion Hq' as [|? ? Hq1' Hq2']; subst.
        destruct (Hx q' Hq1 Hq1') as (v & E & Hv). rewrite E. cbn [bind]. destruct v.
        * destruct (IHq Hq2 qs' Hq2') as (v & E' & Hv'); [simpl in L; lia|]. exists v. split; [exact E'|]. rewrite Hv'.
          split; [intros H; constructor; [apply Hv; reflexivity | exact H] | intros H; inversion H; assumption].
        * exists false. split; [reflexivity|]. split; [discriminate|]. intros H. inversion H; subst. assert (false = true) by (apply Hv; assumption). discriminate.
  Qed.

  Lemma near_extents : forall a b : pset F, arrays_ok a -> arrays_ok b -> near close a b ->
    map ix_extent (ps_indices a) = map ix_extent (ps_indices b).
  Proof using Type.
    induction a as [pt|s N D i|k D pts ixs|qs IH] using pset_ind'; intros b Ha Hb H; inversion Ha as [? ? ? ? Hne Hi Hd|? Hne Hq]; subst.
    - inversion H as [? ? ? pts' ? ? Hp|]; subst. inversion Hb as [? ? ? j Hne' Hj Hd'|]; subst. cbn. rewrite Hi, Hj. f_equal. eapply Forall2_length. exact Hp.
    - inversion H as [|? qs' Hf]; subst. inversion Hb as [|? Hne' Hq']; subst. cbn [ps_indices]. clear Hne Hne' Ha Hb H.
      induction Hf as [|q q' qs qs' Hn Hf IHf]; [reflexivity|]. inversion IH; inversion Hq; inversion Hq'; subst.
      cbn [flat_map]. rewrite !map_app. f_equal; auto.
  Qed.

  Lemma near_refl : (forall x, close x x = true) -> forall a : pset F, arrays_ok a -> near close a a.
  Proof using Type.
    intros Hc. fix IH 2. intros a H. destruct H as [kd D pts i Hne Hi Hd|qs Hne Hq].
    - constructor. apply Forall2_same_refl. intros p. apply Forall2_same_refl. exact Hc.
    - constructor. clear Hne. induction Hq as [|q qs H Hq IHq]; constructor; [apply IH; exact H | exact IHq].
  Qed.

  (** Products of deltas between given indices and new ones. *)
  Lemma deltas_gen : forall (m : list ix) shape k, map ix_extent m = shape -> shape <> [] ->
    exists g, reduce_product (map2 (fun q r => GDelta (IFree q) (IFree r)) m (ixs k shape)) = Ok g /\
      gshape g = [] /\
      (forall x, In x (gfree g) <-> In x (map ix_id m) \/ k <= x < k + length shape) /\
      forall env s t, map (fun i => env (ix_id i)) m = s -> map (fun i => env (ix_id i)) (ixs k shape) = t ->
        eval g env [] = if list_eq_dec Nat.eq_dec s t then f1 o else f0 o.
  Proof using R.
    intros m shape k Hm Hne.
    set (l := map2 (fun j k => GDelta (IFree j) (IFree k)) m (ixs k shape) : list (gem F)).
    assert (Lm : length m = length (ixs k shape)) by (rewrite ixs_length, <- Hm, map_length; reflexivity).
    assert (Hl : l <> []).
    { unfold l. destruct shape; [congruence|]. destruct m; discriminate. }
    assert (Hs : Forall (fun g : gem F => gshape g = []) l).
    { unfold l. generalize m, (ixs k shape). induction m0 as [|x l0 IH]; intros [|y l1]; constructor; [reflexivity | apply IH]. }
    destruct (reduce_product_ok l Hl Hs) as (g & Eg & Hsh & Hfr & Hev). exists g. split; [exact Eg|]. split; [exact Hsh|].
    split.
    - intros x. rewrite Hfr, <- (in_ixs_id k shape). unfold l.
      revert Lm. generalize m, (ixs k shape). clear. induction m as [|i l IH]; intros [|j l'] He; try discriminate; [simpl; tauto|].
      cbn [map2 flat_map map]. rewrite in_app_iff, IH by (simpl in He; lia). simpl. tauto.
    - intros env s t Hs1 Ht1. rewrite (Hev o vars env R). rewrite <- (delta_prod o R).
      2:{ rewrite <- Hs1, <- Ht1, !map_length. exact Lm. }
      f_equal. unfold l. rewrite <- Hs1, <- Ht1. generalize m, (ixs k shape). clear.
      induction m as [|i l IH]; intros [|j l']; try reflexivity. cbn [map2 map Gem.eval gidx_val]. rewrite IH. reflexivity.
  Qed.

  Lemma qe_deltas_ok : forall e ps n,
    map ix_extent (ps_indices ps) = qe_index_shape e -> ps_indices ps <> [] ->
    (forall i, In i (ps_indices ps) -> ix_id i < n) ->
    exists T n', qe_deltas e ps n = Ok (T, n') /\ n <= n' /\ gshape T = qe_index_shape e /\
      incl (gfree T) (map ix_id (ps_indices ps)) /\
      forall env ii, length ii = length (qe_index_shape e) ->
        eval T env ii = if list_eq_dec Nat.eq_dec (map (fun i => env (ix_id i)) (ps_indices ps)) ii then f1 o else f0 o.
  Proof using R.
    intros e ps n Hm Hne Hids. unfold qe_deltas, fbind. rewrite new_indices_eq. set (sh := qe_index_shape e) in *.
    assert (Hsh : sh <> []) by (rewrite <- Hm; destruct (ps_indices ps); [congruence | discriminate]).
    destruct (deltas_gen _ sh n Hm Hsh) as (g & Eg & Sg & Fg & Vg). rewrite Eg. unfold flift. cbn [bind].
    rewrite mk_component_tensor_ok; [|exact Sg|].
    2:{ intros x Hx. apply in_ixs_id in Hx. apply Fg. right. exact Hx. }
    cbn [bind]. eexists _, _. split; [reflexivity|]. split; [lia|]. split; [cbn [gshape]; apply ixs_extents|]. split.
    - intros x Hx. cbn [gfree] in Hx. apply in_remove_ids in Hx as [Hx Hn]. apply Fg in Hx as [Hx|Hx]; [exact Hx|].
      exfalso. apply Hn. apply in_ixs_id. exact Hx.
    - intros env ii Hii. cbn [Gem.eval]. eapply Vg.
      + apply map_ext_in. intros i Hi. apply upds_notin. intros Hin. apply in_ixs_id in Hin. apply Hids in Hi. lia.
      + apply upds_vals; [apply ixs_NoDup | rewrite ixs_length; exact Hii].
  Qed.

  (** The rule's own point set or one that is almost equal. *)
  Lemma qe_basis_ok : forall c r e ps n ent,
    mk_quadrature_element c r = Ok e -> rule_ok r -> arrays_ok ps -> near close (q_point_set r) ps ->
    (forall i, In i (ps_indices ps) -> ix_id i < n) ->
    ent = None \/ ent = Some (get_dimension c, 0) ->
    exists T n', qe_basis_evaluation close e 0 ps ent n = Ok ([(repeat 0 (spatial_dimension c), T)], n') /\
      gshape T = qe_index_shape e /\ incl (gfree T) (map ix_id (ps_indices ps)) /\
      map ix_extent (ps_indices ps) = qe_index_shape e /\
      forall env ii, length ii = length (qe_index_shape e) ->
        eval T env ii = if list_eq_dec Nat.eq_dec (map (fun i => env (ix_id i)) (ps_indices ps)) ii then f1 o else f0 o.
  Proof using R.
    intros c r e ps n ent He Hr Hps Hn Hids Hent.
    assert (e = mkQelt c r) as ->.
    { unfold mk_quadrature_element in He. apply bind_ok in He as (d & _ & He). apply bind_ok in He as ([] & _ & He). injection He as <-. reflexivity. }
    pose proof (near_extents _ _ (rule_arrays r Hr) Hps Hn) as Ex.
    destruct (qe_deltas_ok (mkQelt c r) ps n) as (T & n' & ET & _ & ST & FT & VT); [symmetry; exact Ex | apply arrays_indices; exact Hps | exact Hids|].
    exists T, n'. split; [|split; [exact ST|]; split; [exact FT|]; split; [symmetry; exact Ex | exact VT]].
    unfold qe_basis_evaluation. cbn [qe_cell qe_rule].
    assert (Hg : guard (match ent with None => true | Some (k, i) => dimkey_eqb k (get_dimension c) && Nat.eqb i 0 end) ValueError = Ok tt).
    { destruct Hent as [->| ->]; [reflexivity|]. destruct (dimkey_eqb_spec (get_dimension c) (get_dimension c)); [reflexivity | congruence]. }
    rewrite (fbind_eq _ _ _ _ _ _ _ (flift_eq _ _ _ n Hg)). rewrite (fbind_eq _ _ _ _ _ tt n) by reflexivity.
    destruct (almost_equal_near _ _ (rule_arrays r Hr) Hps) as (v & Ev & Hv). rewrite (proj2 Hv Hn) in Ev.
    rewrite (fbind_eq _ _ _ _ _ _ _ (flift_eq _ _ _ n Ev)). rewrite (fbind_eq _ _ _ _ _ tt n) by reflexivity.
    rewrite (fbind_eq _ _ _ _ _ _ _ ET). reflexivity.
  Qed.

  Lemma qe_points : forall (r : qrule F) ps, rule_ok r -> arrays_ok ps -> near close (q_point_set r) ps ->
    forall c, exists pts, ps_points ps = Ok pts /\ length pts = qe_space_dimension (mkQelt c r) /\
      forall env, env_ok ps env ->
        nth_error pts (rowmajor (qe_index_shape (mkQelt c r)) (map (fun i => env (ix_id i)) (ps_indices ps))) = Some (pt_at ps env).
  Proof using Type.
    intros r ps Hr Hps Hn c. pose proof (near_extents _ _ (rule_arrays r Hr) Hps Hn) as Ex.
    destruct (points_rowmajor F ps (arrays_ps_ok _ Hps)) as (pts & E & L & _ & Hk). exists pts. split; [exact E|].
    unfold qe_space_dimension, qe_index_shape. cbn [qe_rule]. rewrite Ex. split; [rewrite L; apply Tables.prod_fold | exact Hk].
  Qed.

  (** Dual basis after basis. *)
  Lemma qe_dual_ok : forall c r e n,
    (forall x, close x x = true) ->
    mk_quadrature_element c r = Ok e -> rule_ok r -> distinct_indices (q_point_set r) ->
    (forall i, In i (ps_indices (q_point_set r)) -> ix_id i < n) ->
    exists Q n1 T n2, qe_dual_basis e n = Ok ((Q, q_point_set r), n1) /\
      qe_basis_evaluation close e 0 (q_point_set r) None n1 = Ok ([(repeat 0 (spatial_dimension c), T)], n2) /\
      gshape Q = qe_index_shape e /\ gshape T = qe_index_shape e /\
      forall env ii jj, In ii (cart (map (seq 0) (qe_index_shape e))) -> length jj = length (qe_index_shape e) ->
        fold_right (fadd o) (f0 o) (map (fun env' => fmul o (eval Q env' ii) (eval T env' jj)) (assignments (q_point_set r) env))
        = if list_eq_dec Nat.eq_dec ii jj then f1 o else f0 o.
  Proof using R.
    intros c r e n Hc He Hr Hd Hids. pose proof (rule_arrays r Hr) as Ha. pose proof (near_refl Hc _ Ha) as Hn.
    assert (Ee : e = mkQelt c r).
    { unfold mk_quadrature_element in He. apply bind_ok in He as (d & _ & He'). apply bind_ok in He' as ([] & _ & He'). injection He' as <-. reflexivity. }
    destruct (qe_deltas_ok e (q_point_set r) n) as (Q & n1 & EQ & Hle & SQ & FQ & VQ); [rewrite Ee; reflexivity | apply arrays_indices; exact Ha | exact Hids|].
    destruct (qe_basis_ok c r e (q_point_set r) n1 None He Hr Ha Hn) as (T & n2 & ET & ST & FT & _ & VT); [intros i Hi; apply Hids in Hi; lia | left; reflexivity|].
    exists Q, n1, T, n2. split; [unfold qe_dual_basis; rewrite Ee in *; cbn [qe_rule]; rewrite (fbind_eq _ _ _ _ _ _ _ EQ); reflexivity|].
    split; [exact ET|]. split; [exact SQ|]. split; [exact ST|].
    intros env ii jj Hii Hjj. unfold assignments. fold (qexts (ps_indices (q_point_set r))). rewrite map_map.
    change (fold_right (fadd o) (f0 o)) with fsum.
    assert (Esh : map (seq 0) (qe_index_shape e) = qexts (ps_indices (q_point_set r))).
    { rewrite Ee. unfold qe_index_shape, qexts. cbn [qe_rule]. rewrite map_map. reflexivity. }
    rewrite Esh in Hii.
    assert (Lii : length ii = length (qe_index_shape e)).
    { rewrite (in_cart_length _ _ Hii). rewrite Ee. unfold qe_index_shape. cbn [qe_rule]. rewrite map_length. reflexivity. }
    transitivity (fsum (map (fun vs => if list_eq_dec Nat.eq_dec vs ii then (if list_eq_dec Nat.eq_dec ii jj then f1 o else f0 o) else f0 o) (cart (qexts (ps_indices (q_point_set r)))))).
    - apply fsum_ext. intros vs Hvs. pose proof (in_cart_length _ _ Hvs) as L.
      rewrite (VQ _ ii Lii), (VT _ jj Hjj).
      assert (Ev : map (fun i => (fun x => fold_left (fun acc iv => if x =? ix_id (fst iv) then snd iv else acc) (combine (ps_indices (q_point_set r)) vs) (env x)) (ix_id i)) (ps_indices (q_point_set r)) = vs).
      { etransitivity; [|apply (upds_vals (ps_indices (q_point_set r)) env vs Hd L)]. apply map_ext. intros i. apply fold_left_upds. exact L. }
      cbn beta in Ev. rewrite Ev. destruct (list_eq_dec Nat.eq_dec vs ii) as [->|]; [apply (mul1l o R) | apply (mul0l o R)].
    - rewrite (fsum_single o R _ (list_eq_dec Nat.eq_dec) (fun _ => if list_eq_dec Nat.eq_dec ii jj then f1 o else f0 o)); [reflexivity | | exact Hii].
      rewrite <- Esh. apply cart_seq_NoDup.
  Qed.

  Lemma mk_qe_eq : forall c (r : qrule F) e, mk_quadrature_element c r = Ok e -> e = mkQelt c r.
  Proof using Type.
    intros c r e He. unfold mk_quadrature_element in He. apply bind_ok in He as (d & _ & He). apply bind_ok in He as ([] & _ & He). injection He as <-. reflexivity.
  Qed.

  Lemma qe_build : forall c (r : qrule F), rule_ok r ->
    (psdim (q_point_set r) = spatial_dimension c -> mk_quadrature_element c r = Ok (mkQelt c r)) /\
    (psdim (q_point_set r) <> spatial_dimension c -> mk_quadrature_element c r = Err ValueError).
  Proof using Type.
    intros c r Hr. unfold mk_quadrature_element. rewrite (ps_dimension_ok _ (arrays_ps_ok _ (rule_arrays r Hr))). cbn [bind].
    destruct (Nat.eqb_spec (spatial_dimension c) (psdim (q_point_set r))) as [E|E]; split; intros H; try reflexivity; congruence.
  Qed.

  Lemma qe_rejects : forall c r e order (ps : pset F) ent n,
    mk_quadrature_element c r = Ok e -> rule_ok r -> arrays_ok ps ->
    (ent <> None /\ ent <> Some (get_dimension c, 0)) \/ order <> 0 \/ ~ near close (q_point_set r) ps ->
    qe_basis_evaluation close e order ps ent n = Err ValueError.
  Proof using Type.
    intros c r e order ps ent n He Hr Hps H. apply mk_qe_eq in He as ->. unfold qe_basis_evaluation. cbn [qe_cell qe_rule].
    destruct (match ent with None => true | Some (k, i) => dimkey_eqb k (get_dimension c) && Nat.eqb i 0 end) eqn:G; [|reflexivity].
    rewrite (fbind_eq _ _ _ _ _ tt n) by reflexivity.
    destruct H as [[H1 H2]|H].
    { exfalso. destruct ent as [[k i]|]; [|congruence]. apply andb_prop in G as [G1 G2]. apply Nat.eqb_eq in G2 as ->.
      destruct (dimkey_eqb_spec k (get_dimension c)); [subst; congruence | discriminate]. }
    destruct (Nat.eqb_spec order 0) as [->|]; [|reflexivity]. rewrite (fbind_eq _ _ _ _ _ tt n) by reflexivity.
    destruct H as [H|H]; [congruence|]. destruct (almost_equal_near _ _ (rule_arrays r Hr) Hps) as ([|] & Ev & Hv); [exfalso; apply H, Hv; reflexivity|].
    rewrite (fbind_eq _ _ _ _ _ _ _ (flift_eq _ _ _ n Ev)). reflexivity.
  Qed.

  Lemma qe_dofs_eq : forall (e : qelt (F := F)), discontinuous_entity_dofs (qe_cell e) (qe_space_dimension e) = Ok (qe_entity_dofs e).
  Proof using Type.
    intros e. unfold discontinuous_entity_dofs, extend_entity, qe_entity_dofs. set (c := qe_cell e).
    assert (G : dict_get dimkey_eqb (empty_dofs c) (get_dimension c) = Ok [(0, [])]).
    { apply (dict_in_get _ dimkey_eqb_spec).
      - unfold empty_dofs. rewrite map_map. cbn [fst]. apply topology_NoDup.
      - unfold empty_dofs. apply in_map_iff. exists (get_dimension c, 1). split; [reflexivity | apply cell_in_topology]. }
    rewrite G. cbn [bind dict_get Nat.eqb dict_set app]. reflexivity.
  Qed.

  Lemma qe_leaf_ok : forall (e : qelt (F := F)) tab, leaf_ok (qe_leaf e tab) /\
    forall k i l, has_dofs (qe_entity_dofs e) k i l ->
      l = if dimkey_eqb k (get_dimension (qe_cell e)) && Nat.eqb i 0 then seq 0 (qe_space_dimension e) else [].
  Proof using Type.
    intros e tab. destruct (discontinuous_ok (qe_cell e) (qe_space_dimension e)) as (d & E & Hok & Hk).
    rewrite qe_dofs_eq in E. injection E as <-. split.
    - split; [exact Hok|]. cbn. apply Tables.prod_fold.
    - intros k i l Hl. apply (has_dofs_get (topology (qe_cell e))) in Hl as (_ & _ & ->); [apply Hk | apply topology_NoDup | apply Hok].
  Qed.

  (** A quadrature element made for a cell: everything fits together. *)
  Lemma make_qe_ok : forall poly gl sch macro c deg s n e n',
    gauss_legendre_ok o poly gl -> fiat_scheme_ok o poly sch -> no_empty_product c ->
    make_quadrature_element gl sch macro c deg s n = Ok (e, n') ->
    exists r, e = mkQelt c r /\ mk_quadrature_element c r = Ok e /\ rule_ok r /\ distinct_indices (q_point_set r) /\
      forall i, In i (ps_indices (q_point_set r)) -> n <= ix_id i < n'.
  Proof using vars.
    intros poly gl sch macro c deg s n e n' Hgl Hsch Hne H. unfold make_quadrature_element in H. apply fbind_ok in H as (r & n1 & E & H).
    unfold flift in H. destruct (mk_quadrature_element c r) as [e'|] eqn:Ee; [|discriminate]. cbn in H. injection H as -> <-.
    apply (make_wf o vars poly _ _ _ Hgl Hsch) in E as (_ & H1 & _ & H2 & H3); [|exact Hne].
    exists r. split; [apply mk_qe_eq; exact Ee|]. auto.
  Qed.
End QuadElt.
