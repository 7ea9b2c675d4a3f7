(** Nodality of element trees: the functionals applied to the basis functions. *)
From Coq Require Import String List Arith Lia Bool Ring_theory Ring Permutation.
From Verif Require Import Model.Prelude Model.Cell Model.Element Model.EntityMaps Model.Gem Model.PointSet Model.Evaluation Model.Dual.
From Verif Require Import Spec.Rowmajor Spec.EntityDofs Spec.Layout Spec.Tabulation Spec.Quadrature Spec.Dual.
From Verif Require Import Proofs.Lists Proofs.Cells Proofs.Closure Proofs.Flatten Proofs.EntityDofs Proofs.EntityDofs2 Proofs.GemEval Proofs.Tables Proofs.Tables2 Proofs.Tables3.
From Verif Require Import Proofs.Factor Proofs.Tree Proofs.Single Proofs.Sums Proofs.Quad Proofs.DualLeaf Proofs.DualStep Proofs.DualTree.
Import ListNotations.

Lemma repeat_sum : forall ds, repeat 0 (sum ds) = concat (map (fun d => repeat 0 d) ds).
Proof. induction ds as [|d ds IH]; [reflexivity|]. cbn [sum map concat]. rewrite repeat_app, IH. reflexivity. Qed.

Lemma firstn_pre : forall A n (l r : list A), length l = n -> firstn n (l ++ r) = l.
Proof. intros A n l r <-. rewrite firstn_app, Nat.sub_diag, firstn_all, app_nil_r. reflexivity. Qed.
Lemma skipn_pre : forall A n (l r : list A), length l = n -> skipn n (l ++ r) = r.
Proof. intros A n l r <-. rewrite skipn_app, Nat.sub_diag, skipn_all. reflexivity. Qed.

Section Nodal.
  Context {F : Type} (o : ops F).
  Context (R : ring_theory (f0 o) (f1 o) (fadd o) (fmul o) (fsub o) (fopp o) eq).
  Add Ring FRN : R.
  Context (leaf_terms : leaf F -> list nat -> list (term F)).
  Local Notation elt := (elt F).
  Local Notation dual_of := (dual_of o leaf_terms).
  Local Notation duals_of := (duals_of o leaf_terms).
  Local Notation fsum := (fsum o).
  Local Notation "x * y" := (fmul o x y).
  Local Notation delta b b' := (if list_eq_dec Nat.eq_dec b b' then f1 o else f0 o).

  Lemma apply_ext : forall ts f g, (forall t, In t ts -> f (t_pt t) (t_cmp t) = g (t_pt t) (t_cmp t)) ->
    apply_terms o ts f = apply_terms o ts g.
  Proof using Type.
    intros ts f g H. unfold apply_terms. f_equal. apply map_ext_in. intros t Ht. rewrite H by exact Ht. reflexivity.
  Qed.

  Lemma apply_mul : forall ts a f, apply_terms o ts (fun p v => a * f p v) = a * apply_terms o ts f.
  Proof using R.
    intros ts a f. unfold apply_terms. change (fold_right (fadd o) (f0 o)) with fsum. rewrite <- (fsum_mul_l o R). f_equal. apply map_ext. intros t. clear -R. ring.
  Qed.

  (* ---------------------------------------------------------------- *)
  (** ** Sizes of points and components *)

  Definition leaf_sized (l : leaf F) : Prop := forall b t, In t (leaf_terms l b) ->
    length (t_pt t) = spatial_dimension (lf_cell l) /\ in_shape (lf_vshape l) (t_cmp t).
  Definition leaves_sized (e : elt) : Prop := forall l, leaf_of l e -> leaf_sized l.
  Definition sized (c : cell) (vs : list nat) (t : term F) : Prop :=
    length (t_pt t) = spatial_dimension c /\ in_shape vs (t_cmp t).
  Definition dual_sized (e : elt) : Prop := forall c vs b ts, shaped e -> leaves_sized e ->
    cell_of e = Ok c -> value_shape e = Ok vs -> dual_of e b ts -> forall t, In t ts -> sized c vs t.

  Lemma sized_sub : forall e e' : elt, leaves_sized e -> (forall l, leaf_of l e' -> leaf_of l e) -> leaves_sized e'.
  Proof. intros e e' H Hl l Hll. apply H, Hl, Hll. Qed.

  Lemma embed_sized : forall slots k0 t t', In t' (embed_from o k0 slots t) ->
    t_pt t' = t_pt t /\ exists k, t_cmp t' = [k] /\ k0 <= k < k0 + length slots.
  Proof.
    induction slots as [|s slots IH]; intros k0 t t' H; [destruct H|]. cbn [embed_from length] in *.
    destruct s as [|neg v].
    - destruct (IH (S k0) t t' H) as (E & k & Ek & Hk). split; [exact E|]. exists k. split; [exact Ek | lia].
    - apply in_app_or in H as [H|H].
      + destruct (list_eq_dec Nat.eq_dec v (t_cmp t)); [|destruct H]. destruct H as [<-|[]]. cbn. split; [reflexivity|]. exists k0. split; [reflexivity | lia].
      + destruct (IH (S k0) t t' H) as (E & k & Ek & Hk). split; [exact E|]. exists k. split; [exact Ek | lia].
  Qed.

  Lemma embeds_hdiv_length : forall (w : elt) slots c, embeds hdiv_case w slots -> cell_of w = Ok c -> length slots = spatial_dimension c.
  Proof.
    intros w slots c (a & b & k0 & k1 & vs & c' & _ & _ & _ & _ & Hc & H) Hc'. rewrite Hc in Hc'. injection Hc' as <-.
    inversion H; subst; reflexivity.
  Qed.
  Lemma embeds_hcurl_length : forall (w : elt) slots c, embeds hcurl_case w slots -> cell_of w = Ok c -> length slots = spatial_dimension c.
  Proof.
    intros w slots c (a & b & k0 & k1 & vs & c' & _ & _ & _ & _ & Hc & H) Hc'. rewrite Hc in Hc'. injection Hc' as <-.
    inversion H; subst; try reflexivity. rewrite app_length, repeat_length. simpl. lia.
  Qed.

  Lemma embed_value_shape : forall case (w : elt) slots, embeds case w slots -> exists vs, value_shape w = Ok vs.
  Proof. intros case w slots (a & b & k0 & k1 & vs & c' & _ & _ & _ & Hv & _). exists vs. exact Hv. Qed.

  Lemma factors_sized : forall fs cs vss, Forall dual_sized fs -> Forall shaped fs -> Forall leaves_sized fs ->
    Forall2 (fun f c => cell_of f = Ok c) fs cs -> Forall2 (fun f s => value_shape f = Ok s) fs vss ->
    forall bs tss, duals_of fs bs tss -> forall ts, In ts (cart tss) ->
    length (concat (map t_pt ts)) = sum (map spatial_dimension cs) /\ in_shape (concat vss) (concat (map t_cmp ts)).
  Proof.
    intros fs cs vss HD HS HL Hc. revert vss HD HS HL. induction Hc as [|f c fs cs Hc Hcs IH]; intros vss HD HS HL Hv bs tss H ts Hts;
      inversion Hv as [|? vs ? vss' Hvs Hvss]; subst; inversion H as [|? ? b bs' t tss' Hd Hb H']; subst.
    - destruct Hts as [<-|[]]. split; [reflexivity | constructor].
    - cbn [cart] in Hts. apply in_flat_map in Hts as (x & Hx & Hts). apply in_map_iff in Hts as (r & <- & Hr).
      inversion HD; inversion HS; inversion HL; subst.
      destruct (IH vss' ltac:(assumption) ltac:(assumption) ltac:(assumption) Hvss bs' tss' H' r Hr) as [L1 L2].
      assert (Hsz : sized c vs x) by (match goal with D : dual_sized f |- _ => eapply (D c vs b t); assumption end).
      destruct Hsz as [L3 L4]. cbn [map concat sum]. split; [rewrite app_length; lia | apply in_shape_app; assumption].
  Qed.

  Lemma tree_sized : forall e, dual_sized e.
  Proof.
    induction e as [l|fs IH|b sh tr IH|es IH|e sz off IH|e IH|e IH|e IH|e IH] using elt_ind'; intros c vs bi ts HS HL Hc Hvs H t Ht; inversion H; subst.
    - injection Hc as <-. injection Hvs as <-. apply (HL l (lo_leaf _) bi t Ht).
    - cbn [cell_of] in Hc. apply bind_ok in Hc as (cs & Hcs & Hc). injection Hc as <-. apply mapM_ok in Hcs.
      cbn [value_shape] in Hvs. apply bind_ok in Hvs as (vss & Hss & Hvs). apply product_value_shape_concat in Hvs as ->. apply mapM_ok in Hss.
      apply in_map_iff in Ht as (r & <- & Hr). unfold sized, merge_terms. cbn [t_pt t_cmp spatial_dimension].
      eapply factors_sized; [exact IH | | | exact Hcs | exact Hss | eassumption | exact Hr].
      + apply Forall_forall. intros f Hf. eapply shaped_sub; [exact HS | intros; econstructor; eassumption | intros; econstructor; eassumption].
      + apply Forall_forall. intros f Hf l Hll. apply HL. econstructor; eassumption.
    - cbn [cell_of] in Hc. cbn [value_shape] in Hvs. apply bind_ok in Hvs as (vb & Hvb & Hvs). injection Hvs as <-.
      apply in_map_iff in Ht as (r & <- & Hr). unfold sized. cbn [t_pt t_cmp].
      assert (Hsz : sized c vb r).
      { eapply IH; [| |exact Hc | exact Hvb | eassumption | exact Hr].
        - eapply shaped_sub; [exact HS | intros; constructor; assumption | intros; constructor; assumption].
        - eapply sized_sub; [exact HL | intros; constructor; assumption]. }
      destruct Hsz. split; [assumption | apply in_shape_app; assumption].
    - cbn [value_shape] in Hvs. cbn [cell_of] in Hc. apply bind_ok in Hc as (cp & Hcp & Hc).
      assert (Hdim : c = Hypercube (spatial_dimension cp)).
      { destruct (spatial_dimension cp) as [|[|[|[|d]]]]; try discriminate; injection Hc as <-; reflexivity. }
      subst c. change (sized cp vs t). eapply IH; [| |exact Hcp | exact Hvs | eassumption | exact Ht].
      + eapply shaped_sub; [exact HS | intros; constructor; assumption | intros; constructor; assumption].
      + eapply sized_sub; [exact HL | intros; constructor; assumption].
    - cbn [value_shape] in Hvs. cbn [cell_of] in Hc. eapply IH; [| |exact Hc | exact Hvs | eassumption | exact Ht].
      + eapply shaped_sub; [exact HS | intros; constructor; assumption | intros; constructor; assumption].
      + eapply sized_sub; [exact HL | intros; constructor; assumption].
    - cbn [cell_of] in Hc. cbn [value_shape] in Hvs. rewrite Hc in Hvs. injection Hvs as <-.
      apply in_flat_map in Ht as (t0 & Ht0 & Ht). apply embed_sized in Ht as (E & k & Ek & Hk).
      destruct (embed_value_shape _ _ _ H1) as (vw & Hvw). rewrite (embeds_hdiv_length _ _ _ H1 Hc) in Hk.
      unfold sized. rewrite E, Ek. split; [|constructor; [lia | constructor]].
      refine (proj1 (IH c vw bi ts0 _ _ Hc Hvw _ t0 Ht0)).
      + eapply shaped_sub; [exact HS | intros; constructor; assumption | intros; constructor; assumption].
      + eapply sized_sub; [exact HL | intros; constructor; assumption].
      + assumption.
    - cbn [cell_of] in Hc. cbn [value_shape] in Hvs. rewrite Hc in Hvs. injection Hvs as <-.
      apply in_flat_map in Ht as (t0 & Ht0 & Ht). apply embed_sized in Ht as (E & k & Ek & Hk).
      destruct (embed_value_shape _ _ _ H1) as (vw & Hvw). rewrite (embeds_hcurl_length _ _ _ H1 Hc) in Hk.
      unfold sized. rewrite E, Ek. split; [|constructor; [lia | constructor]].
      refine (proj1 (IH c vw bi ts0 _ _ Hc Hvw _ t0 Ht0)).
      + eapply shaped_sub; [exact HS | intros; constructor; assumption | intros; constructor; assumption].
      + eapply sized_sub; [exact HL | intros; constructor; assumption].
      + assumption.
  Qed.

  (* ---------------------------------------------------------------- *)
  (** ** Nodality *)

  Definition leaves_nodal (e : elt) : Prop := forall l, leaf_of l e ->
    prod (lf_ishape l) = lf_dim l /\ leaf_sized l /\ leaf_nodal o leaf_terms l.

  Definition nodal (e : elt) : Prop := forall c vs b', all_checked e -> shaped e -> sumless e -> leaves_nodal e ->
    cell_of e = Ok c -> value_shape e = Ok vs -> in_shape (index_shape e) b' ->
    exists f : list F -> list nat -> F,
      (forall pt v, length pt = spatial_dimension c -> in_shape vs v ->
         value_of o e (repeat 0 (spatial_dimension c)) (get_dimension c, 0) pt (rowmajor (index_shape e) b') v (f pt v)) /\
      forall b ts, in_shape (index_shape e) b -> dual_of e b ts -> apply_terms o ts f = delta b b'.

  Lemma nodal_sized : forall e, leaves_nodal e -> leaves_sized e.
  Proof. intros e H l Hl. apply H. exact Hl. Qed.
  Lemma nodal_sub : forall e e' : elt, leaves_nodal e -> (forall l, leaf_of l e' -> leaf_of l e) -> leaves_nodal e'.
  Proof. intros e e' H Hl l Hll. apply H, Hl, Hll. Qed.
  Lemma nodal_prod : forall e, leaves_nodal e -> prod (index_shape e) = space_dimension e.
  Proof. intros e H. apply dims_prod. intros l Hl. apply H. exact Hl. Qed.

  Lemma factors_nodal : forall fs cs vss, Forall nodal fs ->
    Forall all_checked fs -> Forall shaped fs -> Forall sumless fs -> Forall leaves_nodal fs ->
    Forall2 (fun f c => cell_of f = Ok c) fs cs -> Forall2 (fun f s => value_shape f = Ok s) fs vss ->
    forall bs', Forall2 in_shape (map index_shape fs) bs' ->
    exists f : list F -> list nat -> F,
      (forall pt v, length pt = sum (map spatial_dimension cs) -> in_shape (concat vss) v ->
         exists pts vs xs, pt = concat pts /\ v = concat vs /\ f pt v = fold_right (fmul o) (f1 o) xs /\
           values_of o fs (map (fun c => repeat 0 (spatial_dimension c)) cs) (combine (map get_dimension cs) (repeat 0 (length fs)))
             pts (map2 (fun f b => ravel (index_shape f) b) fs bs') vs xs) /\
      forall bs tss, duals_of fs bs tss ->
        apply_terms o (map (merge_terms o) (cart tss)) f = delta (concat bs) (concat bs').
  Proof using R.
    intros fs cs vss HD HC HS HM HL Hc. revert vss HD HC HS HM HL. induction Hc as [|e c fs cs Hc Hcs IH]; intros vss HD HC HS HM HL Hv bs' Hbs;
      inversion Hv as [|? vs ? vss' Hvs Hvss]; subst; cbn [map] in Hbs; inversion Hbs as [|? b' ? bs'' Hb' Hbs']; subst.
    - exists (fun _ _ => f1 o). split.
      + intros pt v Hpt Hvv. exists [], [], []. destruct pt; [|discriminate]. inversion Hvv; subst. repeat split; constructor.
      + intros bs tss H. inversion H; subst. cbn. clear -R. ring.
    - inversion HD as [|? ? D1 D2]; inversion HC as [|? ? C1 C2]; inversion HS as [|? ? S1 S2]; inversion HM as [|? ? M1 M2]; inversion HL as [|? ? L1 L2]; subst.
      destruct (D1 c vs b' C1 S1 M1 L1 Hc Hvs Hb') as (f & Hf & Hdf).
      destruct (IH vss' D2 C2 S2 M2 L2 Hvss bs'' Hbs') as (g & Hg & Hdg).
      set (d := spatial_dimension c). set (m := length vs).
      exists (fun p v => f (firstn d p) (firstn m v) * g (skipn d p) (skipn m v)). split.
      + intros pt v Hpt Hvv. cbn [map sum concat] in *. fold d in Hpt.
        apply in_shape_app_inv in Hvv as (v1 & v2 & -> & Hv1 & Hv2).
        assert (Lv1 : length v1 = m) by (symmetry; apply in_shape_length; exact Hv1).
        rewrite (firstn_pre _ m v1 v2 Lv1), (skipn_pre _ m v1 v2 Lv1).
        destruct (Hg (skipn d pt) v2) as (pts & wvs & xs & Ept & Ev & Eg & Hvals); [rewrite skipn_length; lia | exact Hv2|].
        exists (firstn d pt :: pts), (v1 :: wvs), (f (firstn d pt) v1 :: xs). cbn [concat fold_right length repeat combine map map2].
        split; [rewrite <- Ept, firstn_skipn; reflexivity|]. split; [rewrite Ev; reflexivity|]. split; [rewrite Eg; reflexivity|].
        assert (Lf : length (firstn d pt) = d) by (rewrite firstn_length; lia).
        econstructor; [exact Hc | apply repeat_length | cbn [fst]; rewrite total_dimension; exact Lf | | exact Hvs | exact Hv1 | | exact Hvals].
        * rewrite <- (nodal_prod e L1). apply ravel_lt. exact Hb'.
        * rewrite <- rowmajor_ravel by (apply in_shape_length; exact Hb'). apply Hf; assumption.
      + intros bs tss H. inversion H as [|? ? b bs1 ts tss' Hd Hb H']; subst. rewrite (apply_merge o R).
        rewrite (apply_ext ts _ (fun p v => apply_terms o (map (merge_terms o) (cart tss')) g * f p v)).
        2:{ intros t Ht. destruct (tree_sized e c vs b ts S1 (nodal_sized e L1) Hc Hvs Hd t Ht) as [Lp Lc]. fold d in Lp.
            apply in_shape_length in Lc. fold m in Lc.
            transitivity (f (t_pt t) (t_cmp t) * apply_terms o (map (merge_terms o) (cart tss')) g); [|clear -R; ring].
            rewrite <- apply_mul. apply apply_ext. intros t' _.
            symmetry in Lc. rewrite (firstn_pre _ d _ _ Lp), (skipn_pre _ d _ _ Lp), (firstn_pre _ m _ _ Lc), (skipn_pre _ m _ _ Lc). reflexivity. }
        rewrite apply_mul, (Hdf b ts Hb Hd), (Hdg bs1 tss' H').
        cbn [concat]. assert (Lb : length b = length b') by (rewrite <- (in_shape_length _ _ Hb), <- (in_shape_length _ _ Hb'); reflexivity).
        destruct (list_eq_dec Nat.eq_dec b b') as [->|N1], (list_eq_dec Nat.eq_dec (concat bs1) (concat bs'')) as [E2|N2],
          (list_eq_dec Nat.eq_dec (_ ++ _) _) as [E|N]; try (clear -R; ring).
        * exfalso. apply N. rewrite E2. reflexivity.
        * exfalso. apply app_inj_len in E as [_ E]; [congruence | reflexivity].
        * exfalso. apply app_inj_len in E as [E _]; [congruence | exact Lb].
        * exfalso. apply app_inj_len in E as [E _]; [congruence | exact Lb].
  Qed.

  Lemma ravel_slices : forall (fs : list elt) bs, Forall leaves_nodal fs -> Forall2 in_shape (map index_shape fs) bs ->
    rowmajor (concat (map index_shape fs)) (concat bs)
    = rowmajor (map space_dimension fs) (map2 (fun f b => ravel (index_shape f) b) fs bs).
  Proof.
    intros fs bs HL Hb.
    assert (G : length (concat (map index_shape fs)) = length (concat bs) /\ length fs = length bs /\
      ravel (concat (map index_shape fs)) (concat bs) = ravel (map space_dimension fs) (map2 (fun f b => ravel (index_shape f) b) fs bs) /\
      prod (concat (map index_shape fs)) = prod (map space_dimension fs)).
    { revert bs Hb. induction HL as [|f fs Hf HL IH]; intros bs Hb; cbn [map] in Hb; inversion Hb as [|? b ? bs' Hb1 Hb2]; subst; [repeat split; reflexivity|].
      destruct (IH bs' Hb2) as (I1 & I2 & I3 & I4). cbn [map concat map2 ravel prod fold_right length].
      assert (Lb : length (index_shape f) = length b) by (apply in_shape_length; exact Hb1).
      rewrite !app_length, I1, I2, Lb. repeat (split; [reflexivity|]). rewrite ravel_app by exact Lb. rewrite prod_app, I3, I4, (nodal_prod f Hf). split; reflexivity. }
    destruct G as (G1 & G2 & G3 & _). rewrite !rowmajor_ravel; [exact G3 | | exact G1].
    rewrite map_length, map2_length_eq; [reflexivity | exact G2].
  Qed.

  Lemma product_nodal : forall fs, Forall nodal fs -> nodal (ETensorProduct fs).
  Proof using R.
    intros fs IH c vs b' HC HS HM HL Hc Hvs Hb'.
    cbn [cell_of] in Hc. apply bind_ok in Hc as (cs & Hcs & Hc). injection Hc as <-. apply mapM_ok in Hcs.
    cbn [value_shape] in Hvs. apply bind_ok in Hvs as (vss & Hss & Hvs). apply product_value_shape_concat in Hvs as ->. apply mapM_ok in Hss.
    change (index_shape (ETensorProduct fs)) with (concat (map index_shape fs)) in *.
    apply in_shape_concat in Hb' as (bs' & -> & Hbs').
    assert (HL' : Forall leaves_nodal fs) by (apply Forall_forall; intros f Hf l Hll; apply HL; econstructor; eassumption).
    destruct (factors_nodal fs cs vss) with (bs' := bs') as (f & Hf & Hdf); auto.
    { apply Forall_forall. intros f Hf x Hx. apply HC. econstructor; eassumption. }
    { apply Forall_forall. intros f Hf. eapply shaped_sub; [exact HS | intros; econstructor; eassumption | intros; econstructor; eassumption]. }
    { apply Forall_forall. intros f Hf x Hx. apply HM. econstructor; eassumption. }
    exists f. split.
    - intros pt v Hpt Hv. cbn [spatial_dimension] in *. destruct (Hf pt v Hpt Hv) as (pts & wvs & xs & -> & -> & -> & Hvals).
      rewrite repeat_sum, map_map. cbn [get_dimension]. rewrite (ravel_slices fs bs' HL' Hbs').
      replace (DT (map get_dimension cs), 0) with (DT (map get_dimension cs), rowmajor (repeat 1 (length fs)) (repeat 0 (length fs))) by (rewrite rowmajor_zeros; reflexivity).
      eapply vo_product; [exact Hvals | | rewrite map_length, repeat_length; symmetry; apply (Forall2_length _ _ _ _ _ Hcs) | apply in_shape_zeros].
      clear -Hcs. induction Hcs as [|f c fs cs H Hcs IHf]; [constructor|]. cbn [map length repeat combine]. constructor; [|exact IHf].
      exists c. split; [exact H | apply cell_in_topology].
    - intros b ts Hb H. inversion H; subst. apply Hdf. assumption.
  Qed.

  Lemma tensor_nodal : forall e sh tr, nodal e -> nodal (ETensor e sh tr).
  Proof using R.
    intros e sh tr IH c vs b' HC HS HM HL Hc Hvs Hb'.
    cbn [cell_of] in Hc. cbn [value_shape] in Hvs. apply bind_ok in Hvs as (vb & Hvb & Hvs). injection Hvs as <-.
    assert (HL' : leaves_nodal e) by (eapply nodal_sub; [exact HL | intros; constructor; assumption]).
    pose proof (nodal_prod e HL') as Hdp.
    assert (Hsplit : exists i s, in_shape (index_shape e) i /\ in_shape sh s /\ b' = (if tr then s ++ i else i ++ s) /\
        rowmajor (index_shape (ETensor e sh tr)) b' =
          if tr then rowmajor sh s * space_dimension e + rowmajor (index_shape e) i
          else rowmajor (index_shape e) i * fold_right Nat.mul 1 sh + rowmajor sh s).
    { change (index_shape (ETensor e sh tr)) with (if tr then sh ++ index_shape e else index_shape e ++ sh) in *.
      destruct tr; apply in_shape_app_inv in Hb' as (x & y & -> & Hx & Hy).
      - exists y, x. repeat (split; [assumption || reflexivity|]).
        rewrite !rowmajor_ravel by (rewrite ?app_length, ?(in_shape_length _ _ Hx), ?(in_shape_length _ _ Hy); reflexivity).
        rewrite ravel_app by (apply in_shape_length; exact Hx). rewrite Hdp. reflexivity.
      - exists x, y. repeat (split; [assumption || reflexivity|]).
        rewrite !rowmajor_ravel by (rewrite ?app_length, ?(in_shape_length _ _ Hx), ?(in_shape_length _ _ Hy); reflexivity).
        rewrite ravel_app by (apply in_shape_length; exact Hx). reflexivity. }
    destruct Hsplit as (i' & s' & Hi' & Hs' & -> & Erow).
    destruct (IH c vb i') as (f & Hf & Hdf); auto.
    { eapply checked_sub; [exact HC | intros; constructor; assumption]. }
    { eapply shaped_sub; [exact HS | intros; constructor; assumption | intros; constructor; assumption]. }
    { eapply sumless_sub; [exact HM | intros; constructor; assumption]. }
    assert (Hlt : rowmajor (index_shape e) i' < space_dimension e).
    { rewrite rowmajor_ravel by (apply in_shape_length; exact Hi'). rewrite <- Hdp. apply ravel_lt. exact Hi'. }
    exists (fun p v => if list_eq_dec Nat.eq_dec s' (firstn (length sh) v) then f p (skipn (length sh) v) else f0 o). split.
    - intros pt v Hpt Hv. apply in_shape_app_inv in Hv as (t & v' & -> & Ht & Hv').
      pose proof (in_shape_length _ _ Ht) as Lt.
      rewrite (firstn_pre _ (length sh) t v' (eq_sym Lt)), (skipn_pre _ (length sh) t v' (eq_sym Lt)), Erow.
      apply vo_tensor; [apply Hf; assumption | exact Hlt | exact Hs' | exact Ht].
    - intros b ts Hb H. inversion H as [| |? ? ? i s ts0 Hd Hi Hs| | | |]; subst.
      pose proof (in_shape_length _ _ Hs) as Ls.
      transitivity (apply_terms o ts0 (fun p v => delta s s' * f p v)).
      { unfold apply_terms. rewrite map_map. cbn [t_w t_pt t_cmp]. f_equal. apply map_ext. intros t. f_equal.
        rewrite (firstn_pre _ (length sh) s _ (eq_sym Ls)), (skipn_pre _ (length sh) s _ (eq_sym Ls)).
        destruct (list_eq_dec Nat.eq_dec s' s), (list_eq_dec Nat.eq_dec s s'); try congruence; clear -R; ring. }
      rewrite apply_mul, (Hdf i ts0 Hi Hd).
      pose proof (in_shape_length _ _ Hs') as Ls'. pose proof (in_shape_length _ _ Hi) as Li. pose proof (in_shape_length _ _ Hi') as Li'.
      destruct (list_eq_dec Nat.eq_dec s s') as [->|N1], (list_eq_dec Nat.eq_dec i i') as [->|N2];
        destruct (list_eq_dec Nat.eq_dec (if tr then _ else _) _) as [E|N]; try (clear -R; ring); exfalso.
      + apply N. reflexivity.
      + destruct tr; apply app_inj_len in E; try lia; destruct E; congruence.
      + destruct tr; apply app_inj_len in E; try lia; destruct E; congruence.
      + destruct tr; apply app_inj_len in E; try lia; destruct E; congruence.
  Qed.

  Lemma flattened_nodal : forall p, nodal p -> nodal (EFlattened p).
  Proof using Type.
    intros p IH c vs b' HC HS HM HL Hc Hvs Hb'. cbn [value_shape] in Hvs. cbn [cell_of] in Hc. apply bind_ok in Hc as (cp & Hcp & Hc).
    assert (Hdim : c = Hypercube (spatial_dimension cp)).
    { destruct (spatial_dimension cp) as [|[|[|[|d]]]]; try discriminate; injection Hc as <-; reflexivity. }
    assert (Hcube : cube_cell cp) by (destruct HS as ((_ & S) & _); eapply S; [apply se_refl | exact Hcp]). subst c.
    destruct (IH cp vs b') as (f & Hf & Hdf); auto.
    { eapply checked_sub; [exact HC | intros; constructor; assumption]. }
    { eapply shaped_sub; [exact HS | intros; constructor; assumption | intros; constructor; assumption]. }
    { eapply sumless_sub; [exact HM | intros; constructor; assumption]. }
    { eapply nodal_sub; [exact HL | intros; constructor; assumption]. }
    exists f. split.
    - intros pt v Hpt Hv. cbn [spatial_dimension get_dimension]. eapply vo_flattened; [exact Hcp | apply unflatten_cell; exact Hcube | apply Hf; assumption].
    - intros b ts Hb H. inversion H; subst. apply Hdf; assumption.
  Qed.

  Lemma discontinuous_nodal : forall p, nodal p -> nodal (EDiscontinuous p).
  Proof using Type.
    intros p IH c vs b' HC HS HM HL Hc Hvs Hb'. cbn [value_shape] in Hvs. cbn [cell_of] in Hc.
    destruct (IH c vs b') as (f & Hf & Hdf); auto.
    { eapply checked_sub; [exact HC | intros; constructor; assumption]. }
    { eapply shaped_sub; [exact HS | intros; constructor; assumption | intros; constructor; assumption]. }
    { eapply sumless_sub; [exact HM | intros; constructor; assumption]. }
    { eapply nodal_sub; [exact HL | intros; constructor; assumption]. }
    exists f. split.
    - intros pt v Hpt Hv. constructor. apply Hf; assumption.
    - intros b ts Hb H. inversion H; subst. apply Hdf; assumption.
  Qed.

  (** Each component of the wrapped value is in exactly one slot. *)
  Lemma pull_slots : forall slots k0 (h g : list nat -> F) v,
    (forall k s, nth_error slots k = Some s -> g [k0 + k] = slot_val o h s) ->
    pull o k0 slots g v = fsum (map (fun s => match s with SZero => f0 o | SComp _ w => if list_eq_dec Nat.eq_dec w v then h v else f0 o end) slots).
  Proof using R.
    induction slots as [|s slots IH]; intros k0 h g v H; [reflexivity|]. unfold pull. cbn [length seq combine map fst snd].
    change (fsum (?x :: ?l)) with (fadd o x (fsum l)). f_equal.
    - specialize (H 0 s eq_refl). rewrite Nat.add_0_r in H. destruct s as [|neg w]; [reflexivity|].
      destruct (list_eq_dec Nat.eq_dec w v) as [->|]; [|reflexivity]. rewrite H. cbn [Tabulation.slot_val]. destruct neg; clear -R; ring.
    - apply (IH (S k0) h g v). intros k s' Hk. rewrite <- (H (S k) s' Hk). f_equal. f_equal. lia.
  Qed.

  Lemma slots_once : forall tr v (x : F), in_shape (wshape_of tr) v ->
    fsum (map (fun s => match s with SZero => f0 o | SComp _ w => if list_eq_dec Nat.eq_dec w v then x else f0 o end) (slots_of tr)) = x.
  Proof using R.
    intros tr v x Hv. assert (Z : forall n, fsum (map (fun s => match s with SZero => f0 o | SComp _ w => if list_eq_dec Nat.eq_dec w v then x else f0 o end) (repeat SZero n)) = f0 o).
    { intros n. apply (fsum_none o R). intros s Hs. apply repeat_spec in Hs as ->. reflexivity. }
    destruct tr as [ng pos n| | |]; cbn [slots_of wshape_of] in *.
    - inversion Hv; subst. rewrite !map_app, !(fsum_app o R), !Z. cbn. clear -R. ring.
    - inversion Hv as [|? k ? r Hk Hr]; subst. inversion Hr; subst. destruct k as [|[|k]]; [| |lia]; cbn; clear -R; ring.
    - inversion Hv as [|? k ? r Hk Hr]; subst. inversion Hr; subst. destruct k as [|[|k]]; [| |lia]; cbn; clear -R; ring.
    - inversion Hv as [|? k ? r Hk Hr]; subst. inversion Hr; subst. destruct k as [|[|k]]; [| |lia]; cbn; clear -R; ring.
  Qed.

  Lemma wrapper_apply : forall tr f ts, (forall t, In t ts -> in_shape (wshape_of tr) (t_cmp t)) ->
    apply_terms o (flat_map (embed_term o (slots_of tr)) ts)
      (fun p k => match k with [j] => match nth_error (slots_of tr) j with Some s => slot_val o (f p) s | None => f0 o end | _ => f0 o end)
    = apply_terms o ts f.
  Proof using R.
    intros tr f ts H.
    set (G := fun (p : list F) k => match k with [j] => match nth_error (slots_of tr) j with Some s => slot_val o (f p) s | None => f0 o end | _ => f0 o end).
    transitivity (apply_terms o ts (fun p v => pull o 0 (slots_of tr) (G p) v)).
    { unfold apply_terms at 1. rewrite map_flat_map. change (fold_right (fadd o) (f0 o)) with fsum. rewrite (fsum_flat_map o R).
      unfold apply_terms. change (fold_right (fadd o) (f0 o)) with fsum. f_equal. apply map_ext. intros t. apply (embed_pull o R (slots_of tr) t G 0). }
    apply apply_ext. intros t Ht. rewrite (pull_slots (slots_of tr) 0 (f (t_pt t)) (G (t_pt t)) (t_cmp t)).
    - apply slots_once. apply H. exact Ht.
    - intros k s Hk. cbn [Nat.add]. unfold G. rewrite Hk. reflexivity.
  Qed.

  Lemma hdiv_nodal : forall w, nodal w -> nodal (EHDiv w).
  Proof using R.
    intros w IH c vs b' HC HS HM HL Hc Hvs Hb'. cbn [cell_of] in Hc. cbn [value_shape] in Hvs. rewrite Hc in Hvs. injection Hvs as <-.
    destruct (HC _ (se_refl _)) as (tr & Htr).
    assert (Hem : exists slots, embeds hdiv_case w slots) by (destruct HS as (_ & _ & _ & S4 & _); apply S4, se_refl).
    destruct Hem as (slots & Hem). destruct (hdiv_select w slots tr Hem Htr) as (Es & Hws & c' & Hc' & Hl).
    rewrite Hc in Hc'. injection Hc' as <-.
    assert (HS' : shaped w) by (eapply shaped_sub; [exact HS | intros; constructor; assumption | intros; constructor; assumption]).
    assert (HL' : leaves_nodal w) by (eapply nodal_sub; [exact HL | intros; constructor; assumption]).
    destruct (IH c (wshape_of tr) b') as (f & Hf & Hdf); auto.
    { eapply checked_sub; [exact HC | intros; constructor; assumption]. }
    { eapply sumless_sub; [exact HM | intros; constructor; assumption]. }
    exists (fun p k => match k with [j] => match nth_error (slots_of tr) j with Some s => slot_val o (f p) s | None => f0 o end | _ => f0 o end). split.
    - intros pt v Hpt Hv. inversion Hv as [|? k ? r Hk Hr]; subst. inversion Hr; subst.
      change (index_shape (EHDiv w)) with (index_shape w) in *.
      destruct (nth_error (slots_of tr) k) as [s|] eqn:En; [|apply nth_error_None in En; lia].
      destruct s as [|neg u]; cbn [Tabulation.slot_val]; [eapply vo_hdiv_zero; eassumption|].
      eapply vo_hdiv; [exact Hem | exact En|]. apply Hf; [exact Hpt|]. apply (slots_of_comp tr neg). apply (nth_error_In _ _ En).
    - intros b ts Hb H. inversion H as [| | | | |? slots' ? ts0 Hem' Hd|]; subst.
      rewrite (embeds_fun _ _ _ _ hdiv_case_fun Hem' Hem), wrapper_apply; [apply Hdf; assumption|].
      intros t Ht. apply (tree_sized w c (wshape_of tr) b ts0 HS' (nodal_sized w HL') Hc Hws Hd t Ht).
  Qed.

  Lemma hcurl_nodal : forall w, nodal w -> nodal (EHCurl w).
  Proof using R.
    intros w IH c vs b' HC HS HM HL Hc Hvs Hb'. cbn [cell_of] in Hc. cbn [value_shape] in Hvs. rewrite Hc in Hvs. injection Hvs as <-.
    destruct (HC _ (se_refl _)) as (tr & Htr).
    assert (Hem : exists slots, embeds hcurl_case w slots) by (destruct HS as (_ & _ & _ & _ & S5); apply S5, se_refl).
    destruct Hem as (slots & Hem). destruct (hcurl_select w slots tr Hem Htr) as (Es & Hws & c' & Hc' & Hl).
    rewrite Hc in Hc'. injection Hc' as <-.
    assert (HS' : shaped w) by (eapply shaped_sub; [exact HS | intros; constructor; assumption | intros; constructor; assumption]).
    assert (HL' : leaves_nodal w) by (eapply nodal_sub; [exact HL | intros; constructor; assumption]).
    destruct (IH c (wshape_of tr) b') as (f & Hf & Hdf); auto.
    { eapply checked_sub; [exact HC | intros; constructor; assumption]. }
    { eapply sumless_sub; [exact HM | intros; constructor; assumption]. }
    exists (fun p k => match k with [j] => match nth_error (slots_of tr) j with Some s => slot_val o (f p) s | None => f0 o end | _ => f0 o end). split.
    - intros pt v Hpt Hv. inversion Hv as [|? k ? r Hk Hr]; subst. inversion Hr; subst.
      change (index_shape (EHCurl w)) with (index_shape w) in *.
      destruct (nth_error (slots_of tr) k) as [s|] eqn:En; [|apply nth_error_None in En; lia].
      destruct s as [|neg u]; cbn [Tabulation.slot_val]; [eapply vo_hcurl_zero; eassumption|].
      eapply vo_hcurl; [exact Hem | exact En|]. apply Hf; [exact Hpt|]. apply (slots_of_comp tr neg). apply (nth_error_In _ _ En).
    - intros b ts Hb H. inversion H as [| | | | | |? slots' ? ts0 Hem' Hd]; subst.
      rewrite (embeds_fun _ _ _ _ hcurl_case_fun Hem' Hem), wrapper_apply; [apply Hdf; assumption|].
      intros t Ht. apply (tree_sized w c (wshape_of tr) b ts0 HS' (nodal_sized w HL') Hc Hws Hd t Ht).
  Qed.

  Theorem tree_nodal : forall e, nodal e.
  Proof using R.
    induction e as [l|fs IH|b sh t IH|es IH|e sz off IH|e IH|e IH|e IH|e IH] using elt_ind'.
    - intros c vs b' HC HS HM HL Hc Hvs Hb'. injection Hc as <-. injection Hvs as <-. destruct (HL l (lo_leaf _)) as (_ & _ & Hn).
      eexists. split; [intros pt v Hpt Hv; constructor|]. intros b ts Hb H. inversion H; subst.
      apply (Hn b b' Hb Hb').
    - apply product_nodal; exact IH.
    - apply tensor_nodal; exact IH.
    - intros c vs b' HC HS HM. destruct (HM _ (se_refl _)).
    - intros c vs b' HC HS HM. destruct (HM _ (se_refl _)).
    - apply flattened_nodal; exact IH.
    - apply discontinuous_nodal; exact IH.
    - apply hdiv_nodal; exact IH.
    - apply hcurl_nodal; exact IH.
  Qed.
End Nodal.
