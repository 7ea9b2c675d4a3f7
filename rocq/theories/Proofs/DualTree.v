(** Dual bases of element trees. *)
From Coq Require Import String List Arith Lia Bool Ring_theory Ring Permutation.
From Verif Require Import Model.Prelude Model.Cell Model.Element Model.EntityMaps Model.Gem Model.PointSet Model.Evaluation Model.Dual.
From Verif Require Import Spec.Rowmajor Spec.EntityDofs Spec.Layout Spec.Tabulation Spec.Quadrature Spec.Dual.
From Verif Require Import Proofs.Lists Proofs.Cells Proofs.Closure Proofs.Flatten Proofs.EntityDofs Proofs.EntityDofs2 Proofs.GemEval Proofs.Tables Proofs.Tables2 Proofs.Tables3.
From Verif Require Import Proofs.Factor Proofs.Tree Proofs.Sums Proofs.Quad Proofs.DualLeaf Proofs.DualStep.
Import ListNotations.
Open Scope fresh_scope.

(* ------------------------------------------------------------------ *)
(** ** The cell as an entity *)

Lemma total_dimension : forall c, dk_total (get_dimension c) = spatial_dimension c.
Proof.
  induction c as [d|cs IH|d] using cell_ind'; try reflexivity.
  induction IH as [|c cs Hc _ IHc]; [reflexivity|]. cbn [get_dimension map dk_total spatial_dimension sum fold_right] in *.
  rewrite Hc. f_equal. exact IHc.
Qed.

Lemma unflatten_cell : forall c, cube_cell c -> unflatten_entity c (Some (spatial_dimension c, 0)) = Ok (get_dimension c, 0).
Proof.
  intros c Hc. destruct (unflatten_bijective c) as (H1 & H2 & _ & H4).
  destruct (H1 (get_dimension c) 0) as (i & Hi & _).
  { exists 1. split; [apply cell_in_topology | cbn; lia]. }
  rewrite total_dimension in Hi.
  assert (Hent : entity_of (topology (Hypercube (spatial_dimension c))) (DI (spatial_dimension c), i)) by (apply (H4 Hc); eexists; exact Hi).
  destruct Hent as (m & Hm & Hlt). cbn [fst snd] in *.
  rewrite (topology_unique _ _ _ _ Hm (cell_in_topology (Hypercube (spatial_dimension c)))) in Hlt.
  replace i with 0 in Hi by lia. exact Hi.
Qed.

Lemma rowmajor_zeros : forall n, rowmajor (repeat 1 n) (repeat 0 n) = 0.
Proof. intros n. rewrite rowmajor_ravel by (rewrite !repeat_length; reflexivity). induction n as [|n IH]; [reflexivity|]. cbn [repeat ravel]. rewrite IH. lia. Qed.

Lemma in_shape_zeros : forall n, in_shape (repeat 1 n) (repeat 0 n).
Proof. induction n; constructor; [lia | assumption]. Qed.

Section Tree.
  Context {F : Type} (o : ops F) (vars : string -> list nat -> F).
  Context (R : ring_theory (f0 o) (f1 o) (fadd o) (fmul o) (fsub o) (fopp o) eq).
  Add Ring FRT : R.
  Context (leaf_dual : leaf F -> fresh (gem F * pset F)).
  Context (leaf_terms : leaf F -> list nat -> list (term F)).
  Local Notation elt := (elt F).
  Local Notation eval := (eval o vars).
  Local Notation dual_of := (dual_of o leaf_terms).
  Local Notation duals_of := (duals_of o leaf_terms).
  Local Notation dual_basis := (dual_basis o leaf_dual).

  Definition duals_fine (e : elt) : Prop := forall l, leaf_of l e -> leaf_dualises o vars leaf_terms leaf_dual l.

  Definition dualises (e : elt) : Prop :=
    forall n c vs, all_checked e -> shaped e -> sumless e -> duals_fine e ->
      cell_of e = Ok c -> value_shape e = Ok vs ->
      exists Q ps n', dual_basis e n = Ok ((Q, ps), n') /\ fits e (get_dimension c, 0) ps /\
        psdim ps = spatial_dimension c /\
        dual_right o vars (dual_of e) (index_shape e) vs Q ps n n'.

  Lemma sumless_sub : forall e e' : elt, sumless e -> (forall s, subelt s e' -> subelt s e) -> sumless e'.
  Proof. intros e e' H Hs s Hss. apply H, Hs, Hss. Qed.
  Lemma duals_fine_sub : forall e e' : elt, duals_fine e -> (forall l, leaf_of l e' -> leaf_of l e) -> duals_fine e'.
  Proof. intros e e' H Hl l Hll. apply H, Hl, Hll. Qed.

  (** What is known of one factor. *)
  Definition factor_right (f : elt) (cv : cell * list nat) (r : dpart F) : Prop :=
    d_ish r = index_shape f /\ d_vsh r = snd cv /\ fits f (get_dimension (fst cv), 0) (d_ps r) /\ psdim (d_ps r) = spatial_dimension (fst cv) /\
    gshape (d_Q r) = d_ish r ++ d_vsh r /\
    (forall x, In x (gfree (d_Q r)) <-> In x (map ix_id (ps_indices (d_ps r)))) /\
    ps_ok (d_ps r) /\ distinct_indices (d_ps r) /\
    forall b, in_shape (index_shape f) b -> exists ts, dual_of f b ts /\
      forall g env, contract o vars (d_ps r) (d_vsh r) (d_Q r) (fun e v => g (pt_at (d_ps r) e) v) env b = apply_terms o ts g.

  Lemma factors_dual : forall fs cs vss, Forall dualises fs ->
    Forall all_checked fs -> Forall shaped fs -> Forall sumless fs -> Forall duals_fine fs ->
    Forall2 (fun f c => cell_of f = Ok c) fs cs -> Forall2 (fun f s => value_shape f = Ok s) fs vss ->
    forall n, exists rs n', mapF dual_basis fs n = Ok (map (fun r => (d_Q r, d_ps r)) rs, n') /\ n <= n' /\
      map d_ish rs = map index_shape fs /\ map d_vsh rs = vss /\
      Forall2 (fun fc r => factor_right (fst fc) (snd fc) r) (combine fs (combine cs vss)) rs /\
      length rs = length fs /\
      (forall r i, In r rs -> In i (ps_indices (d_ps r)) -> n <= ix_id i < n') /\
      NoDup (map ix_id (flat_map (fun r => ps_indices (d_ps r)) rs)).
  Proof using Type.
    intros fs cs vss IH HC HS HM HL Hc Hv. revert vss IH HC HS HM HL Hv.
    induction Hc as [|f c fs cs Hc Hcs IHf]; intros vss IH HC HS HM HL Hv n; inversion Hv as [|? vs ? vss' Hvs Hvss]; subst.
    - exists [], n. split; [reflexivity|]. split; [lia|]. split; [reflexivity|]. split; [reflexivity|]. split; [constructor|]. split; [reflexivity|]. split; [intros r i [] | constructor].
    - inversion IH as [|? ? IH1 IH2]; inversion HC; inversion HS; inversion HM; inversion HL; subst.
      destruct (IH1 n c vs) as (Q & ps & n1 & E1 & Hfit & Hpd & Hle & Hsh & Hfr & Hok & Hnd & Hids & Hcon); auto.
      destruct (IHf vss') with (n := n1) as (rs & n2 & E2 & Hle2 & M1 & M2 & Hrs & Hlen & Hids2 & Hnd2); auto.
      exists (mkDpart (index_shape f) vs Q ps :: rs), n2. cbn [mapF map d_Q d_ps d_ish d_vsh].
      split. { rewrite (fbind_eq _ _ _ _ _ _ _ E1), (fbind_eq _ _ _ _ _ _ _ E2). reflexivity. }
      split; [lia|]. split; [rewrite M1; reflexivity|]. split; [rewrite M2; reflexivity|]. split.
      { cbn [combine]. constructor; [|exact Hrs]. unfold factor_right. cbn [fst snd d_Q d_ps d_ish d_vsh]. repeat (split; [assumption || reflexivity|]). exact Hcon. }
      split; [simpl; rewrite Hlen; reflexivity|]. split.
      { intros r i [<-|Hr] Hi; [apply Hids in Hi; lia | apply (Hids2 r i Hr) in Hi; lia]. }
      cbn [flat_map d_ps]. rewrite map_app. apply NoDup_app_intro; [exact Hnd | exact Hnd2|].
      intros x Hx Hx2. apply in_map_iff in Hx as (i & <- & Hi). apply in_map_iff in Hx2 as (j & Ej & Hj).
      apply in_flat_map in Hj as (r & Hr & Hj). apply Hids in Hi. apply (Hids2 r j Hr) in Hj. lia.
  Qed.

  Lemma product_dualises : forall fs, Forall dualises fs -> dualises (ETensorProduct fs).
  Proof using R.
    intros fs IH n c vs HC HS HM HL Hc Hvs.
    cbn [cell_of] in Hc. apply bind_ok in Hc as (cs & Hcs & Hc). injection Hc as <-.
    cbn [value_shape] in Hvs. apply bind_ok in Hvs as (vss & Hss & Hvs). apply product_value_shape_concat in Hvs as ->.
    assert (Hne : fs <> []) by (destruct HS as ((NE & _) & _); apply (NE fs), se_refl).
    apply mapM_ok in Hcs as Fcs. apply mapM_ok in Hss as Fss.
    destruct (factors_dual fs cs vss) with (n := n) as (rs & n1 & E & Hle & M1 & M2 & Hrs & Hlen & Hids & Hnd); auto.
    { apply Forall_forall. intros f Hf x Hx. apply HC. econstructor; eassumption. }
    { apply Forall_forall. intros f Hf. eapply shaped_sub; [exact HS | intros; econstructor; eassumption | intros; econstructor; eassumption]. }
    { apply Forall_forall. intros f Hf x Hx. apply HM. econstructor; eassumption. }
    { apply Forall_forall. intros f Hf l Hll. apply HL. econstructor; eassumption. }
    assert (Hin : forall r, In r rs -> exists f cv, In f fs /\ factor_right f cv r).
    { clear -Hrs. revert cs vss Hrs. revert fs. induction rs as [|r rs IHr]; intros fs cs vss H r' Hr; [destruct Hr|].
      destruct fs as [|f fs], (combine cs vss) as [|cv cvs] eqn:Ecv; try (inversion H; fail).
      destruct cs as [|c cs], vss as [|v vss]; try discriminate. injection Ecv as <- <-.
      cbn [combine] in H. inversion H as [|? ? ? ? Hr0 H']; subst. destruct Hr as [->|Hr].
      - exists f, (c, v). split; [left; reflexivity | exact Hr0].
      - destruct (IHr fs cs vss H' r' Hr) as (f' & cv' & Hf' & Hfr). exists f', cv'. split; [right; exact Hf' | exact Hfr]. }
    destruct (product_dual_ok o vars R rs n1) as (Q & n2 & Eq & Hle2 & Hsh & Hfr & Hev).
    { intros ->. destruct fs; [congruence | discriminate]. }
    { intros r Hr. destruct (Hin r Hr) as (f & cv & _ & _ & _ & _ & _ & Hgs & Hgf & _). split; [exact Hgs|].
      intros x Hx. apply Hgf in Hx. apply in_map_iff in Hx as (i & <- & Hi). apply (Hids r i Hr) in Hi. lia. }
    exists Q, (PTensor (map d_ps rs)), n2. split.
    { cbn [Dual.dual_basis]. rewrite (fbind_eq _ _ _ _ _ _ _ E), (fbind_eq _ _ _ _ _ _ _ (flift_eq _ _ _ _ Hss)).
      rewrite <- M1, <- M2. exact Eq. }
    assert (Eidx : ps_indices (PTensor (map d_ps rs)) = flat_map (fun r => ps_indices (d_ps r)) rs).
    { cbn [ps_indices]. rewrite flat_map_concat_map, map_map, <- flat_map_concat_map. reflexivity. }
    assert (Lcv : length cs = length fs /\ length vss = length fs).
    { split; symmetry; [apply (Forall2_length _ _ _ _ _ Fcs) | apply (Forall2_length _ _ _ _ _ Fss)]. }
    destruct Lcv as [Lcs Lvs].
    split.
    { cbn [get_dimension]. rewrite <- (rowmajor_zeros (length fs)).
      apply fit_factors; [|rewrite map_length, repeat_length; exact Lcs|apply in_shape_zeros|].
      - clear -Fcs. induction Fcs as [|f c fs cs H Fcs IHf]; [constructor|]. cbn [map length repeat combine]. constructor; [|exact IHf].
        exists c. split; [exact H | apply cell_in_topology].
      - clear -Hrs Lcs Lvs Hlen. revert cs vss rs Hrs Lcs Lvs Hlen. induction fs as [|f fs IHf]; intros [|c cs] [|v vss] [|r rs] H L1 L2 L3; try discriminate; [constructor|].
        cbn [combine map length repeat] in *. inversion H as [|? ? ? ? (_ & _ & Hf & _) H']; subst. constructor; [exact Hf|].
        eapply IHf; [exact H' | simpl in *; lia ..]. }
    split.
    { cbn [psdim spatial_dimension]. rewrite map_map. rewrite sum_fold. f_equal.
      clear -Hrs Lcs Lvs Hlen. revert cs vss rs Hrs Lcs Lvs Hlen. induction fs as [|f fs IHf]; intros [|c cs] [|v vss] [|r rs] H L1 L2 L3; try discriminate; [reflexivity|].
      cbn [combine map] in *. inversion H as [|? ? ? ? (_ & _ & _ & Hf & _) H']; subst. f_equal; [exact Hf|].
      eapply IHf; [exact H' | simpl in *; lia ..]. }
    split; [lia|]. split; [rewrite Hsh, M1, M2; reflexivity|]. split.
    { intros x. rewrite Hfr, Eidx, in_map_iff. split.
      - intros (r & Hr & Hx). destruct (Hin r Hr) as (f & cv & _ & _ & _ & _ & _ & _ & Hgf & _). apply Hgf in Hx.
        apply in_map_iff in Hx as (i & <- & Hi). exists i. split; [reflexivity|]. apply in_flat_map. exists r. split; assumption.
      - intros (i & <- & Hi). apply in_flat_map in Hi as (r & Hr & Hi). exists r. split; [exact Hr|].
        destruct (Hin r Hr) as (f & cv & _ & _ & _ & _ & _ & _ & Hgf & _). apply Hgf. apply in_map. exact Hi. }
    split. { constructor. apply Forall_forall. intros q Hq. apply in_map_iff in Hq as (r & <- & Hr). destruct (Hin r Hr) as (f & cv & _ & Hf). apply Hf. }
    split. { unfold distinct_indices. rewrite Eidx. exact Hnd. }
    split. { intros i Hi. rewrite Eidx in Hi. apply in_flat_map in Hi as (r & Hr & Hi). apply (Hids r i Hr) in Hi. lia. }
    intros b Hb. change (index_shape (ETensorProduct fs)) with (concat (map index_shape fs)) in Hb.
    apply in_shape_concat in Hb as (bs & -> & Hbs).
    assert (Hts : exists tss, duals_of fs bs tss /\ Forall2 (fun rb ts => contracts o vars (fst rb) (snd rb) ts) (combine rs bs) tss /\ length bs = length rs /\
        Forall2 (fun r b => length b = length (d_ish r)) rs bs).
    { clear -Hrs Lcs Lvs Hlen Hbs. revert cs vss rs bs Hrs Lcs Lvs Hlen Hbs. induction fs as [|f fs IHf]; intros [|c cs] [|v vss] [|r rs] bs H L1 L2 L3 Hbs; try discriminate.
      - inversion Hbs; subst. exists []. repeat split; constructor.
      - cbn [map] in Hbs. inversion Hbs as [|? b ? bs' Hb Hbs']; subst. cbn [combine] in H. inversion H as [|? ? ? ? Hr H']; subst.
        destruct Hr as (E1 & _ & _ & _ & _ & Hgf & _ & _ & Hcon). cbn [fst snd] in *.
        destruct (IHf cs vss rs bs' H') as (tss & H1 & H2 & H3 & H4); [simpl in *; lia .. | exact Hbs' |].
        destruct (Hcon b Hb) as (ts & Hd & Hct). exists (ts :: tss). split; [constructor; assumption|].
        split; [cbn [combine]; constructor; [|exact H2]; split; [intros x Hx; apply Hgf; exact Hx | exact Hct]|].
        split; [simpl; rewrite H3; reflexivity|]. constructor; [|exact H4]. rewrite E1. symmetry. apply in_shape_length. exact Hb. }
    destruct Hts as (tss & Hd & Hct & Hlb & Hbl). exists (map (merge_terms o) (cart tss)). split; [constructor; exact Hd|].
    intros g env. rewrite <- (product_contract o vars R rs bs tss Hct Hlb Hnd g env).
    rewrite contract_upds, Eidx, M2. apply fsum_ext. intros a _. apply fsum_ext. intros v Hv. apply in_cart_seq in Hv.
    apply in_shape_concat in Hv as (vsl & -> & Hvsl).
    assert (Hvl : Forall2 (fun r v => length v = length (d_vsh r)) rs vsl).
    { rewrite <- M2 in Hvsl. rewrite Forall2_map_l in Hvsl. eapply Forall2_impl_in; [|exact Hvsl]. intros r v _ _ H. symmetry. apply in_shape_length. exact H. }
    f_equal.
    - rewrite (Hev bs vsl _ Hbl Hvl). apply prodq_slices; assumption.
    - cbn [pt_at]. rewrite map_map. reflexivity.
  Qed.

  Lemma tensor_dualises : forall b sh tr, dualises b -> dualises (ETensor b sh tr).
  Proof using R.
    intros b sh tr IH n c vs HC HS HM HL Hc Hvs.
    cbn [cell_of] in Hc. cbn [value_shape] in Hvs. apply bind_ok in Hvs as (vb & Hvb & Hvs). injection Hvs as <-.
    destruct (IH n c vb) as (Q & ps & n1 & E & Hfit & Hpd & Hle & Hsh & Hfr & Hok & Hnd & Hids & Hcon); auto.
    { eapply checked_sub; [exact HC | intros; constructor; assumption]. }
    { eapply shaped_sub; [exact HS | intros; constructor; assumption | intros; constructor; assumption]. }
    { eapply sumless_sub; [exact HM | intros; constructor; assumption]. }
    { eapply duals_fine_sub; [exact HL | intros; constructor; assumption]. }
    assert (Hne : sh <> []) by (destruct HS as (_ & S2 & _); eapply S2; apply se_refl).
    destruct (tensor_dual_ok o vars R (index_shape b) vb sh tr Q n1 Hne Hsh) as (tQ & n2 & E2 & Hle2 & Hsh2 & Hfr2 & Hev).
    { intros x Hx. apply Hfr in Hx. apply in_map_iff in Hx as (i & <- & Hi). apply Hids in Hi. lia. }
    exists tQ, ps, n2. split.
    { cbn [Dual.dual_basis]. rewrite (fbind_eq _ _ _ _ _ _ _ E), (fbind_eq _ _ _ _ _ _ _ (flift_eq _ _ _ _ Hvb)). cbn [fst snd].
      rewrite (fbind_eq _ _ _ _ _ _ _ E2). reflexivity. }
    split; [constructor; exact Hfit|]. split; [exact Hpd|]. split; [lia|]. split; [rewrite Hsh2; destruct tr; reflexivity|].
    split; [intros x; rewrite Hfr2; apply Hfr|]. split; [exact Hok|]. split; [exact Hnd|]. split; [intros i Hi; apply Hids in Hi; lia|].
    intros bi Hb. change (index_shape (ETensor b sh tr)) with (if tr then sh ++ index_shape b else index_shape b ++ sh) in Hb.
    assert (Hsplit : exists i s, in_shape (index_shape b) i /\ in_shape sh s /\ bi = (if tr then s ++ i else i ++ s)).
    { destruct tr; apply in_shape_app_inv in Hb as (x & y & -> & Hx & Hy); [exists y, x | exists x, y]; repeat split; assumption. }
    destruct Hsplit as (i & s & Hi & Hs & ->). destruct (Hcon i Hi) as (ts & Hts & Hct).
    eexists. split; [apply du_tensor; eassumption|].
    apply (tensor_contract o vars R ps vb sh Q tQ i _ s ts Hs); [|exact Hct].
    intros env t v Ht Hv. apply Hev; symmetry; apply in_shape_length; assumption.
  Qed.

  Lemma flattened_dualises : forall p, dualises p -> dualises (EFlattened p).
  Proof using Type.
    intros p IH n c vs HC HS HM HL Hc Hvs.
    cbn [value_shape] in Hvs. cbn [cell_of] in Hc. apply bind_ok in Hc as (cp & Hcp & Hc).
    assert (Hdim : c = Hypercube (spatial_dimension cp)).
    { destruct (spatial_dimension cp) as [|[|[|[|d]]]]; try discriminate; injection Hc as <-; reflexivity. }
    assert (Hcube : cube_cell cp) by (destruct HS as ((_ & S) & _); eapply S; [apply se_refl | exact Hcp]).
    subst c.
    destruct (IH n cp vs) as (Q & ps & n1 & E & Hfit & Hpd & Hle & Hsh & Hfr & Hok & Hnd & Hids & Hcon); auto.
    { eapply checked_sub; [exact HC | intros; constructor; assumption]. }
    { eapply shaped_sub; [exact HS | intros; constructor; assumption | intros; constructor; assumption]. }
    { eapply sumless_sub; [exact HM | intros; constructor; assumption]. }
    { eapply duals_fine_sub; [exact HL | intros; constructor; assumption]. }
    exists Q, ps, n1. split; [exact E|]. split.
    { cbn [get_dimension]. eapply fit_flattened; [exact Hcp | apply unflatten_cell; exact Hcube | exact Hfit]. }
    split; [exact Hpd|]. repeat (split; [assumption|]).
    intros b Hb. destruct (Hcon b Hb) as (ts & Hts & Hct). exists ts. split; [constructor; exact Hts | exact Hct].
  Qed.

  Lemma discontinuous_dualises : forall p, dualises p -> dualises (EDiscontinuous p).
  Proof using Type.
    intros p IH n c vs HC HS HM HL Hc Hvs. cbn [value_shape] in Hvs. cbn [cell_of] in Hc.
    destruct (IH n c vs) as (Q & ps & n1 & E & Hfit & Hpd & Hle & Hsh & Hfr & Hok & Hnd & Hids & Hcon); auto.
    { eapply checked_sub; [exact HC | intros; constructor; assumption]. }
    { eapply shaped_sub; [exact HS | intros; constructor; assumption | intros; constructor; assumption]. }
    { eapply sumless_sub; [exact HM | intros; constructor; assumption]. }
    { eapply duals_fine_sub; [exact HL | intros; constructor; assumption]. }
    exists Q, ps, n1. split; [exact E|]. split; [constructor; exact Hfit|].
    split; [exact Hpd|]. repeat (split; [assumption|]).
    intros b Hb. destruct (Hcon b Hb) as (ts & Hts & Hct). exists ts. split; [constructor; exact Hts | exact Hct].
  Qed.

  Lemma wrapper_right : forall w n n1 c Q ps tr slots, length slots = spatial_dimension c -> slots_of tr = slots ->
    dual_right o vars (dual_of w) (index_shape w) (wshape_of tr) Q ps n n1 ->
    exists Q' n2, wrapper_dual (index_shape w) [spatial_dimension c] (apply_transform o tr) Q n1 = Ok (Q', n2) /\
      dual_right o vars (fun b ts => exists ts0, dual_of w b ts0 /\ ts = flat_map (embed_term o slots) ts0)
        (index_shape w) [spatial_dimension c] Q' ps n n2.
  Proof using R.
    intros w n n1 c Q ps tr slots Hlen Es (Hle & Hsh & Hfr & Hok & Hnd & Hids & Hcon).
    destruct (wrapper_dual_ok o vars R (index_shape w) (wshape_of tr) (slots_of tr) (apply_transform o tr) Q n1)
      as (Q' & n2 & E2 & Hle2 & Hsh2 & Hfr2 & Hev).
    { apply apply_transform_ok. exact R. }
    { apply slots_of_some. }
    { intros neg v Hin. symmetry. apply in_shape_length. eapply slots_of_comp; exact Hin. }
    { exact Hsh. }
    { intros x Hx. apply Hfr in Hx. apply in_map_iff in Hx as (i & <- & Hi). apply Hids in Hi. lia. }
    rewrite Es, Hlen in *. exists Q', n2. split; [exact E2|]. split; [lia|]. split; [exact Hsh2|].
    split; [intros x; rewrite Hfr2; apply Hfr|]. split; [exact Hok|]. split; [exact Hnd|]. split; [intros i Hi; apply Hids in Hi; lia|].
    intros b Hb. destruct (Hcon b Hb) as (ts & Hts & Hct). exists (flat_map (embed_term o slots) ts). split; [exists ts; split; [exact Hts | reflexivity]|].
    rewrite <- Hlen. apply (wrapper_contract o vars R ps (wshape_of tr) slots Q Q' b ts); [|intros env k s Hk; apply Hev; [symmetry; apply in_shape_length; exact Hb | exact Hk] | exact Hct].
    intros neg v Hin. apply (slots_of_comp tr neg). rewrite Es. exact Hin.
  Qed.

  Lemma hdiv_dualises : forall w, dualises w -> dualises (EHDiv w).
  Proof using R.
    intros w IH n c vs HC HS HM HL Hc Hvs. cbn [cell_of] in Hc. assert (Evs : vs = [spatial_dimension c]).
    { cbn [value_shape] in Hvs. rewrite Hc in Hvs. injection Hvs as <-. reflexivity. }
    destruct (HC _ (se_refl _)) as (tr & Htr).
    assert (Hem : exists slots, embeds hdiv_case w slots) by (destruct HS as (_ & _ & _ & S4 & _); apply S4, se_refl).
    destruct Hem as (slots & Hem). destruct (hdiv_select w slots tr Hem Htr) as (Es & Hws & c' & Hc' & Hl).
    rewrite Hc in Hc'. injection Hc' as <-.
    destruct (IH n c (wshape_of tr)) as (Q & ps & n1 & E & Hfit & Hpd & Hrt); auto.
    { eapply checked_sub; [exact HC | intros; constructor; assumption]. }
    { eapply shaped_sub; [exact HS | intros; constructor; assumption | intros; constructor; assumption]. }
    { eapply sumless_sub; [exact HM | intros; constructor; assumption]. }
    { eapply duals_fine_sub; [exact HL | intros; constructor; assumption]. }
    destruct (wrapper_right w n n1 c Q ps tr slots Hl Es Hrt) as (Q' & n2 & E2 & Hle & Hsh & Hfr & Hok & Hnd & Hids & Hcon).
    subst vs. exists Q', ps, n2. split.
    { cbn [Dual.dual_basis]. rewrite (fbind_eq _ _ _ _ _ _ _ E), (fbind_eq _ _ _ _ _ _ _ (flift_eq _ _ _ _ Hvs)), (fbind_eq _ _ _ _ _ _ _ (flift_eq _ _ _ _ Htr)). cbn [fst snd].
      rewrite (fbind_eq _ _ _ _ _ _ _ E2). reflexivity. }
    split; [constructor; exact Hfit|]. split; [exact Hpd|]. repeat (split; [assumption|]).
    intros b Hb. destruct (Hcon b Hb) as (ts & (ts0 & Hts0 & ->) & Hct). eexists. split; [eapply du_hdiv; eassumption | exact Hct].
  Qed.

  Lemma hcurl_dualises : forall w, dualises w -> dualises (EHCurl w).
  Proof using R.
    intros w IH n c vs HC HS HM HL Hc Hvs. cbn [cell_of] in Hc. assert (Evs : vs = [spatial_dimension c]).
    { cbn [value_shape] in Hvs. rewrite Hc in Hvs. injection Hvs as <-. reflexivity. }
    destruct (HC _ (se_refl _)) as (tr & Htr).
    assert (Hem : exists slots, embeds hcurl_case w slots) by (destruct HS as (_ & _ & _ & _ & S5); apply S5, se_refl).
    destruct Hem as (slots & Hem). destruct (hcurl_select w slots tr Hem Htr) as (Es & Hws & c' & Hc' & Hl).
    rewrite Hc in Hc'. injection Hc' as <-.
    destruct (IH n c (wshape_of tr)) as (Q & ps & n1 & E & Hfit & Hpd & Hrt); auto.
    { eapply checked_sub; [exact HC | intros; constructor; assumption]. }
    { eapply shaped_sub; [exact HS | intros; constructor; assumption | intros; constructor; assumption]. }
    { eapply sumless_sub; [exact HM | intros; constructor; assumption]. }
    { eapply duals_fine_sub; [exact HL | intros; constructor; assumption]. }
    destruct (wrapper_right w n n1 c Q ps tr slots Hl Es Hrt) as (Q' & n2 & E2 & Hle & Hsh & Hfr & Hok & Hnd & Hids & Hcon).
    subst vs. exists Q', ps, n2. split.
    { cbn [Dual.dual_basis]. rewrite (fbind_eq _ _ _ _ _ _ _ E), (fbind_eq _ _ _ _ _ _ _ (flift_eq _ _ _ _ Hvs)), (fbind_eq _ _ _ _ _ _ _ (flift_eq _ _ _ _ Htr)). cbn [fst snd].
      rewrite (fbind_eq _ _ _ _ _ _ _ E2). reflexivity. }
    split; [constructor; exact Hfit|]. split; [exact Hpd|]. repeat (split; [assumption|]).
    intros b Hb. destruct (Hcon b Hb) as (ts & (ts0 & Hts0 & ->) & Hct). eexists. split; [eapply du_hcurl; eassumption | exact Hct].
  Qed.

  Theorem tree_dualises : forall e, dualises e.
  Proof using R.
    induction e as [l|fs IH|b sh t IH|es IH|e sz off IH|e IH|e IH|e IH|e IH] using elt_ind'.
    - intros n c vs HC HS HM HL Hc Hvs. injection Hc as <-. injection Hvs as <-.
      destruct (HL l (lo_leaf _)) as [Hd _]. destruct (Hd n) as (Q & ps & n' & E & Hpd & Hle & Hsh & Hfr & Hok & Hnd & Hids & Hcon).
      exists Q, ps, n'. split; [exact E|]. split; [apply fit_leaf; cbn [fst]; rewrite total_dimension; exact Hpd|]. split; [exact Hpd|].
      repeat (split; [assumption|]). intros b Hb. destruct (Hcon b Hb) as (ts & -> & Hct). eexists. split; [constructor | exact Hct].
    - apply product_dualises; exact IH.
    - apply tensor_dualises; exact IH.
    - intros n c vs HC HS HM. destruct (HM _ (se_refl _)).
    - intros n c vs HC HS HM. destruct (HM _ (se_refl _)).
    - apply flattened_dualises; exact IH.
    - apply discontinuous_dualises; exact IH.
    - apply hdiv_dualises; exact IH.
    - apply hcurl_dualises; exact IH.
  Qed.
End Tree.
