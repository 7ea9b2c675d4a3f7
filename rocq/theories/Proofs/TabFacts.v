(** Facts about the integer samples. *)
From Coq Require Import String List Arith Lia ZArith Bool.
From Verif Require Import Model.Prelude Model.Cell Model.Element Model.EntityMaps Model.Gem Model.PointSet Model.Evaluation.
From Verif Require Import Spec.Rowmajor Spec.EntityDofs Spec.Layout Spec.Tabulation Spec.Samples Spec.ZSamples.
From Verif Require Import Proofs.Lists Proofs.Cells Proofs.SampleFacts Proofs.Leaf Proofs.Tree Proofs.TabProps.
Import ListNotations.

Lemma zring : ring_theory (f0 zops) (f1 zops) (fadd zops) (fmul zops) (fsub zops) (fopp zops) eq.
Proof. exact Zth. Qed.

Definition zleaf (G : Type) := fun (l : leaf Z) order ps ent (_ : option G) => fiat_basis_evaluation zops l order ps ent.

Ltac members H := let H' := fresh in
  match type of H with
  | In _ (_ :: _) => destruct H as [H'|H]; [try discriminate H' | members H]
  | In _ [] => destruct H
  end.

Lemma ztab_poly : forall l, In l [cg1 ztab1; cg2 ztab2; dg1 ztab1; dg0 ztab0] -> fiat_polynomial zops l.
Proof.
  intros l H. cbn [In] in H.
  repeat destruct H as [<-|H]; [| | | |destruct H];
    eexists; (split; [reflexivity|]); (split; [intros _|]); intros alpha ent; intros; cbn [lf_tab cg1 cg2 dg1 dg0];
    unfold ztab0, ztab1, ztab2; cbn [f0 zops]; change (fold_right Nat.add 0 alpha) with (sum alpha) in *;
    repeat match goal with H : sum alpha = _ |- _ => rewrite H | H : _ < sum alpha |- _ => destruct (sum alpha) as [|[|[|?]]]; try lia end; reflexivity.
Qed.

Lemma zleaves : forall e G, incl (all_leaves e) [cg1 ztab1; cg2 ztab2; dg1 ztab1; dg0 ztab0] ->
  forall l, leaf_of l e -> fold_right Nat.mul 1 (lf_ishape l) = lf_dim l /\ leaf_tabulates zops (zleaf G) l.
Proof.
  intros e G Hi l Hl. apply all_leaves_of, Hi in Hl. split.
  - cbn [In] in Hl. repeat destruct Hl as [<-|Hl]; try reflexivity. destruct Hl.
  - apply fiat_leaf_tabulates.
    + reflexivity.
    + cbn [In] in Hl. repeat destruct Hl as [<-|Hl]; try reflexivity. destruct Hl.
    + cbn [In] in Hl. repeat destruct Hl as [<-|Hl]; try constructor. destruct Hl.
    + apply ztab_poly. exact Hl.
Qed.

Ltac incl_leaves := let x := fresh in let H := fresh in intros x H; cbn [all_leaves flat_map app zrt zmixed zflat zcg1 zcg2 zdg1 zdg0] in H;
  unfold zmixed, zrt, zflat, zcg1, zcg2, zdg1, zdg0 in H; cbn [all_leaves flat_map app] in H;
  cbn [In] in H |- *; intuition subst; auto.

Ltac subs H := apply all_subs_of in H;
  unfold zmixed, zrt, zflat, zcg1, zcg2, zdg1, zdg0 in H; cbn [all_subs flat_map app In] in H;
  repeat match type of H with _ \/ _ => destruct H as [H|H]; [try discriminate H | ] end; try (destruct H; fail).

Lemma zrt_shaped : shaped zrt.
Proof.
  split; [is_sensible|]. split; [|split; [|split]].
  - intros b sh tr H. subs H.
  - intros l H. apply all_leaves_of in H. unfold zrt, zcg2, zdg1 in H. cbn [all_leaves flat_map app In] in H.
    repeat destruct H as [<-|H]; try constructor. destruct H.
  - intros w H. subs H; injection H as <-.
    + exists [SComp true []; SZero]. exists zcg2, zdg1, 0, 1, [], (TPCell [I1; I1]). repeat split; constructor.
    + exists [SZero; SComp false []]. exists zdg1, zcg2, 1, 0, [], (TPCell [I1; I1]). repeat split; constructor.
  - intros w H. subs H.
Qed.

Lemma zrt_built : built zrt.
Proof.
  apply (built_enriched [EHDiv (ETensorProduct [zcg2; zdg1]); EHDiv (ETensorProduct [zdg1; zcg2])]).
  repeat constructor.
  - apply (built_hdiv (ETensorProduct [zcg2; zdg1])); [|reflexivity]. apply (built_tensor_product [zcg2; zdg1]); [repeat constructor|reflexivity].
  - apply (built_hdiv (ETensorProduct [zdg1; zcg2])); [|reflexivity]. apply (built_tensor_product [zdg1; zcg2]); [repeat constructor|reflexivity].
Qed.

Lemma zrt_fits : fits zrt (DT [DI 1; DI 1], 0) zgrid.
Proof.
  apply fit_enriched. intros e [<-|[<-|[]]]; apply fit_hdiv;
    (apply (fit_factors _ [DI 1; DI 1] [0; 0] [1; 1]); [| reflexivity | repeat constructor |]).
  1, 3: repeat constructor; exists I1; split; try reflexivity; cbn; auto.
  all: repeat constructor.
Qed.

Lemma zgrid_ok : ps_ok zgrid.
Proof.
  repeat constructor; try discriminate; cbn; intros p H; intuition subst; reflexivity.
Qed.

Lemma zgrid_plain : ps_plain zgrid.
Proof.
  constructor; [discriminate| |].
  - repeat constructor; try discriminate; cbn; intros p H; intuition subst; reflexivity.
  - intros q Hq. left. pose proof zgrid_ok as H. inversion H as [| |? Hq']; subst. rewrite Forall_forall in Hq'. auto.
Qed.

Lemma example_grid : ps_plain zgrid /\ ps_ok zgrid /\ env_ok zgrid (fun i => match i with 0 => 2 | _ => 1 end) /\
  pt_at zgrid (fun i => match i with 0 => 2 | _ => 1 end) = [2; -1]%Z /\
  coords (fun _ _ => 0%Z) (PTensor [zgrid; PUnknown "rt_X"%string 7 2 (2, 7)]) (fun i => match i with 0 => 2 | _ => 1 end) = [2; -1; 0; 0]%Z.
Proof.
  split; [exact zgrid_plain|]. split; [exact zgrid_ok|]. split.
  - intros i Hi. cbn in Hi. intuition subst; cbn; lia.
  - split; reflexivity.
Qed.

Lemma scalar_shape_refuted : exists (e : elt Z) ps ts n',
  built e /\ fiat_basis_evaluation zops (cg1 ztab1) 0 ps None 1 = Ok (ts, n') /\
  e = ETensor (ELeaf (cg1 ztab1)) [] false /\
  basis_evaluation zops (zleaf unit) e 0 ps None None 1 = Err TypeError.
Proof.
  exists (ETensor (ELeaf (cg1 ztab1)) [] false), (zline 0 [0; 1]%Z). eexists _, _.
  split; [repeat constructor|]. split; [vm_compute; reflexivity|]. split; [reflexivity|]. vm_compute. reflexivity.
Qed.

Lemma reduced_element_refuted : exists (l : leaf Z) ps n ts n' g0 g2,
  fiat_polynomial zops l /\ ps_ok ps /\
  fiat_basis_evaluation zops l 2 ps None n = Ok (ts, n') /\
  In ([0], g0) ts /\ In ([2], g2) ts /\ gshape g0 = [lf_dim l] /\ gshape g2 <> gshape g0.
Proof.
  set (l := mkLeaf KFiat I1 (Dg 1) (Some 0) [(DI 0, [(0, [0]); (1, [])]); (DI 1, [(0, [])])] 2 [1] [] ["affine"]%string false ztab1).
  exists l, (zline 0 [0; 1]%Z), 1. eexists _, _, _, _.
  split. { destruct (ztab_poly (cg1 ztab1)) as (d & Hd & H); [left; reflexivity|]. exists d. split; [exact Hd | exact H]. }
  split. { constructor; [discriminate | reflexivity|]. cbn. intros p H. intuition subst; reflexivity. }
  split; [vm_compute; reflexivity|]. split; [left; reflexivity|]. split; [right; right; left; reflexivity|].
  split; [reflexivity|]. cbn. discriminate.
Qed.

Lemma sliced_expression_refuted : exists (ps q : pset Z) pss,
  ps_plain ps /\ ps_ok ps /\ factor_point_set [2; 1] ps = Ok pss /\ In q pss /\
  forall n, ps_expression q n = Err ValueError.
Proof.
  exists (PTensor [zline 0 [0; 1]; zline 1 [0; 1]; zline 2 [0; 1]]%Z). eexists _, _.
  assert (Hok : ps_ok (PTensor [zline 0 [0; 1]; zline 1 [0; 1]; zline 2 [0; 1]]%Z)).
  { repeat constructor; try discriminate; cbn; intros p H; intuition subst; reflexivity. }
  split.
  { constructor; [discriminate| |].
    - repeat constructor; try discriminate; cbn; intros p H; intuition subst; reflexivity.
    - intros q Hq. left. inversion Hok as [| |? Hq']; subst. rewrite Forall_forall in Hq'. auto. }
  split; [exact Hok|]. split; [vm_compute; reflexivity|]. split; [left; reflexivity|]. intros n. reflexivity.
Qed.

Lemma example_part : exists ts n',
  fiat_basis_evaluation zops (cg2 ztab2) 1 (zline 0 [0; 1; 2]%Z) None 1 = Ok (ts, n') /\
  part_ok 1 [0] (mkPart 1 [3] [] ts) /\ share_ok (mkPart 1 [3] [] ts) (mkShare [1] [2] [] (snd (nth 1 ts ([], GZero [])))).
Proof.
  destruct (fiat_leaf_tabulates Z zops unit (cg2 ztab2) eq_refl eq_refl (Forall_nil _) (ztab_poly _ (or_intror (or_introl eq_refl)))
    (fun _ _ => 0%Z) 1 (zline 0 [0; 1; 2]%Z) None None 1) as (ts & n' & E & _ & K & V).
  { constructor; [discriminate | reflexivity|]. cbn. intros p H. intuition subst; reflexivity. }
  { cbn. intros i [<-|[]]. cbn. lia. }
  { exists 1. split; [cbn; auto | constructor]. }
  { reflexivity. }
  exists ts, n'. split; [exact E|]. split.
  - split; [exact K|]. intros a g Hg. destruct (V a g Hg) as [[S Fr] _]. split; [exact S|]. exact Fr.
  - vm_compute in E. injection E as <- _. split; [reflexivity|]. split; [right; left; reflexivity|]. split; reflexivity.
Qed.
