(** Facts about sample spectral elements. *)
From Coq Require Import String List Arith Lia ZArith Bool.
From Verif Require Import Model.Prelude Model.Cell Model.Element Model.EntityMaps Model.Gem Model.PointSet Model.Evaluation Model.Spectral.
From Verif Require Import Spec.Rowmajor Spec.EntityDofs Spec.Layout Spec.Tabulation Spec.Spectral Spec.Samples Spec.ZSamples.
From Verif Require Import Proofs.SampleFacts Proofs.TabFacts Proofs.Spectral.
Import ListNotations.

(** The two nodes of the interval, and two of them in each direction. *)
Definition zgll (a : nat) : pset Z := PPoints PGaussLobattoLegendre 1 [[0]; [1]]%Z [(a, 2)].
Definition zgllgrid : pset Z := PTensor [zgll 0; zgll 1].
Definition zgllsq : elt Z := ETensorProduct [zcg1; zcg1].
Definition zcls (l : leaf Z) : option pkind := if Nat.eqb (lf_dim l) 2 then Some PGaussLobattoLegendre else None.

Lemma zgll_ok : forall a, ps_ok (zgll a).
Proof. intros a. repeat constructor; try discriminate; cbn; intros p H; intuition subst; reflexivity. Qed.

Lemma zgll_nodal : nodal_at zops (cg1 ztab1) [[0]; [1]]%Z.
Proof.
  intros k p i Hk Hi. cbn in Hi.
  destruct k as [|[|k]]; cbn in Hk; [| |destruct k; discriminate Hk]; injection Hk as <-;
    destruct i as [|[|i]]; try lia; split; intros H; try discriminate H; try (exfalso; apply H; reflexivity); reflexivity.
Qed.

Lemma zgll_collocated : forall a, collocated zops PGaussLobattoLegendre (cg1 ztab1) (zgll a).
Proof.
  intros a D pts ixs Hw _ _. inversion Hw; subst. split; [eexists; reflexivity | exact zgll_nodal].
Qed.

Lemma zgllgrid_collocated : collocated zops PGaussLobattoLegendre (cg1 ztab1) zgllgrid.
Proof.
  intros D pts ixs Hw Hl HD. inversion Hw as [|q f fs Hin Hw']; subst.
  destruct Hin as [<-|[<-|[]]]; [apply (zgll_collocated 0 _ pts ixs Hw' Hl eq_refl) | apply (zgll_collocated 1 _ pts ixs Hw' Hl eq_refl)].
Qed.

Lemma example_line :
  scalar_leaf (cg1 ztab1) /\ fiat_polynomial zops (cg1 ztab1) /\ ps_ok (zgll 0) /\
  collocated zops PGaussLobattoLegendre (cg1 ztab1) (zgll 0) /\
  exists ts n' g d, spectral_evaluation zops PGaussLobattoLegendre (cg1 ztab1) 1 (zgll 0) None 1 = Ok (ts, n') /\
    ts = [([0], g); ([1], d)] /\ g = GComponentTensor (GDelta (IFree (0, 2)) (IFree (2, 2))) [(2, 2)] /\
    eval zops (fun _ _ => 0%Z) d (fun _ => 1) [0] = (-1)%Z.
Proof.
  split; [split; reflexivity|]. split; [apply ztab_poly; left; reflexivity|]. split; [apply zgll_ok|].
  split; [apply zgll_collocated|]. eexists _, _, _, _. split; [vm_compute; reflexivity|].
  split; [reflexivity|]. split; [reflexivity|]. vm_compute. reflexivity.
Qed.

Lemma other_points_refuted : exists (l : leaf Z) ps ts n' g env,
  scalar_leaf l /\ fiat_polynomial zops l /\ ps_ok ps /\
  psdim ps = dk_total (fst (entity_or_cell (lf_cell l) None)) /\ env_ok ps env /\
  spectral_evaluation zops PGaussLobattoLegendre l 0 ps None 1 = Ok (ts, n') /\ In ([0], g) ts /\
  eval zops (fun _ _ => 0%Z) g env [0] <> lf_tab l [0] (entity_or_cell (lf_cell l) None) (pt_at ps env) 0 [].
Proof.
  exists (cg1 ztab1), (PPoints PGaussLobattoLegendre 1 [[2]; [3]]%Z [(0, 2)]).
  eexists _, _, _, (fun _ => 1). split; [split; reflexivity|]. split; [apply ztab_poly; left; reflexivity|].
  split; [repeat constructor; try discriminate; cbn; intros p H; intuition subst; reflexivity|].
  split; [reflexivity|]. split; [intros i [<-|[]]; cbn; lia|].
  split; [vm_compute; reflexivity|]. split; [left; reflexivity|]. vm_compute. discriminate.
Qed.

Lemma example_square :
  built zgllsq /\ shaped zgllsq /\ ps_ok zgllgrid /\
  (forall l, leaf_of l zgllsq -> lf_ishape l = [lf_dim l] /\ fiat_polynomial zops l /\
     forall own, zcls l = Some own -> lf_vshape l = [] /\ own <> PGeneric /\ collocated zops own l zgllgrid) /\
  fits zgllsq (entity_or_cell (TPCell [I1; I1]) None) zgllgrid /\
  exists ts n' g, basis_evaluation zops (leaf_basis_evaluation (G := unit) zops zcls) zgllsq 1 zgllgrid None None 2 = Ok (ts, n') /\
    In ([1; 0], g) ts /\
    eval zops (fun _ _ => 0%Z) g (fun i => match i with 0 => 0 | _ => 1 end) [1; 1] = 1%Z /\
    eval zops (fun _ _ => 0%Z) g (fun i => match i with 0 => 0 | _ => 1 end) [1; 0] = 0%Z.
Proof.
  split; [apply (built_tensor_product [zcg1; zcg1]); [repeat constructor | reflexivity]|].
  split.
  { split; [is_sensible|]. split; [|split; [|split]].
    - intros b sh tr H. apply all_subs_of in H. unfold zgllsq, zcg1 in H. cbn [all_subs flat_map app In] in H. intuition discriminate.
    - intros l H. apply all_leaves_of in H. unfold zgllsq, zcg1 in H. cbn [all_leaves flat_map app In] in H.
      repeat destruct H as [<-|H]; try constructor. destruct H.
    - intros w H. apply all_subs_of in H. unfold zgllsq, zcg1 in H. cbn [all_subs flat_map app In] in H. intuition discriminate.
    - intros w H. apply all_subs_of in H. unfold zgllsq, zcg1 in H. cbn [all_subs flat_map app In] in H. intuition discriminate. }
  split; [apply po_tensor; repeat (apply Forall_cons; [apply zgll_ok|]); constructor|].
  split.
  { intros l Hl. apply all_leaves_of in Hl. unfold zgllsq, zcg1 in Hl. cbn [all_leaves flat_map app In] in Hl.
    assert (El : l = cg1 ztab1) by (intuition congruence). subst l.
    split; [reflexivity|]. split; [apply ztab_poly; left; reflexivity|].
    intros own Ho. injection Ho as <-. split; [reflexivity|]. split; [discriminate | exact zgllgrid_collocated]. }
  split.
  { apply (fit_factors _ [DI 1; DI 1] [0; 0] [1; 1]); [| reflexivity | repeat constructor |].
    - repeat constructor; exists I1; split; try reflexivity; cbn; auto.
    - repeat constructor. }
  eexists _, _, _. split; [vm_compute; reflexivity|]. split; [right; left; reflexivity|]. split; vm_compute; reflexivity.
Qed.
