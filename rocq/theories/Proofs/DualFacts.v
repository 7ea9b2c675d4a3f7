(** Facts about the sample functionals; refutations. *)
From Coq Require Import String List Arith Lia Bool Ring_theory ZArith QArith Qcanon.
From Verif Require Import Model.Prelude Model.Cell Model.Element Model.EntityMaps Model.Gem Model.PointSet Model.Evaluation Model.Quadrature Model.Dual.
From Verif Require Import Spec.Rowmajor Spec.EntityDofs Spec.Layout Spec.Tabulation Spec.Quadrature Spec.Dual Spec.Samples Spec.ZSamples Spec.DSamples Spec.QSamples.
From Verif Require Import Proofs.Lists Proofs.Cells Proofs.SampleFacts Proofs.GemEval Proofs.TabFacts Proofs.DualLeaf.
Import ListNotations.
Local Open Scope nat_scope.

Section Fiat.
  Context {F : Type} (o : ops F) (vars : string -> list nat -> F).
  Context (R : ring_theory (f0 o) (f1 o) (fadd o) (fmul o) (fsub o) (fopp o) eq).
  Context (leb eqb : list F -> list F -> bool) (isone : F -> bool).
  Context (eqb_ok : forall x y, eqb x y = true <-> x = y) (isone_ok : forall w, isone w = true -> w = f1 o).

  Lemma fiat_leaf_dualises : forall (duals : leaf F -> list (functional F)) l,
    functionals_ok (spatial_dimension (lf_cell l)) (lf_vshape l) (duals l) -> lf_ishape l = [length (duals l)] ->
    leaf_dualises o vars (fun l => fiat_terms (duals l)) (fun l => fiat_dual_basis o leb eqb isone (duals l)) l.
  Proof using All.
    intros duals l Hok Hsh. split.
    - intros n. destruct (fiat_dual_ok o vars R leb eqb isone eqb_ok _ _ _ Hok isone_ok n) as (Q & ps & n' & E & Hd & H1 & H2 & H3 & H4 & H5 & H6 & H7).
      exists Q, ps, n'. split; [exact E|]. split; [exact Hd|]. rewrite Hsh. repeat (split; [assumption|]).
      intros b Hb. destruct (H7 b Hb) as (ts & (i & d & -> & Hn & ->) & Hc). eexists. split; [|exact Hc].
      cbn [fiat_terms]. rewrite Hn. reflexivity.
    - intros b t Ht. destruct b as [|i [|? ?]]; try destruct Ht. cbn [fiat_terms] in Ht.
      destruct (nth_error (duals l) i) as [d|] eqn:En; [|destruct Ht]. apply nth_error_In in En.
      unfold functional_terms in Ht. apply in_flat_map in Ht as ([p ws] & Hp & Ht). apply in_map_iff in Ht as ([w c] & <- & Hw).
      destruct (fo_weights _ _ _ Hok d p ws En Hp) as (_ & _ & Hl & Hc). cbn [t_pt t_cmp fst snd] in *. split; [exact Hl | apply (Hc w c Hw)].
  Qed.

  (** The computed tensor, functional by functional. *)
  Lemma fiat_dual_values : forall D vsh ds n, functionals_ok D vsh ds ->
    exists Q ps n', fiat_dual_basis o leb eqb isone ds n = Ok ((Q, ps), n') /\ psdim ps = D /\
      gshape Q = length ds :: vsh /\
      (forall x, In x (gfree Q) <-> In x (map ix_id (ps_indices ps))) /\
      forall f env i d, nth_error ds i = Some d ->
        contract o vars ps vsh Q (fun e v => f (pt_at ps e) v) env [i]
        = fold_right (fadd o) (f0 o)
            (flat_map (fun pw => map (fun wc => fmul o (fst wc) (f (fst pw) (snd wc))) (snd pw)) (fn_points d)).
  Proof using All.
    intros D vsh ds n Hok. destruct (fiat_dual_ok o vars R leb eqb isone eqb_ok _ _ _ Hok isone_ok n) as (Q & ps & n' & E & Hd & H1 & H2 & H3 & H4 & H5 & H6 & H7).
    exists Q, ps, n'. split; [exact E|]. split; [exact Hd|]. split; [exact H2|]. split; [exact H3|].
    intros f env i d Hi. destruct (H7 [i]) as (ts & (j & d' & Ej & Hj & ->) & Hc).
    { constructor; [|constructor]. apply nth_error_Some. congruence. }
    injection Ej as <-. rewrite Hi in Hj. injection Hj as <-. rewrite Hc. unfold apply_terms, functional_terms. f_equal.
    induction (fn_points d) as [|pw l IH]; [reflexivity|]. cbn [flat_map]. rewrite map_app, IH, map_map. reflexivity.
  Qed.
End Fiat.

Lemma derivatives_refused : forall F (o : ops F) leb eqb isone (ds : list (functional F)) n,
  (exists d, In d ds /\ fn_derivs d = true) -> fiat_dual_basis o leb eqb isone ds n = Err NotImplementedError.
Proof.
  intros F o leb eqb isone ds n (d & Hd & Hder).
  assert (H : forall seen all, collect_points leb eqb ds seen all = Err NotImplementedError).
  { induction ds as [|d' ds IH]; [destruct Hd|]. intros seen all. cbn [collect_points].
    destruct (fn_derivs d') eqn:E'; [reflexivity|]. cbn [negb guard bind].
    destruct Hd as [->|Hd]; [congruence|]. destruct (dict_mem _ _ _); apply IH; exact Hd. }
  unfold fiat_dual_basis, fiat_dual_numbers, fbind, flift. rewrite H. reflexivity.
Qed.

Lemma mapF_all : forall F A (f : elt F -> fresh A) l x n r, In x l -> mapF f l n = Ok r -> exists m r', f x m = Ok r'.
Proof.
  intros F A f l x. induction l as [|y l IH]; intros n r Hx H; [destruct Hx|]. cbn [mapF] in H. unfold fbind in H.
  destruct (f y n) as [[v n1]|er] eqn:E; [|discriminate]. destruct Hx as [->|Hx]; [eauto|].
  destruct (mapF f l n1) as [[vs n2]|er] eqn:E2; [|discriminate]. eapply IH; eauto.
Qed.

Lemma sums_refused : forall F (o : ops F) leaf_dual e,
  (forall n fn, match e with EEnriched _ | EMixedSub _ _ _ => True | _ => False end ->
     dual_basis o leaf_dual e n = Err NotImplementedError /\ dual_evaluation o leaf_dual e fn n = Err NotImplementedError) /\
  forall s, subelt s e -> match s with EEnriched _ | EMixedSub _ _ _ => True | _ => False end ->
    forall n fn, (forall r, dual_basis o leaf_dual e n <> Ok r) /\ forall r, dual_evaluation o leaf_dual e fn n <> Ok r.
Proof.
  intros F o leaf_dual e. split. { intros n fn H. destruct e; try destruct H; split; reflexivity. }
  intros s Hs Hsum.
  assert (H : forall n r, dual_basis o leaf_dual e n <> Ok r).
  { induction Hs as [e|s f fs Hf Hs IH|s b sh t Hs IH|s f fs Hf Hs IH|s e sz off Hs IH|s e Hs IH|s e Hs IH|s e Hs IH|s e Hs IH]; intros n r H.
    - destruct e; try destruct Hsum; discriminate H.
    - cbn [dual_basis] in H. unfold fbind at 1 in H. destruct (mapF _ _ _) as [[rs n1]|er] eqn:E; [|discriminate].
      destruct (mapF_all _ _ _ _ _ _ _ Hf E) as (m & r' & E'). exact (IH Hsum _ _ E').
    - cbn [dual_basis] in H. unfold fbind at 1 in H. destruct (dual_basis o leaf_dual b n) as [r'|er] eqn:E; [|discriminate]. exact (IH Hsum _ _ E).
    - discriminate H.
    - discriminate H.
    - exact (IH Hsum _ _ H).
    - exact (IH Hsum _ _ H).
    - cbn [dual_basis] in H. unfold fbind at 1 in H. destruct (dual_basis o leaf_dual e n) as [r'|er] eqn:E; [|discriminate]. exact (IH Hsum _ _ E).
    - cbn [dual_basis] in H. unfold fbind at 1 in H. destruct (dual_basis o leaf_dual e n) as [r'|er] eqn:E; [|discriminate]. exact (IH Hsum _ _ E). }
  intros n fn. split; [exact (H n)|]. intros r Hr.
  assert (Hb : forall fn r, base_dual_evaluation (dual_basis o leaf_dual e) fn n <> Ok r).
  { intros fn' r' H'. unfold base_dual_evaluation, fbind at 1 in H'. destruct (dual_basis o leaf_dual e n) as [r''|er] eqn:E; [|discriminate]. exact (H _ _ E). }
  unfold dual_evaluation in Hr. destruct e; try exact (Hb _ _ Hr).
  destruct (value_shape e) as [vs|]; [|discriminate]. unfold tensor_dual_evaluation, fbind at 1 in Hr.
  destruct (dual_basis o leaf_dual (ETensor e shape transpose) n) as [r'|er] eqn:E; [|discriminate]. exact (H _ _ E).
Qed.

(** A component twice at one point: the last weight wins. *)
Lemma repeated_component_refuted : exists (ds : list (functional Z)) Q ps n',
  fiat_dual_basis zops zleb zeqb (Z.eqb 1) ds 0 = Ok ((Q, ps), n') /\
  exists f d, nth_error ds 0 = Some d /\
    contract zops (fun _ _ => 0%Z) ps [] Q (fun e v => f (pt_at ps e) v) (fun _ => 0) [0]
    <> fold_right Z.add 0%Z
         (flat_map (fun pw => map (fun wc => (fst wc * f (fst pw) (snd wc))%Z) (snd pw)) (fn_points d)).
Proof.
  exists [mkFunctional [([5]%Z, [(2%Z, []); (3%Z, [])])] false]. eexists _, _, _. split; [vm_compute; reflexivity|].
  exists (fun _ _ => 1%Z). eexists. split; [reflexivity|]. vm_compute. discriminate.
Qed.

(** No functional uses the last component: the tensor is too small for
    functions with all components. *)
Lemma unused_component_refuted : exists (ds : list (functional Z)) Q ps n',
  (forall d p ws w c, In d ds -> In (p, ws) (fn_points d) -> In (w, c) ws -> in_shape [2] c) /\
  fiat_dual_basis zops zleb zeqb (Z.eqb 1) ds 0 = Ok ((Q, ps), n') /\ gshape Q = [1; 1] /\
  base_dual_evaluation (fiat_dual_basis zops zleb zeqb (Z.eqb 1) ds)
    (fun ps n => Ok (GVariable "f" [2], n)) 0 = Err AssertionError.
Proof.
  exists [mkFunctional [([5]%Z, [(2%Z, [0])])] false]. eexists _, _, _. split.
  { intros d p ws w c [<-|[]] [E|[]] Hw. injection E as <- <-. destruct Hw as [E|[]]. injection E as _ <-. repeat constructor. }
  split; [vm_compute; reflexivity|]. split; vm_compute; reflexivity.
Qed.

(** [np.isclose(weight, 1)] takes any weight within 1e-5 of 1 for 1. *)
Definition near_one (w : Qc) : bool :=
  Qle_bool (this w - 1)%Q (1001 # 100000000)%Q && Qle_bool (1 - this w)%Q (1001 # 100000000)%Q.
Definition qpts_eqb : list Qc -> list Qc -> bool := list_eqb qc_close.
Lemma near_one_refuted : exists (ds : list (functional Qc)) Q ps n',
  functionals_ok 1 [] ds /\
  fiat_dual_basis qops (fun _ _ => true) qpts_eqb near_one ds 0 = Ok ((Q, ps), n') /\
  exists f d, nth_error ds 0 = Some d /\
    contract qops (fun _ _ => 0%Qc) ps [] Q (fun e v => f (pt_at ps e) v) (fun _ => 0) [0]
    <> fold_right Qcplus 0%Qc
         (flat_map (fun pw => map (fun wc => (fst wc * f (fst pw) (snd wc))%Qc) (snd pw)) (fn_points d)).
Proof.
  exists [mkFunctional [([0%Qc], [(Q2Qc (100001 # 100000)%Q, [])])] false]. eexists _, _, _. split.
  { split.
    - discriminate.
    - intros d [<-|[]]. reflexivity.
    - intros d [<-|[]]. split; [discriminate|]. repeat constructor. intros [].
    - intros d p ws [<-|[]] [E|[]]. injection E as <- <-.
      split; [discriminate|]. split; [repeat constructor; intros []|]. split; [reflexivity|].
      intros w c [E|[]]. injection E as _ <-. constructor.
    - intros [|j] k E; discriminate E. }
  split; [vm_compute; reflexivity|]. exists (fun _ _ => 1%Qc). eexists. split; [reflexivity|].
  intros H. apply (f_equal (fun x => Qnum (this x))) in H. vm_compute in H. discriminate H.
Qed.

(** *** Repeated quadrature elements *)

(** Two points on the interval. *)
Definition ztwo : qrule Z := QRule (zline 0 [0; 1]%Z) [1; 1]%Z.
Lemma repeated_quadrature_refuted : exists (q : qelt (F := Z)) ld e Q ps n',
  (* the element alone is nodal ... *)
  (exists Q1 n1, ld (qe_leaf q ztab1) 1 = Ok ((Q1, q_point_set (qe_rule q)), n1) /\
     forall b b', In b [0; 1] -> In b' [0; 1] ->
       contract zops (fun _ _ => 0%Z) (q_point_set (qe_rule q)) [] Q1 (fun e v => if Nat.eqb (e 0) b' then 1%Z else 0%Z) (fun _ => 0) [b]
       = if Nat.eqb b b' then 1%Z else 0%Z) /\
  ld = (fun _ => qe_dual_basis q) /\
  e = ETensorProduct [ELeaf (qe_leaf q ztab1); ELeaf (qe_leaf q ztab1)] /\
  index_shape e = [2; 2] /\
  dual_basis zops ld e 1 = Ok ((Q, ps), n') /\
  (* ... but dof (0, 1) of its product with itself is zero on every function *)
  forall f env, contract zops (fun _ _ => 0%Z) ps [] Q f env [0; 1] = 0%Z.
Proof.
  set (q := mkQelt I1 ztwo).
  exists q, (fun _ => qe_dual_basis q), (ETensorProduct [ELeaf (qe_leaf q ztab1); ELeaf (qe_leaf q ztab1)]). eexists _, _, _.
  split.
  { eexists _, _. split; [vm_compute; reflexivity|]. intros b b' Hb Hb'. cbn in Hb, Hb'.
    destruct Hb as [<-|[<-|[]]], Hb' as [<-|[<-|[]]]; vm_compute; reflexivity. }
  split; [reflexivity|]. split; [reflexivity|]. split; [reflexivity|]. split; [vm_compute; reflexivity|].
  intros f env. vm_compute. reflexivity.
Qed.

(* ------------------------------------------------------------------ *)
(** ** Samples *)

Lemma zeqb_ok : forall x y, zeqb x y = true <-> x = y.
Proof.
  intros x y. unfold zeqb. destruct (list_eqb_spec _ Z.eqb Z.eqb_spec x y) as [E|E]; split; intros H; congruence.
Qed.
Lemma zone_ok : forall w, Z.eqb 1 w = true -> w = f1 zops.
Proof. intros w H. apply Z.eqb_eq in H. symmetry. exact H. Qed.

Lemma zpoints_ok : forall l, In l [cg1 ztab1; dg0 ztab0] ->
  functionals_ok (spatial_dimension (lf_cell l)) (lf_vshape l) (zduals l) /\ lf_ishape l = [length (zduals l)].
Proof.
  assert (H : forall xs, xs <> [] -> functionals_ok 1 [] (map zpoint xs)).
  { intros xs Hne. split.
    - destruct xs; [congruence | discriminate].
    - intros d Hd. apply in_map_iff in Hd as (x & <- & _). reflexivity.
    - intros d Hd. apply in_map_iff in Hd as (x & <- & _). split; [discriminate|]. repeat constructor. intros [].
    - intros d p ws Hd Hp. apply in_map_iff in Hd as (x & <- & _). destruct Hp as [E|[]]. injection E as <- <-.
      split; [discriminate|]. split; [repeat constructor; intros []|]. split; [reflexivity|].
      intros w c [E|[]]. injection E as _ <-. constructor.
    - intros [|j] k E; discriminate E. }
  intros l [<-|[<-|[]]]; (split; [|reflexivity]); [apply (H [0; 1]%Z) | apply (H [0]%Z)]; discriminate.
Qed.

Lemma zvector_ok : functionals_ok 2 [2] zvector.
Proof.
  split.
  - discriminate.
  - intros d [<-|[<-|[]]]; reflexivity.
  - intros d [<-|[<-|[]]]; (split; [discriminate|]); repeat constructor; cbn; intuition discriminate.
  - intros d p ws [<-|[<-|[]]] [E|[E|[]]]; injection E as <- <-; (split; [discriminate|]); (split; [repeat constructor; cbn; intuition discriminate|]); (split; [reflexivity|]);
      intros w c H; cbn in H; repeat destruct H as [E|H]; try (destruct H; fail); injection E as _ <-; repeat constructor.
  - intros [|[|j]] k E; try discriminate E. injection E as <-.
    eexists _, _, _, _, _. split; [left; reflexivity|]. split; [left; reflexivity|]. split; [right; left; reflexivity | reflexivity].
Qed.

Lemma zrows_built : built zrows.
Proof.
  apply built_tensor. apply (built_hdiv (ETensorProduct [zcg1; zdg0])); [|reflexivity].
  apply (built_tensor_product [zcg1; zdg0]); [repeat constructor|reflexivity].
Qed.

Ltac subs' H := apply all_subs_of in H; unfold zrows, zhdiv, zcg1, zdg0 in H; cbn [all_subs flat_map app In] in H;
  repeat match type of H with _ \/ _ => destruct H as [H|H]; [try discriminate H | ] end; try (destruct H; fail).

Lemma zrows_shaped : shaped zrows.
Proof.
  split; [is_sensible|]. split; [|split; [|split]].
  - intros b sh tr H. subs' H. injection H as _ <- _. split; [discriminate | repeat constructor].
  - intros l H. apply all_leaves_of in H. unfold zrows, zhdiv, zcg1, zdg0 in H. cbn [all_leaves flat_map app In] in H.
    repeat destruct H as [<-|H]; try constructor. destruct H.
  - intros w H. subs' H. injection H as <-.
    exists [SComp true []; SZero]. exists zcg1, zdg0, 0, 1, [], (TPCell [I1; I1]). repeat split; constructor.
  - intros w H. subs' H.
Qed.

Lemma zrows_sumless : sumless zrows.
Proof. intros s H. subs' H; subst s; exact I. Qed.

Lemma zrows_leaves : forall l, leaf_of l zrows -> In l [cg1 ztab1; dg0 ztab0].
Proof.
  intros l H. apply all_leaves_of in H. unfold zrows, zhdiv, zcg1, zdg0 in H. cbn [all_leaves flat_map app In] in H. cbn [In]. intuition.
Qed.

Lemma znodal : forall l, In l [cg1 ztab1; dg0 ztab0] -> leaf_nodal zops zterms l.
Proof.
  intros l Hl b b' Hb Hb'.
  destruct Hl as [<-|[<-|[]]]; inversion Hb as [|? i ? r Hi Hr]; subst; inversion Hr; subst; inversion Hb' as [|? j ? r' Hj Hr']; subst; inversion Hr'; subst;
    cbn in Hi, Hj.
  - destruct i as [|[|i]], j as [|[|j]]; try lia; reflexivity.
  - destruct i as [|i], j as [|j]; try lia; reflexivity.
Qed.

Lemma zrows_dualise : forall vars l, leaf_of l zrows -> leaf_dualises zops vars zterms zleaf_dual l.
Proof.
  intros vars l H. apply zrows_leaves, zpoints_ok in H as [H1 H2].
  exact (fiat_leaf_dualises zops vars zring zleb zeqb (Z.eqb 1) zeqb_ok zone_ok zduals l H1 H2).
Qed.

Lemma zrows_parts : forall vars G l, leaf_of l zrows ->
  fold_right Nat.mul 1 (lf_ishape l) = lf_dim l /\ leaf_tabulates zops (zleaf G) l /\
  leaf_dualises zops vars zterms zleaf_dual l /\ leaf_nodal zops zterms l.
Proof.
  intros vars G l H. destruct (zleaves zrows G) with (l := l) as [H1 H2]; [|exact H|].
  { unfold zrows, zhdiv, zcg1, zdg0. intros x Hx. cbn [all_leaves flat_map app In] in Hx. cbn [In]. intuition. }
  split; [exact H1|]. split; [exact H2|]. split; [apply zrows_dualise; exact H | apply znodal, zrows_leaves; exact H].
Qed.

(** The function whose component [i, j] at [x, y] is [f[i, j] + 2 x + 3 y]. *)
Definition zfn (ps : pset Z) : fresh (gem Z) :=
  fbind (ps_expression ps) (fun x => fbind (new_indices [2; 2]) (fun ij =>
  flift (do x0 <- mk_indexed x [IFixed 0] ;;
         do x1 <- mk_indexed x [IFixed 1] ;;
         do p0 <- mk_product (GLiteral (mkArr [] [2]%Z)) x0 ;;
         do p1 <- mk_product (GLiteral (mkArr [] [3]%Z)) x1 ;;
         do v <- mk_indexed (GVariable "f" [2; 2]) (map IFree ij) ;;
         do s <- mk_sum p0 p1 ;;
         do t <- mk_sum v s ;;
         mk_component_tensor t ij))).
Definition zvars (s : string) (v : list nat) : Z := match v with [i; j] => Z.of_nat (10 * i + j) | _ => 0%Z end.
Definition zf (env : nat -> nat) (p : list Z) (v : list nat) : Z :=
  match p with [x; y] => (zvars "f" v + (2 * x + 3 * y))%Z | _ => 0%Z end.

Lemma zfn_evaluates : evaluates zops zvars (dual_basis zops zleaf_dual zrows) 0 zfn [2; 2] [] zf.
Proof.
  split; [reflexivity|]. intros Q ps m E. vm_compute in E. injection E as _ <- <-.
  eexists _, _. split; [vm_compute; reflexivity|]. split; [lia|]. split; [reflexivity|]. split.
  - intros x H. left. vm_compute in H |- *. intuition.
  - intros env v Henv Hv. inversion Hv as [|? i ? r Hi Hr]; subst. inversion Hr as [|? j ? r' Hj Hr']; subst. inversion Hr'; subst.
    assert (H2 : env 2 < 2) by (apply (Henv (2, 2)); left; reflexivity).
    assert (H6 : env 6 < 1) by (apply (Henv (6, 1)); right; left; reflexivity).
    assert (Hc : env 2 = 0 \/ env 2 = 1) by lia. assert (H6' : env 6 = 0) by lia.
    destruct i as [|[|i]], j as [|[|j]]; try lia; destruct Hc as [Hc|Hc]; cbn; rewrite Hc, H6'; reflexivity.
Qed.

Lemma transposed_order_refuted : exists (e b : elt Z) sh fn f g is n',
  e = ETensor b sh true /\ built e /\ shaped e /\ sumless e /\
  (forall l, leaf_of l e -> leaf_dualises zops zvars zterms zleaf_dual l) /\
  value_shape e = Ok [3] /\ evaluates zops zvars (dual_basis zops zleaf_dual e) 0 fn [3] [] f /\
  dual_evaluation zops zleaf_dual e fn 0 = Ok ((g, is), n') /\
  index_shape e = [3; 2] /\ map ix_extent is = [2; 3].
Proof.
  exists (ETensor zcg1 [3] true), zcg1, [3], (fun ps n => Ok (GVariable "f" [3], n)), (fun _ _ v => zvars "f" v). eexists _, _, _.
  split; [reflexivity|]. split; [repeat constructor|]. split.
  { split; [is_sensible|]. split; [|split; [|split]].
    - intros b sh tr H. apply all_subs_of in H. cbn in H. destruct H as [H|[H|[]]]; try discriminate. injection H as _ <- _. split; [discriminate | repeat constructor].
    - intros l H. apply all_leaves_of in H. cbn in H. destruct H as [<-|[]]. constructor.
    - intros w H. apply all_subs_of in H. cbn in H. destruct H as [H|[H|[]]]; discriminate.
    - intros w H. apply all_subs_of in H. cbn in H. destruct H as [H|[H|[]]]; discriminate. }
  split. { intros s H. apply all_subs_of in H. cbn in H. destruct H as [H|[H|[]]]; subst s; exact I. }
  split.
  { intros l H. apply all_leaves_of in H. cbn in H. destruct H as [<-|[]].
    destruct (zpoints_ok (cg1 ztab1)) as [H1 H2]; [left; reflexivity|].
    exact (fiat_leaf_dualises zops zvars zring zleb zeqb (Z.eqb 1) zeqb_ok zone_ok zduals _ H1 H2). }
  split; [reflexivity|]. split.
  { split; [reflexivity|]. intros Q ps n _. exists (GVariable "f" [3]), n. split; [reflexivity|]. split; [lia|]. split; [reflexivity|].
    split; [intros x []|]. intros env v _ _. reflexivity. }
  split; [vm_compute; reflexivity|]. split; vm_compute; reflexivity.
Qed.
