(** Dual bases and dual evaluation: C22-C24. *)
From Coq Require Import String List Arith Bool ZArith QArith Qcanon.
From Verif Require Import Model.Prelude Model.Cell Model.Element Model.EntityMaps Model.Gem Model.PointSet Model.Evaluation Model.Quadrature Model.Dual.
From Verif Require Import Spec.Rowmajor Spec.EntityDofs Spec.Layout Spec.Tabulation Spec.Quadrature Spec.Dual Spec.Samples Spec.ZSamples Spec.DSamples Spec.QSamples.
From Verif Require Import Proofs.TabFacts Proofs.DualTree Proofs.DualEval Proofs.DualFacts Proofs.Tree.
Import ListNotations.
Local Open Scope nat_scope.

(** FIAT's functionals as a tensor over collected points. *)
Theorem C22_fiat_dual : forall F (o : ops F) vars,
  ring_theory (f0 o) (f1 o) (fadd o) (fmul o) (fsub o) (fopp o) eq ->
  forall leb eqb isone, (forall x y, eqb x y = true <-> x = y) -> (forall w, isone w = true -> w = f1 o) ->
  forall D vsh ds n, functionals_ok D vsh ds ->
  exists Q ps n', fiat_dual_basis o leb eqb isone ds n = Ok ((Q, ps), n') /\ psdim ps = D /\
    gshape Q = length ds :: vsh /\
    (forall x, In x (gfree Q) <-> In x (map ix_id (ps_indices ps))) /\
    forall f env i d, nth_error ds i = Some d ->
      contract o vars ps vsh Q (fun e v => f (pt_at ps e) v) env [i]
      = fold_right (fadd o) (f0 o)
          (flat_map (fun pw => map (fun wc => fmul o (fst wc) (f (fst pw) (snd wc))) (snd pw)) (fn_points d)).
Proof. exact (fun F o vars R leb eqb isone H1 H2 => fiat_dual_values o vars R leb eqb isone H1 H2). Qed.
Print Assumptions C22_fiat_dual.

(** Both functionals of [zvector] use the same two points, in different
    order. *)
Example C22_vector : functionals_ok 2 [2] zvector /\
  exists Q ps n', fiat_dual_basis zops zleb zeqb (Z.eqb 1) zvector 0 = Ok ((Q, ps), n') /\
    ps_points ps = Ok [[0; 0]; [1; 0]]%Z /\ gshape Q = [2; 2] /\
    map (contract zops (fun _ _ => 0%Z) ps [2] Q
           (fun e v => match pt_at ps e, v with [x; _], [k] => (10 + x + 100 * Z.of_nat k)%Z | _, _ => 0%Z end) (fun _ => 0)) [[0]; [1]]
    = [2 * 10 - 110 + 111; 3 * 11 + 110]%Z.
Proof. split; [exact zvector_ok|]. eexists _, _, _. split; [vm_compute; reflexivity|]. repeat split. Qed.

(** Derivatives in functionals are refused. *)
Theorem C22_derivatives_refused : forall F (o : ops F) leb eqb isone (ds : list (functional F)) n,
  (exists d, In d ds /\ fn_derivs d = true) -> fiat_dual_basis o leb eqb isone ds n = Err NotImplementedError.
Proof. exact derivatives_refused. Qed.
Print Assumptions C22_derivatives_refused.

(** FIAT elements meet the contract that the theorems on trees ask of leaves. *)
Theorem C22_fiat_leaf : forall F (o : ops F) vars,
  ring_theory (f0 o) (f1 o) (fadd o) (fmul o) (fsub o) (fopp o) eq ->
  forall leb eqb isone, (forall x y, eqb x y = true <-> x = y) -> (forall w, isone w = true -> w = f1 o) ->
  forall (duals : leaf F -> list (functional F)) l,
  functionals_ok (spatial_dimension (lf_cell l)) (lf_vshape l) (duals l) -> lf_ishape l = [length (duals l)] ->
  leaf_dualises o vars (fun l => fiat_terms (duals l)) (fun l => fiat_dual_basis o leb eqb isone (duals l)) l.
Proof. exact (fun F => @fiat_leaf_dualises F). Qed.
Print Assumptions C22_fiat_leaf.

(** Dual bases of trees. *)
Theorem C22_dual_basis_tree : forall F (o : ops F) vars,
  ring_theory (f0 o) (f1 o) (fadd o) (fmul o) (fsub o) (fopp o) eq ->
  forall leaf_dual leaf_terms (e : elt F) n c vs, built e -> shaped e -> sumless e ->
  (forall l, leaf_of l e -> leaf_dualises o vars leaf_terms leaf_dual l) ->
  cell_of e = Ok c -> value_shape e = Ok vs ->
  exists Q ps n', dual_basis o leaf_dual e n = Ok ((Q, ps), n') /\
    fits e (get_dimension c, 0) ps /\ psdim ps = spatial_dimension c /\
    dual_right o vars (dual_of o leaf_terms e) (index_shape e) vs Q ps n n'.
Proof. exact (fun F o vars R ld lt e n c vs H => tree_dualises o vars R ld lt e n c vs (built_checked e H)). Qed.
Print Assumptions C22_dual_basis_tree.

(** Two rows of H(div) = (- cg1 dx dg0, 0) on the square: dof (1, 1, 0) takes
    minus component (1, 0) at (1, 0). *)
Example C22_rows :
  (built zrows /\ shaped zrows /\ sumless zrows /\
   (forall vars l, leaf_of l zrows -> leaf_dualises zops vars zterms zleaf_dual l) /\
   cell_of zrows = Ok (TPCell [I1; I1]) /\ value_shape zrows = Ok [2; 2] /\ index_shape zrows = [2; 2; 1]) /\
  dual_of zops zterms zrows [1; 1; 0] [mkTerm (-1)%Z [1; 0]%Z [1; 0]] /\
  exists Q ps n', dual_basis zops zleaf_dual zrows 0 = Ok ((Q, ps), n') /\
    contract zops (fun _ _ => 0%Z) ps [2; 2] Q
      (fun e v => match pt_at ps e, v with [x; y], [i; j] => (100 * Z.of_nat i + 10 * Z.of_nat j + 2 * x + y)%Z | _, _ => 0%Z end)
      (fun _ => 0) [1; 1; 0] = (- (100 + 2))%Z.
Proof.
  split; [|split].
  - split; [exact zrows_built|]. split; [exact zrows_shaped|]. split; [exact zrows_sumless|]. split; [exact zrows_dualise|]. repeat split.
  - apply (du_tensor zops zterms zhdiv [2] true [1; 0] [1] [mkTerm (-1)%Z [1; 0]%Z [0]]); [| repeat constructor | repeat constructor].
    apply (du_hdiv zops zterms (ETensorProduct [zcg1; zdg0]) [SComp true []; SZero] [1; 0] [mkTerm 1%Z [1; 0]%Z []]).
    + exists zcg1, zdg0, 0, 1, [], (TPCell [I1; I1]). repeat split; constructor.
    + apply (du_product zops zterms [zcg1; zdg0] [[1]; [0]] [[mkTerm 1%Z [1]%Z []]; [mkTerm 1%Z [0]%Z []]]).
      apply (dus_cons zops zterms zcg1 [zdg0] [1]); [apply (du_leaf zops zterms (cg1 ztab1)) | repeat constructor|].
      apply (dus_cons zops zterms zdg0 [] [0]); [apply (du_leaf zops zterms (dg0 ztab0)) | repeat constructor | constructor].
  - eexists _, _, _. split; [vm_compute; reflexivity|]. vm_compute. reflexivity.
Qed.

(** Without the conditions on the functionals the tensor is wrong: a weight
    given in two parts, *)
Theorem C22_repeated_component_refuted : exists (ds : list (functional Z)) Q ps n',
  fiat_dual_basis zops zleb zeqb (Z.eqb 1) ds 0 = Ok ((Q, ps), n') /\
  exists f d, nth_error ds 0 = Some d /\
    contract zops (fun _ _ => 0%Z) ps [] Q (fun e v => f (pt_at ps e) v) (fun _ => 0) [0]
    <> fold_right Z.add 0%Z
         (flat_map (fun pw => map (fun wc => (fst wc * f (fst pw) (snd wc))%Z) (snd pw)) (fn_points d)).
Proof. exact repeated_component_refuted. Qed.
Print Assumptions C22_repeated_component_refuted.

(** a last component no functional uses, *)
Theorem C22_unused_component_refuted : exists (ds : list (functional Z)) Q ps n',
  (forall d p ws w c, In d ds -> In (p, ws) (fn_points d) -> In (w, c) ws -> in_shape [2] c) /\
  fiat_dual_basis zops zleb zeqb (Z.eqb 1) ds 0 = Ok ((Q, ps), n') /\ gshape Q = [1; 1] /\
  base_dual_evaluation (fiat_dual_basis zops zleb zeqb (Z.eqb 1) ds)
    (fun ps n => Ok (GVariable "f" [2], n)) 0 = Err AssertionError.
Proof. exact unused_component_refuted. Qed.
Print Assumptions C22_unused_component_refuted.

(** weights that are only nearly one. *)
Theorem C22_near_one_refuted : exists (ds : list (functional Qc)) Q ps n',
  functionals_ok 1 [] ds /\
  fiat_dual_basis qops (fun _ _ => true) qpts_eqb near_one ds 0 = Ok ((Q, ps), n') /\
  exists f d, nth_error ds 0 = Some d /\
    contract qops (fun _ _ => 0%Qc) ps [] Q (fun e v => f (pt_at ps e) v) (fun _ => 0) [0]
    <> fold_right Qcplus 0%Qc
         (flat_map (fun pw => map (fun wc => (fst wc * f (fst pw) (snd wc))%Qc) (snd pw)) (fn_points d)).
Proof. exact near_one_refuted. Qed.
Print Assumptions C22_near_one_refuted.

(* ------------------------------------------------------------------ *)

(** The computed functionals are dual to the computed basis. *)
Theorem C23_nodality : forall F (o : ops F) vars,
  ring_theory (f0 o) (f1 o) (fadd o) (fmul o) (fsub o) (fopp o) eq ->
  forall leaf_dual leaf_terms G
    (leaf_eval : leaf F -> nat -> pset F -> option (dimkey * nat) -> option G -> fresh (list (list nat * gem F)))
    (e : elt F) c vs cm n, built e -> shaped e -> sumless e ->
  (forall l, leaf_of l e -> fold_right Nat.mul 1 (lf_ishape l) = lf_dim l /\ leaf_tabulates o leaf_eval l /\
     leaf_dualises o vars leaf_terms leaf_dual l /\ leaf_nodal o leaf_terms l) ->
  cell_of e = Ok c -> value_shape e = Ok vs ->
  exists Q ps n1 ts n2 T, dual_basis o leaf_dual e n = Ok ((Q, ps), n1) /\
    basis_evaluation o leaf_eval e 0 ps None cm n1 = Ok (ts, n2) /\
    ts = [(repeat 0 (spatial_dimension c), T)] /\
    gshape Q = index_shape e ++ vs /\ gshape T = index_shape e ++ vs /\
    forall env b b', in_shape (index_shape e) b -> in_shape (index_shape e) b' ->
      contract o vars ps vs Q (fun e' v => eval o vars T e' (b' ++ v)) env b
      = if list_eq_dec Nat.eq_dec b b' then f1 o else f0 o.
Proof. exact (fun F o vars R ld lt G le => tree_nodality o vars R ld lt le). Qed.
Print Assumptions C23_nodality.

Example C23_rows :
  (forall vars l, leaf_of l zrows ->
    fold_right Nat.mul 1 (lf_ishape l) = lf_dim l /\ leaf_tabulates zops (zleaf unit) l /\
    leaf_dualises zops vars zterms zleaf_dual l /\ leaf_nodal zops zterms l) /\
  exists Q ps n1 T n2, dual_basis zops zleaf_dual zrows 0 = Ok ((Q, ps), n1) /\
    basis_evaluation zops (zleaf unit) zrows 0 ps None None n1 = Ok ([([0; 0], T)], n2) /\
    map (fun b => map (fun b' => contract zops (fun _ _ => 0%Z) ps [2; 2] Q
                                   (fun e' v => eval zops (fun _ _ => 0%Z) T e' (b' ++ v)) (fun _ => 0) b)
                      [[0; 0; 0]; [0; 1; 0]; [1; 0; 0]; [1; 1; 0]])
      [[0; 0; 0]; [0; 1; 0]; [1; 0; 0]; [1; 1; 0]]
    = [[1; 0; 0; 0]; [0; 1; 0; 0]; [0; 0; 1; 0]; [0; 0; 0; 1]]%Z.
Proof.
  split; [intros vars; exact (zrows_parts vars unit)|].
  eexists _, _, _, _, _. split; [vm_compute; reflexivity|]. split; [vm_compute; reflexivity|]. vm_compute. reflexivity.
Qed.

(** Leaves that give the same point set at each call, such as
    QuadratureElement, are dual when alone but not when the same object is
    several factors of a product: [leaf_dualises] asks for new indices. *)
Theorem C23_repeated_quadrature_refuted : exists (q : qelt (F := Z)) ld e Q ps n',
  (exists Q1 n1, ld (qe_leaf q ztab1) 1 = Ok ((Q1, q_point_set (qe_rule q)), n1) /\
     forall b b', In b [0; 1] -> In b' [0; 1] ->
       contract zops (fun _ _ => 0%Z) (q_point_set (qe_rule q)) [] Q1 (fun e v => if Nat.eqb (e 0) b' then 1%Z else 0%Z) (fun _ => 0) [b]
       = if Nat.eqb b b' then 1%Z else 0%Z) /\
  ld = (fun _ => qe_dual_basis q) /\
  e = ETensorProduct [ELeaf (qe_leaf q ztab1); ELeaf (qe_leaf q ztab1)] /\
  index_shape e = [2; 2] /\
  dual_basis zops ld e 1 = Ok ((Q, ps), n') /\
  forall f env, contract zops (fun _ _ => 0%Z) ps [] Q f env [0; 1] = 0%Z.
Proof. exact repeated_quadrature_refuted. Qed.
Print Assumptions C23_repeated_quadrature_refuted.

(* ------------------------------------------------------------------ *)

(** Dual evaluation applies the functionals. *)
Theorem C24_dual_evaluation : forall F (o : ops F) vars,
  ring_theory (f0 o) (f1 o) (fadd o) (fmul o) (fsub o) (fopp o) eq ->
  forall leaf_dual leaf_terms (e : elt F) c vs fn args f n, built e -> shaped e -> sumless e ->
  (forall l, leaf_of l e -> leaf_dualises o vars leaf_terms leaf_dual l) ->
  cell_of e = Ok c -> value_shape e = Ok vs -> (forall b sh tr, e <> ETensor b sh tr) ->
  evaluates o vars (dual_basis o leaf_dual e) n fn vs args f -> (forall x, In x args -> x < n) ->
  exists g is n', dual_evaluation o leaf_dual e fn n = Ok ((g, is), n') /\
    evaluation_right o vars (dual_of o leaf_terms e) (index_shape e) args f g is n n'.
Proof. exact (fun F => @dual_evaluation_ok F). Qed.
Print Assumptions C24_dual_evaluation.

(** Vector- and tensor-valued elements: the indices returned are the base
    element's, then the components', also if [transpose]. *)
Theorem C24_tensor_dual_evaluation : forall F (o : ops F) vars,
  ring_theory (f0 o) (f1 o) (fadd o) (fmul o) (fsub o) (fopp o) eq ->
  forall leaf_dual leaf_terms (b : elt F) sh tr c vs fn args f n, let e := ETensor b sh tr in
  built e -> shaped e -> sumless e ->
  (forall l, leaf_of l e -> leaf_dualises o vars leaf_terms leaf_dual l) ->
  cell_of e = Ok c -> value_shape e = Ok vs ->
  evaluates o vars (dual_basis o leaf_dual e) n fn vs args f -> (forall x, In x args -> x < n) ->
  exists g is n', dual_evaluation o leaf_dual e fn n = Ok ((g, is), n') /\
    evaluation_right o vars
      (fun j ts => exists i s, j = i ++ s /\ in_shape (index_shape b) i /\ in_shape sh s /\
         dual_of o leaf_terms e (if tr then s ++ i else i ++ s) ts)
      (index_shape b ++ sh) args f g is n n'.
Proof. exact (fun F => @tensor_dual_evaluation_ok F). Qed.
Print Assumptions C24_tensor_dual_evaluation.

(** f[i, j] + 2 x + 3 y, as the function to be evaluated. *)
Example C24_rows :
  evaluates zops zvars (dual_basis zops zleaf_dual zrows) 0 zfn [2; 2] [] zf /\
  exists g is n', dual_evaluation zops zleaf_dual zrows zfn 0 = Ok ((g, is), n') /\
    map ix_extent is = [2; 1; 2] /\
    eval zops zvars g (fun i => if Nat.eqb i (ix_id (nth 1 is (0, 0))) then 0 else 1) [] = (- (10 + 2))%Z.
Proof.
  split; [exact zfn_evaluates|]. eexists _, _, _. split; [vm_compute; reflexivity|]. split; vm_compute; reflexivity.
Qed.
Example C24_hdiv :
  exists g is n', dual_evaluation zops zleaf_dual zhdiv (fun ps n => Ok (GVariable "f" [2], n)) 0 = Ok ((g, is), n') /\
    map ix_extent is = [2; 1] /\
    evaluates zops zvars (dual_basis zops zleaf_dual zhdiv) 0 (fun ps n => Ok (GVariable "f" [2], n)) [2] [] (fun _ _ v => zvars "f" v) /\
    eval zops (fun _ v => match v with [0] => 7%Z | _ => 5%Z end) g (fun _ => 0) [] = (-7)%Z.
Proof.
  eexists _, _, _. split; [vm_compute; reflexivity|]. split; [reflexivity|]. split; [|vm_compute; reflexivity].
  split; [reflexivity|]. intros Q ps m _. exists (GVariable "f" [2]), m. split; [reflexivity|]. split; [apply le_n|].
  split; [reflexivity|]. split; [intros x []|]. reflexivity.
Qed.

(** So with [transpose] the indices returned do not match [index_shape]. *)
Theorem C24_transposed_order_refuted : exists (e b : elt Z) sh fn f g is n',
  e = ETensor b sh true /\ built e /\ shaped e /\ sumless e /\
  (forall l, leaf_of l e -> leaf_dualises zops zvars zterms zleaf_dual l) /\
  value_shape e = Ok [3] /\ evaluates zops zvars (dual_basis zops zleaf_dual e) 0 fn [3] [] f /\
  dual_evaluation zops zleaf_dual e fn 0 = Ok ((g, is), n') /\
  index_shape e = [3; 2] /\ map ix_extent is = [2; 3].
Proof. exact transposed_order_refuted. Qed.
Print Assumptions C24_transposed_order_refuted.

(** Sums and mixed sub-elements have no dual basis, nor has any element that
    contains one. *)
Theorem C24_sums_refused : forall F (o : ops F) leaf_dual (e : elt F),
  (forall n fn, match e with EEnriched _ | EMixedSub _ _ _ => True | _ => False end ->
     dual_basis o leaf_dual e n = Err NotImplementedError /\ dual_evaluation o leaf_dual e fn n = Err NotImplementedError) /\
  forall s, subelt s e -> match s with EEnriched _ | EMixedSub _ _ _ => True | _ => False end ->
    forall n fn, (forall r, dual_basis o leaf_dual e n <> Ok r) /\ forall r, dual_evaluation o leaf_dual e fn n <> Ok r.
Proof. exact sums_refused. Qed.
Print Assumptions C24_sums_refused.
