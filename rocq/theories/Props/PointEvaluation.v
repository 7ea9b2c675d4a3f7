(** Evaluation at points given by expressions: C53. *)
From Coq Require Import String List Arith Bool ZArith Lia.
From Verif Require Import Model.Prelude Model.Cell Model.Element Model.EntityMaps Model.Gem Model.PointSet Model.Evaluation Model.Sympy2Gem Model.PointEvaluation.
From Verif Require Import Spec.Rowmajor Spec.EntityDofs Spec.Layout Spec.Samples Spec.ZSamples Spec.Sympy Spec.Tabulation Spec.PointEvaluation Spec.PointSamples.
From Verif Require Import Proofs.PointLeaf Proofs.PointWhole Proofs.PointProps Proofs.Leaf Proofs.TabFacts Proofs.DualFacts.
Import ListNotations.

(** Every tree, by the values of its functions (Spec.Tabulation). *)
Theorem C53_point_evaluation : forall F (o : ops F),
  ring_theory (f0 o) (f1 o) (fadd o) (fmul o) (fsub o) (fopp o) eq ->
  forall (leaf_point : leaf F -> nat -> gem F -> option (dimkey * nat) -> fresh (list (list nat * gem F))),
  forall (e : elt F) vars order pnt ent n c vs,
  built e -> shaped e ->
  (forall l, leaf_of l e -> fold_right Nat.mul 1 (lf_ishape l) = lf_dim l /\ leaf_evaluates o leaf_point l) ->
  cell_of e = Ok c -> value_shape e = Ok vs ->
  let en := entity_or_cell c ent in
  entity_of (topology c) en -> sliceable e en ->
  gshape pnt = [dk_total (fst en)] -> (forall x, In x (gfree pnt) -> x < n) ->
  exists ts n', point_evaluation o leaf_point e order pnt ent n = Ok (ts, n') /\ n <= n' /\
    derivative_keys (spatial_dimension c) order (map fst ts) /\
    forall alpha g, In (alpha, g) ts ->
      gshape g = index_shape e ++ vs /\ incl (gfree g) (gfree pnt) /\
      forall env b v, in_shape (index_shape e) b -> in_shape vs v ->
        forall x, value_of o e alpha en (map (fun k => eval o vars pnt env [k]) (seq 0 (dk_total (fst en))))
                    (rowmajor (index_shape e) b) v x <->
          eval o vars g env (b ++ v) = x.
Proof. exact (fun F o R lp => built_point_evaluation o R lp). Qed.
Print Assumptions C53_point_evaluation.

(** It works on exactly the entities without a point for a factor. *)
Theorem C53_works_exactly : forall F (o : ops F),
  ring_theory (f0 o) (f1 o) (fadd o) (fmul o) (fsub o) (fopp o) eq ->
  forall (leaf_point : leaf F -> nat -> gem F -> option (dimkey * nat) -> fresh (list (list nat * gem F))),
  forall (e : elt F) order pnt ent n c vs,
  built e -> shaped e ->
  (forall l, leaf_of l e -> fold_right Nat.mul 1 (lf_ishape l) = lf_dim l /\ leaf_evaluates o leaf_point l) ->
  cell_of e = Ok c -> value_shape e = Ok vs ->
  let en := entity_or_cell c ent in
  entity_of (topology c) en ->
  gshape pnt = [dk_total (fst en)] -> (forall x, In x (gfree pnt) -> x < n) ->
  ((exists r, point_evaluation o leaf_point e order pnt ent n = Ok r) <-> sliceable e en) /\
  (~ sliceable e en -> point_evaluation o leaf_point e order pnt ent n = Err AssertionError).
Proof. exact (fun F o R lp => built_settled o R lp). Qed.
Print Assumptions C53_works_exactly.

(** In particular on the cell itself. *)
Theorem C53_whole_cell : forall F (e : elt F) c en,
  shaped e -> (forall l, leaf_of l e -> 0 < spatial_dimension (lf_cell l)) ->
  cell_of e = Ok c -> entity_of (topology c) en -> dk_total (fst en) = spatial_dimension c ->
  sliceable e en.
Proof. exact (fun F e c en S P H1 H2 H3 => whole_sliceable e c en S P H1 H2 H3). Qed.
Print Assumptions C53_whole_cell.

(** FIAT leaves fulfil the contract if FIAT's expressions mean its numbers. *)
Theorem C53_fiat : forall F (o : ops F) (xo : xops F) ofZ nan fn sym (l : leaf F),
  ring_theory (f0 o) (f1 o) (fadd o) (fmul o) (fsub o) (fopp o) eq ->
  functions_ok o xo fn -> xeq xo (f0 o) (f0 o) = true -> xeq xo (f1 o) (f0 o) = false ->
  lf_ishape l = [lf_dim l] -> 0 < lf_dim l -> Forall (lt 0) (lf_vshape l) ->
  tabulates_symbols o xo ofZ nan sym l ->
  forall vars order pnt ent n,
  let en := entity_or_cell (lf_cell l) ent in
  (forall x, In x (gfree pnt) -> x < n) -> entity_of (topology (lf_cell l)) en -> gshape pnt = [dk_total (fst en)] ->
  exists ts n', fiat_point_evaluation o ofZ nan fn sym l order pnt ent n = Ok (ts, n') /\ n <= n' /\
    derivative_keys (spatial_dimension (lf_cell l)) order (map fst ts) /\
    forall alpha g, In (alpha, g) ts ->
      gshape g = lf_dim l :: lf_vshape l /\ incl (gfree g) (gfree pnt) /\
      forall env i v, i < lf_dim l -> in_shape (lf_vshape l) v ->
        eval o vars g env (i :: v)
        = lf_tab l alpha en (map (fun k => eval o vars pnt env [k]) (seq 0 (dk_total (fst en)))) i v.
Proof. exact (fun F => @fiat_point_values F). Qed.
Print Assumptions C53_fiat.

(** The same numbers as a tabulation at that point. *)
Theorem C53_same_as_tabulation : forall F (o : ops F) G,
  ring_theory (f0 o) (f1 o) (fadd o) (fmul o) (fsub o) (fopp o) eq ->
  forall (leaf_point : leaf F -> nat -> gem F -> option (dimkey * nat) -> fresh (list (list nat * gem F)))
    (leaf_eval : leaf F -> nat -> pset F -> option (dimkey * nat) -> option G -> fresh (list (list nat * gem F)))
    (e : elt F) vars order pnt ent cm n m c vs pt env,
  built e -> shaped e ->
  (forall l, leaf_of l e -> fold_right Nat.mul 1 (lf_ishape l) = lf_dim l /\ leaf_evaluates o leaf_point l /\ leaf_tabulates o leaf_eval l) ->
  cell_of e = Ok c -> value_shape e = Ok vs ->
  let en := entity_or_cell c ent in
  entity_of (topology c) en -> sliceable e en ->
  gshape pnt = [dk_total (fst en)] -> (forall x, In x (gfree pnt) -> x < n) ->
  map (fun k => eval o vars pnt env [k]) (seq 0 (dk_total (fst en))) = pt ->
  exists ts n' ts' m', point_evaluation o leaf_point e order pnt ent n = Ok (ts, n') /\
    basis_evaluation o leaf_eval e order (PSingleton pt) ent cm m = Ok (ts', m') /\
    forall alpha g g' b v, In (alpha, g) ts -> In (alpha, g') ts' -> in_shape (index_shape e) b -> in_shape vs v ->
      eval o vars g env (b ++ v) = eval o vars g' env (b ++ v).
Proof. exact (fun F o G R lp le => built_agrees o R lp G le). Qed.
Print Assumptions C53_same_as_tabulation.

(** Points of the wrong dimension are refused, by products whatever their
    factors are. *)
Theorem C53_wrong_dimension : forall F (o : ops F) leaf_point fs cs order pnt ent n,
  fs <> [] -> mapM cell_of fs = Ok cs ->
  let en := entity_or_cell (TPCell cs) ent in
  entity_of (topology (TPCell cs)) en -> gshape pnt <> [dk_total (fst en)] ->
  point_evaluation o leaf_point (ETensorProduct fs) order pnt ent n = Err AssertionError.
Proof. exact (fun F o lp => product_wrong_shape o lp). Qed.
Print Assumptions C53_wrong_dimension.

Theorem C53_fiat_wrong_dimension : forall F (o : ops F) ofZ nan fn sym (l : leaf F) order pnt ent n,
  gshape pnt <> [dk_total (fst (entity_or_cell (lf_cell l) ent))] ->
  fiat_point_evaluation o ofZ nan fn sym l order pnt ent n = Err AssertionError.
Proof. exact fiat_wrong_shape. Qed.
Print Assumptions C53_fiat_wrong_dimension.

(** On a facet of a product, tabulation works and evaluation at an expression
    does not. *)
Theorem C53_facets_refuted : exists (e : elt Z) ent pt r,
  built e /\ shaped e /\
  (forall l, leaf_of l e -> fold_right Nat.mul 1 (lf_ishape l) = lf_dim l /\ leaf_evaluates zops zpoint_leaf l /\ leaf_tabulates zops (zleaf unit) l) /\
  cell_of e = Ok (Hypercube 2) /\ entity_of (topology (Hypercube 2)) ent /\
  basis_evaluation zops (zleaf unit) e 1 (PSingleton pt) (Some ent) None 0 = Ok r /\
  point_evaluation zops zpoint_leaf e 1 (GVariable "X" [1]) (Some ent) 0 = Err AssertionError.
Proof. exact facets_refuted. Qed.
Print Assumptions C53_facets_refuted.

(* ------------------------------------------------------------------ *)
(** ** Cases that meet the hypotheses *)

(** Raviart-Thomas of degree 2 on the quadrilateral; the point depends on a
    free index. *)
Definition zpnt : gem Z := GListTensor [2] [GIndexed (GVariable "p" [3; 2]) [IFree (0, 3); IFixed 0]; GIndexed (GVariable "p" [3; 2]) [IFree (0, 3); IFixed 1]].
Definition zvars (s : string) (i : list nat) : Z := match i with [r; 0] => Z.of_nat r | _ => (-1)%Z end.

Example C53_raviart_thomas :
  built zrt /\ shaped zrt /\
  (forall l, leaf_of l zrt -> fold_right Nat.mul 1 (lf_ishape l) = lf_dim l /\ leaf_evaluates zops zpoint_leaf l /\ leaf_tabulates zops (zleaf unit) l) /\
  cell_of zrt = Ok (TPCell [I1; I1]) /\ value_shape zrt = Ok [2] /\
  entity_of (topology (TPCell [I1; I1])) (entity_or_cell (TPCell [I1; I1]) None) /\
  sliceable zrt (entity_or_cell (TPCell [I1; I1]) None) /\
  gshape zpnt = [2] /\ (forall x, In x (gfree zpnt) -> x < 1) /\
  exists ts n' g, point_evaluation zops zpoint_leaf zrt 1 zpnt None 1 = Ok (ts, n') /\ In ([1; 0], g) ts /\
    gshape g = [12; 2] /\ gfree g <> [] /\
    (* d/dx of function 4 = -(4 - 8x)(1 - y) at x = 2, y = -1 *)
    eval zops zvars g (fun _ => 2) [4; 0] = 24%Z.
Proof.
  split; [exact zrt_built|]. split; [exact zrt_shaped|]. split; [exact zrt_parts|].
  split; [reflexivity|]. split; [reflexivity|].
  split; [exists 1; split; [cbn; auto | constructor]|].
  split.
  { apply (C53_whole_cell Z zrt (TPCell [I1; I1])); [exact zrt_shaped | exact zrt_solid | reflexivity | exists 1; split; [cbn; auto | constructor] | reflexivity]. }
  split; [reflexivity|]. split; [intros x Hx; vm_compute in Hx; intuition lia|].
  eexists _, _, _. split; [vm_compute; reflexivity|]. split; [right; left; reflexivity|].
  split; [reflexivity|]. split; [discriminate|]. vm_compute. reflexivity.
Qed.

(** The leaves. *)
Example C53_leaf :
  functions_ok zops zxops' zfunction /\ tabulates_symbols zops zxops' id (-1)%Z zsym (cg2 ztab2) /\
  lf_ishape (cg2 ztab2) = [lf_dim (cg2 ztab2)] /\
  exists ts n' g, fiat_point_evaluation zops id (-1)%Z zfunction zsym (cg2 ztab2) 2 (GVariable "X" [1]) None 0 = Ok (ts, n') /\
    In ([0], g) ts /\ eval zops (fun _ _ => 3%Z) g (fun _ => 0) [1] = 15%Z.
Proof.
  split; [exact zfunctions|]. split; [apply zsymbols; cbn; tauto|]. split; [reflexivity|].
  eexists _, _, _. split; [vm_compute; reflexivity|]. split; [left; reflexivity|]. reflexivity.
Qed.

(** A vertex of the interval is fine for a leaf, and refused by a product. *)
Example C53_vertex :
  (exists ts n' g, fiat_point_evaluation zops id (-1)%Z zfunction zsym (cg2 ztab2) 1 (GVariable "X" [0]) (Some (DI 0, 1)) 0 = Ok (ts, n') /\
     In ([1], g) ts /\ eval zops (fun _ _ => 0%Z) g (fun _ => 0) [1] = 3%Z) /\
  point_evaluation zops zpoint_leaf zrt 0 (GVariable "X" [1]) (Some (DT [DI 0; DI 1], 1)) 0 = Err AssertionError /\
  point_evaluation zops zpoint_leaf zrt 0 (GVariable "X" [3]) None 0 = Err AssertionError.
Proof.
  split; [|split; reflexivity].
  eexists _, _, _. split; [vm_compute; reflexivity|]. split; [right; left; reflexivity|]. reflexivity.
Qed.
