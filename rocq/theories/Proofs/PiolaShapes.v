(** Quadratic and cubic bases on a triangle for the elements with dofs at
    vertices. *)
From Coq Require Import String.
From mathcomp Require Import all_ssreflect all_algebra ring.
From SsrMultinomials Require Import mpoly.
From Verif Require Import Model.Prelude Model.Gem Model.Cell Model.Element Model.Piola Model.Zany Model.PiolaElements.
From Verif Require Import Spec.Algebra Spec.Polynomials Spec.EntityDofs Spec.PiolaElements Spec.PiolaSamples Spec.PiolaConformity.
From Verif Require Import Proofs.PiolaFacts Proofs.Polynomials Proofs.PiolaSamples.
From Verif Require Import Proofs.PiolaConformity Proofs.PiolaConformity3 Proofs.PiolaCells Proofs.PiolaCells2 Proofs.PiolaNeighbours.
Set Implicit Arguments.
Unset Strict Implicit.
Unset Printing Implicit Defensive.
Import GRing.Theory Num.Theory.
Local Open Scope ring_scope.
Local Notation Q := [realFieldType of rat].

(** Points that divide an edge. *)
Definition division (L k : nat) : rat := qq k.+1 L.+1.

(** Barycentric coordinates of the reference triangle and their values. *)
Definition bcoef (v : nat) : rat * rat * rat := nth (0, 0, 0) [:: (1, - qq 1 3, - qq 1 4); (0, qq 1 3, 0); (0, 0, qq 1 4)] v.
Definition lin (v : nat) : {mpoly rat[2]} :=
  ((bcoef v).1.1)%:MP + \sum_(i < 2) (if i == 0 then (bcoef v).1.2 else (bcoef v).2) *: 'X_i.
Definition lval (v : nat) (x y : rat) : rat := (bcoef v).1.1 + ((bcoef v).1.2 * x + (bcoef v).2 * y).
Lemma lin_at v (p : point Q 2) : (lin v).@[p] = lval v (p 0) (p 1).
Proof. by rewrite /lin /lval mevalD mevalC !big_ord_recl big_ord0 addr0 mevalD !mevalZ !mevalXU; congr (_ + (_ * _ + _ * _)); congr p; apply: val_inj. Qed.
Lemma lin_size v : (msize (lin v) <= 2)%N.
Proof. exact: size_affine. Qed.

(** Products of [a lin v + b]. *)
Definition term := (nat * rat * rat)%type.
Definition tpoly (t : term) : {mpoly rat[2]} := t.1.2 *: lin t.1.1 + (t.2)%:MP.
Definition tval (t : term) (x y : rat) : rat := t.1.2 * lval t.1.1 x y + t.2.
Definition ppoly (ts : seq term) : {mpoly rat[2]} := foldr (fun t q => tpoly t * q) 1 ts.
Definition pval (ts : seq term) (x y : rat) : rat := foldr (fun t q => tval t x y * q) 1 ts.
Lemma ppoly_at ts (p : point Q 2) : (ppoly ts).@[p] = pval ts (p 0) (p 1).
Proof.
elim: ts => [|t ts IH] /=; first by rewrite meval1.
by rewrite mevalM IH /tpoly mevalD mevalZ mevalC lin_at.
Qed.
Lemma ppoly_size ts : (msize (ppoly ts) <= (size ts).+1)%N.
Proof.
elim: ts => [|t ts IH] /=; first by rewrite msize1.
apply: (@size_product _ _ _ _ 1 (size ts)) => //; apply: (leq_trans (msizeD_le _ _)); rewrite geq_max; apply/andP; split.
  exact: leq_trans (mmeasureZ_le _ _ _) (lin_size _).
by rewrite msizeC; case: eqP.
Qed.

Definition ends (f : nat) : nat * nat := nth (0, 0)%N [:: (1, 2); (0, 2); (0, 1)]%N f.
(** Lagrange's functions for vertices and midpoints, and for vertices and the
    points that divide edges into three parts. *)
Definition factors2 (j : nat) : seq term :=
  if (j < 3)%N then [:: (j, 1, 0); (j, 2%:R, -1)] else [:: ((ends (j - 3)).1, 4%:R, 0); ((ends (j - 3)).2, 1, 0)].
Definition factors3 (j : nat) : seq term :=
  if (j < 3)%N then [:: (j, qq 1 2, 0); (j, 3%:R, -1); (j, 3%:R, - 2%:R)]
  else let e := ends ((j - 3) %/ 2) in
    [:: (e.1, qq 9 2, 0); (e.2, 1, 0); (if ((j - 3) %% 2 == 0)%N then e.1 else e.2, 3%:R, -1)].

Definition spot_val (L i : nat) : rat * rat :=
  let V v := nth (0, 0) [:: (0, 0); (3%:R, 0); (0, 4%:R)] v in
  if (i < 3)%N then V i
  else let e := ends ((i - 3) %/ L) in let t := division L ((i - 3) %% L) in
    ((V e.1).1 + t * ((V e.2).1 - (V e.1).1), (V e.1).2 + t * ((V e.2).2 - (V e.1).2)).
Lemma spot_at L i : (0 < L)%N -> (i < 3 + 3 * L)%N ->
  spot_of cell2 L (division L) i 0 = (spot_val L i).1 /\ spot_of cell2 L (division L) i 1 = (spot_val L i).2.
Proof.
move=> hL hi; rewrite /spot_of /spot_val; case: (ltnP i 3) => h; first by case: i h {hi} => [|[|[|i]]].
have : ((i - 3) %/ L < 3)%N by rewrite ltn_divLR // ltn_subLR // ltnS.
rewrite /facet_point !big_ord_recl !big_ord0 !addr0 !mxE.
by case: ((i - 3) %/ L)%N => [|[|[|f]]].
Qed.

Lemma quadratics i j : (i < 3 + 3 * 1)%N -> (j < 3 + 3 * 1)%N -> (ppoly (factors2 j)).@[spot_of cell2 1 (division 1) i] = (i == j)%:R.
Proof.
move=> hi hj; rewrite ppoly_at; have [-> ->] := spot_at (erefl : (0 < 1)%N) hi.
by do 6?[case: i hi => [|i] hi //]; do 6?[case: j hj => [|j] hj //]; apply/eqP; vm_compute.
Qed.
Lemma cubics i j : (i < 3 + 3 * 2)%N -> (j < 3 + 3 * 2)%N -> (ppoly (factors3 j)).@[spot_of cell2 2 (division 2) i] = (i == j)%:R.
Proof.
move=> hi hj; rewrite ppoly_at; have [-> ->] := spot_at (erefl : (0 < 2)%N) hi.
by do 9?[case: i hi => [|i] hi //]; do 9?[case: j hj => [|j] hj //]; apply/eqP; vm_compute.
Qed.

(** The dofs: matrices at vertices and products with normals at the points that
    divide the edges. *)
Definition vertex_edge_nodes (L : nat) : nat -> mnode Q 1 := vertices_first (@cell_vertex Q 1 cell2) (fun _ => 0%N)
  (facets_first 3 L (fun _ => 0%N) (fun _ k => @edge_value Q (division L k)) (fun i => MOther (fun _ => 0))).
Lemma vertex_edge_linear L i : mlinear (vertex_edge_nodes L i).
Proof.
apply: vertices_linear => j; rewrite /facets_first /mfacet_node /facet_node; case: ifP => _; last first.
  by move=> N a phi s h; rewrite big1 // => k _; rewrite mulr0.
by case: ifP => _ a p q; rewrite /edge_value mevalD mevalZ.
Qed.
Lemma quadratic_cells (g : geometry (F := Q)) J b : provides g J -> exists K : pcell Q 1 (mfield Q 1), [/\ pgeo K = g, pmatrix K = J, porigin K = b &
  mbased cell2 15 2 (vertex_edge_nodes 1) K].
Proof.
move=> hg; apply: (vcells (shape := fun j => ppoly (factors2 j)) cell2_fiat _ quadratics _ b hg) => // j.
by apply: leq_trans (ppoly_size _) _; rewrite /factors2; case: ifP.
Qed.
Lemma cubic_cells (g : geometry (F := Q)) J b : provides g J -> exists K : pcell Q 1 (mfield Q 1), [/\ pgeo K = g, pmatrix K = J, porigin K = b &
  mbased cell2 21 3 (vertex_edge_nodes 2) K].
Proof.
move=> hg; apply: (vcells (shape := fun j => ppoly (factors3 j)) cell2_fiat _ cubics _ b hg) => // j.
by apply: leq_trans (ppoly_size _) _; rewrite /factors3; case: ifP.
Qed.

Lemma division_inside L : determine_inside L.+1 L (fun k => @edge_value Q (division L k)).
Proof.
have hn : (L.+1)%:R != 0 :> rat by rewrite pnatr_eq0.
apply: points_determine_inside => [i j hi hj /(mulIf (invr_neq0 hn)) /eqP|i hi].
  by rewrite eqr_nat eqSS => /eqP.
split; first by rewrite mulf_neq0 ?invr_neq0 // pnatr_eq0.
by rewrite -(divff hn) (can_eq (mulfVK hn)) eqr_nat eqSS neq_ltn hi.
Qed.
Lemma cell2_names : named_vertices 1 cell2.
Proof. by case=> [|[|[|f]]] // [|[|k]]. Qed.

(** Coefficients that agree at the ends of the shared edge and on it. *)
Definition left_vertices (L : nat) (i : nat) : rat :=
  if (i < 9)%N then nth 0 [:: 100%:R; 101%:R; 102%:R; 1; 2%:R; 3%:R; 4%:R; 5%:R; 6%:R] i else left_of 9 (2 * L) i.
Definition right_vertices (L : nat) (i : nat) : rat :=
  if (i < 9)%N then nth 0 [:: 1; 2%:R; 3%:R; -1; -2%:R; -3%:R; 4%:R; 5%:R; 6%:R] i else right_of (9 + 2 * L) (2 * L) i.
Lemma same_vertices field (K K' : pcell Q 1 field) L : pgeo K = g2 -> pgeo K' = g2' ->
  same_at_vertices cell2 K K' 0 1 (left_vertices L) (right_vertices L).
Proof.
move=> e e'; rewrite /same_at_vertices e e' => k; case: k => [|[|k]] // _; (split; first by apply/eqP; vm_compute).
- by case=> [|[|[|r]]].
- by case=> [|[|[|r]]].
Qed.
Lemma same_edges L : same_from (left_vertices L) (9 + 0 * (2 * L)) (right_vertices L) (9 + 1 * (2 * L)) (2 * L).
Proof.
move=> r hr; rewrite mul0n mul1n addn0 /left_vertices /right_vertices !ltnNge -addnA !leq_addr /= addnA.
exact: same_coefficients.
Qed.
