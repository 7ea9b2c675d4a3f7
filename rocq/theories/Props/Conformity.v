(** Property C67: transformed functions with common coefficients fit together
    across common edges. *)
From Coq Require Import String.
From mathcomp Require Import all_ssreflect all_algebra.
From SsrMultinomials Require Import mpoly.
From Verif Require Import Model.Gem Model.Piola Model.Zany Spec.Algebra Spec.Polynomials Spec.Zany Spec.ZanySamples Spec.Conformity.
From Verif Require Import Proofs.PiolaFacts Proofs.Polynomials Proofs.ZanySums Proofs.EdgeGeometry Proofs.ZanySamples Proofs.HermiteSample Proofs.Transport Proofs.ConformitySamples Proofs.Conformity2 Proofs.Conformity3 Proofs.EdgeBases3.
Set Implicit Arguments.
Unset Strict Implicit.
Unset Printing Implicit Defensive.
Import GRing.Theory Num.Theory.
Local Open Scope ring_scope.
Local Notation Q := [realFieldType of rat].

(** ** Argyris *)
(** The integral variant of any degree [5 + m], with any [avg]: functions with
    the same coefficients for the dofs on a common edge and at its ends have the
    same values and the same gradients on the edge.  The reference basis is any
    basis that is dual to the dofs of C32, [inner] are the remaining dofs. *)
Theorem C67_argyris : forall (F : realFieldType) (c : simplex (F := F)), fiat_triangle c ->
  forall m N (avg : bool) (inner : pieces F -> nat -> F), (forall k, functional (fun f => inner f k)) ->
  forall (K K' : cell F) e e' (a a' : nat -> F), (18 + 3 * (2 * m + 1) <= N)%N ->
  let w := mean_weight avg in
  let R := reference c in
  let ref := fun f => numbered 6 (2 * m + 1) (vertex_dof R f) (moment_dof R 2 m f) (inner f) in
  let M := fun g => argyris_transformation (ring_ops F) (5 + m) "integral"%string avg c g in
  based c w N 6 (6 + m) ref K -> based c w N 6 (6 + m) ref K' -> (e < 3)%N -> (e' < 3)%N ->
  meet (shape_of c w K) e (shape_of c w K') e' -> shared 6 (2 * m + 1) a e a' e' ->
  smooth_across (shape_of c w K) e (field N N M K a e) (field N N M K' a' e').
Proof. exact argyris_conforming. Qed.
Print Assumptions C67_argyris.

(** Every triangle has such bases, so the theorem applies to every pair of
    triangles with a common edge; likewise below. *)
Theorem C67_argyris_cells : forall (F : realFieldType) (c : simplex (F := F)), fiat_triangle c ->
  forall w (g : geometry (F := F)) J b, provides g c J b -> forall m,
  let R := reference c in
  exists K : cell F, [/\ geo K = g, matrix K = J, origin K = b &
    based c w (18 + 3 * (2 * m + 1)) 6 (6 + m) (fun f => numbered 6 (2 * m + 1) (vertex_dof R f) (moment_dof R 2 m f) (fun _ => 0)) K].
Proof. exact argyris_cells. Qed.
Print Assumptions C67_argyris_cells.

Example C67_argyris_example : forall avg, exists K K' : cell Q,
  let M := fun g => argyris_transformation (ring_ops Q) (5 + 2) "integral"%string avg triangle345 g in
  geo K = geometry5_12_13 /\ geo K' = geometry_mirror /\
  smooth_across (shape_of triangle345 (@mean_weight Q avg) K) 1 (field (18 + 3 * (2 * 2 + 1)) (18 + 3 * (2 * 2 + 1)) M K (left_of 6 (2 * 2 + 1)) 1%N) (field (18 + 3 * (2 * 2 + 1)) (18 + 3 * (2 * 2 + 1)) M K' (right_of 6 (2 * 2 + 1)) 1%N).
Proof.
move=> avg.
have [K [g1 g2 g3 hK]] := C67_argyris_cells triangle345_fiat (@mean_weight Q avg) geometry_provides 2.
have [K' [h1 h2 h3 hK']] := C67_argyris_cells triangle345_fiat (@mean_weight Q avg) mirror_provides 2.
exists K, K'; split; first exact: g1.
split; first exact: h1.
exact: (@C67_argyris Q triangle345 triangle345_fiat 2 _ avg (fun _ _ => 0) zero_functional K K' 1 1 _ _ (leqnn _) hK hK' isT isT (neighbours _ g1 g2 g3 h1 h2 h3) (shared_sample _ _)).
Qed.

(** ** Hsieh-Clough-Tocher *)
Theorem C67_hct : forall (F : realFieldType) (c : simplex (F := F)), fiat_triangle c ->
  forall m N (avg : bool) (inner : pieces F -> nat -> F), (forall k, functional (fun f => inner f k)) ->
  forall (K K' : cell F) e e' (a a' : nat -> F), (9 + 3 * (2 * m + 1) <= N)%N ->
  let w := mean_weight avg in
  let R := reference c in
  let ref := fun f => numbered 3 (2 * m + 1) (vertex_dof R f) (moment_dof R 1 m f) (inner f) in
  let M := fun g => hct_transformation (ring_ops F) (3 + m) avg c g in
  based c w N 3 (4 + m) ref K -> based c w N 3 (4 + m) ref K' -> (e < 3)%N -> (e' < 3)%N ->
  meet (shape_of c w K) e (shape_of c w K') e' -> shared 3 (2 * m + 1) a e a' e' ->
  smooth_across (shape_of c w K) e (field N N M K a e) (field N N M K' a' e').
Proof. exact hct_conforming. Qed.
Print Assumptions C67_hct.

Theorem C67_hct_cells : forall (F : realFieldType) (c : simplex (F := F)), fiat_triangle c ->
  forall w (g : geometry (F := F)) J b, provides g c J b -> forall m,
  let R := reference c in
  exists K : cell F, [/\ geo K = g, matrix K = J, origin K = b &
    based c w (9 + 3 * (2 * m + 1)) 3 (4 + m) (fun f => numbered 3 (2 * m + 1) (vertex_dof R f) (moment_dof R 1 m f) (fun _ => 0)) K].
Proof. exact hct_cells. Qed.
Print Assumptions C67_hct_cells.

Example C67_hct_example : forall avg, exists K K' : cell Q,
  let M := fun g => hct_transformation (ring_ops Q) (3 + 1) avg triangle345 g in
  geo K = geometry5_12_13 /\ geo K' = geometry_mirror /\
  smooth_across (shape_of triangle345 (@mean_weight Q avg) K) 1 (field (9 + 3 * (2 * 1 + 1)) (9 + 3 * (2 * 1 + 1)) M K (left_of 3 (2 * 1 + 1)) 1%N) (field (9 + 3 * (2 * 1 + 1)) (9 + 3 * (2 * 1 + 1)) M K' (right_of 3 (2 * 1 + 1)) 1%N).
Proof.
move=> avg.
have [K [g1 g2 g3 hK]] := C67_hct_cells triangle345_fiat (@mean_weight Q avg) geometry_provides 1.
have [K' [h1 h2 h3 hK']] := C67_hct_cells triangle345_fiat (@mean_weight Q avg) mirror_provides 1.
exists K, K'; split; first exact: g1.
split; first exact: h1.
exact: (@C67_hct Q triangle345 triangle345_fiat 1 _ avg (fun _ _ => 0) zero_functional K K' 1 1 _ _ (leqnn _) hK hK' isT isT (neighbours _ g1 g2 g3 h1 h2 h3) (shared_sample _ _)).
Qed.

(** ** The point variant of Argyris *)
Theorem C67_argyris_point : forall (F : realFieldType) (c : simplex (F := F)), fiat_triangle c ->
  forall (avg : bool) (K K' : cell F) e e' (a a' : nat -> F),
  let w := @size_weight F in
  let R := reference c in
  let ref := fun f => numbered 6 1 (vertex_dof R f) (midpoint_dof R f) (fun _ => 0) in
  let M := fun g => argyris_transformation (ring_ops F) 5 "point"%string avg c g in
  based c w 21 6 6 ref K -> based c w 21 6 6 ref K' -> (e < 3)%N -> (e' < 3)%N ->
  meet (shape_of c w K) e (shape_of c w K') e' -> shared 6 1 a e a' e' ->
  smooth_across (shape_of c w K) e (field 21 21 M K a e) (field 21 21 M K' a' e').
Proof. exact argyris_point_conforming. Qed.
Print Assumptions C67_argyris_point.

Theorem C67_argyris_point_cells : forall (F : realFieldType) (c : simplex (F := F)), fiat_triangle c ->
  forall w (g : geometry (F := F)) J b, provides g c J b ->
  let R := reference c in
  exists K : cell F, [/\ geo K = g, matrix K = J, origin K = b &
    based c w 21 6 6 (fun f => numbered 6 1 (vertex_dof R f) (midpoint_dof R f) (fun _ => 0)) K].
Proof. exact argyris_point_cells. Qed.
Print Assumptions C67_argyris_point_cells.

Example C67_argyris_point_example : exists K K' : cell Q,
  let M := fun g => argyris_transformation (ring_ops Q) 5 "point"%string false triangle345 g in
  geo K = geometry5_12_13 /\ geo K' = geometry_mirror /\
  smooth_across (shape_of triangle345 (@size_weight Q) K) 1 (field 21 21 M K (left_of 6 1) 1%N) (field 21 21 M K' (right_of 6 1) 1%N).
Proof.
have [K [g1 g2 g3 hK]] := C67_argyris_point_cells triangle345_fiat (@size_weight Q) geometry_provides.
have [K' [h1 h2 h3 hK']] := C67_argyris_point_cells triangle345_fiat (@size_weight Q) mirror_provides.
exists K, K'; split; first exact: g1.
split; first exact: h1.
exact: (@C67_argyris_point Q triangle345 triangle345_fiat false K K' 1 1 _ _ hK hK' isT isT (neighbours _ g1 g2 g3 h1 h2 h3) (shared_sample _ _)).
Qed.

(** ** Bell *)
(** Only the dofs at the vertices are shared. *)
Theorem C67_bell : forall (F : realFieldType) (c : simplex (F := F)), fiat_triangle c ->
  forall w (K K' : cell F) e e' (a a' : nat -> F),
  let R := reference c in
  let ref := fun f => numbered 6 1 (vertex_dof R f) (constraint_dof R (legendre4 F) f) (fun _ => 0) in
  let M := fun g => bell_transformation (ring_ops F) c g in
  based c w 21 6 6 ref K -> based c w 21 6 6 ref K' -> (e < 3)%N -> (e' < 3)%N ->
  meet (shape_of c w K) e (shape_of c w K') e' -> shared 6 0 a e a' e' ->
  smooth_across (shape_of c w K) e (field 18 21 M K a e) (field 18 21 M K' a' e').
Proof. exact bell_conforming. Qed.
Print Assumptions C67_bell.

Theorem C67_bell_cells : forall (F : realFieldType) (c : simplex (F := F)), fiat_triangle c ->
  forall w (g : geometry (F := F)) J b, provides g c J b ->
  let R := reference c in
  exists K : cell F, [/\ geo K = g, matrix K = J, origin K = b &
    based c w 21 6 6 (fun f => numbered 6 1 (vertex_dof R f) (constraint_dof R (legendre4 F) f) (fun _ => 0)) K].
Proof. exact bell_cells. Qed.
Print Assumptions C67_bell_cells.

Example C67_bell_example : exists K K' : cell Q,
  let M := fun g => bell_transformation (ring_ops Q) triangle345 g in
  geo K = geometry5_12_13 /\ geo K' = geometry_mirror /\
  smooth_across (shape_of triangle345 (fun _ _ => 1 : Q) K) 1 (field 18 21 M K (left_of 6 0) 1%N) (field 18 21 M K' (right_of 6 0) 1%N).
Proof.
have [K [g1 g2 g3 hK]] := C67_bell_cells triangle345_fiat (fun _ _ => 1 : Q) geometry_provides.
have [K' [h1 h2 h3 hK']] := C67_bell_cells triangle345_fiat (fun _ _ => 1 : Q) mirror_provides.
exists K, K'; split; first exact: g1.
split; first exact: h1.
exact: (@C67_bell Q triangle345 triangle345_fiat _ K K' 1 1 _ _ hK hK' isT isT (neighbours _ g1 g2 g3 h1 h2 h3) (shared_sample _ _)).
Qed.

(** ** Reduced Hsieh-Clough-Tocher *)
Theorem C67_reduced_hct : forall (F : realFieldType) (c : simplex (F := F)), fiat_triangle c ->
  forall w (K K' : cell F) e e' (a a' : nat -> F),
  let R := reference c in
  let ref := fun f => numbered 3 1 (vertex_dof R f) (constraint_dof R (legendre2 F) f) (fun _ => 0) in
  let M := fun g => reduced_hct_transformation (ring_ops F) c g in
  based c w 12 3 4 ref K -> based c w 12 3 4 ref K' -> (e < 3)%N -> (e' < 3)%N ->
  meet (shape_of c w K) e (shape_of c w K') e' -> shared 3 0 a e a' e' ->
  smooth_across (shape_of c w K) e (field 9 12 M K a e) (field 9 12 M K' a' e').
Proof. exact reduced_conforming. Qed.
Print Assumptions C67_reduced_hct.

Theorem C67_reduced_hct_cells : forall (F : realFieldType) (c : simplex (F := F)), fiat_triangle c ->
  forall w (g : geometry (F := F)) J b, provides g c J b ->
  let R := reference c in
  exists K : cell F, [/\ geo K = g, matrix K = J, origin K = b &
    based c w 12 3 4 (fun f => numbered 3 1 (vertex_dof R f) (constraint_dof R (legendre2 F) f) (fun _ => 0)) K].
Proof. exact reduced_cells. Qed.
Print Assumptions C67_reduced_hct_cells.

Example C67_reduced_hct_example : exists K K' : cell Q,
  let M := fun g => reduced_hct_transformation (ring_ops Q) triangle345 g in
  geo K = geometry5_12_13 /\ geo K' = geometry_mirror /\
  smooth_across (shape_of triangle345 (fun _ _ => 1 : Q) K) 1 (field 9 12 M K (left_of 3 0) 1%N) (field 9 12 M K' (right_of 3 0) 1%N).
Proof.
have [K [g1 g2 g3 hK]] := C67_reduced_hct_cells triangle345_fiat (fun _ _ => 1 : Q) geometry_provides.
have [K' [h1 h2 h3 hK']] := C67_reduced_hct_cells triangle345_fiat (fun _ _ => 1 : Q) mirror_provides.
exists K, K'; split; first exact: g1.
split; first exact: h1.
exact: (@C67_reduced_hct Q triangle345 triangle345_fiat _ K K' 1 1 _ _ hK hK' isT isT (neighbours _ g1 g2 g3 h1 h2 h3) (shared_sample _ _)).
Qed.

(** ** Morley *)
(** Not conforming: the functions have the same values at the ends of the edge
    and the same means of the gradient. *)
Theorem C67_morley : forall (F : realFieldType) (c : simplex (F := F)), fiat_triangle c ->
  forall (K K' : cell F) e e' (a a' : nat -> F),
  let w := @size_weight F in
  let T := shape_of c w K in
  let R := reference c in
  let ref := fun f => numbered 1 1 (vertex_dof R f) (midpoint_dof R f) (fun _ => 0) in
  let M := fun g => morley_transformation (ring_ops F) g in
  let u := field 6 6 M K a e in
  let u' := field 6 6 M K' a' e' in
  based c w 6 1 3 ref K -> based c w 6 1 3 ref K' -> (e < 3)%N -> (e' < 3)%N ->
  meet T e (shape_of c w K') e' -> shared 1 1 a e a' e' ->
  u.@[corner T (first e)] = u'.@[corner T (first e)] /\ u.@[corner T (second e)] = u'.@[corner T (second e)] /\
  forall i, integral (line u^`M(i) (corner T (first e)) (tangent T e)) = integral (line u'^`M(i) (corner T (first e)) (tangent T e)).
Proof. exact morley_conforming. Qed.
Print Assumptions C67_morley.

Theorem C67_morley_cells : forall (F : realFieldType) (c : simplex (F := F)), fiat_triangle c ->
  forall w (g : geometry (F := F)) J b, provides g c J b ->
  let R := reference c in
  exists K : cell F, [/\ geo K = g, matrix K = J, origin K = b &
    based c w 6 1 3 (fun f => numbered 1 1 (vertex_dof R f) (midpoint_dof R f) (fun _ => 0)) K].
Proof. exact morley_cells. Qed.
Print Assumptions C67_morley_cells.

Example C67_morley_example : exists K K' : cell Q,
  let T := shape_of triangle345 (@size_weight Q) K in
  let M := fun g => morley_transformation (ring_ops Q) g in
  let u := field 6 6 M K (left_of 1 1) 1%N in
  let u' := field 6 6 M K' (right_of 1 1) 1%N in
  geo K = geometry5_12_13 /\ geo K' = geometry_mirror /\
  u.@[corner T 0] = u'.@[corner T 0] /\ u.@[corner T 2] = u'.@[corner T 2] /\
  forall i, integral (line u^`M(i) (corner T 0) (tangent T 1)) = integral (line u'^`M(i) (corner T 0) (tangent T 1)).
Proof.
have [K [g1 g2 g3 hK]] := C67_morley_cells triangle345_fiat (@size_weight Q) geometry_provides.
have [K' [h1 h2 h3 hK']] := C67_morley_cells triangle345_fiat (@size_weight Q) mirror_provides.
exists K, K'; split; first exact: g1.
split; first exact: h1.
exact: (@C67_morley Q triangle345 triangle345_fiat K K' 1 1 _ _ hK hK' isT isT (neighbours _ g1 g2 g3 h1 h2 h3) (shared_sample _ _)).
Qed.

(** ** Hermite *)
(** In any dimension, with any polynomial map: functions with the same
    coefficients at two common vertices [v] and [w] have the same gradients
    there and the same values on the line between them. *)
Theorem C67_hermite : forall (F : realFieldType) n (c : simplex (F := F)), sx_dim c = n -> List.length (sx_vertices c) = n.+1 ->
  forall N (inner : {mpoly F[n]} -> nat -> F), (n.+1 * n.+1 <= N)%N ->
  (forall k m (a : 'I_m -> F) (phi : nat -> {mpoly F[n]}), inner (\sum_(j < m) a j *: phi j) k = \sum_(j < m) a j * inner (phi j) k) ->
  forall (K K' : hermite_cell F n) (a a' : nat -> F), hermite_based c N inner K -> hermite_based c N inner K' ->
  forall v v' w w', (v <= n)%N -> (v' <= n)%N -> (w <= n)%N -> (w' <= n)%N ->
  (forall i, h_vertex c K v i = h_vertex c K' v' i) -> (forall i, h_vertex c K w i = h_vertex c K' w' i) ->
  cell_size (h_geo K) v = cell_size (h_geo K') v' -> cell_size (h_geo K) w = cell_size (h_geo K') w' ->
  (forall k, (k <= n)%N -> a (v * n.+1 + k)%N = a' (v' * n.+1 + k)%N /\ a (w * n.+1 + k)%N = a' (w' * n.+1 + k)%N) ->
  let u := hermite_field c N K a in
  let u' := hermite_field c N K' a' in
  (forall i, u^`M(i).@[h_vertex c K v] = u'^`M(i).@[h_vertex c K v]) /\
  forall s, let x : point F n := fun i => h_vertex c K v i + s * (h_vertex c K w i - h_vertex c K v i) in u.@[x] = u'.@[x].
Proof. exact hermite_conforming. Qed.
Print Assumptions C67_hermite.

Example C67_hermite_example : let u := hermite_field interval 4 left_cell (fun i => i%:R) in
  let u' := hermite_field interval 4 right_cell (fun i => if (i < 2)%N then (i + 2)%:R else - i%:R) in
  let x : point Q 1 := h_vertex interval left_cell 1 in
  x 0 = 3%:R /\ u^`M(0).@[x] = u'^`M(0).@[x] /\ u.@[x] = u'.@[x].
Proof.
move=> u u' x.
have hx i : x i = 3%:R by rewrite /x /h_vertex affine_image big_ord1; apply/eqP; vm_compute.
have hy i : h_vertex interval right_cell 0 i = 3%:R by rewrite /h_vertex affine_image big_ord1; apply/eqP; vm_compute.
have [h1 h2] := @C67_hermite Q 1 interval erefl erefl 4 (fun _ _ => 0) isT
  zero_linear left_cell right_cell (fun i => i%:R) (fun i => if (i < 2)%N then (i + 2)%:R else - i%:R)
  left_based right_based 1%N 0%N 1%N 0%N isT isT isT isT (fun i => etrans (hx i) (esym (hy i))) (fun i => etrans (hx i) (esym (hy i))) erefl erefl
  (fun k => match k with 0 => fun _ => conj erefl erefl | 1 => fun _ => conj erefl erefl | _ => fun h => False_ind _ (notF h) end).
split; first exact: hx.
split; first exact: h1.
have hs i : x i + 0 * (x i - x i) = x i by rewrite mul0r addr0.
by rewrite -(meval_eq u hs) -(meval_eq u' hs); exact: (h2 0).
Qed.
