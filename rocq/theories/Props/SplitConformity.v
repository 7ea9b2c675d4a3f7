(** Property C67, continued: the Powell-Sabin elements. *)
From mathcomp Require Import all_ssreflect all_algebra.
From SsrMultinomials Require Import mpoly.
From Verif Require Import Model.Gem Model.Piola Model.Zany Spec.Algebra Spec.Polynomials Spec.Zany Spec.ZanySamples Spec.Split Spec.Conformity Spec.SplitConformity.
From Verif Require Import Proofs.PiolaFacts Proofs.Polynomials Proofs.ZanySums Proofs.EdgeGeometry Proofs.ZanySamples Proofs.ConformitySamples Proofs.SplitConformity Proofs.SplitBases Proofs.SplitSamples.
Set Implicit Arguments.
Unset Strict Implicit.
Unset Printing Implicit Defensive.
Import GRing.Theory Num.Theory.
Local Open Scope ring_scope.
Local Notation Q := [realFieldType of rat].

(** ** Powell-Sabin 12 *)
(** Equal values and gradients on both halves of a common edge. *)
Theorem C67_powell_sabin12 : forall (F : realFieldType) (c : simplex (F := F)), fiat_triangle c ->
  forall (avg : bool) (K K' : cell F) e e' (a a' : nat -> F),
  let w := mean_weight avg in
  let R := reference c in
  let M := fun g => powell_sabin12_transformation (ring_ops F) avg c g in
  split_based c w 12 (split_dof R) K -> split_based c w 12 (split_dof R) K' -> (e < 3)%N -> (e' < 3)%N ->
  meet (shape_of c w K) e (shape_of c w K') e' -> shared 3 1 a e a' e' ->
  split_smooth_across (shape_of c w K) e (field 12 12 M K a) e' (field 12 12 M K' a').
Proof. exact ps12_conforming. Qed.
Print Assumptions C67_powell_sabin12.

Theorem C67_powell_sabin12_cells : forall (F : realFieldType) (c : simplex (F := F)) w (g : geometry (F := F)) J b, provides g c J b -> fiat_triangle c ->
  exists K : cell F, [/\ geo K = g, matrix K = J, origin K = b & split_based c w 12 (split_dof (reference c)) K].
Proof. exact ps12_cells. Qed.
Print Assumptions C67_powell_sabin12_cells.

Example C67_powell_sabin12_example : forall avg, exists K K' : cell Q,
  let M := fun g => powell_sabin12_transformation (ring_ops Q) avg triangle345 g in
  geo K = geometry5_12_13 /\ geo K' = geometry_mirror /\
  split_smooth_across (shape_of triangle345 (@mean_weight Q avg) K) 1 (field 12 12 M K (left_of 3 1)) 1 (field 12 12 M K' (right_of 3 1)).
Proof.
move=> avg.
have [K [g1 g2 g3 hK]] := C67_powell_sabin12_cells (@mean_weight Q avg) geometry_provides triangle345_fiat.
have [K' [h1 h2 h3 hK']] := C67_powell_sabin12_cells (@mean_weight Q avg) mirror_provides triangle345_fiat.
exists K, K'; split; first exact: g1.
split; first exact: h1.
exact: (@C67_powell_sabin12 Q triangle345 triangle345_fiat avg K K' 1 1 _ _ hK hK' isT isT (neighbours _ g1 g2 g3 h1 h2 h3) (shared_sample _ _)).
Qed.

(** ** Powell-Sabin 6 *)
(** Equal values on the common edge and equal gradients at its ends.  The
    gradients are equal on the whole edge when the lines from the midpoint of
    the edge to the points where the pieces of each triangle meet are the
    same. *)
Theorem C67_powell_sabin6 : forall (F : realFieldType) (c : simplex (F := F)), fiat_triangle c ->
  forall w (K K' : cell F) e e' (a a' : nat -> F),
  let R := reference c in
  let M := fun g => hermite_transformation (ring_ops F) c g in
  let T := shape_of c w K in
  let T' := shape_of c w K' in
  let u := field 9 9 M K a in
  let u' := field 9 9 M K' a' in
  split_based c w 9 (split_vertices R) K -> split_based c w 9 (split_vertices R) K' -> (e < 3)%N -> (e' < 3)%N ->
  meet T e T' e' -> shared 3 0 a e a' e' ->
  split_continuous_across T e u e' u' /\
  (forall i, (u e)^`M(i).@[corner T (first e)] = (u' e')^`M(i).@[corner T (first e)] /\
             (u (3 + e)%N)^`M(i).@[corner T (second e)] = (u' (3 + e')%N)^`M(i).@[corner T (second e)]) /\
  forall z z' k, (forall j, (j < 9)%N -> centred T z (funs K j)) -> (forall j, (j < 9)%N -> centred T' z' (funs K' j)) ->
    k != 0 -> (forall i, spoke T' z' e' i = k * spoke T z e i) ->
    tangent T e 0 * spoke T z e 1 - tangent T e 1 * spoke T z e 0 != 0 -> split_smooth_across T e u e' u'.
Proof. exact ps6_conforming. Qed.
Print Assumptions C67_powell_sabin6.

(** Otherwise there are functions with the same coefficients whose gradients
    differ. *)
Theorem C67_powell_sabin6_kink : forall (F : realFieldType) (c : simplex (F := F)), fiat_triangle c ->
  forall w (K K' : cell F) e e' z z',
  let R := reference c in
  let T := shape_of c w K in
  let T' := shape_of c w K' in
  split_based c w 9 (split_vertices R) K -> split_based c w 9 (split_vertices R) K' -> (e < 3)%N -> (e' < 3)%N -> meet T e T' e' ->
  (forall j, (j < 9)%N -> centred T z (funs K j)) -> (forall j, (j < 9)%N -> centred T' z' (funs K' j)) ->
  spoke T z e 0 * spoke T' z' e' 1 - spoke T z e 1 * spoke T' z' e' 0 != 0 ->
  let M := fun g => hermite_transformation (ring_ops F) c g in
  exists a a', shared 3 0 a e a' e' /\ ~ split_smooth_across T e (field 9 9 M K a) e' (field 9 9 M K' a').
Proof. exact ps6_kink. Qed.
Print Assumptions C67_powell_sabin6_kink.

(** Every triangle has such bases, for every point [z] that is not on the lines
    of the edges. *)
Theorem C67_powell_sabin6_cells : forall (F : realFieldType) (c : simplex (F := F)) w (g : geometry (F := F)) J b, provides g c J b ->
  let R := reference c in
  forall z, (forall e, (e < 3)%N -> tangent R e 0 * spoke R z e 1 - tangent R e 1 * spoke R z e 0 != 0) ->
  exists K : cell F, [/\ geo K = g, matrix K = J, origin K = b, split_based c w 9 (split_vertices R) K &
    forall j, (j < 9)%N -> centred (shape_of c w K) (image (affine J b) z) (funs K j)].
Proof. exact ps6_cells. Qed.
Print Assumptions C67_powell_sabin6_cells.

Example C67_powell_sabin6_example : exists K K' : cell Q,
  let M := fun g => hermite_transformation (ring_ops Q) triangle345 g in
  geo K = geometry5_12_13 /\ geo K' = geometry_mirror /\
  split_smooth_across (shape_of triangle345 (fun _ _ => 1 : Q) K) 1 (field 9 9 M K (left_of 3 0)) 1 (field 9 9 M K' (right_of 3 0)).
Proof.
pose w := fun (_ : geometry (F := rat)) (_ : nat) => 1 : Q.
have off e (he : (e < 3)%N) := @off_edges level345 e (or_intror erefl) he.
have [K [g1 g2 g3 hK cK]] := @C67_powell_sabin6_cells Q triangle345 w geometry5_12_13 stretch shift geometry_provides level345 off.
have [K' [h1 h2 h3 hK' cK']] := @C67_powell_sabin6_cells Q triangle345 w geometry_mirror mirror shift mirror_provides level345 off.
exists K, K'; split; first exact: g1.
split; first exact: h1.
have [_ [_ H]] := @C67_powell_sabin6 Q triangle345 triangle345_fiat w K K' 1 1 (left_of 3 0) (right_of 3 0) hK hK' isT isT (neighbours _ g1 g2 g3 h1 h2 h3) (shared_sample _ _).
apply: (H _ _ (- 1) cK cK') => //.
- move=> i; rewrite (spoke_sample w level345 i h2 h3) (spoke_sample w level345 i g2 g3).
  by case: (ord2 i) => ->; apply/eqP; vm_compute.
- by rewrite !(spoke_sample w level345 _ g2 g3) !(tangent_sample w _ g2); vm_compute.
Qed.

(** The element is registered as a subspace of [H2]
    ([finat/ufl/elementlist.py:121]).  When the point is the barycentre of the
    reference triangle, so that it is the barycentre of each triangle, the
    gradients differ on the common edge of the two sample triangles. *)
Theorem C67_powell_sabin6_smooth_refuted : exists (c : simplex (F := rat)) w (K K' : cell Q) (z : point Q 2) (a a' : nat -> rat),
  let R := reference (F := Q) c in
  let M := fun g => hermite_transformation (ring_ops Q) c g in
  let T := shape_of (F := Q) c w K in
  let T' := shape_of (F := Q) c w K' in
  fiat_triangle (F := Q) c /\
  (forall i, z i = (corner R 0 i + corner R 1 i + corner R 2 i) / 3%:R) /\
  split_based c w 9 (split_vertices R) K /\ split_based c w 9 (split_vertices R) K' /\
  (forall j, (j < 9)%N -> centred T (image (map_of K) z) (funs K j)) /\
  (forall j, (j < 9)%N -> centred T' (image (map_of K') z) (funs K' j)) /\
  meet T 1 T' 1 /\ shared (F := Q) 3 0 a 1 a' 1 /\
  ~ split_smooth_across T 1 (field 9 9 M K a) 1 (field 9 9 M K' a').
Proof. exact ps6_refuted. Qed.
Print Assumptions C67_powell_sabin6_smooth_refuted.
