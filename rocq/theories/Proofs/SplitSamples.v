(** Powell-Sabin functions on the sample triangles. *)
From mathcomp Require Import all_ssreflect all_algebra ring.
From SsrMultinomials Require Import mpoly.
From Verif Require Import Model.Gem Model.Piola Model.Zany Spec.Algebra Spec.Polynomials Spec.Zany Spec.ZanySamples Spec.Split Spec.Conformity Spec.SplitConformity.
From Verif Require Import Proofs.PiolaFacts Proofs.Polynomials Proofs.ZanySums Proofs.EdgeGeometry Proofs.ZanySamples Proofs.ConformitySamples Proofs.SplitConformity Proofs.SplitBases.
Set Implicit Arguments.
Unset Strict Implicit.
Unset Printing Implicit Defensive.
Import GRing.Theory Num.Theory.
Local Open Scope ring_scope.
Local Notation Q := [realFieldType of rat].

(** Points of the reference triangle: the barycentre, and a point at the height
    of the midpoint of edge 1. *)
Definition barycentre345 : point Q 2 := fun i => if i == 0 then 1 else q_of 4 3.
Definition level345 : point Q 2 := fun i => if i == 0 then 1 else 2%:R.

Lemma off_edges z e : (z = barycentre345 \/ z = level345) -> (e < 3)%N ->
  let R := reference (F := Q) triangle345 in tangent R e 0 * spoke R z e 1 - tangent R e 1 * spoke R z e 0 != 0.
Proof. by move=> hz he; rewrite /spoke /midpoint /half /tangent /=; case: hz => ->; case: e he => [|[|[|e]]] // _; vm_compute. Qed.

Lemma spoke_sample (w : geometry (F := rat) -> nat -> rat) (K : cell Q) J b z i : matrix K = J -> origin K = b ->
  spoke (shape_of (F := Q) triangle345 w K) (image (affine J b) z) 1 i =
    J i 0 * (z 0 - (0 + (0 - 0) / 2%:R)) + J i 1 * (z 1 - (0 + (4%:R - 0) / 2%:R)).
Proof. by move=> <- <-; rewrite (@spoke_back Q triangle345 w (geo K) (matrix K) (origin K)) sum2. Qed.

Lemma tangent_sample (w : geometry (F := rat) -> nat -> rat) (K : cell Q) J i : matrix K = J ->
  tangent (shape_of (F := Q) triangle345 w K) 1 i = J i 0 * 0 + J i 1 * 4%:R.
Proof.
move=> <-; rewrite /tangent /= !affine_image !sum2.
move: (matrix K i 0) (matrix K i 1) (origin K i) => p q r.
have e00 : vertex (ring_ops Q) triangle345 0 0 = 0 by [].
have e01 : vertex (ring_ops Q) triangle345 0 1 = 0 by [].
have e20 : vertex (ring_ops Q) triangle345 2 0 = 0 by [].
have e21 : vertex (ring_ops Q) triangle345 2 1 = 4%:R by [].
rewrite e00 e01 e20 e21; ring.
Qed.

Lemma ps6_refuted : exists (c : simplex (F := rat)) w (K K' : cell Q) (z : point Q 2) (a a' : nat -> rat),
  let R := reference (F := Q) c in
  let M := fun g => hermite_transformation (ring_ops Q) c g in
  let T := shape_of (F := Q) c w K in
  let T' := shape_of (F := Q) c w K' in
  fiat_triangle (F := Q) c /\
  (forall i, z i = (corner R 0 i + corner R 1 i + corner R 2 i) / 3%:R) /\
  split_based c w 9 (split_vertices R) K /\ split_based c w 9 (split_vertices R) K' /\
  (forall j, (j < 9)%N -> centred T (image (map_of K) z) (funs K j)) /\
  (forall j, (j < 9)%N -> centred T' (image (map_of K') z) (funs K' j)) /\
  meet T 1 T' 1 /\ shared (F := Q) 3 0 a 1 a' 1 /\
  ~ split_smooth_across T 1 (field 9 9 M K a) 1 (field 9 9 M K' a').
Proof.
pose w := fun (_ : geometry (F := rat)) (_ : nat) => 1 : Q.
have off e (he : (e < 3)%N) := @off_edges barycentre345 e (or_introl erefl) he.
have [K [g1 g2 g3 hK cK]] := @ps6_cells Q triangle345 w geometry5_12_13 stretch shift geometry_provides barycentre345 off.
have [K' [h1 h2 h3 hK' cK']] := @ps6_cells Q triangle345 w geometry_mirror mirror shift mirror_provides barycentre345 off.
have hd : spoke (shape_of (F := Q) triangle345 w K) (image (affine stretch shift) barycentre345) 1 0 * spoke (shape_of (F := Q) triangle345 w K') (image (affine mirror shift) barycentre345) 1 1 -
  spoke (shape_of (F := Q) triangle345 w K) (image (affine stretch shift) barycentre345) 1 1 * spoke (shape_of (F := Q) triangle345 w K') (image (affine mirror shift) barycentre345) 1 0 != 0.
  by rewrite !(spoke_sample w barycentre345 _ g2 g3) !(spoke_sample w barycentre345 _ h2 h3); vm_compute.
have hm := neighbours w g1 g2 g3 h1 h2 h3.
have [a [a' [hs hn]]] := ps6_kink triangle345_fiat hK hK' (isT : (1 < 3)%N) (isT : (1 < 3)%N) hm cK cK' hd.
exists triangle345, w, K, K', barycentre345, a, a'.
split; first exact: triangle345_fiat.
split; first by move=> i; case: (ord2 i) => ->; apply/eqP; vm_compute.
split; first exact: hK.
split; first exact: hK'.
split; first by rewrite /map_of g2 g3; exact: cK.
split; first by rewrite /map_of h2 h3; exact: cK'.
split; first exact: hm.
by split; [exact: hs|exact: hn].
Qed.
