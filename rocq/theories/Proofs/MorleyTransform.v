(** The transformation of the Morley element. *)
From mathcomp Require Import all_ssreflect all_algebra ring.
From SsrMultinomials Require Import mpoly.
From Verif Require Import Model.Gem Model.Piola Model.Zany Spec.Algebra Spec.Polynomials Spec.Zany.
From Verif Require Import Proofs.Determinant Proofs.PiolaFacts Proofs.Polynomials Proofs.Integrals Proofs.ZanySums Proofs.VertexTransform Proofs.EdgeGeometry Proofs.EdgeRows Proofs.ZanyElements Proofs.ZanyEnds.
From mathcomp Require Import zify.
Set Implicit Arguments.
Unset Strict Implicit.
Unset Printing Implicit Defensive.
Import GRing.Theory Num.Theory.
Local Open Scope ring_scope.

Section Morley.
Variable F : realFieldType.
Local Notation o := (ring_ops F).
Variables (c : simplex (F := F)) (g : geometry (F := F)) (J : 'I_2 -> 'I_2 -> F) (b : point F 2).
Hypothesis hc : fiat_triangle c.
Hypothesis hg : provides g c J b.
Variable weights : nat -> F.
Local Notation q := (affine J b).
Local Notation R := (reference c).
Local Notation T := (physical c q (physical_edge_lengths g) (cell_size g) weights).
Local Notation L := (physical_edge_lengths g).
Implicit Types f : pieces F.

Definition b11 (n0 n1 m0 m1 j00 j01 j10 j11 : F) := n0 * (m0 * j00 + m1 * j10) + n1 * (m0 * j01 + m1 * j11).
Definition K := jacobian_at g [:: 1 / 3%:R; 1 / 3%:R].
Definition normal_entry e := b11 (reference_normals g e 0%N) (reference_normals g e 1%N)
  (physical_normals g e 0%N) (physical_normals g e 1%N) (K 0%N 0%N) (K 0%N 1%N) (K 1%N 0%N) (K 1%N 1%N).
Definition tangent_entry e := b11 (reference_normals g e 0%N) (reference_normals g e 1%N)
  (physical_tangents g e 0%N) (physical_tangents g e 1%N) (K 0%N 0%N) (K 0%N 1%N) (K 1%N 0%N) (K 1%N 1%N).

Lemma morley_row (x : nat -> F) i : (i < 6)%N ->
  \sum_(j < 6) morley_transformation o g j i * x j =
  if (i < 3)%N then x i else
    normal_entry (i - 3) * (2%:R / (cell_size g (first (i - 3)) + cell_size g (second (i - 3))) * x i) +
    tangent_entry (i - 3) / L (i - 3)%N * (x (second (i - 3)) - x (first (i - 3))).
Proof.
rewrite /normal_entry /tangent_entry /K.
have -> : 3%:R = num o 3 by rewrite numE.
have -> : 2%:R = num o 2 by rewrite numE.
set h := cell_size g; set rn := reference_normals g; set pn := physical_normals g; set pt := physical_tangents g.
set l := L; set j := jacobian_at g _.
case: i => [|[|[|[|[|[|i]]]]]] // _; rewrite !big_ord_recl big_ord0 /bump;
  rewrite /morley_transformation /transpose -/h -/rn -/pn -/pt -/l -/j;
  cbn -[GRing.add GRing.mul GRing.opp GRing.inv GRing.one GRing.zero num]; rewrite /b11;
  move: (num o 2) (h 0%N + h 1%N)^-1 (h 0%N + h 2%N)^-1 (h 1%N + h 2%N)^-1 (l 0%N)^-1 (l 1%N)^-1 (l 2%N)^-1 => *; ring.
Qed.

Lemma frame_entries (j00 j01 j10 j11 n0 n1 t0 t1 B C l : F) : 0 < l -> l ^+ 2 = t0 ^+ 2 + t1 ^+ 2 ->
  j00 * n0 + j01 * n1 = B * (t1 / l) + C * t0 -> j10 * n0 + j11 * n1 = B * (- t0 / l) + C * t1 ->
  b11 n0 n1 (t1 / l) (- t0 / l) j00 j01 j10 j11 = B /\ b11 n0 n1 (t0 / l) (t1 / l) j00 j01 j10 j11 / l = C.
Proof.
move=> /lt0r_neq0 hl hl2 h0 h1; rewrite /b11; split.
  transitivity (t1 / l * (j00 * n0 + j01 * n1) + - t0 / l * (j10 * n0 + j11 * n1)); first by ring.
  rewrite h0 h1; transitivity (B * ((t0 ^+ 2 + t1 ^+ 2) / l ^+ 2)); first by field.
  by rewrite -hl2 divff ?mulr1 // expf_neq0.
transitivity ((t0 * (j00 * n0 + j01 * n1) + t1 * (j10 * n0 + j11 * n1)) / l ^+ 2); first by field.
rewrite h0 h1; transitivity (C * ((t0 ^+ 2 + t1 ^+ 2) / l ^+ 2)); first by field.
by rewrite -hl2 divff ?mulr1 // expf_neq0.
Qed.

(** Both entries, by the image of the reference normal. *)
Lemma entriesE e : (e < 3)%N -> normal_entry e = bnn c g e * L e /\ tangent_entry e / L e = bnt c g e.
Proof.
move=> he.
have m0 := normal_mapped hc hg weights (0 : 'I_2) he; have m1 := normal_mapped hc hg weights (1 : 'I_2) he.
rewrite !sum2 in m0 m1.
have hL := length_pos hg he; have hL2 := length_sq hg weights he.
case: (hg) => _ [hJ [_ [_ h]]]; have [_ [_ hn]] := h _ he.
have [t0 [n0 r0]] := hn 0; have [t1 [n1 r1]] := hn 1.
rewrite /normal_entry /tangent_entry /K /b11.
rewrite (hJ _ 0 0) (hJ _ 0 1) (hJ _ 1 0) (hJ _ 1 1) t0 t1 n0 n1 r0 r1.
exact: frame_entries hL hL2 m0 m1.
Qed.

Lemma morley_element f i inner :
  (forall e, (e < 3)%N -> weights e = (cell_size g (first e) + cell_size g (second e)) / 2%:R) ->
  smooth T f 1 -> (forall e, (e < 3)%N -> (msize (f e) <= 3)%N) -> (i < 6)%N ->
  numbered 1 1 (vertex_dof R (pulled q f)) (midpoint_dof R (pulled q f)) inner i =
  \sum_(j < 6) morley_transformation o g j i * numbered 1 1 (vertex_dof T f) (midpoint_dof T f) inner j.
Proof.
move=> hw hs hd hi; rewrite morley_row //; case: ltnP => h3.
  rewrite /numbered h3 /vertex_dof divn1 modn1 /weight eqxx !mul1r /jet /= /pulled pull_eval.
  by [].
have he : (i - 3 < 3)%N by lia.
have ei : i = (3 + (i - 3))%N by lia.
move: (i - 3)%N he ei => e he -> {i hi h3}.
have [h1 h2] := first_other he; have [k1 k2] := second_other he.
have nv v : (v < 3)%N -> numbered 1 1 (vertex_dof T f) (midpoint_dof T f) inner v = jet (f (edge_at v)) (corner T v) 0.
  by move=> hv; rewrite /numbered hv divn1 modn1 /vertex_dof /weight eqxx mul1r.
have ne U h : numbered 1 1 (vertex_dof U h) (midpoint_dof U h) inner (3 + e) = midpoint_dof U h e 0.
  have := @numbered_edge _ 1 1 (vertex_dof U h) (midpoint_dof U h) inner e 0 he isT.
  by rewrite !muln1 addn0.
rewrite !ne !nv // -(hs e (second e)) // -(hs e (first e)) // -trace_left -trace_right.
have [-> ->] := entriesE he.
rewrite /midpoint_dof [edge_weight R e * _]mul1r -[edge_weight T e]/(weights e) hw //.
have := edge_weight_pos hg he; rewrite pmulr_lgt0 ?invr_gt0 ?ltr0n // => /lt0r_neq0 h0.
rewrite half_twice // (flux_pull hc hg weights f he) hornerD !hornerZ quadratic_midpoint //.
by apply: leq_trans (hd _ he); exact: line_size.
Qed.
End Morley.

