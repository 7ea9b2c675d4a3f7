(** The sample triangles meet the conditions. *)
From mathcomp Require Import all_ssreflect all_algebra ring.
From SsrMultinomials Require Import mpoly.
From Verif Require Import Model.Gem Model.Piola Model.Zany Spec.Algebra Spec.Polynomials Spec.Zany Spec.ZanySamples.
From Verif Require Import Proofs.PiolaFacts Proofs.Polynomials Proofs.VertexTransform Proofs.EdgeGeometry.
Set Implicit Arguments.
Unset Strict Implicit.
Unset Printing Implicit Defensive.
Import GRing.Theory Num.Theory.
Local Open Scope ring_scope.

Lemma triangle345_fiat : fiat_triangle triangle345.
Proof.
split=> //; split=> //; split=> //.
by case=> [|[|[|e]]] // _; split; vm_compute.
Qed.

Lemma geometry_provides : provides geometry5_12_13 triangle345 stretch shift.
Proof.
split; first by vm_compute.
split; first by move=> u; case=> [[|[|i]] hi]; case=> [[|[|j]] hj].
split; first by move=> u; apply/eqP; vm_compute.
split; first by case=> [|[|[|v]]] // _; vm_compute.
move=> e he; rewrite /square /tangent /=.
have X v (i : 'I_2) : image (affine stretch shift) (fun i => vertex (ring_ops [fieldType of rat]) triangle345 v i) i =
  stretch i 0 * vertex (ring_ops [fieldType of rat]) triangle345 v 0%N + stretch i 1 * vertex (ring_ops [fieldType of rat]) triangle345 v 1%N + shift i.
  by rewrite affine_image sum2.
rewrite !X; split; first by case: e he => [|[|[|e]]].
split; first by apply/eqP; case: e he => [|[|[|e]]] // _; vm_compute.
move=> i; rewrite /clockwise /= !X.
by case: i => [[|[|i]] hi] //; case: e he => [|[|[|e]]] // _; split; try split; apply/eqP; vm_compute.
Qed.

Section Combine.
Variable F : fieldType.
Implicit Types (p r : {mpoly F[2]}) (t x : point F 2).
Lemma alongE p t x : (along p t).@[x] = t 0 * (p^`M(0)).@[x] + t 1 * (p^`M(1)).@[x].
Proof. by rewrite /along sum2 mevalD !mevalZ. Qed.
Lemma along_scale a p t x : (along (a *: p) t).@[x] = a * (along p t).@[x].
Proof. by rewrite !alongE !mderivZ !mevalZ mulrDr; congr (_ + _); rewrite mulrCA. Qed.
Lemma along_add p r t x : (along (p + r) t).@[x] = (along p t).@[x] + (along r t).@[x].
Proof. by rewrite !alongE !mderivD !mevalD !mulrDr addrACA. Qed.
Lemma along_opp p t x : (along (- p) t).@[x] = - (along p t).@[x].
Proof. by rewrite !alongE !mderivN !mevalN !mulrN opprD. Qed.
Lemma eval_combine p b0 b1 b2 (a0 a1 a2 : F) x :
  (p - (a0 *: b0 + a1 *: b1 + a2 *: b2)).@[x] = p.@[x] - (a0 * b0.@[x] + a1 * b1.@[x] + a2 * b2.@[x]).
Proof. by rewrite mevalD mevalN !mevalD !mevalZ. Qed.
Lemma along_combine p b0 b1 b2 (a0 a1 a2 : F) t x :
  (along (p - (a0 *: b0 + a1 *: b1 + a2 *: b2)) t).@[x] =
  (along p t).@[x] - (a0 * (along b0 t).@[x] + a1 * (along b1 t).@[x] + a2 * (along b2 t).@[x]).
Proof. by rewrite along_add along_opp !along_add !along_scale. Qed.
End Combine.

Lemma bary_eval i x : (bary i).@[x] = if (i == 0)%N then 1 - (q_of 1 5 * x 0 - q_of 1 5) - (q_of 1 12 * x 1 - q_of 1 6)
  else if (i == 1)%N then q_of 1 5 * x 0 - q_of 1 5 else q_of 1 12 * x 1 - q_of 1 6.
Proof. by rewrite /bary; case: ifP => _; [|case: ifP => _]; rewrite ?(mevalN, mevalD, mevalZ, mevalXU, mevalC). Qed.

Definition bary_along (t : point [fieldType of rat] 2) i : rat := if (i == 0)%N then - (q_of 1 5 * t 0) - q_of 1 12 * t 1 else if (i == 1)%N then q_of 1 5 * t 0 else q_of 1 12 * t 1.


Lemma bary_alongE i t x : (along (bary i) t).@[x] = bary_along t i.
Proof.
rewrite alongE /bary /bary_along; case: ifP => _; [|case: ifP => _];
  rewrite ?(mderivN, mderivD, mderivZ, mderivC, mderivXU, mevalN, mevalD, mevalZ, mevalC, meval0, meval1) /=; ring.
Qed.

Lemma bump_eval i x : (bump_at i).@[x] = (bary i).@[x] * (1 - (bary i).@[x]).
Proof. by rewrite /bump_at mevalB mevalM mulrBr mulr1. Qed.

Lemma bump_along i t x : (along (bump_at i) t).@[x] = bary_along t i * (1 - 2%:R * (bary i).@[x]).
Proof.
rewrite -(bary_alongE i t x) !alongE /bump_at !mderivB !mderivM !mevalB !mevalD !mevalM.
move: (meval _ _) (meval _ _) (meval _ _) => u v w; ring.
Qed.

Lemma morley_basis_eval j e x : (morley_basis j e).@[x] =
  if (j < 3)%N then (bary j).@[x] - ((slope 0 j / slope 0 0) * (bump_at 0).@[x] + (slope 1 j / slope 1 1) * (bump_at 1).@[x] + (slope 2 j / slope 2 2) * (bump_at 2).@[x])
  else (slope (j - 3) (j - 3))^-1 * (bump_at (j - 3)).@[x].
Proof. by rewrite /morley_basis; case: ifP => _; [exact: eval_combine|exact: mevalZ]. Qed.

Lemma morley_basis_along j e t x : (along (morley_basis j e) t).@[x] =
  if (j < 3)%N then (along (bary j) t).@[x] - ((slope 0 j / slope 0 0) * (along (bump_at 0) t).@[x] + (slope 1 j / slope 1 1) * (along (bump_at 1) t).@[x] + (slope 2 j / slope 2 2) * (along (bump_at 2) t).@[x])
  else (slope (j - 3) (j - 3))^-1 * (along (bump_at (j - 3)) t).@[x].
Proof. by rewrite /morley_basis; case: ifP => _; [exact: along_combine|exact: along_scale]. Qed.

Local Notation c := triangle345.
Local Notation q := (affine stretch shift).

Lemma morley_basis_nodal :
  nodal 6 (fun f => numbered 1 1 (vertex_dof (reference c) f) (midpoint_dof (reference c) f) (fun _ => 0))
    (fun j => pulled q (morley_basis j)).
Proof.
move=> i j hi hj; rewrite /numbered.
have P v : forall (i : 'I_2), image q (corner (reference c) v) i = if i == 0 then 1 + q_of 5 3 * vertex (ring_ops [fieldType of rat]) c v 0 else 2%:R + 3%:R * vertex (ring_ops [fieldType of rat]) c v 1.
  by move=> k; rewrite affine_image sum2 /stretch /shift; case: k => [[|[|k]] hk] //=; rewrite mul0r ?addr0 ?add0r addrC.
case: ltnP => h3.
  rewrite divn1 modn1 /vertex_dof /weight /= mul1r /pulled jet0 pull_eval morley_basis_eval !bump_eval !bary_eval !P /=.
  by apply/eqP; case: i h3 {hi} => [|[|[|i]]] // _; case: j hj => [|[|[|[|[|[|j]]]]]] // _; vm_compute.
have h3' : (3 <= i)%N by [].
rewrite ifT; last by rewrite ltn_subLR.
rewrite divn1 modn1 /midpoint_dof mul1r /flux /pulled pull_along line_pull line_eval.
rewrite morley_basis_along !bump_along !bary_alongE !bary_eval /bary_along !sum2 !P.
rewrite -[(3 * 1)%N]/3%N.
case: i hi h3' {h3} => [|[|[|[|[|[|i]]]]]] // _ _;
  by case: j hj => [|[|[|[|[|[|j]]]]]] // _; apply/eqP; vm_compute.
Qed.

Lemma quintic_size : (msize quintic <= 6)%N.
Proof. by rewrite /quintic msizeX mdegD !mdegMn !mdeg1. Qed.
