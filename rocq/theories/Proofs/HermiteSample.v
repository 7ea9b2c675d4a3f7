(** The cubic Hermite basis is nodal. *)
From mathcomp Require Import all_ssreflect all_algebra ring.
From SsrMultinomials Require Import mpoly.
From Verif Require Import Model.Gem Model.Zany Spec.Algebra Spec.Polynomials Spec.Zany Spec.ZanySamples.
From Verif Require Import Proofs.Polynomials Proofs.VertexTransform.
Set Implicit Arguments.
Unset Strict Implicit.
Unset Printing Implicit Defensive.
Import GRing.Theory Num.Theory.
Local Open Scope ring_scope.

Section Cubic.
Variable F : fieldType.
Definition cubic (x : {mpoly F[1]}) (c0 c1 c2 c3 : F) : {mpoly F[1]} := c0%:MP + c1 *: x + c2 *: (x * x) + c3 *: (x * x * x).
Lemma cubic_eval x c0 c1 c2 c3 p : (cubic x c0 c1 c2 c3).@[p] = c0 + c1 * x.@[p] + c2 * (x.@[p] * x.@[p]) + c3 * (x.@[p] * x.@[p] * x.@[p]).
Proof. by rewrite /cubic !mevalD !mevalZ !mevalM mevalC. Qed.
Lemma cubic_deriv x c0 c1 c2 c3 p : ((cubic x c0 c1 c2 c3)^`M(0)).@[p] =
  (c1 + 2%:R * c2 * x.@[p] + 3%:R * c3 * (x.@[p] * x.@[p])) * (x^`M(0)).@[p].
Proof.
rewrite /cubic !mderivD !mderivZ !mderivM mderivC !mevalD !mevalZ meval0.
rewrite !mevalD !mevalM !mevalD !mevalM; move: (meval _ _) (meval _ _) => *; ring.
Qed.
End Cubic.

Lemma hermite_basis_nodal i j : (i < 4)%N -> (j < 4)%N ->
  hermite_dof (@vertex_of [fieldType of rat] 1 interval) (fun _ => 1) (fun v => pull double (hermite_basis j v)) (fun _ => 0) i = (i == j)%:R.
Proof.
move=> hi hj; rewrite /hermite_dof ifT; last by case: i hi => [|[|[|[|i]]]].
set v := (i %/ 2)%N; set X := @vertex_of _ _ _ _.
set x := q_of 1 2 *: 'X_0 + (- q_of 1 2)%:MP : {mpoly rat[1]}.
have hx : x.@[image double X] = X 0.
  rewrite /x mevalD mevalC mevalZ mevalXU affine_image big_ord1 mulrDr mulr1 addrK mulrA.
  by rewrite (_ : q_of 1 2 * 2%:R = 1) ?mul1r //; apply/eqP; vm_compute.
have hd p : (x^`M(0)).@[p] = q_of 1 2.
  by rewrite /x mderivD mderivC mderivZ mderivXU addr0 mevalZ meval1 mulr1.
pose c k := nth 0 (nth [::] [:: [:: 1; 0; - 3%:R; 2%:R]; [:: 0; 1; - 2%:R; 1]; [:: 0; 0; 3%:R; - 2%:R]; [:: 0; 0; - 1; 1]] j) k : rat.
have hb : hermite_basis j v = cubic x (c 0%N) (c 1%N) (c 2%N) (c 3%N) by [].
have j0 : jet (pull double (hermite_basis j v)) X 0 = (c 0%N) + (c 1%N) * X 0 + (c 2%N) * (X 0 * X 0) + (c 3%N) * (X 0 * X 0 * X 0).
  by rewrite jet0 pull_eval hb cubic_eval hx.
have j1 : jet (pull double (hermite_basis j v)) X 1 = (c 1%N) + 2%:R * (c 2%N) * X 0 + 3%:R * (c 3%N) * (X 0 * X 0).
  rewrite (jet1 _ X 0) gradient_jet big_ord1 hb cubic_deriv hx hd; move: (_ + _ + _) => A.
  by rewrite mulrCA (_ : _ * q_of 1 2 = 1) ?mulr1 //; apply/eqP; vm_compute.
move: j0 j1; rewrite /c; clear hb hx; rewrite /X /v.
case: i hi @v @X => [|[|[|[|i]]]] // _ v X; case: j hj @c => [|[|[|[|j]]]] // _ c j0 j1;
  rewrite ?[jet _ _ _]j0 ?[jet _ _ _]j1; apply/eqP; vm_compute; reflexivity.
Qed.
