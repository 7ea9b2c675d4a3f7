(** Dofs are linear; nodal bases from relations between dofs. *)
From mathcomp Require Import all_ssreflect all_algebra ring.
From SsrMultinomials Require Import mpoly.
From Verif Require Import Model.Gem Model.Piola Model.Zany Spec.Algebra Spec.Polynomials Spec.Zany.
From Verif Require Import Proofs.Polynomials Proofs.Integrals Proofs.VertexTransform Proofs.EdgeGeometry.
Set Implicit Arguments.
Unset Strict Implicit.
Unset Printing Implicit Defensive.
Import GRing.Theory Num.Theory.
Local Open Scope ring_scope.

Section Linear.
Variables (F : fieldType) (n : nat).
Lemma mderiv_comb N (a : nat -> F) (p : nat -> {mpoly F[n]}) i :
  (\sum_(j < N) a j *: p j)^`M(i) = \sum_(j < N) a j *: (p j)^`M(i).
Proof.
rewrite (big_morph _ (mderivD i) (mderiv0 _ i)); by apply: eq_bigr => j _; rewrite mderivZ.
Qed.
Lemma meval_comb N (a : nat -> F) (p : nat -> {mpoly F[n]}) x :
  (\sum_(j < N) a j *: p j).@[x] = \sum_(j < N) a j * (p j).@[x].
Proof.
rewrite (big_morph _ (mevalD x) (meval0 x)); by apply: eq_bigr => j _; rewrite mevalZ.
Qed.
Lemma along_comb N (a : nat -> F) (p : nat -> {mpoly F[n]}) t :
  along (\sum_(j < N) a j *: p j) t = \sum_(j < N) a j *: along (p j) t.
Proof.
rewrite /along; under eq_bigr do rewrite mderiv_comb scaler_sumr.
rewrite exchange_big; apply: eq_bigr => j _ /=; rewrite scaler_sumr; apply: eq_bigr => i _.
by rewrite !scalerA mulrC.
Qed.
Lemma line_comb N (a : nat -> F) (p : nat -> {mpoly F[n]}) x t :
  line (\sum_(j < N) a j *: p j) x t = \sum_(j < N) a j *: line (p j) x t.
Proof. by rewrite line_sum; apply: eq_bigr => j _; rewrite lineZ. Qed.
Lemma jet_comb N (a : nat -> F) (p : nat -> {mpoly F[n]}) x d :
  jet (\sum_(j < N) a j *: p j) x d = \sum_(j < N) a j * jet (p j) x d.
Proof.
case: (ltnP d (1 + n + size (pairs n))) => hd; last first.
  have h0 (f : {mpoly F[n]}) : jet f x d = 0.
    by rewrite /jet nth_default // /jets /= size_cat 2!size_map size_enum_ord.
  by rewrite h0 big1 // => j _; rewrite h0 mulr0.
have [->|hd0] := posnP d; first by rewrite /jet /= meval_comb.
case: d hd hd0 => // d hd _; rewrite /jet /jets /=.
pose u (f : {mpoly F[n]}) := nth 0 ([seq (f^`M(i)).@[x] | i <- enum 'I_n] ++ [seq (f^`M(p.1)^`M(p.2)).@[x] | p <- pairs n]) d.
rewrite -/(u _); suff : u (\sum_(j < N) a j *: p j) = \sum_(j < N) a j * u (p j) by [].
rewrite /u nth_cat size_map size_enum_ord; case: ltnP => h.
  rewrite (nth_map (Ordinal h)) ?size_enum_ord // mderiv_comb (meval_comb _ _ (fun j => (p j)^`M(_))); apply: eq_bigr => j _.
  by rewrite nth_cat size_map size_enum_ord h (nth_map (Ordinal h)) ?size_enum_ord.
have hp : (d - n < size (pairs n))%N by rewrite ltn_subLR.
have dd : ('I_n * 'I_n)%type by case: (pairs n) hp.
rewrite (nth_map dd) // mderiv_comb (mderiv_comb _ _ (fun j => (p j)^`M(_))) (meval_comb _ _ (fun j => (p j)^`M(_)^`M(_))); apply: eq_bigr => j _.
by rewrite nth_cat size_map size_enum_ord ltnNge h /= (nth_map dd).
Qed.
End Linear.

Section Dofs.
Variable F : realFieldType.
Local Notation pieces := (pieces F).
Variable T : shape F.
Implicit Types (phi : nat -> pieces) (a : nat -> F).

(** A functional that is linear. *)
Definition linear_dof (d : pieces -> F) : Prop :=
  forall N a phi, d (combination N a phi) = \sum_(j < N) a j * d (phi j).

Lemma trace_comb N a phi e : trace T (combination N a phi) e = \sum_(j < N) a j *: trace T (phi j) e.
Proof. exact: (line_comb N a (fun j => phi j e)). Qed.
Lemma flux_comb N a phi e : flux T (combination N a phi) e = \sum_(j < N) a j *: flux T (phi j) e.
Proof. by rewrite /flux /combination (along_comb _ _ (fun j => phi j e)) (line_comb _ _ (fun j => along (phi j e) _)). Qed.

Lemma vertex_linear v d : linear_dof (fun f => vertex_dof T f v d).
Proof.
move=> N a phi; rewrite /vertex_dof /combination (jet_comb _ _ (fun j => phi j _)) mulr_sumr.
by apply: eq_bigr => j _; rewrite mulrCA.
Qed.

Lemma integral_comb N a (p : nat -> {poly F}) (w : {poly F}) :
  integral ((\sum_(j < N) a j *: p j) * w) = \sum_(j < N) a j * integral (p j * w).
Proof.
rewrite mulr_suml integral_sum; apply: eq_bigr => j _.
by rewrite -scalerAl integralZ.
Qed.

Lemma moment_linear vorder m e k : linear_dof (fun f => moment_dof T vorder m f e k).
Proof.
move=> N a phi; rewrite /moment_dof; case: ifP => _.
  rewrite flux_comb (integral_comb _ _ (fun j => flux T (phi j) e)) mulr_sumr.
  by apply: eq_bigr => j _; rewrite mulrCA.
by rewrite trace_comb (integral_comb _ _ (fun j => trace T (phi j) e)).
Qed.

Lemma midpoint_linear e k : linear_dof (fun f => midpoint_dof T f e k).
Proof.
move=> N a phi; rewrite /midpoint_dof flux_comb horner_sum mulr_sumr.
by apply: eq_bigr => j _; rewrite hornerZ mulrCA.
Qed.

Lemma flux_linear w e : linear_dof (fun f => integral (flux T f e * w)).
Proof. by move=> N a phi; rewrite flux_comb (integral_comb _ _ (fun j => flux T (phi j) e)). Qed.

Lemma numbered_linear nv ne (vd ed : pieces -> nat -> nat -> F) (inner : pieces -> nat -> F) i :
  (forall v d, linear_dof (fun f => vd f v d)) -> (forall e k, linear_dof (fun f => ed f e k)) ->
  (forall k, linear_dof (fun f => inner f k)) ->
  linear_dof (fun f => numbered nv ne (vd f) (ed f) (inner f) i).
Proof.
move=> h1 h2 h3 N a phi; rewrite /numbered; case: ifP => _; first exact: h1.
by case: ifP => _; [exact: h2|exact: h3].
Qed.
End Dofs.

(** ** Nodal bases *)
Section Nodal.
Variable F : realFieldType.

Lemma inverse_sides N (V A : nat -> nat -> F) :
  (forall i j, (i < N)%N -> (j < N)%N -> \sum_(k < N) V i k * A k j = (i == j)%:R) ->
  forall i j, (i < N)%N -> (j < N)%N -> \sum_(k < N) A i k * V k j = (i == j)%:R.
Proof.
move=> h i j hi hj.
have e : (\matrix_(i < N, j < N) V i j) *m (\matrix_(i < N, j < N) A i j) = 1%:M.
  apply/matrixP => i' j'; rewrite !mxE -val_eqE /= -h //.
  by apply: eq_bigr => k _; rewrite !mxE.
have := congr1 (fun M : 'M_N => M (Ordinal hi) (Ordinal hj)) (mulmx1C e).
rewrite !mxE -val_eqE /= => <-; by apply: eq_bigr => k _; rewrite !mxE.
Qed.

Lemma nodal_basis N (M : nat -> nat -> F) (ref phys : pieces F -> nat -> F) (q : polymap F 2) phi :
  (forall i, linear_dof (fun f => phys f i)) ->
  (forall i j, (i < N)%N -> (j < N)%N -> ref (pulled q (phi j)) i = \sum_(k < N) M k i * phys (phi j) k) ->
  nodal N ref (fun j => pulled q (phi j)) ->
  nodal N phys (fun l => combination N (M l) phi).
Proof.
move=> hlin hrel href k l hk hl; rewrite (hlin k).
under eq_bigr do rewrite mulrC.
apply: (inverse_sides (A := fun k j => phys (phi j) k) (V := fun j l => M l j)) => // i j hi hj.
by rewrite -hrel // href.
Qed.
End Nodal.
