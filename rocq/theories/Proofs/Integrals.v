(** Sizes of restrictions to lines; integrals over the unit interval. *)
From mathcomp Require Import all_ssreflect all_algebra ring.
From SsrMultinomials Require Import mpoly.
From Verif Require Import Spec.Polynomials Proofs.Polynomials.
Set Implicit Arguments.
Unset Strict Implicit.
Unset Printing Implicit Defensive.
Import GRing.Theory Num.Theory.
Local Open Scope ring_scope.

Section Facts.
Variable F : realFieldType.

Lemma line_size n (f : {mpoly F[n]}) (p t : point F n) : (size (line f p t) <= msize f)%N.
Proof.
rewrite {1}(mpolyE f) line_sum.
apply: (leq_trans (size_sum _ _ _)); rewrite big_seq.
apply/bigmax_leqP_seq => m hm _.
rewrite lineZ; apply: (leq_trans (size_scale_leq _ _)).
rewrite /line mmapX /mmap1; apply: (leq_trans (size_prod_leq _ _)).
have hs i : (size ((p i)%:P + t i *: 'X)%R <= 2)%N.
  apply: (leq_trans (size_add _ _)); rewrite geq_max (leq_trans (size_polyC_leq1 _)) //=.
  by apply: (leq_trans (size_scale_leq _ _)); rewrite size_polyX.
apply: (@leq_trans (mdeg m).+1); last exact: msize_mdeg_lt.
rewrite leq_subLR addnS ltnS mdegE -sum1_card -big_split /=.
apply: leq_sum => i _; apply: (leq_trans (size_exp_leq _ _)).
rewrite add1n ltnS -[X in (_ <= X)%N]mul1n leq_mul2r; apply/orP; right.
by rewrite -subn1 leq_subLR addn1 hs.
Qed.

Lemma integral_wide (p : {poly F}) n : (size p <= n)%N -> integral p = \sum_(i < n) p`_i / i.+1%:R.
Proof.
move=> h; rewrite /integral -(subnKC h) big_split_ord /=.
rewrite [X in _ = _ + X]big1 ?addr0 // => i _.
by rewrite nth_default ?mul0r // leq_addr.
Qed.

Lemma integralD (p q : {poly F}) : integral (p + q) = integral p + integral q.
Proof.
pose n := maxn (size p) (size q).
rewrite (@integral_wide (p + q) n); last exact: size_add.
rewrite (@integral_wide p n) ?leq_maxl // (@integral_wide q n) ?leq_maxr // -big_split.
by apply: eq_bigr => i _ /=; rewrite coefD mulrDl.
Qed.

Lemma integralZ c (p : {poly F}) : integral (c *: p) = c * integral p.
Proof.
rewrite (@integral_wide _ (size p)) ?size_scale_leq // mulr_sumr; apply: eq_bigr => i _.
by rewrite coefZ mulrA.
Qed.

Lemma integral0 : integral (0 : {poly F}) = 0.
Proof. by rewrite /integral size_poly0 big_ord0. Qed.

Lemma integral_sum I (r : seq I) (P : pred I) (f : I -> {poly F}) :
  integral (\sum_(i <- r | P i) f i) = \sum_(i <- r | P i) integral (f i).
Proof. by apply: (big_morph _ integralD integral0). Qed.

Lemma integral_deriv (p : {poly F}) : integral (p^`()) = p.[1] - p.[0].
Proof.
have hs : (size p <= (size p).+1)%N by [].
rewrite (@integral_wide _ (size p)); last first.
  by case: (size p) (lt_size_deriv (p := p)) (eqVneq p 0) => [|m] h [->|/h]; rewrite ?linear0 ?size_poly0 //; apply: ltnW.
rewrite horner_coef0 (horner_coef_wide _ hs) big_ord_recl expr0 mulr1 addrAC subrr add0r.
apply: eq_bigr => i _; rewrite coef_deriv expr1n mulr1 -mulr_natr mulfK // pnatr_eq0 //.
Qed.

Lemma by_parts (p q : {poly F}) : integral (p^`() * q) = p.[1] * q.[1] - p.[0] * q.[0] - integral (p * q^`()).
Proof.
have := integral_deriv (p * q); rewrite derivM integralD !hornerM => <-; ring.
Qed.

Lemma integral_mulX (p : {poly F}) n k : (size p <= n)%N ->
  integral (p * 'X^k) = \sum_(i < n) p`_i / (i + k).+1%:R.
Proof.
move=> h; rewrite (@integral_wide _ (k + n)); last first.
  by apply: (leq_trans (size_mul_leq _ _)); rewrite size_polyXn addnS /= addnC leq_add2l.
rewrite big_split_ord /= big1 ?add0r; last by move=> i _; rewrite coefMXn ltn_ord mul0r.
by apply: eq_bigr => i _; rewrite coefMXn ltnNge leq_addr /= addKn addnC.
Qed.

(** Quintics on the unit interval, given by their values and first and second
    derivatives at the ends. *)
Definition ends (g : {poly F}) (a b c : F) : F :=
  a * (g.[1] - g.[0]) + b * (g^`().[1] + g^`().[0]) + c * (g^`()^`().[1] - g^`()^`().[0]).

Lemma horner_small (p : {poly F}) n x : (size p <= n)%N -> p.[x] = \sum_(i < n) p`_i * x ^+ i.
Proof. exact: horner_coef_wide. Qed.

Lemma deriv_small (p : {poly F}) n : (size p <= n)%N -> (size p^`() <= n)%N.
Proof.
move=> h; apply: leq_trans h; case: (eqVneq p 0) => [->|hp]; first by rewrite linear0.
exact/ltnW/lt_size_deriv.
Qed.

Lemma coef_zero (g : {poly F}) n k : (size g <= n)%N -> g`_(n + k) = 0.
Proof. by move=> h; rewrite nth_default // (leq_trans h) // leq_addr. Qed.

Ltac expand g h :=
  rewrite /ends ?(horner_small _ (deriv_small (deriv_small h))) ?(horner_small _ (deriv_small h)) ?(horner_small _ h);
  rewrite ?big_ord_recl ?big_ord0 /= /bump /= ?coef_deriv /= ?add1n ?addn0 ?addn1 ?addn2 ?addn3 ?addn4;
  let h0 := fresh in let h1 := fresh in
  have h0 := coef_zero 0 h; have h1 := coef_zero 1 h; move: h0 h1; rewrite ?addn0 ?addn1 => h0 h1;
  rewrite ?h0 ?h1 ?mul0rn.

Lemma quintic_midpoint (g : {poly F}) : (size g <= 6)%N ->
  g^`().[1 / 2%:R] = ends g (15%:R / 8%:R) (- (7%:R / 16%:R)) (1 / 32%:R).
Proof. by move=> h; expand g h; field. Qed.

Lemma quintic_moment (g : {poly F}) : (size g <= 6)%N ->
  integral (g^`() * legendre4 F) = ends g (1 / 21%:R) (- (1 / 42%:R)) (1 / 252%:R).
Proof.
move=> h; have hd := deriv_small h.
have -> : legendre4 F = 70%:R *: 'X^4 + (- 140%:R) *: 'X^3 + 90%:R *: 'X^2 + (- 20%:R) *: 'X^1 + 1 *: 'X^0.
  by rewrite expr0 expr1 scale1r !scaleNr.
rewrite !mulrDr !integralD -!scalerAr !integralZ !(integral_mulX _ hd).
by expand g h; field.
Qed.

Lemma cubic_moment (g : {poly F}) : (size g <= 4)%N ->
  integral (g^`() * legendre2 F) = ends g (- (1 / 5%:R)) (1 / 10%:R) 0.
Proof.
move=> h; have hd := deriv_small h.
have -> : legendre2 F = 6%:R *: 'X^2 + (- 6%:R) *: 'X^1 + 1 *: 'X^0.
  by rewrite expr0 expr1 scale1r !scaleNr.
rewrite !mulrDr !integralD -!scalerAr !integralZ !(integral_mulX _ hd).
by expand g h; field.
Qed.

Lemma quadratic_midpoint (g : {poly F}) : (size g <= 3)%N -> g^`().[1 / 2%:R] = g.[1] - g.[0].
Proof. by move=> h; expand g h; field. Qed.
End Facts.
