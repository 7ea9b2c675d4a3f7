(** Facts about polynomial functions. *)
From mathcomp Require Import all_ssreflect all_algebra ring.
From SsrMultinomials Require Import mpoly.
From Verif Require Import Spec.Polynomials.
Set Implicit Arguments.
Unset Strict Implicit.
Unset Printing Implicit Defensive.
Import GRing.Theory.
Local Open Scope ring_scope.

Section Facts.
Variable F : fieldType.
Implicit Types (n : nat).

(** Every polynomial is built from constants and variables by sums and
    products. *)
Lemma mpoly_induction n (P : {mpoly F[n]} -> Prop) :
  (forall c, P c%:MP) -> (forall i, P 'X_i) -> (forall f g, P f -> P g -> P (f + g)) ->
  (forall f g, P f -> P g -> P (f * g)) -> forall f, P f.
Proof.
move=> hC hX hD hM f; rewrite (mpolyE f).
have h0 : P 0 by rewrite -mpolyC0; exact: hC.
elim: (msupp f) => [|m s IH]; first by rewrite big_nil.
rewrite big_cons; apply: (hD) => //; rewrite -mul_mpolyC; apply: (hM); first exact: hC.
rewrite mpolyXE_id; apply: (big_ind P); [by rewrite -mpolyC1; exact: hC|exact: hM|move=> i _].
elim: (m i) => [|k IHk]; first by rewrite expr0 -mpolyC1; exact: hC.
by rewrite exprS; apply: (hM).
Qed.

Lemma mderivXU n (i j : 'I_n) : ('X_j)^`M(i) = (i == j)%:R :> {mpoly F[n]}.
Proof.
rewrite mderivX mnm1E eq_sym; case: eqP => [->|_] /=; last by rewrite scale0r.
by rewrite scale1r -{1}[U_(j)%MM]add0m addmK mpolyX0.
Qed.

Lemma chain_rule n (q : polymap F n) f i :
  (pull q f)^`M(i) = \sum_j (tnth q j)^`M(i) * pull q (f^`M(j)).
Proof.
rewrite /pull; elim/mpoly_induction: f => [c|k|f g hf hg|f g hf hg].
- rewrite comp_mpolyC mderivC big1 // => j _.
  by rewrite mderivC comp_mpoly0 mulr0.
- rewrite comp_mpolyXU (bigD1 k) //= big1 ?addr0; last first.
    by move=> j hj; rewrite mderivXU (negbTE hj) comp_mpoly0 mulr0.
  by rewrite mderivXU eqxx comp_mpoly1 mulr1 (tnth_nth 0).
- rewrite comp_mpolyD mderivD hf hg -big_split /=; apply: eq_bigr => j _.
  by rewrite mderivD comp_mpolyD mulrDr.
- rewrite rmorphM /= mderivM hf hg mulr_suml mulr_sumr -big_split /=; apply: eq_bigr => j _.
  rewrite mderivM comp_mpolyD !rmorphM /=; ring.
Qed.

Lemma pull_eval n (q : polymap F n) f x : (pull q f).@[x] = f.@[image q x].
Proof. exact: comp_mpoly_meval. Qed.

Lemma chain_rule_at n (q : polymap F n) f i x :
  ((pull q f)^`M(i)).@[x] = \sum_j jacobian q x j i * (f^`M(j)).@[image q x].
Proof.
rewrite chain_rule raddf_sum /=; apply: eq_bigr => j _.
by rewrite mevalM pull_eval.
Qed.

Lemma affine_deriv n J b (i j : 'I_n) : (tnth (affine (F := F) J b) j)^`M(i) = (J j i)%:MP.
Proof.
rewrite tnth_mktuple mderivD mderivC addr0 raddf_sum /= (bigD1 i) //= big1 ?addr0.
  by rewrite mderivZ mderivXU eqxx -mul_mpolyC mulr1.
by move=> k hk; rewrite mderivZ mderivXU eq_sym (negbTE hk) scaler0.
Qed.

Lemma affine_jacobian n J b (x : point F n) : jacobian (affine J b) x =2 J.
Proof. by move=> i j; rewrite /jacobian affine_deriv mevalC. Qed.

Lemma affine_image n J b (x : point F n) i : image (affine J b) x i = \sum_j J i j * x j + b i.
Proof.
rewrite /image tnth_mktuple mevalD mevalC raddf_sum /=; congr (_ + _); apply: eq_bigr => j _.
by rewrite mevalZ mevalXU.
Qed.

Lemma affine_chain n J b f (i : 'I_n) : (pull (affine (F := F) J b) f)^`M(i) =
  \sum_j J j i *: pull (affine J b) (f^`M(j)).
Proof. by rewrite chain_rule; apply: eq_bigr => j _; rewrite affine_deriv mul_mpolyC. Qed.

(** ** Lines *)
Lemma lineC n c (p t : point F n) : line c%:MP p t = c%:P.
Proof. by rewrite /line mmapC. Qed.
Lemma lineX n i (p t : point F n) : line 'X_i p t = (p i)%:P + t i *: 'X.
Proof. by rewrite /line mmapX mmap1U. Qed.
Lemma lineD n f g (p t : point F n) : line (f + g) p t = line f p t + line g p t.
Proof. by rewrite /line mmapD. Qed.
Lemma lineMM n f g (p t : point F n) : line (f * g) p t = line f p t * line g p t.
Proof. by rewrite /line rmorphM. Qed.
Lemma line0 n (p t : point F n) : line 0 p t = 0.
Proof. by rewrite -mpolyC0 lineC. Qed.
Lemma lineZ n c f (p t : point F n) : line (c *: f) p t = c *: line f p t.
Proof. by rewrite -mul_mpolyC lineMM lineC mul_polyC. Qed.
Lemma line_sum n I (r : seq I) (P : pred I) (f : I -> {mpoly F[n]}) (p t : point F n) :
  line (\sum_(i <- r | P i) f i) p t = \sum_(i <- r | P i) line (f i) p t.
Proof. by rewrite /line raddf_sum. Qed.

Lemma line_eval n f (p t : point F n) s : (line f p t).[s] = f.@[fun i => p i + s * t i].
Proof.
elim/mpoly_induction: f => [c|i|f g hf hg|f g hf hg].
- by rewrite lineC hornerC mevalC.
- by rewrite lineX hornerD hornerC hornerZ hornerX mevalXU mulrC.
- by rewrite lineD hornerD hf hg mevalD.
- by rewrite lineMM hornerM hf hg mevalM.
Qed.

Lemma line_deriv n f (p t : point F n) : (line f p t)^`() = line (along f t) p t.
Proof.
rewrite /along line_sum.
elim/mpoly_induction: f => [c|i|f g hf hg|f g hf hg].
- rewrite lineC derivC big1 // => j _; by rewrite mderivC scaler0 line0.
- rewrite lineX derivD derivC add0r derivZ derivX (bigD1 i) //= big1 ?addr0; last first.
    by move=> j hj; rewrite mderivXU (negbTE hj) scaler0 line0.
  by rewrite mderivXU eqxx lineZ -mpolyC1 lineC.
- rewrite lineD derivD hf hg -big_split; apply: eq_bigr => j _ /=.
  by rewrite mderivD scalerDr lineD.
- rewrite lineMM derivM hf hg mulr_suml mulr_sumr -big_split /=; apply: eq_bigr => j _.
  by rewrite mderivM !lineZ lineD !lineMM scalerDr scalerAl scalerAr.
Qed.

Lemma line_pull n J b f (p t : point F n) :
  line (pull (affine J b) f) p t = line f (image (affine J b) p) (fun i => \sum_j J i j * t j).
Proof.
rewrite /pull; elim/mpoly_induction: f => [c|i|f g hf hg|f g hf hg].
- by rewrite comp_mpolyC !lineC.
- rewrite comp_mpolyXU -tnth_nth lineX tnth_mktuple lineD lineC line_sum affine_image.
  rewrite polyCD; have -> : forall x y z : {poly F}, x + y + z = x + z + y by move=> *; ring.
  congr (_ + _); rewrite scaler_suml rmorph_sum -big_split; apply: eq_bigr => j _ /=.
  by rewrite lineZ lineX scalerDr scalerA -mul_polyC polyCM.
- by rewrite comp_mpolyD !lineD hf hg.
- by rewrite rmorphM !lineMM hf hg.
Qed.
End Facts.
