(** Polynomials on the unit interval that are determined by derivatives at the
    ends and by moments. *)
From mathcomp Require Import all_ssreflect all_algebra ring.
From Verif Require Import Spec.Polynomials Proofs.Integrals.
Set Implicit Arguments.
Unset Strict Implicit.
Unset Printing Implicit Defensive.
Import GRing.Theory Num.Theory.
Local Open Scope ring_scope.

Section Zeros.
Variable F : realFieldType.
Implicit Types (p q : {poly F}) (a : F).

Definition vanishes (r : nat) p a : Prop := forall k, (k < r)%N -> p^`(k).[a] = 0.

Lemma derivn_factor a q k : (('X - a%:P) * q)^`(k.+1) = ('X - a%:P) * q^`(k.+1) + q^`(k) *+ k.+1.
Proof.
elim: k => [|k IH]; first by rewrite derivn1 derivM derivXsubC mul1r derivn0 mulr1n addrC derivn1.
rewrite derivnS IH derivD derivM derivXsubC mul1r derivMn -!derivnS.
by rewrite [q^`(k.+1) + _]addrC -addrA -mulrS.
Qed.

Lemma vanishes_dvd r p a : vanishes r p a -> ('X - a%:P) ^+ r %| p.
Proof.
elim: r p => [|r IH] p hp; first by rewrite expr0 dvd1p.
have h0 : root p a by rewrite /root -[p]derivn0 hp.
have /factor_theorem [q Eq] := h0.
rewrite Eq exprS mulrC dvdp_mul //; apply: IH => k hk.
have := hp k.+1 hk; rewrite Eq mulrC derivn_factor hornerD hornerM hornerXsubC subrr mul0r add0r hornerMn.
by move/eqP; rewrite mulrn_eq0 => /eqP.
Qed.

Lemma one_neq : (1 : F) - 0 != 0. Proof. by rewrite subr0 oner_eq0. Qed.

Lemma ends_dvd r p : vanishes r p 0 -> vanishes r p 1 -> ('X - 0%:P) ^+ r * ('X - 1%:P) ^+ r %| p.
Proof.
move=> h0 h1; rewrite Gauss_dvdp ?(vanishes_dvd h0) ?(vanishes_dvd h1) //.
by apply/coprimep_expl/coprimep_expr/coprimep_XsubC2/one_neq.
Qed.

Lemma size_ends r : size (('X - 0%:P) ^+ r * ('X - 1%:P) ^+ r : {poly F}) = (r + r).+1.
Proof.
by rewrite size_mul ?expf_neq0 ?polyXsubC_eq0 // !size_exp_XsubC addSn addnS.
Qed.

Lemma ends_zero r p : (size p <= r + r)%N -> vanishes r p 0 -> vanishes r p 1 -> p = 0.
Proof.
move=> hs h0 h1; apply/eqP/negPn/negP => hp.
have := dvdp_leq hp (ends_dvd h0 h1); rewrite size_ends => h.
by have := leq_trans h hs; rewrite ltnn.
Qed.

(** One dimension more: a multiple of the bubble of order [r]. *)
Definition bubble (r : nat) : {poly F} := ('X - 0%:P) ^+ r * ('X - 1%:P) ^+ r.

Lemma ends_bubble r p : (size p <= (r + r).+1)%N -> vanishes r p 0 -> vanishes r p 1 -> exists c, p = c *: bubble r.
Proof.
move=> hs h0 h1; have /dvdpP [q Eq] := ends_dvd h0 h1.
exists q`_0; rewrite -mul_polyC Eq; congr (_ * _).
have hq : (size q <= 1)%N.
  case: (eqVneq q 0) => [->|hq]; first by rewrite size_poly0.
  move: hs; rewrite Eq size_mul ?mulf_neq0 ?expf_neq0 ?polyXsubC_eq0 // size_ends addnS /=.
  by rewrite -[X in (_ <= X)%N]add1n leq_add2r.
by rewrite {1}(size1_polyC hq).
Qed.
End Zeros.

Section Antiderivative.
Variable F : realFieldType.
Implicit Types (p q : {poly F}).

Definition antiderivative p : {poly F} := \poly_(i < (size p).+1) (if i is j.+1 then p`_j / j.+1%:R else 0).

Lemma antiderivative_deriv p : (antiderivative p)^`() = p.
Proof.
apply/polyP => i; rewrite coef_deriv coef_poly ltnS.
case: ltnP => h; last by rewrite mul0rn nth_default.
by rewrite -mulr_natr divfK // pnatr_eq0.
Qed.

Lemma antiderivative_0 p : (antiderivative p).[0] = 0.
Proof. by rewrite horner_coef0 coef_poly. Qed.

Lemma antiderivative_1 p : (antiderivative p).[1] = integral p.
Proof. by rewrite -{2}(antiderivative_deriv p) integral_deriv antiderivative_0 subr0. Qed.

Lemma antiderivative_size p n : (size p <= n)%N -> (size (antiderivative p) <= n.+1)%N.
Proof. by move=> h; apply: (leq_trans (size_poly _ _)). Qed.

Lemma derivn_antiderivative p k : (antiderivative p)^`(k.+1) = p^`(k).
Proof. by rewrite derivSn antiderivative_deriv. Qed.

Lemma unisolvent s r p : (size p <= r + r + s)%N -> vanishes r p 0 -> vanishes r p 1 ->
  (forall q, (size q <= s)%N -> integral (p * q) = 0) -> p = 0.
Proof.
elim: s r p => [|s IH] r p hs h0 h1 hm; first by apply: ends_zero h0 h1; move: hs; rewrite addn0.
have i1 : integral p = 0 by rewrite -[p]mulr1; apply: hm; rewrite size_poly1.
suff : antiderivative p = 0 by move=> E; rewrite -(antiderivative_deriv p) E linear0.
apply: (IH r.+1).
- by rewrite addSn addnS addSn; apply: antiderivative_size; rewrite addSn -addnS.
- by case=> [|k] hk; rewrite ?derivn_antiderivative ?h0 // derivn0 antiderivative_0.
- by case=> [|k] hk; rewrite ?derivn_antiderivative ?h1 // derivn0 antiderivative_1.
- move=> q hq; rewrite -{1}(antiderivative_deriv q) mulrC by_parts.
  rewrite (antiderivative_1 p) i1 (antiderivative_0 p) !mulr0 subr0 sub0r.
  by rewrite antiderivative_deriv mulrC hm ?oppr0 // antiderivative_size.
Qed.
End Antiderivative.

(** ** Moments against polynomials of every degree *)
Section Span.
Variable F : realFieldType.
Implicit Types (p q : {poly F}).

Lemma span n (P : nat -> {poly F}) p : (forall k, (k < n)%N -> size (P k) = k.+1) ->
  (forall k, (k < n)%N -> integral (p * P k) = 0) ->
  forall q, (size q <= n)%N -> integral (p * q) = 0.
Proof.
elim: n => [|n IH] hs hm q hq.
  by move: hq; rewrite leqn0 size_poly_eq0 => /eqP ->; rewrite mulr0 integral0.
have l0 : lead_coef (P n) != 0 by rewrite lead_coef_eq0 -size_poly_eq0 hs.
pose c := q`_n / lead_coef (P n).
have -> : q = (q - c *: P n) + c *: P n by rewrite subrK.
rewrite mulrDr integralD -scalerAr integralZ hm // mulr0 addr0.
apply: IH => [k hk|k hk|]; [exact/hs/ltnW | exact/hm/ltnW |].
apply/leq_sizeP => j; rewrite leq_eqVlt => /orP [/eqP <-|hj].
  have e : (P n)`_n = lead_coef (P n) by rewrite /lead_coef hs.
  by rewrite coefB coefZ /c e divfK // subrr.
rewrite coefB coefZ !nth_default ?mulr0 ?subrr // ?hs //.
exact: leq_trans hq hj.
Qed.

Lemma jacobi_size a k : size (jacobi F a k) = k.+1.
Proof.
have hb (i : 'I_k.+1) : (('X - 1) ^+ i * 'X ^+ (k - i) : {poly F}) \is monic /\ size (('X - 1) ^+ i * 'X ^+ (k - i) : {poly F}) = k.+1.
  have m1 : (('X - 1) ^+ i : {poly F}) \is monic by rewrite monic_exp // -[1]/(1%:P) monicXsubC.
  split; first by rewrite monicMl // monicXn.
  rewrite size_Mmonic ?monicXn // ?monic_neq0 // size_polyXn -[X in 'X - X]/(1%:P) size_exp_XsubC addnS addSn /=.
  by rewrite subnKC // -ltnS.
have hs : (size (jacobi F a k) <= k.+1)%N.
  apply: (leq_trans (size_sum _ _ _)); apply/bigmax_leqP => i _.
  do 2! (apply: (leq_trans (size_scale_leq _ _))); by rewrite (hb i).2.
apply/eqP; rewrite eqn_leq hs ltnNge; apply/negP => hn.
have : (jacobi F a k)`_k = 0 by rewrite nth_default.
rewrite /jacobi coef_sum.
under eq_bigr => i _.
  rewrite !coefZ.
  have := (hb i).1; rewrite monicE /lead_coef (hb i).2 /= => /eqP ->.
  rewrite mulr1 -natrM; over.
rewrite -natr_sum => /eqP; rewrite pnatr_eq0 big_ord_recl bin0 subn0 muln1 addn_eq0 => /andP [/eqP h _].
by have := leq_addr a k; rewrite -bin_gt0 h.
Qed.

Lemma deriv_size p k : size p = k.+2 -> size p^`() = k.+1.
Proof.
move=> h; apply/eqP; rewrite eqn_leq; apply/andP; split.
  by rewrite -ltnS -h lt_size_deriv // -size_poly_eq0 h.
rewrite ltnNge; apply/negP => hk.
have : p^`()`_k = 0 by rewrite nth_default.
rewrite coef_deriv => /eqP; rewrite mulrn_eq0 /= => /eqP e.
have : lead_coef p != 0 by rewrite lead_coef_eq0 -size_poly_eq0 h.
by rewrite /lead_coef h /= e eqxx.
Qed.
End Span.
