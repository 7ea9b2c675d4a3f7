(** Every reference triangle has nodal bases of functions given by polynomials
    next to the edges. *)
From mathcomp Require Import all_ssreflect all_algebra ring.
From SsrMultinomials Require Import mpoly.
From Verif Require Import Model.Gem Model.Piola Model.Zany Spec.Algebra Spec.Polynomials Spec.Zany Spec.Conformity.
From Verif Require Import Proofs.PiolaFacts Proofs.Polynomials Proofs.Integrals Proofs.ZanySums Proofs.VertexTransform Proofs.EdgeGeometry Proofs.EdgeRows Proofs.ZanyElements Proofs.ZanyNodal Proofs.EdgeUnisolvence Proofs.Conformity Proofs.Transport.
From mathcomp Require Import zify.
Set Implicit Arguments.
Unset Strict Implicit.
Unset Printing Implicit Defensive.
Import GRing.Theory Num.Theory.
Local Open Scope ring_scope.

(** ** Interpolation *)
Section Interpolation.
Variable F : realFieldType.
Implicit Types p : {poly F}.

Definition additive_form (L : {poly F} -> F) : Prop := (forall p q, L (p + q) = L p + L q) /\ (forall a p, L (a *: p) = a * L p).

Lemma form_sum L n (v : 'I_n -> F) (q : 'I_n -> {poly F}) : additive_form L -> L (\sum_(i < n) v i *: q i) = \sum_(i < n) v i * L (q i).
Proof.
move=> [hD hZ]; have h0 : L 0 = 0 by rewrite -(scale0r 0) hZ mul0r.
by rewrite (big_morph L hD h0); apply: eq_bigr => i _; rewrite hZ.
Qed.

Lemma interpolation n (L : nat -> {poly F} -> F) (z : nat -> F) : (forall j, additive_form (L j)) ->
  (forall p, (size p <= n)%N -> (forall j, (j < n)%N -> L j p = 0) -> p = 0) ->
  {p : {poly F} | (size p <= n)%N & forall j, (j < n)%N -> L j p = z j}.
Proof.
move=> hL hinj.
pose A := \matrix_(i < n, j < n) L j ('X^i).
have hA (v : 'rV[F]_n) j : (v *m A) 0 j = L j (rVpoly v).
  have -> : rVpoly v = \sum_(i < n) v 0 i *: 'X^i.
    rewrite /rVpoly poly_def; apply: eq_bigr => i _; congr (_ *: _).
    by rewrite insubT //= => hi; congr (v _ _); apply: val_inj.
  by rewrite form_sum // mxE; apply: eq_bigr => i _; rewrite mxE.
have uA : A \in unitmx.
  rewrite -row_free_unit; apply: inj_row_free => v hv.
  apply: (can_inj (@rVpolyK F n)); rewrite linear0; apply: hinj; first exact: size_poly.
  by move=> j hj; rewrite -(hA v (Ordinal hj)) hv mxE.
pose v := (\row_j z j) *m invmx A.
exists (rVpoly v); first exact: size_poly.
by move=> j hj; rewrite -(hA v (Ordinal hj)) mulmxKV // mxE.
Qed.

(** Derivatives at the ends and further functionals. *)
Lemma end_interpolation r s (M : nat -> {poly F} -> F) (a b z : nat -> F) : (forall j, additive_form (M j)) ->
  (forall p, (size p <= r + r + s)%N -> vanishes r p 0 -> vanishes r p 1 -> (forall j, (j < s)%N -> M j p = 0) -> p = 0) ->
  {p : {poly F} | (size p <= r + r + s)%N & [/\ forall k, (k < r)%N -> p^`(k).[0] = a k, forall k, (k < r)%N -> p^`(k).[1] = b k &
    forall k, (k < s)%N -> M k p = z k]}.
Proof.
move=> hM hinj.
pose L j p := if (j < r)%N then p^`(j).[0] else if (j < r + r)%N then p^`(j - r).[1] else M (j - (r + r))%N p.
pose y j := if (j < r)%N then a j else if (j < r + r)%N then b (j - r)%N else z (j - (r + r))%N.
have Ll k p : (k < r)%N -> L k p = p^`(k).[0] by move=> hk; rewrite /L hk.
have Lr k p : (k < r)%N -> L (r + k)%N p = p^`(k).[1].
  by move=> hk; rewrite /L ltnNge leq_addr /= ltn_add2l hk addKn.
have Lm k p : L (r + r + k)%N p = M k p.
  by rewrite /L !ltnNge leq_addr -addnA leq_addr /= addnA addKn.
have [|p hp|p hp h] := @interpolation (r + r + s) L y.
- move=> j; rewrite /L; case: (j < r)%N; [|case: (j < r + r)%N => //].
    by split=> [p q|c p]; rewrite ?derivnD ?derivnZ ?hornerD ?hornerZ.
  by split=> [p q|c p]; rewrite ?derivnD ?derivnZ ?hornerD ?hornerZ.
- move=> h; apply: hinj => // k hk.
  + by rewrite -(Ll k p hk); apply: h; lia.
  + by rewrite -(Lr k p hk); apply: h; lia.
  + by rewrite -(Lm k p); apply: h; lia.
exists p => //; split=> k hk.
- by rewrite -(Ll k p hk) h ?/y ?hk //; lia.
- by rewrite -(Lr k p hk) h /y; [rewrite ltnNge leq_addr /= ltn_add2l hk addKn|lia].
- by rewrite -(Lm k p) h /y; [rewrite !ltnNge leq_addr -addnA leq_addr /= addnA addKn|lia].
Qed.
End Interpolation.

(** ** Functions in the coordinates of an edge *)
Section Lift.
Variable F : realFieldType.
Implicit Types (f g : {mpoly F[2]}) (v : point F 2) (A B C : {poly F}).

Lemma alongD f g v : along (f + g) v = along f v + along g v.
Proof. by rewrite /along -big_split; apply: eq_bigr => i _ /=; rewrite mderivD scalerDr. Qed.
Lemma alongZ a f v : along (a *: f) v = a *: along f v.
Proof. by rewrite /along scaler_sumr; apply: eq_bigr => i _; rewrite mderivZ !scalerA mulrC. Qed.
Lemma alongC a v : along (a%:MP : {mpoly F[2]}) v = 0.
Proof. by rewrite /along big1 // => i _; rewrite mderivC scaler0. Qed.
Lemma alongM f g v : along (f * g) v = along f v * g + f * along g v.
Proof.
rewrite /along mulr_suml mulr_sumr -big_split; apply: eq_bigr => i _ /=.
by rewrite mderivM scalerDr scalerAl scalerAr.
Qed.

Definition comp (s : {mpoly F[2]}) A : {mpoly F[2]} := (map_poly (@mpolyC 2 F) A).[s].

Lemma comp0 s : comp s 0 = 0. Proof. by rewrite /comp rmorph0 horner0. Qed.
Lemma compD s A B : comp s (A + B) = comp s A + comp s B.
Proof. by rewrite /comp rmorphD hornerD. Qed.
Lemma compX s A : comp s (A * 'X) = comp s A * s.
Proof. by rewrite /comp rmorphM /= map_polyX hornerMX. Qed.
Lemma compC s a : comp s a%:P = a%:MP.
Proof. by rewrite /comp map_polyC hornerC. Qed.

Lemma comp_along s A v : along (comp s A) v = comp s A^`() * along s v.
Proof.
elim/poly_ind: A => [|A a IH]; first by rewrite comp0 linear0 comp0 mul0r -(mpolyC0 2 F) alongC.
rewrite compD compX compC alongD alongC addr0 alongM IH derivMXaddC compD compX.
by rewrite mulrDl addrC; congr (_ + _); rewrite -!mulrA; congr (_ * _); rewrite mulrC.
Qed.

Lemma line_comp s A (x t : point F 2) : line s x t = 'X -> line (comp s A) x t = A.
Proof.
move=> h; elim/poly_ind: A => [|A a IH]; first by rewrite comp0 line0.
by rewrite compD compX compC lineD lineMM lineC IH h.
Qed.

Lemma comp_deg s A : (msize s <= 2)%N -> (msize (comp s A) <= size A)%N.
Proof.
move=> hs; rewrite /comp horner_coef; apply: deg_sum => i _.
rewrite coef_map /= mul_mpolyC; apply: degZ.
have hi : (i < size A)%N by apply: leq_trans (ltn_ord i) (size_poly _ _).
by apply: leq_trans hi; rewrite -[X in (_ <= X.+1)%N]muln1; apply: degX.
Qed.

Variables (x t n : point F 2) (l : F).
Hypothesis hl : l != 0.
Hypothesis hl2 : l ^+ 2 = square t.
Hypothesis hn : forall i, n i = clockwise t i / l.

Lemma square_neq : square t != 0. Proof. by rewrite -hl2 expf_neq0. Qed.
Lemma n0 : n 0 = t 1 / l. Proof. by rewrite hn. Qed.
Lemma n1 : n 1 = - t 0 / l. Proof. by rewrite hn. Qed.

Definition coordinate v : {mpoly F[2]} := \sum_i v i *: ('X_i - (x i)%:MP).
Definition sv := coordinate (fun i => t i / square t).
Definition rv := coordinate n.

Lemma coordinate_along v u : along (coordinate v) u = (\sum_i v i * u i)%:MP.
Proof.
rewrite /coordinate !sum2 alongD !alongZ /along !sum2 !mderivB !mderivC !subr0 !mderivXU /=.
rewrite -!mul_mpolyC !mulr1 !mulr0 addr0 add0r -!mpolyCM -mpolyCD; by [].
Qed.

Lemma coordinate_line v : line (coordinate v) x t = (\sum_i v i * t i) *: 'X.
Proof.
rewrite /coordinate !sum2 lineD !lineZ !line_sub !lineX !lineC !(addrC (_%:P)) !addrK !scalerA.
by rewrite scalerDl.
Qed.

Lemma coordinate_deg v : (msize (coordinate v) <= 2)%N.
Proof.
apply: deg_sum => i _; apply: degZ; apply: degD; first exact: deg_var.
by rewrite msizeN; apply: degC.
Qed.

Lemma dot_nt : \sum_i n i * t i = 0.
Proof. rewrite sum2 n0 n1; by field. Qed.
Lemma dot_nn : \sum_i n i * n i = 1.
Proof.
rewrite sum2 n0 n1; apply: (mulIf (expf_neq0 2 hl)); rewrite mul1r {2}hl2 /square.
by field.
Qed.
Lemma dot_st : \sum_i t i / square t * t i = 1.
Proof. rewrite sum2 /square; field; exact: square_neq. Qed.
Lemma dot_sn : \sum_i t i / square t * n i = 0.
Proof.
have h := dot_nt; move: h; rewrite !sum2 => h.
transitivity ((n 0 * t 0 + n 1 * t 1) / square t); last by rewrite h mul0r.
by rewrite mulrDl; congr (_ + _); rewrite mulrAC [_ * n _]mulrC.
Qed.

Lemma line_sv : line sv x t = 'X. Proof. by rewrite coordinate_line dot_st scale1r. Qed.
Lemma line_rv : line rv x t = 0. Proof. by rewrite coordinate_line dot_nt scale0r. Qed.
Lemma along_sn : along sv n = 0. Proof. by rewrite coordinate_along dot_sn mpolyC0. Qed.
Lemma along_rn : along rv n = 1. Proof. by rewrite coordinate_along dot_nn mpolyC1. Qed.

Definition lift A B C : {mpoly F[2]} := comp sv A + rv * comp sv B + 2%:R^-1 *: (rv * rv * comp sv C).

Lemma lift_line A B C : line (lift A B C) x t = A.
Proof. by rewrite /lift !lineD lineZ !lineMM line_rv !mul0r scaler0 !addr0 line_comp // line_sv. Qed.

Lemma lift_along A B C : along (lift A B C) n = comp sv B + rv * comp sv C.
Proof.
rewrite /lift !alongD alongZ !alongM !comp_along along_sn along_rn !mulr0 !addr0 add0r !mul1r mulr1.
congr (_ + _); rewrite -mulr2n -scaler_nat !scalerAl scalerA mulVf ?pnatr_eq0 // scale1r; by [].
Qed.

Lemma lift_flux A B C : line (along (lift A B C) n) x t = B.
Proof. by rewrite lift_along lineD lineMM line_rv mul0r addr0 line_comp // line_sv. Qed.

Lemma lift_second A B C : line (along (along (lift A B C) n) n) x t = C.
Proof.
rewrite lift_along alongD alongM !comp_along along_sn along_rn !mulr0 addr0 add0r mul1r.
by rewrite line_comp // line_sv.
Qed.

Lemma lift_deg A B C k : (size A <= k.+3)%N -> (size B <= k.+2)%N -> (size C <= k.+1)%N -> (msize (lift A B C) <= k.+3)%N.
Proof.
move=> hA hB hC.
have hs : (msize sv <= 2)%N := coordinate_deg _; have hr : (msize rv <= 2)%N := coordinate_deg _.
apply: degD; [apply: degD|apply: degZ].
- exact: leq_trans (comp_deg _ hs) hA.
- by rewrite -[k.+3]/((1 + k.+1).+1); apply: degM => //; exact: leq_trans (comp_deg _ hs) hB.
- rewrite -[k.+3]/((1 + 1 + k).+1); apply: degM; first by apply: degM.
  exact: leq_trans (comp_deg _ hs) hC.
Qed.

(** Vectors are determined by their products with [t] and [n]. *)
Lemma both_zero (g0 g1 : F) : t 0 * g0 + t 1 * g1 = 0 -> n 0 * g0 + n 1 * g1 = 0 -> g0 = 0 /\ g1 = 0.
Proof.
rewrite n0 n1 => e1 e2.
have e3 : t 1 * g0 - t 0 * g1 = 0.
  apply: (mulIf (invr_neq0 hl)); rewrite mul0r; apply: etrans e2; by field.
have hs := square_neq; split; apply: (mulfI hs); rewrite mulr0.
  transitivity (t 0 * (t 0 * g0 + t 1 * g1) + t 1 * (t 1 * g0 - t 0 * g1)); last by rewrite e1 e3 !mulr0 addr0.
  rewrite /square; ring.
transitivity (t 1 * (t 0 * g0 + t 1 * g1) - t 0 * (t 1 * g0 - t 0 * g1)); last by rewrite e1 e3 !mulr0 subr0.
rewrite /square; ring.
Qed.

Lemma gradient_at d y : (along d t).@[y] = 0 -> (along d n).@[y] = 0 -> forall i, d^`M(i).@[y] = 0.
Proof.
rewrite !along_at !sum2 => h1 h2 i; have [e0 e1] := both_zero h1 h2.
by case: (ord2 i) => ->.
Qed.

Lemma zero_jets3 d y : d.@[y] = 0 -> (along d t).@[y] = 0 -> (along d n).@[y] = 0 -> zero_jets d 3 y.
Proof.
move=> h0 h1 h2; have g := gradient_at h1 h2.
by case=> [|[|[|k]]] // _; [rewrite (jet1 _ _ (0 : 'I_2))|rewrite (jet1 _ _ (1 : 'I_2))].
Qed.

Lemma along_swap d u v : along (along d u) v = along (along d v) u.
Proof.
rewrite /along !sum2 !mderivD !mderivZ !scalerDr !scalerA.
have -> : d^`M(1)^`M(0) = d^`M(0)^`M(1) by rewrite mderiv_comm.
by rewrite addrACA; congr (_ + _); rewrite ?[u _ * _]mulrC // addrC; congr (_ + _); rewrite mulrC.
Qed.

Lemma zero_jets6 d y : zero_jets d 3 y -> (along (along d t) t).@[y] = 0 -> (along (along d n) t).@[y] = 0 -> (along (along d n) n).@[y] = 0 ->
  zero_jets d 6 y.
Proof.
move=> h3 htt hnt hnn.
have gn := gradient_at hnt hnn.
have gt : forall i, (along d t)^`M(i).@[y] = 0 by apply: gradient_at => //; rewrite along_swap.
have E u i : (along d u)^`M(i).@[y] = u 0 * d^`M(0)^`M(i).@[y] + u 1 * d^`M(1)^`M(i).@[y].
  by rewrite /along sum2 mderivD !mderivZ mevalD !mevalZ.
have z j i : d^`M(j)^`M(i).@[y] = 0.
  have e1 := gt i; have e2 := gn i; rewrite !E in e1 e2.
  by have [z0 z1] := both_zero e1 e2; case: (ord2 j) => ->.
case=> [|[|[|k]]] hk; try exact: h3.
by rewrite -[k.+3]/(3 + k)%N (jet2 _ _ (0, 0)) ?z // pairs2.
Qed.
End Lift.
