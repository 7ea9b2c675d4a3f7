(** Conformity of Powell-Sabin functions. *)
From Coq Require Import String.
From mathcomp Require Import all_ssreflect all_algebra ring.
From SsrMultinomials Require Import mpoly.
From Verif Require Import Model.Gem Model.Piola Model.Zany Spec.Algebra Spec.Polynomials Spec.Zany Spec.Split Spec.Conformity Spec.SplitConformity.
From Verif Require Import Proofs.PiolaFacts Proofs.Polynomials Proofs.Integrals Proofs.ZanySums Proofs.VertexTransform Proofs.EdgeGeometry Proofs.EdgeRows Proofs.ZanyElements Proofs.ZanyEnds Proofs.ZanyNodal Proofs.ZanyNodal2 Proofs.HermiteTransform Proofs.PowellSabin Proofs.EdgeUnisolvence Proofs.Conformity Proofs.Conformity2 Proofs.EdgeBases.
From mathcomp Require Import zify.
Set Implicit Arguments.
Unset Strict Implicit.
Unset Printing Implicit Defensive.
Import GRing.Theory Num.Theory.
Local Open Scope ring_scope.

(** ** Two quadratic polynomials *)
Section Halves.
Variable F : realFieldType.
Implicit Types p q : {poly F}.

Lemma quadratic p : (size p <= 3)%N -> exists a b c, p = a%:P + b *: 'X + c *: 'X^2.
Proof.
move=> h; exists p`_0, p`_1, p`_2; apply/polyP => i.
rewrite !coefD coefC !coefZ coefX coefXn; case: i => [|[|[|i]]] /=; rewrite ?mulr0 ?mulr1 ?addr0 ?add0r //.
by apply: nth_default; apply: leq_trans h _.
Qed.

Lemma linear_poly p : (size p <= 2)%N -> exists a b, p = a%:P + b *: 'X.
Proof.
move=> h; exists p`_0, p`_1; apply/polyP => i.
rewrite !coefD coefC !coefZ coefX; case: i => [|[|i]] /=; rewrite ?mulr0 ?mulr1 ?addr0 ?add0r //.
by apply: nth_default; apply: leq_trans h _.
Qed.

Lemma two_quadratics p q : (size p <= 3)%N -> (size q <= 3)%N -> vanishes 2 p 0 -> vanishes 2 q 1 ->
  p.[1] = q.[0] -> p^`().[1] = q^`().[0] -> p = 0 /\ q = 0.
Proof.
move=> /quadratic [a [b [c ->]]] /quadratic [a' [b' [c' ->]]] hp hq.
have hp0 := hp 0%N isT; have hp1 := hp 1%N isT; have hq0 := hq 0%N isT; have hq1 := hq 1%N isT.
move: hp0 hp1 hq0 hq1; rewrite !derivn0 !derivn1 !derivD !derivC !derivZ derivX derivXn /=.
rewrite !(hornerD, hornerZ, hornerC, hornerX, hornerXn, hornerMn) /= ?expr1 !(mulr0, addr0, mulr1, add0r, expr1n, expr0n) /= ?mul0rn ?mulr0 ?addr0.
move=> -> -> e1 e2; rewrite !add0r => e3 e4.
have two : (4%:R : F) != 0 by rewrite pnatr_eq0.
subst a' b'.
have hc : c = 0.
  apply: (mulfI two); rewrite mulr0.
  transitivity (2%:R * (c + c * (1 + 1) + c') - (c * (1 + 1) + c' * (1 + 1))); first by ring.
  by rewrite e1 e2 mulr0 subrr.
move: e1; rewrite hc !mul0r !add0r => ->.
by rewrite ?mul0r !scale0r ?polyC0 !addr0.
Qed.

Lemma two_linears p q : (size p <= 2)%N -> (size q <= 2)%N -> p.[0] = 0 -> q.[1] = 0 -> p.[1] = q.[0] ->
  integral p + integral q = 0 -> p = 0 /\ q = 0.
Proof.
have iX (a b : F) : integral (a%:P + b *: 'X) = a + b / 2%:R.
  have -> : a%:P + b *: 'X = a *: 'X^0 + b *: 'X^1 by rewrite expr0 expr1 alg_polyC.
  by rewrite integralD !integralZ !integralX invr1 mulr1.
move=> /linear_poly [a [b ->]] /linear_poly [a' [b' ->]].
rewrite !iX !(hornerD, hornerZ, hornerC, hornerX) !(mulr0, addr0, mulr1) => ->.
rewrite !add0r => e1 e2; subst b => e3.
have h0 : a' = 0.
  transitivity (a' / 2%:R + (a' + b' / 2%:R) - (a' + b') / 2%:R); first by field.
  by rewrite e3 e1 mul0r subr0.
move: e1; rewrite h0 add0r => ->.
by rewrite polyC0 scale0r !addr0.
Qed.

Lemma line_shift (f : {mpoly F[2]}) (x h m : point F 2) s : (forall i, m i = x i + h i) ->
  (line f m h).[s] = (line f x h).[s + 1].
Proof.
move=> hm; rewrite !line_eval; apply: meval_eq => i; rewrite hm; ring.
Qed.

Lemma line_scale (f : {mpoly F[2]}) (x h t : point F 2) (k s : F) : (forall i, t i = k * h i) ->
  (line f x t).[s] = (line f x h).[s * k].
Proof. by move=> ht; rewrite !line_eval; apply: meval_eq => i; rewrite ht mulrA. Qed.

Lemma poly_zero p : (forall s, p.[s] = 0) -> p = 0.
Proof.
move=> h; apply/eqP; apply/negPn/negP => hp.
have := max_poly_roots hp (rs := [seq (i%:R : F) | i <- iota 0 (size p)]).
rewrite size_map size_iota ltnn => H; apply: notF; apply: H.
  by apply/allP => z _; rewrite /root h eqxx.
rewrite map_inj_uniq ?iota_uniq // => i j /eqP; by rewrite eqr_nat => /eqP.
Qed.

Section Edge.
Variables (d1 d2 : {mpoly F[2]}) (x m y t h : point F 2).
Hypothesis hh : forall i, h i = t i / 2%:R.
Hypothesis hm : forall i, m i = x i + h i.
Hypothesis hy : forall i, y i = x i + t i.
Hypothesis s1 : (msize d1 <= 3)%N.
Hypothesis s2 : (msize d2 <= 3)%N.
Hypothesis j1 : zero_jets d1 3 x.
Hypothesis j2 : zero_jets d2 3 y.
Hypothesis j3 : forall k, (k < 3)%N -> jet d1 m k = jet d2 m k.

Lemma ht i : t i = 2%:R * h i. Proof. by rewrite hh mulrCA mulfV ?mulr1 // pnatr_eq0. Qed.
Lemma at0 (z : point F 2) i : z i + 0 * h i = z i. Proof. by rewrite mul0r addr0. Qed.
Lemma at1 i : x i + 1 * h i = m i. Proof. by rewrite mul1r hm. Qed.
Lemma at2 i : m i + 1 * h i = y i. Proof. by rewrite mul1r hm hy ht -addrA; congr (_ + _); ring. Qed.

Lemma along_mid v : (along d1 v).@[m] = (along d2 v).@[m].
Proof.
apply/eqP; rewrite -subr_eq0 -mevalB -along_sub; apply/eqP; apply: (@along_zero _ _ 3) => // k hk.
by rewrite jet_sub j3 // subrr.
Qed.

Lemma whole f (z : point F 2) : line f z h = 0 -> line f z t = 0.
Proof. by move=> e; apply: poly_zero => s; rewrite (line_scale f z s ht) e horner0. Qed.
Lemma back_up f : line f m h = 0 -> line f x h = 0.
Proof. by move=> e; apply: poly_zero => s; rewrite -(subrK 1 s) -(line_shift _ _ hm) e horner0. Qed.

Lemma traces_zero : line d1 x t = 0 /\ line d2 x t = 0.
Proof.
have [||||||h1 h2] := @two_quadratics (line d1 x h) (line d2 m h).
- exact: leq_trans (line_size _ _ _) s1.
- exact: leq_trans (line_size _ _ _) s2.
- exact: (trace_vanishes2 (at0 x) j1).
- exact: (trace_vanishes2 at2 j2).
- by rewrite !line_eval (meval_eq _ at1) (meval_eq _ (at0 m)) -!jet0 j3.
- by rewrite !line_deriv !line_eval (meval_eq _ at1) (meval_eq _ (at0 m)) along_mid.
by split; apply: whole => //; apply: back_up.
Qed.

Lemma fluxes_zero n : integral (line (along d1 n) x h) + integral (line (along d2 n) m h) = 0 ->
  line (along d1 n) x t = 0 /\ line (along d2 n) x t = 0.
Proof.
move=> hi.
have [|||||//|h1 h2] := @two_linears (line (along d1 n) x h) (line (along d2 n) m h).
- exact: leq_trans (line_size _ _ _) (along_size _ s1).
- exact: leq_trans (line_size _ _ _) (along_size _ s2).
- exact: (flux_vanishes1 (at0 x) n j1 (k := 0%N)).
- exact: (flux_vanishes1 at2 n j2 (k := 0%N)).
- by rewrite !line_eval (meval_eq _ at1) (meval_eq _ (at0 m)) along_mid.
by split; apply: whole => //; apply: back_up.
Qed.

(** Derivatives at the midpoint. *)
Lemma trace_mid : (along d1 h).@[m] = d2.@[y] - d1.@[x] - ((along d1 h).@[x] + (along d2 h).@[y]) / 2%:R.
Proof.
have [a [b [k E]]] : exists a b k, line d1 x h = a%:P + b *: 'X + k *: 'X^2 by apply: quadratic; exact: leq_trans (line_size _ _ _) s1.
have [a' [b' [k' E']]] : exists a b k, line d2 m h = a%:P + b *: 'X + k *: 'X^2 by apply: quadratic; exact: leq_trans (line_size _ _ _) s2.
have v1 s : d1.@[fun i => x i + s * h i] = a + b * s + k * (s * s) by rewrite -line_eval E !hornerD !hornerZ hornerC hornerX hornerXn expr2.
have v2 s : d2.@[fun i => m i + s * h i] = a' + b' * s + k' * (s * s) by rewrite -line_eval E' !hornerD !hornerZ hornerC hornerX hornerXn expr2.
have w1 s : (along d1 h).@[fun i => x i + s * h i] = b + k * (s *+ 2).
  by rewrite -line_eval -line_deriv E !derivD !derivZ derivC derivX derivXn !hornerD !hornerZ !hornerC hornerMn hornerXn expr1 ?horner0 add0r mulr1.
have w2 s : (along d2 h).@[fun i => m i + s * h i] = b' + k' * (s *+ 2).
  by rewrite -line_eval -line_deriv E' !derivD !derivZ derivC derivX derivXn !hornerD !hornerZ !hornerC hornerMn hornerXn expr1 ?horner0 add0r mulr1.
have e0 : d1.@[m] = d2.@[m] by rewrite -!jet0 j3.
have e1 := along_mid h.
rewrite -(meval_eq _ at1) v1 -(meval_eq d2 (at0 m)) v2 in e0.
rewrite -(meval_eq _ at1) w1 -(meval_eq (along d2 h) (at0 m)) w2 in e1.
rewrite -(meval_eq _ at1) w1 -(meval_eq d2 at2) v2 -(meval_eq d1 (at0 x)) v1 -(meval_eq (along d1 h) (at0 x)) w1 -(meval_eq (along d2 h) at2) w2.
have A : a' = a + b + k by move: e0; rewrite !mulr0 !addr0 !mulr1.
have B : b' = b + k * 2%:R by move: e1; rewrite mul0rn mulr0 addr0.
rewrite A B; by field.
Qed.

Lemma spoke_line v : (forall s k, (k < 3)%N -> jet d1 (fun i => m i + s * v i) k = jet d2 (fun i => m i + s * v i) k) ->
  line (along (d1 - d2) v) m h = 0.
Proof.
move=> hv; pose D := d1 - d2.
have hD s u : (along D u).@[fun i => m i + s * v i] = 0.
  by apply: (@along_zero _ _ 3) => // k hk; rewrite jet_sub hv // subrr.
have : (size (line (along D v) m h) <= 2)%N by exact: leq_trans (line_size _ _ _) (along_size _ (size_sub s1 s2)).
have e0 : (line (along D v) m h).[0] = 0.
  by rewrite line_eval -[RHS](hD 0 v); apply: meval_eq => i; rewrite !mul0r.
have e1 : (line (along D v) m h)^`().[0] = 0.
  rewrite line_deriv line_eval along_swap.
  have : (line (along D h) m v)^`() = 0.
    have -> : line (along D h) m v = 0 by apply: poly_zero => s; rewrite line_eval hD.
    exact: linear0.
  move/(congr1 (fun p => p.[0])); rewrite line_deriv line_eval horner0 => E; rewrite -[RHS]E.
  by apply: meval_eq => i; rewrite !mul0r.
move=> /linear_poly [a [b eq]]; move: e0 e1; rewrite eq !derivD derivC derivZ derivX.
rewrite !(hornerD, hornerZ, hornerC, hornerX) !(mulr0, addr0, mulr1) => -> .
rewrite !add0r => ->.
by rewrite scale0r ?polyC0 ?addr0.
Qed.

Lemma spoke_mid v : (forall s k, (k < 3)%N -> jet d1 (fun i => m i + s * v i) k = jet d2 (fun i => m i + s * v i) k) ->
  (along d1 v).@[m] = ((along d1 v).@[x] + (along d2 v).@[y]) / 2%:R.
Proof.
move=> hv; have eqp : line (along d1 v) m h = line (along d2 v) m h.
  by apply/eqP; rewrite -subr_eq0 -line_sub -along_sub spoke_line.
have [a [b E]] : exists a b, line (along d1 v) x h = a%:P + b *: 'X by apply: linear_poly; exact: leq_trans (line_size _ _ _) (along_size _ s1).
have -> : (along d2 v).@[y] = (line (along d1 v) x h).[1 + 1].
  by rewrite -(line_shift _ _ hm) eqp line_eval (meval_eq _ at2).
have -> : (along d1 v).@[m] = (line (along d1 v) x h).[1] by rewrite line_eval (meval_eq _ at1).
have -> : (along d1 v).@[x] = (line (along d1 v) x h).[0] by rewrite line_eval (meval_eq _ (at0 x)).
rewrite E !(hornerD, hornerZ, hornerC, hornerX); by field.
Qed.

(** When values and gradients agree on a line through the midpoint that leaves
    the edge. *)
Lemma spokes_zero v : (forall s k, (k < 3)%N -> jet d1 (fun i => m i + s * v i) k = jet d2 (fun i => m i + s * v i) k) ->
  line (along d1 v) x t = 0 /\ line (along d2 v) x t = 0.
Proof.
move=> hv; have hp := spoke_line hv.
have eqp : line (along d1 v) m h = line (along d2 v) m h.
  by apply/eqP; rewrite -subr_eq0 -line_sub -along_sub hp.
have r : line (along d1 v) x h = 0.
  have : (size (line (along d1 v) x h) <= 2)%N by exact: leq_trans (line_size _ _ _) (along_size _ s1).
  have e0 : (line (along d1 v) x h).[0] = 0 := flux_vanishes1 (at0 x) v j1 (k := 0%N) isT.
  have e1 : (line (along d1 v) x h).[1 + 1] = 0.
    rewrite -(line_shift _ _ hm) eqp; exact: (flux_vanishes1 at2 v j2 (k := 0%N)).
  move=> /linear_poly [a [b eq]]; move: e0 e1; rewrite eq.
  rewrite !(hornerD, hornerZ, hornerC, hornerX) !(mulr0, addr0) => ->.
  rewrite add0r => /eqP; rewrite mulf_eq0 -[1 + 1]/(2%:R) pnatr_eq0 orbF => /eqP ->.
  by rewrite scale0r ?polyC0 ?addr0.
split; first exact: whole.
apply: whole; apply: back_up; rewrite -eqp.
by apply: poly_zero => s; rewrite (line_shift _ _ hm) r horner0.
Qed.
End Edge.

(** Derivatives along two vectors give the gradient. *)
Lemma gradient_two (d : {mpoly F[2]}) (x t v : point F 2) : t 0 * v 1 - t 1 * v 0 != 0 ->
  line d x t = 0 -> line (along d v) x t = 0 -> forall i, line d^`M(i) x t = 0.
Proof.
move=> hd h1 h2 i.
have h3 : line (along d t) x t = 0 by rewrite -line_deriv h1 linear0.
have e3 : t 0 *: line d^`M(0) x t + t 1 *: line d^`M(1) x t = 0 by rewrite -h3 /along sum2 lineD !lineZ.
have e2 : v 0 *: line d^`M(0) x t + v 1 *: line d^`M(1) x t = 0 by rewrite -h2 /along sum2 lineD !lineZ.
have : (t 0 * v 1 - t 1 * v 0) *: line d^`M(i) x t = 0.
  case: (ord2 i) => ->.
    transitivity (v 1 *: (t 0 *: line d^`M(0) x t + t 1 *: line d^`M(1) x t) - t 1 *: (v 0 *: line d^`M(0) x t + v 1 *: line d^`M(1) x t)); last by rewrite e3 e2 !scaler0 subr0.
    rewrite -!mul_polyC !(polyCD, polyCM, polyCN); ring.
  transitivity (t 0 *: (v 0 *: line d^`M(0) x t + v 1 *: line d^`M(1) x t) - v 0 *: (t 0 *: line d^`M(0) x t + t 1 *: line d^`M(1) x t)); last by rewrite e3 e2 !scaler0 subr0.
  rewrite -!mul_polyC !(polyCD, polyCM, polyCN); ring.
by move/eqP; rewrite scaler_eq0 (negbTE hd) => /eqP.
Qed.
End Halves.

(** ** Two triangles *)
Section SplitPair.
Variable F : realFieldType.
Variables (c : simplex (F := F)) (w : geometry (F := F) -> nat -> F) (K K' : cell F).
Local Notation T := (shape_of c w K).
Local Notation T' := (shape_of c w K').
Hypothesis hK : provides (geo K) c (matrix K) (origin K).
Hypothesis hK' : provides (geo K') c (matrix K') (origin K').
Variables e e' : nat.
Hypothesis he : (e < 3)%N.
Hypothesis he' : (e' < 3)%N.
Hypothesis hm : meet T e T' e'.
Local Notation x := (corner T (first e)).
Local Notation y := (corner T (second e)).
Local Notation t := (tangent T e).
Local Notation n := (normal T e).
Variables u u' : pieces F.
Hypothesis hs : split_c1 T u.
Hypothesis hs' : split_c1 T' u'.
Hypothesis hz : forall p, (p < 6)%N -> (msize (u p) <= 3)%N.
Hypothesis hz' : forall p, (p < 6)%N -> (msize (u' p) <= 3)%N.
Hypothesis hd1 : forall k, (k < 3)%N -> split_vertex_dof T u (first e) k = split_vertex_dof T' u' (first e') k.
Hypothesis hd2 : forall k, (k < 3)%N -> split_vertex_dof T u (second e) k = split_vertex_dof T' u' (second e') k.
Local Notation d1 := (u e - u' e').
Local Notation d2 := (u (3 + e)%N - u' (3 + e')%N).

Lemma half_eq i : half T e i = half T' e' i. Proof. by rewrite /half (tangents_eq hm). Qed.
Lemma midpoint_eq i : midpoint T e i = midpoint T' e' i.
Proof. by rewrite /midpoint half_eq; case: hm => ->. Qed.
Lemma end_point i : y i = x i + t i. Proof. by rewrite /tangent addrC subrK. Qed.

Lemma small1 : (msize d1 <= 3)%N.
Proof. by apply: size_sub; [apply: hz|apply: hz']; lia. Qed.
Lemma small2 : (msize d2 <= 3)%N.
Proof. by apply: size_sub; [apply: hz|apply: hz']; lia. Qed.

Lemma same_jets v v' k : (v < 3)%N -> size_at T v = size_at T' v' ->
  split_vertex_dof T u v k = split_vertex_dof T' u' v' k ->
  jet (u (half_at v)) (corner T v) k = jet (u' (half_at v')) (corner T' v') k.
Proof.
move=> hv hz0; rewrite /split_vertex_dof -hz0.
have hp : 0 < size_at T v by case: hK => _ [_ [_ [h _]]]; exact: h.
by move/(mulfI (weight_pos k hp)).
Qed.

Lemma start_jets : zero_jets d1 3 x.
Proof.
case: hs => /(_ e he) [a1 _] _; case: hs' => /(_ e' he') [b1 _] _; case: hm => [h1 [_ [h3 _]]].
move=> k hk; rewrite jet_sub a1 // (jet_ext (u' e') _ h1) b1 //.
by rewrite (same_jets (proj1 (first_other he)) h3 (hd1 hk)) subrr.
Qed.

Lemma end_jets : zero_jets d2 3 y.
Proof.
case: hs => /(_ e he) [_ [a2 _]] _; case: hs' => /(_ e' he') [_ [b2 _]] _; case: hm => [_ [h2 [_ h4]]].
move=> k hk; rewrite jet_sub a2 // (jet_ext (u' (3 + e')%N) _ h2) b2 //.
by rewrite (same_jets (proj1 (second_other he)) h4 (hd2 hk)) subrr.
Qed.

Lemma middle_jets k : (k < 3)%N -> jet d1 (midpoint T e) k = jet d2 (midpoint T e) k.
Proof.
case: hs => _ a; case: hs' => _ b hk.
by rewrite !jet_sub a // !(jet_ext (u' _) _ midpoint_eq) b.
Qed.

Lemma split_traces : line d1 x t = 0 /\ line d2 x t = 0.
Proof.
exact: (@traces_zero _ d1 d2 x (midpoint T e) y t (half T e)
  (fun _ => erefl) (fun _ => erefl) end_point small1 small2 start_jets end_jets middle_jets).
Qed.

Lemma continuous_line (d d' : {mpoly F[2]}) : line (d - d') x t = 0 -> continuous_across T e d d'.
Proof.
move=> h s; apply/eqP; rewrite -subr_eq0 -mevalB.
by have := line_eval (d - d') x t s; rewrite h horner0 => <-.
Qed.

Lemma split_continuous : split_continuous_across T e u e' u'.
Proof. by have [h1 h2] := split_traces; split; apply: continuous_line. Qed.

Lemma smooth_line (d d' : {mpoly F[2]}) : line (d - d') x t = 0 -> (forall i, line (d - d')^`M(i) x t = 0) -> smooth_across T e d d'.
Proof.
move=> h1 h2; split=> [|i s]; first exact: continuous_line.
apply/eqP; rewrite -subr_eq0 -mevalB -mderivB.
by have := line_eval (d - d')^`M(i) x t s; rewrite h2 horner0 => <-.
Qed.

Lemma split_means : split_mean T u e = split_mean T' u' e' -> split_smooth_across T e u e' u'.
Proof.
move=> hi; have [h1 h2] := split_traces.
have E : integral (line (along d1 n) x (half T e)) + integral (line (along d2 n) (midpoint T e) (half T e)) = 0.
  have two : (2%:R : F) != 0 by rewrite pnatr_eq0.
  have := congr1 (fun z => z * 2%:R) hi; rewrite /split_mean !divfK // => E.
  apply/eqP; rewrite !along_sub !line_sub -!scaleN1r !integralD !integralZ addrACA -mulrDr mulN1r subr_eq0 E; apply/eqP.
  have hx i : corner T' (first e') i = x i by case: hm => ->.
  rewrite !(along_ext (u' _) (normals_eq hK hK' he he' hm)) (line_ext _ hx (fun i => esym (half_eq i))).
  by rewrite (line_ext (along (u' (3 + e')%N) _) (fun i => esym (midpoint_eq i)) (fun i => esym (half_eq i))).
have [h3 h4] := @fluxes_zero _ d1 d2 x (midpoint T e) y t (half T e)
  (fun _ => erefl) (fun _ => erefl) end_point small1 small2 start_jets end_jets middle_jets n E.
have hL := length_pos hK he; have hL2 := length_sq hK (w (geo K)) he.
have ht : square t != 0.
  rewrite /square -!expr2 -[shape_of c w K]/(physical c (map_of K) (physical_edge_lengths (geo K)) (cell_size (geo K)) (w (geo K))).
  by rewrite -[map_of K]/(affine (matrix K) (origin K)) -hL2 expf_neq0 // lt0r_neq0.
split; apply: smooth_line => //; apply: (@gradient_zero _ _ x t n (physical_edge_lengths (geo K) e)) => //; exact: lt0r_neq0.
Qed.

Lemma split_spokes z z' (k : F) : centred T z u -> centred T' z' u' -> k != 0 ->
  (forall i, spoke T' z' e' i = k * spoke T z e i) ->
  t 0 * spoke T z e 1 - t 1 * spoke T z e 0 != 0 -> split_smooth_across T e u e' u'.
Proof.
move=> hc hc' hk hv hd; have [h1 h2] := split_traces.
have J s a : (a < 3)%N -> jet d1 (fun i => midpoint T e i + s * spoke T z e i) a = jet d2 (fun i => midpoint T e i + s * spoke T z e i) a.
  move=> ha; rewrite !jet_sub (hc e s a he ha); congr (_ - _).
  have := hc' e' (s / k) a he' ha.
  have E i : midpoint T' e' i + s / k * spoke T' z' e' i = midpoint T e i + s * spoke T z e i.
    by rewrite hv midpoint_eq mulrA divfK.
  by rewrite /= !(jet_ext (u' _) _ E).
have [h3 h4] := @spokes_zero _ d1 d2 x (midpoint T e) y t (half T e)
  (fun _ => erefl) (fun _ => erefl) end_point small1 small2 start_jets end_jets (spoke T z e) J.
by split; apply: smooth_line => //; apply: (gradient_two hd).
Qed.

(** One function: value and gradient zero at the first vertex, value one and
    gradient zero at the second. *)
Lemma mid_along z : centred T z u ->
  (forall k, (k < 3)%N -> jet (u e) x k = 0) -> (forall k, (k < 3)%N -> jet (u (3 + e)%N) y k = (k == 0)%N%:R) ->
  (along (u e) (half T e)).@[midpoint T e] = 1 /\ (along (u e) (spoke T z e)).@[midpoint T e] = 0.
Proof.
move=> hc j1 j2.
have hz1 : (msize (u e) <= 3)%N by apply: hz; lia.
have hz2 : (msize (u (3 + e)%N) <= 3)%N by apply: hz; lia.
have [_ j3] := hs.
have a1 v : (along (u e) v).@[x] = 0 by apply: (@along_zero _ _ 3).
have a2 v : (along (u (3 + e)%N) v).@[y] = 0.
  rewrite along_at big1 // => i _; rewrite -jet1 j2 ?mulr0 //.
  by rewrite ltnS; exact: ltn_ord.
split.
  rewrite (@trace_mid _ _ _ x (midpoint T e) y t (half T e) (fun _ => erefl) (fun _ => erefl) end_point hz1 hz2 (fun k hk => j3 e k he hk)).
  by rewrite a1 a2 -!jet0 j1 // j2 // addr0 mul0r !subr0.
rewrite (@spoke_mid _ _ _ x (midpoint T e) y t (half T e) (fun _ => erefl) (fun _ => erefl) end_point hz1 hz2 _ (fun s k hk => hc e s k he hk)).
by rewrite a1 a2 addr0 mul0r.
Qed.
End SplitPair.

(** ** The elements *)
Section Elements.
Variable F : realFieldType.
Local Notation o := (ring_ops F).
Variable c : simplex (F := F).
Hypothesis hc : fiat_triangle c.
Local Notation R := (reference c).
Implicit Types (K : cell F) (a : nat -> F) (T : shape F).

Lemma jet_combination N a (phi : nat -> pieces F) p y k :
  jet (combination N a phi p) y k = \sum_(j < N) a j * jet (phi j p) y k.
Proof. exact: (jet_comb N a (fun j => phi j p)). Qed.

Lemma split_c1_comb T N a (phi : nat -> pieces F) : (forall j, (j < N)%N -> split_c1 T (phi j)) -> split_c1 T (combination N a phi).
Proof.
move=> h; split=> [e he|e k he hk].
  split; [move=> k hk|split=> [k hk|]].
  - by rewrite !jet_combination; apply: eq_bigr => j _; case: (h j (ltn_ord j)) => /(_ e he) [-> //].
  - by rewrite !jet_combination; apply: eq_bigr => j _; case: (h j (ltn_ord j)) => /(_ e he) [_ [-> //]].
  - by rewrite -!jet0 !jet_combination; apply: eq_bigr => j _; rewrite !jet0; case: (h j (ltn_ord j)) => /(_ e he) [_ [_ ->]].
by rewrite !jet_combination; apply: eq_bigr => j _; case: (h j (ltn_ord j)) => _ ->.
Qed.

Lemma centred_comb T z N a (phi : nat -> pieces F) : (forall j, (j < N)%N -> centred T z (phi j)) -> centred T z (combination N a phi).
Proof. by move=> h e s k he hk /=; rewrite !jet_combination; apply: eq_bigr => j _; rewrite (h j (ltn_ord j) e s k he hk). Qed.

Lemma split_vertex_linear T v k : linear_dof (fun f => split_vertex_dof T f v k).
Proof.
move=> N a phi; rewrite /split_vertex_dof jet_combination mulr_sumr.
by apply: eq_bigr => j _; rewrite mulrCA.
Qed.

Section Field.
Variables (w : geometry (F := F) -> nat -> F) (N : nat) (ref : pieces F -> nat -> F) (M : geometry (F := F) -> nat -> nat -> F).
Lemma field_c1 K a : split_based c w N ref K -> split_c1 (shape_of c w K) (field N N M K a).
Proof. by case=> _ [h _]; apply: split_c1_comb => l _; apply: split_c1_comb. Qed.
Lemma field_small K a p : split_based c w N ref K -> (p < 6)%N -> (msize (field N N M K a p) <= 3)%N.
Proof. by case=> _ [_ [h _]] hp; apply: size_comb => l _; apply: size_comb => j hj; apply: h. Qed.
Lemma field_centred K a z : (forall j, (j < N)%N -> centred (shape_of c w K) z (funs K j)) -> centred (shape_of c w K) z (field N N M K a).
Proof. by move=> h; apply: centred_comb => l _; apply: centred_comb. Qed.
End Field.

Lemma ps12_conforming (avg : bool) K K' e e' a a' :
  let w := mean_weight avg in
  let M := fun g => powell_sabin12_transformation o avg c g in
  split_based c w 12 (split_dof R) K -> split_based c w 12 (split_dof R) K' -> (e < 3)%N -> (e' < 3)%N ->
  meet (shape_of c w K) e (shape_of c w K') e' -> shared 3 1 a e a' e' ->
  split_smooth_across (shape_of c w K) e (field 12 12 M K a) e' (field 12 12 M K' a').
Proof.
move=> w M hK hK' he he' hm [s1 s2].
have [f1 f2] := first_other he; have [g1 g2] := first_other he'.
have [f3 f4] := second_other he; have [g3 g4] := second_other he'.
have hn K0 : split_based c w 12 (split_dof R) K0 -> nodal 12 (split_dof (shape_of c w K0)) (fun l => combination 12 (M (geo K0) l) (funs K0)).
  case=> h1 [h2 [_ h3]]; apply: (@ps12_nodal_proof F c (geo K0) (matrix K0) (origin K0) hc h1) => // j hj.
  by case: (h2 j hj).
have vc K0 a0 v k : split_based c w 12 (split_dof R) K0 -> (v < 3)%N -> (k < 3)%N -> split_vertex_dof (shape_of c w K0) (field 12 12 M K0 a0) v k = a0 (v * 3 + k)%N.
  move=> h0 hv hk.
  exact: (@vertex_coefficient F 3 1 12 (split_vertex_dof _) (fun f e _ => edge_weight _ e * split_mean _ f e) (fun _ _ => 0) _ a0 v k
    (@split_linear F c (geo K0) (matrix K0) (origin K0) (w (geo K0))) (hn _ h0) isT hv hk).
have ec K0 a0 v : split_based c w 12 (split_dof R) K0 -> (v < 3)%N -> w (geo K0) v * split_mean (shape_of c w K0) (field 12 12 M K0 a0) v = a0 (3 * 3 + v * 1 + 0)%N.
  move=> h0 hv.
  exact: (@edge_coefficient F 3 1 12 (split_vertex_dof _) (fun f e _ => edge_weight _ e * split_mean _ f e) (fun _ _ => 0) _ a0 v 0%N
    (@split_linear F c (geo K0) (matrix K0) (origin K0) (w (geo K0))) (hn _ h0) isT hv isT).
have hw : w (geo K) e = w (geo K') e'.
  rewrite /w /mean_weight; case: (avg) => //; exact: (lengths_eq hK.1 hK'.1 he he' hm).
have hw0 : w (geo K) e != 0.
  by rewrite /w /mean_weight; case: (avg); rewrite ?oner_neq0 // lt0r_neq0 // (length_pos hK.1).
apply: (@split_means F c w K K' hK.1 hK'.1 e e' he he' hm) => //.
- exact: field_c1 hK.
- exact: field_c1 hK'.
- by move=> p hp; apply: field_small hK hp.
- by move=> p hp; apply: field_small hK' hp.
- by move=> k hk; rewrite !vc //; case: (s1 k hk).
- by move=> k hk; rewrite !vc //; case: (s1 k hk).
- by apply: (mulfI hw0); rewrite {2}hw !ec // s2.
Qed.

Lemma ps6_nodal (w : geometry (F := F) -> nat -> F) K : split_based c w 9 (split_vertices R) K ->
  nodal 9 (split_vertices (shape_of c w K)) (fun l => combination 9 (hermite_transformation o c (geo K) l) (funs K)).
Proof.
case=> h1 [h2 [_ h3]] i l hi hl.
have q3 k : (k < 9)%N -> (k %/ 3 <= 2)%N by move=> h; rewrite -ltnS ltn_divLR.
have r3 k : (k %% 3 < 3)%N by rewrite ltn_mod.
have W (h : F) k : (k < 3)%N -> weight h k = if (k == 0)%N then 1 else h by case: k => [|[|[|k]]].
have [k1 [k2 [k3 [k4 _]]]] := h1.
have := @hermite_nodal_proof F 2 c (geo K) (map_of K) (hdim hc) (hnv hc) _ _ 9 (fun j v => funs K j (half_at v)) (fun _ _ => 0) (fun _ _ => 0) isT (fun _ _ => erefl) _ _ i l hi hl.
rewrite /hermite_dof q3 // => <- //.
- by rewrite /split_vertices /split_vertex_dof W.
- by move=> v i' j' _; rewrite k2 affine_jacobian.
- by move=> v hv; rewrite lt0r_neq0 // k4.
- by move=> b k; rewrite big1 // => j _; rewrite mulr0.
move=> i' j' hi' hj'; rewrite q3 // -h3 // /split_vertices /split_vertex_dof W // !mul1r.
Qed.

Lemma ps6_vertex (w : geometry (F := F) -> nat -> F) K a v k : split_based c w 9 (split_vertices R) K -> (v < 3)%N -> (k < 3)%N ->
  split_vertex_dof (shape_of c w K) (field 9 9 (fun g => hermite_transformation o c g) K a) v k = a (v * 3 + k)%N.
Proof.
move=> hK hv hk.
have hi : (v * 3 + k < 9)%N by lia.
have E : forall f, split_vertices (shape_of c w K) f (v * 3 + k)%N = split_vertex_dof (shape_of c w K) f v k.
  by move=> f; rewrite /split_vertices divnMDl // divn_small // addn0 modnMDl modn_small.
apply: (field_dof a (split_vertex_linear _ v k) hi) => j hj.
by rewrite -E; exact: (ps6_nodal hK hi hj).
Qed.

Section Pair6.
Variables (w : geometry (F := F) -> nat -> F) (K K' : cell F) (e e' : nat) (a a' : nat -> F).
Let M := fun g => hermite_transformation o c g.
Let T := shape_of c w K.
Let T' := shape_of c w K'.
Let u := field 9 9 M K a.
Let u' := field 9 9 M K' a'.

Lemma ps6_conforming : split_based c w 9 (split_vertices R) K -> split_based c w 9 (split_vertices R) K' -> (e < 3)%N -> (e' < 3)%N ->
  meet T e T' e' -> shared 3 0 a e a' e' ->
  split_continuous_across T e u e' u' /\
  (forall i, (u e)^`M(i).@[corner T (first e)] = (u' e')^`M(i).@[corner T (first e)] /\
             (u (3 + e)%N)^`M(i).@[corner T (second e)] = (u' (3 + e')%N)^`M(i).@[corner T (second e)]) /\
  forall z z' k, (forall j, (j < 9)%N -> centred T z (funs K j)) -> (forall j, (j < 9)%N -> centred T' z' (funs K' j)) ->
    k != 0 -> (forall i, spoke T' z' e' i = k * spoke T z e i) ->
    tangent T e 0 * spoke T z e 1 - tangent T e 1 * spoke T z e 0 != 0 -> split_smooth_across T e u e' u'.
Proof.
move=> hK hK' he he' hm [s1 _].
have [f1 f2] := first_other he; have [g1 g2] := first_other he'.
have [f3 f4] := second_other he; have [g3 g4] := second_other he'.
have c1 : split_c1 T u := field_c1 _ _ hK.
have c1' : split_c1 T' u' := field_c1 _ _ hK'.
have z1 p : (p < 6)%N -> (msize (u p) <= 3)%N := field_small _ _ hK.
have z1' p : (p < 6)%N -> (msize (u' p) <= 3)%N := field_small _ _ hK'.
have d1 k : (k < 3)%N -> split_vertex_dof T u (first e) k = split_vertex_dof T' u' (first e') k.
  by move=> hk; rewrite !ps6_vertex //; case: (s1 k hk).
have d2 k : (k < 3)%N -> split_vertex_dof T u (second e) k = split_vertex_dof T' u' (second e') k.
  by move=> hk; rewrite !ps6_vertex //; case: (s1 k hk).
split; [|split].
- exact: (split_continuous hK.1 he he' hm c1 c1' z1 z1' d1 d2).
- move=> i.
  have J1 := start_jets hK.1 he he' hm c1 c1' d1; have J2 := end_jets hK.1 he he' hm c1 c1' d2.
  by split; apply/eqP; rewrite -subr_eq0 -mevalB -mderivB; apply/eqP; exact: (@first_zero _ _ 3).
- move=> z z' k hz hz' hk hs hd.
  apply: (split_spokes hK.1 he he' hm c1 c1' z1 z1' d1 d2 (z := z) (z' := z')) hk hs hd; exact: field_centred.
Qed.
End Pair6.

(** Without common spokes the gradients differ. *)
Lemma ps6_kink (w : geometry (F := F) -> nat -> F) K K' e e' z z' :
  let T := shape_of c w K in let T' := shape_of c w K' in
  split_based c w 9 (split_vertices R) K -> split_based c w 9 (split_vertices R) K' -> (e < 3)%N -> (e' < 3)%N -> meet T e T' e' ->
  (forall j, (j < 9)%N -> centred T z (funs K j)) -> (forall j, (j < 9)%N -> centred T' z' (funs K' j)) ->
  spoke T z e 0 * spoke T' z' e' 1 - spoke T z e 1 * spoke T' z' e' 0 != 0 ->
  let M := fun g => hermite_transformation o c g in
  exists a a', shared 3 0 a e a' e' /\ ~ split_smooth_across T e (field 9 9 M K a) e' (field 9 9 M K' a').
Proof.
move=> T T' hK hK' he he' hm hz hz' hd M.
pose a f := fun i : nat => ((second f * 3)%N == i)%:R : F.
have [f1 f2] := first_other he; have [g1 g2] := first_other he'.
have [f3 f4] := second_other he; have [g3 g4] := second_other he'.
have ne f : (f < 3)%N -> first f != second f by case: f => [|[|[|f]]].
have a1 f k : (f < 3)%N -> (k < 3)%N -> a f (first f * 3 + k)%N = 0.
  by move=> hf hk; rewrite /a; case: eqP => // E; have := ne f hf; lia.
have a2 f k : a f (second f * 3 + k)%N = (k == 0)%N%:R.
  by rewrite /a -{1}[(second f * 3)%N]addn0 eqn_add2l eq_sym.
exists (a e), (a e'); split.
  by split=> // k hk; rewrite !a1 // !a2.
have main K0 f zz : split_based c w 9 (split_vertices R) K0 -> (f < 3)%N -> (forall j, (j < 9)%N -> centred (shape_of c w K0) zz (funs K0 j)) ->
  let S := shape_of c w K0 in let u := field 9 9 M K0 (a f) in
  (along (u f) (half S f)).@[midpoint S f] = 1 /\ (along (u f) (spoke S zz f)).@[midpoint S f] = 0.
  move=> h0 hf hcen S u.
  have [u1 _] := first_other hf; have [u2 _] := second_other hf.
  have c1 : split_c1 S u := field_c1 _ _ h0.
  have pos v : (v < 3)%N -> 0 < size_at S v by case: h0 => -[_ [_ [_ [h _]]]] _; exact: h.
  have W (h : F) k : (k < 3)%N -> k != 0%N -> weight h k = h by case: k => [|[|[|k]]].
  have [c0 _] := c1; have [d1 [d2 _]] := c0 f hf.
  apply: (@mid_along F c w K0 f f hf hf u c1).
  - move=> p hp; exact: (field_small _ _ h0 hp).
  - exact: field_centred.
  - move=> k hk; rewrite d1 //; have := ps6_vertex (a f) h0 u1 hk; rewrite a1 // /split_vertex_dof.
    by move/eqP; rewrite mulf_eq0 (negbTE (weight_pos k (pos _ u1))) => /eqP.
  - move=> k hk; rewrite d2 //; have := ps6_vertex (a f) h0 u2 hk; rewrite a2 /split_vertex_dof.
    have [->|k0] := eqVneq k 0%N; first by rewrite mul1r.
    by move/eqP; rewrite mulf_eq0 (negbTE (weight_pos k (pos _ u2))) => /eqP.
have [m1 m2] := main K e z hK he hz; have [n1 n2] := main K' e' z' hK' he' hz'.
move=> [[_ hg] _].
have hmid i : edge_point T e (1 / 2%:R) i = midpoint T e i by rewrite /edge_point /midpoint /half mul1r mulrC.
have G i := hg i (1 / 2%:R).
have mm i : midpoint T' e' i = midpoint T e i by rewrite (midpoint_eq hm).
have n3 : (along (field 9 9 M K (a e) e) (spoke T' z' e')).@[midpoint T e] = 0.
  rewrite along_at -[RHS]n2 along_at; apply: eq_bigr => i _; congr (_ * _).
  by rewrite (meval_eq _ mm) -!(meval_eq _ hmid) G.
have : (along (field 9 9 M K (a e) e) (half T e)).@[midpoint T e] = 0.
  move: m2 n3; rewrite !along_at !sum2 => e1 e2.
  move: (_ .@[midpoint T e]) (_ .@[midpoint T e]) e1 e2 => q p e1 e2.
  have [-> ->] : p = 0 /\ q = 0; last by rewrite !mulr0 addr0.
  split; apply: (mulfI hd); rewrite mulr0.
    transitivity (spoke T' z' e' 1 * (spoke T z e 0 * p + spoke T z e 1 * q) - spoke T z e 1 * (spoke T' z' e' 0 * p + spoke T' z' e' 1 * q)); first by ring.
    by rewrite e1 e2 !mulr0 subr0.
  transitivity (spoke T z e 0 * (spoke T' z' e' 0 * p + spoke T' z' e' 1 * q) - spoke T' z' e' 0 * (spoke T z e 0 * p + spoke T z e 1 * q)); first by ring.
  by rewrite e1 e2 !mulr0 subr0.
by rewrite m1 => /eqP; rewrite oner_eq0.
Qed.

End Elements.
