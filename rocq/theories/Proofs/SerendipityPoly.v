(** On parallelograms the direct serendipity functions of degree [r] reproduce all
    polynomials of degree [r]. *)
From Coq Require List.
From mathcomp Require Import all_ssreflect all_algebra.
From mathcomp Require Import zify ring.
From Verif Require Import Model.Prelude Model.Gem Model.Serendipity Spec.Partial Spec.Serendipity Proofs.Newton Proofs.SerendipityGeometry Proofs.SerendipityInner Proofs.SerendipityEdges Proofs.SerendipityNodal Proofs.SerendipityRegular Proofs.SerendipityTrace Proofs.SerendipityQuadratic.
Set Implicit Arguments.
Unset Strict Implicit.
Unset Printing Implicit Defensive.
Import Order.TTheory GRing.Theory Num.Theory.
Local Open Scope ring_scope.

(** ** Functions that are dual to points *)
Section Dual.
  Variables (F : fieldType) (X : Type) (D : X -> Prop) (T L : eqType) (ts : seq T) (ls : seq L).
  Variables (phi : T -> X -> F) (x : T -> X) (gen : L -> X -> F).
  Hypothesis sizes : size ls = size ts.
  Hypothesis uts : uniq ts.
  Hypothesis placed : {in ts, forall t, D (x t)}.
  Hypothesis spanned : {in ts, forall t, exists a : L -> F, forall P, D P -> phi t P = \sum_(l <- ls) a l * gen l P}.
  Hypothesis dual : {in ts &, forall t u, phi t (x u) = (t == u)%:R}.

  Lemma dual_span l P : l \in ls -> D P -> \sum_(t <- ts) gen l (x t) * phi t P = gen l P.
  Proof.
    move=> Hl HP. have H0 : (index l ls < size ts)%N by rewrite -sizes index_mem.
    pose t0 := Ordinal H0.
    pose n := size ts.
    pose T' (i : 'I_n) := tnth (in_tuple ts) i. have Hs : size ls == n by apply/eqP.
    pose L' (i : 'I_n) := tnth (Tuple Hs) i.
    have mT i : T' i \in ts by exact: mem_tnth.
    have sumL (f : L -> F) : \sum_(l <- ls) f l = \sum_(i < n) f (L' i) by rewrite -[ls]/(tval (Tuple Hs)) big_tuple.
    have sumT (f : T -> F) : \sum_(t <- ts) f t = \sum_(i < n) f (T' i) by rewrite -[ts]/(tval (in_tuple ts)) big_tuple.
    have : forall i : 'I_n, exists a : 'I_n -> F, forall Q, D Q -> phi (T' i) Q = \sum_(k < n) a k * gen (L' k) Q.
      move=> i. have [a Ha] := spanned (mT i). exists (fun k => a (L' k)) => Q HQ. by rewrite Ha // sumL.
    case/fin_all_exists => A HA.
    pose MA : 'M[F]_n := \matrix_(i, k) A i k. pose G : 'M[F]_n := \matrix_(k, j) gen (L' k) (x (T' j)).
    have AG : MA *m G = 1%:M.
      apply/matrixP => i j. rewrite !mxE. under eq_bigr do rewrite !mxE. rewrite -HA; last exact: placed.
      rewrite dual //. congr (_ %:R). congr nat_of_bool. rewrite /T' !(tnth_nth (T' t0)). by rewrite nth_uniq.
    have GA := mulmx1C AG.
    have /tnthP [k Ek] : l \in Tuple Hs by [].
    rewrite sumT Ek -/(L' k).
    under eq_bigr => j _ do rewrite HA // mulr_sumr.
    rewrite exchange_big /=.
    transitivity (\sum_(m < n) (G *m MA) k m * gen (L' m) P).
      apply: eq_bigr => m _. rewrite !mxE mulr_suml. apply: eq_bigr => j _. by rewrite !mxE mulrA.
    rewrite GA (bigD1 k) //= !mxE eqxx mul1r big1 ?addr0 // => m Hm. by rewrite !mxE eq_sym (negbTE Hm) mul0r.
  Qed.
End Dual.

(** ** Polynomials in two variables *)
Section Polynomials.
  Variable F : realFieldType.
  Implicit Types (p q : {poly {poly F}}) (f g : point F -> F) (P : point F).
  Definition bideg (m : nat) p : Prop := forall i j, (m < i + j)%N -> p`_i`_j = 0.
  Definition isP (m : nat) f : Prop := exists2 p, bideg m p & forall P, f P = p.[(P.2)%:P].[P.1].

  Lemma isP_ext m f g : (forall P, f P = g P) -> isP m f -> isP m g.
  Proof. by move=> E [p Hp H]; exists p => // P; rewrite -E. Qed.
  Lemma isP_le m n f : (m <= n)%N -> isP m f -> isP n f.
  Proof. move=> Hmn [p Hp H]. exists p => // i j Hij. by apply: Hp; lia. Qed.
  Lemma isP_add m f g : isP m f -> isP m g -> isP m (fun P => f P + g P).
  Proof.
    move=> [p Hp Ep] [q Hq Eq]. exists (p + q); last by move=> P; rewrite !hornerD Ep Eq.
    by move=> i j H; rewrite !coefD Hp ?Hq ?addr0.
  Qed.
  Lemma isP_mul m n f g : isP m f -> isP n g -> isP (m + n) (fun P => f P * g P).
  Proof.
    move=> [p Hp Ep] [q Hq Eq]. exists (p * q); last by move=> P; rewrite !hornerM Ep Eq.
    move=> i j H. rewrite coefM coef_sum big1 // => [[k Hk] _] /=. rewrite coefM big1 // => [[l Hl] _] /=.
    have [Hkl|Hkl] := ltnP m (k + l); first by rewrite Hp // mul0r.
    rewrite [X in _ * X]Hq ?mulr0 //; lia.
  Qed.
  Lemma isP_affine a b c : isP 1 (fun P => a + b * P.1 + c * P.2).
  Proof.
    exists ((a%:P + b *: 'X)%:P + (c%:P)%:P * 'X); last by move=> P; rewrite !hornerE.
    move=> i j H. rewrite coefD coefC coefCM coefX. case: i H => [|[|i]] H /=.
    - rewrite mulr0 addr0 coefD coefC coefZ coefX. by case: j H => [|[|j]] //= _; rewrite mulr0 addr0.
    - rewrite mulr1 add0r coefC. by case: j H.
    - by rewrite mulr0 addr0 coef0.
  Qed.
  Lemma isP_const a : isP 0 (fun=> a).
  Proof.
    exists (a%:P)%:P; last by move=> P; rewrite !hornerC.
    move=> i j H. rewrite !coefC. case: i H => [|i] H; rewrite ?coef0 // coefC. by case: j H.
  Qed.
  Lemma isP_scale m a f : isP m f -> isP m (fun P => a * f P).
  Proof. move=> H. exact: (isP_mul (isP_const a) H). Qed.
  Lemma isP_exp f n : isP 1 f -> isP n (fun P => f P ^+ n).
  Proof.
    move=> H. elim: n => [|n IH]; first exact: isP_const.
    apply: (isP_ext (f := fun P => f P * f P ^+ n)); first by move=> P; rewrite exprS. exact: (isP_mul (m := 1)).
  Qed.
  Lemma isP_sum (I : Type) (l : seq I) m (f : I -> point F -> F) : (forall i, isP m (f i)) -> isP m (fun P => \sum_(i <- l) f i P).
  Proof.
    move=> H. elim: l => [|i l IH].
      apply: (isP_ext (f := fun=> 0)); first by move=> P; rewrite big_nil. apply: isP_le (isP_const _). by [].
    apply: (isP_ext (f := fun P => f i P + \sum_(j <- l) f j P)); first by move=> P; rewrite big_cons. exact: isP_add.
  Qed.
  Lemma isP_prod (I : Type) (l : seq I) (f : I -> point F -> F) : (forall i, isP 1 (f i)) -> isP (size l) (fun P => \prod_(i <- l) f i P).
  Proof.
    move=> H. elim: l => [|i l IH].
      apply: (isP_ext (f := fun=> 1)); first by move=> P; rewrite big_nil. exact: isP_const.
    apply: (isP_ext (f := fun P => f i P * \prod_(j <- l) f j P)); first by move=> P; rewrite big_cons. exact: (isP_mul (m := 1)).
  Qed.
  Lemma isP_horner m f (p : {poly F}) : isP 1 f -> (size p <= m.+1)%N -> isP m (fun P => p.[f P]).
  Proof.
    move=> H Sp. apply: (isP_ext (f := fun P => \sum_(i <- index_enum [finType of 'I_m.+1]) p`_i * f P ^+ i)).
      move=> P. by rewrite (horner_coef_wide _ Sp).
    apply: isP_sum => -[i Hi]. apply: isP_scale. apply: isP_le (isP_exp _ H). by [].
  Qed.
  (** The coefficients. *)
  Lemma isP_polynomial m f : isP m f -> exists c, forall P, f P = polynomial m c P.
  Proof.
    move=> [p Hp Ep]. exists (fun i j => p`_j`_i) => P. rewrite Ep /polynomial.
    have S1 : (size p <= m.+1)%N.
      apply/leq_sizeP => i Hi. apply/polyP => j. rewrite coef0 Hp //. lia.
    rewrite (horner_coef_wide _ S1) horner_sum.
    have S2 (i : 'I_m.+1) : (size (p`_i)%R <= m.+1)%N by apply/leq_sizeP => j Hj; apply: Hp; lia.
    transitivity (\sum_(j < m.+1) \sum_(i < m.+1) p`_j`_i * P.1 ^+ i * P.2 ^+ j).
      apply: eq_bigr => j _. rewrite hornerM -rmorphX hornerC (horner_coef_wide _ (S2 j)) mulr_suml. by [].
    rewrite exchange_big /=. apply: eq_bigr => i _.
    rewrite [RHS](big_ord_widen m.+1 (fun j => p`_j`_i * P.1 ^+ i * P.2 ^+ j)); last lia.
    rewrite [RHS]big_mkcond /=. apply: eq_bigr => j _. case: ltnP => // Hj. rewrite Hp ?mul0r ?mul0r //. lia.
  Qed.
End Polynomials.

Section Parallelogram.
  Variable F : realFieldType.
  Variable v : nat -> point F.
  Variable s : F.
  Hypothesis convex : turns v s.
  Hypothesis par_v : parallelogram v.
  Variable r : nat.
  Hypothesis r_ge3 : (3 <= r)%N.
  Local Notation O := (partial_ops F).
  Local Notation sv := (sv v).
  Local Notation lam := (lam v).
  Local Notation a0 := adjacent0.
  Local Notation a1 := adjacent1.
  Local Notation op := opposite_edge.
  Local Notation enode := (edge_point v r).
  Local Notation lat := (lat r).
  Local Notation emod := (emod v r).
  Implicit Types (P : point F) (f g : point F -> F).
  Lemma r_ge2 : (2 <= r)%N. Proof. lia. Qed.
  Lemma regular e : (e < 4)%N -> edge_regular v r e.
  Proof. move=> He. apply: (regular_par (s := s)) => //. exact: r_ge2. Qed.

  (** ** Linear functions *)
  Lemma isP_lin (a b c : F) f : (forall P, f P = a + b * P.1 + c * P.2) -> isP 1 f.
  Proof. move=> H. apply: (isP_ext (f := fun P => a + b * P.1 + c * P.2)) => //. exact: isP_affine. Qed.
  Lemma isP_lam e : (e < 4)%N -> isP 1 (lam e).
  Proof.
    have T (a b : point F) f : (forall P, f P = turn a b P) -> isP 1 f.
      move=> H. apply: (@isP_lin (- (b.1 - a.1) * a.2 + (b.2 - a.2) * a.1) (- (b.2 - a.2)) (b.1 - a.1)) => P. rewrite H /turn. ring.
    move=> He. by case: (edges4 He) => ->; [apply: (T (v 0) (v 1))|apply: (T (v 3) (v 2))|apply: (T (v 2) (v 0))|apply: (T (v 1) (v 3))].
  Qed.
  Lemma isP_par e : isP 1 (par v e).
  Proof.
    pose d := dir v e. pose k := (d.1 ^+ 2 + d.2 ^+ 2)^-1.
    apply: (@isP_lin (- ((v (tail e)).1 * d.1 + (v (tail e)).2 * d.2) * k) (d.1 * k) (d.2 * k)) => P.
    rewrite /par -/d -/k. ring.
  Qed.
  Lemma isP_bar q : isP 1 (bar v r q).
  Proof.
    pose D := turn (v 0%N) (v 1%N) (v 2%N). pose d := (r - 4)%:R : F.
    have [a [b [c H1]]] : exists a b c, forall P, bar v r 1 P = a + b * P.1 + c * P.2.
      pose k := (d + 2%:R) / D / d. exists (k * (- (v 2).2 * (v 0).1 + (v 2).1 * (v 0).2) - d^-1), (k * ((v 2).2 - (v 0).2)), (- k * ((v 2).1 - (v 0).1)) => P.
      rewrite /bar /k -/D -/d /turn. move: (D^-1) (d^-1) => D' d'. ring.
    have [a' [b' [c' H2]]] : exists a b c, forall P, bar v r 2 P = a + b * P.1 + c * P.2.
      pose k := (d + 2%:R) / D / d. exists (k * (- ((v 1).1 - (v 0).1) * (v 0).2 + ((v 1).2 - (v 0).2) * (v 0).1) - d^-1), (- k * ((v 1).2 - (v 0).2)), (k * ((v 1).1 - (v 0).1)) => P.
      rewrite /bar /k -/D -/d /turn. move: (D^-1) (d^-1) => D' d'. ring.
    case: q => [|[|q]]; [|exact: isP_lin H1|exact: isP_lin H2].
    apply: (@isP_lin (1 - a - a') (- b - b') (- c - c')) => P.
    rewrite -[bar v r 0 P]/(1 - bar v r 1 P - bar v r 2 P) H1 H2. ring.
  Qed.

  (** ** Inner functions *)
  Lemma isP_ibf t : t \in lat -> isP r (ibf v r t).
  Proof.
    move=> /mem_lat [r4 Ht].
    have HL : isP (r - 4) (lagF' v r t).
      rewrite /lagF'. case: eqP => [Er|_]; first by apply: isP_le (isP_const _).
      have HQ q : isP (comp t q) (fun P => \prod_(p < comp t q) (((r - 4)%:R * bar v r q P - p%:R) / ((comp t q)%:R - p%:R))).
        apply: (isP_ext (f := fun P => \prod_(p <- enum 'I_(comp t q)) (((r - 4)%:R * bar v r q P - p%:R) / ((comp t q)%:R - p%:R)))).
          by move=> P; rewrite big_enum.
        rewrite -[X in isP X]size_enum_ord. apply: isP_prod => p. have HB := isP_bar q.
        apply: (isP_ext (f := fun P => ((comp t q)%:R - p%:R)^-1 * ((r - 4)%:R * bar v r q P + - p%:R))); first by move=> P; rewrite mulrC.
        apply: isP_scale. apply: isP_add; first exact: isP_scale. by apply: isP_le (isP_const _).
      apply: (isP_ext (f := fun P => (\prod_(p < comp t 0) (((r - 4)%:R * bar v r 0 P - p%:R) / ((comp t 0)%:R - p%:R))
        * \prod_(p < comp t 1) (((r - 4)%:R * bar v r 1 P - p%:R) / ((comp t 1)%:R - p%:R)))
        * \prod_(p < comp t 2) (((r - 4)%:R * bar v r 2 P - p%:R) / ((comp t 2)%:R - p%:R)))).
        move=> P. by rewrite /lagF !big_ord_recl big_ord0 mulr1 mulrA.
      apply: isP_le (isP_mul (isP_mul (HQ 0%N) (HQ 1%N)) (HQ 2%N)). by rewrite /comp /= Ht.
    have HB : isP 4 (bub v).
      exact: (isP_mul (isP_mul (isP_mul (isP_lam (e := 0) _) (isP_lam (e := 1) _)) (isP_lam (e := 2) _)) (isP_lam (e := 3) _)).
    set k := (lagF' v r t (inode v r t) * bub v (inode v r t))^-1.
    apply: (isP_ext (f := fun P => k * (lagF' v r t P * bub v P))); first by move=> P; rewrite mulrC.
    apply: isP_scale. apply: isP_le (isP_mul HL HB). lia.
  Qed.

  (** ** The two further functions *)
  Definition sH P : F := lam 2 P * lam 3 P * tun v 0 P ^+ (r - 2) * lam 1 P.
  Definition sV P : F := lam 0 P * lam 1 P * tun v 2 P ^+ (r - 2) * lam 3 P.
  Definition inS f : Prop := exists (q : point F -> F) (a b : F), isP r q /\ forall P, placed v s P -> f P = q P + a * sH P + b * sV P.

  Lemma inS_ext f g : (forall P, placed v s P -> f P = g P) -> inS f -> inS g.
  Proof. by move=> E [q [a [b [Hq H]]]]; exists q, a, b; split=> // P HP; rewrite -E // H. Qed.
  Lemma inS_poly f : isP r f -> inS f.
  Proof. move=> H. exists f, 0, 0. split=> // P _. ring. Qed.
  Lemma inS_add f g : inS f -> inS g -> inS (fun P => f P + g P).
  Proof.
    move=> [q [a [b [Hq H]]]] [q' [a' [b' [Hq' H']]]]. exists (fun P => q P + q' P), (a + a'), (b + b').
    split; [exact: isP_add|]. move=> P HP. rewrite H // H' //. ring.
  Qed.
  Lemma inS_scale c f : inS f -> inS (fun P => c * f P).
  Proof.
    move=> [q [a [b [Hq H]]]]. exists (fun P => c * q P), (c * a), (c * b).
    split; [exact: isP_scale|]. move=> P HP. rewrite H //. ring.
  Qed.
  Lemma inS_sub f g : inS f -> inS g -> inS (fun P => f P - g P).
  Proof. move=> Hf Hg. apply: (inS_ext _ (inS_add Hf (inS_scale (-1) Hg))) => P _. ring. Qed.
  Lemma inS_sum (I : eqType) (l : seq I) (f : I -> point F -> F) : {in l, forall i, inS (f i)} -> inS (fun P => \sum_(i <- l) f i P).
  Proof.
    elim: l => [|i l IH] H.
      apply: (inS_ext (f := fun=> 0)); first by move=> P _; rewrite big_nil. apply: inS_poly. by apply: isP_le (isP_const _).
    apply: (inS_ext (f := fun P => f i P + \sum_(j <- l) f j P)); first by move=> P _; rewrite big_cons.
    apply: inS_add; first by apply: H; rewrite mem_head. by apply: IH => j Hj; apply: H; rewrite inE Hj orbT.
  Qed.
  Lemma inS_sH : inS sH.
  Proof. exists (fun=> 0), 1, 0. split; first by apply: isP_le (isP_const _). move=> P _; ring. Qed.
  Lemma inS_sV : inS sV.
  Proof. exists (fun=> 0), 0, 1. split; first by apply: isP_le (isP_const _). move=> P _; ring. Qed.

  (** ** Edge functions *)
  Definition width e : F := lam e (v 0%N) + lam (op e) (v 0%N).
  Lemma width_const e P : (e < 4)%N -> lam e P + lam (op e) P = width e.
  Proof.
    case: par_v => H1 H2 He.
    have E1 : (v 3%N).1 = (v 1%N).1 - (v 0%N).1 + (v 2%N).1 by rewrite H1 subrK.
    have E2 : (v 3%N).2 = (v 1%N).2 - (v 0%N).2 + (v 2%N).2 by rewrite H2 subrK.
    by case: (edges4 He) => ->; rewrite /width /op /= /turn ?E1 ?E2; ring.
  Qed.
  Lemma isP_tun e : (e < 4)%N -> isP 1 (tun v e).
  Proof.
    move=> He. have [[H0 H1 _] _ _ _] := edge_facts He.
    have E P : lam (a0 e) P + lam (a1 e) P = width (a0 e).
      rewrite -(width_const P) //. by case: (edges4 He) => ->.
    apply: (isP_ext (f := fun P => (width (a0 e))^-1 * (lam (a0 e) P + -1 * lam (a1 e) P))).
      move=> P. rewrite /tun E. by rewrite mulrC mulN1r.
    apply: isP_scale. apply: isP_add; first exact: isP_lam. apply: isP_scale. exact: isP_lam.
  Qed.
  Lemma inS_prebf e i : (e < 4)%N -> (0 < i < r)%N -> inS (ev (edge_prebf O sv r e i.-1)).
  Proof.
    move=> He Hi. have [[L0 L1 L2] _ _ _] := edge_facts He. have [p Sp Ep] := edge_prebf_form convex r_ge2 r_ge3 He Hi.
    apply: (inS_ext (f := fun P => lam (a0 e) P * lam (a1 e) P * lam (op e) P * p.[par v e P]
        + (width e)^-1 * (lam (a0 e) P * lam (a1 e) P * tun v e P ^+ (r - 2) * lam (op e) P))).
      move=> P HP. rewrite Ep // /rs width_const //. ring.
    apply: inS_add.
      apply: inS_poly. have Hh : isP (r - 3) (fun P => p.[par v e P]) by apply: isP_horner; [exact: isP_par|lia].
      apply: isP_le (isP_mul (isP_mul (isP_mul (isP_lam L0) (isP_lam L1)) (isP_lam L2)) Hh). lia.
    apply: inS_scale.
    have HT := isP_exp (r - 2) (isP_tun He). have HX : isP r (fun P => lam (a0 e) P * lam (a1 e) P * tun v e P ^+ (r - 2)).
      apply: isP_le (isP_mul (isP_mul (isP_lam L0) (isP_lam L1)) HT). lia.
    case: (edges4 He) HX => -> HX.
    - exact: inS_sH.
    - apply: (inS_ext _ (inS_sub (inS_scale (width 0) (inS_poly HX)) inS_sH)) => P _.
      rewrite -(width_const P) // /sH /tun /op /=. ring.
    - exact: inS_sV.
    - apply: (inS_ext _ (inS_sub (inS_scale (width 2) (inS_poly HX)) inS_sV)) => P _.
      rewrite -(width_const P) // /sV /tun /op /=. ring.
  Qed.
  Lemma inS_ibfs (w : nat * nat * nat -> F) : inS (fun P => \sum_(t <- lat) w t * ibf v r t P).
  Proof. apply: inS_sum => t Ht. apply: inS_scale. apply: inS_poly. exact: isP_ibf. Qed.
  Lemma inS_emod e i : (e < 4)%N -> (0 < i < r)%N -> inS (ev (emod e i)).
  Proof.
    move=> He Hi. have Hf := edge_prebf_placed convex r_ge2 r_ge3 He Hi.
    have Hnode : edge_node O sv r e i.-1 = somep (enode e i).
      have r2 := r_ge2. rewrite /edge_node edge_nodesE // listE_nth (nth_map (0, 0)) ?size_map ?size_iota; last lia.
      rewrite (nth_map 0%N) ?size_iota; last lia. rewrite nth_iota; last lia. have -> : (1 + i.-1 = i)%N by lia. by [].
    have r2 := r_ge2. set f := edge_prebf O sv r e i.-1 in Hf.
    set c := ev f (enode e i) - \sum_(t <- lat) ev f (inode v r t) * ibf v r t (enode e i).
    apply: (inS_ext (f := fun P => c^-1 * (ev f P - \sum_(t <- lat) ev f (inode v r t) * ibf v r t P))); last first.
      apply: inS_scale. apply: inS_sub; [exact: inS_prebf|exact: inS_ibfs].
    move=> P HP. rewrite /ev /SerendipityNodal.emod. have /negbTE -> : r != 2%N by lia.
    rewrite /edge_bf Hnode !(nodalize_placed convex _ Hf) //; last exact: (enode_placed convex r_ge2).
    rewrite -/c /=. case: eqP => [->|_] /=; first by rewrite invr0 mul0r.
    by rewrite mulrC.
  Qed.

  (** ** Vertex functions *)
  Lemma inS_vertex i : (i < 4)%N -> inS (ev (vertex_bf O sv r i)).
  Proof.
    move=> Hi. have [B0 B1] := off_lt Hi.
    have HS : inS (vsum v r i).
      apply: inS_sub.
        apply: inS_poly. apply: isP_le (isP_mul (isP_lam B0) (isP_lam B1)). lia.
      apply: inS_sum => e /(adj_lt Hi) He. apply: inS_sum => k. rewrite mem_iota => Hk. apply: inS_scale. apply: inS_emod => //. lia.
    apply: (inS_ext (f := fun P => (vpre v i (v i))^-1 * (vsum v r i P - \sum_(t <- lat) vsum v r i (inode v r t) * ibf v r t P))).
      move=> P HP. rewrite /ev (vertex_form convex r_ge2 regular Hi HP) /=. by rewrite mulrC.
    apply: inS_scale. apply: inS_sub => //. exact: inS_ibfs.
  Qed.
  Lemma inS_basis n : good r n -> inS (ev (basis v r n)).
  Proof.
    case: n => [[i|[e k]]|t] Hn.
    - exact: inS_vertex.
    - by case/andP: Hn => He Hk; exact: inS_emod.
    - apply: (inS_ext (f := ibf v r t)); first by move=> P HP; rewrite /ev /= (imod_some convex).
      apply: inS_poly. exact: isP_ibf.
  Qed.

  (** ** Counting *)
  Definition label : eqType := [eqType of (nat * nat) + bool].
  Definition monomials (m : nat) : seq (nat * nat) := [seq (i, j) | i <- iota 0 m.+1, j <- iota 0 (m.+1 - i)].
  Local Arguments monomials m : simpl never.
  Definition labels : seq label := map inl (monomials r) ++ [:: inr true; inr false].
  Definition gen (l : label) P : F :=
    match l with inl ij => P.1 ^+ ij.1 * P.2 ^+ ij.2 | inr true => sH P | inr false => sV P end.

  Lemma size_monomials m : (2 * size (monomials m) = m.+1 * m.+2)%N.
  Proof.
    rewrite /monomials size_allpairs_dep. under eq_map do rewrite size_iota. elim: m => [//|m IH].
    have -> : iota 0 m.+2 = 0%N :: map (addn 1) (iota 0 m.+1) by rewrite -iotaDl.
    rewrite map_cons -map_comp. have -> : map ((fun i => m.+2 - i)%N \o addn 1) (iota 0 m.+1) = map (fun i => m.+1 - i)%N (iota 0 m.+1) by apply: eq_map => i /=; lia.
    move: IH. set x := sumn _. rewrite -[sumn (_ :: _)]/(m.+2 - 0 + x)%N. nia.
  Qed.
  Lemma size_lat : (4 <= r)%N -> (2 * size lat = (r - 3) * (r - 2))%N.
  Proof.
    move=> r4. have -> : lat = triples r by rewrite /SerendipityInner.lat ltnNge r4.
    rewrite /triples (size_allpairs_dep (fun n k => (r - 4 - n, n - k, k)%N)). under eq_map do rewrite size_iota.
    have -> : (r - 3 = (r - 4).+1)%N by lia. have -> : (r - 2 = (r - 4).+2)%N by lia.
    elim: (r - 4)%N => [//|n IH]. rewrite -[n.+2]addn1 iotaD map_cat sumn_cat mulnDr IH addn1 /=. nia.
  Qed.
  Lemma size_labels : size labels = size (names r).
  Proof.
    rewrite /labels /names [iota 0 4]/=. cbn [map flatten foldr]. rewrite !size_cat !size_map !size_iota. cbn [size].
    have := size_monomials r. have [r4|r4] := leqP 4 r; first by have := size_lat r4; nia.
    have -> : r = 3%N by lia. rewrite /SerendipityInner.lat /=. lia.
  Qed.

  Lemma spanned f : inS f -> exists a : label -> F, forall P, placed v s P -> f P = \sum_(l <- labels) a l * gen l P.
  Proof.
    move=> [q [a [b [Hq H]]]]. have [c Hc] := isP_polynomial Hq.
    exists (fun l => match l with inl ij => c ij.1 ij.2 | inr true => a | inr false => b end) => P HP.
    have E : polynomial r c P = \sum_(ij <- monomials r) c ij.1 ij.2 * (P.1 ^+ ij.1 * P.2 ^+ ij.2).
      rewrite /polynomial /monomials big_allpairs_dep.
      have sumI n (g : nat -> F) : \sum_(j <- iota 0 n) g j = \sum_(j < n) g j by rewrite -[in LHS](subn0 n) -/(index_iota 0 n) big_mkord.
      rewrite sumI. apply: eq_bigr => i _. rewrite sumI. apply: eq_bigr => j _ /=. by rewrite mulrA.
    rewrite H // Hc E /labels. move: (monomials r) => ms. rewrite big_cat big_map !big_cons big_nil /gen. by rewrite /= addr0 addrA.
  Qed.

  Lemma reproduces c P : placed v s P -> interpolant (dsr_sym O sv r) (nodes v r) (polynomial r c) P = Some (polynomial r c P).
  Proof.
    move=> HP. have r2 := r_ge2. have Hreg := regular.
    rewrite dsr_symE nodesE (@interpolant_in _ _ _ _ _ _ _ (fun n => ev (basis v r n) P)); last first.
      move=> n Hn. apply: (basis_defined convex) => //. exact: good_names Hn.
    congr Some.
    have R l : l \in labels -> \sum_(n <- names r) gen l (place v r n) * ev (basis v r n) P = gen l P.
      move=> Hl. apply: (@dual_span F _ (placed v s) _ _ (names r) labels (fun n => ev (basis v r n)) (place v r) gen) => //.
      - exact: size_labels.
      - exact: uniq_names.
      - by move=> n Hn; exact: (good_placed convex r2 (good_names r2 Hn)).
      - by move=> n Hn; exact: spanned (inS_basis (good_names r2 Hn)).
      - by move=> n m Hn Hm; rewrite /ev (basis_nodal convex r2 Hreg (good_names r2 Hn) (good_names r2 Hm)).
    rewrite /polynomial. under eq_bigr do rewrite mulr_suml. rewrite exchange_big /=. apply: eq_bigr => i _.
    under eq_bigr do rewrite mulr_suml. rewrite exchange_big /=. apply: eq_bigr => j _.
    have Hl : inl (i : nat, j : nat) \in labels.
      rewrite /labels mem_cat map_f //. apply/allpairsPdep. exists (nat_of_ord i), (nat_of_ord j). rewrite !mem_iota. by case: i j => i Hi [j Hj]; split.
    rewrite -mulrA -[P.1 ^+ i * _]/(gen (inl (i : nat, j : nat)) P) -(R _ Hl) mulr_sumr. apply: eq_bigr => n _ /=. by rewrite !mulrA.
  Qed.
End Parallelogram.
