(** Functions on two triangles that share an edge: when the degrees of freedom
    on the edge are the same, so are the functions and their gradients. *)
From mathcomp Require Import all_ssreflect all_algebra ring.
From SsrMultinomials Require Import mpoly.
From Verif Require Import Model.Gem Model.Piola Model.Zany Spec.Algebra Spec.Polynomials Spec.Zany Spec.Conformity.
From Verif Require Import Proofs.PiolaFacts Proofs.Polynomials Proofs.Integrals Proofs.ZanySums Proofs.VertexTransform Proofs.EdgeGeometry Proofs.EdgeRows Proofs.ZanyElements Proofs.ZanyNodal Proofs.EdgeUnisolvence.
From mathcomp Require Import zify.
Set Implicit Arguments.
Unset Strict Implicit.
Unset Printing Implicit Defensive.
Import GRing.Theory Num.Theory.
Local Open Scope ring_scope.

(** ** One polynomial on a line *)
Section Core.
Variable F : realFieldType.
Implicit Types (d : {mpoly F[2]}) (x y t n : point F 2).

Definition zero_jets d (nj : nat) y : Prop := forall k, (k < nj)%N -> jet d y k = 0.

Lemma first_zero d nj y i : (3 <= nj)%N -> zero_jets d nj y -> d^`M(i).@[y] = 0.
Proof. by move=> hn h; rewrite -jet1 h //; apply: leq_trans hn; rewrite ltnS; exact: ltn_ord. Qed.

Lemma second_zero d y i j : zero_jets d 6 y -> d^`M(i)^`M(j).@[y] = 0.
Proof.
move=> h.
have hj p : (p < 3)%N -> d^`M((nth (0, 0) (pairs 2) p).1)^`M((nth (0, 0) (pairs 2) p).2).@[y] = 0.
  by move=> hp; rewrite -(jet2 _ _ (0, 0)) ?pairs2 // h // addnC -[6%N]/(3 + 3)%N ltn_add2r.
have h00 := hj 0%N isT; have h01 := hj 1%N isT; have h11 := hj 2%N isT; move: h00 h01 h11; rewrite pairs2 /= => h00 h01 h11.
case: (ord2 i) => ->; case: (ord2 j) => -> //.
by rewrite mderiv_comm.
Qed.

Lemma along_at d v y : (along d v).@[y] = \sum_i v i * d^`M(i).@[y].
Proof. by rewrite /along (big_morph _ (mevalD _) (meval0 _)); apply: eq_bigr => i _; rewrite mevalZ. Qed.

Lemma along_zero d nj v y : (3 <= nj)%N -> zero_jets d nj y -> (along d v).@[y] = 0.
Proof. by move=> hn h; rewrite along_at big1 // => i _; rewrite (first_zero i hn h) mulr0. Qed.

Lemma along2_zero d v w y : zero_jets d 6 y -> (along (along d v) w).@[y] = 0.
Proof.
move=> h; rewrite along_at big1 // => i _.
rewrite /along (big_morph _ (mderivD i) (mderiv0 _ i)) (big_morph _ (mevalD _) (meval0 _)) big1 ?mulr0 // => j _.
by rewrite mderivZ mevalZ second_zero // mulr0.
Qed.

Section Line.
Variables (d : {mpoly F[2]}) (x t : point F 2) (s : F) (y : point F 2).
Hypothesis hy : forall i, x i + s * t i = y i.

Lemma trace_vanishes1 : zero_jets d 1 y -> vanishes 1 (line d x t) s.
Proof. by move=> h; case=> // _; rewrite derivn0 line_eval (meval_eq _ hy) -jet0 h. Qed.

Lemma trace_vanishes2 : zero_jets d 3 y -> vanishes 2 (line d x t) s.
Proof.
move=> h; case=> [|[|k]] // _; first by rewrite derivn0 line_eval (meval_eq _ hy) -jet0 h.
by rewrite derivn1 line_deriv line_eval (meval_eq _ hy) (along_zero _ _ h).
Qed.

Lemma trace_vanishes3 : zero_jets d 6 y -> vanishes 3 (line d x t) s.
Proof.
move=> h; case=> [|[|[|k]]] // _; first by rewrite derivn0 line_eval (meval_eq _ hy) -jet0 h.
  by rewrite derivn1 line_deriv line_eval (meval_eq _ hy) (along_zero _ _ h).
by rewrite derivnS derivn1 !line_deriv line_eval (meval_eq _ hy) along2_zero.
Qed.

Lemma flux_vanishes1 n : zero_jets d 3 y -> vanishes 1 (line (along d n) x t) s.
Proof. by move=> h; case=> // _; rewrite derivn0 line_eval (meval_eq _ hy) (along_zero _ _ h). Qed.

Lemma flux_vanishes2 n : zero_jets d 6 y -> vanishes 2 (line (along d n) x t) s.
Proof.
move=> h; case=> [|[|k]] // _; first by rewrite derivn0 line_eval (meval_eq _ hy) (along_zero _ _ h).
by rewrite derivn1 line_deriv line_eval (meval_eq _ hy) along2_zero.
Qed.
End Line.

Lemma along_size d n k : (msize d <= k.+1)%N -> (msize (along d n) <= k)%N.
Proof.
move=> h; rewrite /along; apply: (leq_trans (mmeasure_sum _ _ _ _)); apply/bigmax_leqP => i _.
apply: (leq_trans (mmeasureZ_le _ _ _)); rewrite -/(msize _) msizeE; apply/bigmax_leqP_seq => m hm _.
have hd : (m + U_(i))%MM \in msupp d.
  by move: hm; rewrite !mcoeff_msupp mcoeff_deriv; apply: contraNN => /eqP ->; rewrite mul0rn.
have := leq_trans (msize_mdeg_lt hd) h; by rewrite mdegD mdeg1 addn1 ltnS.
Qed.

(** Derivatives along an edge and across it give the gradient. *)
Lemma gradient_zero d x t n (c : F) : c != 0 -> square t != 0 -> (forall i, n i = clockwise t i / c) ->
  line d x t = 0 -> line (along d n) x t = 0 -> forall i, line d^`M(i) x t = 0.
Proof.
move=> hc ht hn h1 h2 i.
have h3 : line (along d t) x t = 0 by rewrite -line_deriv h1 linear0.
have e3 : t 0 *: line d^`M(0) x t + t 1 *: line d^`M(1) x t = 0.
  by rewrite -h3 /along sum2 lineD !lineZ.
have e2 : t 1 *: line d^`M(0) x t - t 0 *: line d^`M(1) x t = 0.
  move: h2; rewrite (along_ext _ hn) /along sum2 lineD !lineZ /clockwise /= => e.
  have := congr1 (fun p => c *: p) e; rewrite scaler0 scalerDr !scalerA => <-.
  by congr (_ + _); rewrite -?scaleNr; congr (_ *: _); field.
have : square t *: line d^`M(i) x t = 0.
  case: (ord2 i) => ->.
    transitivity (t 0 *: (t 0 *: line d^`M(0) x t + t 1 *: line d^`M(1) x t) + t 1 *: (t 1 *: line d^`M(0) x t - t 0 *: line d^`M(1) x t)); last by rewrite e3 e2 !scaler0 addr0.
    rewrite -!mul_polyC /square !polyCD !polyCM; ring.
  transitivity (t 1 *: (t 0 *: line d^`M(0) x t + t 1 *: line d^`M(1) x t) - t 0 *: (t 1 *: line d^`M(0) x t - t 0 *: line d^`M(1) x t)); last by rewrite e3 e2 !scaler0 subr0.
  rewrite -!mul_polyC /square !polyCD !polyCM; ring.
by move/eqP; rewrite scaler_eq0 (negbTE ht) => /eqP.
Qed.
End Core.

(** ** Linearity *)
Section Sub.
Variable F : realFieldType.
Implicit Types (f g : {mpoly F[2]}) (x t : point F 2).

Lemma line_sub f g x t : line (f - g) x t = line f x t - line g x t.
Proof. by rewrite -scaleN1r lineD lineZ scaleN1r. Qed.
Lemma along_sub f g t : along (f - g) t = along f t - along g t.
Proof. by rewrite /along -sumrB; apply: eq_bigr => i _; rewrite mderivB scalerBr. Qed.
Lemma jet_sub f g x k : jet (f - g) x k = jet f x k - jet g x k.
Proof.
pose p (j : nat) := if j is 0%N then f else g.
pose a (j : nat) : F := if j is 0%N then 1 else -1.
have -> : f - g = \sum_(j < 2) a j *: p j by rewrite sum2 /a /p /= scale1r scaleN1r.
by rewrite jet_comb sum2 /a /p /= mul1r mulN1r.
Qed.

Lemma smooth_comb (T : shape F) N a (phi : nat -> pieces F) nj :
  (forall j, (j < N)%N -> smooth T (phi j) nj) -> smooth T (combination N a phi) nj.
Proof.
move=> h e v k he hv hev hk.
rewrite /combination (jet_comb _ _ (fun j => phi j e)) (jet_comb _ _ (fun j => phi j (edge_at v))).
by apply: eq_bigr => j _; rewrite (h j (ltn_ord j) e v k).
Qed.

Lemma size_comb N a (phi : nat -> pieces F) e d : (forall j, (j < N)%N -> (msize (phi j e) <= d)%N) ->
  (msize (combination N a phi e) <= d)%N.
Proof.
move=> h; apply: (leq_trans (mmeasure_sum _ _ _ _)); apply/bigmax_leqP => j _.
by apply: (leq_trans (mmeasureZ_le _ _ _)); apply: h.
Qed.

Lemma size_sub f g d : (msize f <= d)%N -> (msize g <= d)%N -> (msize (f - g) <= d)%N.
Proof. by move=> hf hg; apply: (leq_trans (msizeD_le _ _)); rewrite geq_max hf msizeN hg. Qed.

Lemma weight_pos (h : F) k : 0 < h -> weight h k != 0.
Proof. by move=> hh; rewrite /weight; case: ifP => _; [exact: oner_neq0|case: ifP => _; rewrite ?mulf_neq0 // lt0r_neq0]. Qed.

Lemma field_dof N (dof : pieces F -> F) (psi : nat -> pieces F) a i : linear_dof dof -> (i < N)%N ->
  (forall j, (j < N)%N -> dof (psi j) = (i == j)%:R) -> dof (combination N a psi) = a i.
Proof.
move=> hl hi h; rewrite hl (bigD1 (Ordinal hi)) //= h // eqxx mulr1 big1 ?addr0 // => j hj.
rewrite h // eq_sym; case: eqP => [e|_]; last by rewrite mulr0.
by case/eqP: hj; apply: val_inj.
Qed.
End Sub.

(** ** Two triangles *)
Section Pair.
Variable F : realFieldType.
Variables (c : simplex (F := F)) (w : geometry (F := F) -> nat -> F) (K K' : cell F).
Local Notation T := (shape_of c w K).
Local Notation T' := (shape_of c w K').
Hypothesis hK : provides (geo K) c (matrix K) (origin K).
Hypothesis hK' : provides (geo K') c (matrix K') (origin K').
Variables e e' : nat.
Hypothesis he : (e < 3)%N.
Hypothesis he' : (e' < 3)%N.
Hypothesis hm : meet T e T' e'.
Local Notation x := (corner T (first e)).
Local Notation y := (corner T (second e)).
Local Notation t := (tangent T e).
Local Notation n := (normal T e).
Local Notation L := (physical_edge_lengths (geo K) e).

Lemma tangents_eq i : t i = tangent T' e' i.
Proof. by case: hm => h1 [h2 _]; rewrite /tangent h1 h2. Qed.

Lemma lengths_eq : L = physical_edge_lengths (geo K') e'.
Proof.
have h1 := length_pos hK he; have h2 := length_pos hK' he'.
have E : L ^+ 2 = physical_edge_lengths (geo K') e' ^+ 2.
  rewrite (length_sq hK (w (geo K)) he) (length_sq hK' (w (geo K')) he').
  by rewrite -!/(map_of _) -!/(shape_of c w _) !tangents_eq.
have : (L - physical_edge_lengths (geo K') e') * (L + physical_edge_lengths (geo K') e') = 0.
  by rewrite -subr_sqr E subrr.
move/eqP; rewrite mulf_eq0 subr_eq0 => /orP [/eqP //|].
by rewrite (negbTE (lt0r_neq0 (addr_gt0 h1 h2))).
Qed.

Lemma normals_eq i : n i = normal T' e' i.
Proof.
have E (S : shape F) (s : cell F) f j : S = shape_of c w s -> normal S f j = clockwise (tangent S f) j / physical_edge_lengths (geo s) f by move=> ->.
rewrite (E _ K) // (E _ K') // lengths_eq /clockwise; by case: ifP => _; rewrite tangents_eq.
Qed.

Variables u u' : pieces F.
Local Notation d := (u e - u' e').

Lemma trace_diff : trace T u e - trace T' u' e' = line d x t.
Proof.
rewrite line_sub; congr (_ - _); apply: line_ext => i; last by rewrite tangents_eq.
by case: hm => ->.
Qed.

Lemma flux_diff : flux T u e - flux T' u' e' = line (along d n) x t.
Proof.
rewrite along_sub line_sub; congr (_ - _).
rewrite /flux (along_ext _ normals_eq); apply: line_ext => i; last by rewrite tangents_eq.
by case: hm => ->.
Qed.

Lemma continuous_from : line d x t = 0 -> continuous_across T e (u e) (u' e').
Proof.
move=> h s; apply/eqP; rewrite -subr_eq0 -mevalB.
by have := line_eval d x t s; rewrite h horner0 => <-.
Qed.

Lemma smooth_from : line d x t = 0 -> line (along d n) x t = 0 -> smooth_across T e (u e) (u' e').
Proof.
move=> h1 h2; split; first exact: continuous_from.
have hL := length_pos hK he; have hL2 := length_sq hK (w (geo K)) he.
have hg : forall i, line d^`M(i) x t = 0.
  apply: (@gradient_zero _ d x t n L) => //; first exact: lt0r_neq0.
  rewrite /square -!expr2 -[shape_of c w K]/(physical c (map_of K) (physical_edge_lengths (geo K)) (cell_size (geo K)) (w (geo K))).
  by rewrite -[map_of K]/(affine (matrix K) (origin K)) -hL2 expf_neq0 // lt0r_neq0.
move=> i s; apply/eqP; rewrite -subr_eq0 -mevalB -mderivB.
by have := line_eval d^`M(i) x t s; rewrite hg horner0 => <-.
Qed.

Lemma at_first i : x i + 0 * t i = x i. Proof. by rewrite mul0r addr0. Qed.
Lemma at_second i : x i + 1 * t i = y i. Proof. by rewrite mul1r /tangent addrC subrK. Qed.

Variable nj : nat.
Hypothesis hs : smooth T u nj.
Hypothesis hs' : smooth T' u' nj.

Lemma jets_zero v v' : (v < 3)%N -> (v' < 3)%N -> v != e -> v' != e' -> (forall i, corner T v i = corner T' v' i) -> size_at T v = size_at T' v' ->
  (forall k, (k < nj)%N -> vertex_dof T u v k = vertex_dof T' u' v' k) -> zero_jets d nj (corner T v).
Proof.
move=> hv hv' ne ne' hx hz hd k hk; rewrite jet_sub (hs he hv ne hk) (jet_ext (u' e') _ hx) (hs' he' hv' ne' hk).
have := hd k hk; rewrite /vertex_dof -hz.
have hp : 0 < size_at T v by case: hK => _ [_ [_ [h _]]]; exact: h.
by move/(mulfI (weight_pos k hp)) => ->; rewrite subrr.
Qed.

Hypothesis hd1 : forall k, (k < nj)%N -> vertex_dof T u (first e) k = vertex_dof T' u' (first e') k.
Hypothesis hd2 : forall k, (k < nj)%N -> vertex_dof T u (second e) k = vertex_dof T' u' (second e') k.

Lemma first_jets : zero_jets d nj x.
Proof.
have [a1 a2] := first_other he; have [b1 b2] := first_other he'.
by apply: (jets_zero a1 b1) => //; case: hm => h1 [h2 [h3 h4]].
Qed.
Lemma second_jets : zero_jets d nj y.
Proof.
have [a1 a2] := second_other he; have [b1 b2] := second_other he'.
by apply: (jets_zero a1 b1) => //; case: hm => h1 [h2 [h3 h4]].
Qed.
End Pair.
