(** Fields with the same coefficients on a common facet. *)
From Coq Require Import String.
From mathcomp Require Import all_ssreflect all_algebra ring.
From SsrMultinomials Require Import mpoly.
From Verif Require Import Model.Prelude Model.Gem Model.Cell Model.Element Model.Piola Model.Zany Model.PiolaElements.
From Verif Require Import Spec.Algebra Spec.Polynomials Spec.EntityDofs Spec.PiolaElements Spec.PiolaConformity.
From Verif Require Import Proofs.Determinant Proofs.PiolaFacts Proofs.Polynomials Proofs.PiolaFields Proofs.PiolaMatrices Proofs.PiolaVectors.
Set Implicit Arguments.
Unset Strict Implicit.
Unset Printing Implicit Defensive.
Import GRing.Theory Num.Theory.
Local Open Scope ring_scope.

Section Frame.
Variables (F : realFieldType) (m : nat).
Local Notation n := m.+1.
Implicit Types (X : facet F m) (w : 'cV[F]_n).

Definition ftangents X : 'M[F]_(n, m) := \matrix_(j < n, k < m) ftangent X k j 0.

Lemma det_frame (T : 'M[F]_(n, m)) w :
  \det (row_mx w T : 'M_n) = \sum_i w i 0 * cofactor (row_mx (0 : 'cV[F]_n) T : 'M_n) i 0.
Proof.
rewrite (expand_det_col _ 0); apply: eq_bigr => i _; rewrite frame0; congr (_ * (_ * \det _)).
by apply/matrixP => r k; rewrite [LHS]mxE [RHS]mxE [LHS]mxE [RHS]mxE !frameS.
Qed.
Lemma det_normal X w : \det (row_mx w (ftangents X) : 'M_n) = inner (fnormal X) w.
Proof.
rewrite innerE det_frame; apply: eq_bigr => i _; rewrite [fnormal X i 0]mxE det_frame mulrC; congr (_ * _).
rewrite (bigD1 i) //= big1 ?addr0 => [|k hk]; rewrite mxE ?eqxx ?mul1r //=.
by rewrite (negbTE hk) mul0r.
Qed.
Lemma inner_self w : w != 0 -> inner w w != 0.
Proof.
move=> h; apply/eqP; rewrite innerE => e; move/eqP: h; apply; apply/colP => i; rewrite mxE.
have e' : \sum_i w i 0 ^+ 2 = 0 by rewrite -[RHS]e; apply: eq_bigr => j _; rewrite expr2.
have h : w i 0 ^+ 2 = 0 by apply: (psumr_eq0P _ e') => // j _; exact: sqr_ge0.
by apply/eqP; rewrite -sqrf_eq0 h.
Qed.

Lemma frame_zero X w : fnormal X != 0 -> inner (fnormal X) w = 0 ->
  (forall k, (k < m)%N -> inner (ftangent X k) w = 0) -> w = 0.
Proof.
move=> hX h0 hk; pose A : 'M[F]_n := row_mx (fnormal X) (ftangents X).
have hA : A \in unitmx by rewrite unitmxE unitfE /A det_normal inner_self.
have e : w^T *m A = 0.
  have -> : w^T *m A = (row_mx (w^T *m fnormal X) (w^T *m ftangents X) : 'rV_n) by exact: (mul_mx_row w^T (fnormal X) (ftangents X)).
  have -> : w^T *m fnormal X = 0.
    apply/matrixP => i j; rewrite !ord1 [RHS]mxE -h0 innerE mxE; apply: eq_bigr => k _; by rewrite mxE mulrC.
  have -> : w^T *m ftangents X = 0; last exact: (@row_mx0 F 1 1 m).
  apply/matrixP => i j; rewrite ord1 [RHS]mxE -(hk j (ltn_ord j)) innerE mxE; apply: eq_bigr => k _; by rewrite !mxE mulrC.
by apply: trmx_inj; rewrite -[LHS](mulmxK hA) e mul0mx trmx0.
Qed.

Lemma moved_normal X J b : \det J != 0 -> fnormal X != 0 -> fnormal (fun k => image (affine J b) (X k)) != 0.
Proof.
move=> hJ hX; apply/eqP => e; have := inner_self hX; rewrite -det_normal => hd.
have : \det (J *m (row_mx (fnormal X) (ftangents X) : 'M_n)) != 0 by rewrite det_mulmx mulf_neq0.
have -> : J *m (row_mx (fnormal X) (ftangents X) : 'M_n) =
    (row_mx (J *m fnormal X) (ftangents (fun k => image (affine J b) (X k))) : 'M_n).
  have <- : J *m ftangents X = ftangents (fun k => image (affine J b) (X k)).
    apply/matrixP => i k; rewrite [RHS]mxE moved_tangent !mxE; by apply: eq_bigr => j _; rewrite !mxE.
  exact: (mul_mx_row J (fnormal X) (ftangents X)).
by rewrite det_normal e innerE big1 ?eqxx // => i _; rewrite mxE mul0r.
Qed.

(** ** Facets with the same vertices *)
Lemma same_tangent X X' k : same_facet X X' -> (k < m)%N -> ftangent X k = ftangent X' k.
Proof. by move=> h hk; apply/colP => i; rewrite !mxE !h. Qed.
Lemma same_normal X X' : same_facet X X' -> fnormal X = fnormal X'.
Proof.
move=> h; have e : ftangents X = ftangents X' by apply/matrixP => j k; rewrite !mxE !(h _ _ _) // ltnW.
by apply/colP => i; rewrite [LHS]mxE [RHS]mxE -/(ftangents X) -/(ftangents X') e.
Qed.
Lemma same_chart X X' f : same_facet X X' -> chart X f = chart X' f.
Proof.
move=> h; rewrite /chart; congr comp_mpoly; apply: eq_from_tnth => i; rewrite !tnth_mktuple h //.
by congr (_ + _); apply: eq_bigr => k _; rewrite (same_tangent h).
Qed.

Lemma chart_point X f y : (chart X f).@[y] = f.@[facet_point X y].
Proof.
rewrite /chart comp_mpoly_meval; apply: meval_eq => i.
rewrite tnth_mktuple mevalD mevalC raddf_sum /=; congr (_ + _).
by apply: eq_bigr => k _; rewrite mevalZ mevalXU mulrC.
Qed.

(** ** Degrees *)
Lemma size_sum_le (k N d : nat) (f : 'I_N -> {mpoly F[k]}) (a : 'I_N -> F) : (forall i, (msize (f i) <= d)%N) ->
  (msize (\sum_(i < N) a i *: f i)%R <= d)%N.
Proof.
move=> h; elim/big_ind: _ => [|p q hp hq|i _]; first by rewrite msize0.
- by apply: (leq_trans (msizeD_le _ _)); rewrite geq_max hp hq.
- by apply: (leq_trans (mmeasureZ_le _ _ _)).
Qed.
Lemma size_diff (k d : nat) (f g : {mpoly F[k]}) : (msize f <= d)%N -> (msize g <= d)%N -> (msize (f - g)%R <= d)%N.
Proof. by move=> hf hg; apply: (leq_trans (msizeD_le _ _)); rewrite geq_max hf msizeN hg. Qed.

Lemma size_affine k (c0 : F) (t : 'I_k -> F) : (msize (c0%:MP + \sum_(i < k) t i *: 'X_i : {mpoly F[k]})%R <= 2)%N.
Proof.
apply: (leq_trans (msizeD_le _ _)); rewrite geq_max msizeC; apply/andP; split; first by case: eqP.
by apply: (size_sum_le t) => i; rewrite msizeX mdeg1.
Qed.
Lemma size_product (k : nat) (f g : {mpoly F[k]}) a b : (msize f <= a.+1)%N -> (msize g <= b.+1)%N -> (msize (f * g)%R <= (a + b).+1)%N.
Proof.
case: (eqVneq f 0) => [-> *|hf]; first by rewrite mul0r msize0.
case: (eqVneq g 0) => [-> *|hg]; first by rewrite mulr0 msize0.
move=> h1 h2; rewrite msizeM //; have := leq_add h1 h2; rewrite addSn addnS => h.
by rewrite -subn1 leq_subLR add1n.
Qed.
Lemma size_power (k : nat) (f : {mpoly F[k]}) e : (msize f <= 2)%N -> (msize (f ^+ e) <= e.+1)%N.
Proof.
move=> hf; elim: e => [|e IH]; first by rewrite expr0 msize1.
by rewrite exprS -[e.+1]add1n; apply: size_product.
Qed.
Lemma chart_size X f : (msize (chart X f) <= msize f)%N.
Proof.
rewrite /chart comp_mpolyE big_seq; elim/big_ind: _ => [|p q hp hq|mm hm]; first by rewrite msize0.
- by apply: (leq_trans (msizeD_le _ _)); rewrite geq_max hp hq.
apply: (leq_trans (mmeasureZ_le _ _ _)); apply: leq_trans (msize_mdeg_lt hm); rewrite -/(msize _) mdegE.
elim/big_rec2: _ => [|i e p _ hp]; first by rewrite msize1.
by rewrite addnC mulrC; apply: size_product => //; apply: size_power; rewrite tnth_mktuple; exact: size_affine.
Qed.
End Frame.

(** ** Matrix fields *)
Section Matrices.
Variables (F : realFieldType) (m : nat).
Local Notation n := m.+1.
Variables (c : scell (F := F)) (N ndof d : nat) (sense : nat -> mnode F m).
Hypothesis hcell : fiat_cell m c.
Hypothesis hN : (ndof <= N)%N.
Hypothesis hlin : forall i, (i < N)%N -> mlinear (sense i).
Implicit Types (K : pcell F m (mfield F m)) (M : array (F := F)) (a : nat -> F).
Local Notation phys K := (mdof (physical_place (pmatrix K) (porigin K) (@cell_facet F m c) (cell_size (pgeo K)) (mpreimage (pmatrix K) (porigin K)))).
Local Notation transformed K M := (transforms_matrices c (pgeo K) (pmatrix K) (porigin K) N ndof sense M).

Lemma mfield_dof K M a i : mbased c N d sense K -> transformed K M -> (i < N)%N ->
  phys K (sense i) (mfield_of N ndof M K a) = if (i < ndof)%N then a i else 0.
Proof.
move=> [hp [hsym [_ hnod]]] [_ [_ [_ hM]]] hi; rewrite /mfield_of mphys_linear; last exact: hlin.
have e (l : 'I_ndof) : phys K (sense i) (mcombination N (n_at M l) (pfuns K)) = (i == l)%:R by apply: hM.
under eq_bigr => l _ do rewrite e.
case: ltnP => h; last by rewrite big1 // => l _; case: eqP => [ei|_]; rewrite ?mulr0 // ; move: h; rewrite ei leqNgt ltn_ord.
rewrite (bigD1 (Ordinal h)) //= eqxx mulr1 big1 ?addr0 // => l hl.
by case: eqP => [ei|_]; rewrite ?mulr0 //; move/eqP: hl; case; apply: val_inj.
Qed.
Lemma mfield_sym K M a : mbased c N d sense K -> symmetric (mfield_of N ndof M K a).
Proof.
move=> [_ [hsym _]] p i k; apply: eq_bigr => l _; congr (_ *: _); apply: eq_bigr => j _; by rewrite hsym.
Qed.
Lemma mfield_size K M a p i k : mbased c N d sense K -> (msize (mfield_of N ndof M K a p i k) <= d.+1)%N.
Proof.
move=> [_ [_ [hd _]]]; apply: (size_sum_le (fun l : 'I_ndof => a l)) => l.
by apply: (size_sum_le (fun j : 'I_N => n_at M l j)) => j; exact: hd.
Qed.

(** The facets' functionals, [L] for each component, from dof [s] on. *)
Variables (s L : nat) (pf : nat -> nat) (lam : nat -> nat -> on_facet F m).
Hypothesis hs : forall f r, (f < n.+1)%N -> (r < n * L)%N -> sense (s + (f * (n * L) + r))%N = mfacet_node pf lam f r.
Hypothesis hsN : (s + n.+1 * (n * L) <= ndof)%N.
Variables (K K' : pcell F m (mfield F m)) (M M' : array (F := F)) (a a' : nat -> F) (f f' : nat).
Hypothesis hK : mbased c N d sense K.
Hypothesis hK' : mbased c N d sense K'.
Hypothesis hM : transformed K M.
Hypothesis hM' : transformed K' M'.
Hypothesis hf : (f < n.+1)%N.
Hypothesis hf' : (f' < n.+1)%N.
Hypothesis hlam : forall k q, (k < L)%N -> lam f k q = lam f' k q.
Hypothesis hmeet : same_facet (pfacet c K f) (pfacet c K' f').
Hypothesis ha : same_from a (s + f * (n * L)) a' (s + f' * (n * L)) (n * L).
Let S := mfield_of N ndof M K a.
Let S' := mfield_of N ndof M' K' a'.
Let X := pfacet c K f.

Lemma block_index g r : (g < n.+1)%N -> (r < n * L)%N -> (s + (g * (n * L) + r) < ndof)%N.
Proof.
move=> hg hr; apply: leq_trans hsN; rewrite ltn_add2l; apply: (@leq_trans (g.+1 * (n * L))); last by rewrite leq_mul2r hg orbT.
by rewrite mulSn addnC ltn_add2r.
Qed.
Lemma normalX : fnormal X != 0.
Proof. by have [hp _] := hK; have [_ [_ [h _]]] := hcell; apply: moved_normal; [case: hp|exact: h]. Qed.

Lemma dofs_agree r : (r < n * L)%N ->
  phys K (mfacet_node pf lam f r) S = phys K' (mfacet_node pf lam f' r) S'.
Proof.
move=> hr; have h1 := block_index hf hr; have h2 := block_index hf' hr.
rewrite -!hs // /S /S' !mfield_dof //; try by apply: leq_trans hN.
by rewrite h1 h2 !addnA; exact: ha.
Qed.

Lemma linear_at g k : (g < n.+1)%N -> (k < L)%N -> is_linear (lam g k).
Proof.
move=> hg hk; have hr : (k * n < n * L)%N by rewrite mulnC ltn_mul2l hk.
have := hlin (leq_trans (block_index hg hr) hN); rewrite hs // /mfacet_node /facet_node modnMl /= mulnK //.
Qed.

(** The dofs in terms of inner products. *)
Lemma moments k : (k < L)%N -> traction_moment X (lam f k) S S' (pf f) (pf f').
Proof.
move=> hk; have hl := linear_at hf hk; have hl' := linear_at hf' hk.
have eN : fnormal (pfacet c K' f') = fnormal X by rewrite -(same_normal hmeet).
have ec q : chart (pfacet c K' f') q = chart X q by rewrite -(same_chart _ hmeet).
have value g T : lam f' k (chart X g) = T -> lam f k (chart X g) = T by move=> <-; exact: hlam.
have frame r (t : 'cV[F]_n) : (r < n * L)%N ->
   phys K (mfacet_node pf lam f r) S = lam f k (chart X (\sum_i \sum_j (t i 0 * fnormal X j 0) *: S (pf f) i j)) ->
   phys K' (mfacet_node pf lam f' r) S' = lam f' k (chart (pfacet c K' f') (\sum_i \sum_j (t i 0 * fnormal (pfacet c K' f') j 0) *: S' (pf f') i j)) ->
   inner t (mmat (lam f k) X (S (pf f)) *m fnormal X - mmat (lam f k) X (S' (pf f')) *m fnormal X) = 0.
  move=> hr h1 h2; have := dofs_agree hr; rewrite h1 h2 eN ec -hlam // !mfunctional //.
  by move=> e; rewrite /inner mulmxBr [X in X = _]mxE [X in _ + X]mxE -!/(inner _ _) e subrr.
have z : mmat (lam f k) X (S (pf f)) *m fnormal X - mmat (lam f k) X (S' (pf f')) *m fnormal X = 0.
  apply: (frame_zero normalX) => [|l hl0].
  - have hr : (k * n < n * L)%N by rewrite mulnC ltn_mul2l hk.
    apply: (frame _ _ hr); rewrite /mfacet_node /facet_node modnMl eqxx mulnK //.
    by rewrite -[in t in _ = t]eN.
  - have hr : (k * n + l.+1 < n * L)%N.
      apply: (@leq_trans (k.+1 * n)); last by rewrite mulnC leq_mul2l hk orbT.
      by rewrite mulSn addnC ltn_add2r.
    have em : ((k * n + l.+1) %% n = l.+1)%N by rewrite modnMDl modn_small.
    have ed : ((k * n + l.+1) %/ n = k)%N by rewrite divnMDl // divn_small // addn0.
    by apply: (frame _ _ hr); rewrite /mfacet_node /facet_node em ed //= (same_tangent hmeet).
move=> i; move/eqP: z; rewrite subr_eq0 => /eqP z.
have expand T : lam f k (chart X (\sum_j fnormal X j 0 *: T i j)) = (mmat (lam f k) X T *m fnormal X) i 0.
  rewrite chart_sum lin_sum // mxE; apply: eq_bigr => j _; by rewrite chartZ linZ // mmatE mulrC.
by rewrite !expand z.
Qed.

Let D i := chart X (\sum_j fnormal X j 0 *: S (pf f) i j) - chart X (\sum_j fnormal X j 0 *: S' (pf f') i j).
Lemma D_size i : (msize (D i) <= d.+1)%N.
Proof.
apply: size_diff; apply: (leq_trans (chart_size _ _)); apply: (size_sum_le (fun j => fnormal X j 0)) => j; exact: mfield_size.
Qed.
Lemma D_moment i k : (k < L)%N -> lam f k (D i) = 0.
Proof. by move=> hk; rewrite /D -scaleN1r addrC (linear_at hf hk) mulN1r (moments hk i) addNr. Qed.
Lemma traction_from : (forall i, D i = 0) -> traction_continuous X S S' (pf f) (pf f').
Proof.
move=> h y; apply/colP => i; have := congr1 (fun q => q.@[y]) (h i); rewrite mevalB meval0 => /eqP; rewrite subr_eq0 => /eqP.
rewrite !chart_point !raddf_sum /= => e; rewrite !mxE.
under eq_bigr => j _ do rewrite mxE mulrC -mevalZ.
under [RHS]eq_bigr => j _ do rewrite mxE mulrC -mevalZ.
exact: e.
Qed.
Lemma tractions : determine d L (lam f) -> traction_continuous X S S' (pf f) (pf f').
Proof. by move=> h; apply: traction_from => i; apply: h; [exact: D_size|exact: D_moment]. Qed.
Lemma D_value i y : (forall j, (S (pf f) i j).@[facet_point X y] = (S' (pf f') i j).@[facet_point X y]) -> (D i).@[y] = 0.
Proof.
move=> h; rewrite /D mevalB !chart_point; apply/eqP; rewrite subr_eq0; apply/eqP; rewrite !raddf_sum.
by apply: eq_bigr => j _; rewrite /= !mevalZ h.
Qed.
End Matrices.
