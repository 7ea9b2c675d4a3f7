(** Vertex dofs in any dimension; sizes of the sample polynomials. *)
From Coq Require Import String.
From mathcomp Require Import all_ssreflect all_algebra ring.
From SsrMultinomials Require Import mpoly.
From Verif Require Import Model.Prelude Model.Gem Model.Zany Spec.Algebra Spec.Polynomials Spec.Zany Spec.Split Spec.ZanySamples.
From Verif Require Import Proofs.Determinant Proofs.PiolaFacts Proofs.Polynomials Proofs.Integrals Proofs.ZanySums Proofs.VertexTransform Proofs.EdgeGeometry Proofs.ZanyElements Proofs.ZanyEnds Proofs.ZanyNodal2.
From mathcomp Require Import zify.
Set Implicit Arguments.
Unset Strict Implicit.
Unset Printing Implicit Defensive.
Import GRing.Theory Num.Theory.
Local Open Scope ring_scope.

Section VertexDofs.
Variable F : realFieldType.
Local Notation o := (ring_ops F).

Lemma vertex_dofs_proof n (c : simplex (F := F)) (g : geometry (F := F)) (J : 'I_n -> 'I_n -> F) (b : point F n) second N
  (f : nat -> {mpoly F[n]}) (dofs : nat -> F) :
  sx_dim c = n -> (forall i j : 'I_n, jacobian_at g (barycentre o c) i j = J i j) ->
  let vorder := (if second then 2 else 1)%N in
  let voff := (1 + n + (if second then size (pairs n) else 0))%N in
  let m := List.length (sx_vertices c) in
  (m * voff <= N)%N ->
  (forall v a, (v < m)%N -> (a < voff)%N -> dofs (v * voff + a)%N = jet (f v) (image (affine J b) (@vertex_of F n c v)) a) ->
  (forall v a, (v < m)%N -> (a < voff)%N ->
    \sum_(k < N) vertex_transform o (identity o) vorder c g (v * voff + a)%N k * dofs k =
    jet (pull (affine J b) (f v)) (@vertex_of F n c v) a) /\
  (forall i, (m * voff <= i < N)%N -> \sum_(k < N) vertex_transform o (identity o) vorder c g i k * dofs k = dofs i).
Proof.
move=> hd hJ vorder voff m hN hdofs.
have ehd : hessians vorder n = (if second then size (pairs n) else 0)%N.
  by rewrite /hessians /vorder size_pairs; case: (second).
split=> [v a hv ha|i /andP[hi hiN]].
  have := @sum_vertex_row F vorder c g N v a dofs; rewrite /= hd ehd -/voff => -> //.
  under eq_bigr => k _ do rewrite hdofs //.
  rewrite (@vblock_jet F n J b _ _ hJ) //.
  by case: (second); [right|left].
rewrite (eq_bigr (fun k : 'I_N => identity o i k * dofs k)) ?sum_identity // => k _.
congr (_ * _); have := @vertex_transformE F vorder c g i k; rewrite /= hd ehd -/voff => ->.
by rewrite ltnNge hi.
Qed.
End VertexDofs.

(** ** Elements with constraints: functions that meet them *)
Section Constrained.
Variable F : realFieldType.
Local Notation o := (ring_ops F).
Variables (c : simplex (F := F)) (g : geometry (F := F)) (J : 'I_2 -> 'I_2 -> F) (b : point F 2).
Hypothesis hc : fiat_triangle c.
Hypothesis hg : provides g c J b.
Variable weights : nat -> F.
Local Notation q := (affine J b).
Local Notation R := (reference c).
Local Notation T := (physical c q (physical_edge_lengths g) (cell_size g) weights).

Lemma bell_relation f i : smooth T f 6 -> (forall e, (e < 3)%N -> (msize (f e) <= 6)%N) -> (i < 21)%N ->
  (forall e, (e < 3)%N -> integral (flux T f e * legendre4 F) = 0) ->
  numbered 6 1 (vertex_dof R (pulled q f)) (constraint_dof R (legendre4 F) (pulled q f)) (fun _ => 0) i =
  \sum_(j < 18) bell_transformation o c g j i * vertex_dof T f (j %/ 6)%N (j %% 6)%N.
Proof.
move=> hs hd hi h0; rewrite (@bell_element F c g J b hc hg weights f i (fun _ => 0) hs hd hi).
have -> : (if (i < 18)%N then 0 else bnn c g (i - 18) * physical_edge_lengths g (i - 18)%N * integral (flux T f (i - 18)%N * legendre4 F)) = 0.
  by case: ifP => // hi'; rewrite h0 ?mulr0 //; lia.
by rewrite addr0; apply: eq_bigr => j _; congr (_ * _); rewrite /numbered ltn_ord.
Qed.

Lemma reduced_relation f i : smooth T f 3 -> (forall e, (e < 3)%N -> (msize (f e) <= 4)%N) -> (i < 12)%N ->
  (forall e, (e < 3)%N -> integral (flux T f e * legendre2 F) = 0) ->
  numbered 3 1 (vertex_dof R (pulled q f)) (constraint_dof R (legendre2 F) (pulled q f)) (fun _ => 0) i =
  \sum_(j < 9) reduced_hct_transformation o c g j i * vertex_dof T f (j %/ 3)%N (j %% 3)%N.
Proof.
move=> hs hd hi h0; rewrite (@reduced_element F c g J b hc hg weights f i (fun _ => 0) hs hd hi).
have -> : (if (i < 9)%N then 0 else bnn c g (i - 9) * physical_edge_lengths g (i - 9)%N * integral (flux T f (i - 9)%N * legendre2 F)) = 0.
  by case: ifP => // hi'; rewrite h0 ?mulr0 //; lia.
by rewrite addr0; apply: eq_bigr => j _; congr (_ * _); rewrite /numbered ltn_ord.
Qed.
End Constrained.

Lemma argyris_variants degree :
  argyris_init degree None = Ok "integral"%string /\
  (forall s, s <> "point"%string -> argyris_init degree (Some s) = Ok s) /\
  argyris_init 5 (Some "point"%string) = Ok "point"%string /\
  (degree <> 5%N -> argyris_init degree (Some "point"%string) = Err NotImplementedError).
Proof.
rewrite /argyris_init /=; do ?split=> //.
  by move=> s h; case: String.eqb_spec.
by rewrite eqbE => /eqP/negbTE ->.
Qed.

(** ** Samples *)
Lemma linear_orthogonal (F : realFieldType) (x y : F) : integral ((x%:P + y *: 'X) * legendre4 F) = 0 /\ integral ((x%:P + y *: 'X) * legendre2 F) = 0.
Proof.
have h : (size (x%:P + y *: 'X)%R <= 2)%N.
  apply: leq_trans (size_add _ _) _; rewrite geq_max (leq_trans (size_polyC_leq1 _)) //=.
  by apply: leq_trans (size_scale_leq _ _) _; rewrite size_polyX.
have -> : legendre4 F = 70%:R *: 'X^4 + (- 140%:R) *: 'X^3 + 90%:R *: 'X^2 + (- 20%:R) *: 'X^1 + 1 *: 'X^0.
  by rewrite expr0 expr1 scale1r !scaleNr.
have -> : legendre2 F = 6%:R *: 'X^2 + (- 6%:R) *: 'X^1 + 1 *: 'X^0.
  by rewrite expr0 expr1 scale1r !scaleNr.
have c0 : (x%:P + y *: 'X)`_0%N = x by rewrite coefD coefC coefZ coefX mulr0 addr0.
have c1 : (x%:P + y *: 'X)`_1%N = y by rewrite coefD coefC coefZ coefX mulr1 add0r.
by split; rewrite !mulrDr !integralD -!scalerAr !integralZ !(integral_mulX _ h) !big_ord_recl !big_ord0 /= /bump /= c0 c1; field.
Qed.

Lemma linear_sum (S : comRingType) (n0 n1 c1 c0 t1 t0 x : S) :
  n0 * (c1 + t1 * x) + n1 * (c0 + t0 * x) = n0 * c1 + n1 * c0 + (n0 * t1 + n1 * t0) * x.
Proof. ring. Qed.

Lemma product_flux (T : shape [realFieldType of rat]) e : exists x y, flux T (fun _ => product_function) e = x%:P + y *: 'X.
Proof.
rewrite /flux /product_function /along sum2 /= !mderivM !mderivXU /= !mul0r !mul1r !mulr0 !mulr1 add0r addr0.
rewrite lineD !lineZ !lineX.
exists (normal T e 0 * corner T (first e) 1 + normal T e 1 * corner T (first e) 0).
exists (normal T e 0 * tangent T e 1 + normal T e 1 * tangent T e 0).
move: (normal T e 0) (normal T e 1) (corner T (first e) 1) (corner T (first e) 0) (tangent T e 1) (tangent T e 0) => n0 n1 c1 c0 t1 t0.
by rewrite polyCD !polyCM -!mul_polyC polyCD !polyCM; exact: linear_sum.
Qed.

Lemma product_orthogonal4 (T : shape [realFieldType of rat]) e : integral (flux T (fun _ => product_function) e * legendre4 [realFieldType of rat]) = 0.
Proof. by case: (product_flux T e) => x [y ->]; exact: (proj1 (linear_orthogonal x y)). Qed.

Lemma product_orthogonal2 (T : shape [realFieldType of rat]) e : integral (flux T (fun _ => product_function) e * legendre2 [realFieldType of rat]) = 0.
Proof. by case: (product_flux T e) => x [y ->]; exact: (proj2 (linear_orthogonal x y)). Qed.

Lemma product_size : (msize product_function <= 3)%N.
Proof. by rewrite /product_function -mpolyXD msizeX mdegD !mdeg1. Qed.

Lemma smooth_single (F : realFieldType) (T : shape F) (p : {mpoly F[2]}) m : smooth T (fun _ => p) m.
Proof. by []. Qed.

Lemma split_single (F : realFieldType) (T : shape F) (p : {mpoly F[2]}) : split_smooth T (fun _ => p).
Proof. by []. Qed.

Lemma msize_linear (a : rat) (k : 'I_2) (d : rat) : (msize (a *: 'X_k + d%:MP : {mpoly rat[2]})%R <= 2)%N.
Proof.
apply: leq_trans (msizeD_le _ _) _; rewrite geq_max; apply/andP; split.
  by apply: leq_trans (msizeZ_le _ _) _; rewrite msizeX mdeg1.
by rewrite msizeC; case: (d == 0).
Qed.

Lemma bary_size i : (msize (bary i) <= 2)%N.
Proof.
have h1 := msize_linear (q_of 1 5) 0 (- q_of 1 5); have h2 := msize_linear (q_of 1 12) 1 (- q_of 1 6).
rewrite /bary; move: h1 h2; set l1 := _ + _; set l2 := _ *: _ + _ => h1 h2.
case: ifP => _; last by case: ifP.
apply: leq_trans (msizeD_le _ _) _; rewrite msizeN geq_max h2 andbT.
apply: leq_trans (msizeD_le _ _) _; rewrite msizeN geq_max h1 andbT.
by rewrite msizeC; case: (_ == _).
Qed.

Lemma bump_size i : (msize (bump_at i) <= 3)%N.
Proof.
have h := bary_size i; rewrite /bump_at; move: (bary i) h => p h.
apply: leq_trans (msizeD_le _ _) _; rewrite msizeN geq_max (leq_trans h) //=.
case: (eqVneq p 0) => [->|hp]; first by rewrite mul0r msize0.
rewrite msizeM //; move: (msize p) h => m; lia.
Qed.

Lemma morley_size j e : (msize (morley_basis j e) <= 3)%N.
Proof.
rewrite /morley_basis; case: ifP => _; last by apply: leq_trans (msizeZ_le _ _) _; exact: bump_size.
apply: leq_trans (msizeD_le _ _) _; rewrite msizeN geq_max (leq_trans (bary_size _)) //=.
do 2 (apply: leq_trans (msizeD_le _ _) _; rewrite geq_max; apply/andP; split; last by apply: leq_trans (msizeZ_le _ _) _; exact: bump_size).
by apply: leq_trans (msizeZ_le _ _) _; exact: bump_size.
Qed.
