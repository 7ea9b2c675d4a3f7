(** How the dofs of vector and matrix fields change under the Piola maps. *)
From mathcomp Require Import all_ssreflect all_algebra ring.
From SsrMultinomials Require Import mpoly.
From Verif Require Import Model.Prelude Model.Gem Model.Piola Model.Zany Model.PiolaElements.
From Verif Require Import Spec.Algebra Spec.Polynomials Spec.PiolaElements.
From Verif Require Import Proofs.Determinant Proofs.PiolaFacts Proofs.Polynomials.
Set Implicit Arguments.
Unset Strict Implicit.
Unset Printing Implicit Defensive.
Import GRing.Theory Num.Theory.
Local Open Scope ring_scope.

Section Fields.
Variables (F : realFieldType) (m : nat).
Local Notation n := m.+1.
Local Notation point := (point F n).
Local Notation o := (ring_ops F).
Implicit Types (X : facet F m) (J : 'M[F]_n) (b : point) (lam : on_facet F m).

(** ** Linear functionals *)
Lemma lin0 lam : is_linear lam -> lam 0 = 0.
Proof. move=> h; have := h (-1) 0 0; rewrite scaler0 addr0 mulN1r addNr; by []. Qed.
Lemma linD lam f g : is_linear lam -> lam (f + g) = lam f + lam g.
Proof. by move=> h; rewrite -[X in X + g]scale1r h mul1r. Qed.
Lemma linZ lam a f : is_linear lam -> lam (a *: f) = a * lam f.
Proof. by move=> h; rewrite -[_ *: f]addr0 h lin0 // addr0. Qed.
Lemma lin_sum lam (I : Type) (r : seq I) (f : I -> {mpoly F[m]}) : is_linear lam ->
  lam (\sum_(i <- r) f i) = \sum_(i <- r) lam (f i).
Proof.
move=> h; elim: r => [|i r IH]; first by rewrite !big_nil lin0.
by rewrite !big_cons linD // IH.
Qed.

(** ** Charts *)
Lemma chartD X f g : chart X (f + g) = chart X f + chart X g.
Proof. by rewrite /chart comp_mpolyD. Qed.
Lemma chartZ X a f : chart X (a *: f) = a *: chart X f.
Proof. by rewrite /chart comp_mpolyZ. Qed.
Lemma chart_sum X (I : Type) (r : seq I) (f : I -> {mpoly F[n]}) :
  chart X (\sum_(i <- r) f i) = \sum_(i <- r) chart X (f i).
Proof. by rewrite /chart raddf_sum. Qed.

Lemma pull_sum (q : polymap F n) (I : Type) (r : seq I) (f : I -> {mpoly F[n]}) :
  pull q (\sum_(i <- r) f i) = \sum_(i <- r) pull q (f i).
Proof. by rewrite /pull raddf_sum. Qed.
Lemma pullZ (q : polymap F n) a f : pull q (a *: f) = a *: pull q f.
Proof. by rewrite /pull comp_mpolyZ. Qed.

Lemma moved_tangent X J b k : ftangent (fun i => image (affine J b) (X i)) k = J *m ftangent X k.
Proof.
apply/colP => i; rewrite !mxE !affine_image opprD addrACA subrr addr0 -sumrB.
by apply: eq_bigr => j _; rewrite !mxE mulrBr.
Qed.

Lemma chart_pull X J b f : chart X (pull (affine J b) f) = chart (fun i => image (affine J b) (X i)) f.
Proof.
rewrite /chart /pull; elim/mpoly_induction: f => [c|i|f g hf hg|f g hf hg].
- by rewrite !comp_mpolyC.
- rewrite !comp_mpolyXU -!tnth_nth !tnth_mktuple comp_mpolyD comp_mpolyC raddf_sum /=.
  rewrite affine_image mpolyCD addrAC; congr (_ + _).
  under eq_bigr => j _ do rewrite comp_mpolyZ comp_mpolyXU -tnth_nth tnth_mktuple scalerDr.
  rewrite big_split /= raddf_sum /=; congr (_ + _).
    by apply: eq_bigr => j _; rewrite mpolyCM mul_mpolyC.
  under eq_bigr => j _ do rewrite scaler_sumr.
  rewrite exchange_big /=; apply: eq_bigr => k _.
  rewrite moved_tangent mxE scaler_suml; apply: eq_bigr => j _; by rewrite scalerA.
- by rewrite !comp_mpolyD hf hg.
- by rewrite !rmorphM /= hf hg.
Qed.

(** ** Values of functionals, componentwise *)
Definition vvec lam X (u : 'I_n -> {mpoly F[n]}) : 'cV[F]_n := \col_i lam (chart X (u i)).
Definition mmat lam X (s : 'I_n -> 'I_n -> {mpoly F[n]}) : 'M[F]_n := \matrix_(i, j) lam (chart X (s i j)).

Lemma vvecE lam X u i : vvec lam X u i 0 = lam (chart X (u i)).
Proof. by rewrite mxE. Qed.
Lemma mmatE lam X s i j : mmat lam X s i j = lam (chart X (s i j)).
Proof. by rewrite mxE. Qed.
Lemma mulmxvE (A : 'M[F]_n) (v : 'cV[F]_n) i : (A *m v) i 0 = \sum_j A i j * v j 0.
Proof. by rewrite mxE. Qed.

Lemma innerE (a v : 'cV[F]_n) : inner a v = \sum_i a i 0 * v i 0.
Proof. by rewrite /inner mxE; apply: eq_bigr => i _; rewrite mxE. Qed.

Lemma vfunctional lam X (a : 'cV[F]_n) u : is_linear lam ->
  lam (chart X (\sum_i a i 0 *: u i)) = inner a (vvec lam X u).
Proof.
move=> h; rewrite chart_sum lin_sum // innerE; apply: eq_bigr => i _.
by rewrite chartZ linZ // mxE.
Qed.
Lemma mfunctional lam X (a c : 'cV[F]_n) s : is_linear lam ->
  lam (chart X (\sum_i \sum_j (a i 0 * c j 0) *: s i j)) = inner a (mmat lam X s *m c).
Proof.
move=> h; rewrite chart_sum lin_sum // innerE; apply: eq_bigr => i _.
rewrite chart_sum lin_sum // mxE mulr_sumr; apply: eq_bigr => j _.
by rewrite chartZ linZ // mxE -mulrA [c j 0 * _]mulrC.
Qed.

(** The Piola preimages of vectors and matrices. *)
Definition vback J (w : 'cV[F]_n) : 'cV[F]_n := \det J *: (invmx J *m w).
Definition mback J (S : 'M[F]_n) : 'M[F]_n := \det J ^+ 2 *: (invmx J *m S *m (invmx J)^T).

Lemma vvec_back lam X J b u p : is_linear lam ->
  vvec lam X (vpreimage J b u p) = vback J (vvec lam (fun i => image (affine J b) (X i)) (u p)).
Proof.
move=> h; apply/colP => i; rewrite !mxE /vpreimage chart_sum lin_sum // mulr_sumr; apply: eq_bigr => j _.
by rewrite chartZ linZ // chart_pull !mxE mulrA.
Qed.
Lemma mmat_back lam X J b s p : is_linear lam ->
  mmat lam X (mpreimage J b s p) = mback J (mmat lam (fun i => image (affine J b) (X i)) (s p)).
Proof.
move=> h; apply/matrixP => i j; rewrite !mxE /mpreimage chart_sum lin_sum // mulr_sumr.
under [RHS]eq_bigr => l _ do rewrite !mxE mulr_suml mulr_sumr.
rewrite exchange_big; apply: eq_bigr => k _; rewrite chart_sum lin_sum //; apply: eq_bigr => l _.
by rewrite chartZ linZ // chart_pull !mxE; ring.
Qed.

Lemma vvalue_back J b u p x : vvalue (vpreimage J b u) p x = vback J (vvalue u p (image (affine J b) x)).
Proof.
apply/colP => i; rewrite !mxE /vpreimage raddf_sum /= mulr_sumr; apply: eq_bigr => j _.
by rewrite mevalZ pull_eval !mxE mulrA.
Qed.
Lemma mvalue_back J b s p x : mvalue (mpreimage J b s) p x = mback J (mvalue s p (image (affine J b) x)).
Proof.
apply/matrixP => i j; rewrite !mxE /mpreimage raddf_sum /= mulr_sumr.
under [RHS]eq_bigr => l _ do rewrite !mxE mulr_suml mulr_sumr.
rewrite exchange_big; apply: eq_bigr => k _; rewrite raddf_sum /=; apply: eq_bigr => l _.
by rewrite mevalZ pull_eval !mxE; ring.
Qed.

Lemma piola_vback J w : \det J != 0 -> piola J (vback J w) = w.
Proof.
move=> h; rewrite /piola /vback -scalemxAr scalerA mulVf // scale1r mulmxA mulmxV ?mul1mx //.
by rewrite unitmxE unitfE.
Qed.
Lemma piola_mback J S : \det J != 0 -> (\det J)^-2 *: (J *m mback J S *m J^T) = S.
Proof.
move=> h; have hu : J \in unitmx by rewrite unitmxE unitfE.
rewrite /mback -scalemxAr -scalemxAl scalerA mulVf ?expf_neq0 // scale1r !mulmxA mulmxV // mul1mx.
by rewrite -mulmxA -trmx_mul mulmxV // trmx1 mulmx1.
Qed.
Lemma piola_preimage J b : \det J != 0 ->
  (forall (u : vfield F m) p x, vvalue u p (image (affine J b) x) = (\det J)^-1 *: (J *m vvalue (vpreimage J b u) p x)) /\
  (forall (s : mfield F m) p x, mvalue s p (image (affine J b) x) = (\det J)^-2 *: (J *m mvalue (mpreimage J b s) p x *m J^T)).
Proof. by move=> h; split=> u p x; rewrite ?vvalue_back ?mvalue_back ?piola_mback // -[RHS]/(piola J _) piola_vback. Qed.

(** The divergence. *)
Lemma divergence_back J b u p : \det J != 0 ->
  \sum_i (vpreimage J b u p i)^`M(i) = \det J *: \sum_i pull (affine J b) ((u p i)^`M(i)).
Proof.
move=> h; have hu : J \in unitmx by rewrite unitmxE unitfE.
under eq_bigr => i _.
  rewrite /vpreimage raddf_sum /=.
  under eq_bigr => j _ do rewrite mderivZ affine_chain scaler_sumr.
  over.
rewrite exchange_big /= scaler_sumr; apply: eq_bigr => j _.
rewrite exchange_big /=.
under eq_bigr => k _.
  under eq_bigr => i _ do rewrite scalerA -mulrA -scalerA.
  rewrite -scaler_sumr -scaler_suml.
  have -> : \sum_i invmx J i j * J k i = (k == j)%:R.
    have := congr1 (fun A : 'M[F]_n => A k j) (mulmxV hu); rewrite !mxE => <-.
    by apply: eq_bigr => i _; rewrite mulrC.
  over.
rewrite (bigD1 j) //= eqxx scale1r big1 ?addr0 // => k hk; by rewrite (negbTE hk) scale0r scaler0.
Qed.
End Fields.

(** ** Normals in the plane and in space *)
Section Normals.
Variable F : realFieldType.
Local Notation o := (ring_ops F).

Lemma frame0 m (a : 'cV[F]_m.+1) (T : 'M[F]_(m.+1, m)) i : (row_mx a T : 'M_m.+1) i 0 = a i 0.
Proof. have -> : (0 : 'I_m.+1) = lshift m (0 : 'I_1) by exact/val_inj. exact: row_mxEl. Qed.
Lemma frameS m (a : 'cV[F]_m.+1) (T : 'M[F]_(m.+1, m)) i (k : 'I_m) : (row_mx a T : 'M_m.+1) i (lift ord0 k) = T i k.
Proof. have -> : lift ord0 k = rshift 1 k by exact/val_inj. exact: row_mxEr. Qed.

Lemma det3 (A : 'M[F]_3) : \det A = A 0 0 * (A 1 1 * A (1 + 1) (1 + 1) - A 1 (1 + 1) * A (1 + 1) 1)
  - A 0 1 * (A 1 0 * A (1 + 1) (1 + 1) - A 1 (1 + 1) * A (1 + 1) 0)
  + A 0 (1 + 1) * (A 1 0 * A (1 + 1) 1 - A 1 1 * A (1 + 1) 0).
Proof.
have e : A = table_of 3 3 (fun i j => A (inord i) (inord j)) by apply/matrixP => i j; rewrite !mxE !inord_val.
have := determinantE (rows_shape 3 (fun i j => A (inord i) (inord j))); rewrite rows_matrix -e => <-.
rewrite /determinant /entry /alternate /without /=.
have -> : inord 0 = 0 :> 'I_3 by apply/val_inj; rewrite /= inordK.
have -> : inord 1 = 1 :> 'I_3 by apply/val_inj; rewrite /= inordK.
have -> : inord 2 = 1 + 1 :> 'I_3 by apply/val_inj; rewrite /= inordK.
by ring.
Qed.

Lemma fnormal2 (X : facet F 1) : fnormal X = turned (ftangent X 0).
Proof.
have e : (1 : 'I_2) = lift ord0 (0 : 'I_1) by exact/val_inj.
apply/colP => i; rewrite ![LHS]mxE det2 !frame0 e !frameS -e [X in _ = X]mxE !mxE /=.
by case: (ord2 i) => -> /=; ring.
Qed.
Lemma fnormal3 (X : facet F 2) : fnormal X = cross_product (ftangent X 0) (ftangent X 1).
Proof.
have e : (1 : 'I_3) = lift ord0 (0 : 'I_2) by exact/val_inj.
have e' : (1 + 1 : 'I_3) = lift ord0 (1 : 'I_2) by exact/val_inj.
apply/colP => i; rewrite ![LHS]mxE det3 !frame0 e' e !frameS -e -e'.
by case: (ord3 i) => ->; rewrite ?(cross0, cross1, cross2) !mxE /=; ring.
Qed.
End Normals.

(** ** The rows for one facet *)
Lemma cell_tangent (F : realFieldType) m (c : scell (F := F)) f k :
  ftangent (@cell_facet F m c f) k = vector_of m.+1 (facet_tangent (ring_ops F) c f k).
Proof. by apply/colP => i; rewrite !mxE. Qed.

Lemma ok_inj A (a b : A) : Ok a = Ok b -> a = b.
Proof. by case. Qed.

Section Facets.
Variables (F : realFieldType) (m : nat).
Local Notation n := m.+1.
Local Notation o := (ring_ops F).
Implicit Types (c : scell (F := F)) (g : geometry (F := F)) (J : 'M[F]_n).

Lemma facet_vector c g J b f rows (w : 'cV[F]_n) :
  fiat_cell m c -> provides g J -> (f < n.+1)%N ->
  facet_rows o c (jacobian_at g (centre o c)) (detJ_at g (centre o c)) f = Ok rows ->
  let X := @cell_facet F m c f in let Y := fun k => image (affine J b) (X k) in
  n_rows rows = m /\ n_cols rows = n /\
  inner (fnormal X) (vback J w) = inner (fnormal Y) w /\
  forall k, (k < m)%N -> inner (ftangent X k) (vback J w) =
    n_at rows k 0 * inner (fnormal Y) w + \sum_(l < m) n_at rows k l.+1 * inner (ftangent Y l) w.
Proof.
move=> [hdim [hlen [hn hnorm]]] [hdet [hJ [hd hh]]] hf hrows.
have eJ : table_of n n (jacobian_at g (centre o c)) = J by apply/matrixP => i j; rewrite mxE hJ.
have ew : w = piola J (vback J w) by rewrite piola_vback.
move: hrows; rewrite /facet_rows hdim hd.
move: J eJ hdet hJ hd w ew b hdim hlen hn hnorm hf.
case: (m) => [//|[|[|//]]] J eJ hdet hJ hd w ew b hdim hlen hn hnorm hf hr; rewrite -(ok_inj hr);
  set X := cell_facet c f; set Y := fun k => image (affine J b) (X k).
- have hn0 := hn f hf; rewrite fnormal2 cell_tangent in hn0.
  have hv0 : vector_of 2 (facet_tangent o c f 0) != 0.
    apply/eqP => e; move/eqP: hn0; apply; rewrite e; apply/colP => i; rewrite !mxE oppr0; by case: ifP.
  set norm := sc_norm c (facet_tangent o c f 0).
  have hq : norm ^+ 2 = inner (vector_of 2 (facet_tangent o c f 0)) (vector_of 2 (facet_tangent o c f 0)).
    by rewrite /norm hnorm // inner2 !mxE.
  have := @edge_transform F (jacobian_at g (centre o c)) (facet_tangent o c f 0) norm (vback J w).
  cbv zeta; rewrite eJ -ew => /(_ hdet hv0 hq) [e1 e2].
  have hnz : norm != 0.
    apply/eqP => h0; move: hq; rewrite h0 expr0n /= inner2 => /esym /squares2 [z0 z1].
    move/eqP: hv0; apply; apply/colP => i; rewrite [RHS]mxE; by case: (ord2 i) => ->.
  have tZ (a : F) (t : 'cV[F]_2) : turned (a *: t) = a *: turned t.
    by apply/colP => i; rewrite !mxE; case: ifP => _ //; rewrite mulrN.
  have iZ (a : F) (t v : 'cV[F]_2) : inner (a *: t) v = a * inner t v.
    by rewrite !inner2 !mxE; ring.
  have hni : norm^-1 != 0 by rewrite invr_eq0.
  have E1 : inner (fnormal X) (vback J w) = inner (fnormal Y) w.
    rewrite !fnormal2 moved_tangent cell_tangent; apply: (mulfI hni).
    by move: e1; rewrite -scalemxAr !tZ !iZ => ->.
  split=> //; split=> //; split=> // k; rewrite ltnS leqn0 => /eqP ->.
  rewrite big_ord1; cbn [n_at]; rewrite -/norm; apply: (mulfI hni).
  move: e2; rewrite -scalemxAr !tZ !iZ -cell_tangent -/X -(moved_tangent X J b) -/Y -!fnormal2.
  set row := normal_tangential_edge_transform _ _ _ _ _; clearbody row => ->.
  by rewrite mulrDr; congr (_ + _); rewrite !mulrA [norm^-1 * _]mulrC.
- have hn0 := hn f hf; rewrite fnormal3 !cell_tangent in hn0.
  have := @face_transform F (jacobian_at g (centre o c)) (facet_tangent o c f 0) (facet_tangent o c f 1) (vback J w).
  cbv zeta; rewrite eJ -ew => /(_ hdet hn0) [e1 [e2 e3]].
  have E1 : inner (fnormal X) (vback J w) = inner (fnormal Y) w.
    by rewrite !fnormal3 !moved_tangent !cell_tangent e1.
  split=> //; split=> //; split=> // k hk; rewrite sum2 addrA.
  rewrite !fnormal3 !moved_tangent /X !cell_tangent; cbn [n_at].
  by move: k hk => [|[|//]] _; [rewrite e2|rewrite e3].
Qed.
End Facets.

(** ** Dofs on the reference cell in terms of those on the physical cell *)
Section Dofs.
Variables (F : realFieldType) (m : nat).
Local Notation n := m.+1.
Local Notation o := (ring_ops F).
Variables (c : scell (F := F)) (g : geometry (F := F)) (J : 'M[F]_n) (b : point F n).
Hypothesis hcell : fiat_cell m c.
Hypothesis hg : provides g J.
Let X := @cell_facet F m c.
Let vref := vdof (reference_place (vfield F m) X).
Let vphys := vdof (physical_place J b X (cell_size g) (vpreimage J b)).
Let mref := mdof (reference_place (mfield F m) X).
Let mphys := mdof (physical_place J b X (cell_size g) (mpreimage J b)).
Let rows_of f := facet_rows o c (jacobian_at g (centre o c)) (detJ_at g (centre o c)) f.

Lemma det_neq0 : \det J != 0. Proof. by case: hg. Qed.

Lemma vnormal_ref p f lam rows u : (f < n.+1)%N -> rows_of f = Ok rows -> is_linear lam ->
  vref (Normal p f lam) (vpreimage J b u) = vphys (Normal p f lam) u.
Proof.
move=> hf hr hl; rewrite /vref /vphys /= !vfunctional // vvec_back //.
by have [_ [_ [-> _]]] := facet_vector b (vvec lam (fun i => image (affine J b) (X f i)) (u p)) hcell hg hf hr.
Qed.
Lemma vtangential_ref p f lam rows k u : (f < n.+1)%N -> rows_of f = Ok rows -> is_linear lam -> (k < m)%N ->
  vref (Tangential p f lam k) (vpreimage J b u) = n_at rows k 0 * vphys (Normal p f lam) u +
    \sum_(l < m) n_at rows k l.+1 * vphys (Tangential p f lam l) u.
Proof.
move=> hf hr hl hk; rewrite /vref /vphys /=.
under [X in _ = _ + X]eq_bigr => l _ do rewrite vfunctional //.
rewrite !vfunctional // vvec_back //.
by have [_ [_ [_ ->]]] := facet_vector b (vvec lam (fun i => image (affine J b) (X f i)) (u p)) hcell hg hf hr.
Qed.

Lemma normal_back (a d : 'cV[F]_n) (S : 'M[F]_n) : (forall w, inner a (vback J w) = inner d w) ->
  mback J S *m a = vback J (S *m d).
Proof.
move=> h; have -> : d = \det J *: ((invmx J)^T *m a).
  apply/colP => i; have := h (delta_mx i 0).
  have -> : inner d (delta_mx i 0) = d i 0.
    by rewrite innerE (bigD1 i) //= big1 ?addr0 ?mxE ?eqxx ?mulr1 // => j hj; rewrite mxE (negbTE hj) mulr0.
  move=> <-; rewrite innerE !mxE mulr_sumr; apply: eq_bigr => j _; rewrite !mxE (bigD1 i) //= big1 ?addr0.
    by rewrite !mxE !eqxx mulr1 mulrC mulrA.
  by move=> k hk; rewrite mxE (negbTE hk) mulr0.
by rewrite /mback /vback -scalemxAl -scalemxAr -scalemxAr scalerA -expr2 !mulmxA.
Qed.

Lemma mnormal_ref p f lam rows s : (f < n.+1)%N -> rows_of f = Ok rows -> is_linear lam ->
  mref (MNormal p f lam) (mpreimage J b s) = mphys (MNormal p f lam) s.
Proof.
move=> hf hr hl; rewrite /mref /mphys /= !mfunctional // mmat_back //.
rewrite (normal_back _ (fun w => proj1 (proj2 (proj2 (facet_vector b w hcell hg hf hr))))).
set w := _ *m _.
by have [_ [_ [-> _]]] := facet_vector b w hcell hg hf hr.
Qed.
Lemma mtangential_ref p f lam rows k s : (f < n.+1)%N -> rows_of f = Ok rows -> is_linear lam -> (k < m)%N ->
  mref (MTangential p f lam k) (mpreimage J b s) = n_at rows k 0 * mphys (MNormal p f lam) s +
    \sum_(l < m) n_at rows k l.+1 * mphys (MTangential p f lam l) s.
Proof.
move=> hf hr hl hk; rewrite /mref /mphys /=.
under [X in _ = _ + X]eq_bigr => l _ do rewrite mfunctional //.
rewrite !mfunctional // mmat_back //.
rewrite (normal_back _ (fun w => proj1 (proj2 (proj2 (facet_vector b w hcell hg hf hr))))).
set w := _ *m _.
by have [_ [_ [_ ->]]] := facet_vector b w hcell hg hf hr.
Qed.

Lemma adjE : \det J *: invmx J = \adj J.
Proof.
have hu : J \in unitmx by rewrite unitmxE unitfE det_neq0.
by rewrite /invmx hu scalerA mulfV ?det_neq0 // scale1r.
Qed.
Lemma jacobian_table u : table_of n n (jacobian_at g u) = J.
Proof. by apply/matrixP => i j; rewrite mxE; case: hg => _ [-> _]. Qed.
Lemma inverse_entry u (i j : 'I_n) : n_at (inverse_array o n (jacobian_at g u)) i j = \adj J i j.
Proof.
rewrite /= /entry; have := adjugateE (rows_shape n (jacobian_at g u)); rewrite rows_matrix jacobian_table => e.
by rewrite -e mxE.
Qed.

Lemma component_ref p x (i : 'I_n) u : vref (Component p x i) (vpreimage J b u) =
  \sum_(j < n) n_at (inverse_array o n (jacobian_at g (centre o c))) i j * vphys (Component p x j) u.
Proof.
rewrite /vref /vphys /= /vpreimage raddf_sum /=; apply: eq_bigr => j _.
rewrite mevalZ pull_eval -[entry _ _ _ _]/(n_at (inverse_array o n (jacobian_at g (centre o c))) i j).
by rewrite inverse_entry -adjE mxE.
Qed.
Lemma divergence_ref p x u : vref (Divergence p x) (vpreimage J b u) =
  detJ_at g (centre o c) * vphys (Divergence p x) u.
Proof.
have [_ [_ [-> _]]] := hg.
rewrite /vref /vphys /= -raddf_sum /= divergence_back ?det_neq0 // mevalZ raddf_sum /=; congr (_ * _).
by apply: eq_bigr => i _; rewrite pull_eval.
Qed.
Lemma other_ref ell u : vref (Other ell) (vpreimage J b u) = vphys (Other ell) u.
Proof. by []. Qed.
Lemma mother_ref ell s : mref (MOther ell) (mpreimage J b s) = mphys (MOther ell) s.
Proof. by []. Qed.

(** Linearity of the physical dofs. *)
Lemma vphys_linear d N a phi : vlinear d -> vphys d (vcombination N a phi) = \sum_(j < N) a j * vphys d (phi j).
Proof.
case: d => [p x i|p x|p f lam|p f lam k|ell] hl; rewrite /vphys /= /vcombination.
- rewrite raddf_sum /=; by apply: eq_bigr => j _; rewrite mevalZ.
- under eq_bigr => i _ do rewrite [mderiv _ _]raddf_sum /= raddf_sum /=.
  rewrite exchange_big /=; apply: eq_bigr => j _; rewrite mulr_sumr; apply: eq_bigr => i _.
  by rewrite mderivZ mevalZ.
- under [RHS]eq_bigr => j _ do rewrite vfunctional // innerE mulr_sumr.
  rewrite vfunctional // innerE exchange_big /=; apply: eq_bigr => i _.
  rewrite vvecE chart_sum lin_sum // mulr_sumr; apply: eq_bigr => j _.
  by rewrite chartZ linZ // vvecE mulrCA.
- under [RHS]eq_bigr => j _ do rewrite vfunctional // innerE mulr_sumr.
  rewrite vfunctional // innerE exchange_big /=; apply: eq_bigr => i _.
  rewrite vvecE chart_sum lin_sum // mulr_sumr; apply: eq_bigr => j _.
  by rewrite chartZ linZ // vvecE mulrCA.
- apply: (hl N a (fun j => vpreimage J b (phi j))) => p i; rewrite /vpreimage.
  under [RHS]eq_bigr => j _ do rewrite scaler_sumr.
  rewrite exchange_big /=; apply: eq_bigr => k _.
  rewrite pull_sum scaler_sumr; apply: eq_bigr => j _.
  by rewrite pullZ !scalerA mulrC.
Qed.

Lemma mphys_linear d N a phi : mlinear d -> mphys d (mcombination N a phi) = \sum_(j < N) a j * mphys d (phi j).
Proof.
case: d => [p v x i k|p x i k|p f lam|p f lam k|ell] hl; rewrite /mphys /= /mcombination.
- rewrite raddf_sum /= mulr_sumr; by apply: eq_bigr => j _; rewrite mevalZ mulrCA.
- rewrite raddf_sum /=; by apply: eq_bigr => j _; rewrite mevalZ.
- under [RHS]eq_bigr => j _ do rewrite mfunctional // innerE mulr_sumr.
  rewrite mfunctional // innerE exchange_big /=; apply: eq_bigr => i _.
  rewrite mulmxvE mulr_sumr.
  under [RHS]eq_bigr => j _ do rewrite mulmxvE mulr_sumr mulr_sumr.
  rewrite exchange_big /=; apply: eq_bigr => l _.
  rewrite mmatE chart_sum lin_sum // mulr_suml mulr_sumr; apply: eq_bigr => j _.
  by rewrite chartZ linZ // mmatE; ring.
- under [RHS]eq_bigr => j _ do rewrite mfunctional // innerE mulr_sumr.
  rewrite mfunctional // innerE exchange_big /=; apply: eq_bigr => i _.
  rewrite mulmxvE mulr_sumr.
  under [RHS]eq_bigr => j _ do rewrite mulmxvE mulr_sumr mulr_sumr.
  rewrite [RHS]exchange_big /=; apply: eq_bigr => l _.
  rewrite mmatE chart_sum lin_sum // mulr_suml mulr_sumr; apply: eq_bigr => j _.
  by rewrite chartZ linZ // mmatE; ring.
- apply: (hl N a (fun j => mpreimage J b (phi j))) => p i k; rewrite /mpreimage.
  under [RHS]eq_bigr => j _ do rewrite scaler_sumr.
  rewrite [RHS]exchange_big /=; apply: eq_bigr => q _.
  under [RHS]eq_bigr => j _ do rewrite scaler_sumr.
  rewrite [RHS]exchange_big /=; apply: eq_bigr => l _.
  rewrite pull_sum scaler_sumr; apply: eq_bigr => j _.
  by rewrite pullZ !scalerA [a j * _]mulrC.
Qed.
End Dofs.

(** ** Components of symmetric matrices of the plane *)
Section Components.
Variable F : realFieldType.
Local Notation o := (ring_ops F).
Variables (c : scell (F := F)) (g : geometry (F := F)) (J : 'M[F]_2) (b : point F 2).
Hypothesis hdim : sc_dim c = 2%N.
Hypothesis hg : provides g J.
Definition compo (S : 'M[F]_2) (q : nat) : F := if (q == 0)%N then S 0 0 else if (q == 1)%N then S 0 1 else S 1 1.

Lemma mback_adj (S : 'M[F]_2) : mback J S = \adj J *m S *m (\adj J)^T.
Proof.
rewrite -(adjE hg) /mback linearZ /= -!scalemxAl -scalemxAr scalerA -expr2; by [].
Qed.

Lemma evaluation_compo (S : 'M[F]_2) p : S 0 1 = S 1 0 -> (p < 3)%N ->
  compo (mback J S) p = \sum_(q < 3) n_at (evaluation_transform o c g) p q * compo S q.
Proof.
move=> hS hp; rewrite mback_adj sum3.
pose K := \adj J; rewrite -/K.
have eK (i j : 'I_2) : entry o (adjugate o 2 (List.map (fun i => List.map (fun j => jacobian_at g (centre o c) i j) (List.seq 0 2)) (List.seq 0 2))) i j
  = K i j by exact: (inverse_entry hg (centre o c) i j).
have e (i j : 'I_2) : (K *m S *m K^T) i j = (K i 0 * S 0 0 + K i 1 * S 1 0) * K j 0 + (K i 0 * S 0 1 + K i 1 * S 1 1) * K j 1.
  by rewrite [LHS]mxE sum2 [(K *m S) i 0]mxE [(K *m S) i 1]mxE !sum2 [K^T 0 j]mxE [K^T 1 j]mxE.
have h2 : num o 2 = 2%:R by rewrite /num /= addr0.
have h2n : (2%:R : F) != 0 by rewrite pnatr_eq0.
have k00 := eK 0 0; have k01 := eK 0 1; have k10 := eK 1 0; have k11 := eK 1 1.
cbn [nat_of_ord] in k00, k01, k10, k11.
rewrite /evaluation_transform hdim; cbn [n_at]; rewrite h2.
rewrite /upper_pairs; cbn [List.flat_map List.seq List.map List.app Nat.sub].
move: k00 k01 k10 k11; rewrite /inZp /=.
move=> k00 k01 k10 k11.
case: p hp => [|[|[|//]]] _ /=; rewrite ?k00 ?k01 ?k10 ?k11 /compo /= e hS;
  clear - h2n; move: (K 0 0) (K 0 1) (K 1 0) (K 1 1) (S 0 0) (S 1 0) (S 1 1) => a00 a01 a10 a11 s0 s1 s2; by field.
Qed.
Lemma evaluation_extent : n_rows (evaluation_transform o c g) = 3%N /\ n_cols (evaluation_transform o c g) = 3%N.
Proof. by rewrite /evaluation_transform hdim. Qed.

(** Components at points, and at vertices with their scaling. *)
Let X := @cell_facet F 1 c.
Let mref := mdof (reference_place (mfield F 1) X).
Let mphys := mdof (physical_place J b X (cell_size g) (mpreimage J b)).
Lemma mcomponent_ref p x r s : symmetric s -> (r < 3)%N ->
  mref (component (MComponent p x) r) (mpreimage J b s) =
  \sum_(q < 3) n_at (evaluation_transform o c g) r q * mphys (component (MComponent p x) q) s.
Proof.
move=> hs hr.
have hm S q : compo (mvalue S p x) q = mref (component (MComponent p x) q) S.
  by rewrite /compo /component; case: eqP => _; [|case: eqP => _]; rewrite mxE.
rewrite -hm mvalue_back evaluation_compo //; last by rewrite !mxE hs.
apply: eq_bigr => q _; congr (_ * _).
by rewrite /compo /component; case: eqP => _; [|case: eqP => _]; rewrite mxE.
Qed.
Lemma mvertex_ref p v x r s : symmetric s -> (v < 3)%N -> (r < 3)%N ->
  mref (component (MVertex p v x) r) (mpreimage J b s) =
  \sum_(q < 3) n_at (evaluation_transform o c g) r q * (1 / (cell_size g v * cell_size g v)) *
     mphys (component (MVertex p v x) q) s.
Proof.
move=> hs hv hr; have hz : cell_size g v != 0 by case: hg => _ [_ [_ h]]; apply: h.
have -> : mref (component (MVertex p v x) r) (mpreimage J b s) = mref (component (MComponent p x) r) (mpreimage J b s).
  by rewrite /component; case: eqP => _; [|case: eqP => _]; rewrite /mref /= expr1n mul1r.
rewrite mcomponent_ref //; apply: eq_bigr => q _; rewrite -mulrA; congr (_ * _).
have -> : mphys (component (MVertex p v x) q) s = cell_size g v ^+ 2 * mphys (component (MComponent p x) q) s.
  by rewrite /component; case: eqP => _; [|case: eqP => _].
by field.
Qed.
End Components.
