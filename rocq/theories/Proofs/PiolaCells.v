(** Cells whose fields have Piola preimages that are dual to dofs on facets. *)
From Coq Require Import String.
From mathcomp Require Import all_ssreflect all_algebra ring.
From SsrMultinomials Require Import mpoly.
From Verif Require Import Model.Prelude Model.Gem Model.Cell Model.Element Model.Piola Model.Zany Model.PiolaElements.
From Verif Require Import Spec.Algebra Spec.Polynomials Spec.EntityDofs Spec.PiolaElements Spec.PiolaConformity.
From Verif Require Import Proofs.Determinant Proofs.PiolaFacts Proofs.Polynomials.
From Verif Require Import Proofs.PiolaFields Proofs.PiolaMatrices Proofs.PiolaVectors Proofs.PiolaConformity Proofs.PiolaConformity2.
Set Implicit Arguments.
Unset Strict Implicit.
Unset Printing Implicit Defensive.
Import GRing.Theory Num.Theory.
Local Open Scope ring_scope.

Section Images.
Variables (F : realFieldType) (m : nat).
Local Notation n := m.+1.
Implicit Types (J : 'M[F]_n) (b x : point F n).

Definition backmap J b : polymap F n := affine (invmx J) (fun i => - \sum_k invmx J i k * b k).
Lemma backmap_image J b x i : \det J != 0 -> image (backmap J b) (image (affine J b) x) i = x i.
Proof.
move=> h; have hu : J \in unitmx by rewrite unitmxE unitfE.
rewrite affine_image; under eq_bigr => j _ do rewrite affine_image mulrDr.
rewrite big_split /= -addrA subrr addr0.
have := congr1 (fun v : 'cV[F]_n => v i 0) (mulKmx hu (\col_j x j)); rewrite [RHS]mxE => <-.
rewrite [RHS]mxE; apply: eq_bigr => j _; congr (_ * _); rewrite mxE; by apply: eq_bigr => k _; rewrite mxE.
Qed.

Definition mimage J b (r : mfield F m) : mfield F m := fun p i k =>
  \sum_a \sum_l ((\det J) ^- 2 * J i a * J k l) *: pull (backmap J b) (r p a l).
Definition vimage J b (v : vfield F m) : vfield F m := fun p i =>
  \sum_a ((\det J)^-1 * J i a) *: pull (backmap J b) (v p a).

Lemma mimage_value J b r p x : \det J != 0 -> mvalue (mpreimage J b (mimage J b r)) p x = mvalue r p x.
Proof.
move=> h; have hu : J \in unitmx by rewrite unitmxE unitfE.
have e : mvalue (mimage J b r) p (image (affine J b) x) = (\det J) ^- 2 *: (J *m mvalue r p x *m J^T).
  apply/matrixP => i k; rewrite !mxE /mimage raddf_sum /= mulr_sumr.
  under [RHS]eq_bigr => l _ do rewrite !mxE mulr_suml mulr_sumr.
  rewrite [RHS]exchange_big; apply: eq_bigr => a _; rewrite raddf_sum /=; apply: eq_bigr => l _.
  rewrite mevalZ pull_eval !mxE (meval_eq _ (fun i => backmap_image b x i h)) -!mulrA; congr (_ * (_ * _)); by rewrite mulrC.
rewrite mvalue_back e /mback -scalemxAr -scalemxAl scalerA mulfV ?expf_neq0 // scale1r !mulmxA mulVmx // mul1mx.
by rewrite -mulmxA -trmx_mul mulVmx // trmx1 mulmx1.
Qed.
Lemma vimage_value J b v p x : \det J != 0 -> vvalue (vpreimage J b (vimage J b v)) p x = vvalue v p x.
Proof.
move=> h; have hu : J \in unitmx by rewrite unitmxE unitfE.
have e : vvalue (vimage J b v) p (image (affine J b) x) = (\det J)^-1 *: (J *m vvalue v p x).
  apply/colP => i; rewrite !mxE /vimage raddf_sum /= mulr_sumr; apply: eq_bigr => a _.
  by rewrite mevalZ pull_eval !mxE (meval_eq _ (fun i => backmap_image b x i h)) mulrA.
by rewrite vvalue_back e /vback -scalemxAr scalerA mulfV // scale1r mulKmx.
Qed.

Lemma comp_size k (t : k.-tuple {mpoly F[n]}) (f : {mpoly F[k]}) : (forall i, (msize (tnth t i) <= 2)%N) -> (msize (f \mPo t) <= msize f)%N.
Proof.
move=> ht; rewrite comp_mpolyE big_seq; elim/big_ind: _ => [|p q hp hq|mm hm]; first by rewrite msize0.
- by apply: (leq_trans (msizeD_le _ _)); rewrite geq_max hp hq.
apply: (leq_trans (mmeasureZ_le _ _ _)); apply: leq_trans (msize_mdeg_lt hm); rewrite -/(msize _) mdegE.
elim/big_rec2: _ => [|i e p _ hp]; first by rewrite msize1.
by rewrite addnC mulrC; apply: size_product => //; apply: size_power.
Qed.
Lemma back_size J b f : (msize (pull (backmap J b) f) <= msize f)%N.
Proof. by apply: comp_size => i; rewrite tnth_mktuple addrC; exact: size_affine. Qed.
Lemma mimage_size J b r d p i k : (forall i k, (msize (r p i k) <= d)%N) -> (msize (mimage J b r p i k) <= d)%N.
Proof.
move=> h; rewrite /mimage; have -> : \sum_a \sum_l ((\det J) ^- 2 * J i a * J k l) *: pull (backmap J b) (r p a l) =
   \sum_a 1 *: \sum_l ((\det J) ^- 2 * J i a * J k l) *: pull (backmap J b) (r p a l) by apply: eq_bigr => a _; rewrite scale1r.
apply: (size_sum_le (fun _ => 1)) => a; apply: (size_sum_le (fun l => (\det J) ^- 2 * J i a * J k l)) => l.
exact: leq_trans (back_size _ _ _) (h _ _).
Qed.
Lemma vimage_size J b v d p i : (forall i, (msize (v p i) <= d)%N) -> (msize (vimage J b v p i) <= d)%N.
Proof.
move=> h; apply: (size_sum_le (fun a => (\det J)^-1 * J i a)) => a; exact: leq_trans (back_size _ _ _) (h _).
Qed.
Lemma mimage_sym J b r : symmetric r -> symmetric (mimage J b r).
Proof.
move=> h p i k; rewrite /mimage exchange_big; apply: eq_bigr => a _; apply: eq_bigr => l _.
by rewrite h -!mulrA [J i l * _]mulrC.
Qed.
End Images.

(** ** Matrices and functions for a facet *)
Section FacetBasis.
Variables (F : realFieldType) (m : nat) (X : facet F m).
Local Notation n := m.+1.
Hypothesis hX : fnormal X != 0.
Let N := fnormal X.

Definition frame : 'M[F]_n := row_mx (fnormal X) (ftangents X).
Lemma frame_unit : frame \in unitmx.
Proof. by rewrite unitmxE unitfE /frame det_normal inner_self. Qed.
Definition dualv (b : 'I_n) : 'cV[F]_n := \col_i invmx frame b i.
Lemma dualvE (a b : 'I_n) : inner (col a frame) (dualv b) = (a == b)%:R.
Proof.
have := congr1 (fun A : 'M[F]_n => A b a) (mulVmx frame_unit); rewrite [RHS]mxE eq_sym => <-.
rewrite innerE mxE; apply: eq_bigr => i _; by rewrite !mxE mulrC.
Qed.
Lemma frame_normal : col 0 frame = fnormal X.
Proof. by apply/colP => i; rewrite mxE frame0. Qed.
Lemma frame_tangent (k : nat) (b : 'I_n) : b = k.+1 :> nat -> col b frame = ftangent X k.
Proof.
move=> e; have hk : (k < m)%N by rewrite -ltnS -e.
have -> : b = lift ord0 (Ordinal hk) by apply: val_inj.
by apply/colP => i; rewrite mxE frameS mxE.
Qed.

(** A symmetric matrix that takes the normal to a vector. *)
Definition symm (w : 'cV[F]_n) : 'M[F]_n :=
  (inner N N)^-1 *: (w *m N^T + N *m w^T) - ((inner N N) ^- 2 * inner w N) *: (N *m N^T).
Lemma symm_normal w : symm w *m N = w.
Proof.
have s1 (u v : 'cV[F]_n) : u^T *m v = (inner u v)%:M by rewrite [LHS]mx11_scalar.
have hz : inner N N != 0 by exact: inner_self.
rewrite /symm mulmxBl -!scalemxAl mulmxDl -!mulmxA !s1 !mul_mx_scalar scalerDr !scalerA mulVf // scale1r.
have -> : inner N N ^- 2 * inner w N * inner N N = (inner N N)^-1 * inner w N by field.
by rewrite addrK.
Qed.
Lemma symm_sym w i j : symm w i j = symm w j i.
Proof.
have e : (symm w)^T = symm w.
  by rewrite /symm linearB !linearZ linearD /= !trmx_mul !trmxK [N *m w^T + _]addrC.
by rewrite -{1}e mxE.
Qed.

(** Linear functions with given values at the vertices of the facet. *)
Definition zcoord (b : 'I_n) : {mpoly F[n]} :=
  (- \sum_i invmx frame b i * X 0%N i)%:MP + \sum_i invmx frame b i *: 'X_i.
Lemma zcoord_value b x : (zcoord b).@[x] = \sum_i invmx frame b i * (x i - X 0%N i).
Proof.
rewrite /zcoord mevalD mevalC addrC (big_morph _ (mevalD _) (meval0 _)); under eq_bigr => i _ do rewrite mevalZ mevalXU.
by rewrite -sumrB; apply: eq_bigr => i _; rewrite mulrBr.
Qed.
Lemma zcoord_corner b k : (k <= m)%N -> (zcoord b).@[X k] = ((0 < k)%N && (b == k :> nat))%:R.
Proof.
move=> hk; rewrite zcoord_value; case: k hk => [|k] hk; first by rewrite big1 // => i _; rewrite subrr mulr0.
have hk' : (k.+1 < n)%N by [].
have := congr1 (fun A : 'M[F]_n => A b (Ordinal hk')) (mulVmx frame_unit); rewrite [RHS]mxE /= => E.
have -> : (b == k.+1 :> nat) = (b == Ordinal hk') by [].
rewrite -E mxE; apply: eq_bigr => i _; congr (_ * _).
have := @frame_tangent k (Ordinal hk') erefl => /(congr1 (fun v : 'cV[F]_n => v i 0)); rewrite !mxE => ->; by [].
Qed.
Definition ramp (k : nat) : {mpoly F[n]} :=
  if k is 0%N then 1 - \sum_(b < m) zcoord (lift ord0 b) else zcoord (inord k).
Lemma ramp_corner k l : (k <= m)%N -> (l <= m)%N -> (ramp k).@[X l] = (k == l)%:R.
Proof.
case: k => [|k] hk hl; last first.
  by rewrite /= zcoord_corner // inordK // eq_sym; case: l hl => [|l] hl //; rewrite [l.+1 == _]eq_sym.
rewrite /= mevalB meval1 (big_morph _ (mevalD _) (meval0 _)); under eq_bigr => b _ do rewrite zcoord_corner //.
case: l hl => [|l] hl; first by rewrite big1 ?subr0 // => b _; rewrite /= mulr0n.
rewrite (bigD1 (Ordinal hl)) //= eqxx big1 ?addr0 ?subrr // => b hb.
by rewrite /bump /= add1n eqSS; case: eqP => // e; move/eqP: hb; case; apply: val_inj.
Qed.
Lemma zcoord_size b : (msize (zcoord b) <= 2)%N.
Proof. exact: size_affine. Qed.
Lemma ramp_size k : (msize (ramp k) <= 2)%N.
Proof.
case: k => [|k] /=; last exact: zcoord_size.
apply: size_diff; first by rewrite msize1.
have -> : \sum_(b < m) zcoord (lift ord0 b) = \sum_(b < m) 1 *: zcoord (lift ord0 b) by apply: eq_bigr => b _; rewrite scale1r.
by apply: (size_sum_le (fun _ => 1)) => b; exact: zcoord_size.
Qed.
End FacetBasis.

Lemma corner_at (F : realFieldType) m (X : facet F m) k (g : {mpoly F[m.+1]}) : (k <= m)%N -> corner_value k (chart X g) = g.@[X k].
Proof.
move=> hk; rewrite /corner_value chart_point; apply: meval_eq => i; rewrite /facet_point.
case: k hk => [|k] hk; first by rewrite big1 ?addr0 // => l _; rewrite mul0r.
rewrite (bigD1 (Ordinal hk)) //= eqxx mul1r big1 => [|l hl]; first by rewrite mxE addr0 addrC subrK.
by rewrite eqSS; case: eqP => [e|_]; rewrite ?mul0r //; move/eqP: hl; case; apply: val_inj.
Qed.
Lemma corner_linear (F : realFieldType) m k : is_linear (@corner_value F m k).
Proof. by move=> a f g; rewrite /corner_value mevalD mevalZ. Qed.

(** ** Johnson-Mercier *)
Section JohnsonMercier.
Variables (F : realFieldType) (m : nat) (c : scell (F := F)).
Local Notation n := m.+1.
Hypothesis hc : fiat_cell m c.
Local Notation X := (@cell_facet F m c).

Lemma facet_normal f : (f < n.+1)%N -> fnormal (X f) != 0.
Proof. by have [_ [_ [h _]]] := hc; exact: h. Qed.

Lemma node_dof f k b s : (k <= m)%N -> (b < n)%N ->
  mdof (reference_place (mfield F m) X) (mfacet_node id (fun _ => @corner_value F m) f (k * n + b)) s =
  inner (col (inord b) (frame (X f))) (mvalue s f (X f k) *m fnormal (X f)).
Proof.
move=> hk hb; rewrite /mfacet_node /facet_node modnMDl (modn_small hb) divnMDl // (divn_small hb) addn0.
have em : mmat (corner_value k) (X f) (s f) = mvalue s f (X f k).
  by apply/matrixP => i j; rewrite !mxE corner_at.
case: b hb => [|b] hb; cbn [eqn eq_op Equality.op nat_eqMixin nat_eqType].
  rewrite [LHS]/= mfunctional ?em; last exact: corner_linear.
  by congr (inner _ _); rewrite -frame_normal; congr (col _ _); apply: val_inj; rewrite /= inordK.
rewrite [LHS]/= mfunctional ?em; last exact: corner_linear.
by congr (inner _ _); rewrite (@frame_tangent _ _ _ b) // inordK.
Qed.

Definition jm_ref (j : nat) : mfield F m := fun p i l =>
  let f := (j %/ (n * n))%N in let r := (j %% (n * n))%N in
  if p == f then symm (X f) (dualv (X f) (inord (r %% n))) i l *: ramp (X f) (r %/ n) else 0.

Lemma jm_ref_value j p k : (j < n.+1 * (n * n))%N -> (k <= m)%N ->
  mvalue (jm_ref j) p (X p k) *m fnormal (X p) =
  ((p == j %/ (n * n)) && (k == (j %% (n * n)) %/ n))%N%:R *: dualv (X p) (inord (j %% (n * n) %% n)).
Proof.
move=> hj hk; have hf : (j %/ (n * n) < n.+1)%N by rewrite ltn_divLR.
have hr : (j %% (n * n) %/ n <= m)%N by rewrite -ltnS ltn_divLR // ltn_mod.
have [e|e] := eqVneq p (j %/ (n * n))%N; last first.
  rewrite /= scale0r -[RHS](mul0mx _ (fnormal (X p))); congr (_ *m _).
  by apply/matrixP => i l; rewrite !mxE /jm_ref (negbTE e) meval0.
rewrite /= e.
have -> : mvalue (jm_ref j) (j %/ (n * n))%N (X (j %/ (n * n))%N k) =
    (k == (j %% (n * n)) %/ n)%N%:R *: symm (X (j %/ (n * n))%N) (dualv (X (j %/ (n * n))%N) (inord (j %% (n * n) %% n))).
  by apply/matrixP => i l; rewrite mxE [RHS]mxE /jm_ref eqxx mevalZ ramp_corner ?facet_normal // eq_sym mulrC.
by rewrite -scalemxAl symm_normal ?facet_normal.
Qed.

Lemma index_split i : i = (i %/ (n * n) * (n * n) + (i %% (n * n) %/ n * n + i %% (n * n) %% n))%N.
Proof. by rewrite -!divn_eq. Qed.

Lemma jm_nodal J b ell i j : \det J != 0 -> (i < n.+1 * (n * n))%N -> (j < n.+1 * (n * n))%N ->
  mdof (reference_place (mfield F m) X) (facets_first n.+1 n id (fun _ => @corner_value F m) (fun k => MOther (ell k)) i)
    (mpreimage J b (mimage J b (jm_ref j))) = (i == j)%:R.
Proof.
move=> hJ hi hj; have hf : (i %/ (n * n) < n.+1)%N by rewrite ltn_divLR.
have hr : (i %% (n * n) < n * n)%N by rewrite ltn_mod.
have hk : (i %% (n * n) %/ n <= m)%N by rewrite -ltnS ltn_divLR.
have hb : (i %% (n * n) %% n < n)%N by rewrite ltn_mod.
rewrite {1}(index_split i) block_node //; last by rewrite -divn_eq.
rewrite node_dof //.
rewrite mimage_value // jm_ref_value // /inner -scalemxAr mxE -/(inner _ _) dualvE ?facet_normal //.
have -> : (inord (i %% (n * n) %% n) == inord (j %% (n * n) %% n) :> 'I_n) = (i %% (n * n) %% n == j %% (n * n) %% n)%N.
  by rewrite -val_eqE /= !inordK // ltn_mod.
rewrite -natrM mulnb -andbA; congr ((nat_of_bool _)%:R); apply/idP/idP => [|/eqP ->]; last by rewrite !eqxx.
by case/and3P => /eqP e1 /eqP e2 /eqP e3; apply/eqP; rewrite (index_split i) (index_split j) e1 e2 e3.
Qed.

Lemma jm_cells g J b ell : provides g J -> exists K : pcell F m (mfield F m), [/\ pgeo K = g, pmatrix K = J, porigin K = b &
  mbased c (n.+1 * (n * n)) 1 (facets_first n.+1 n id (fun _ => @corner_value F m) (fun k => MOther (ell k))) K].
Proof.
move=> hg; exists (PCell g J b (fun j => mimage J b (jm_ref j))); split=> //; split=> //; split.
  by move=> j hj; apply: mimage_sym => p i l; rewrite /jm_ref symm_sym.
have [hJ _] := hg; split; last by move=> i j hi hj; apply: jm_nodal.
move=> j p i k hj; apply: mimage_size => i' k'; rewrite /jm_ref; case: ifP => _; last by rewrite msize0.
by apply: (leq_trans (mmeasureZ_le _ _ _)); exact: ramp_size.
Qed.
End JohnsonMercier.

(** ** Mardal-Tai-Winther: values at the ends of the edges *)
Definition mtw_nodes (F : realFieldType) (i : nat) : vnode F 1 :=
  if (i %% 3 == 1)%N then Tangential (i %/ 3)%N (i %/ 3)%N (@corner_value F 1 0) 0
  else Normal (i %/ 3)%N (i %/ 3)%N (corner_value (i %% 3 == 2)%N).
Section MardalTaiWinther.
Variables (F : realFieldType) (c : scell (F := F)).
Hypothesis hc : fiat_cell 1 c.
Local Notation X := (@cell_facet F 1 c).

Definition mtw_ref (j : nat) : vfield F 1 := fun p i =>
  let f := (j %/ 3)%N in
  if p == f then dualv (X f) (inord (j %% 3 == 1)%N) i 0 *: ramp (X f) (j %% 3 == 2)%N else 0.

Lemma mtw_node_dof i u : (i < 9)%N ->
  vdof (reference_place (vfield F 1) X) (mtw_nodes F i) u =
  inner (col (inord (i %% 3 == 1)%N) (frame (X (i %/ 3)%N))) (vvalue u (i %/ 3)%N (X (i %/ 3)%N (i %% 3 == 2)%N)).
Proof.
move=> hi.
have em k : (k <= 1)%N -> vvec (corner_value k) (X (i %/ 3)%N) (u (i %/ 3)%N) = vvalue u (i %/ 3)%N (X (i %/ 3)%N k).
  by move=> hk; apply/colP => l; rewrite !mxE corner_at.
rewrite /mtw_nodes; case: eqP => [e|e].
  rewrite e [LHS]/= vfunctional ?em //; last exact: corner_linear.
  by congr (inner _ _); rewrite (@frame_tangent _ _ _ 0) // inordK.
rewrite [LHS]/= vfunctional ?em //; try exact: corner_linear; last by case: eqP.
by congr (inner _ _); rewrite -frame_normal; congr (col _ _); apply: val_inj; rewrite /= inordK.
Qed.

Lemma mtw_nodal J b i j : \det J != 0 -> (i < 9)%N -> (j < 9)%N ->
  vdof (reference_place (vfield F 1) X) (mtw_nodes F i) (vpreimage J b (vimage J b (mtw_ref j))) = (i == j)%:R.
Proof.
move=> hJ hi hj; have hf : (i %/ 3 < 3)%N by rewrite ltn_divLR.
have hl (x : bool) : ((x : nat) <= 1)%N by case: x.
rewrite mtw_node_dof // vimage_value //.
have [e|e] := eqVneq (i %/ 3)%N (j %/ 3)%N; last first.
  have -> : vvalue (mtw_ref j) (i %/ 3)%N (X (i %/ 3)%N (i %% 3 == 2)%N) = 0.
    by apply/colP => l; rewrite !mxE /mtw_ref (negbTE e) meval0.
  by rewrite /inner mulmx0 mxE; case: eqP => // ei; rewrite ei eqxx in e.
have -> : vvalue (mtw_ref j) (i %/ 3)%N (X (i %/ 3)%N (i %% 3 == 2)%N) =
   ((j %% 3 == 2)%N == (i %% 3 == 2)%N)%:R *: dualv (X (i %/ 3)%N) (inord (j %% 3 == 1)%N).
  apply/colP => l; rewrite [LHS]mxE [RHS]mxE /mtw_ref e eqxx mevalZ ramp_corner ?hl //; last by rewrite -e facet_normal.
  by rewrite mulrC; congr (_%:R * _); case: (_ == 2)%N; case: (_ == 2)%N.
rewrite /inner -scalemxAr mxE -/(inner _ _) dualvE ?facet_normal // -natrM mulnb; congr ((nat_of_bool _)%:R).
have -> : (inord (i %% 3 == 1)%N == inord (j %% 3 == 1)%N :> 'I_2) = ((i %% 3 == 1)%N == (j %% 3 == 1)%N).
  by rewrite -val_eqE /= !inordK ?ltnS ?hl //; case: (_ == 1)%N; case: (_ == 1)%N.
rewrite (divn_eq i 3) (divn_eq j 3) e eqn_add2l !modnMDl !(modn_mod).
have : (i %% 3 < 3)%N by rewrite ltn_mod.
have : (j %% 3 < 3)%N by rewrite ltn_mod.
by case: (i %% 3)%N => [|[|[|x]]] //; case: (j %% 3)%N => [|[|[|y]]].
Qed.

Lemma mtw_cells g J b : provides g J -> exists K : pcell F 1 (vfield F 1), [/\ pgeo K = g, pmatrix K = J, porigin K = b &
  vbased c 9 1 (mtw_nodes F) id K].
Proof.
move=> hg; exists (PCell g J b (fun j => vimage J b (mtw_ref j))); split=> //; split=> //.
have [hJ _] := hg; split; last by move=> i j hi hj; apply: mtw_nodal.
move=> j f hj hf; cbv zeta; set Y := pfacet _ _ _; apply: (leq_trans (chart_size _ _)); apply: (size_sum_le (fun i => fnormal Y i 0)) => i.
apply: vimage_size => l; rewrite /mtw_ref; case: ifP => _; last by rewrite msize0.
by apply: (leq_trans (mmeasureZ_le _ _ _)); exact: ramp_size.
Qed.
End MardalTaiWinther.
