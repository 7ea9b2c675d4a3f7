(** Vector fields of the elements with facet bubbles, on neighbouring cells. *)
From Coq Require Import String Permutation.
From mathcomp Require Import all_ssreflect all_algebra ring.
From SsrMultinomials Require Import mpoly.
From Verif Require Import Model.Prelude Model.Gem Model.Cell Model.Element Model.Mapped Model.Piola Model.Zany Model.PiolaElements.
From Verif Require Import Spec.Algebra Spec.Polynomials Spec.EntityDofs Spec.PiolaElements Spec.PiolaSamples Spec.PiolaConformity Spec.BubbleConformity.
From Verif Require Import Proofs.EntityDofs Proofs.Cells Proofs.Determinant Proofs.PiolaFacts Proofs.Polynomials Proofs.PiolaFields Proofs.PiolaMatrices Proofs.PiolaVectors.
From Verif Require Import Proofs.PiolaConformity Proofs.PiolaConformity2 Proofs.PiolaConformity3 Proofs.PiolaCells Proofs.PiolaSamples Proofs.PiolaNeighbours.
Set Implicit Arguments.
Unset Strict Implicit.
Unset Printing Implicit Defensive.
Import GRing.Theory Num.Theory.
Local Open Scope ring_scope.

Lemma facet_row m N (d : edofs) f : (m.+1 = 2 \/ m.+1 = 3)%N -> edofs_ok (topology (Simplex m.+1)) N d -> (f <= m.+1)%N ->
  exists l, has_dofs d (DI m) f l.
Proof.
move=> hm [[hp hr] _] hf.
have hin : List.In (DI m) (List.map fst (topology (Simplex m.+1))).
  by case: hm => [[->]|[->]]; rewrite /=; auto.
have /List.in_map_iff [[k row] [/= ek hrow]] := Permutation_in _ (Permutation_sym hp) hin.
rewrite ek in hrow; have [c [hc hperm]] := hr _ _ hrow.
have ec : c = m.+2.
  by case: hm hc => [[->]|[->]] /=; repeat (case=> [[]//|]); case.
have hs : List.In f (List.seq 0 c) by apply/List.in_seq; split; [apply/leP|apply/ltP; rewrite ec].
have /List.in_map_iff [[g l] [/= eg hl]] := Permutation_in _ (Permutation_sym hperm) hs.
by exists l, row; rewrite -eg.
Qed.

Lemma linear_and_settled : forall (F : realFieldType) m (b : {mpoly F[m]}) (lam : on_facet F m), is_linear lam ->
  (forall k, (k <= m)%N -> corner_value k b = 0) -> lam b != 0 -> subspace (linear_and b) /\ settled (linear_and b) lam.
Proof.
move=> F m b lam hl hb hn; split; first split.
- by exists 0, 0; rewrite msize0 scale0r addr0.
- move=> a p q [l [t [h ->]]] [l' [t' [h' ->]]]; exists (a *: l + l'), (a * t + t'); split.
    by apply: (leq_trans (msizeD_le _ _)); rewrite geq_max h' andbT; exact: leq_trans (mmeasureZ_le _ _ _) h.
  by rewrite scalerDr scalerDl scalerA addrACA.
- move=> q [l [t [h ->]]] hc h0.
  have l0 : l = 0.
    apply: (@corners_determine F m) => // k hk; have := hc k hk.
    by rewrite addrC corner_linear hb // mulr0 add0r.
  move: h0; rewrite l0 add0r; have -> : lam (t *: b) = t * lam b by exact: linZ.
  by move/eqP; rewrite mulf_eq0 (negbTE hn) orbF => /eqP ->; rewrite scale0r.
Qed.

Section Bubbles.
Variables (F : realFieldType) (m : nat).
Local Notation n := m.+1.
Variables (c : scell (F := F)) (N ndof : nat) (sense : nat -> vnode F m) (T : {mpoly F[m]} -> Prop) (pf : nat -> nat).
Hypothesis hcell : fiat_cell m c.
Hypothesis hN : (ndof <= N)%N.
Hypothesis hlin : forall i, (i < N)%N -> vlinear (sense i).
Hypothesis hT : subspace T.
Implicit Types (K : pcell F m (vfield F m)) (M : array (F := F)) (a : nat -> F).
Local Notation phys K := (vdof (physical_place (pmatrix K) (porigin K) (@cell_facet F m c) (cell_size (pgeo K)) (vpreimage (pmatrix K) (porigin K)))).
Local Notation transformed K M := (transforms_vectors c (pgeo K) (pmatrix K) (porigin K) N ndof sense M).

Lemma tfield_dof K M a i : tbased c N T sense pf K -> transformed K M -> (i < N)%N ->
  phys K (sense i) (vfield_of N ndof M K a) = if (i < ndof)%N then a i else 0.
Proof.
move=> [hp [_ hnod]] [_ [_ [_ hM]]] hi; rewrite /vfield_of vphys_linear; last exact: hlin.
have e (l : 'I_ndof) : phys K (sense i) (vcombination N (n_at M l) (pfuns K)) = (i == l)%:R by apply: hM.
under eq_bigr => l _ do rewrite e.
case: ltnP => h; last by rewrite big1 // => l _; case: eqP => [ei|_]; rewrite ?mulr0 // ; move: h; rewrite ei leqNgt ltn_ord.
rewrite (bigD1 (Ordinal h)) //= eqxx mulr1 big1 ?addr0 // => l hl.
by case: eqP => [ei|_]; rewrite ?mulr0 //; move/eqP: hl; case; apply: val_inj.
Qed.

Lemma sum_in (k : nat) (b : 'I_k -> F) (q : 'I_k -> {mpoly F[m]}) : (forall i, T (q i)) -> T (\sum_i b i *: q i).
Proof.
have [h0 h1] := hT => h; elim/big_rec: _ => [|i p _ hp]; first exact: h0.
exact: h1.
Qed.
Lemma trace_in K M a f i : tbased c N T sense pf K -> (f <= n)%N -> T (chart (pfacet c K f) (vfield_of N ndof M K a (pf f) i)).
Proof.
move=> [_ [h _]] hf; rewrite /vfield_of /vcombination chart_sum.
under eq_bigr => l _ do rewrite chartZ.
apply: (sum_in (fun l : 'I_ndof => a l)) => l; rewrite chart_sum; under eq_bigr => j _ do rewrite chartZ.
by apply: (sum_in (fun j : 'I_N => n_at M l j)) => j; exact: h.
Qed.

Variables (s : nat) (lam : nat -> on_facet F m) (tang : nat -> nat -> nat) (vat : nat -> nat -> 'I_n -> nat).
Variables (K K' : pcell F m (vfield F m)) (M M' : array (F := F)) (a a' : nat -> F) (f f' : nat).
Hypothesis hK : tbased c N T sense pf K.
Hypothesis hK' : tbased c N T sense pf K'.
Hypothesis hM : transformed K M.
Hypothesis hM' : transformed K' M'.
Hypothesis hf : (f <= n)%N.
Hypothesis hf' : (f' <= n)%N.
Hypothesis hvat : forall g k i, (g <= n)%N -> (k <= m)%N ->
  (vat g k i < ndof)%N /\ sense (vat g k i) = Component (pf g) (@cell_facet F m c g k) i.
Hypothesis hnor : forall g, (g <= n)%N -> (s + g < ndof)%N /\ sense (s + g)%N = Normal (pf g) g (lam g).
Hypothesis htan : forall g k, (g <= n)%N -> (k < m)%N ->
  (ndof <= tang g k < N)%N /\ sense (tang g k) = Tangential (pf g) g (lam g) k.
Hypothesis hlam : forall q, lam f q = lam f' q.
Hypothesis hmeet : same_facet (pfacet c K f) (pfacet c K' f').
Hypothesis hset : settled T (lam f).
Hypothesis hav : forall k i, (k <= m)%N -> a (vat f k i) = a' (vat f' k i).
Hypothesis han : a (s + f)%N = a' (s + f')%N.

Lemma bubbles_fit : field_continuous (pfacet c K f) (vfield_of N ndof M K a) (vfield_of N ndof M' K' a') (pf f) (pf f').
Proof.
set X := pfacet c K f; set u := vfield_of _ _ _ _ _; set u' := vfield_of _ _ _ _ a'.
have eN : fnormal (pfacet c K' f') = fnormal X by rewrite -(same_normal hmeet).
have eT k : (k < m)%N -> ftangent (pfacet c K' f') k = ftangent X k by move=> hk; rewrite -(same_tangent hmeet).
have ec q : chart (pfacet c K' f') q = chart X q by rewrite -(same_chart _ hmeet).
have hX : fnormal X != 0 by have [hp _] := hK; have [_ [_ [h _]]] := hcell; apply: moved_normal; [case: hp|exact: h].
have [b1 s1] := hnor hf; have [b2 s2] := hnor hf'.
have hl : is_linear (lam f) by have := hlin (leq_trans b1 hN); rewrite s1.
have w0 : vvec (lam f) X (u (pf f)) - vvec (lam f) X (u' (pf f')) = 0.
  have sub t v v' : inner t v = inner t v' -> inner t (v - v') = 0 :> F.
    by move=> e; rewrite /inner mulmxBr [X in X = _]mxE [X in _ + X]mxE -!/(inner _ _) e subrr.
  apply: (frame_zero hX) => [|k hk]; apply: sub; rewrite -!vfunctional //.
  - have := tfield_dof a hK hM (leq_trans b1 hN); have := tfield_dof a' hK' hM' (leq_trans b2 hN).
    rewrite s1 s2 b1 b2 /= -/(pfacet c K' f') -/(pfacet c K f) -/X ec eN -hlam han => e2 e1.
    by rewrite e1 e2.
  - have [/andP [t1 t2] t3] := htan hf hk; have [/andP [t1' t2'] t3'] := htan hf' hk.
    have := tfield_dof a hK hM t2; have := tfield_dof a' hK' hM' t2'.
    rewrite t3 t3' !ltnNge t1 t1' /= -/(pfacet c K' f') -/(pfacet c K f) -/X ec eT // -hlam => e2 e1.
    by rewrite e1 e2.
have z i : chart X (u (pf f) i) - chart X (u' (pf f') i) = 0.
  apply: hset.
  - have [_ h] := hT; rewrite addrC -scaleN1r; apply: h; last exact: trace_in.
    by rewrite -ec; exact: trace_in.
  - move=> k hk; have [c1 d1] := hvat i hf hk; have [c2 d2] := hvat i hf' hk.
    have := tfield_dof a hK hM (leq_trans c1 hN); have := tfield_dof a' hK' hM' (leq_trans c2 hN).
    rewrite d1 d2 c1 c2 /= (hav i hk) -/u -/u' => e2 e1.
    have ex : (u' (pf f') i).@[X k] = a' (vat f' k i) by rewrite -e2; apply: meval_eq => l; exact: hmeet.
    by rewrite -scaleN1r addrC corner_linear !corner_at // mulN1r ex e1 addNr.
  - have := congr1 (fun v : 'cV[F]_n => v i 0) w0; rewrite !mxE => e.
    by rewrite -scaleN1r addrC hl mulN1r addrC.
move=> y; apply/colP => i; rewrite !mxE.
by have := congr1 (fun q => q.@[y]) (z i); rewrite mevalB meval0 !chart_point => /eqP; rewrite subr_eq0 => /eqP.
Qed.
End Bubbles.

Lemma bubble_conforming : forall (F : realFieldType) m (c : scell (F := F)), fiat_cell m c ->
  forall numbf ndof (sense : nat -> vnode F m), let n := m.+1 in (n = 2 \/ n = 3)%N -> (ndof <= numbf)%N ->
  (forall i, (i < numbf)%N -> vlinear (sense i)) ->
  forall deriv, (forall d, (d < numbf)%N -> deriv d = is_divergence (sense d)) ->
  forall mappings s d pf lam vat T,
  mappings <> nil -> (forall y, List.In y mappings -> y = "contravariant piola"%string) ->
  edofs_ok (topology (Simplex n)) numbf d ->
  (forall k i l x, has_dofs d k i l -> List.In x l -> k <> DI m -> (x < ndof)%N) ->
  (forall k i l, has_dofs d k i l -> k <> DI m -> blocks sense l) ->
  (forall f l, has_dofs d (DI m) f l -> exists R, l = (s + f)%N :: R /\ (s + f < ndof)%N /\
     (forall x, List.In x R -> (ndof <= x)%N) /\ size R = m /\ sense (s + f)%N = Normal (pf f) f (lam f) /\
     forall k, (k < m)%N -> sense (nth 0%N R k) = Tangential (pf f) f (lam f) k) ->
  (forall f k i, (f <= n)%N -> (k <= m)%N -> (vat f k i < ndof)%N /\ sense (vat f k i) = Component (pf f) (@cell_facet F m c f k) i) ->
  subspace T ->
  forall (K K' : pcell F m (vfield F m)) d' M M' f f' (a a' : nat -> F),
  tbased c numbf T sense pf K -> tbased c numbf T sense pf K' ->
  piola_bubble_init mappings n numbf d = Ok (d', ndof) ->
  bubble_transformation (ring_ops F) numbf ndof d d' deriv c (pgeo K) = Ok M ->
  bubble_transformation (ring_ops F) numbf ndof d d' deriv c (pgeo K') = Ok M' ->
  (f <= n)%N -> (f' <= n)%N -> same_facet (pfacet c K f) (pfacet c K' f') ->
  settled T (lam f) -> (forall q, lam f q = lam f' q) ->
  (forall k i, (k <= m)%N -> a (vat f k i) = a' (vat f' k i)) -> a (s + f)%N = a' (s + f')%N ->
  field_continuous (pfacet c K f) (vfield_of numbf ndof M K a) (vfield_of numbf ndof M' K' a') (pf f) (pf f').
Proof.
move=> F m c hc N ndof sense n hn hN hl deriv hder mappings s d pf lam vat T h1 h2 hd h3 h4 h5 hvat hT
  K K' d' M M' f f' a a' hK hK' ed eM eM' hf hf' hm hset hlam hav han.
have [g0 _] := hK; have [g0' _] := hK'.
have [d1 [M1 [i1 [e1 t1]]]] := bubble_transforms (porigin K) hc g0 hN hl hder hn h1 h2 hd h3 h4 h5.
have [d2 [M2 [i2 [e2 t2]]]] := bubble_transforms (porigin K') hc g0' hN hl hder hn h1 h2 hd h3 h4 h5.
have E1 : d1 = d' by move: i1; rewrite ed => -[].
have E2 : d2 = d' by move: i2; rewrite ed => -[].
rewrite E1 in e1; rewrite E2 in e2.
have T1 := ok_same eM e1 t1; have T2 := ok_same eM' e2 t2.
pose row g := dof_at d (DI m) g.
have rowP g : (g <= n)%N -> has_dofs d (DI m) g (row g).
  move=> hg; have [l hl0] := facet_row hn hd hg; have [km _] := hd.
  by have /(has_dofs_get _ _ _ _ _ (topology_NoDup _) km) [_ [_ e]] := hl0; rewrite /row -e.
have hnor g : (g <= n)%N -> (s + g < ndof)%N /\ sense (s + g)%N = Normal (pf g) g (lam g).
  by move=> /rowP /h5 [R [_ [hb [_ [_ [hs _]]]]]].
have htan g k : (g <= n)%N -> (k < m)%N -> (ndof <= nth 0 (behead (row g)) k < N)%N /\
    sense (nth 0%N (behead (row g)) k) = Tangential (pf g) g (lam g) k.
  move=> hg hk; have hrow := rowP g hg; have [R [eR [_ [hR [hsz [_ hs]]]]]] := h5 _ _ hrow.
  rewrite eR /=; split; last exact: hs.
  have hin : List.In (nth 0%N R k) R by apply/InE; apply: mem_nth; rewrite hsz.
  rewrite hR //=; apply: (dof_bound hd hrow); rewrite eR; by right.
exact: (bubbles_fit hc hN hl hT hK hK' T1 T2 hf hf' hvat hnor htan hlam hm hset hav han).
Qed.

(** ** Bernardi-Raugel on triangles *)
Section Samples.
Local Notation Q := [realFieldType of rat].
Definition quadratic (q : {mpoly rat[1]}) : Prop := (msize q <= 3)%N.
Lemma quadratic_space : @subspace Q 1 quadratic.
Proof.
split=> [|a p q hp hq]; first by rewrite /quadratic msize0.
by apply: (leq_trans (msizeD_le _ _)); rewrite geq_max hq andbT; exact: leq_trans (mmeasureZ_le _ _ _) hp.
Qed.
Lemma midpoint_settles : @settled Q 1 quadratic (value_at (fun _ => qq 1 2)).
Proof.
move=> q hq hc hm; apply: (@roots_zero Q q [:: 0; 1; qq 1 2]) => // x; rewrite !inE => /or3P [] /eqP ->.
- by have := hc 0%N isT; rewrite /corner_value => e; rewrite -[RHS]e; apply: meval_eq => i; rewrite ord1.
- by have := hc 1%N isT; rewrite /corner_value => e; rewrite -[RHS]e; apply: meval_eq => i; rewrite ord1.
- exact: hm.
Qed.

Lemma lagrange2_size j : (msize (lagrange2 j) <= 3)%N.
Proof.
have hb i : (msize (bary2 i) <= 2)%N.
  have hX (k : 'I_2) : (msize ('X_k : {mpoly rat[2]}) <= 2)%N by rewrite msizeX mdeg1.
  have hC (x : rat) : (msize (x%:MP : {mpoly rat[2]}) <= 2)%N by rewrite msizeC; case: eqP.
  have hZ (x : rat) (q : {mpoly rat[2]}) : (msize q <= 2)%N -> (msize (x *: q) <= 2)%N := leq_trans (mmeasureZ_le _ _ _).
  have hB := @size_diff Q 2 2.
  have hD (p q : {mpoly rat[2]}) : (msize p <= 2)%N -> (msize q <= 2)%N -> (msize (p + q)%R <= 2)%N.
    by move=> hp hq; apply: (leq_trans (msizeD_le _ _)); rewrite geq_max hp hq.
  have l2 : (msize (qq 1 12 *: 'X_1 + (- qq 1 6)%:MP : {mpoly rat[2]})%R <= 2)%N by exact: hD (hZ _ _ (hX _)) (hC _).
  have l1 : (msize (qq 1 6 *: 'X_0 + (- qq 1 18) *: 'X_1 + (- qq 1 18)%:MP : {mpoly rat[2]})%R <= 2)%N.
    exact: hD (hD _ _ (hZ _ _ (hX _)) (hZ _ _ (hX _))) (hC _).
  rewrite /bary2; case: ifP => _; first exact: hB (hB _ _ (hC _) l1) l2.
  by case: ifP => _; [exact: l1|exact: l2].
have hm i k : (msize (bary2 i * bary2 k) <= 3)%N by apply: (@size_product Q 2 _ _ 1 1).
have hZ (x : rat) (q : {mpoly rat[2]}) : (msize q <= 3)%N -> (msize (x *: q) <= 3)%N := leq_trans (mmeasureZ_le _ _ _).
rewrite /lagrange2; case: ifP => _; last exact: hZ.
by apply: (@size_diff Q 2 3); [exact: hZ|exact: leq_trans (hb _) _].
Qed.

Lemma vpreimage_size J b (u : vfield Q 1) d p i : (forall i, (msize (u p i) <= d)%N) -> (msize (vpreimage J b u p i) <= d)%N.
Proof.
move=> h; apply: (size_sum_le (fun j => \det J * invmx J i j)) => j; apply: leq_trans (h j); apply: comp_size => k.
by rewrite tnth_mktuple addrC; exact: size_affine.
Qed.

Definition br_cell (g : geometry (F := Q)) J b : pcell Q 1 (vfield Q 1) :=
  PCell g J b (fun j => vimage J b (vpreimage J2 b2 (br_basis j))).
Lemma br_cells (g : geometry (F := Q)) J b : provides g J -> tbased cell2 12 quadratic br_sense (fun _ => 0%N) (br_cell g J b).
Proof.
move=> hg; have [hJ _] := hg; split=> //; split=> [j f i hj hf|i j hi hj].
- apply: (leq_trans (chart_size _ _)); apply: vimage_size => k; apply: vpreimage_size => l.
  exact: leq_trans (mmeasureZ_le _ _ _) (lagrange2_size _).
- rewrite -(br_nodal hi hj) !br_ref // /br_cell [pmatrix _]/= [porigin _]/= [pfuns _ _]/=.
  have e k : (vpreimage J b (vimage J b (vpreimage J2 b2 (br_basis j))) 0%N k).@[spot i] = (vpreimage J2 b2 (br_basis j) 0%N k).@[spot i].
    have := congr1 (fun v : 'cV[rat]_2 => v k 0) (@vimage_value Q 1 J b (vpreimage J2 b2 (br_basis j)) 0%N (spot i) hJ).
    by rewrite ![vvalue _ _ _ _ _]mxE.
  by rewrite !e.
Qed.
Lemma bubble3_corners k : (k <= 2)%N -> corner_value k ('X_0 * 'X_1 * (1 - 'X_0 - 'X_1) : {mpoly rat[2]}) = 0.
Proof.
by case: k => [|[|[|k]]] // _; rewrite /corner_value !(mevalM, mevalB, meval1, mevalXU).
Qed.
Lemma bubble3_moment : value_at (fun _ => qq 1 3) ('X_0 * 'X_1 * (1 - 'X_0 - 'X_1) : {mpoly rat[2]}) != 0.
Proof. by rewrite /value_at !(mevalM, mevalB, meval1, mevalXU). Qed.
Definition br_vat (f k : nat) (i : 'I_2) : nat := (2 * facet_vertex cell2 f k + i)%N.
Lemma br_vats f k (i : 'I_2) : (f <= 2)%N -> (k <= 1)%N -> (br_vat f k i < 9)%N /\
  br_sense (br_vat f k i) = Component 0 (@cell_facet Q 1 cell2 f k) i.
Proof.
by case: f => [|[|[|f]]] // _; case: k => [|[|k]] // _; elim/ord2: i.
Qed.
Definition br_left (i : nat) : rat := nth 0 [:: 100%:R; 101%:R; 1; 2%:R; 3%:R; 4%:R; 5%:R; 50%:R; 51%:R] i.
Definition br_right (i : nat) : rat := nth 0 [:: 1; 2%:R; -7%:R; -8%:R; 3%:R; 4%:R; 60%:R; 5%:R; 61%:R] i.
Lemma br_agree k (i : 'I_2) : (k <= 1)%N -> br_left (br_vat 0 k i) = br_right (br_vat 1 k i).
Proof. by case: k => [|[|k]] // _; elim/ord2: i. Qed.
End Samples.
