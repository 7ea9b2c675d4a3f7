(** Conformity of the elements with Piola maps. *)
From Coq Require Import String.
From mathcomp Require Import all_ssreflect all_algebra ring.
From SsrMultinomials Require Import mpoly.
From Verif Require Import Model.Prelude Model.Gem Model.Cell Model.Element Model.Piola Model.Zany Model.PiolaElements.
From Verif Require Import Spec.Algebra Spec.Polynomials Spec.EntityDofs Spec.PiolaElements Spec.PiolaConformity.
From Verif Require Import Proofs.Determinant Proofs.PiolaFacts Proofs.Polynomials Proofs.PiolaFields Proofs.PiolaMatrices Proofs.PiolaVectors.
From Verif Require Import Proofs.PiolaConformity.
Set Implicit Arguments.
Unset Strict Implicit.
Unset Printing Implicit Defensive.
Import GRing.Theory Num.Theory.
Local Open Scope ring_scope.

Lemma block_node (F : realFieldType) m L pf (lam : nat -> nat -> on_facet F m) rest f r : (f < m.+2)%N -> (r < m.+1 * L)%N ->
  facets_first m.+2 L pf lam rest (f * (m.+1 * L) + r) = mfacet_node pf lam f r.
Proof.
move=> hf hr; have hp : (0 < m.+1 * L)%N by apply: leq_trans hr.
rewrite /facets_first; have -> : (f * (m.+1 * L) + r < m.+2 * (m.+1 * L))%N.
  apply: (@leq_trans (f.+1 * (m.+1 * L))); last by rewrite leq_mul2r hf orbT.
  by rewrite mulSn addnC ltn_add2r.
by rewrite divnMDl // divn_small // addn0 modnMDl modn_small.
Qed.

Lemma ok_same A (x : result A) (u v : A) (P : A -> Prop) : x = Ok u -> x = Ok v -> P v -> P u.
Proof. by move=> ->; case=> ->. Qed.

Lemma jm_conforming : forall (F : realFieldType) m (c : scell (F := F)), fiat_cell m c ->
  forall N ndof pf lam ell, let n := m.+1 in (n = 2 \/ n = 3)%N -> (n.+1 * (n * n) <= ndof)%N -> (ndof <= N)%N ->
  let sense := facets_first n.+1 n pf lam (fun i => MOther (ell i)) in
  (forall i, (i < N)%N -> mlinear (sense i)) ->
  forall (K K' : pcell F m (mfield F m)) M M' f f' (a a' : nat -> F),
  mbased c N 1 sense K -> mbased c N 1 sense K' ->
  jm_transformation (ring_ops F) N ndof c (pgeo K) = Ok M -> jm_transformation (ring_ops F) N ndof c (pgeo K') = Ok M' ->
  (f <= n)%N -> (f' <= n)%N -> same_facet (pfacet c K f) (pfacet c K' f') ->
  determine 1 n (lam f) -> (forall k q, (k < n)%N -> lam f k q = lam f' k q) ->
  same_from a (f * (n * n)) a' (f' * (n * n)) (n * n) ->
  traction_continuous (pfacet c K f) (mfield_of N ndof M K a) (mfield_of N ndof M' K' a') (pf f) (pf f').
Proof.
move=> F m c hc N ndof pf lam ell n hn hL hN sense hl K K' M M' f f' a a' hK hK' eM eM' hf hf' hm hd hlam ha.
have [g0 _] := hK; have [g0' _] := hK'.
have [M0 [e0 t0]] := jm_transforms (porigin K) hc g0 hn hL hN hl.
have [M0' [e0' t0']] := jm_transforms (porigin K') hc g0' hn hL hN hl.
have T := ok_same eM e0 t0; have T' := ok_same eM' e0' t0'.
by apply: (@tractions F m c N ndof 1 sense hc hN hl 0 n) hK hK' T T' hf hf' hlam hm _ hd => // f0 r; exact: block_node.
Qed.

Lemma awnc_conforming : forall (F : realFieldType) (c : scell (F := F)), fiat_cell 1 c ->
  forall N ndof d pf lam ell, (12 <= ndof)%N -> (ndof <= N)%N ->
  let sense := facets_first 3 2 pf lam (fun i => MOther (ell i)) in
  (forall i, (i < N)%N -> mlinear (sense i)) ->
  forall (K K' : pcell F 1 (mfield F 1)) M M' f f' (a a' : nat -> F),
  mbased c N d sense K -> mbased c N d sense K' ->
  awnc_transformation (ring_ops F) N ndof c (pgeo K) = Ok M -> awnc_transformation (ring_ops F) N ndof c (pgeo K') = Ok M' ->
  (f <= 2)%N -> (f' <= 2)%N -> same_facet (pfacet c K f) (pfacet c K' f') ->
  (forall k q, (k < 2)%N -> lam f k q = lam f' k q) ->
  same_from a (f * 4) a' (f' * 4) 4 ->
  forall k, (k < 2)%N -> traction_moment (pfacet c K f) (lam f k) (mfield_of N ndof M K a) (mfield_of N ndof M' K' a') (pf f) (pf f').
Proof.
move=> F c hc N ndof d pf lam ell hL hN sense hl K K' M M' f f' a a' hK hK' eM eM' hf hf' hm hlam ha.
have [g0 _] := hK; have [g0' _] := hK'.
have [M0 [e0 t0]] := awnc_transforms (porigin K) hc g0 hL hN hl.
have [M0' [e0' t0']] := awnc_transforms (porigin K') hc g0' hL hN hl.
have T := ok_same eM e0 t0; have T' := ok_same eM' e0' t0'.
by apply: (@moments F 1 c N ndof d sense hc hN hl 0 2) hK hK' T T' hf hf' hlam hm _ => // f0 r; exact: block_node.
Qed.

Section Vertices.
Variable F : realFieldType.
Variables (c : scell (F := F)) (N ndof d L : nat) (lam : nat -> nat -> on_facet F 1) (rest : nat -> mnode F 1).
Hypothesis hcell : fiat_cell 1 c.
Hypothesis hnames : named_vertices 1 c.
Hypothesis hN : (ndof <= N)%N.
Let sense := vertices_first (@cell_vertex F 1 c) (fun _ => 0%N) (facets_first 3 L (fun _ => 0%N) lam rest).
Hypothesis hlin : forall i, (i < N)%N -> mlinear (sense i).
Hypothesis hL : (9 + 3 * (2 * L) <= ndof)%N.
Variables (K K' : pcell F 1 (mfield F 1)) (M M' : array (F := F)) (a a' : nat -> F) (f f' : nat).
Hypothesis hK : mbased c N d sense K.
Hypothesis hK' : mbased c N d sense K'.
Hypothesis hM : transforms_matrices c (pgeo K) (pmatrix K) (porigin K) N ndof sense M.
Hypothesis hM' : transforms_matrices c (pgeo K') (pmatrix K') (porigin K') N ndof sense M'.
Hypothesis hf : (f <= 2)%N.
Hypothesis hf' : (f' <= 2)%N.
Hypothesis hlam : forall k q, (k < L)%N -> lam f k q = lam f' k q.
Hypothesis hmeet : same_facet (pfacet c K f) (pfacet c K' f').
Hypothesis ha : same_from a (9 + f * (2 * L)) a' (9 + f' * (2 * L)) (2 * L).
Hypothesis hv : same_at_vertices c K K' f f' a a'.
Let S := mfield_of N ndof M K a.
Let S' := mfield_of N ndof M' K' a'.
Let X := pfacet c K f.

Lemma vertex_node v r : (v < 3)%N -> (r < 3)%N -> sense (3 * v + r) = component (MVertex 0 v (@cell_vertex F 1 c v)) r.
Proof.
move=> hv0 hr; rewrite /sense /vertices_first mulnC; have -> : (v * 3 + r < 9)%N.
  by apply: (@leq_trans (v.+1 * 3)); [rewrite mulSn addnC ltn_add2r|rewrite -[9%N]/(3 * 3)%N leq_mul2r hv0].
by rewrite divnMDl // divn_small // addn0 modnMDl modn_small.
Qed.

Lemma corner_values k : (k < 2)%N -> forall i j, (S 0%N i j).@[X k] = (S' 0%N i j).@[X k].
Proof.
move=> hk; have [hsz hco] := hv hk.
have h1 : (facet_vertex c f k < 3)%N by exact: hnames.
have h2 : (facet_vertex c f' k < 3)%N by exact: hnames.
have [[_ [_ [_ hh]]] _] := hK; have hz := hh _ h1.
have bound v r : (v < 3)%N -> (r < 3)%N -> (3 * v + r < ndof)%N.
  move=> hv0 hr; apply: leq_trans (leq_trans (leq_addr _ _) hL); rewrite mulnC.
  by apply: (@leq_trans (v.+1 * 3)); [rewrite mulSn addnC ltn_add2r|rewrite -[9%N]/(3 * 3)%N leq_mul2r hv0].
have dof r (hr : (r < 3)%N) :
  mdof (physical_place (pmatrix K) (porigin K) (@cell_facet F 1 c) (cell_size (pgeo K)) (mpreimage (pmatrix K) (porigin K)))
     (component (MVertex 0 (facet_vertex c f k) (@cell_vertex F 1 c (facet_vertex c f k))) r) S =
  mdof (physical_place (pmatrix K') (porigin K') (@cell_facet F 1 c) (cell_size (pgeo K')) (mpreimage (pmatrix K') (porigin K')))
     (component (MVertex 0 (facet_vertex c f' k) (@cell_vertex F 1 c (facet_vertex c f' k))) r) S'.
  rewrite -!vertex_node // /S /S'.
  rewrite (mfield_dof hlin a hK hM) ?(leq_trans (bound _ _ h1 hr)) //.
  rewrite (mfield_dof hlin a' hK' hM') ?(leq_trans (bound _ _ h2 hr)) //.
  exact: hco.
have eX g : g.@[X k] = g.@[image (affine (pmatrix K') (porigin K')) (@cell_vertex F 1 c (facet_vertex c f' k))] :> F.
  by apply: meval_eq => i; exact: hmeet.
have val r (hr : (r < 3)%N) (i j : 'I_2) : (forall mk : 'I_2 -> 'I_2 -> mnode F 1, component mk r = mk i j) -> (S 0%N i j).@[X k] = (S' 0%N i j).@[X k].
  move=> e; have := dof r hr; rewrite !e /= -hsz => /(mulfI (expf_neq0 2 hz)) h.
  by rewrite [RHS]eX -h.
have e00 := val 0%N isT 0 0 (fun _ => erefl); have e01 := val 1%N isT 0 1 (fun _ => erefl); have e11 := val 2%N isT 1 1 (fun _ => erefl).
have e10 : (S 0%N 1 0).@[X k] = (S' 0%N 1 0).@[X k].
  by rewrite /S /S' (mfield_sym ndof M a hK) (mfield_sym ndof M' a' hK').
by move=> i j; case: (ord2 i) => ->; case: (ord2 j) => ->.
Qed.

Lemma vertex_tractions : determine_inside d L (lam f) -> traction_continuous X S S' 0 0.
Proof.
move=> hd.
have hs g r : (g < 3)%N -> (r < 2 * L)%N -> sense (9 + (g * (2 * L) + r)) = mfacet_node (fun _ => 0%N) lam g r.
  by move=> hg hr; rewrite /sense /vertices_first ltnNge leq_addr /= addKn; exact: block_node.
have at0 : forall i, (facet_point X (fun _ => 0)) i = X 0%N i by move=> i; rewrite /facet_point big_ord1 mul0r addr0.
have at1 : forall i, (facet_point X (fun _ => 1)) i = X 1%N i by move=> i; rewrite /facet_point big_ord1 mul1r mxE addrC subrK.
apply: (@traction_from F 1 c N ndof (fun _ => 0%N) K K' M M' a a' f f') => i; apply: hd.
- exact: (D_size ndof (fun _ => 0%N) M M' a a' f f' hK hK').
- apply: (@D_value F 1 c N ndof (fun _ => 0%N) K K' M M' a a' f f' i) => j; rewrite !(meval_eq _ at0); exact: corner_values.
- apply: (@D_value F 1 c N ndof (fun _ => 0%N) K K' M M' a a' f f' i) => j; rewrite !(meval_eq _ at1); exact: corner_values.
- by move=> k hk; exact: (D_moment hcell hN hlin hs hL hK hK' hM hM' hf hf' hlam hmeet ha i hk).
Qed.
End Vertices.

Lemma aw_conforming : forall (F : realFieldType) (c : scell (F := F)), fiat_cell 1 c -> named_vertices 1 c ->
  forall N ndof lam ell, (21 <= ndof)%N -> (ndof <= N)%N ->
  let sense := vertices_first (@cell_vertex F 1 c) (fun _ => 0%N) (facets_first 3 2 (fun _ => 0%N) lam (fun i => MOther (ell i))) in
  (forall i, (i < N)%N -> mlinear (sense i)) ->
  forall (K K' : pcell F 1 (mfield F 1)) M M' f f' (a a' : nat -> F),
  mbased c N 3 sense K -> mbased c N 3 sense K' ->
  aw_transformation (ring_ops F) N ndof c (pgeo K) = Ok M -> aw_transformation (ring_ops F) N ndof c (pgeo K') = Ok M' ->
  (f <= 2)%N -> (f' <= 2)%N -> same_facet (pfacet c K f) (pfacet c K' f') ->
  determine_inside 3 2 (lam f) -> (forall k q, (k < 2)%N -> lam f k q = lam f' k q) ->
  same_at_vertices c K K' f f' a a' -> same_from a (9 + f * 4) a' (9 + f' * 4) 4 ->
  traction_continuous (pfacet c K f) (mfield_of N ndof M K a) (mfield_of N ndof M' K' a') 0 0.
Proof.
move=> F c hc hn N ndof lam ell hL hN sense hl K K' M M' f f' a a' hK hK' eM eM' hf hf' hm hd hlam hv ha.
have [g0 _] := hK; have [g0' _] := hK'.
have [M0 [e0 t0]] := aw_transforms (porigin K) hc g0 hL hN hl.
have [M0' [e0' t0']] := aw_transforms (porigin K') hc g0' hL hN hl.
have T := ok_same eM e0 t0; have T' := ok_same eM' e0' t0'.
exact: (vertex_tractions hc hn hN hl hL hK hK' T T' hf hf' hlam hm ha hv hd).
Qed.

Lemma hz_conforming : forall (F : realFieldType) (c : scell (F := F)), fiat_cell 1 c -> named_vertices 1 c ->
  forall ndofs degree variant k lam ell Y py, (2 <= degree)%N -> (9 + 6 * (degree - 1) <= ndofs)%N ->
  (variant = Some "point"%string -> ndofs = 9 + 6 * (degree - 1) + 3 * k)%N ->
  forall rest, (variant = Some "point"%string -> rest = components_at Y py) ->
  (variant <> Some "point"%string -> rest = fun i => MOther (ell i)) ->
  let sense := vertices_first (@cell_vertex F 1 c) (fun _ => 0%N) (facets_first 3 (degree - 1) (fun _ => 0%N) lam rest) in
  (forall i, (i < ndofs)%N -> mlinear (sense i)) ->
  forall (K K' : pcell F 1 (mfield F 1)) M M' f f' (a a' : nat -> F),
  mbased c ndofs degree sense K -> mbased c ndofs degree sense K' ->
  hz_transformation (ring_ops F) ndofs degree variant c (pgeo K) = Ok M ->
  hz_transformation (ring_ops F) ndofs degree variant c (pgeo K') = Ok M' ->
  (f <= 2)%N -> (f' <= 2)%N -> same_facet (pfacet c K f) (pfacet c K' f') ->
  determine_inside degree (degree - 1) (lam f) -> (forall l q, (l < degree - 1)%N -> lam f l q = lam f' l q) ->
  same_at_vertices c K K' f f' a a' ->
  same_from a (9 + f * (2 * (degree - 1))) a' (9 + f' * (2 * (degree - 1))) (2 * (degree - 1)) ->
  traction_continuous (pfacet c K f) (mfield_of ndofs ndofs M K a) (mfield_of ndofs ndofs M' K' a') 0 0.
Proof.
move=> F c hc hn N degree variant k lam ell Y py h2 hL hk rest hr1 hr2 sense hl K K' M M' f f' a a' hK hK' eM eM' hf hf' hm hd hlam hv ha.
have [g0 _] := hK; have [g0' _] := hK'.
have [M0 [e0 t0]] := hz_transforms_variants (porigin K) hc g0 h2 hL hk hr1 hr2 hl.
have [M0' [e0' t0']] := hz_transforms_variants (porigin K') hc g0' h2 hL hk hr1 hr2 hl.
have T := ok_same eM e0 t0; have T' := ok_same eM' e0' t0'.
have hL' : (9 + 3 * (2 * (degree - 1)) <= N)%N by rewrite mulnA.
exact: (vertex_tractions hc hn (leqnn N) hl hL' hK hK' T T' hf hf' hlam hm ha hv hd).
Qed.

(** ** Vector fields *)
Section Vectors.
Variables (F : realFieldType) (m : nat).
Local Notation n := m.+1.
Variables (c : scell (F := F)) (N ndof : nat) (sense : nat -> vnode F m).
Hypothesis hN : (ndof <= N)%N.
Hypothesis hlin : forall i, (i < N)%N -> vlinear (sense i).
Implicit Types (K : pcell F m (vfield F m)) (M : array (F := F)) (a : nat -> F).
Local Notation phys K := (vdof (physical_place (pmatrix K) (porigin K) (@cell_facet F m c) (cell_size (pgeo K)) (vpreimage (pmatrix K) (porigin K)))).
Local Notation transformed K M := (transforms_vectors c (pgeo K) (pmatrix K) (porigin K) N ndof sense M).

Lemma vfield_dof d pf K M a i : vbased c N d sense pf K -> transformed K M -> (i < N)%N ->
  phys K (sense i) (vfield_of N ndof M K a) = if (i < ndof)%N then a i else 0.
Proof.
move=> [hp [_ hnod]] [_ [_ [_ hM]]] hi; rewrite /vfield_of vphys_linear; last exact: hlin.
have e (l : 'I_ndof) : phys K (sense i) (vcombination N (n_at M l) (pfuns K)) = (i == l)%:R by apply: hM.
under eq_bigr => l _ do rewrite e.
case: ltnP => h; last by rewrite big1 // => l _; case: eqP => [ei|_]; rewrite ?mulr0 // ; move: h; rewrite ei leqNgt ltn_ord.
rewrite (bigD1 (Ordinal h)) //= eqxx mulr1 big1 ?addr0 // => l hl.
by case: eqP => [ei|_]; rewrite ?mulr0 //; move/eqP: hl; case; apply: val_inj.
Qed.

Lemma vfield_size d pf K M a f : vbased c N d sense pf K -> (f <= n)%N ->
  (msize (chart (pfacet c K f) (\sum_i fnormal (pfacet c K f) i 0 *: vfield_of N ndof M K a (pf f) i)) <= d.+1)%N.
Proof.
move=> [_ [hd _]] hf; set X := pfacet c K f.
have -> : chart X (\sum_i fnormal X i 0 *: vfield_of N ndof M K a (pf f) i) =
    \sum_(l < ndof) a l *: \sum_(j < N) n_at M l j *: chart X (\sum_i fnormal X i 0 *: pfuns K j (pf f) i).
  under eq_bigr => i _ do rewrite /vfield_of /vcombination scaler_sumr.
  rewrite exchange_big chart_sum /=; apply: eq_bigr => l _.
  under eq_bigr => i _ do rewrite scalerA mulrC -scalerA scaler_sumr.
  rewrite -scaler_sumr chartZ; congr (_ *: _); rewrite exchange_big chart_sum /=; apply: eq_bigr => j _.
  by under eq_bigr => i _ do rewrite scalerA mulrC -scalerA; rewrite -scaler_sumr chartZ.
by apply: (size_sum_le (fun l : 'I_ndof => a l)) => l; apply: (size_sum_le (fun j : 'I_N => n_at M l j)) => j; exact: hd.
Qed.

Variables (d L : nat) (pf : nat -> nat) (idx : nat -> nat -> nat) (lam : nat -> on_facet F m).
Variables (K K' : pcell F m (vfield F m)) (M M' : array (F := F)) (a a' : nat -> F) (f f' : nat).
Hypothesis hK : vbased c N d sense pf K.
Hypothesis hK' : vbased c N d sense pf K'.
Hypothesis hM : transformed K M.
Hypothesis hM' : transformed K' M'.
Hypothesis hf : (f <= n)%N.
Hypothesis hf' : (f' <= n)%N.
Hypothesis hidx : forall g k, (g <= n)%N -> (k < L)%N -> (idx g k < N)%N /\ sense (idx g k) = Normal (pf g) g (lam k).
Hypothesis hcoef : forall k, (k < L)%N -> (idx f k < ndof)%N = (idx f' k < ndof)%N /\ ((idx f k < ndof)%N -> a (idx f k) = a' (idx f' k)).
Hypothesis hmeet : same_facet (pfacet c K f) (pfacet c K' f').
Hypothesis hdet : determine d L lam.

Lemma normals : normal_continuous (pfacet c K f) (vfield_of N ndof M K a) (vfield_of N ndof M' K' a') (pf f) (pf f').
Proof.
set X := pfacet c K f; set u := vfield_of _ _ _ _ _; set u' := vfield_of _ _ _ _ a'.
have eN : fnormal (pfacet c K' f') = fnormal X by rewrite -(same_normal hmeet).
have ec q : chart (pfacet c K' f') q = chart X q by rewrite -(same_chart _ hmeet).
have z : chart X (\sum_i fnormal X i 0 *: u (pf f) i) - chart X (\sum_i fnormal X i 0 *: u' (pf f') i) = 0.
  apply: hdet.
  - apply: size_diff; first exact: vfield_size.
    by have := vfield_size M' a' hK' hf'; rewrite ec eN.
  - move=> k hk; have [h1 s1] := hidx hf hk; have [h2 s2] := hidx hf' hk; have [hlt hco] := hcoef hk.
    have := vfield_dof a hK hM h1; have := vfield_dof a' hK' hM' h2; rewrite s1 s2 -/u -/u' /= -/(pfacet c K' f') -/(pfacet c K f) -/X ec eN => e2 e1.
    have hl : is_linear (lam k) by have := hlin h1; rewrite s1.
    rewrite -scaleN1r addrC hl mulN1r e1 e2 -hlt; case: ltnP => h; last by rewrite oppr0 addr0.
    by rewrite hco // addNr.
move=> y; have := congr1 (fun q => q.@[y]) z; rewrite mevalB meval0 => /eqP; rewrite subr_eq0 => /eqP.
rewrite !chart_point !raddf_sum /= => e; apply/matrixP => i j; rewrite !ord1 -!/(inner _ _) !innerE.
under eq_bigr => k _ do rewrite [vvalue _ _ _ _ _]mxE -mevalZ.
under [RHS]eq_bigr => k _ do rewrite [vvalue _ _ _ _ _]mxE -mevalZ.
exact: e.
Qed.
End Vectors.
