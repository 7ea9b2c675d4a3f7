(** Conformity of the transformed Argyris, Hsieh-Clough-Tocher, Bell, reduced
    Hsieh-Clough-Tocher and Morley functions. *)
From Coq Require Import String.
From mathcomp Require Import all_ssreflect all_algebra ring.
From SsrMultinomials Require Import mpoly.
From Verif Require Import Model.Gem Model.Piola Model.Zany Spec.Algebra Spec.Polynomials Spec.Zany Spec.Conformity.
From Verif Require Import Proofs.PiolaFacts Proofs.Polynomials Proofs.Integrals Proofs.ZanySums Proofs.VertexTransform Proofs.EdgeGeometry Proofs.EdgeRows Proofs.ZanyElements Proofs.ZanyEnds Proofs.ZanyNodal Proofs.ZanyNodal2 Proofs.EdgeUnisolvence Proofs.Conformity.
From mathcomp Require Import zify.
Set Implicit Arguments.
Unset Strict Implicit.
Unset Printing Implicit Defensive.
Import GRing.Theory Num.Theory.
Local Open Scope ring_scope.

Section Bubbles.
Variable F : realFieldType.
Lemma integralX k : integral ('X^k : {poly F}) = k.+1%:R^-1.
Proof.
rewrite -[X in integral X]mul1r (@integral_mulX _ _ 1) ?size_poly1 // big_ord1 coef1 add0n mul1r //.
Qed.

Lemma bubble_legendre4 : integral (bubble F 2 * legendre4 F) = 630%:R^-1.
Proof.
have -> : bubble F 2 * legendre4 F = 70%:R *: 'X^8 + (- 280%:R) *: 'X^7 + 440%:R *: 'X^6 + (- 340%:R) *: 'X^5 + 131%:R *: 'X^4 + (- 22%:R) *: 'X^3 + 'X^2.
  rewrite /bubble /legendre4 -!mul_polyC !polyCN !polyCMn !polyC0 !polyC1 ?expr1; move: ('X : {poly F}) => Y; ring.
rewrite !integralD !integralZ !integralX; by field.
Qed.

Lemma bubble_legendre2 : integral (bubble F 1 * legendre2 F) = 30%:R^-1.
Proof.
have -> : bubble F 1 * legendre2 F = 6%:R *: 'X^4 + (- 12%:R) *: 'X^3 + 7%:R *: 'X^2 + (- 1) *: 'X^1.
  rewrite /bubble /legendre2 -!mul_polyC !polyCN !polyCMn !polyC0 !polyC1 ?expr1; move: ('X : {poly F}) => Y; ring.
rewrite !integralD !integralZ !integralX; by field.
Qed.
End Bubbles.

Section Pair.
Variable F : realFieldType.
Local Notation o := (ring_ops F).
Variables (c : simplex (F := F)) (w : geometry (F := F) -> nat -> F) (K K' : cell F).
Local Notation T := (shape_of c w K).
Local Notation T' := (shape_of c w K').
Hypothesis hK : provides (geo K) c (matrix K) (origin K).
Hypothesis hK' : provides (geo K') c (matrix K') (origin K').
Variables e e' : nat.
Hypothesis he : (e < 3)%N.
Hypothesis he' : (e' < 3)%N.
Hypothesis hm : meet T e T' e'.
Local Notation x := (corner T (first e)).
Local Notation y := (corner T (second e)).
Local Notation t := (tangent T e).
Local Notation n := (normal T e).
Local Notation L := (physical_edge_lengths (geo K) e).
Variables u u' : pieces F.
Local Notation d := (u e - u' e').

Section Orders.
Variables (vorder size : nat).
Hypothesis hv : order vorder.
Local Notation nj := (jetsize vorder).
Hypothesis hs : smooth T u nj.
Hypothesis hs' : smooth T' u' nj.
Hypothesis hd1 : forall k, (k < nj)%N -> vertex_dof T u (first e) k = vertex_dof T' u' (first e') k.
Hypothesis hd2 : forall k, (k < nj)%N -> vertex_dof T u (second e) k = vertex_dof T' u' (second e') k.

Lemma trace_zeros : vanishes vorder.+1 (line d x t) 0 /\ vanishes vorder.+1 (line d x t) 1.
Proof.
have j1 := first_jets hK he he' hm hs hs' hd1; have j2 := second_jets hK he he' hm hs hs' hd2.
case/orP: hv => /eqP E; move: j1 j2; rewrite E => j1 j2; split.
- exact: (trace_vanishes2 (at_first c w K e)).
- exact: (trace_vanishes2 (at_second c w K e)).
- exact: (trace_vanishes3 (at_first c w K e)).
- exact: (trace_vanishes3 (at_second c w K e)).
Qed.

Lemma flux_zeros : vanishes vorder (line (along d n) x t) 0 /\ vanishes vorder (line (along d n) x t) 1.
Proof.
have j1 := first_jets hK he he' hm hs hs' hd1; have j2 := second_jets hK he he' hm hs hs' hd2.
case/orP: hv => /eqP E; move: j1 j2; rewrite E => j1 j2; split.
- exact: (flux_vanishes1 (at_first c w K e)).
- exact: (flux_vanishes1 (at_second c w K e)).
- exact: (flux_vanishes2 (at_first c w K e)).
- exact: (flux_vanishes2 (at_second c w K e)).
Qed.

Hypothesis hz : (msize (u e) <= size.+1)%N.
Hypothesis hz' : (msize (u' e') <= size.+1)%N.

Lemma trace_size : (seq.size (line d x t) <= size.+1)%N.
Proof. exact: (leq_trans (line_size _ _ _) (size_sub hz hz')). Qed.
Lemma flux_size : (seq.size (line (along d n) x t) <= size)%N.
Proof. exact: (leq_trans (line_size _ _ _) (along_size _ (size_sub hz hz'))). Qed.
End Orders.

(** ** Moments *)
Lemma moment_conform vorder m avg : order vorder -> w = mean_weight avg ->
  smooth T u (jetsize vorder) -> smooth T' u' (jetsize vorder) ->
  (msize (u e) <= 2 * vorder.+1 + m)%N -> (msize (u' e') <= 2 * vorder.+1 + m)%N ->
  (forall k, (k < jetsize vorder)%N -> vertex_dof T u (first e) k = vertex_dof T' u' (first e') k) ->
  (forall k, (k < jetsize vorder)%N -> vertex_dof T u (second e) k = vertex_dof T' u' (second e') k) ->
  (forall k, (k < 2 * m + 1)%N -> moment_dof T vorder m u e k = moment_dof T' vorder m u' e' k) ->
  smooth_across T e (u e) (u' e').
Proof.
move=> hv hw hs hs' hz hz' hd1 hd2 hd.
have sz : (2 * vorder.+1 + m)%N = (vorder + vorder + m.+1).+1 by lia.
rewrite sz in hz hz'.
have [t1 t2] := trace_zeros hv hs hs' hd1 hd2; have [f1 f2] := flux_zeros hv hs hs' hd1 hd2.
have hw0 : edge_weight T e != 0 /\ edge_weight T e = edge_weight T' e'.
  rewrite /= hw /mean_weight; case: (avg) => //; first by rewrite oner_neq0.
  rewrite (lengths_eq hK hK' he he' hm); split=> //.
  exact/lt0r_neq0/(length_pos hK' he').
apply: (smooth_from hK he).
  apply: (unisolvent (s := m) (r := vorder.+1)) => //.
    apply: (leq_trans (trace_size hz hz')); lia.
  apply: (@span _ m (fun k => (jacobi F vorder k.+1)^`())) => [k hk|k hk].
    exact/deriv_size/jacobi_size.
  have k1 : (m + k.+1 <= m)%N = false by lia.
  have k2 : (m + k.+1 < 2 * m + 1)%N by lia.
  have := hd _ k2; rewrite /moment_dof k1 addKn => E.
  by rewrite -(trace_diff hm) mulrBl -scaleN1r integralD integralZ mulN1r E subrr.
apply: (unisolvent (s := m.+1) (r := vorder)) => //; first exact: (flux_size hz hz').
apply: (@span _ m.+1 (jacobi F vorder)) => [k _|k hk]; first exact: jacobi_size.
have hk2 : (k < 2 * m + 1)%N by move: hk; lia.
have := hd k hk2; rewrite /moment_dof -ltnS hk -hw0.2 => /(mulfI hw0.1) E.
by rewrite -(flux_diff hK hK' he he' hm) mulrBl -scaleN1r integralD integralZ mulN1r E subrr.
Qed.

(** ** Midpoints *)
Lemma point_conform : w = @size_weight F ->
  smooth T u 6 -> smooth T' u' 6 -> (msize (u e) <= 6)%N -> (msize (u' e') <= 6)%N ->
  (forall k, (k < 6)%N -> vertex_dof T u (first e) k = vertex_dof T' u' (first e') k) ->
  (forall k, (k < 6)%N -> vertex_dof T u (second e) k = vertex_dof T' u' (second e') k) ->
  midpoint_dof T u e 0 = midpoint_dof T' u' e' 0 ->
  smooth_across T e (u e) (u' e').
Proof.
move=> hw hs hs' hz hz' hd1 hd2 hd.
have [t1 t2] := @trace_zeros 2 isT hs hs' hd1 hd2; have [f1 f2] := @flux_zeros 2 isT hs hs' hd1 hd2.
have hw0 : edge_weight T e != 0 /\ edge_weight T e = edge_weight T' e'.
  split; first by rewrite /= hw; exact/lt0r_neq0/(edge_weight_pos hK he).
  by rewrite /= hw /size_weight; case: hm => _ [_ [/= -> ->]].
apply: (smooth_from hK he).
  by apply: (ends_zero (r := 3)) => //; apply: trace_size.
have [z Ez] : exists z, line (along d n) x t = z *: bubble F 2.
  by apply: ends_bubble => //; apply: flux_size.
move: hd; rewrite /midpoint_dof -hw0.2 => /(mulfI hw0.1) E.
have : (line (along d n) x t).[1 / 2%:R] = 0 by rewrite -(flux_diff hK hK' he he' hm) hornerD hornerN E subrr.
rewrite Ez hornerZ /bubble hornerM !horner_exp !hornerXsubC => /eqP.
rewrite mulf_eq0 => /orP [/eqP ->|]; first by rewrite scale0r.
have -> : (1 / 2%:R - 0) ^+ 2 * (1 / 2%:R - 1) ^+ 2 = 1 / 16%:R :> F by field.
by rewrite div1r invr_eq0 pnatr_eq0.
Qed.

(** ** Constraints *)
Lemma bell_conform :
  smooth T u 6 -> smooth T' u' 6 -> (msize (u e) <= 6)%N -> (msize (u' e') <= 6)%N ->
  (forall k, (k < 6)%N -> vertex_dof T u (first e) k = vertex_dof T' u' (first e') k) ->
  (forall k, (k < 6)%N -> vertex_dof T u (second e) k = vertex_dof T' u' (second e') k) ->
  integral (flux T u e * legendre4 F) = 0 -> integral (flux T' u' e' * legendre4 F) = 0 ->
  smooth_across T e (u e) (u' e').
Proof.
move=> hs hs' hz hz' hd1 hd2 o1 o2.
have [t1 t2] := @trace_zeros 2 isT hs hs' hd1 hd2; have [f1 f2] := @flux_zeros 2 isT hs hs' hd1 hd2.
apply: (smooth_from hK he).
  by apply: (ends_zero (r := 3)) => //; apply: trace_size.
have [z Ez] : exists z, line (along d n) x t = z *: bubble F 2.
  by apply: ends_bubble => //; apply: flux_size.
have : integral (line (along d n) x t * legendre4 F) = 0.
  by rewrite -(flux_diff hK hK' he he' hm) mulrBl -scaleN1r integralD integralZ o1 o2 mulr0 addr0.
rewrite Ez -scalerAl integralZ => /eqP.
rewrite mulf_eq0 => /orP [/eqP ->|]; first by rewrite scale0r.
by rewrite bubble_legendre4 invr_eq0 pnatr_eq0.
Qed.

Lemma reduced_conform :
  smooth T u 3 -> smooth T' u' 3 -> (msize (u e) <= 4)%N -> (msize (u' e') <= 4)%N ->
  (forall k, (k < 3)%N -> vertex_dof T u (first e) k = vertex_dof T' u' (first e') k) ->
  (forall k, (k < 3)%N -> vertex_dof T u (second e) k = vertex_dof T' u' (second e') k) ->
  integral (flux T u e * legendre2 F) = 0 -> integral (flux T' u' e' * legendre2 F) = 0 ->
  smooth_across T e (u e) (u' e').
Proof.
move=> hs hs' hz hz' hd1 hd2 o1 o2.
have [t1 t2] := @trace_zeros 1 isT hs hs' hd1 hd2; have [f1 f2] := @flux_zeros 1 isT hs hs' hd1 hd2.
apply: (smooth_from hK he).
  by apply: (ends_zero (r := 2)) => //; apply: trace_size.
have [z Ez] : exists z, line (along d n) x t = z *: bubble F 1.
  by apply: ends_bubble => //; apply: flux_size.
have : integral (line (along d n) x t * legendre2 F) = 0.
  by rewrite -(flux_diff hK hK' he he' hm) mulrBl -scaleN1r integralD integralZ o1 o2 mulr0 addr0.
rewrite Ez -scalerAl integralZ => /eqP.
rewrite mulf_eq0 => /orP [/eqP ->|]; first by rewrite scale0r.
by rewrite bubble_legendre2 invr_eq0 pnatr_eq0.
Qed.
End Pair.

(** ** Elements *)
Section Elements.
Variable F : realFieldType.
Local Notation o := (ring_ops F).
Variable c : simplex (F := F).
Hypothesis hc : fiat_triangle c.
Local Notation R := (reference c).
Implicit Types (K : cell F) (a : nat -> F).

Lemma pulled_comb (q : polymap F 2) N a phi e : pulled q (combination N a phi) e = combination N a (fun j => pulled q (phi j)) e.
Proof. by rewrite /pulled /combination /pull raddf_sum /=; apply: eq_bigr => j _; rewrite linearZ. Qed.

Lemma vertex_coefficient nv ne N vd ed inner (psi : nat -> pieces F) a v k :
  (forall i, linear_dof (fun f => numbered nv ne (vd f) (ed f) (inner f) i)) ->
  nodal N (fun f => numbered nv ne (vd f) (ed f) (inner f)) psi -> (3 * nv <= N)%N -> (v < 3)%N -> (k < nv)%N ->
  vd (combination N a psi) v k = a (v * nv + k)%N.
Proof.
move=> hl hn hN hv hk.
rewrite -(@numbered_vertex _ nv ne (vd (combination N a psi)) (ed (combination N a psi)) (inner (combination N a psi)) v k hv hk).
have hi : (v * nv + k < N)%N by apply: leq_trans hN; case: v hv => [|[|[|v]]] // _; lia.
exact: (@field_dof F N (fun f => numbered nv ne (vd f) (ed f) (inner f) _) psi a _ (hl _) hi (fun j hj => hn _ _ hi hj)).
Qed.

Lemma edge_coefficient nv ne N vd ed inner (psi : nat -> pieces F) a e k :
  (forall i, linear_dof (fun f => numbered nv ne (vd f) (ed f) (inner f) i)) ->
  nodal N (fun f => numbered nv ne (vd f) (ed f) (inner f)) psi -> (3 * nv + 3 * ne <= N)%N -> (e < 3)%N -> (k < ne)%N ->
  ed (combination N a psi) e k = a (3 * nv + e * ne + k)%N.
Proof.
move=> hl hn hN hv hk.
rewrite -(@numbered_edge _ nv ne (vd (combination N a psi)) (ed (combination N a psi)) (inner (combination N a psi)) e k hv hk).
have hi : (3 * nv + e * ne + k < N)%N by apply: leq_trans hN; case: e hv => [|[|[|e]]] // _; lia.
exact: (@field_dof F N (fun f => numbered nv ne (vd f) (ed f) (inner f) _) psi a _ (hl _) hi (fun j hj => hn _ _ hi hj)).
Qed.

Lemma field_smooth (w : geometry (F := F) -> nat -> F) n N nj d ref M K a : based c w N nj d ref K ->
  smooth (shape_of c w K) (field n N M K a) nj.
Proof. by case=> _ [h _]; apply: smooth_comb => l _; apply: smooth_comb. Qed.

Lemma field_size (w : geometry (F := F) -> nat -> F) n N nj d ref M K a e : based c w N nj d ref K -> (e < 3)%N ->
  (msize (field n N M K a e) <= d)%N.
Proof. by case=> _ [_ [h _]] he; apply: size_comb => l _; apply: size_comb => j hj; apply: h. Qed.

Section Full.
Variables (m N : nat) (avg : bool) (inner : pieces F -> nat -> F).
Hypothesis hinner : forall k, functional (fun f => inner f k).
Local Notation w := (mean_weight avg).

Lemma inner_linear K k : linear_dof (fun f => inner (pulled (map_of K) f) k).
Proof. by move=> n a phi; exact: (hinner k (pulled_comb _ _ _ _)). Qed.

Section Moments.
Variables (vorder : nat) (M : geometry (F := F) -> nat -> nat -> F).
Hypothesis hv : order vorder.
Local Notation nj := (jetsize vorder).
Local Notation ref := (fun f => numbered nj (2 * m + 1) (vertex_dof R f) (moment_dof R vorder m f) (inner f)).
Hypothesis hnodal : forall K, based c w N nj (2 * vorder.+1 + m) ref K ->
  nodal N (fun f => numbered nj (2 * m + 1) (vertex_dof (shape_of c w K) f) (moment_dof (shape_of c w K) vorder m f) (inner (pulled (map_of K) f)))
    (fun l => combination N (M (geo K) l) (funs K)).
Hypothesis hN : (3 * nj + 3 * (2 * m + 1) <= N)%N.

Lemma moments_conforming K K' e e' a a' : 
  based c w N nj (2 * vorder.+1 + m) ref K -> based c w N nj (2 * vorder.+1 + m) ref K' -> (e < 3)%N -> (e' < 3)%N ->
  meet (shape_of c w K) e (shape_of c w K') e' -> shared nj (2 * m + 1) a e a' e' ->
  smooth_across (shape_of c w K) e (field N N M K a e) (field N N M K' a' e').
Proof.
move=> hK hK' he he' hm [s1 s2].
have hN1 : (3 * nj <= N)%N by apply: leq_trans hN; apply: leq_addr.
have [f1 f2] := first_other he; have [g1 g2] := first_other he'.
have [f3 f4] := second_other he; have [g3 g4] := second_other he'.
have lin K0 i : linear_dof (fun f => numbered nj (2 * m + 1) (vertex_dof (shape_of c w K0) f) (moment_dof (shape_of c w K0) vorder m f) (inner (pulled (map_of K0) f)) i).
  exact: (@numbered_linear _ nj (2 * m + 1) (vertex_dof (shape_of c w K0)) (moment_dof (shape_of c w K0) vorder m) (fun f => inner (pulled (map_of K0) f)) i
    (vertex_linear _) (moment_linear _ vorder m) (inner_linear K0)).
have vc K0 a0 v k : based c w N nj (2 * vorder.+1 + m) ref K0 -> (v < 3)%N -> (k < nj)%N -> vertex_dof (shape_of c w K0) (field N N M K0 a0) v k = a0 (v * nj + k)%N.
  move=> h0 v3 kn.
  exact: (@vertex_coefficient nj (2 * m + 1) N (vertex_dof (shape_of c w K0)) (moment_dof (shape_of c w K0) vorder m) (fun f => inner (pulled (map_of K0) f)) _ a0 v k (lin K0) (hnodal h0) hN1 v3 kn).
have ec K0 a0 e0 k : based c w N nj (2 * vorder.+1 + m) ref K0 -> (e0 < 3)%N -> (k < 2 * m + 1)%N -> moment_dof (shape_of c w K0) vorder m (field N N M K0 a0) e0 k = a0 (3 * nj + e0 * (2 * m + 1) + k)%N.
  move=> h0 v3 kn.
  exact: (@edge_coefficient nj (2 * m + 1) N (vertex_dof (shape_of c w K0)) (moment_dof (shape_of c w K0) vorder m) (fun f => inner (pulled (map_of K0) f)) _ a0 e0 k (lin K0) (hnodal h0) hN v3 kn).
apply: (@moment_conform _ c w K K' hK.1 hK'.1 e e' he he' hm _ _ vorder m avg) => // [||||k hk|k hk|k hk].
- exact: field_smooth hK.
- exact: field_smooth hK'.
- exact: field_size hK he.
- exact: field_size hK' he'.
- by rewrite vc // vc //; case: (s1 k hk).
- by rewrite vc // vc //; case: (s1 k hk).
- by rewrite ec // ec // s2.
Qed.
End Moments.

Lemma argyris_conforming K K' e e' a a' : (18 + 3 * (2 * m + 1) <= N)%N -> 
  let ref := fun f => numbered 6 (2 * m + 1) (vertex_dof R f) (moment_dof R 2 m f) (inner f) in
  let M := fun g => argyris_transformation o (5 + m) "integral"%string avg c g in
  based c w N 6 (6 + m) ref K -> based c w N 6 (6 + m) ref K' -> (e < 3)%N -> (e' < 3)%N ->
  meet (shape_of c w K) e (shape_of c w K') e' -> shared 6 (2 * m + 1) a e a' e' ->
  smooth_across (shape_of c w K) e (field N N M K a e) (field N N M K' a' e').
Proof.
move=> hN ref M.
apply: (@moments_conforming 2 M) => // K0 [h1 [h2 [h3 h4]]].
by apply: (@argyris_nodal_proof F c (geo K0) (matrix K0) (origin K0) hc h1 (w (geo K0)) N avg inner) => //; exact: inner_linear.
Qed.

Lemma hct_conforming K K' e e' a a' : (9 + 3 * (2 * m + 1) <= N)%N -> 
  let ref := fun f => numbered 3 (2 * m + 1) (vertex_dof R f) (moment_dof R 1 m f) (inner f) in
  let M := fun g => hct_transformation o (3 + m) avg c g in
  based c w N 3 (4 + m) ref K -> based c w N 3 (4 + m) ref K' -> (e < 3)%N -> (e' < 3)%N ->
  meet (shape_of c w K) e (shape_of c w K') e' -> shared 3 (2 * m + 1) a e a' e' ->
  smooth_across (shape_of c w K) e (field N N M K a e) (field N N M K' a' e').
Proof.
move=> hN ref M.
apply: (@moments_conforming 1 M) => // K0 [h1 [h2 [h3 h4]]].
by apply: (@hct_nodal_proof F c (geo K0) (matrix K0) (origin K0) hc h1 (w (geo K0)) N avg inner) => //; exact: inner_linear.
Qed.
End Full.
End Elements.
