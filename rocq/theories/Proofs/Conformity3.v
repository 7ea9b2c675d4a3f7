(** Conformity of the point variant of Argyris, of Bell, of reduced
    Hsieh-Clough-Tocher, of Morley and of Hermite functions. *)
From Coq Require Import String.
From mathcomp Require Import all_ssreflect all_algebra ring.
From SsrMultinomials Require Import mpoly.
From Verif Require Import Model.Gem Model.Piola Model.Zany Spec.Algebra Spec.Polynomials Spec.Zany Spec.Conformity.
From Verif Require Import Proofs.PiolaFacts Proofs.Polynomials Proofs.Integrals Proofs.ZanySums Proofs.VertexTransform Proofs.EdgeGeometry Proofs.EdgeRows Proofs.ZanyElements Proofs.ZanyEnds Proofs.ZanyNodal Proofs.ZanyNodal2 Proofs.HermiteTransform Proofs.EdgeUnisolvence Proofs.Conformity Proofs.Conformity2.
From mathcomp Require Import zify.
Set Implicit Arguments.
Unset Strict Implicit.
Unset Printing Implicit Defensive.
Import GRing.Theory Num.Theory.
Local Open Scope ring_scope.

Section Elements.
Variable F : realFieldType.
Local Notation o := (ring_ops F).
Variable c : simplex (F := F).
Hypothesis hc : fiat_triangle c.
Local Notation R := (reference c).
Implicit Types (K : cell F) (a : nat -> F).

(** ** Midpoints *)
Section Midpoints.
Variables (nv N : nat) (M : geometry (F := F) -> nat -> nat -> F).
Local Notation w := (@size_weight F).
Variable K : cell F.
Local Notation T := (shape_of c w K).
Hypothesis hn : nodal N (fun f => numbered nv 1 (vertex_dof T f) (midpoint_dof T f) (@no_inner F f)) (fun l => combination N (M (geo K) l) (funs K)).

Lemma midpoint_lin i : linear_dof (fun f => numbered nv 1 (vertex_dof T f) (midpoint_dof T f) (@no_inner F f) i).
Proof. exact: (@numbered_linear _ nv 1 (vertex_dof T) (midpoint_dof T) (@no_inner F) i (vertex_linear T) (midpoint_linear T) (@no_inner_linear F)). Qed.

Lemma midpoint_vertex a v k : (3 * nv <= N)%N -> (v < 3)%N -> (k < nv)%N -> vertex_dof T (field N N M K a) v k = a (v * nv + k)%N.
Proof. exact: (@vertex_coefficient F nv 1 N (vertex_dof T) (midpoint_dof T) (@no_inner F) _ a v k midpoint_lin hn). Qed.

Lemma midpoint_edge a e : (3 * nv + 3 <= N)%N -> (e < 3)%N -> midpoint_dof T (field N N M K a) e 0 = a (3 * nv + e * 1 + 0)%N.
Proof. by move=> h1 h2; apply: (@edge_coefficient F nv 1 N (vertex_dof T) (midpoint_dof T) (@no_inner F) _ a e 0 midpoint_lin hn). Qed.
End Midpoints.

Lemma argyris_point_conforming avg K K' e e' a a' :
  let w := @size_weight F in
  let ref := fun f => numbered 6 1 (vertex_dof R f) (midpoint_dof R f) (fun _ => 0) in
  let M := fun g => argyris_transformation o 5 "point"%string avg c g in
  based c w 21 6 6 ref K -> based c w 21 6 6 ref K' -> (e < 3)%N -> (e' < 3)%N ->
  meet (shape_of c w K) e (shape_of c w K') e' -> shared 6 1 a e a' e' ->
  smooth_across (shape_of c w K) e (field 21 21 M K a e) (field 21 21 M K' a' e').
Proof.
move=> w ref M hK hK' he he' hm [s1 s2].
have [f1 f2] := first_other he; have [g1 g2] := first_other he'.
have [f3 f4] := second_other he; have [g3 g4] := second_other he'.
have hn K0 : based c w 21 6 6 ref K0 -> nodal 21 (fun f => numbered 6 1 (vertex_dof (shape_of c w K0) f) (midpoint_dof (shape_of c w K0) f) (@no_inner F f)) (fun l => combination 21 (M (geo K0) l) (funs K0)).
  by case=> h1 [h2 [h3 h4]]; apply: (@argyris_point_nodal_proof F c (geo K0) (matrix K0) (origin K0) hc h1).
apply: (@point_conform _ c w K K' hK.1 hK'.1 e e' he he' hm) => // [||||k hk|k hk|].
- exact: field_smooth hK.
- exact: field_smooth hK'.
- exact: field_size hK he.
- exact: field_size hK' he'.
- by rewrite (midpoint_vertex (hn _ hK)) // (midpoint_vertex (hn _ hK')) //; case: (s1 k hk).
- by rewrite (midpoint_vertex (hn _ hK)) // (midpoint_vertex (hn _ hK')) //; case: (s1 k hk).
- by rewrite (midpoint_edge (hn _ hK)) // (midpoint_edge (hn _ hK')) // s2.
Qed.

(** Morley: the values at the ends and the mean of the gradient. *)
Lemma morley_conforming K K' e e' a a' :
  let w := @size_weight F in
  let T := shape_of c w K in
  let ref := fun f => numbered 1 1 (vertex_dof R f) (midpoint_dof R f) (fun _ => 0) in
  let M := fun g => morley_transformation o g in
  let u := field 6 6 M K a e in
  let u' := field 6 6 M K' a' e' in
  based c w 6 1 3 ref K -> based c w 6 1 3 ref K' -> (e < 3)%N -> (e' < 3)%N ->
  meet T e (shape_of c w K') e' -> shared 1 1 a e a' e' ->
  u.@[corner T (first e)] = u'.@[corner T (first e)] /\ u.@[corner T (second e)] = u'.@[corner T (second e)] /\
  forall i, integral (line u^`M(i) (corner T (first e)) (tangent T e)) = integral (line u'^`M(i) (corner T (first e)) (tangent T e)).
Proof.
move=> w T ref M u u' hK hK' he he' hm [s1 s2].
have [f1 f2] := first_other he; have [g1 g2] := first_other he'.
have [f3 f4] := second_other he; have [g3 g4] := second_other he'.
have hn K0 : based c w 6 1 3 ref K0 -> nodal 6 (fun f => numbered 1 1 (vertex_dof (shape_of c w K0) f) (midpoint_dof (shape_of c w K0) f) (@no_inner F f)) (fun l => combination 6 (M (geo K0) l) (funs K0)).
  by case=> h1 [h2 [h3 h4]]; apply: (@morley_nodal_proof F c (geo K0) (matrix K0) (origin K0) hc h1).
have j1 : zero_jets (u - u') 1 (corner T (first e)).
  apply: (@first_jets _ c w K K' hK.1 e e' he he' hm (field 6 6 M K a) (field 6 6 M K' a')) => [||k hk].
  - exact: field_smooth hK.
  - exact: field_smooth hK'.
  by rewrite (midpoint_vertex (hn _ hK)) // (midpoint_vertex (hn _ hK')) //; case: (s1 k hk).
have j2 : zero_jets (u - u') 1 (corner T (second e)).
  apply: (@second_jets _ c w K K' hK.1 e e' he he' hm (field 6 6 M K a) (field 6 6 M K' a')) => [||k hk].
  - exact: field_smooth hK.
  - exact: field_smooth hK'.
  by rewrite (midpoint_vertex (hn _ hK)) // (midpoint_vertex (hn _ hK')) //; case: (s1 k hk).
split; first by apply/eqP; rewrite -subr_eq0 -mevalB -jet0 j1.
split; first by apply/eqP; rewrite -subr_eq0 -mevalB -jet0 j2.
set x := corner T (first e); set t := tangent T e; set n := normal T e.
have hz : (msize (u - u') <= 3)%N by apply: size_sub; [exact: field_size hK he|exact: field_size hK' he'].
have it : integral (line (along (u - u') t) x t) = 0.
  rewrite -line_deriv integral_deriv !line_eval (meval_eq _ (at_first c w K e)) (meval_eq _ (at_second c w K e)).
  by rewrite -!jet0 j1 // j2 // subrr.
have hw0 : edge_weight T e != 0 /\ edge_weight T e = edge_weight (shape_of c w K') e'.
  split; first exact/lt0r_neq0/(edge_weight_pos hK.1 he).
  by rewrite /= /w /size_weight; case: hm => _ [_ [/= -> ->]].
have hmid : (line (along (u - u') n) x t).[1 / 2%:R] = 0.
  have E : midpoint_dof T (field 6 6 M K a) e 0 = midpoint_dof (shape_of c w K') (field 6 6 M K' a') e' 0.
    by rewrite (midpoint_edge (hn _ hK)) // (midpoint_edge (hn _ hK')) // s2.
  move: E; rewrite /midpoint_dof -hw0.2 => /(mulfI hw0.1) E.
  by rewrite -(flux_diff hK.1 hK'.1 he he' hm) hornerD hornerN E subrr.
have hin : integral (line (along (u - u') n) x t) = 0.
  have hp : (size (line (along (u - u') n) x t) <= 2)%N by apply: (leq_trans (line_size _ _ _)); exact: along_size.
  transitivity ((line (along (u - u') n) x t).[1 / 2%:R]); last exact: hmid.
  rewrite (horner_small _ hp) (integral_wide hp) !big_ord_recl !big_ord0 /= /bump /= ?add1n ?addr0 ?expr0 ?expr1.
  by move: (line _ _ _)`_0 (line _ _ _)`_1 => A B; field.
move=> i; apply/eqP; rewrite -subr_eq0; apply/eqP.
rewrite -mulN1r -integralZ -integralD scaleN1r -line_sub -mderivB.
have hL := length_pos hK.1 he; have hL2 := length_sq hK.1 (w (geo K)) he.
pose I j := integral (line (u - u')^`M(j) x t).
have e1 : t 0 * I 0 + t 1 * I 1 = 0 by rewrite -it /along sum2 lineD !lineZ integralD !integralZ.
have e2 : t 1 * I 0 - t 0 * I 1 = 0.
  have : n 0 * I 0 + n 1 * I 1 = 0 by rewrite -hin /along sum2 lineD !lineZ integralD !integralZ.
  have -> : n 0 = t 1 / physical_edge_lengths (geo K) e by [].
  have -> : n 1 = - t 0 / physical_edge_lengths (geo K) e by [].
  have hL0 := lt0r_neq0 hL.
  move: (physical_edge_lengths (geo K) e) hL0 (t 0) (t 1) (I 0) (I 1) => l hl t0 t1 i0 i1 E.
  apply: (mulIf (invr_neq0 hl)); rewrite mul0r; apply: etrans E; by field.
have hS : t 0 ^+ 2 + t 1 ^+ 2 != 0.
  rewrite /t /T -[shape_of c w K]/(physical c (map_of K) (physical_edge_lengths (geo K)) (cell_size (geo K)) (w (geo K))).
  by rewrite -[map_of K]/(affine (matrix K) (origin K)) -hL2 expf_neq0 // lt0r_neq0.
apply: (mulfI hS); rewrite mulr0 -/(I i).
case: (ord2 i) => ->.
  transitivity (t 0 * (t 0 * I 0 + t 1 * I 1) + t 1 * (t 1 * I 0 - t 0 * I 1)); last by rewrite e1 e2 !mulr0 addr0.
  move: (t 0) (t 1) (I 0) (I 1) => *; ring.
transitivity (t 1 * (t 0 * I 0 + t 1 * I 1) - t 0 * (t 1 * I 0 - t 0 * I 1)); last by rewrite e1 e2 !mulr0 subr0.
move: (t 0) (t 1) (I 0) (I 1) => *; ring.
Qed.

(** ** Constraints *)
Section Constrained.
Variables (nv n N : nat) (M : geometry (F := F) -> nat -> nat -> F) (p : {poly F}) (w : geometry (F := F) -> nat -> F).
Hypothesis hnv : n = (3 * nv)%N.
Variable K : cell F.
Local Notation T := (shape_of c w K).
Hypothesis hn : forall l, (l < n)%N -> let psi := combination N (M (geo K) l) (funs K) in
  (forall v (k : nat), (v < 3)%N -> (k < nv)%N -> vertex_dof T psi v k = (v * nv + k == l)%N%:R) /\
  (forall e, (e < 3)%N -> integral (flux T psi e * p) = 0).

Lemma constrained_vertex a v k : (v < 3)%N -> (k < nv)%N -> vertex_dof T (field n N M K a) v k = a (v * nv + k)%N.
Proof.
move=> hv hk.
have hi : (v * nv + k < n)%N by rewrite hnv; case: v hv => [|[|[|v]]] // _; lia.
exact: (@field_dof F n (fun f => vertex_dof T f v k) _ a _ (vertex_linear T v k) hi (fun j hj => (hn hj).1 _ _ hv hk)).
Qed.

Lemma constrained_flux a e : (e < 3)%N -> integral (flux T (field n N M K a) e * p) = 0.
Proof.
move=> he; rewrite (flux_linear T p e) big1 // => l _.
by rewrite (hn (ltn_ord l)).2 // mulr0.
Qed.
End Constrained.

Lemma bell_conforming (w : geometry (F := F) -> nat -> F) K K' e e' a a' :
  let ref := fun f => numbered 6 1 (vertex_dof R f) (constraint_dof R (legendre4 F) f) (fun _ => 0) in
  let M := fun g => bell_transformation o c g in
  based c w 21 6 6 ref K -> based c w 21 6 6 ref K' -> (e < 3)%N -> (e' < 3)%N ->
  meet (shape_of c w K) e (shape_of c w K') e' -> shared 6 0 a e a' e' ->
  smooth_across (shape_of c w K) e (field 18 21 M K a e) (field 18 21 M K' a' e').
Proof.
move=> ref M hK hK' he he' hm [s1 _].
have [f1 f2] := first_other he; have [g1 g2] := first_other he'.
have [f3 f4] := second_other he; have [g3 g4] := second_other he'.
have hn K0 (h0 : based c w 21 6 6 ref K0) := @bell_nodal_proof F c (geo K0) (matrix K0) (origin K0) hc h0.1 (w (geo K0)) (funs K0) h0.2.1 h0.2.2.1 h0.2.2.2.
apply: (@bell_conform _ c w K K' hK.1 hK'.1 e e' he he' hm) => // [||||k hk|k hk||].
- exact: field_smooth hK.
- exact: field_smooth hK'.
- exact: field_size hK he.
- exact: field_size hK' he'.
- by rewrite (constrained_vertex (nv := 6) erefl (hn _ hK)) // (constrained_vertex (nv := 6) erefl (hn _ hK')) //; case: (s1 k hk).
- by rewrite (constrained_vertex (nv := 6) erefl (hn _ hK)) // (constrained_vertex (nv := 6) erefl (hn _ hK')) //; case: (s1 k hk).
- exact: (constrained_flux (hn _ hK)).
- exact: (constrained_flux (hn _ hK')).
Qed.

Lemma reduced_conforming (w : geometry (F := F) -> nat -> F) K K' e e' a a' :
  let ref := fun f => numbered 3 1 (vertex_dof R f) (constraint_dof R (legendre2 F) f) (fun _ => 0) in
  let M := fun g => reduced_hct_transformation o c g in
  based c w 12 3 4 ref K -> based c w 12 3 4 ref K' -> (e < 3)%N -> (e' < 3)%N ->
  meet (shape_of c w K) e (shape_of c w K') e' -> shared 3 0 a e a' e' ->
  smooth_across (shape_of c w K) e (field 9 12 M K a e) (field 9 12 M K' a' e').
Proof.
move=> ref M hK hK' he he' hm [s1 _].
have [f1 f2] := first_other he; have [g1 g2] := first_other he'.
have [f3 f4] := second_other he; have [g3 g4] := second_other he'.
have hn K0 (h0 : based c w 12 3 4 ref K0) := @reduced_nodal_proof F c (geo K0) (matrix K0) (origin K0) hc h0.1 (w (geo K0)) (funs K0) h0.2.1 h0.2.2.1 h0.2.2.2.
apply: (@reduced_conform _ c w K K' hK.1 hK'.1 e e' he he' hm) => // [||||k hk|k hk||].
- exact: field_smooth hK.
- exact: field_smooth hK'.
- exact: field_size hK he.
- exact: field_size hK' he'.
- by rewrite (constrained_vertex (nv := 3) erefl (hn _ hK)) // (constrained_vertex (nv := 3) erefl (hn _ hK')) //; case: (s1 k hk).
- by rewrite (constrained_vertex (nv := 3) erefl (hn _ hK)) // (constrained_vertex (nv := 3) erefl (hn _ hK')) //; case: (s1 k hk).
- exact: (constrained_flux (hn _ hK)).
- exact: (constrained_flux (hn _ hK')).
Qed.
End Elements.

(** ** Hermite *)
Section Hermite.
Variables (F : realFieldType) (n : nat) (c : simplex (F := F)).
Hypothesis hdim : sx_dim c = n.
Hypothesis hlen : List.length (sx_vertices c) = n.+1.
Variables (N : nat) (inner : {mpoly F[n]} -> nat -> F).
Hypothesis hN : (n.+1 * n.+1 <= N)%N.
Hypothesis hinner : forall k m (a : 'I_m -> F) (phi : nat -> {mpoly F[n]}), inner (\sum_(j < m) a j *: phi j) k = \sum_(j < m) a j * inner (phi j) k.
Implicit Types (K : hermite_cell F n) (a : nat -> F).

Lemma hermite_coefficient K a v k : hermite_based c N inner K -> (v <= n)%N -> (k <= n)%N ->
  (if (k == 0)%N then 1 else cell_size (h_geo K) v) * jet (hermite_field c N K a) (h_vertex c K v) k = a (v * n.+1 + k)%N.
Proof.
move=> [h1 [h2 [h3 h4]]] hv hk.
have hi : (v * n.+1 + k < N)%N.
  apply: leq_trans hN; apply: (@leq_trans (v * n.+1 + n.+1)); first by rewrite ltn_add2l ltnS.
  by rewrite -mulSnr leq_mul2r ltnS hv orbT.
pose psi l := \sum_(j < N) hermite_transformation (ring_ops F) c (h_geo K) l j *: h_funs K j.
have hn l : (l < N)%N -> (if (k == 0)%N then 1 else cell_size (h_geo K) v) * jet (psi l) (h_vertex c K v) k = (v * n.+1 + k == l)%N%:R.
  move=> hl.
  have := @hermite_nodal_proof F n c (h_geo K) (h_map K) hdim hlen h1 h2 N (fun j _ => h_funs K j)
    (fun f k => inner (f 0%N) k) (fun f k => inner (pull (h_map K) (f 0%N)) k) hN (fun f k => erefl) _ h4 _ l hi hl.
  rewrite /hermite_dof divnMDl // divn_small ?ltnS // addn0 modnMDl modn_small ?ltnS // hv => <- //.
  move=> b i; rewrite -(hinner i b (fun j => pull (h_map K) (h_funs K j))); congr (inner _ _).
  by rewrite /pull raddf_sum /=; apply: eq_bigr => j _; rewrite linearZ.
rewrite /hermite_field (jet_comb N a psi) mulr_sumr (bigD1 (Ordinal hi)) //= mulrCA hn // eqxx mulr1 big1 ?addr0 // => j hj.
rewrite mulrCA hn // eq_sym; case: eqP => [E|_]; last by rewrite mulr0.
by case/eqP: hj; apply: val_inj.
Qed.

Section Two.
Variables (K K' : hermite_cell F n) (a a' : nat -> F).
Hypothesis hK : hermite_based c N inner K.
Hypothesis hK' : hermite_based c N inner K'.
Local Notation u := (hermite_field c N K a).
Local Notation u' := (hermite_field c N K' a').

Lemma hermite_jets v v' k : (v <= n)%N -> (v' <= n)%N -> (forall i, h_vertex c K v i = h_vertex c K' v' i) ->
  cell_size (h_geo K) v = cell_size (h_geo K') v' -> (forall k, (k <= n)%N -> a (v * n.+1 + k)%N = a' (v' * n.+1 + k)%N) ->
  (k <= n)%N -> jet u (h_vertex c K v) k = jet u' (h_vertex c K v) k.
Proof.
move=> hv hv' hx hs ha hk.
have E1 := hermite_coefficient a hK hv hk; have E2 := hermite_coefficient a' hK' hv' hk.
rewrite -hs -(ha k hk) -E1 -(jet_ext _ _ hx) in E2.
have hw : (if (k == 0)%N then 1 else cell_size (h_geo K) v) != 0.
  by case: ifP => _; rewrite ?oner_neq0 //; case: hK => _ [h _]; exact: h.
by move/(mulfI hw): E2.
Qed.

Lemma hermite_conforming v v' w w' : (v <= n)%N -> (v' <= n)%N -> (w <= n)%N -> (w' <= n)%N ->
  (forall i, h_vertex c K v i = h_vertex c K' v' i) -> (forall i, h_vertex c K w i = h_vertex c K' w' i) ->
  cell_size (h_geo K) v = cell_size (h_geo K') v' -> cell_size (h_geo K) w = cell_size (h_geo K') w' ->
  (forall k, (k <= n)%N -> a (v * n.+1 + k)%N = a' (v' * n.+1 + k)%N /\ a (w * n.+1 + k)%N = a' (w' * n.+1 + k)%N) ->
  (forall i, u^`M(i).@[h_vertex c K v] = u'^`M(i).@[h_vertex c K v]) /\
  forall s, let x : point F n := fun i => h_vertex c K v i + s * (h_vertex c K w i - h_vertex c K v i) in u.@[x] = u'.@[x].
Proof.
move=> hv hv' hw hw' xv xw sv sw ha.
have jv k : (k <= n)%N -> jet u (h_vertex c K v) k = jet u' (h_vertex c K v) k.
  by move=> hk; apply: (hermite_jets hv hv' xv sv) => // k' hk'; case: (ha k' hk').
have jw k : (k <= n)%N -> jet u (h_vertex c K w) k = jet u' (h_vertex c K w) k.
  by move=> hk; apply: (hermite_jets hw hw' xw sw) => // k' hk'; case: (ha k' hk').
split=> [i|]; first by rewrite -!jet1 jv.
set x := h_vertex c K v; pose t : point F n := fun i => h_vertex c K w i - h_vertex c K v i.
have xs i : x i + 0 * t i = h_vertex c K v i by rewrite mul0r addr0.
have ys i : x i + 1 * t i = h_vertex c K w i by rewrite mul1r /t addrC subrK.
have van s y : (forall i, x i + s * t i = y i) -> (forall k, (k <= n)%N -> jet u y k = jet u' y k) -> vanishes 2 (line u x t - line u' x t) s.
  move=> hy hj; case=> [|[|k]] // _.
    by rewrite derivn0 hornerD hornerN !line_eval !(meval_eq _ hy) -!jet0 hj // subrr.
  rewrite derivn1 derivB !line_deriv hornerD hornerN !line_eval !(meval_eq _ hy) /along !(big_morph _ (mevalD _) (meval0 _)) -sumrB big1 // => i _.
  by rewrite !mevalZ -!jet1 hj // subrr.
have sz K0 b : hermite_based c N inner K0 -> (msize (hermite_field c N K0 b) <= 4)%N.
  case=> _ [_ [h _]]; apply: (leq_trans (mmeasure_sum _ _ _ _)); apply/bigmax_leqP => l _.
  apply: (leq_trans (mmeasureZ_le _ _ _)); apply: (leq_trans (mmeasure_sum _ _ _ _)); apply/bigmax_leqP => j _.
  by apply: (leq_trans (mmeasureZ_le _ _ _)); apply: h.
have z : line u x t - line u' x t = 0.
  apply: (ends_zero (r := 2)); [|exact: van xs jv|exact: van ys jw].
  apply: (leq_trans (size_add _ _)); rewrite geq_max size_opp.
  by apply/andP; split; apply: (leq_trans (line_size _ _ _)); apply: sz.
move=> s y; have := congr1 (fun p => p.[s]) z; rewrite hornerD hornerN horner0 !line_eval => /eqP.
by rewrite subr_eq0 => /eqP.
Qed.
End Two.
End Hermite.
