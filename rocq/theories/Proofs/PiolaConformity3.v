(** Functionals on facets, vector fields, and cells with reference bases. *)
From Coq Require Import String.
From mathcomp Require Import all_ssreflect all_algebra ring.
From SsrMultinomials Require Import mpoly.
From Verif Require Import Model.Prelude Model.Gem Model.Cell Model.Element Model.Piola Model.Zany Model.PiolaElements.
From Verif Require Import Spec.Algebra Spec.Polynomials Spec.EntityDofs Spec.PiolaElements Spec.PiolaConformity.
From Verif Require Import Proofs.Determinant Proofs.PiolaFacts Proofs.Polynomials Proofs.Integrals Proofs.EdgeUnisolvence.
From Verif Require Import Proofs.PiolaFields Proofs.PiolaMatrices Proofs.PiolaVectors Proofs.PiolaConformity Proofs.PiolaConformity2.
Set Implicit Arguments.
Unset Strict Implicit.
Unset Printing Implicit Defensive.
Import GRing.Theory Num.Theory.
Local Open Scope ring_scope.

Section Functionals.
Variable F : realFieldType.
Implicit Types q : {mpoly F[1]}.
Local Notation edge q := (line q (fun _ => 0) (fun _ => 1)).

Definition unline (p : {poly F}) : {mpoly F[1]} := (map_poly (@mpolyC 1 F) p).['X_0].
Lemma unline_line q : unline (edge q) = q.
Proof.
elim/mpoly_induction: q => [c|i|f g hf hg|f g hf hg].
- by rewrite lineC /unline map_polyC hornerC.
- by rewrite lineX /unline scale1r polyC0 add0r map_polyX hornerX ord1.
- by rewrite lineD /unline rmorphD hornerD -!/(unline _) hf hg.
- by rewrite lineMM /unline rmorphM hornerM -!/(unline _) hf hg.
Qed.
Lemma edge_zero q : edge q = 0 -> q = 0.
Proof. by move=> h; rewrite -[q]unline_line h /unline rmorph0 horner0. Qed.
Lemma edge_at q x : (edge q).[x] = q.@[fun _ => x].
Proof. by rewrite line_eval; apply: meval_eq => i; rewrite add0r mulr1. Qed.

Lemma roots_zero q (xs : seq F) : uniq xs -> (msize q <= size xs)%N -> (forall x, x \in xs -> q.@[fun _ => x] = 0) -> q = 0.
Proof.
move=> hu hs h; apply: edge_zero; apply/eqP; apply: contraTT (leq_trans (line_size q (fun _ => 0) (fun _ => 1)) hs) => hn.
rewrite -ltnNge; apply: max_poly_roots => //; apply/allP => x hx; by rewrite /root edge_at h.
Qed.

Lemma points_determine d (x : nat -> F) :
  (forall i j, (i < d.+1)%N -> (j < d.+1)%N -> x i = x j -> i = j) -> determine d d.+1 (fun k => edge_value (x k)).
Proof.
move=> hx q hq h; apply: (@roots_zero q (map x (iota 0 d.+1))).
- rewrite map_inj_in_uniq ?iota_uniq // => i j; rewrite !mem_iota /= !add0n; exact: hx.
- by rewrite size_map size_iota.
- by move=> y /mapP [k]; rewrite mem_iota /= add0n => hk ->; exact: h.
Qed.
Lemma points_determine_inside d (x : nat -> F) :
  (forall i j, (i < d)%N -> (j < d)%N -> x i = x j -> i = j) -> (forall i, (i < d)%N -> x i != 0 /\ x i != 1) ->
  determine_inside d.+1 d (fun k => edge_value (x k)).
Proof.
move=> hx h01 q hq q0 q1 h; apply: (@roots_zero q [:: 0, 1 & map x (iota 0 d)]).
- rewrite /= map_inj_in_uniq ?iota_uniq ?andbT; last by move=> i j; rewrite !mem_iota /= !add0n; exact: hx.
  rewrite !inE eq_sym oner_eq0 /=; apply/andP; split; apply/mapP => -[k]; rewrite mem_iota /= add0n => hk e.
  + by have [] := h01 _ hk; rewrite -e eqxx.
  + by have [_] := h01 _ hk; rewrite -e eqxx.
- by rewrite /= size_map size_iota.
- move=> y; rewrite !inE => /or3P [/eqP ->|/eqP ->|/mapP [k]] //.
  by rewrite mem_iota /= add0n => hk ->; exact: h.
Qed.

Lemma moments_determine d (P : nat -> {poly F}) : (forall k, size (P k) = k.+1) -> determine d d.+1 (fun k => edge_moment (P k)).
Proof.
move=> hP q hq h; apply: edge_zero; apply: (@unisolvent _ d.+1 0) => //; first exact: leq_trans (line_size _ _ _) hq.
by apply: (@span _ d.+1 P) => // k hk; exact: h.
Qed.
Lemma moments_determine_inside d (P : nat -> {poly F}) : (forall k, size (P k) = k.+1) ->
  determine_inside d.+1 d (fun k => edge_moment (P k)).
Proof.
move=> hP q hq q0 q1 h; apply: edge_zero; apply: (@unisolvent _ d 1).
- exact: leq_trans (line_size _ _ _) hq.
- by case=> // _; rewrite derivn0 edge_at.
- by case=> // _; rewrite derivn0 edge_at.
- by apply: (@span _ d P) => // k hk; exact: h.
Qed.
End Functionals.

Section Corners.
Variables (F : realFieldType) (m : nat).
Lemma linear_mpoly (q : {mpoly F[m]}) : (msize q <= 2)%N -> q = (q@_0%MM)%:MP + \sum_(i < m) q@_(U_(i))%MM *: 'X_i.
Proof.
move=> hq; apply/mpolyP => mm; rewrite mcoeffD mcoeffC raddf_sum /=.
have xe (i : 'I_m) : (q@_U_(i) *: 'X_i)@_mm = q@_U_(i) * (U_(i)%MM == mm)%:R by rewrite mcoeffZ mcoeffX.
under eq_bigr => i _ do rewrite xe.
have [h0|h0] := eqVneq mm 0%MM.
  rewrite h0 mulr1 big1 ?addr0 // => i _; case: eqP => [e|_]; last by rewrite mulr0.
  by have := mdeg1 i; rewrite e mdeg0.
rewrite mulr0 add0r; have [h1|h1] := eqVneq (mdeg mm) 1%N.
  have /mdeg1P [i /eqP ei] : mdeg mm == 1%N by rewrite h1.
  rewrite (bigD1 i) //= ei eqxx mulr1 big1 ?addr0 // => j hj.
  case: eqP => [e|_]; last by rewrite mulr0.
  by have := congr1 (fun mn : 'X_{1.. m} => mn i) e; rewrite !mnm1E eqxx (negbTE hj).
have hb : (2 <= mdeg mm)%N.
  have : mdeg mm != 0%N by rewrite mdeg_eq0.
  by move: h1; case: (mdeg mm) => [|[|k]].
rewrite big1 => [|i _]; last by case: eqP => [e|_]; rewrite ?mulr0 //; move: hb; rewrite -e mdeg1.
apply: memN_msupp_eq0; apply: contraTN hb => hin; rewrite -ltnNge; exact: leq_trans (msize_mdeg_lt hin) hq.
Qed.
Lemma corners_determine : determine 1 m.+1 (@corner_value F m).
Proof.
move=> q hq h; rewrite (linear_mpoly hq).
have ev k : q.@[fun i : 'I_m => (k == i.+1)%:R] = q@_0%MM + \sum_(i < m) q@_(U_(i))%MM * (k == i.+1)%:R.
  rewrite {1}(linear_mpoly hq) mevalD mevalC raddf_sum /=; congr (_ + _).
  by apply: eq_bigr => i _; rewrite mevalZ mevalXU.
have z : q@_0%MM = 0.
  have := h 0%N isT; rewrite /corner_value ev big1 ?addr0 // => i _; by rewrite mulr0.
rewrite z mpolyC0 add0r big1 // => i _.
have := h i.+1; rewrite ltnS => /(_ (ltn_ord i)); rewrite /corner_value ev z add0r (bigD1 i) //= eqxx mulr1 big1 => [|j hj].
  by rewrite addr0 => ->; rewrite scale0r.
case: eqP => [[e]|_]; last by rewrite mulr0.
by move/eqP: hj; case; apply: val_inj.
Qed.
End Corners.

(** ** Mardal-Tai-Winther *)
Lemma mtw_conforming : forall (F : realFieldType) (c : scell (F := F)), fiat_cell 1 c ->
  forall N ndof dofs (sense : nat -> vnode F 1), (ndof <= N)%N ->
  (forall i, (i < N)%N -> vlinear (sense i)) ->
  edofs_ok (topology (Simplex 2)) ndof dofs ->
  (forall f l, has_dofs dofs (DI 1) f l -> exists a r p lam, l = a :: r /\ List.In a.+1 r /\
     sense a = Normal p f lam /\ sense a.+1 = Tangential p f lam 0) ->
  (forall i, (i < N)%N -> shared (sense i) \/ exists f a r, has_dofs dofs (DI 1) f (a :: r) /\ i = a.+1) ->
  forall d L pf idx lam,
  (forall g k, (g <= 2)%N -> (k < L)%N -> (idx g k < N)%N /\ sense (idx g k) = Normal (pf g) g (lam k)) ->
  determine d L lam ->
  forall (K K' : pcell F 1 (vfield F 1)) M M' f f' (a a' : nat -> F),
  vbased c N d sense pf K -> vbased c N d sense pf K' ->
  mtw_transformation (ring_ops F) N ndof dofs c (pgeo K) = Ok M ->
  mtw_transformation (ring_ops F) N ndof dofs c (pgeo K') = Ok M' ->
  (f <= 2)%N -> (f' <= 2)%N -> same_facet (pfacet c K f) (pfacet c K' f') ->
  (forall k, (k < L)%N -> (idx f k < ndof)%N = (idx f' k < ndof)%N /\ ((idx f k < ndof)%N -> a (idx f k) = a' (idx f' k))) ->
  let u := vfield_of N ndof M K a in let u' := vfield_of N ndof M' K' a' in
  normal_continuous (pfacet c K f) u u' (pf f) (pf f') /\
  forall t t' k, (t < ndof)%N -> (t' < ndof)%N -> (k < L)%N ->
    sense t = Tangential (pf f) f (lam k) 0 -> sense t' = Tangential (pf f') f' (lam k) 0 -> a t = a' t' ->
    vector_moment (pfacet c K f) (lam k) u u' (pf f) (pf f').
Proof.
move=> F c hc N ndof dofs sense hN hl he hn hsh d L pf idx lam hidx hd K K' M M' f f' a a' hK hK' eM eM' hf hf' hm ha u u'.
have [g0 _] := hK; have [g0' _] := hK'.
have [M0 [e0 t0]] := mtw_transforms (porigin K) hc g0 hN hl he hn hsh.
have [M0' [e0' t0']] := mtw_transforms (porigin K') hc g0' hN hl he hn hsh.
have T := ok_same eM e0 t0; have T' := ok_same eM' e0' t0'.
split; first exact: (normals hl hK hK' T T' hf hf' hidx ha hm hd).
move=> t t' k ht ht' hk s1 s2 ea; set X := pfacet c K f.
have eN : fnormal (pfacet c K' f') = fnormal X by rewrite -(same_normal hm).
have ec q : chart (pfacet c K' f') q = chart X q by rewrite -(same_chart _ hm).
have et : ftangent (pfacet c K' f') 0 = ftangent X 0 by rewrite -(same_tangent hm).
have [h1 n1] := hidx _ _ hf hk; have [h2 n2] := hidx _ _ hf' hk; have [hlt hco] := ha _ hk.
have hlin : is_linear (lam k) by have := hl _ h1; rewrite n1.
have := vfield_dof hl a hK T h1; have := vfield_dof hl a' hK' T' h2.
rewrite n1 n2 /= -/(pfacet c K' f') -/(pfacet c K f) -/X -/u -/u' ec eN => d2 d1.
have := vfield_dof hl a hK T (leq_trans ht hN); have := vfield_dof hl a' hK' T' (leq_trans ht' hN).
rewrite s1 s2 ht ht' /= -/(pfacet c K' f') -/(pfacet c K f) -/X -/u -/u' ec et => d4 d3.
have z : vvec (lam k) X (u (pf f)) - vvec (lam k) X (u' (pf f')) = 0.
  have hX : fnormal X != 0.
    by have [_ [_ [h _]]] := hc; apply: moved_normal; [case: g0|exact: h].
  have iB (x v w : 'cV[F]_2) : inner x (v - w) = inner x v - inner x w by rewrite /inner mulmxBr mxE [X in _ + X]mxE.
  apply: (frame_zero hX) => [|l]; rewrite iB -!vfunctional //.
    rewrite d1 d2 -hlt; case: ltnP => h; last by rewrite subrr.
    by rewrite hco // subrr.
  by rewrite ltnS leqn0 => /eqP ->; rewrite d3 d4 ea subrr.
move=> i; move/eqP: z; rewrite subr_eq0 => /eqP /(congr1 (fun v : 'cV[F]_2 => v i 0)); by rewrite !vvecE.
Qed.
