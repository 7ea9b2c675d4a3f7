(** The rows of the transformations of Argyris, Bell and Hsieh-Clough-Tocher
    elements. *)
From mathcomp Require Import all_ssreflect all_algebra ring.
From SsrMultinomials Require Import mpoly.
From Verif Require Import Model.Gem Model.Piola Model.Zany Spec.Algebra Spec.Polynomials Spec.Zany.
From Verif Require Import Proofs.Determinant Proofs.PiolaFacts Proofs.Polynomials Proofs.Integrals Proofs.ZanySums Proofs.VertexTransform Proofs.EdgeGeometry Proofs.EdgeRows.
From mathcomp Require Import zify.
Set Implicit Arguments.
Unset Strict Implicit.
Unset Printing Implicit Defensive.
Import GRing.Theory Num.Theory.
Local Open Scope ring_scope.

Section Elements.
Variable F : realFieldType.
Local Notation o := (ring_ops F).
Variables (c : simplex (F := F)) (g : geometry (F := F)) (J : 'I_2 -> 'I_2 -> F) (b : point F 2).
Hypothesis hc : fiat_triangle c.
Hypothesis hg : provides g c J b.
Variable weights : nat -> F.
Local Notation q := (affine J b).
Local Notation R := (reference c).
Local Notation T := (physical c q (physical_edge_lengths g) (cell_size g) weights).
Local Notation L := (physical_edge_lengths g).
Implicit Types f : pieces F.

Fact hdim : sx_dim c = 2%N. Proof. by case: hc. Qed.
Fact hnv : List.length (sx_vertices c) = 3%N. Proof. by case: hc => _ []. Qed.
Fact hne : List.length (sx_edges c) = 3%N. Proof. by case: hc => _ [_ [-> _]]. Qed.
Fact hJ (x : seq F) (i j : 'I_2) : jacobian_at g x i j = J i j. Proof. by case: hg => _ [h _]. Qed.

(** Numbers of dofs at a vertex. *)
Definition jetsize vorder := (1 + 2 + hessians vorder 2)%N.
Definition order vorder := (vorder == 1)%N || (vorder == 2)%N.
Lemma jetsizeE vorder : order vorder -> comb (2 + vorder) vorder = jetsize vorder.
Proof. by case/orP => /eqP ->. Qed.

Local Notation VT vorder := (vertex_transform o (identity o) vorder c g).

Lemma vertex_sum vorder N (un : nat -> F) (p : {mpoly F[2]}) v a : order vorder ->
  let voff := jetsize vorder in
  (v < 3)%N -> (a < voff)%N -> (3 * voff <= N)%N ->
  (forall d, (d < voff)%N -> un (v * voff + d)%N = jet p (corner T v) d) ->
  \sum_(k < N) VT vorder (v * voff + a)%N k * un k = jet (pull q p) (corner R v) a.
Proof.
move=> ho voff hv ha hN hun.
have := @sum_vertex_row F vorder c g N v a un; rewrite hnv hdim => -> //.
rewrite (eq_bigr (fun d : 'I_(1 + 2 + hessians vorder 2) => vblock 2 (hessians vorder 2) (jacobian_at g (barycentre o c)) a d * jet p (image q (corner R v)) d)).
  have hh : hessians vorder 2 = 0%N \/ hessians vorder 2 = size (pairs 2).
    by case/orP: ho => /eqP ->; [left|right; rewrite pairs2].
  exact: (vblock_jet b (fun i j => hJ (barycentre o c) i j) hh).
by move=> d _; rewrite hun.
Qed.

Lemma vertex_base vorder i j : (3 * jetsize vorder <= i)%N -> VT vorder i j = identity o i j.
Proof. by move=> h; rewrite vertex_transformE hnv hdim -/(jetsize vorder) ltnNge h. Qed.

(** ** Scaled columns *)
Lemma unscale_sum N nv ne vd ed inner (r : nat -> F) : (0 < nv)%N ->
  \sum_(k < N) (r k * unscaled g nv 3 k) * numbered nv ne (fun v a => weight (cell_size g v) a * vd v a) ed inner k =
  \sum_(k < N) r k * numbered nv ne vd ed inner k.
Proof.
move=> hv; apply: eq_bigr => k _; rewrite -mulrA; congr (_ * _).
rewrite /unscaled /numbered; case: ltnP => h; last by rewrite mul1r.
rewrite mulrA mulVf ?mul1r // /weight.
have hq : (k %/ nv < 3)%N by rewrite ltn_divLR.
have : cell_size g (k %/ nv)%N != 0 by apply: lt0r_neq0; case: hg => _ [_ [_ [h' _]]]; apply: h'.
by move=> h0; case: ifP => _; [rewrite oner_eq0|case: ifP => _ //; rewrite mulf_neq0].
Qed.

(** ** Moments on edges *)
Definition moment_entries vorder m (avg : bool) e k : seq (nat * F) :=
  let s := (3 * jetsize vorder + e * (2 * m + 1) + k)%N in
  (s, if avg then bnn c g e * L e else bnn c g e) ::
  (((edge c e).2 * jetsize vorder)%N, 'C(k + vorder, k)%:R * bnt c g e) ::
  (((edge c e).1 * jetsize vorder)%N, - ((-1) ^+ k * 'C(k + vorder, k)%:R) * bnt c g e) ::
  (if (0 < k)%N then [:: ((s + m)%N, - bnt c g e)] else [::]).

Definition moment_fills vorder m avg :=
  [seq ((3 * jetsize vorder + e * (2 * m + 1) + k)%N, moment_entries vorder m avg e k) | e <- iota 0 3, k <- iota 0 m.+1].

Lemma edge_transformE V vorder m avg : order vorder ->
  Model.Zany.edge_transform o V vorder m c g avg = fills V (moment_fills vorder m avg).
Proof.
move=> ho; rewrite /Model.Zany.edge_transform hdim hnv hne plusE jetsizeE // /fills /moment_fills foldl_flatten foldl_map fold_leftE seq_iota.
apply: foldl_eq => {}V e.
rewrite foldl_map.
have -> : normal_tangential_transform o c (jacobian_at g (barycentre o c)) (detJ_at g (barycentre o c)) e = (bnn c g e, bnt c g e, (nt c g e).2).
  by rewrite /bnn /bnt -/(nt c g e); case: (nt c g e) => [[]].
rewrite fold_leftE (addn1 m) !multE; apply: foldl_eq => {}V k.
rewrite /edge_moment /moment_entries natE numE combE alternateE.
by case: (0 < k)%N.
Qed.

Lemma edge_distinct e n : (e < 3)%N -> (0 < n)%N -> ((edge c e).1 * n + n <= (edge c e).2 * n)%N /\ ((edge c e).2 * n + n <= 3 * n)%N.
Proof. move=> he hn; rewrite (edge_ends hc he) /=; case: e he => [|[|[|e]]] // _; rewrite /first /second /=; lia. Qed.

Lemma moment_rows vorder m avg : uniq (map fst (moment_fills vorder m avg)).
Proof.
rewrite /moment_fills map_allpairs.
apply: allpairs_uniq; rewrite ?iota_uniq // => p p' /allpairsP[[x y] [_ hy ->]] /allpairsP[[x' y'] [_ hy' ->]] h.
rewrite !mem_iota /= !add0n in hy hy'; rewrite /= in h.
have hm : (0 < 2 * m + 1)%N by rewrite addn1.
have h2 : (x * (2 * m + 1) + y = x' * (2 * m + 1) + y')%N by lia.
have hq : x = x'.
  have := congr1 (fun z => z %/ (2 * m + 1))%N h2; rewrite !divnMDl // !divn_small ?addn0 //; lia.
by move: h2; rewrite hq => /addnI ->.
Qed.

Lemma moment_sum vorder m avg N (un : nat -> F) e k : order vorder -> (e < 3)%N -> (k <= m)%N ->
  let voff := jetsize vorder in
  let s := (3 * voff + e * (2 * m + 1) + k)%N in
  (3 * voff + 3 * (2 * m + 1) <= N)%N ->
  \sum_(j < N) Model.Zany.edge_transform o (VT vorder) vorder m c g avg s j * un j =
  (if avg then bnn c g e * L e else bnn c g e) * un s +
  'C(k + vorder, k)%:R * bnt c g e * un (second e * voff)%N +
  - ((-1) ^+ k * 'C(k + vorder, k)%:R) * bnt c g e * un (first e * voff)%N +
  (if (0 < k)%N then - bnt c g e * un (s + m)%N else 0).
Proof.
move=> ho he hk voff s hN.
have hv : (0 < voff)%N by [].
have [hd1 hd2] := edge_distinct he hv.
have hs1 : (3 * voff <= s)%N by rewrite /s -addnA leq_addr.
have hs2 : (s + m < N)%N by case: e he @s hs1 {hd1 hd2} => [|[|[|e]]] // _ s hs1; rewrite /s; lia.
rewrite (eq_bigr (fun j : 'I_N => puts_row (rowput (identity o s) s (if avg then bnn c g e * L e else bnn c g e)) (behead (moment_entries vorder m avg e k)) j * un j)); last first.
  move=> j _; rewrite edge_transformE // (@fills_in _ _ _ _ (moment_entries vorder m avg e k)) ?moment_rows //; last first.
    by apply/allpairsP; exists (e, k); rewrite !mem_iota.
  congr (_ * _).
  transitivity (puts_row (rowput (VT vorder s) s (if avg then bnn c g e * L e else bnn c g e)) (behead (moment_entries vorder m avg e k)) j) => //.
  by apply: puts_row_ext => i; rewrite /rowput; case: eqP => // _; exact: vertex_base.
rewrite sum_puts /=.
- rewrite sum_base; last by lia.
  rewrite !big_cons (edge_ends hc he) /= -/s -/voff; case: (0 < k)%N; rewrite ?big_cons big_nil /=; ring.
- rewrite -/voff -/s; case: (posnP k) => h /=; rewrite ?inE; lia.
- rewrite -/voff -/s; case: (posnP k) => h /=; rewrite ?andbT; lia.
- move=> p /(map_f fst); rewrite -/voff -/s => hp.
  have hps : p.1 != s by move: hp; case: (posnP k) => h /=; rewrite !inE; lia.
  by rewrite /rowput (negbTE hps) identity_off // eq_sym.
Qed.

Lemma weight1 a : weight 1 a = 1 :> F.
Proof. by rewrite /weight; case: ifP => // _; case: ifP => // _; rewrite mulr1. Qed.

Lemma first_other e : (e < 3)%N -> (first e < 3)%N /\ first e != e.
Proof. by case: e => [|[|[|e]]]. Qed.
Lemma second_other e : (e < 3)%N -> (second e < 3)%N /\ second e != e.
Proof. by case: e => [|[|[|e]]]. Qed.

(** Elements with vertex dofs and moments on edges. *)
Lemma moment_element vorder m (avg : bool) N f inner i : order vorder ->
  let voff := jetsize vorder in
  (forall e, (e < 3)%N -> weights e = if avg then 1 else L e) ->
  smooth T f voff -> (3 * voff + 3 * (2 * m + 1) <= N)%N -> (i < N)%N ->
  numbered voff (2 * m + 1) (vertex_dof R (pulled q f)) (moment_dof R vorder m (pulled q f)) inner i =
  \sum_(j < N) (Model.Zany.edge_transform o (VT vorder) vorder m c g avg i j * unscaled g voff 3 j) *
    numbered voff (2 * m + 1) (vertex_dof T f) (moment_dof T vorder m f) inner j.
Proof.
move=> ho voff hw hs hN hi; have hv : (0 < voff)%N by [].
rewrite (@unscale_sum N voff (2 * m + 1) (fun v a => jet (f (edge_at v)) (corner T v) a) (moment_dof T vorder m f) inner) //.
set un := numbered voff (2 * m + 1) (fun v a => jet (f (edge_at v)) (corner T v) a) (moment_dof T vorder m f) inner.
have unv v a : (v < 3)%N -> (a < voff)%N -> un (v * voff + a)%N = jet (f (edge_at v)) (corner T v) a.
  by move=> h1 h2; rewrite /un numbered_vertex.
have unv0 v : (v < 3)%N -> un (v * voff)%N = jet (f (edge_at v)) (corner T v) 0.
  by move=> h; rewrite -(unv v 0%N h hv) addn0.
have une e k : (e < 3)%N -> (k < 2 * m + 1)%N -> un (3 * voff + e * (2 * m + 1) + k)%N = moment_dof T vorder m f e k.
  by move=> h1 h2; rewrite /un numbered_edge.
have hrows : map fst (moment_fills vorder m avg) = [seq (3 * voff + e * (2 * m + 1) + k)%N | e <- iota 0 3, k <- iota 0 m.+1].
  by rewrite /moment_fills map_allpairs.
have hout j : (forall e k, (e < 3)%N -> (k <= m)%N -> j <> (3 * voff + e * (2 * m + 1) + k)%N) ->
    forall j', Model.Zany.edge_transform o (VT vorder) vorder m c g avg j j' = VT vorder j j'.
  move=> h j'; rewrite edge_transformE // fills_out // hrows; apply/allpairsP => -[[e k] [he hk]].
  by rewrite !mem_iota in he hk; apply: h.
case: (numbered_cases voff (2 * m + 1) i) => [[v [a [h1 h2 ->]]]|[[e [k [h1 h2 ei]]]|[k ei]]].
- rewrite numbered_vertex // /vertex_dof weight1 mul1r.
  rewrite (eq_bigr (fun j : 'I_N => VT vorder (v * voff + a)%N j * un j)); last first.
    move=> j _; rewrite hout // => e k he hk.
    have h : (v * voff + a < 3 * voff)%N by case: v h1 {hi} => [|[|[|v]]] // _; lia.
    by move=> h'; move: h; rewrite h' -addnA ltnNge leq_addr.
  rewrite (@vertex_sum vorder N un (f (edge_at v))) //; first by lia.
  by move=> d hd; rewrite unv.
- rewrite ei numbered_edge //; rewrite {1}/moment_dof; case: leqP => hk.
  + rewrite moment_sum //= mul1r (flux_moment hc hg weights) // unv0; last by case: (second_other h1).
    rewrite unv0; last by case: (first_other h1).
    rewrite une // trace_left trace_right.
    have [hf1 hf2] := first_other h1; have [hs1 hs2] := second_other h1.
    rewrite (hs e (first e)) // (hs e (second e)) //.
    rewrite /moment_dof hk -[edge_weight T e]/(weights e) hw //.
    have -> : (if (0 < k)%N then - bnt c g e * un (3 * voff + e * (2 * m + 1) + k + m)%N else 0) =
      - (bnt c g e * integral (trace T f e * (jacobi F vorder k)^`())).
      case: (posnP k) => h0; first by rewrite h0 jacobi0 -polyC1 derivC mulr0 integral0 mulr0 oppr0.
      rewrite -addnA une //; last by lia.
      rewrite /moment_dof ifF; last by lia.
      by rewrite addnK mulNr.
    by congr (_ + _ + _ + _); case: (avg); rewrite ?mul1r ?mulrA.
  + rewrite (eq_bigr (fun j : 'I_N => identity o i j * un j)); last first.
      move=> j _; rewrite -ei hout ?vertex_base //; first by rewrite ei -addnA leq_addr.
      move=> e' k' he' hk'; rewrite ei => h.
      have h3 : (e * (2 * m + 1) + k = e' * (2 * m + 1) + k')%N by lia.
      have hm : (0 < 2 * m + 1)%N by rewrite addn1.
      have hk2 : (k' < 2 * m + 1)%N by lia.
      have := congr1 (fun z => z %% (2 * m + 1))%N h3; rewrite !modnMDl !modn_small //; lia.
    rewrite sum_identity // ei une // /moment_dof leqNgt hk /=.
    by rewrite (trace_pull c g J b weights f e).
- rewrite (eq_bigr (fun j : 'I_N => identity o i j * un j)); last first.
    move=> j _; rewrite hout ?vertex_base //; first by rewrite ei -addnA leq_addr.
    move=> e' k' he' hk'; rewrite ei; case: e' he' => [|[|[|e']]] // _; lia.
  by rewrite sum_identity // ei numbered_inner /un numbered_inner.
Qed.
End Elements.
