(** The transformations of scalar elements do not depend on the size of the
    cell. *)
From mathcomp Require Import all_ssreflect all_algebra ring.
From SsrMultinomials Require Import mpoly.
From Coq Require Import String.
From Verif Require Import Model.Gem Model.Piola Model.Zany Spec.Algebra Spec.Polynomials Spec.Zany Spec.ZanySamples Spec.Scaling.
From Verif Require Import Proofs.Determinant Proofs.PiolaFacts Proofs.Polynomials Proofs.Integrals Proofs.ZanySums Proofs.VertexTransform Proofs.EdgeGeometry Proofs.EdgeRows Proofs.ZanyElements Proofs.ZanyEnds Proofs.HermiteTransform Proofs.MorleyTransform Proofs.PowellSabin Proofs.ZanySamples.
From mathcomp Require Import zify.
Set Implicit Arguments.
Unset Strict Implicit.
Unset Printing Implicit Defensive.
Import Order.TTheory GRing.Theory Num.Theory.
Local Open Scope ring_scope.

(** ** Weights on entries *)
Section Weights.
Variable F : realFieldType.
Local Notation M := (mtx (F := F)).
Variable w : nat -> nat -> F.
Definition wl s (l : seq (nat * F)) := [seq (p.1, w s p.1 * p.2) | p <- l].
Definition wls (ls : seq (nat * seq (nat * F))) := [seq (p.1, wl p.1 p.2) | p <- ls].

Lemma puts_weighted s l (V V' : M) i j : V' i j = w i j * V i j \/ i = s /\ j \in map fst l ->
  puts V' s (wl s l) i j = w i j * puts V s l i j.
Proof.
elim: l V V' => [|[k x] l IH] V V' h; first by case: h => [//|[]].
rewrite /puts /= -/(puts _ _ _) -/(puts (put V s k x) s l); apply: IH.
rewrite /put !eqbE; case: (eqVneq i s) h => [->|hs] h /=; last by case: h => [h|[]]; [left|move=> /eqP; rewrite (negbTE hs)].
case: (eqVneq j k) h => [->|hk] h /=; first by left.
by case: h => [h|[_]]; [left|rewrite in_cons (negbTE hk) /=; right].
Qed.

Lemma fills_weighted ls (V V' : M) i j : V' i j = w i j * V i j \/ (exists2 p, p \in ls & p.1 = i /\ j \in map fst p.2) ->
  fills V' (wls ls) i j = w i j * fills V ls i j.
Proof.
elim: ls V V' => [|[s l] ls IH] V V' h; first by case: h => [//|[]].
rewrite /fills /= -/(fills _ _) -/(fills (puts V s l) ls); apply: IH.
case: h => [h|[p]]; first by left; apply: puts_weighted; left.
rewrite in_cons => /orP[/eqP -> [/= <- hj]|hp hj]; last by right; exists p.
by left; apply: puts_weighted; right.
Qed.
End Weights.

Section Scale.
Variable F : realFieldType.
Local Notation o := (ring_ops F).
Variables (c : simplex (F := F)) (g g' : geometry (F := F)) (s : F).
Hypothesis hc : fiat_triangle c.
Hypothesis hs : enlarged s c g g'.
Local Notation L := (physical_edge_lengths g).
Local Notation L' := (physical_edge_lengths g').

Fact s_pos : 0 < s. Proof. by case: hs. Qed.
Fact s_neq0 : s != 0. Proof. exact: lt0r_neq0 s_pos. Qed.

Fact jac_scaled x y i j : (i < 2)%N -> (j < 2)%N -> jacobian_at g' x i j = s * jacobian_at g y i j.
Proof.
case: hs => _ [[J [b [b' [h h']]]] _] hi hj.
by rewrite (hJ h x (Ordinal hi) (Ordinal hj)) || rewrite (hJ h' x (Ordinal hi) (Ordinal hj)) (hJ h y (Ordinal hi) (Ordinal hj)).
Qed.

Fact det_scaled x y : detJ_at g' x = s * s * detJ_at g y.
Proof.
case: hs => _ [[J [b [b' [[_ [_ [h _]]] [_ [_ [h' _]]]]]]] _].
by rewrite h h'; ring.
Qed.

Fact length_scaled e : (e < 3)%N -> L' e = s * L e.
Proof.
move=> he; case: hs => hs0 [[J [b [b' [h h']]]] _].
have h1 := length_pos h he; have h2 := length_pos h' he.
have q1 := length_sq h (fun _ => 1) he; have q2 := length_sq h' (fun _ => 1) he.
have hq : L' e ^+ 2 = (s * L e) ^+ 2.
  rewrite q2 exprMn q1 !(tangent_mapped c g' _ _ _ e) !(tangent_mapped c g _ _ _ e) !sum2 /=; ring.
apply/eqP; rewrite -(@eqr_expn2 _ 2) ?hq //; first by rewrite ltW.
by rewrite ltW // mulr_gt0.
Qed.

Fact size_scaled v : (v < 3)%N -> cell_size g' v = s * cell_size g v.
Proof. by case: hs => _ [_ h]; exact: h. Qed.

Fact frame_scaled e (i : 'I_2) : (e < 3)%N -> physical_tangents g' e i = physical_tangents g e i /\
  physical_normals g' e i = physical_normals g e i /\ reference_normals g' e i = reference_normals g e i.
Proof.
move=> he; have hL := length_scaled he.
case: hs => hs0 [[J [b [b' [h h']]]] _].
have h1 := lt0r_neq0 (length_pos h he).
case: (h) => _ [_ [_ [_ k]]]; case: (h') => _ [_ [_ [_ k']]].
case: (k e he) => _ [_ q]; case: (k' e he) => _ [_ q'].
case: (q i) => [-> [-> ->]]; case: (q' i) => [-> [-> ->]].
have ht i' : tangent (physical c (affine (fun i j => s * J i j) b') L' (cell_size g') (fun _ => 1)) e i' =
    s * tangent (physical c (affine J b) L (cell_size g) (fun _ => 1)) e i'.
  by rewrite (tangent_mapped c g' _ _ _ e) (tangent_mapped c g _ _ _ e) !sum2; ring.
split; first by rewrite ht hL; field; rewrite h1 s_neq0.
split=> //; move: (ht 0) (ht 1); rewrite /physical /tangent /normal /clockwise /= => -> ->.
by rewrite hL; case: (i == 0); field; rewrite h1 s_neq0.
Qed.

Fact nt_scaled e : (e < 3)%N -> bnn c g' e = bnn c g e /\ bnt c g' e = bnt c g e /\
  (nt c g' e).2 0%N = s * (nt c g e).2 0%N /\ (nt c g' e).2 1%N = s * (nt c g e).2 1%N.
Proof.
move=> he; rewrite /bnn /bnt /nt !ntE.
have k i j (hi : (i < 2)%N) (hj : (j < 2)%N) := jac_scaled (barycentre o c) (barycentre o c) hi hj.
have hd := det_scaled (barycentre o c) (barycentre o c).
have k00 := k 0%N 0%N isT isT; have k01 := k 0%N 1%N isT isT; have k10 := k 1%N 0%N isT isT; have k11 := k 1%N 1%N isT isT.
cbv zeta; move: (jacobian_at g _) (jacobian_at g' _) (edge_tangent o c e) (sx_norm c _) (detJ_at g _) (detJ_at g' _) hd k00 k01 k10 k11 => K K' t n d d' -> k00 k01 k10 k11.
cbv zeta; rewrite /fst /snd /matvec /fsum; cbn -[GRing.add GRing.mul GRing.opp GRing.inv GRing.one GRing.zero]; rewrite ?addr0 k00 k01 k10 k11.
set x := K 0%N 0%N * t 0%N + K 0%N 1%N * t 1%N; set y := K 1%N 0%N * t 0%N + K 1%N 1%N * t 1%N.
have -> : s * K 0%N 0%N * t 0%N + s * K 0%N 1%N * t 1%N = s * x by rewrite /x; ring.
have -> : s * K 1%N 0%N * t 0%N + s * K 1%N 1%N * t 1%N = s * y by rewrite /y; ring.
have -> : (s * x * (s * x) + s * y * (s * y)) = s * s * (x * x + y * y) by ring.
have hss : s * s != 0 by rewrite mulf_neq0 ?s_neq0.
rewrite invfM; split; first by congr (_ * _); rewrite mulrACA mulfV // mul1r.
split; last by [].
congr (_ / _); rewrite [LHS](_ : _ = (s * s * (s * s)^-1) * (((K 0%N 0%N * t 1%N + K 0%N 1%N * - t 0%N) * x + (K 1%N 0%N * t 1%N + K 1%N 1%N * - t 0%N) * y) / (x * x + y * y))).
  by rewrite mulfV // mul1r.
by move: (_^-1) (_^-1) => u v; ring.
Qed.

(** The power of the factor by which the entries of a column grow. *)
Definition grow voff j : F := if (j < 3 * voff)%N then weight s (j %% voff)%N else 1.

Lemma weightM (x y : F) a : weight (x * y) a = weight x a * weight y a.
Proof. by rewrite /weight; case: ifP => _; [rewrite mulr1|case: ifP => _ //; rewrite mulrACA]. Qed.

Lemma weight_neq0 a : weight s a != 0.
Proof. by rewrite /weight; case: ifP => _; [exact: oner_neq0|case: ifP => _; rewrite ?mulf_neq0 ?s_neq0]. Qed.

Lemma unscaled_grow voff j : (0 < voff)%N -> grow voff j * unscaled g' voff 3 j = unscaled g voff 3 j.
Proof.
move=> hv; rewrite /unscaled /grow; case: ltnP => hj; last by rewrite mul1r.
rewrite size_scaled ?ltn_divLR // weightM invfM mulrA mulfV ?mul1r //; exact: weight_neq0.
Qed.

Fact quad1 (x y z t u : F) : (s * x * (s * y) + s * z * (s * t)) * u = s * s * ((x * y + z * t) * u).
Proof. ring. Qed.
Fact quad2 (x y z t : F) : s * x * (s * y) + s * z * (s * t) = s * s * (x * y + z * t).
Proof. ring. Qed.

Lemma vertex_scaled vorder i j : order vorder ->
  vertex_transform o (identity o) vorder c g' i j = grow (jetsize vorder) j * vertex_transform o (identity o) vorder c g i j.
Proof.
move=> ho; rewrite !vertex_transformE (hdim hc) (hnv hc) -/(jetsize vorder) /grow.
have hv : (0 < jetsize vorder)%N by [].
have hid : identity o i j = 0 \/ i = j.
  by rewrite /identity eqbE; case: eqP; [right|left].
case: (ltnP i (3 * jetsize vorder)) => hi /=; last first.
  by case: hid => [->|<-]; rewrite ?mulr0 // ltnNge hi mul1r.
case: (eqVneq (i %/ jetsize vorder) (j %/ jetsize vorder))%N => hq; last first.
  by case: hid => [->|e]; rewrite ?mulr0 //; rewrite e eqxx in hq.
have hj : (j < 3 * jetsize vorder)%N by rewrite -ltn_divLR // -hq ltn_divLR.
rewrite hj; have := ltn_pmod i hv; have := ltn_pmod j hv.
move: (i %% _)%N (j %% _)%N => a b' hb ha.
rewrite /vblock -/(jetsize vorder).
case: ifP => h1.
  rewrite (jac_scaled _ (barycentre o c)); try by lia.
  by rewrite /weight; case: eqP => [|_]; [lia|]; rewrite ifT //; lia.
case: ifP => h2.
  have ho' : vorder = 2%N.
    by case/orP: ho => /eqP e //; move: h2; rewrite e /jetsize /hessians /=; lia.
  rewrite /weight; case: eqP => [|_]; first by lia.
  rewrite ifF; last by lia.
  move: h2; rewrite ho' /jetsize /hessians /=; clear h1 ha hb.
  have k i j (hi : (i < 2)%N) (hj : (j < 2)%N) := jac_scaled (barycentre o c) (barycentre o c) hi hj.
  case: a => [|[|[|[|[|[|a]]]]]] //; case: b' => [|[|[|[|[|[|b']]]]]] // _;
    rewrite /hessian_block /= ?subnn ?subSS /= !k //; first [exact: quad1 | exact: quad2].
rewrite /identity eqbE; case: eqP => [e|]; last by rewrite mulr0.
subst b'; move: h1 h2; rewrite ha !andbT !andbb /weight => h1 h2.
by have -> : a = 0%N; [lia|rewrite mul1r].
Qed.

(** ** Moments on edges *)
Definition wgt voff m (f : F) i j : F := grow voff j * (if (i == j) && normal_moment voff m j then f else 1).

Lemma grow_vertex voff v a : (v < 3)%N -> (a < voff)%N -> grow voff (v * voff + a)%N = weight s a.
Proof.
move=> hv ha; rewrite /grow ifT; last by case: v hv => [|[|[|v]]] // _; lia.
by rewrite modnMDl modn_small.
Qed.
Lemma grow_value voff v : (v < 3)%N -> (0 < voff)%N -> grow voff (v * voff)%N = 1.
Proof. by move=> hv h0; rewrite -[(v * voff)%N]addn0 grow_vertex. Qed.
Lemma grow_edge voff j : (3 * voff <= j)%N -> grow voff j = 1.
Proof. by move=> h; rewrite /grow ltnNge h. Qed.

Lemma ends_lt e : (e < 3)%N -> ((edge c e).1 < 3)%N /\ ((edge c e).2 < 3)%N.
Proof. by move=> he; rewrite (edge_ends hc he); case: e he => [|[|[|e]]]. Qed.

Lemma moment_is voff m e k : (e < 3)%N -> (k <= m)%N -> normal_moment voff m (3 * voff + e * (2 * m + 1) + k)%N.
Proof.
move=> he hk; rewrite /normal_moment; apply/andP; split; last first.
  have -> : (3 * voff + e * (2 * m + 1) + k - 3 * voff = e * (2 * m + 1) + k)%N by rewrite -addnA addKn.
  by rewrite modnMDl modn_small //; lia.
by case: e he => [|[|[|e]]] // _; apply/andP; split; lia.
Qed.

Lemma moment_entries_scaled vorder m (avg : bool) e k : order vorder -> (e < 3)%N -> (k <= m)%N ->
  moment_entries c g' vorder m avg e k =
  wl (wgt (jetsize vorder) m (if avg then s else 1)) (3 * jetsize vorder + e * (2 * m + 1) + k)%N (moment_entries c g vorder m avg e k).
Proof.
move=> ho he hk; have [h1 h2] := ends_lt he; have [n1 [n2 _]] := nt_scaled he.
have hv : (0 < jetsize vorder)%N by [].
rewrite /moment_entries /wl /= n1 n2; set r := (_ + _ + k)%N.
have hr : (3 * jetsize vorder <= r)%N by rewrite /r -addnA leq_addr.
have ev v : (v < 3)%N -> (v * jetsize vorder < 3 * jetsize vorder)%N by move=> h; rewrite ltn_mul2r hv.
congr (_ :: _ :: _ :: _).
- rewrite {1}/wgt grow_edge // mul1r eqxx moment_is //=; case: avg; last by rewrite mul1r.
  by rewrite length_scaled //; congr (_, _); ring.
- rewrite /wgt grow_value // ifF ?mulr1 ?mul1r //.
  by apply/negbTE; rewrite negb_and; have := ev _ h2; move: hr; clear; case: eqP => [->|//]; lia.
- rewrite /wgt grow_value // ifF ?mulr1 ?mul1r //.
  by apply/negbTE; rewrite negb_and; have := ev _ h1; move: hr; clear; case: eqP => [->|//]; lia.
- case: ifP => // h0 /=; rewrite /wgt grow_edge ?mul1r; last by lia.
  by rewrite ifF ?mul1r //; apply/negbTE; rewrite negb_and; apply/orP; left; lia.
Qed.

Lemma moment_fills_scaled vorder m (avg : bool) : order vorder ->
  moment_fills c g' vorder m avg = wls (wgt (jetsize vorder) m (if avg then s else 1)) (moment_fills c g vorder m avg).
Proof.
move=> ho; rewrite /wls /moment_fills map_allpairs; congr flatten; apply/eq_in_map => e; rewrite mem_iota => he.
by apply/eq_in_map => k; rewrite mem_iota => hk; rewrite /= moment_entries_scaled //; lia.
Qed.

Lemma edge_scaled vorder m (avg : bool) i j : order vorder ->
  Model.Zany.edge_transform o (vertex_transform o (identity o) vorder c g') vorder m c g' avg i j =
  wgt (jetsize vorder) m (if avg then s else 1) i j *
  Model.Zany.edge_transform o (vertex_transform o (identity o) vorder c g) vorder m c g avg i j.
Proof.
move=> ho; rewrite !edge_transformE // moment_fills_scaled //; apply: fills_weighted.
case hn : ((i == j) && normal_moment (jetsize vorder) m j); last first.
  by left; rewrite vertex_scaled // /wgt hn mulr1.
right; case/andP: hn => /eqP -> /andP[/andP[h1 h2] h3].
have hm : (0 < 2 * m + 1)%N by rewrite addn1.
set r := (j - 3 * jetsize vorder)%N in h3.
have he : (r %/ (2 * m + 1) < 3)%N by rewrite ltn_divLR // /r; lia.
have hr : (3 * jetsize vorder + r %/ (2 * m + 1) * (2 * m + 1) + r %% (2 * m + 1) = j)%N.
  by rewrite -addnA -divn_eq /r subnKC.
exists (j, moment_entries c g vorder m avg (r %/ (2 * m + 1))%N (r %% (2 * m + 1))%N); last first.
  by split=> //; rewrite /moment_entries /= hr in_cons eqxx.
apply/allpairsP; exists (r %/ (2 * m + 1), r %% (2 * m + 1))%N; split.
- by rewrite mem_iota.
- by rewrite mem_iota.
- by rewrite /= hr.
Qed.

Lemma finish vorder m (f : F) i j x : order vorder ->
  wgt (jetsize vorder) m f j i * x * unscaled g' (jetsize vorder) 3 i =
  (if (i == j) && normal_moment (jetsize vorder) m i then f else 1) * (x * unscaled g (jetsize vorder) 3 i).
Proof.
move=> ho; rewrite -(unscaled_grow i (_ : 0 < jetsize vorder)%N) // /wgt (eq_sym j).
by move: (unscaled _ _ _ _) (grow _ _) (if _ then _ else _) => u v w; ring.
Qed.

Lemma argyris_integral_scaled m (avg : bool) i j :
  argyris_transformation o (5 + m) "integral"%string avg c g' i j =
  (if avg && (i == j) && normal_moment 6 m i then s else 1) * argyris_transformation o (5 + m) "integral"%string avg c g i j.
Proof.
rewrite /argyris_transformation /transpose [String.eqb _ _]/= [String.eqb _ _]/=.
have h3 : (3 <= comb (sx_dim c + 2)%coq_nat 2)%N by rewrite (hdim hc).
have -> : ((5 + m)%N - 5)%coq_nat = m by rewrite minusE addKn.
rewrite !(condition2E _ _ _ _ (hdim hc) h3) (hdim hc) (hnv hc) edge_scaled //.
rewrite -[comb _ _]/(jetsize 2) finish // -[jetsize 2]/6%N.
by case: avg => /=; rewrite ?if_same ?mul1r.
Qed.

Lemma hct_scaled m (avg : bool) i j :
  hct_transformation o (3 + m) avg c g' i j =
  (if avg && (i == j) && normal_moment 3 m i then s else 1) * hct_transformation o (3 + m) avg c g i j.
Proof.
rewrite /hct_transformation /transpose.
have h3 : comb (sx_dim c + 1)%coq_nat 1 = 3%N by rewrite (hdim hc).
have -> : ((3 + m)%N - 3)%coq_nat = m by rewrite minusE addKn.
rewrite !(condition1E _ _ _ _ (hdim hc) h3) (hdim hc) (hnv hc) edge_scaled //.
rewrite -[comb _ _]/(jetsize 1) finish // -[jetsize 1]/3%N.
by case: avg => /=; rewrite ?if_same ?mul1r.
Qed.

Fact given : exists J b, provides g c J b. Proof. by case: hs => _ [[J [b [b' []]]]]; exists J, b. Qed.
Fact given' : exists J b, provides g' c J b. Proof. by case: hs => _ [[J [b [b' []]]]]; exists (fun i j => s * J i j), b'. Qed.

Lemma ps12_scaled (avg : bool) i j : (i < 12)%N -> (j < 12)%N ->
  powell_sabin12_transformation o avg c g' i j =
  (if avg && (i == j) && normal_moment 3 0 i then s else 1) * powell_sabin12_transformation o avg c g i j.
Proof.
move=> hi hj; have [J [b h]] := given; have [J' [b' h']] := given'.
rewrite (ps12E hc h) // (ps12E hc h') // edge_scaled //.
rewrite -[3%N]/(jetsize 1) finish // -[jetsize 1]/3%N.
by case: avg => /=; rewrite ?if_same ?mul1r.
Qed.

(** ** Values and derivatives at the ends of edges *)
Lemma quintic_scaled (w : nat -> nat -> F) r v0 v1 B t0 t1 x y z : (v0 < 3)%N -> (v1 < 3)%N ->
  (forall j, (j < 18)%N -> w r j = grow 6 j) ->
  quintic_entries (v0 * 6) (v1 * 6) B (s * t0) (s * t1) x y z = wl w r (quintic_entries (v0 * 6) (v1 * 6) B t0 t1 x y z).
Proof.
move=> h0 h1 hw; rewrite /quintic_entries /wl /=.
have e v a : (v < 3)%N -> (a < 6)%N -> w r (v * 6 + a)%N = weight s a.
  by move=> hv ha; rewrite hw ?grow_vertex //; lia.
have e0 v : (v < 3)%N -> w r (v * 6)%N = 1 by move=> hv; rewrite hw ?grow_value //; lia.
rewrite !e // !e0 // /weight /= !mul1r.
by do !congr (_ :: _); congr pair; ring.
Qed.

Lemma cubic_scaled (w : nat -> nat -> F) r v0 v1 B t0 t1 : (v0 < 3)%N -> (v1 < 3)%N ->
  (forall j, (j < 9)%N -> w r j = grow 3 j) ->
  cubic_entries (v0 * 3) (v1 * 3) B (s * t0) (s * t1) = wl w r (cubic_entries (v0 * 3) (v1 * 3) B t0 t1).
Proof.
move=> h0 h1 hw; rewrite /cubic_entries /wl /=.
have e v a : (v < 3)%N -> (a < 3)%N -> w r (v * 3 + a)%N = weight s a.
  by move=> hv ha; rewrite hw ?grow_vertex //; lia.
have e0 v : (v < 3)%N -> w r (v * 3)%N = 1 by move=> hv; rewrite hw ?grow_value //; lia.
rewrite !e // !e0 // /weight /= !mul1r.
by do !congr (_ :: _); congr pair; ring.
Qed.

Lemma edge_fills_scaled w n entries entries' : (forall e, (e < 3)%N -> entries' e = wl w (n + e)%N (entries e)) ->
  edge_fills n entries' = wls w (edge_fills n entries) :> seq (nat * seq (nat * F)).
Proof.
move=> h; rewrite /edge_fills /wls -map_comp; apply/eq_in_map => e; rewrite mem_iota => he /=.
by rewrite h.
Qed.

Lemma constrained_scaled vorder entries entries' i j : order vorder ->
  (forall e, (e < 3)%N -> entries' e = wl (fun _ => grow (jetsize vorder)) (3 * jetsize vorder + e)%N (entries e)) ->
  constrained_matrix c g' vorder entries' j i * unscaled g' (jetsize vorder) 3 i =
  constrained_matrix c g vorder entries j i * unscaled g (jetsize vorder) 3 i.
Proof.
move=> ho h; rewrite /constrained_matrix (edge_fills_scaled h) (@fills_weighted _ _ _ (vertex_transform o (identity o) vorder c g)).
  by rewrite -(unscaled_grow i (_ : 0 < jetsize vorder)%N) // mulrA (mulrC (grow _ _)).
by left; rewrite vertex_scaled.
Qed.

Lemma bell_scaled i j : bell_transformation o c g' i j = bell_transformation o c g i j.
Proof.
rewrite !bellE //; refine (@constrained_scaled 2%N (bell_entries c g) (bell_entries c g') i j isT _) => e he.
have [h1 h2] := ends_lt he; have [n1 [n2 [n3 n4]]] := nt_scaled he.
by rewrite /bell_entries n2 n3 n4; apply: quintic_scaled.
Qed.

Lemma reduced_scaled i j : reduced_hct_transformation o c g' i j = reduced_hct_transformation o c g i j.
Proof.
rewrite !reducedE //; refine (@constrained_scaled 1%N (reduced_entries c g) (reduced_entries c g') i j isT _) => e he.
have [h1 h2] := ends_lt he; have [n1 [n2 [n3 n4]]] := nt_scaled he.
by rewrite /reduced_entries n2 n3 n4; apply: cubic_scaled.
Qed.

Definition wpt (i j : nat) : F := grow 6 j * (if (18 <= j < 21)%N then s else 1).

Lemma edge_sum e : (e < 3)%N -> cell_size g' (first e) + cell_size g' (second e) = s * (cell_size g (first e) + cell_size g (second e)).
Proof.
move=> he; have [h1 _] := first_other he; have [h2 _] := second_other he.
by rewrite !size_scaled // mulrDr.
Qed.

Lemma argyris_point_scaled avg i j :
  argyris_transformation o 5 "point"%string avg c g' i j = argyris_transformation o 5 "point"%string avg c g i j.
Proof.
rewrite !argyris_pointE // /point_matrix.
rewrite (@edge_fills_scaled wpt 18 (fun e => ((18 + e)%N, bnn c g e * L e) :: quintic_entries ((edge c e).1 * 6) ((edge c e).2 * 6)
  (bnt c g e) ((nt c g e).2 0%N) ((nt c g e).2 1%N) (15%:R / 8%:R) (- (7%:R / 16%:R)) (1 / 32%:R))); last first.
  move=> e he; have [h1 h2] := ends_lt he; have [n1 [n2 [n3 n4]]] := nt_scaled he.
  rewrite n1 n2 n3 n4 (@quintic_scaled wpt (18 + e)%N) //.
    rewrite /wl [in RHS]/=; congr ((_, _) :: _).
    rewrite /wpt grow_edge ?ifT ?length_scaled //; try by lia.
    by ring.
  by move=> k hk; rewrite /wpt ifF ?mulr1 //; lia.
rewrite (@fills_weighted _ _ _ (vertex_transform o (identity o) 2 c g)).
  set x := fills _ _ _ _; rewrite -(unscaled_grow i (isT : 0 < 6)%N) /wpt /edge_unscaled.
  case: ifP => hi; last by move: (grow _ _) (unscaled _ _ _ _) => u v; ring.
  rewrite edge_sum ?invfM; last by lia.
  move: (grow _ _) (unscaled _ _ _ _) (_ + _)^-1 => u v y.
  rewrite [LHS](_ : _ = (s / s) * (x * (u * v) * (2%:R * y))); last by move: (s^-1) => s'; ring.
  by rewrite mulfV ?mul1r ?s_neq0.
case: (eqVneq j i) => [->|hij].
  case: (ltnP i 18) => hi; first by left; rewrite vertex_scaled // /wpt ifF ?mulr1 //; lia.
  case: (ltnP i 21) => hi2; last by left; rewrite vertex_scaled // /wpt ifF ?mulr1 //; lia.
  right; exists (i, ((18 + (i - 18))%N, bnn c g (i - 18) * L (i - 18)%N) :: quintic_entries ((edge c (i - 18)).1 * 6) ((edge c (i - 18)).2 * 6)
  (bnt c g (i - 18)) ((nt c g (i - 18)).2 0%N) ((nt c g (i - 18)).2 1%N) (15%:R / 8%:R) (- (7%:R / 16%:R)) (1 / 32%:R)); last first.
    by split=> //=; rewrite in_cons subnKC // eqxx.
  apply/mapP; exists (i - 18)%N; first by rewrite mem_iota; lia.
  by rewrite subnKC.
left; rewrite vertex_scaled // /wpt; case: ifP => hi; last by rewrite mulr1.
rewrite vertex_transformE (hdim hc) (hnv hc) ifF ?identity_off ?mulr0 //.
apply/negbTE; rewrite negb_and; case: (ltnP j (3 * (1 + 2 + hessians 2 2))) => //= hj; apply/negP => /eqP hq.
have : (i %/ 6 < 3)%N by rewrite -[6%N]/(1 + 2 + hessians 2 2)%N -hq ltn_divLR.
by rewrite ltn_divLR //; lia.
Qed.

(** ** Hermite and Morley *)
Lemma morley_entry h i j : (i < 6)%N -> (j < 6)%N -> morley_transformation o h i j = \sum_(k < 6) morley_transformation o h k j * (k == i :> nat)%:R.
Proof.
move=> hi hj; rewrite (bigD1 (Ordinal hi)) //= eqxx mulr1 big1 ?addr0 // => k hk.
by rewrite (_ : (k == i :> nat) = false) ?mulr0 //; apply/negbTE; exact: hk.
Qed.

Lemma morley_scaled i j : (i < 6)%N -> (j < 6)%N -> morley_transformation o g' i j = morley_transformation o g i j.
Proof.
move=> hi hj; have R := morley_row g (fun k => (k == i)%:R) hj; have R' := morley_row g' (fun k => (k == i)%:R) hj.
refine (etrans (etrans (morley_entry g' hi hj) R') (esym (etrans (etrans (morley_entry g hi hj) R) _))).
clear R R'; case: ltnP => // h3; apply: esym.
have he : (j - 3 < 3)%N by lia.
rewrite edge_sum // length_scaled //.
have q0 := frame_scaled 0 he; have q1 := frame_scaled 1 he.
case: q0 => [t0 [p0 r0]]; case: q1 => [t1 [p1 r1]]; rewrite /= in t0 t1 p0 p1 r0 r1.
rewrite /normal_entry /tangent_entry /MorleyTransform.K t0 t1 p0 p1 r0 r1.
set u := [:: _; _]; have k i' j' (hi' : (i' < 2)%N) (hj' : (j' < 2)%N) := jac_scaled u u hi' hj'.
rewrite !k // !invfM; move: (_ + _)^-1 (L _)^-1 => y z.
have bs (a1 a2 a3 a4 x1 x2 x3 x4 : F) : b11 a1 a2 a3 a4 (s * x1) (s * x2) (s * x3) (s * x4) = s * b11 a1 a2 a3 a4 x1 x2 x3 x4 by rewrite /b11; ring.
rewrite !bs; move: (b11 _ _ _ _ _ _ _ _) (b11 _ _ _ _ _ _ _ _) => T N.
set d := _ - _; set e := (j == i)%:R; have hss : s * s^-1 = 1 by rewrite mulfV ?s_neq0.
transitivity ((s * s^-1) * (N * (2%:R * y * e) + T * z * d)); last by rewrite hss mul1r.
by move: (s^-1) => s'; ring.
Qed.
End Scale.

Section Hermite.
Variable F : realFieldType.
Local Notation o := (ring_ops F).

(** Hermite elements of any dimension, on any cell. *)
Lemma hermite_scaled n (c : simplex (F := F)) (g g' : geometry (F := F)) (s : F) :
  sx_dim c = n -> List.length (sx_vertices c) = n.+1 -> s != 0 ->
  (forall v i j, (v <= n)%N -> (i < n)%N -> (j < n)%N ->
    jacobian_at g' (List.nth v (sx_vertices c) nil) i j = s * jacobian_at g (List.nth v (sx_vertices c) nil) i j) ->
  (forall v, (v <= n)%N -> cell_size g' v = s * cell_size g v) ->
  forall i j, hermite_transformation o c g' i j = hermite_transformation o c g i j.
Proof.
move=> hdim hnv hs hJ hh i j; rewrite !(hermiteE _ hdim); case: ifP => // /andP[hi _].
have hv : (i %/ n.+1 <= n)%N by rewrite -ltnS ltn_divLR.
rewrite /hblock; case: ifP => // /andP[h1 h2].
have nthE h : List.nth (i %/ n.+1) (List.map (jacobian_at h) (sx_vertices c)) (fun _ _ : nat => 0) =
    jacobian_at h (List.nth (i %/ n.+1) (sx_vertices c) nil).
  rewrite (List.nth_indep _ _ (jacobian_at h nil)) ?List.map_nth //.
  by rewrite List.map_length hnv; apply/ssrnat.ltP; rewrite ltnS.
have ha := ltn_pmod i (isT : 0 < n.+1)%N; have hb := ltn_pmod j (isT : 0 < n.+1)%N.
rewrite !nthE hJ ?hh //; try by lia.
by rewrite invfM mulrACA mulfV // mul1r.
Qed.

Lemma conditioned_scaled c N t (g g' : geometry (F := F)) s : conditioned c N t -> fiat_triangle c -> enlarged s c g g' ->
  forall i j, (i < N)%N -> (j < N)%N -> t g' i j = t g i j.
Proof.
move=> ht hc hs; case: ht => {N t} [N|N m|N avg|N|N m|N||] i j hi hj.
- apply: (hermite_scaled (hdim hc) (hnv hc) (s_neq0 hs)) => [v a b hv ha hb|v hv]; first exact: jac_scaled hs _ _ _ _ ha hb.
  exact: size_scaled hs _ hv.
- by rewrite (argyris_integral_scaled hc hs) /= mul1r.
- exact: argyris_point_scaled hc hs _ _ _.
- exact: bell_scaled hc hs _ _.
- by rewrite (hct_scaled hc hs) /= mul1r.
- exact: reduced_scaled hc hs _ _.
- by rewrite (ps12_scaled hc hs) //= mul1r.
- exact: morley_scaled hs _ _ hi hj.
Qed.

Lemma mass_scaled c N t (g g' : geometry (F := F)) s : conditioned c N t -> fiat_triangle c -> enlarged s c g g' ->
  forall x x' (q : rule F) i j, (i < N)%N -> (j < N)%N ->
  mass N (t g') (detJ_at g' x') q i j = s ^+ 2 * mass N (t g) (detJ_at g x) q i j.
Proof.
move=> ht hc hs x x' q i j hi hj; rewrite /mass mulr_sumr; apply: eq_bigr => p _.
have e k (hk : (k < N)%N) : \sum_(a < N) t g' k a * p.2 a = \sum_(a < N) t g k a * p.2 a.
  by apply: eq_bigr => a _; rewrite (conditioned_scaled ht hc hs).
rewrite !e // (det_scaled hs x' x) normrM ger0_norm; last by rewrite mulr_ge0 // ltW // (s_pos hs).
by move: (`|_|) (\sum_(_ < _) _) (\sum_(_ < _) _) => d u v; ring.
Qed.
End Hermite.

(** ** The sample triangle, enlarged *)
Lemma sample_enlarged : enlarged 2%:R triangle345 geometry5_12_13 geometry10_24_26.
Proof.
split=> //; split; last by case=> [|[|[|v]]] // _; apply/eqP; vm_compute.
exists stretch, shift, shift; split; first exact: geometry_provides.
split; first by vm_compute.
split; first by move=> u; case=> [[|[|i]] hi]; case=> [[|[|j]] hj] //; apply/eqP; vm_compute.
split; first by move=> u; apply/eqP; vm_compute.
split; first by case=> [|[|[|v]]] // _; vm_compute.
move=> e he; rewrite /square /tangent /=.
have X v (i : 'I_2) : image (affine (fun i j => 2%:R * stretch i j) shift) (fun i => vertex (ring_ops [fieldType of rat]) triangle345 v i) i =
  2%:R * stretch i 0 * vertex (ring_ops [fieldType of rat]) triangle345 v 0%N + 2%:R * stretch i 1 * vertex (ring_ops [fieldType of rat]) triangle345 v 1%N + shift i.
  by rewrite affine_image sum2.
rewrite !X; split; first by case: e he => [|[|[|e]]].
split; first by apply/eqP; case: e he => [|[|[|e]]] // _; vm_compute.
move=> i; rewrite /clockwise /= !X.
by case: i => [[|[|i]] hi] //; case: e he => [|[|[|e]]] // _; split; try split; apply/eqP; vm_compute.
Qed.

Lemma edge_moments_scaled (F : realFieldType) (c : simplex (F := F)) (g g' : geometry (F := F)) s : fiat_triangle c -> enlarged s c g g' ->
  (forall m avg i j, argyris_transformation (ring_ops F) (5 + m) "integral"%string avg c g' i j =
    (if avg && (i == j) && normal_moment 6 m i then s else 1) * argyris_transformation (ring_ops F) (5 + m) "integral"%string avg c g i j) /\
  (forall m avg i j, hct_transformation (ring_ops F) (3 + m) avg c g' i j =
    (if avg && (i == j) && normal_moment 3 m i then s else 1) * hct_transformation (ring_ops F) (3 + m) avg c g i j) /\
  (forall avg i j, (i < 12)%N -> (j < 12)%N -> powell_sabin12_transformation (ring_ops F) avg c g' i j =
    (if avg && (i == j) && normal_moment 3 0 i then s else 1) * powell_sabin12_transformation (ring_ops F) avg c g i j).
Proof.
move=> hc hs; split; first exact: argyris_integral_scaled hc hs.
by split; [exact: hct_scaled hc hs|exact: ps12_scaled hc hs].
Qed.

Lemma average_not_invariant : exists (c : simplex (F := rat)) (g g' : geometry (F := rat)) s,
  let Q := [realFieldType of rat] in
  fiat_triangle c /\ enlarged (F := Q) s c g g' /\
  argyris_transformation (ring_ops Q) 5 "integral"%string true c g' 18%N 18%N <> argyris_transformation (ring_ops Q) 5 "integral"%string true c g 18%N 18%N /\
  hct_transformation (ring_ops Q) 3 true c g' 9%N 9%N <> hct_transformation (ring_ops Q) 3 true c g 9%N 9%N /\
  powell_sabin12_transformation (ring_ops Q) true c g' 9%N 9%N <> powell_sabin12_transformation (ring_ops Q) true c g 9%N 9%N.
Proof.
exists triangle345, geometry5_12_13, geometry10_24_26, 2%:R => Q; split; first exact: triangle345_fiat.
split; first exact: sample_enlarged.
by split; [|split]; apply/eqP; vm_compute.
Qed.
