(** Bases of the Powell-Sabin elements. *)
From mathcomp Require Import all_ssreflect all_algebra ring.
From SsrMultinomials Require Import mpoly.
From Verif Require Import Model.Gem Model.Piola Model.Zany Spec.Algebra Spec.Polynomials Spec.Zany Spec.Split Spec.Conformity Spec.SplitConformity.
From Verif Require Import Proofs.PiolaFacts Proofs.Polynomials Proofs.Integrals Proofs.ZanySums Proofs.VertexTransform Proofs.EdgeGeometry Proofs.EdgeRows Proofs.ZanyElements Proofs.ZanyNodal Proofs.PowellSabin Proofs.EdgeUnisolvence Proofs.Conformity Proofs.Conformity2 Proofs.Transport Proofs.EdgeBases Proofs.EdgeBases2 Proofs.SplitConformity.
From mathcomp Require Import zify.
Set Implicit Arguments.
Unset Strict Implicit.
Unset Printing Implicit Defensive.
Import GRing.Theory Num.Theory.
Local Open Scope ring_scope.

(** ** Two quadratic functions next to an edge *)
Section Oblique.
Variable F : realFieldType.

Lemma trapezoid (p : {poly F}) : (size p <= 2)%N -> integral p = (p.[0] + p.[1]) / 2%:R.
Proof.
move=> /linear_poly [a [b ->]].
have -> : a%:P + b *: 'X = a *: 'X^0 + b *: 'X^1 by rewrite expr0 expr1 alg_polyC.
rewrite integralD !integralZ !integralX !hornerD !hornerZ expr0 expr1 !hornerC !hornerX; by field.
Qed.

Variables (m h v : point F 2).
Hypothesis hd : h 0 * v 1 - h 1 * v 0 != 0.

Definition det2 : F := h 0 * v 1 - h 1 * v 0.
Definition su (i : 'I_2) : F := if i == 0 then v 1 / det2 else - v 0 / det2.
Definition ru (i : 'I_2) : F := if i == 0 then - h 1 / det2 else h 0 / det2.
Definition S : {mpoly F[2]} := coordinate m su.
Definition Rr : {mpoly F[2]} := coordinate m ru.

Lemma along_Sh : along S h = 1. Proof. by rewrite coordinate_along -mpolyC1; congr (_%:MP); rewrite sum2 /su /= /det2; field. Qed.
Lemma along_Sv : along S v = 0. Proof. by rewrite coordinate_along -(mpolyC0 2 F); congr (_%:MP); rewrite sum2 /su /= /det2; field. Qed.
Lemma along_Rh : along Rr h = 0. Proof. by rewrite coordinate_along -(mpolyC0 2 F); congr (_%:MP); rewrite sum2 /ru /= /det2; field. Qed.
Lemma along_Rv : along Rr v = 1. Proof. by rewrite coordinate_along -mpolyC1; congr (_%:MP); rewrite sum2 /ru /= /det2; field. Qed.

Lemma coordinate_at (u y d : point F 2) : (forall i, y i = m i + d i) -> (coordinate m u).@[y] = \sum_i u i * d i.
Proof. by move=> hy; rewrite /coordinate !sum2 mevalD !mevalZ !mevalB !mevalXU !mevalC !hy; ring. Qed.

Lemma S_at (y : point F 2) s r : (forall i, y i = m i + (s * h i + r * v i)) -> S.@[y] = s.
Proof. by move=> hy; rewrite (coordinate_at _ hy) sum2 /su /= /det2; field. Qed.
Lemma R_at (y : point F 2) s r : (forall i, y i = m i + (s * h i + r * v i)) -> Rr.@[y] = r.
Proof. by move=> hy; rewrite (coordinate_at _ hy) sum2 /ru /= /det2; field. Qed.

Definition quad (a0 a1 a2 b0 b1 : F) : {mpoly F[2]} := a0%:MP + a1 *: S + a2 *: (S * S) + b0 *: Rr + b1 *: (Rr * S).

Lemma quad_deg a0 a1 a2 b0 b1 : (msize (quad a0 a1 a2 b0 b1) <= 3)%N.
Proof.
have hS : (msize S <= 2)%N := coordinate_deg _ _; have hR : (msize Rr <= 2)%N := coordinate_deg _ _.
apply: degD; [apply: degD; [apply: degD; [apply: degD|]|]|].
- exact: degC.
- by apply: degZ; apply: leq_trans hS _.
- by apply: degZ; apply: (degM (k := 1) (l := 1)).
- by apply: degZ; apply: leq_trans hR _.
- by apply: degZ; apply: (degM (k := 1) (l := 1)).
Qed.

Section At.
Variables (a0 a1 a2 b0 b1 : F) (y : point F 2) (s r : F).
Hypothesis hy : forall i, y i = m i + (s * h i + r * v i).
Lemma quad_at : (quad a0 a1 a2 b0 b1).@[y] = a0 + a1 * s + a2 * (s * s) + b0 * r + b1 * (r * s).
Proof. by rewrite /quad !mevalD !mevalZ !mevalM mevalC (S_at hy) (R_at hy). Qed.
Lemma quad_h : (along (quad a0 a1 a2 b0 b1) h).@[y] = a1 + a2 * (s + s) + b1 * r.
Proof.
rewrite /quad !alongD !alongZ !alongM alongC along_Sh along_Rh !(mul1r, mulr1, mul0r, mulr0, add0r, addr0, scaler0).
by rewrite !mevalD !mevalZ mevalD meval1 (S_at hy) (R_at hy) mulr1.
Qed.
Lemma quad_v : (along (quad a0 a1 a2 b0 b1) v).@[y] = b0 + b1 * s.
Proof.
rewrite /quad !alongD !alongZ !alongM alongC along_Sv along_Rv !(mul1r, mulr1, mul0r, mulr0, add0r, addr0, scaler0).
by rewrite !mevalD !mevalZ meval1 (S_at hy) mulr1.
Qed.
End At.

Lemma two_zero (d : {mpoly F[2]}) y : d.@[y] = 0 -> (along d h).@[y] = 0 -> (along d v).@[y] = 0 -> zero_jets d 3 y.
Proof.
rewrite !along_at !sum2 => h0 h1 h2.
have g i : d^`M(i).@[y] = 0.
  apply: (mulfI hd); rewrite mulr0; case: (ord2 i) => ->.
    transitivity (v 1 * (h 0 * d^`M(0).@[y] + h 1 * d^`M(1).@[y]) - h 1 * (v 0 * d^`M(0).@[y] + v 1 * d^`M(1).@[y])); first by ring.
    by rewrite h1 h2 !mulr0 subr0.
  transitivity (h 0 * (v 0 * d^`M(0).@[y] + v 1 * d^`M(1).@[y]) - v 0 * (h 0 * d^`M(0).@[y] + h 1 * d^`M(1).@[y])); first by ring.
  by rewrite h1 h2 !mulr0 subr0.
by case=> [|[|[|k]]] // _; [rewrite (jet1 _ _ (0 : 'I_2))|rewrite (jet1 _ _ (1 : 'I_2))].
Qed.

Lemma two_jets (d : {mpoly F[2]}) y G : d.@[y] = G 0%N -> (along d h).@[y] = h 0 * G 1%N + h 1 * G 2%N ->
  (along d v).@[y] = v 0 * G 1%N + v 1 * G 2%N -> forall k, (k < 3)%N -> jet d y k = G k.
Proof.
move=> h0 h1 h2 k hk.
have tj k' : (k' < 3)%N -> jet (target G y) y k' = G k' by move=> h'; apply: target_jets; lia.
have ta u : (along (target G y) u).@[y] = u 0 * G 1%N + u 1 * G 2%N.
  by rewrite along_at sum2 -!jet1 !tj.
rewrite -tj //; apply/eqP; rewrite -subr_eq0 -jet_sub; apply/eqP; apply: two_zero hk.
- by rewrite mevalB h0 -tj // jet0 subrr.
- by rewrite along_sub mevalB h1 ta subrr.
- by rewrite along_sub mevalB h2 ta subrr.
Qed.

(** Values and gradients [G0] and [G1] at the ends, [b] across the midpoint. *)
Section Given.
Variables (G0 G1 : nat -> F) (b : F).
Let p0 := G0 0%N.
Let p1 := G1 0%N.
Let q0 := h 0 * G0 1%N + h 1 * G0 2%N.
Let q1 := h 0 * G1 1%N + h 1 * G1 2%N.
Let b0 := v 0 * G0 1%N + v 1 * G0 2%N.
Let b1 := v 0 * G1 1%N + v 1 * G1 2%N.
Definition mid0 : F := (p0 + p1) / 2%:R + (q0 - q1) / 4%:R.
Definition mid1 : F := p1 - p0 - (q0 + q1) / 2%:R.
Definition quad1 : {mpoly F[2]} := quad mid0 mid1 ((mid1 - q0) / 2%:R) b (b - b0).
Definition quad2 : {mpoly F[2]} := quad mid0 mid1 ((q1 - mid1) / 2%:R) b (b1 - b).

Lemma quad1_jets x k : (forall i, x i = m i - h i) -> (k < 3)%N -> jet quad1 x k = G0 k.
Proof.
move=> hx; have hy i : x i = m i + ((-1) * h i + 0 * v i) by rewrite hx; ring.
apply: two_jets; rewrite /quad1 ?(quad_at _ _ _ _ _ hy) ?(quad_h _ _ _ _ _ hy) ?(quad_v _ _ _ _ _ hy) /mid0 /mid1 /p0 /p1 /q0 /q1 /b0; by field.
Qed.
Lemma quad2_jets y k : (forall i, y i = m i + h i) -> (k < 3)%N -> jet quad2 y k = G1 k.
Proof.
move=> hx; have hy i : y i = m i + (1 * h i + 0 * v i) by rewrite hx; ring.
apply: two_jets; rewrite /quad2 ?(quad_at _ _ _ _ _ hy) ?(quad_h _ _ _ _ _ hy) ?(quad_v _ _ _ _ _ hy) /mid0 /mid1 /p0 /p1 /q0 /q1 /b1; by field.
Qed.
Lemma quads_mid k : (k < 3)%N -> jet quad1 m k = jet quad2 m k.
Proof.
have hy i : m i = m i + (0 * h i + 0 * v i) by ring.
move=> hk; apply/eqP; rewrite -subr_eq0 -jet_sub; apply/eqP; apply: two_zero hk; rewrite ?along_sub mevalB /quad1 /quad2.
- by rewrite !(quad_at _ _ _ _ _ hy) !mulr0 subrr.
- by rewrite !(quad_h _ _ _ _ _ hy) addr0 !mulr0 subrr.
- by rewrite !(quad_v _ _ _ _ _ hy) !mulr0 subrr.
Qed.
Lemma quads_spoke r k : b = (b0 + b1) / 2%:R -> (k < 3)%N -> jet quad1 (fun i => m i + r * v i) k = jet quad2 (fun i => m i + r * v i) k.
Proof.
move=> hb; have hy i : m i + r * v i = m i + (0 * h i + r * v i) by ring.
move=> hk; apply/eqP; rewrite -subr_eq0 -jet_sub; apply/eqP; apply: two_zero hk; rewrite ?along_sub mevalB /quad1 /quad2.
- by rewrite !(quad_at _ _ _ _ _ hy) !mulr0 subrr.
- rewrite !(quad_h _ _ _ _ _ hy) hb; by field.
- by rewrite !(quad_v _ _ _ _ _ hy) !mulr0 subrr.
Qed.
Lemma quad1_mean x : (forall i, x i = m i - h i) -> integral (line (along quad1 v) x h) = (b0 + b) / 2%:R.
Proof.
move=> hx; rewrite trapezoid; last by exact: leq_trans (line_size _ _ _) (along_size _ (quad_deg _ _ _ _ _)).
have e0 i : x i + 0 * h i = m i + ((-1) * h i + 0 * v i) by rewrite hx; ring.
have e1 i : x i + 1 * h i = m i + (0 * h i + 0 * v i) by rewrite hx; ring.
by rewrite !line_eval /quad1 (quad_v _ _ _ _ _ e0) (quad_v _ _ _ _ _ e1); field.
Qed.
Lemma quad2_mean : integral (line (along quad2 v) m h) = (b + b1) / 2%:R.
Proof.
rewrite trapezoid; last by exact: leq_trans (line_size _ _ _) (along_size _ (quad_deg _ _ _ _ _)).
have e0 i : m i + 0 * h i = m i + (0 * h i + 0 * v i) by ring.
have e1 i : m i + 1 * h i = m i + (1 * h i + 0 * v i) by ring.
by rewrite !line_eval /quad2 (quad_v _ _ _ _ _ e0) (quad_v _ _ _ _ _ e1); field.
Qed.
End Given.
End Oblique.

(** ** Reference triangles *)
Section Reference.
Variable F : realFieldType.
Local Notation o := (ring_ops F).
Variable c : simplex (F := F).
Hypothesis hc : fiat_triangle c.
Local Notation R := (reference c).

Definition piece (P : nat -> {mpoly F[2]} * {mpoly F[2]}) : pieces F := fun p => if (p < 3)%N then (P p).1 else (P (p - 3)%N).2.

Section Spokes.
Variable v : nat -> point F 2.
Hypothesis hd : forall e, (e < 3)%N -> half R e 0 * v e 1 - half R e 1 * v e 0 != 0.
Variable mid : nat -> nat -> F.
Definition ends j (e : nat) (k : nat) : F := (e * 3 + k == j)%N%:R.
Definition split_function (j : nat) : pieces F := piece (fun e =>
  (quad1 (midpoint R e) (half R e) (v e) (ends j (first e)) (ends j (second e)) (mid j e),
   quad2 (midpoint R e) (half R e) (v e) (ends j (first e)) (ends j (second e)) (mid j e))).

Lemma start_at e i : corner R (first e) i = midpoint R e i - half R e i.
Proof. by rewrite /midpoint addrK. Qed.
Lemma end_at e i : corner R (second e) i = midpoint R e i + half R e i.
Proof.
rewrite /midpoint -addrA /half -mulrDl -mulr2n -mulr_natr mulfK ?pnatr_eq0 //.
by rewrite /tangent addrC subrK.
Qed.

Lemma start_jet j e k : (e < 3)%N -> (k < 3)%N -> jet (split_function j e) (corner R (first e)) k = (first e * 3 + k == j)%N%:R.
Proof. by move=> he hk; rewrite /split_function /piece he (quad1_jets (hd he) _ _ _ (start_at e) hk). Qed.
Lemma end_jet j e k : (e < 3)%N -> (k < 3)%N -> jet (split_function j (3 + e)%N) (corner R (second e)) k = (second e * 3 + k == j)%N%:R.
Proof. by move=> he hk; rewrite /split_function /piece ltnNge leq_addr /= addKn (quad2_jets (hd he) _ _ _ (end_at e) hk). Qed.

Lemma vertex_jet j w k : (w < 3)%N -> (k < 3)%N -> jet (split_function j (half_at w)) (corner R w) k = (w * 3 + k == j)%N%:R.
Proof.
case: w => [|[|[|w]]] // _ hk; rewrite /half_at /=.
- exact: (start_jet j (e := 1) isT hk).
- exact: (start_jet j (e := 0) isT hk).
- exact: (end_jet j (e := 0) isT hk).
Qed.

Lemma split_function_c1 j : split_c1 R (split_function j).
Proof.
have mj e k : (e < 3)%N -> (k < 3)%N -> jet (split_function j e) (midpoint R e) k = jet (split_function j (3 + e)%N) (midpoint R e) k.
  by move=> he hk; rewrite /split_function /piece he ltnNge leq_addr /= addKn; apply: quads_mid => //; exact: hd.
split=> [e he|//].
have [f1 _] := first_other he; have [f2 _] := second_other he.
split; [|split].
- by move=> k hk; rewrite start_jet // vertex_jet.
- by move=> k hk; rewrite end_jet // vertex_jet.
- by rewrite -!jet0 mj.
Qed.

Lemma split_function_size j p : (msize (split_function j p) <= 3)%N.
Proof. by rewrite /split_function /piece; case: ifP => _; exact: quad_deg. Qed.
End Spokes.

(** Powell-Sabin 6. *)
Section Six.
Variable z : point F 2.
Hypothesis hz : forall e, (e < 3)%N -> half R e 0 * spoke R z e 1 - half R e 1 * spoke R z e 0 != 0.
Definition even j e : F :=
  ((spoke R z e 0 * ends j (first e) 1 + spoke R z e 1 * ends j (first e) 2) + (spoke R z e 0 * ends j (second e) 1 + spoke R z e 1 * ends j (second e) 2)) / 2%:R.
Definition six : nat -> pieces F := split_function (spoke R z) even.

Lemma six_centred j : centred R z (six j).
Proof.
move=> e s k he hk /=; rewrite /six /split_function /piece he ltnNge leq_addr /= addKn.
apply: quads_spoke => //; exact: hz.
Qed.

Lemma six_nodal : nodal 9 (split_vertices R) six.
Proof.
move=> i j hi hj; rewrite /split_vertices /split_vertex_dof /six.
have hq : (i %/ 3 < 3)%N by rewrite ltn_divLR.
have hr : (i %% 3 < 3)%N by rewrite ltn_mod.
rewrite vertex_jet // -divn_eq.
have -> : weight (size_at R (i %/ 3)) (i %% 3) = 1 by rewrite /weight /= mulr1; case: ifP => //; case: ifP.
by rewrite mul1r.
Qed.
End Six.

(** Powell-Sabin 12. *)
Section Twelve.
Lemma normal_det e : (e < 3)%N -> half R e 0 * normal R e 1 - half R e 1 * normal R e 0 != 0.
Proof.
move=> he.
have [hl hl2] : 0 < sx_norm c (edge_tangent o c e) /\ sx_norm c (edge_tangent o c e) ^+ 2 = square (tangent R e).
  case: hc => _ [_ [_ h]]; have [h1 h2] := h _ he; split=> //.
  by rewrite h2 /square -!(tangent_model hc).
have hn i : normal R e i = clockwise (tangent R e) i / sx_norm c (edge_tangent o c e).
  by rewrite /= /clockwise -!(tangent_model hc).
have nz := lt0r_neq0 hl; move: (sx_norm c (edge_tangent o c e)) hl2 hn nz => l hl2 hn nz.
rewrite !hn /clockwise /half /=.
have -> : tangent R e 0 / 2%:R * (- tangent R e 0 / l) - tangent R e 1 / 2%:R * (tangent R e 1 / l) = - (square (tangent R e)) / (2%:R * l) by rewrite /square; field.
by rewrite -hl2 mulf_neq0 // ?oppr_eq0 ?expf_neq0 // invr_eq0 mulf_neq0 // pnatr_eq0.
Qed.

Definition across j e : F := 2%:R * (9 + e == j)%N%:R -
  ((normal R e 0 * ends j (first e) 1 + normal R e 1 * ends j (first e) 2) + (normal R e 0 * ends j (second e) 1 + normal R e 1 * ends j (second e) 2)) / 2%:R.
Definition twelve : nat -> pieces F := split_function (normal R) across.

Lemma twelve_mean j e : (e < 3)%N -> split_mean R (twelve j) e = (9 + e == j)%N%:R.
Proof.
move=> he; rewrite /split_mean /twelve /split_function /piece he ltnNge leq_addr /= addKn.
rewrite (quad1_mean (normal_det he) _ _ _ (start_at e)) (quad2_mean _ (normal_det he)) /across.
by field.
Qed.

Lemma twelve_nodal : nodal 12 (split_dof R) twelve.
Proof.
move=> i j hi hj.
have [hs|hs] := ltnP i 9.
  have hq : (i %/ 3 < 3)%N by rewrite ltn_divLR.
  have hr : (i %% 3 < 3)%N by rewrite ltn_mod.
  rewrite {1}(divn_eq i 3) /split_dof numbered_vertex // /split_vertex_dof /twelve (vertex_jet normal_det) // -divn_eq.
  have -> : weight (size_at R (i %/ 3)) (i %% 3) = 1 by rewrite /weight /= mulr1; case: ifP => //; case: ifP.
  by rewrite mul1r.
have he : (i - 9 < 3)%N by lia.
have E : i = (3 * 3 + (i - 9) * 1 + 0)%N by lia.
rewrite {1}E /split_dof numbered_edge // mul1r twelve_mean //.
by have -> : (9 + (i - 9) = i)%N by lia.
Qed.
End Twelve.
End Reference.

(** ** Images *)
Section Images.
Variable F : realFieldType.
Local Notation o := (ring_ops F).
Variable c : simplex (F := F).
Local Notation R := (reference c).
Variables (w : geometry (F := F) -> nat -> F) (g : geometry (F := F)) (J : 'I_2 -> 'I_2 -> F) (b : point F 2).
Hypothesis hg : provides g c J b.
Local Notation q := (affine J b).
Local Notation T := (physical c q (physical_edge_lengths g) (cell_size g) (w g)).

Lemma back_jets (f f' : {mpoly F[2]}) (y Y : point F 2) : (forall i, Y i = image q y i) -> (forall k, (k < 3)%N -> jet f y k = jet f' y k) ->
  forall k, (k < 3)%N -> jet (pull (back J b) f) Y k = jet (pull (back J b) f') Y k.
Proof.
move=> hY hj k hk; have h0 : J 0 0 * J 1 1 - J 0 1 * J 1 0 != 0 by case: hg.
apply/eqP; rewrite -subr_eq0 -jet_sub; apply/eqP.
have -> : pull (back J b) f - pull (back J b) f' = pull (back J b) (f - f') by rewrite /pull comp_mpolyB.
rewrite (jet_ext _ _ hY); apply: (pull_zero_jets (nj := 3)) hk => // [k' hk'|]; last by right; left.
by rewrite (jet_ext _ _ (fun i => image_inverse b y i (inverse2E h0))) jet_sub hj // subrr.
Qed.

Lemma split_c1_back f : split_c1 R f -> split_c1 T (pulled (back J b) f).
Proof.
have mid e i : midpoint T e i = image q (midpoint R e) i by rewrite (@image_midpoint F c g J b (w g)).
case=> hs hm.
have M e a : (e < 3)%N -> (a < 3)%N -> jet (pulled (back J b) f e) (midpoint T e) a = jet (pulled (back J b) f (3 + e)%N) (midpoint T e) a.
  by move=> he ha; apply: (back_jets (mid e)) ha => k hk; exact: hm.
split=> [e he|//]; have [h1 [h2 h3]] := hs e he; split; [|split].
- by move=> a ha; apply: (back_jets (y := corner R (first e))) ha.
- by move=> a ha; apply: (back_jets (y := corner R (second e))) ha.
- by rewrite -!jet0 M.
Qed.

Lemma spoke_back z e i : spoke T (image q z) e i = \sum_j J i j * spoke R z e j.
Proof.
rewrite /spoke -(@image_midpoint F c g J b (w g)) !affine_image !sum2; ring.
Qed.

Lemma centred_back z f : centred R z f -> centred T (image q z) (pulled (back J b) f).
Proof.
move=> h e s a he ha /=; apply: (back_jets (y := fun i => midpoint R e i + s * spoke R z e i)) ha => [i|k hk].
  rewrite spoke_back -(@image_midpoint F c g J b (w g)) !affine_image !sum2; ring.
exact: (h e s k he hk).
Qed.

Lemma split_based_back N ref (Phi : nat -> pieces F) :
  (forall f f' i, (forall e, f e = f' e) -> ref f i = ref f' i) ->
  (forall j, split_c1 R (Phi j)) -> (forall j p, (msize (Phi j p) <= 3)%N) -> nodal N ref Phi ->
  split_based c w N ref (Cell g J b (fun j => pulled (back J b) (Phi j))).
Proof.
move=> hext hs hd hnod; have h0 : J 0 0 * J 1 1 - J 0 1 * J 1 0 != 0 by case: hg.
split=> //; split; last split.
- by move=> j _; exact: split_c1_back.
- by move=> j p _ _; apply: (leq_trans (pull_deg _ _ _)).
- move=> i j hi hj; rewrite -(hnod i j hi hj); apply: hext => e.
  by rewrite /pulled /= /map_of /back pull_inverse //; exact: inverse2E.
Qed.

Hypothesis hc : fiat_triangle c.

Lemma ps12_cells : exists K : cell F, [/\ geo K = g, matrix K = J, origin K = b & split_based c w 12 (split_dof R) K].
Proof.
exists (Cell g J b (fun j => pulled (back J b) (twelve c j))); split=> //; apply: split_based_back.
- move=> f f' i h; rewrite /split_dof /numbered /split_vertex_dof /split_mean; by rewrite !h.
- by move=> j; apply: split_function_c1; exact: normal_det.
- by move=> j p; exact: split_function_size.
- exact: twelve_nodal.
Qed.

Lemma ps6_cells z : (forall e, (e < 3)%N -> tangent R e 0 * spoke R z e 1 - tangent R e 1 * spoke R z e 0 != 0) ->
  exists K : cell F, [/\ geo K = g, matrix K = J, origin K = b, split_based c w 9 (split_vertices R) K &
    forall j, (j < 9)%N -> centred (shape_of c w K) (image (affine J b) z) (funs K j)].
Proof.
move=> hz.
have hz' e : (e < 3)%N -> half R e 0 * spoke R z e 1 - half R e 1 * spoke R z e 0 != 0.
  move=> he; have := hz e he; apply: contraNN => /eqP E.
  apply/eqP; transitivity (2%:R * (half R e 0 * spoke R z e 1 - half R e 1 * spoke R z e 0)); last by rewrite E mulr0.
  by rewrite /half; field.
exists (Cell g J b (fun j => pulled (back J b) (six c z j))); split=> //.
- apply: split_based_back.
  + by move=> f f' i h; rewrite /split_vertices /split_vertex_dof h.
  + by move=> j; apply: split_function_c1; exact: hz'.
  + by move=> j p; exact: split_function_size.
  + exact: six_nodal.
- by move=> j _; apply: centred_back; exact: six_centred.
Qed.
End Images.
