(** Nodal bases of functions given by polynomials next to the edges, for the
    dofs of each triangular element. *)
From Coq Require Import String.
From mathcomp Require Import all_ssreflect all_algebra ring.
From SsrMultinomials Require Import mpoly.
From Verif Require Import Model.Gem Model.Piola Model.Zany Spec.Algebra Spec.Polynomials Spec.Zany Spec.Conformity.
From Verif Require Import Proofs.PiolaFacts Proofs.Polynomials Proofs.Integrals Proofs.ZanySums Proofs.VertexTransform Proofs.EdgeGeometry Proofs.EdgeRows Proofs.ZanyElements Proofs.ZanyNodal Proofs.EdgeUnisolvence Proofs.Conformity Proofs.Conformity2 Proofs.Transport Proofs.EdgeBases.
From mathcomp Require Import zify.
Set Implicit Arguments.
Unset Strict Implicit.
Unset Printing Implicit Defensive.
Import GRing.Theory Num.Theory.
Local Open Scope ring_scope.

Definition njets (vorder : nat) : nat := if vorder is 0%N then 1%N else if vorder is 1%N then 3%N else 6%N.

(** ** Given derivatives at a point *)
Section Targets.
Variable F : realFieldType.

Definition target (G : nat -> F) (y : point F 2) : {mpoly F[2]} :=
  let X := 'X_0 - (y 0)%:MP in
  let Y := 'X_1 - (y 1)%:MP in
  (G 0%N)%:MP + G 1%N *: X + G 2%N *: Y + (G 3%N / 2%:R) *: (X * X) + G 4%N *: (X * Y) + (G 5%N / 2%:R) *: (Y * Y).

Lemma target_jets G y k : (k < 6)%N -> jet (target G y) y k = G k.
Proof.
have two : (2%:R : F) != 0 by rewrite pnatr_eq0.
have hX : ('X_0 - (y 0)%:MP : {mpoly F[2]}).@[y] = 0 by rewrite mevalB mevalXU mevalC subrr.
have hY : ('X_1 - (y 1)%:MP : {mpoly F[2]}).@[y] = 0 by rewrite mevalB mevalXU mevalC subrr.
have X0 : ('X_0 - (y 0)%:MP : {mpoly F[2]})^`M(0) = 1 by rewrite mderivB mderivC subr0 mderivXU.
have X1 : ('X_0 - (y 0)%:MP : {mpoly F[2]})^`M(1) = 0 by rewrite mderivB mderivC subr0 mderivXU.
have Y0 : ('X_1 - (y 1)%:MP : {mpoly F[2]})^`M(0) = 0 by rewrite mderivB mderivC subr0 mderivXU.
have Y1 : ('X_1 - (y 1)%:MP : {mpoly F[2]})^`M(1) = 1 by rewrite mderivB mderivC subr0 mderivXU.
have o0 i : (1 : {mpoly F[2]})^`M(i) = 0 by rewrite -mpolyC1 mderivC.
rewrite /target; move: ('X_0 - (y 0)%:MP) ('X_1 - (y 1)%:MP) hX hY X0 X1 Y0 Y1 => X Y hX hY X0 X1 Y0 Y1.
have z0 i : (0 : {mpoly F[2]})^`M(i) = 0 by rewrite -mpolyC0 mderivC.
case: k => [|[|[|k]]] hk.
- by rewrite jet0 !mevalD !mevalZ !mevalM hX hY mevalC !mulr0 !addr0.
- rewrite (jet1 _ _ (0 : 'I_2)) !mderivD !mderivZ !mderivM mderivC X0 Y0 !mevalD !mevalZ !mevalD !mevalM hX hY meval1 meval0; ring.
- rewrite (jet1 _ _ (1 : 'I_2)) !mderivD !mderivZ !mderivM mderivC X1 Y1 !mevalD !mevalZ !mevalD !mevalM hX hY meval1 meval0; ring.
rewrite -[k.+3]/(3 + k)%N (jet2 _ _ (0, 0)) ?pairs2 //.
case: k hk => [|[|[|k]]] //= _; rewrite !(mderivD, mderivZ, mderivM, mderivC, X0, X1, Y0, Y1, o0, z0);
  rewrite !(mevalD, mevalZ, mevalM, meval0, meval1, hX, hY); rewrite ?addn0 ?addn1 ?addn2; by field.
Qed.
End Targets.

(** ** One edge *)
Section Edge.
Variable F : realFieldType.
Variables (x t n : point F 2) (l : F).
Hypothesis hl : l != 0.
Hypothesis hl2 : l ^+ 2 = square t.
Hypothesis hn : forall i, n i = clockwise t i / l.
Variable vorder : nat.
Hypothesis hv : (vorder <= 2)%N.

Lemma jets_from (f g : {mpoly F[2]}) s (y : point F 2) : (forall i, x i + s * t i = y i) ->
  (forall k, (k < vorder.+1)%N -> (line f x t)^`(k).[s] = (line g x t)^`(k).[s]) ->
  (forall k, (k < vorder)%N -> (line (along f n) x t)^`(k).[s] = (line (along g n) x t)^`(k).[s]) ->
  (vorder = 2%N -> (line (along (along f n) n) x t).[s] = (line (along (along g n) n) x t).[s]) ->
  forall k, (k < njets vorder)%N -> jet f y k = jet g y k.
Proof.
move=> hy ht hf hs k hk; apply/eqP; rewrite -subr_eq0 -jet_sub; apply/eqP; move: k hk.
have ev (h : {mpoly F[2]}) : h.@[y] = (line h x t).[s] by rewrite line_eval (meval_eq _ hy).
pose d := f - g.
have dt k : (k < vorder.+1)%N -> (line d x t)^`(k).[s] = 0.
  by move=> hk; rewrite line_sub derivnB hornerD hornerN ht // subrr.
have df k : (k < vorder)%N -> (line (along d n) x t)^`(k).[s] = 0.
  by move=> hk; rewrite along_sub line_sub derivnB hornerD hornerN hf // subrr.
have ds : vorder = 2%N -> (line (along (along d n) n) x t).[s] = 0.
  by move=> E; rewrite !along_sub line_sub hornerD hornerN hs // subrr.
have z0 : d.@[y] = 0 by rewrite ev -[line d x t]/((line d x t)^`(0)) dt.
have z1 : (0 < vorder)%N -> zero_jets d 3 y.
  move=> h; apply: (zero_jets3 hl hl2 hn) => //; first by rewrite ev -line_deriv -derivn1 dt.
  by rewrite ev -[line _ x t]/((line (along d n) x t)^`(0)) df.
have z2 : vorder = 2%N -> zero_jets d 6 y.
  move=> E; apply: (zero_jets6 hl hl2 hn); first by apply: z1; rewrite E.
  - by have := dt 2%N; rewrite derivnS derivn1 ev -!line_deriv => -> //; rewrite E.
  - by rewrite ev -line_deriv -derivn1 df // E.
  - by rewrite ev ds.
rewrite -/d /njets; case: vorder hv z1 z2 {ht hf hs dt df ds} => [|[|[|v]]] // _ z1 z2.
- by case=> // _; rewrite jet0.
- exact: z1.
- exact: z2.
Qed.

Variables (st sf D : nat) (Mt Mf : nat -> {poly F} -> F).
Hypothesis aT : forall j, additive_form (Mt j).
Hypothesis aF : forall j, additive_form (Mf j).
Hypothesis uT : forall p : {poly F}, (size p <= vorder.+1 + vorder.+1 + st)%N -> vanishes vorder.+1 p 0 -> vanishes vorder.+1 p 1 -> (forall j, (j < st)%N -> Mt j p = 0) -> p = 0.
Hypothesis uF : forall p : {poly F}, (size p <= vorder + vorder + sf)%N -> vanishes vorder p 0 -> vanishes vorder p 1 -> (forall j, (j < sf)%N -> Mf j p = 0) -> p = 0.
Hypothesis hD : (2 < D)%N.
Hypothesis hDt : (vorder.+1 + vorder.+1 + st <= D)%N.
Hypothesis hDf : (vorder + vorder + sf < D)%N.

Lemma edge_function (G0 G1 zt zf : nat -> F) (y : point F 2) : (forall i, x i + 1 * t i = y i) ->
  {f : {mpoly F[2]} | (msize f <= D)%N &
    [/\ forall k, (k < njets vorder)%N -> jet f x k = G0 k, forall k, (k < njets vorder)%N -> jet f y k = G1 k,
        forall k, (k < st)%N -> Mt k (line f x t) = zt k & forall k, (k < sf)%N -> Mf k (line (along f n) x t) = zf k]}.
Proof.
move=> hy.
pose g0 := target G0 x; pose g1 := target G1 y.
have [A sA [A0 A1 AM]] := end_interpolation (fun k => (line g0 x t)^`(k).[0]) (fun k => (line g1 x t)^`(k).[1]) zt aT uT.
have [B sB [B0 B1 BM]] := end_interpolation (fun k => (line (along g0 n) x t)^`(k).[0]) (fun k => (line (along g1 n) x t)^`(k).[1]) zf aF uF.
pose c0 := (line (along (along g0 n) n) x t).[0]; pose c1 := (line (along (along g1 n) n) x t).[1].
pose C : {poly F} := if (vorder == 2)%N then c0%:P + (c1 - c0) *: 'X else 0.
have sC : (size C <= D.-2)%N.
  rewrite /C; case: eqP => E; last by rewrite size_poly0.
  have hs : (2 <= D.-2)%N by move: hDt; rewrite E; lia.
  apply: (leq_trans _ hs); apply: (leq_trans (size_add _ _)); rewrite geq_max; apply/andP; split.
    by apply: (leq_trans (size_polyC_leq1 _)).
  by apply: (leq_trans (size_scale_leq _ _)); rewrite size_polyX.
have ED : D = (D - 3).+3 by lia.
exists (lift x t n A B C).
  rewrite ED; apply: lift_deg; [by apply: leq_trans sA _; lia|by apply: leq_trans sB _; lia|by apply: leq_trans sC _; lia].
have n6 k : (k < njets vorder)%N -> (k < 6)%N by case: (vorder) => [|[|v]] /=; lia.
split=> k hk.
- rewrite -(target_jets G0 x (n6 _ hk)).
  apply: (jets_from (s := 0)) hk => [i|j hj|j hj|E]; first by rewrite mul0r addr0.
  + by rewrite (lift_line _ hl hl2 hn) A0.
  + by rewrite (lift_flux _ hl hl2 hn) B0.
  + by rewrite (lift_second _ hl hl2 hn) /C E eqxx hornerD hornerC hornerZ hornerX mulr0 addr0.
- rewrite -(target_jets G1 y (n6 _ hk)).
  apply: (jets_from hy) hk => [j hj|j hj|E].
  + by rewrite (lift_line _ hl hl2 hn) A1.
  + by rewrite (lift_flux _ hl hl2 hn) B1.
  + by rewrite (lift_second _ hl hl2 hn) /C E eqxx hornerD hornerC hornerZ hornerX mulr1 addrC subrK.
- by rewrite (lift_line _ hl hl2 hn) AM.
- by rewrite (lift_flux _ hl hl2 hn) BM.
Qed.
End Edge.

(** ** Reference triangles *)
Section Basis.
Variable F : realFieldType.
Local Notation o := (ring_ops F).
Variable c : simplex (F := F).
Hypothesis hc : fiat_triangle c.
Local Notation R := (reference c).
Variable vorder : nat.
Hypothesis hv : (vorder <= 2)%N.
Variables (st sf D : nat) (Mt Mf : nat -> {poly F} -> F).
Hypothesis aT : forall j, additive_form (Mt j).
Hypothesis aF : forall j, additive_form (Mf j).
Hypothesis uT : forall p : {poly F}, (size p <= vorder.+1 + vorder.+1 + st)%N -> vanishes vorder.+1 p 0 -> vanishes vorder.+1 p 1 -> (forall j, (j < st)%N -> Mt j p = 0) -> p = 0.
Hypothesis uF : forall p : {poly F}, (size p <= vorder + vorder + sf)%N -> vanishes vorder p 0 -> vanishes vorder p 1 -> (forall j, (j < sf)%N -> Mf j p = 0) -> p = 0.
Hypothesis hD : (2 < D)%N.
Hypothesis hDt : (vorder.+1 + vorder.+1 + st <= D)%N.
Hypothesis hDf : (vorder + vorder + sf < D)%N.
Local Notation nv := (njets vorder).
Local Notation ne := (sf + st)%N.
Variables (ed : pieces F -> nat -> nat -> F) (inner : pieces F -> nat -> F).
Hypothesis hed : forall f e k, (e < 3)%N -> (k < ne)%N -> ed f e k = if (k < sf)%N then Mf k (flux R f e) else Mt (k - sf) (trace R f e).

Definition fits j e (f : {mpoly F[2]}) : Prop :=
  (msize f <= D)%N /\
  [/\ forall k, (k < nv)%N -> jet f (corner R (first e)) k = (first e * nv + k == j)%N%:R,
      forall k, (k < nv)%N -> jet f (corner R (second e)) k = (second e * nv + k == j)%N%:R,
      forall k, (k < st)%N -> Mt k (line f (corner R (first e)) (tangent R e)) = (3 * nv + e * ne + (sf + k) == j)%N%:R &
      forall k, (k < sf)%N -> Mf k (line (along f (normal R e)) (corner R (first e)) (tangent R e)) = (3 * nv + e * ne + k == j)%N%:R].

Lemma edge_fits j e : (e < 3)%N -> {f | fits j e f}.
Proof.
move=> he.
have [hl hl2] : 0 < sx_norm c (edge_tangent o c e) /\ sx_norm c (edge_tangent o c e) ^+ 2 = square (tangent R e).
  case: hc => _ [_ [_ h]]; have [h1 h2] := h _ he; split=> //.
  by rewrite h2 /square -!(tangent_model hc).
have hn i : normal R e i = clockwise (tangent R e) i / sx_norm c (edge_tangent o c e).
  by rewrite /= /clockwise -!(tangent_model hc).
have hy i : corner R (first e) i + 1 * tangent R e i = corner R (second e) i by rewrite mul1r /tangent addrC subrK.
have [f f1 f2] := @edge_function F _ _ _ _ (lt0r_neq0 hl) hl2 hn vorder hv st sf D Mt Mf aT aF uT uF hD hDt hDf
  (fun k => (first e * nv + k == j)%N%:R) (fun k => (second e * nv + k == j)%N%:R)
  (fun k => (3 * nv + e * ne + (sf + k) == j)%N%:R) (fun k => (3 * nv + e * ne + k == j)%N%:R) _ hy.
by exists f.
Qed.

Definition basis (j : nat) : pieces F := fun e =>
  match e with 0 => sval (edge_fits j (e := 0) isT) | 1 => sval (edge_fits j (e := 1) isT) | _ => sval (edge_fits j (e := 2) isT) end.

Lemma basis_fits j e : (e < 3)%N -> fits j e (basis j e).
Proof. by case: e => [|[|[|e]]] // _; exact: (svalP (edge_fits j _)). Qed.

Lemma basis_corner j e v k : (e < 3)%N -> (v < 3)%N -> v != e -> (k < nv)%N -> jet (basis j e) (corner R v) k = (v * nv + k == j)%N%:R.
Proof.
move=> he hv' hev hk; have [_ [h1 h2 _ _]] := basis_fits j he.
by case: e v he hv' hev h1 h2 => [|[|[|e]]] // [|[|[|v]]] // _ _ _ h1 h2; (exact: h1 || exact: h2).
Qed.

Lemma basis_smooth j : smooth R (basis j) nv.
Proof.
move=> e v k he hv' hev hk; rewrite (basis_corner j he hv' hev hk).
by rewrite basis_corner //; case: v hv' {hev hk} => [|[|[|v]]].
Qed.

Lemma basis_size j e : (e < 3)%N -> (msize (basis j e) <= D)%N.
Proof. by move=> he; case: (basis_fits j he). Qed.

Lemma basis_nodal : nodal (3 * nv + 3 * ne) (fun f => numbered nv ne (vertex_dof R f) (ed f) (inner f)) basis.
Proof.
move=> i j hi _.
have hnv : (0 < nv)%N by case: (vorder) => [|[|v]].
rewrite /numbered; case: ltnP => h1.
  have hq : (i %/ nv < 3)%N by rewrite ltn_divLR.
  have hr : (i %% nv < nv)%N by rewrite ltn_mod.
  rewrite /vertex_dof basis_corner // ?[X in (X == j)]esym; last 2 first.
  - by case: (i %/ nv)%N => [|[|v]].
  - by case: (i %/ nv)%N hq => [|[|[|v]]].
  have -> : weight (size_at R (i %/ nv)) (i %% nv) = 1 :> F.
    by rewrite /weight /= mulr1; case: ifP => //; case: ifP.
  by rewrite mul1r -divn_eq.
rewrite ltn_subLR // hi.
have hne : (0 < ne)%N by move: hi h1; case: ne => // ; rewrite muln0 addn0 => h1 h2; have := leq_trans h1 h2; rewrite ltnn.
have hq : ((i - 3 * nv) %/ ne < 3)%N by rewrite ltn_divLR // ltn_subLR.
have hr : ((i - 3 * nv) %% ne < ne)%N by rewrite ltn_mod.
have Ei : i = (3 * nv + ((i - 3 * nv) %/ ne) * ne + ((i - 3 * nv) %% ne))%N by rewrite -addnA -divn_eq subnKC.
rewrite hed //; have [_ [_ _ h3 h4]] := basis_fits j hq.
move: h3 h4 hr; rewrite [in RHS]Ei; move: ((i - 3 * nv) %/ ne)%N ((i - 3 * nv) %% ne)%N => e k h3 h4 hr.
case: ltnP => hk; first by rewrite -h4.
by rewrite -[in RHS](subnKC hk) -h3 // ltn_subLR.
Qed.
End Basis.
