(** Cells with bases for each triangular element. *)
From Coq Require Import String.
From mathcomp Require Import all_ssreflect all_algebra ring.
From SsrMultinomials Require Import mpoly.
From Verif Require Import Model.Gem Model.Piola Model.Zany Spec.Algebra Spec.Polynomials Spec.Zany Spec.Conformity.
From Verif Require Import Proofs.PiolaFacts Proofs.Polynomials Proofs.Integrals Proofs.ZanySums Proofs.VertexTransform Proofs.EdgeGeometry Proofs.EdgeRows Proofs.ZanyElements Proofs.ZanyNodal Proofs.EdgeUnisolvence Proofs.Conformity Proofs.Conformity2 Proofs.Transport Proofs.EdgeBases Proofs.EdgeBases2.
From mathcomp Require Import zify.
Set Implicit Arguments.
Unset Strict Implicit.
Unset Printing Implicit Defensive.
Import GRing.Theory Num.Theory.
Local Open Scope ring_scope.

Section Cells.
Variable F : realFieldType.
Local Notation o := (ring_ops F).
Variable c : simplex (F := F).
Hypothesis hc : fiat_triangle c.
Local Notation R := (reference c).
Variables (w : geometry (F := F) -> nat -> F) (g : geometry (F := F)) (J : 'I_2 -> 'I_2 -> F) (b : point F 2).
Hypothesis hg : provides g c J b.

Lemma integral_form (q : {poly F}) : additive_form (fun p => integral (p * q)).
Proof. by split=> [p p'|a p]; rewrite ?mulrDl ?integralD // -scalerAl integralZ. Qed.
Lemma eval_form (s : F) : additive_form (fun p => p.[s]).
Proof. by split=> [p p'|a p]; rewrite ?hornerD ?hornerZ. Qed.

Lemma numbered_same nv ne (vd vd' ed ed' : nat -> nat -> F) (inner : nat -> F) i :
  (forall v k, vd v k = vd' v k) -> (forall v k, ed v k = ed' v k) -> numbered nv ne vd ed inner i = numbered nv ne vd' ed' inner i.
Proof. by move=> h1 h2; rewrite /numbered h1 h2. Qed.

Definition local_ed (ed : pieces F -> nat -> nat -> F) : Prop := forall f f' e k, (forall e, f e = f' e) -> ed f e k = ed f' e k.

Section General.
Variables (vorder st sf D N ne : nat) (Mt Mf : nat -> {poly F} -> F).
Hypothesis hv : (vorder <= 2)%N.
Hypothesis aT : forall j, additive_form (Mt j).
Hypothesis aF : forall j, additive_form (Mf j).
Hypothesis uT : forall p : {poly F}, (size p <= vorder.+1 + vorder.+1 + st)%N -> vanishes vorder.+1 p 0 -> vanishes vorder.+1 p 1 -> (forall j, (j < st)%N -> Mt j p = 0) -> p = 0.
Hypothesis uF : forall p : {poly F}, (size p <= vorder + vorder + sf)%N -> vanishes vorder p 0 -> vanishes vorder p 1 -> (forall j, (j < sf)%N -> Mf j p = 0) -> p = 0.
Hypothesis hD : (2 < D)%N.
Hypothesis hDt : (vorder.+1 + vorder.+1 + st <= D)%N.
Hypothesis hDf : (vorder + vorder + sf < D)%N.
Hypothesis hne : ne = (sf + st)%N.
Hypothesis hN : N = (3 * njets vorder + 3 * ne)%N.
Variable ed : pieces F -> nat -> nat -> F.
Hypothesis hext : local_ed ed.
Hypothesis hed : forall f e k, (e < 3)%N -> (k < ne)%N -> ed f e k = if (k < sf)%N then Mf k (flux R f e) else Mt (k - sf) (trace R f e).

Lemma cell_exists : exists K : cell F, [/\ geo K = g, matrix K = J, origin K = b &
  based c w N (njets vorder) D (fun f => numbered (njets vorder) ne (vertex_dof R f) (ed f) (fun _ => 0)) K].
Proof.
have hed' f e k : (e < 3)%N -> (k < sf + st)%N -> ed f e k = if (k < sf)%N then Mf k (flux R f e) else Mt (k - sf) (trace R f e).
  by rewrite -hne; exact: hed.
pose Phi := @basis F c hc vorder hv st sf D Mt Mf aT aF uT uF hD hDt hDf.
exists (Cell g J b (fun j => pulled (back J b) (Phi j))); split=> //.
apply: transport => //.
- by case: (vorder) hv => [|[|[|v]]] // _; [left|right; left|right; right].
- move=> f f' i h; apply: numbered_same => [v k|e k]; first by rewrite /vertex_dof h.
  exact: hext.
- move=> j _; exact: basis_smooth.
- move=> j e _; exact: basis_size.
- rewrite hN hne; exact: (@basis_nodal F c hc vorder hv st sf D Mt Mf aT aF uT uF hD hDt hDf ed (fun _ _ => 0) hed').
Qed.
End General.

Lemma no_moments r (p : {poly F}) : (size p <= r + r + 0)%N -> vanishes r p 0 -> vanishes r p 1 -> (forall j, (j < 0)%N -> (0 : F) = 0) -> p = 0.
Proof. by rewrite addn0 => h1 h2 h3 _; apply: ends_zero h1 h2 h3. Qed.

Lemma moment_form (v m k : nat) f e : (e < 3)%N -> (k < 2 * m + 1)%N ->
  moment_dof R v m f e k = if (k < m.+1)%N then integral (flux R f e * jacobi F v k) else integral (trace R f e * (jacobi F v (k - m.+1).+1)^`()).
Proof.
move=> he hk; rewrite /moment_dof ltnS; case: leqP => h; first by rewrite mul1r.
by rewrite -subSn // subSS.
Qed.

Lemma moment_cells v m : (v = 1%N \/ v = 2%N) -> exists K : cell F, [/\ geo K = g, matrix K = J, origin K = b &
  based c w (3 * njets v + 3 * (2 * m + 1)) (njets v) (v.+1 + v.+1 + m)
    (fun f => numbered (njets v) (2 * m + 1) (vertex_dof R f) (moment_dof R v m f) (fun _ => 0)) K].
Proof.
move=> hv.
apply: (@cell_exists v m m.+1 _ _ _ (fun j p => integral (p * (jacobi F v j.+1)^`())) (fun j p => integral (p * jacobi F v j))).
- by case: hv => ->.
- by move=> j; apply: integral_form.
- by move=> j; apply: integral_form.
- move=> p h1 h2 h3 h4; apply: (unisolvent h1 h2 h3); apply: span (h4) => k hk; exact/deriv_size/jacobi_size.
- move=> p h1 h2 h3 h4; apply: (unisolvent h1 h2 h3); apply: span (h4) => k hk; exact: jacobi_size.
- by case: hv => ->; lia.
- by [].
- by lia.
- by lia.
- by [].
- by move=> f f' e k h; rewrite /moment_dof /flux /trace h.
- move=> f e k he hk; exact: moment_form.
Qed.

Lemma argyris_cells m : exists K : cell F, [/\ geo K = g, matrix K = J, origin K = b &
  based c w (18 + 3 * (2 * m + 1)) 6 (6 + m) (fun f => numbered 6 (2 * m + 1) (vertex_dof R f) (moment_dof R 2 m f) (fun _ => 0)) K].
Proof. exact: (@moment_cells 2 m (or_intror erefl)). Qed.

Lemma hct_cells m : exists K : cell F, [/\ geo K = g, matrix K = J, origin K = b &
  based c w (9 + 3 * (2 * m + 1)) 3 (4 + m) (fun f => numbered 3 (2 * m + 1) (vertex_dof R f) (moment_dof R 1 m f) (fun _ => 0)) K].
Proof. exact: (@moment_cells 1 m (or_introl erefl)). Qed.

(** One functional of the normal derivative on each edge. *)
Lemma single_cells v D (M : {poly F} -> F) ed : (v <= 2)%N -> (2 < D)%N -> (v.+1 + v.+1 <= D)%N ->
  additive_form M -> M (bubble F v) != 0 -> local_ed ed -> (forall f e, (e < 3)%N -> ed f e 0%N = M (flux R f e)) ->
  exists K : cell F, [/\ geo K = g, matrix K = J, origin K = b &
  based c w (3 * njets v + 3 * 1) (njets v) D (fun f => numbered (njets v) 1 (vertex_dof R f) (ed f) (fun _ => 0)) K].
Proof.
move=> hv hD hD2 hM hb hl he.
apply: (@cell_exists v 0 1 _ _ _ (fun _ _ => 0) (fun _ => M)) => //.
- by move=> j; split=> [p q|a p]; rewrite ?addr0 ?mulr0.
- by move=> p; exact: no_moments.
- move=> p h1 h2 h3 h4; have hs : (size p <= (v + v).+1)%N by move: h1; rewrite addn1.
  have [z Ez] := ends_bubble hs h2 h3.
  have := h4 0%N isT; rewrite Ez hM.2 => /eqP; rewrite mulf_eq0 (negbTE hb) orbF => /eqP ->.
  by rewrite scale0r.
- by rewrite addn0.
- by rewrite addn1; apply: leq_trans hD2; lia.
- by move=> f e [|k] // h _; exact: he.
Qed.

Lemma bubble_middle v : (bubble F v).[1 / 2%:R] != 0.
Proof.
rewrite /bubble hornerM !horner_exp !hornerXsubC mulf_neq0 // expf_neq0 //.
  by rewrite subr0 div1r invr_eq0 pnatr_eq0.
by have -> : 1 / 2%:R - 1 = - (2%:R^-1) :> F; [field|rewrite oppr_eq0 invr_eq0 pnatr_eq0].
Qed.

Lemma argyris_point_cells : exists K : cell F, [/\ geo K = g, matrix K = J, origin K = b &
  based c w 21 6 6 (fun f => numbered 6 1 (vertex_dof R f) (midpoint_dof R f) (fun _ => 0)) K].
Proof.
apply: (@single_cells 2 6 (fun p => p.[1 / 2%:R])) => //; first exact: eval_form.
- exact: bubble_middle.
- by move=> f f' e k h; rewrite /midpoint_dof /flux h.
- by move=> f e he; exact: mul1r.
Qed.

Lemma morley_cells : exists K : cell F, [/\ geo K = g, matrix K = J, origin K = b &
  based c w 6 1 3 (fun f => numbered 1 1 (vertex_dof R f) (midpoint_dof R f) (fun _ => 0)) K].
Proof.
apply: (@single_cells 0 3 (fun p => p.[1 / 2%:R])) => //; first exact: eval_form.
- exact: bubble_middle.
- by move=> f f' e k h; rewrite /midpoint_dof /flux h.
- by move=> f e he; exact: mul1r.
Qed.

Lemma bell_cells : exists K : cell F, [/\ geo K = g, matrix K = J, origin K = b &
  based c w 21 6 6 (fun f => numbered 6 1 (vertex_dof R f) (constraint_dof R (legendre4 F) f) (fun _ => 0)) K].
Proof.
apply: (@single_cells 2 6 (fun p => integral (p * legendre4 F))) => //; first exact: integral_form.
- by rewrite bubble_legendre4 invr_eq0 pnatr_eq0.
- by move=> f f' e k h; rewrite /constraint_dof /flux h.
- by move=> f e he; rewrite /constraint_dof mul1r.
Qed.

Lemma reduced_cells : exists K : cell F, [/\ geo K = g, matrix K = J, origin K = b &
  based c w 12 3 4 (fun f => numbered 3 1 (vertex_dof R f) (constraint_dof R (legendre2 F) f) (fun _ => 0)) K].
Proof.
apply: (@single_cells 1 4 (fun p => integral (p * legendre2 F))) => //; first exact: integral_form.
- by rewrite bubble_legendre2 invr_eq0 pnatr_eq0.
- by move=> f f' e k h; rewrite /constraint_dof /flux h.
- by move=> f e he; rewrite /constraint_dof mul1r.
Qed.
End Cells.
