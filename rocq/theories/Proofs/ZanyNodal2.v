(** Transformed bases are nodal: Argyris, Hsieh-Clough-Tocher, Bell, reduced
    Hsieh-Clough-Tocher, Morley. *)
From Coq Require Import String.
From mathcomp Require Import all_ssreflect all_algebra ring.
From SsrMultinomials Require Import mpoly.
From Verif Require Import Model.Gem Model.Piola Model.Zany Spec.Algebra Spec.Polynomials Spec.Zany.
From Verif Require Import Proofs.Determinant Proofs.PiolaFacts Proofs.Polynomials Proofs.Integrals Proofs.ZanySums Proofs.VertexTransform Proofs.EdgeGeometry Proofs.EdgeRows Proofs.ZanyElements Proofs.ZanyEnds Proofs.ZanyNodal Proofs.MorleyTransform.
From mathcomp Require Import zify.
Set Implicit Arguments.
Unset Strict Implicit.
Unset Printing Implicit Defensive.
Import GRing.Theory Num.Theory.
Local Open Scope ring_scope.

Section Elements.
Variable F : realFieldType.
Local Notation o := (ring_ops F).
Variables (c : simplex (F := F)) (g : geometry (F := F)) (J : 'I_2 -> 'I_2 -> F) (b : point F 2).
Hypothesis hc : fiat_triangle c.
Hypothesis hg : provides g c J b.
Variable weights : nat -> F.
Local Notation q := (affine J b).
Local Notation R := (reference c).
Local Notation T := (physical c q (physical_edge_lengths g) (cell_size g) weights).
Local Notation L := (physical_edge_lengths g).
Implicit Types f : pieces F.

(** ** Argyris with integral moments, Hsieh-Clough-Tocher *)
Lemma argyris_integralE degree variant avg i j : String.eqb variant "integral" = true -> 
  argyris_transformation o degree variant avg c g i j =
  Model.Zany.edge_transform o (vertex_transform o (identity o) 2 c g) 2 (degree - 5) c g avg j i * unscaled g 6 3 i.
Proof.
move=> hv; rewrite /argyris_transformation /transpose hv.
have -> : String.eqb variant "point" = false by move: hv => /String.eqb_eq ->.
have h3 : (3 <= comb (sx_dim c + 2)%coq_nat 2)%N by rewrite (hdim hc).
by rewrite (condition2E _ _ _ _ (hdim hc) h3) (hdim hc) (hnv hc).
Qed.

Section Moments.
Variables (N : nat) (avg : bool) (innerR innerT : pieces F -> nat -> F).
Hypothesis hw : forall e, (e < 3)%N -> weights e = if avg then 1 else L e.
Hypothesis hinner : forall f k, innerR (pulled q f) k = innerT f k.
Hypothesis hlinear : forall k, linear_dof (fun f => innerT f k).

Lemma argyris_relation m f i : smooth T f 6 -> (18 + 3 * (2 * m + 1) <= N)%N -> (i < N)%N ->
  numbered 6 (2 * m + 1) (vertex_dof R (pulled q f)) (moment_dof R 2 m (pulled q f)) (innerR (pulled q f)) i =
  \sum_(j < N) argyris_transformation o (5 + m) "integral"%string avg c g j i *
    numbered 6 (2 * m + 1) (vertex_dof T f) (moment_dof T 2 m f) (innerT f) j.
Proof.
move=> hs hN hi.
have -> : numbered 6 (2 * m + 1) (vertex_dof R (pulled q f)) (moment_dof R 2 m (pulled q f)) (innerR (pulled q f)) i =
  numbered 6 (2 * m + 1) (vertex_dof R (pulled q f)) (moment_dof R 2 m (pulled q f)) (innerT f) i.
  by rewrite /numbered; case: ifP => // _; case: ifP.
rewrite (@moment_element _ c g J b hc hg weights 2%N m avg N) //.
by apply: eq_bigr => j _; congr (_ * _); rewrite argyris_integralE // addKn.
Qed.

Lemma argyris_nodal_proof m phi : (18 + 3 * (2 * m + 1) <= N)%N -> (forall j, (j < N)%N -> smooth T (phi j) 6) ->
  nodal N (fun f => numbered 6 (2 * m + 1) (vertex_dof R f) (moment_dof R 2 m f) (innerR f)) (fun j => pulled q (phi j)) ->
  nodal N (fun f => numbered 6 (2 * m + 1) (vertex_dof T f) (moment_dof T 2 m f) (innerT f))
    (fun l => combination N (argyris_transformation o (5 + m) "integral"%string avg c g l) phi).
Proof.
move=> hN hs; apply: nodal_basis => [i|i j hi hj]; last exact: (@argyris_relation m (phi j) i (hs _ hj)).
exact: (@numbered_linear _ 6 (2 * m + 1) (vertex_dof T) (moment_dof T 2 m) innerT i (vertex_linear T) (moment_linear T 2 m) hlinear).
Qed.

Lemma hctE degree i j : hct_transformation o degree avg c g i j =
  Model.Zany.edge_transform o (vertex_transform o (identity o) 1 c g) 1 (degree - 3) c g avg j i * unscaled g 3 3 i.
Proof.
rewrite /hct_transformation /transpose.
have h3 : comb (sx_dim c + 1)%coq_nat 1 = 3%N by rewrite (hdim hc).
by rewrite (condition1E _ _ _ _ (hdim hc) h3) h3 (hnv hc).
Qed.

Lemma hct_relation m f i : smooth T f 3 -> (9 + 3 * (2 * m + 1) <= N)%N -> (i < N)%N ->
  numbered 3 (2 * m + 1) (vertex_dof R (pulled q f)) (moment_dof R 1 m (pulled q f)) (innerR (pulled q f)) i =
  \sum_(j < N) hct_transformation o (3 + m) avg c g j i *
    numbered 3 (2 * m + 1) (vertex_dof T f) (moment_dof T 1 m f) (innerT f) j.
Proof.
move=> hs hN hi.
have -> : numbered 3 (2 * m + 1) (vertex_dof R (pulled q f)) (moment_dof R 1 m (pulled q f)) (innerR (pulled q f)) i =
  numbered 3 (2 * m + 1) (vertex_dof R (pulled q f)) (moment_dof R 1 m (pulled q f)) (innerT f) i.
  by rewrite /numbered; case: ifP => // _; case: ifP.
rewrite (@moment_element _ c g J b hc hg weights 1%N m avg N) //.
by apply: eq_bigr => j _; congr (_ * _); rewrite hctE // addKn.
Qed.

Lemma hct_nodal_proof m phi : (9 + 3 * (2 * m + 1) <= N)%N -> (forall j, (j < N)%N -> smooth T (phi j) 3) ->
  nodal N (fun f => numbered 3 (2 * m + 1) (vertex_dof R f) (moment_dof R 1 m f) (innerR f)) (fun j => pulled q (phi j)) ->
  nodal N (fun f => numbered 3 (2 * m + 1) (vertex_dof T f) (moment_dof T 1 m f) (innerT f))
    (fun l => combination N (hct_transformation o (3 + m) avg c g l) phi).
Proof.
move=> hN hs; apply: nodal_basis => [i|i j hi hj]; last exact: (@hct_relation m (phi j) i (hs _ hj)).
exact: (@numbered_linear _ 3 (2 * m + 1) (vertex_dof T) (moment_dof T 1 m) innerT i (vertex_linear T) (moment_linear T 1 m) hlinear).
Qed.
End Moments.

(** ** The point variant of Argyris and Morley *)
Definition no_inner : pieces F -> nat -> F := fun _ _ => 0.
Lemma no_inner_linear k : linear_dof (fun f => no_inner f k).
Proof. by move=> n a phi; rewrite big1 // => j _; rewrite mulr0. Qed.

Lemma argyris_point_nodal_proof avg phi :
  (forall e, (e < 3)%N -> weights e = (cell_size g (first e) + cell_size g (second e)) / 2%:R) ->
  (forall j, (j < 21)%N -> smooth T (phi j) 6) -> (forall j e, (j < 21)%N -> (e < 3)%N -> (msize (phi j e) <= 6)%N) ->
  nodal 21 (fun f => numbered 6 1 (vertex_dof R f) (midpoint_dof R f) (no_inner f)) (fun j => pulled q (phi j)) ->
  nodal 21 (fun f => numbered 6 1 (vertex_dof T f) (midpoint_dof T f) (no_inner f))
    (fun l => combination 21 (argyris_transformation o 5 "point"%string avg c g l) phi).
Proof.
move=> hw hs hd; apply: nodal_basis => [i|i j hi hj].
  exact: (@numbered_linear _ 6 1 (vertex_dof T) (midpoint_dof T) no_inner i (vertex_linear T) (midpoint_linear T) no_inner_linear).
by apply: (@point_element _ c g J b hc hg) => // [|e he]; [exact: hs|exact: hd].
Qed.

Lemma morley_nodal_proof phi :
  (forall e, (e < 3)%N -> weights e = (cell_size g (first e) + cell_size g (second e)) / 2%:R) ->
  (forall j, (j < 6)%N -> smooth T (phi j) 1) -> (forall j e, (j < 6)%N -> (e < 3)%N -> (msize (phi j e) <= 3)%N) ->
  nodal 6 (fun f => numbered 1 1 (vertex_dof R f) (midpoint_dof R f) (no_inner f)) (fun j => pulled q (phi j)) ->
  nodal 6 (fun f => numbered 1 1 (vertex_dof T f) (midpoint_dof T f) (no_inner f))
    (fun l => combination 6 (morley_transformation o g l) phi).
Proof.
move=> hw hs hd; apply: nodal_basis => [i|i j hi hj].
  exact: (@numbered_linear _ 1 1 (vertex_dof T) (midpoint_dof T) no_inner i (vertex_linear T) (midpoint_linear T) no_inner_linear).
by apply: (@morley_element _ c g J b hc hg) => // [|e he]; [exact: hs|exact: hd].
Qed.

(** ** Elements with constraints *)
Lemma constrained_nodal nv (M : nat -> nat -> F) (p : {poly F}) (B : nat -> F) phi : (0 < nv)%N ->
  let n := (3 * nv)%N in
  let phys f := numbered nv 1 (vertex_dof T f) (fun e _ => integral (flux T f e * p)) (no_inner f) in
  let ref f := numbered nv 1 (vertex_dof R f) (constraint_dof R p f) (no_inner f) in
  (forall i j, (i < n + 3)%N -> (j < n + 3)%N -> ref (pulled q (phi j)) i =
     \sum_(k < n) M k i * phys (phi j) k + (if (i < n)%N then 0 else B (i - n)%N * integral (flux T (phi j) (i - n)%N * p))) ->
  nodal (n + 3) ref (fun j => pulled q (phi j)) ->
  forall l, (l < n)%N ->
  (forall v a, (v < 3)%N -> (a < nv)%N -> vertex_dof T (combination (n + 3) (M l) phi) v a = (v * nv + a == l)%N%:R) /\
  (forall e, (e < 3)%N -> integral (flux T (combination (n + 3) (M l) phi) e * p) = 0).
Proof.
move=> hnv n phys ref hrel href l hl.
pose M' k i := if (k < n)%N then M k i else if (i == k)%N then B (i - n)%N else 0.
have hn : nodal (n + 3) phys (fun l => combination (n + 3) (M' l) phi).
  apply: (@nodal_basis F (n + 3) M' ref phys q phi _ _ href) => [i|i j hi hj].
    exact: (@numbered_linear _ nv 1 (vertex_dof T) (fun f e _ => integral (flux T f e * p)) no_inner i (vertex_linear T) (fun e _ => flux_linear T p e) no_inner_linear).
  rewrite hrel // [in RHS](@big_split_ord _ _ _ n 3) /=; congr (_ + _); first by apply: eq_bigr => k _; rewrite /M' ltn_ord.
  have hM' (k : 'I_3) : M' (n + k)%N i = if (i == n + k)%N then B (i - n)%N else 0.
    by rewrite /M' ltnNge leq_addr.
  under eq_bigr do rewrite hM'.
  case: ltnP => hin.
    by rewrite big1 // => k _; case: eqP => [e|_]; [move: hin; rewrite e ltnNge leq_addr|rewrite mul0r].
  have h3 : (i - n < 3)%N by rewrite ltn_subLR.
  rewrite (bigD1 (Ordinal h3)) //= subnKC // eqxx big1 ?addr0.
    congr (_ * _); rewrite -{2}(subnKC hin) /phys -[(i - n)%N]muln1 -[(n + _)%N]addn0.
    by rewrite numbered_edge // muln1.
  move=> k hk; case: eqP => [e|_]; last by rewrite mul0r.
  by case/eqP: hk; apply: val_inj; rewrite /= e addKn.
have hM : combination (n + 3) (M' l) phi = combination (n + 3) (M l) phi.
  by rewrite /combination /M' hl.
split=> [v a hv ha|e he].
  have := hn (v * nv + a)%N l; rewrite hM /phys numbered_vertex // => -> //.
    by apply: leq_trans (leq_addr _ _); rewrite /n; case: v hv => [|[|[|v]]] // _; lia.
  exact: leq_trans (leq_addr _ _).
set psi := combination _ _ _.
have := @numbered_edge F nv 1 (vertex_dof T psi) (fun e _ => integral (flux T psi e * p)) (no_inner psi) e 0 he isT.
rewrite muln1 addn0 => <-.
have hl3 : (l < n + 3)%N by apply: leq_trans (leq_addr _ _).
have he3 : (n + e < n + 3)%N by rewrite ltn_add2l.
have := hn (n + e)%N l he3 hl3; rewrite hM /phys => ->.
by rewrite gtn_eqF // (leq_trans hl) // leq_addr.
Qed.

Lemma bell_nodal_proof phi :
  (forall j, (j < 21)%N -> smooth T (phi j) 6) -> (forall j e, (j < 21)%N -> (e < 3)%N -> (msize (phi j e) <= 6)%N) ->
  nodal 21 (fun f => numbered 6 1 (vertex_dof R f) (constraint_dof R (legendre4 F) f) (no_inner f)) (fun j => pulled q (phi j)) ->
  forall l, (l < 18)%N -> let psi := combination 21 (bell_transformation o c g l) phi in
  (forall v a, (v < 3)%N -> (a < 6)%N -> vertex_dof T psi v a = (v * 6 + a == l)%N%:R) /\
  (forall e, (e < 3)%N -> integral (flux T psi e * legendre4 F) = 0).
Proof.
move=> hs hd hn l hl.
apply: (@constrained_nodal 6 (bell_transformation o c g) (legendre4 F) (fun e => bnn c g e * L e) phi) => // i j hi hj.
by apply: (@bell_element _ c g J b hc hg) => // [|e he]; [exact: hs|exact: hd].
Qed.

Lemma reduced_nodal_proof phi :
  (forall j, (j < 12)%N -> smooth T (phi j) 3) -> (forall j e, (j < 12)%N -> (e < 3)%N -> (msize (phi j e) <= 4)%N) ->
  nodal 12 (fun f => numbered 3 1 (vertex_dof R f) (constraint_dof R (legendre2 F) f) (no_inner f)) (fun j => pulled q (phi j)) ->
  forall l, (l < 9)%N -> let psi := combination 12 (reduced_hct_transformation o c g l) phi in
  (forall v a, (v < 3)%N -> (a < 3)%N -> vertex_dof T psi v a = (v * 3 + a == l)%N%:R) /\
  (forall e, (e < 3)%N -> integral (flux T psi e * legendre2 F) = 0).
Proof.
move=> hs hd hn l hl.
apply: (@constrained_nodal 3 (reduced_hct_transformation o c g) (legendre2 F) (fun e => bnn c g e * L e) phi) => // i j hi hj.
by apply: (@reduced_element _ c g J b hc hg) => // [|e he]; [exact: hs|exact: hd].
Qed.
End Elements.
