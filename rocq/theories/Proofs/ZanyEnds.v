(** The rows of the transformations that use the derivatives at the ends of an
    edge: the point variant of Argyris, Bell and reduced Hsieh-Clough-Tocher. *)
From Coq Require Import String.
From mathcomp Require Import all_ssreflect all_algebra ring.
From SsrMultinomials Require Import mpoly.
From Verif Require Import Model.Gem Model.Piola Model.Zany Spec.Algebra Spec.Polynomials Spec.Zany.
From Verif Require Import Proofs.Determinant Proofs.PiolaFacts Proofs.Polynomials Proofs.Integrals Proofs.ZanySums Proofs.VertexTransform Proofs.EdgeGeometry Proofs.EdgeRows Proofs.ZanyElements.
From mathcomp Require Import zify.
Set Implicit Arguments.
Unset Strict Implicit.
Unset Printing Implicit Defensive.
Import GRing.Theory Num.Theory.
Local Open Scope ring_scope.

Section Ends.
Variable F : realFieldType.
Local Notation o := (ring_ops F).
Variables (c : simplex (F := F)) (g : geometry (F := F)) (J : 'I_2 -> 'I_2 -> F) (b : point F 2).
Hypothesis hc : fiat_triangle c.
Hypothesis hg : provides g c J b.
Variable weights : nat -> F.
Local Notation q := (affine J b).
Local Notation R := (reference c).
Local Notation T := (physical c q (physical_edge_lengths g) (cell_size g) weights).
Local Notation L := (physical_edge_lengths g).
Local Notation VT vorder := (vertex_transform o (identity o) vorder c g).
Implicit Types f : pieces F.

Fact end_left e i : corner T (first e) i + 0 * tangent T e i = corner T (first e) i.
Proof. by rewrite mul0r addr0. Qed.
Fact end_right e i : corner T (first e) i + 1 * tangent T e i = corner T (second e) i.
Proof. by rewrite mul1r /tangent addrC subrK. Qed.

Lemma ends_jet f e x y z : ends (trace T f e) x y z =
  let t := tangent T e in let l := jet (f e) (corner T (first e)) in let r := jet (f e) (corner T (second e)) in
  x * (r 0%N - l 0%N) + y * (t 0 * r 1%N + t 1 * r 2%N + (t 0 * l 1%N + t 1 * l 2%N)) +
  z * (t 0 * t 0 * r 3%N + 2%:R * t 0 * t 1 * r 4%N + t 1 * t 1 * r 5%N - (t 0 * t 0 * l 3%N + 2%:R * t 0 * t 1 * l 4%N + t 1 * t 1 * l 5%N)).
Proof.
rewrite /ends trace_left trace_right (deriv_at f (end_left e)) (deriv_at f (end_right e)).
by rewrite (second_at f (end_left e)) (second_at f (end_right e)) !sum2.
Qed.

(** The entries written by quintic_edge. *)
Definition quintic_entries (v0 v1 : nat) (B t0 t1 x y z : F) : seq (nat * F) :=
  [:: (v1, x * B); (v0, - (x * B)); 
      ((v1 + 1)%N, y * B * t0); ((v0 + 1)%N, y * B * t0); ((v1 + 2)%N, y * B * t1); ((v0 + 2)%N, y * B * t1);
      ((v1 + 3)%N, z * B * (t0 * t0)); ((v0 + 3)%N, - (z * B * (t0 * t0)));
      ((v1 + 4)%N, z * B * (2%:R * t0 * t1)); ((v0 + 4)%N, - (z * B * (2%:R * t0 * t1)));
      ((v1 + 5)%N, z * B * (t1 * t1)); ((v0 + 5)%N, - (z * B * (t1 * t1)))].

Lemma quintic_edgeE V s v0 v1 B Jt x y z :
  quintic_edge o V s v0 v1 B Jt x y z = puts V s (quintic_entries v0 v1 B (Jt 0%N) (Jt 1%N) x y z).
Proof.
rewrite /quintic_edge /puts /quintic_entries /= !plusE ?addn0; by rewrite -?addnA ?add0n ?addr0.
Qed.

Lemma quintic_sum N (un r : nat -> F) f e x y z : (e < 3)%N -> (18 <= N)%N -> 
  (forall v d, (v == first e) || (v == second e) -> (d < 6)%N -> un (v * 6 + d)%N = jet (f e) (corner T v) d) ->
  (forall j, (j < 18)%N -> r j = 0) ->
  \sum_(j < N) puts_row r (quintic_entries (first e * 6) (second e * 6) (bnt c g e) ((nt c g e).2 0%N) ((nt c g e).2 1%N) x y z) j * un j =
  bnt c g e * ends (trace T f e) x y z + \sum_(j < N) r j * un j.
Proof.
move=> he hN hun hr.
have t0 : (nt c g e).2 0%N = tangent T e 0 := nt_tangent hc hg weights (0 : 'I_2) he.
have t1 : (nt c g e).2 1%N = tangent T e 1 := nt_tangent hc hg weights (1 : 'I_2) he.
rewrite t0 t1 sum_puts; last 1 first.
- move=> p /(map_f fst) hp; apply: hr; move: hp => /=.
  by case: e he {hun t0 t1} => [|[|[|e]]] // _; rewrite /first /second /= !inE; lia.
- rewrite ends_jet /= !big_cons big_nil /=.
  have h0 v : (v == first e) || (v == second e) -> un (v * 6)%N = jet (f e) (corner T v) 0.
    by move=> h; rewrite -(hun v 0%N h) // addn0.
  rewrite !hun ?eqxx ?orbT // !h0 ?eqxx ?orbT //.
  congr (_ + _); move: (jet _ _) (jet _ _) => l r'; ring.
- by case: e he {hun t0 t1} => [|[|[|e]]].
- case: e he {hun t0 t1} => [|[|[|e]]] // _; rewrite /first /second /=; lia.
Qed.

(** The entries written by the loop of ReducedHsiehCloughTocher. *)
Definition cubic_entries (v0 v1 : nat) (B t0 t1 : F) : seq (nat * F) :=
  [:: (v0, 1 / 5%:R * B); (v1, - (1 / 5%:R * B));
      ((v1 + 1)%N, 1 / 10%:R * B * t0); ((v0 + 1)%N, 1 / 10%:R * B * t0);
      ((v1 + 2)%N, 1 / 10%:R * B * t1); ((v0 + 2)%N, 1 / 10%:R * B * t1)].

Lemma cubic_sum N (un r : nat -> F) f e : (e < 3)%N -> (9 <= N)%N -> 
  (forall v d, (v == first e) || (v == second e) -> (d < 3)%N -> un (v * 3 + d)%N = jet (f e) (corner T v) d) ->
  (forall j, (j < 9)%N -> r j = 0) ->
  \sum_(j < N) puts_row r (cubic_entries (first e * 3) (second e * 3) (bnt c g e) ((nt c g e).2 0%N) ((nt c g e).2 1%N)) j * un j =
  bnt c g e * ends (trace T f e) (- (1 / 5%:R)) (1 / 10%:R) 0 + \sum_(j < N) r j * un j.
Proof.
move=> he hN hun hr.
have t0 : (nt c g e).2 0%N = tangent T e 0 := nt_tangent hc hg weights (0 : 'I_2) he.
have t1 : (nt c g e).2 1%N = tangent T e 1 := nt_tangent hc hg weights (1 : 'I_2) he.
rewrite t0 t1 sum_puts; last 1 first.
- move=> p /(map_f fst) hp; apply: hr; move: hp => /=.
  by case: e he {hun t0 t1} => [|[|[|e]]] // _; rewrite /first /second /= !inE; lia.
- rewrite ends_jet /= !big_cons big_nil /=.
  have h0 v : (v == first e) || (v == second e) -> un (v * 3)%N = jet (f e) (corner T v) 0.
    by move=> h; rewrite -(hun v 0%N h) // addn0.
  rewrite !hun ?eqxx ?orbT // !h0 ?eqxx ?orbT //.
  congr (_ + _); move: (jet _ _) (jet _ _) => l r'; ring.
- by case: e he {hun t0 t1} => [|[|[|e]]].
- case: e he {hun t0 t1} => [|[|[|e]]] // _; rewrite /first /second /=; lia.
Qed.

(** Loops that fill one row for each edge. *)
Definition edge_fills n (entries : nat -> seq (nat * F)) := [seq ((n + e)%N, entries e) | e <- iota 0 3].
Lemma edge_fills_out V n entries i j : (forall e, (e < 3)%N -> i <> (n + e)%N) -> fills V (edge_fills n entries) i j = V i j.
Proof.
move=> h; rewrite fills_out // /edge_fills -map_comp; apply/mapP => -[e]; rewrite mem_iota => he; exact: h.
Qed.
Lemma edge_fills_in V n entries e j : (e < 3)%N -> fills V (edge_fills n entries) (n + e)%N j = puts_row (V (n + e)%N) (entries e) j.
Proof.
move=> he; apply: fills_in; last by apply/mapP; exists e => //; rewrite mem_iota.
by rewrite /edge_fills -map_comp map_inj_uniq ?iota_uniq // => x y /addnI.
Qed.

Fact nt_split e : normal_tangential_transform o c (jacobian_at g (barycentre o c)) (detJ_at g (barycentre o c)) e = (bnn c g e, bnt c g e, (nt c g e).2).
Proof. by rewrite /bnn /bnt -/(nt c g e); case: (nt c g e) => [[]]. Qed.

(** ** The point variant of Argyris *)
Definition point_matrix : mtx (F := F) := fills (VT 2) (edge_fills 18 (fun e =>
  ((18 + e)%N, bnn c g e * L e) :: quintic_entries ((edge c e).1 * 6) ((edge c e).2 * 6) (bnt c g e) ((nt c g e).2 0%N) ((nt c g e).2 1%N)
    (15%:R / 8%:R) (- (7%:R / 16%:R)) (1 / 32%:R))).

Definition edge_unscaled j : F :=
  if (18 <= j < 21)%N then 2%:R / (cell_size g (first (j - 18)) + cell_size g (second (j - 18))) else 1.

Lemma argyris_pointE avg i j : argyris_transformation o 5 "point"%string avg c g i j =
  point_matrix j i * unscaled g 6 3 i * edge_unscaled i.
Proof.
rewrite /argyris_transformation /transpose (hdim hc) (hnv hc) (hne hc) [String.eqb _ _]/= [String.eqb _ _]/=.
rewrite [comb _ _]/= [(5 - 5)%coq_nat]/= [(2 * 0 + 1)%coq_nat]/= [List.seq 0 3]/=.
set V0 := List.fold_left _ _ (VT 2).
have -> : V0 = point_matrix.
  rewrite /V0 /point_matrix /fills /edge_fills foldl_map -[[:: 0; 1; 2]%N]/(iota 0 3) fold_leftE; apply: foldl_eq => V e.
  rewrite nt_split quintic_edgeE !numE !plusE !multE ?addn0 ?add0n ?muln1 /puts /=.
  by [].
set V1 := condition2 _ _ _ _ _.
have hV1 i' j' : V1 i' j' = point_matrix i' j' * unscaled g 6 3 j'.
  by rewrite /V1 condition2E ?(hdim hc) ?(hnv hc).
rewrite -hV1; cbn [List.fold_left]; rewrite !(edge_ends hc) // /scale !natE !plusE !multE /edge_unscaled !numE.
case h1 : (i < 18)%N; first by rewrite !ifF ?mulr1 //; lia.
rewrite -(@subnKC 18 i); last by lia.
move: (i - 18)%N => k.
case: k => [|[|[|k]]]; [reflexivity|reflexivity|reflexivity|exact/esym/mulr1].
Qed.

Lemma edge_weight_pos e : (e < 3)%N -> 0 < (cell_size g (first e) + cell_size g (second e)) / 2%:R.
Proof.
move=> he; case: hg => _ [_ [_ [h _]]]; have [h1 _] := first_other he; have [h2 _] := second_other he.
by rewrite divr_gt0 ?ltr0n // addr_gt0 // h.
Qed.

Lemma half_twice (s y : F) : s != 0 -> 2%:R / s * (s / 2%:R * y) = y.
Proof. by move=> h; field. Qed.

Lemma point_element avg f i inner : 
  (forall e, (e < 3)%N -> weights e = (cell_size g (first e) + cell_size g (second e)) / 2%:R) ->
  smooth T f 6 -> (forall e, (e < 3)%N -> (msize (f e) <= 6)%N) -> (i < 21)%N ->
  numbered 6 1 (vertex_dof R (pulled q f)) (midpoint_dof R (pulled q f)) inner i =
  \sum_(j < 21) argyris_transformation o 5 "point"%string avg c g j i *
    numbered 6 1 (vertex_dof T f) (midpoint_dof T f) inner j.
Proof.
move=> hw hs hd hi.
pose un := numbered 6 1 (fun v a => jet (f (edge_at v)) (corner T v) a) (fun e _ => (flux T f e).[1 / 2%:R]) inner.
transitivity (\sum_(j < 21) point_matrix i j * un j); last first.
  pose um := numbered 6 1 (fun v a => jet (f (edge_at v)) (corner T v) a) (midpoint_dof T f) inner.
  rewrite -/um; transitivity (\sum_(j < 21) (point_matrix i j * edge_unscaled j) * um j).
    apply: eq_bigr => j _; rewrite -mulrA; congr (_ * _).
    rewrite /edge_unscaled /un /um /numbered; have hj := ltn_ord j.
    case: (ltnP j 18) => h; first by rewrite mul1r.
    rewrite /= hj.
    have he : (j - 18 < 3)%N by lia.
    rewrite divn1 ifT; last by lia. 
    rewrite modn1 /midpoint_dof -[edge_weight T _]/(weights _) hw // ifT; last by lia.
    have := edge_weight_pos he; rewrite pmulr_lgt0 ?invr_gt0 ?ltr0n // => /lt0r_neq0 h0.
    by rewrite half_twice.
  rewrite -(@unscale_sum _ c g J b hg 21 6 1 (fun v a => jet (f (edge_at v)) (corner T v) a) (midpoint_dof T f) inner
    (fun j => point_matrix i j * edge_unscaled j)) //.
  by apply: eq_bigr => j _; congr (_ * _); rewrite argyris_pointE mulrAC.
have unv v a : (v < 3)%N -> (a < 6)%N -> un (v * 6 + a)%N = jet (f (edge_at v)) (corner T v) a.
  by move=> h1 h2; rewrite /un numbered_vertex.
have une e : (e < 3)%N -> un (18 + e)%N = (flux T f e).[1 / 2%:R].
  by move=> h1; rewrite -(numbered_edge 6 (fun v a => jet (f (edge_at v)) (corner T v) a) (fun e _ => (flux T f e).[1 / 2%:R]) inner h1 (isT : 0 < 1)%N) muln1 addn0.
case: (numbered_cases 6 1 i) => [[v [a [h1 h2 ei]]]|[[e [k [h1 h2 ei]]]|[k ei]]]; last by lia.
- rewrite ei numbered_vertex // /vertex_dof weight1 mul1r.
  rewrite (eq_bigr (fun j : 'I_21 => VT 2 (v * 6 + a)%N j * un j)); last first.
    by move=> j _; rewrite /point_matrix edge_fills_out // => e he; lia.
  rewrite (@vertex_sum _ c g J b hc hg weights 2%N 21%N un (f (edge_at v))) //.
  by move=> d hd'; rewrite unv.
- case: k h2 ei => // _; rewrite muln1 addn0 => ei; rewrite ei.
  rewrite -(muln1 e) -{1}[(18 + e * 1)%N]addn0 numbered_edge // muln1 /midpoint_dof [edge_weight R e * _]mul1r.
  rewrite (flux_pull hc hg weights f h1) hornerD !hornerZ quintic_midpoint; last first.
    by apply: leq_trans (hd _ h1); exact: line_size.
  rewrite (eq_bigr (fun j : 'I_21 => puts_row (rowput (identity o (18 + e)%N) (18 + e)%N (bnn c g e * L e)) (quintic_entries ((edge c e).1 * 6) ((edge c e).2 * 6) (bnt c g e) ((nt c g e).2 0%N) ((nt c g e).2 1%N) (15%:R / 8%:R) (- (7%:R / 16%:R)) (1 / 32%:R)) j * un j)); last first.
    move=> j _; rewrite /point_matrix edge_fills_in //; congr (_ * _); set Q := quintic_entries _ _ _ _ _ _ _ _.
    transitivity (puts_row (rowput (VT 2 (18 + e)%N) (18 + e)%N (bnn c g e * L e)) Q j) => //.
    by apply: puts_row_ext => j'; rewrite /rowput; case: eqP => // _; apply: vertex_base.
  rewrite (edge_ends hc h1) (quintic_sum (un := un) (f := f)) //.
  + rewrite sum_base; last by lia.
    by rewrite une // addrC.
  + have [hf1 hf2] := first_other h1; have [hs1 hs2] := second_other h1.
    by move=> v d /orP[/eqP -> | /eqP ->] hd'; rewrite unv // (hs e).
  + move=> j hj; rewrite /rowput ifF; last by lia.
    by rewrite identity_off //; lia.
Qed.

(** ** Elements with constraints: Bell and reduced Hsieh-Clough-Tocher *)
Definition constrained_matrix vorder (entries : nat -> seq (nat * F)) : mtx (F := F) :=
  fills (VT vorder) (edge_fills (3 * jetsize vorder) entries).

Lemma constrained_element vorder (entries : nat -> seq (nat * F)) phi x y z f i inner : order vorder ->
  let voff := jetsize vorder in
  let N := (3 * voff)%N in
  smooth T f voff -> 
  (forall e, (e < 3)%N -> integral ((trace T f e)^`() * phi) = ends (trace T f e) x y z) ->
  (forall (un r : nat -> F) e, (e < 3)%N -> 
    (forall v d, (v == first e) || (v == second e) -> (d < voff)%N -> un (v * voff + d)%N = jet (f e) (corner T v) d) ->
    (forall j, (j < N)%N -> r j = 0) ->
    \sum_(j < N) puts_row r (entries e) j * un j = bnt c g e * ends (trace T f e) x y z + \sum_(j < N) r j * un j) ->
  (i < N + 3)%N ->
  numbered voff 1 (vertex_dof R (pulled q f)) (constraint_dof R phi (pulled q f)) inner i =
  \sum_(j < N) (constrained_matrix vorder entries i j * unscaled g voff 3 j) *
    numbered voff 1 (vertex_dof T f) (fun e _ => integral (flux T f e * phi)) inner j +
  (if (i < N)%N then 0 else bnn c g (i - N) * L (i - N)%N * integral (flux T f (i - N)%N * phi)).
Proof.
move=> ho voff N hs hphi hentries hi; have hv : (0 < voff)%N by [].
pose un := numbered voff 1 (fun v a => jet (f (edge_at v)) (corner T v) a) (fun e _ => integral (flux T f e * phi)) inner.
rewrite (@unscale_sum _ c g J b hg N voff 1 (fun v a => jet (f (edge_at v)) (corner T v) a) (fun e _ => integral (flux T f e * phi)) inner
  (fun j => constrained_matrix vorder entries i j)) // -/un.
have unv v a : (v < 3)%N -> (a < voff)%N -> un (v * voff + a)%N = jet (f (edge_at v)) (corner T v) a.
  by move=> h1 h2; rewrite /un numbered_vertex.
case: (numbered_cases voff 1 i) => [[v [a [h1 h2 ei]]]|[[e [k [h1 h2 ei]]]|[k ei]]]; last by lia.
- have hiN : (i < N)%N by rewrite ei /N; case: v h1 {ei} => [|[|[|v]]] // _; lia.
  rewrite hiN addr0 ei numbered_vertex // /vertex_dof weight1 mul1r.
  rewrite (eq_bigr (fun j : 'I_N => VT vorder (v * voff + a)%N j * un j)); last first.
    by move=> j _; rewrite /constrained_matrix edge_fills_out // => e he; lia.
  rewrite (@vertex_sum _ c g J b hc hg weights vorder N un (f (edge_at v))) //.
  by move=> d hd'; rewrite unv.
- case: k h2 ei => // _; rewrite muln1 addn0 => ei.
  have -> : (i < N)%N = false by rewrite ei /N; lia.
  have -> : (i - N = e)%N by rewrite ei /N; lia.
  rewrite ei -{1}(muln1 e) -{1}[(_ + e * 1)%N]addn0 numbered_edge // /constraint_dof [edge_weight R e * _]mul1r.
  rewrite (flux_integral hc hg weights) // hphi //.
  rewrite (eq_bigr (fun j : 'I_N => puts_row (identity o (3 * voff + e)%N) (entries e) j * un j)); last first.
    move=> j _; rewrite /constrained_matrix edge_fills_in //; congr (_ * _).
    by apply: puts_row_ext => j'; apply: vertex_base => //; rewrite leq_addr.
  rewrite (hentries un _ e) //; first by rewrite sum_identity_out ?leq_addr // addr0 addrC.
    have [hf1 hf2] := first_other h1; have [hs1 hs2] := second_other h1.
    by move=> v d /orP[/eqP -> | /eqP ->] hd'; rewrite unv // (hs e).
  by move=> j hj; rewrite identity_off //; rewrite /N in hj; lia.
Qed.

Definition bell_entries e := quintic_entries ((edge c e).1 * 6) ((edge c e).2 * 6) (bnt c g e) ((nt c g e).2 0%N) ((nt c g e).2 1%N)
    (1 / 21%:R) (- (1 / 42%:R)) (1 / 252%:R).

Lemma bellE i j : bell_transformation o c g i j = constrained_matrix 2 bell_entries j i * unscaled g 6 3 i.
Proof.
rewrite /bell_transformation /transpose.
have h3 : (3 <= comb (sx_dim c + 2)%coq_nat 2)%N by rewrite (hdim hc).
rewrite (condition2E _ _ _ _ (hdim hc) h3) (hdim hc) (hnv hc) (hne hc); apply: congr2; last by [].
set V0 := List.fold_left _ _ _; have -> : V0 = constrained_matrix 2 bell_entries => //.
rewrite /V0 /constrained_matrix /fills /edge_fills foldl_map fold_leftE seq_iota; apply: foldl_eq => V e.
rewrite nt_split quintic_edgeE !numE !plusE !multE.
reflexivity.
Qed.

Definition reduced_entries e := cubic_entries ((edge c e).1 * 3) ((edge c e).2 * 3) (bnt c g e) ((nt c g e).2 0%N) ((nt c g e).2 1%N).

Lemma reducedE i j : reduced_hct_transformation o c g i j = constrained_matrix 1 reduced_entries j i * unscaled g 3 3 i.
Proof.
rewrite /reduced_hct_transformation /transpose.
have h3 : comb (sx_dim c + 1)%coq_nat 1 = 3%N by rewrite (hdim hc).
rewrite (condition1E _ _ _ _ (hdim hc) h3) (hdim hc) (hnv hc) (hne hc); apply: congr2; last by [].
set V0 := List.fold_left _ _ _; have -> : V0 = constrained_matrix 1 reduced_entries => //.
rewrite /V0 /constrained_matrix /fills /edge_fills foldl_map fold_leftE seq_iota; apply: foldl_eq => V e.
rewrite nt_split !numE !plusE !multE.
rewrite /reduced_entries /cubic_entries /puts; cbn [List.fold_left iota foldl fst snd]; rewrite ?plusE ?addn0 -?addnA.
reflexivity.
Qed.

(** With the constraint satisfied or not, the dofs of Bell and of the reduced
    element. *)
Lemma bell_element f i inner : smooth T f 6 -> (forall e, (e < 3)%N -> (msize (f e) <= 6)%N) -> (i < 21)%N ->
  numbered 6 1 (vertex_dof R (pulled q f)) (constraint_dof R (legendre4 F) (pulled q f)) inner i =
  \sum_(j < 18) bell_transformation o c g j i * numbered 6 1 (vertex_dof T f) (fun e _ => integral (flux T f e * legendre4 F)) inner j +
  (if (i < 18)%N then 0 else bnn c g (i - 18) * L (i - 18)%N * integral (flux T f (i - 18)%N * legendre4 F)).
Proof.
move=> hs hd hi.
rewrite (@constrained_element 2%N bell_entries (legendre4 F) (1 / 21%:R) (- (1 / 42%:R)) (1 / 252%:R) f i inner) //.
- by congr (_ + _); apply: eq_bigr => j _; rewrite bellE.
- by move=> e he; rewrite quintic_moment //; apply: leq_trans (hd _ he); exact: line_size.
- move=> un r e he hun hr; rewrite /bell_entries (edge_ends hc he); exact: quintic_sum.
Qed.

Lemma reduced_element f i inner : smooth T f 3 -> (forall e, (e < 3)%N -> (msize (f e) <= 4)%N) -> (i < 12)%N ->
  numbered 3 1 (vertex_dof R (pulled q f)) (constraint_dof R (legendre2 F) (pulled q f)) inner i =
  \sum_(j < 9) reduced_hct_transformation o c g j i * numbered 3 1 (vertex_dof T f) (fun e _ => integral (flux T f e * legendre2 F)) inner j +
  (if (i < 9)%N then 0 else bnn c g (i - 9) * L (i - 9)%N * integral (flux T f (i - 9)%N * legendre2 F)).
Proof.
move=> hs hd hi.
rewrite (@constrained_element 1%N reduced_entries (legendre2 F) (- (1 / 5%:R)) (1 / 10%:R) 0 f i inner) //.
- by congr (_ + _); apply: eq_bigr => j _; rewrite reducedE.
- by move=> e he; rewrite cubic_moment //; apply: leq_trans (hd _ he); exact: line_size.
- move=> un r e he hun hr; rewrite /reduced_entries (edge_ends hc he); exact: cubic_sum.
Qed.
End Ends.
