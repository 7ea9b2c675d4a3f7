(** The transformation of the quadratic Powell-Sabin element with twelve
    dofs. *)
From mathcomp Require Import all_ssreflect all_algebra ring.
From SsrMultinomials Require Import mpoly.
From Verif Require Import Model.Gem Model.Piola Model.Zany Spec.Algebra Spec.Polynomials Spec.Zany Spec.Split.
From Verif Require Import Proofs.Determinant Proofs.PiolaFacts Proofs.Polynomials Proofs.Integrals Proofs.ZanySums Proofs.VertexTransform Proofs.EdgeGeometry Proofs.EdgeRows Proofs.ZanyElements Proofs.ZanyEnds Proofs.ZanyNodal.
From mathcomp Require Import zify.
Set Implicit Arguments.
Unset Strict Implicit.
Unset Printing Implicit Defensive.
Import GRing.Theory Num.Theory.
Local Open Scope ring_scope.

Lemma fills_ext (F : realFieldType) (V V' : mtx (F := F)) ls i j : V i j = V' i j -> fills V ls i j = fills V' ls i j.
Proof.
elim: ls V V' => [//|[s l] ls IH] V V' h; rewrite /fills /= -/(fills _ _) -/(fills (puts V' s l) ls); apply: IH.
elim: l V V' h => [//|[k x] l IH] V V' h; rewrite /puts /= -/(puts _ _ _) -/(puts _ _ l); apply: IH.
by rewrite /put; case: ifP.
Qed.

Section PowellSabin.
Variable F : realFieldType.
Local Notation o := (ring_ops F).
Variables (c : simplex (F := F)) (g : geometry (F := F)) (J : 'I_2 -> 'I_2 -> F) (b : point F 2).
Hypothesis hc : fiat_triangle c.
Hypothesis hg : provides g c J b.
Variable weights : nat -> F.
Local Notation q := (affine J b).
Local Notation R := (reference c).
Local Notation T := (physical c q (physical_edge_lengths g) (cell_size g) weights).
Local Notation L := (physical_edge_lengths g).
Local Notation VT := (vertex_transform o (identity o) 1 c g).
Implicit Types f : pieces F.

Lemma small P n : (forall i : 'I_n, P (nat_of_ord i)) -> forall i, (i < n)%N -> P i.
Proof. by move=> h i hi; exact: (h (Ordinal hi)). Qed.

Lemma ps12E avg i j : (i < 12)%N -> (j < 12)%N -> powell_sabin12_transformation o avg c g j i =
  Model.Zany.edge_transform o VT 1 0 c g avg i j * unscaled g 3 3 j.
Proof.
move=> hi hj; rewrite /powell_sabin12_transformation /transpose (hdim hc) (hnv hc).
set E := Model.Zany.edge_transform o _ 1 0 c g avg.
have hE : E i j = Model.Zany.edge_transform o VT 1 0 c g avg i j.
  rewrite /E !(@edge_transformE F c g hc) //; apply: fills_ext.
  rewrite vertex_transformE (hdim hc) (hnv hc) /vblock.
  have K0 := hJ hg; rewrite /hessians.
  have k00 := K0 (barycentre o c) 0 0; have k01 := K0 (barycentre o c) 0 1; have k10 := K0 (barycentre o c) 1 0; have k11 := K0 (barycentre o c) 1 1.
  rewrite /= in k00 k01 k10 k11.
  set u := [:: _; _]; have l00 := K0 u 0 0; have l01 := K0 u 0 1; have l10 := K0 u 1 0; have l11 := K0 u 1 1.
  rewrite /= in l00 l01 l10 l11.
  move: (jacobian_at g u) (jacobian_at g (barycentre o c)) l00 l01 l10 l11 k00 k01 k10 k11 => A B l00 l01 l10 l11 k00 k01 k10 k11.
  rewrite -k00 in l00; rewrite -k01 in l01; rewrite -k10 in l10; rewrite -k11 in l11.
  do 12 (case: i hi => [|i] hi; first by do 12 (case: j hj => [|j] hj; first by []); lia).
  by [].
rewrite -hE; move: (E) => V; clear hE; rewrite /unscaled /weight.
cbn [List.fold_left List.seq]. 
move: (cell_size g) => h; clear hi.
do 12 (case: j hj => [|j] hj; first by rewrite /= ?invr1 ?mulr1).
by [].
Qed.

(** The mean of the normal derivative. *)
Lemma corner_image v : corner T v =1 image q (corner R v).
Proof. by []. Qed.

Lemma half_flux (f : {mpoly F[2]}) e (x : point F 2) : (e < 3)%N ->
  line (along (pull q f) (normal R e)) x (half R e) =
  (bnn c g e * L e) *: line (along f (normal T e)) (image q x) (half T e) +
  (2%:R * bnt c g e) *: (line f (image q x) (half T e))^`().
Proof.
move=> he.
have ht i : \sum_j J i j * half R e j = half T e i.
  rewrite /half (tangent_mapped c g J b weights e i) mulr_suml; apply: eq_bigr => j _.
  by rewrite mulrA.
rewrite pull_along line_pull (line_ext _ (fun i => erefl) ht) line_deriv.
rewrite (along_ext _ (fun i => normal_mapped hc hg weights i he)) along_lin lineD !lineZ.
congr (_ + _).
have h2 i : tangent T e i = 2%:R * half T e i + 0 * half T e i.
  by rewrite mul0r addr0 /half mulrCA mulfV ?mulr1 // pnatr_eq0.
by rewrite (along_ext f h2) along_lin lineD !lineZ scale0r addr0 scalerA mulrC.
Qed.

Lemma image_midpoint e : image q (midpoint R e) =1 midpoint T e.
Proof.
move=> i; rewrite affine_image /midpoint /half (tangent_mapped c g J b weights e i) /= affine_image.
rewrite mulr_suml addrAC; congr (_ + _); rewrite -big_split; apply: eq_bigr => j _ /=.
by rewrite mulrDr -mulrA.
Qed.

Lemma split_mean_pull f e : split_smooth T f -> (e < 3)%N ->
  split_mean R (pulled q f) e = bnn c g e * (L e * split_mean T f e) +
    bnt c g e * (jet (f (half_at (second e))) (corner T (second e)) 0 - jet (f (half_at (first e))) (corner T (first e)) 0).
Proof.
move=> hs he; have [h1 [h2 h3]] := hs _ he.
rewrite -h1 // -h2 //.
rewrite /split_mean /pulled !half_flux // !integralD !integralZ !integral_deriv !line_eval.
rewrite (line_ext (along (f (3 + e)%N) _) (image_midpoint e) (fun i => erefl)).
have -> : (f e).@[fun i => image q (corner R (first e)) i + 1 * half T e i] = (f e).@[midpoint T e].
  by apply: meval_eq => i; rewrite mul1r.
have -> : (f (3 + e)%N).@[fun i => image q (midpoint R e) i + 0 * half T e i] = (f (3 + e)%N).@[midpoint T e].
  by apply: meval_eq => i; rewrite mul0r addr0 image_midpoint.
have -> : (f e).@[fun i => image q (corner R (first e)) i + 0 * half T e i] = jet (f e) (corner T (first e)) 0.
  by rewrite jet0; apply: meval_eq => i; rewrite mul0r addr0.
have -> : (f (3 + e)%N).@[fun i => image q (midpoint R e) i + 1 * half T e i] = jet (f (3 + e)%N) (corner T (second e)) 0.
  rewrite jet0; apply: meval_eq => i; rewrite image_midpoint mul1r /midpoint -addrA /half -mulrDl -mulr2n -mulr_natr mulfK ?pnatr_eq0 //.
  by rewrite /tangent addrC subrK.
rewrite h3; move: (integral _) (integral _) (meval _ _) (jet _ _ _) (jet _ _ _) (bnn _ _ _) (bnt _ _ _) (L _) => *.
by field.
Qed.

Lemma ps12_element avg f i :
  (forall e, (e < 3)%N -> weights e = if avg then 1 else L e) -> split_smooth T f -> (i < 12)%N ->
  split_dof R (pulled q f) i = \sum_(j < 12) powell_sabin12_transformation o avg c g j i * split_dof T f j.
Proof.
move=> hw hs hi.
pose inner := (fun _ => 0) : nat -> F.
pose ed := (fun e _ => edge_weight T e * split_mean T f e) : nat -> nat -> F.
rewrite (eq_bigr (fun j : 'I_12 => (Model.Zany.edge_transform o VT 1 0 c g avg i j * unscaled g 3 3 j) * split_dof T f j)); last first.
  by move=> j _; rewrite ps12E.
rewrite (@unscale_sum _ c g J b hg 12 3 1 (fun v a => jet (f (half_at v)) (corner T v) a) ed inner) //.
set un := numbered 3 1 _ _ _.
have unv v a : (v < 3)%N -> (a < 3)%N -> un (v * 3 + a)%N = jet (f (half_at v)) (corner T v) a.
  by move=> h1 h2; rewrite /un numbered_vertex.
have unv0 v : (v < 3)%N -> un (v * 3)%N = jet (f (half_at v)) (corner T v) 0.
  by move=> h; rewrite -(unv v 0%N h) // addn0.
case: (numbered_cases 3 1 i) => [[v [a [h1 h2 ei]]]|[[e [k [h1 h2 ei]]]|[k ei]]]; last by lia.
- rewrite ei /split_dof numbered_vertex // /split_vertex_dof weight1 mul1r.
  rewrite (eq_bigr (fun j : 'I_12 => VT (v * 3 + a)%N j * un j)); last first.
    move=> j _; rewrite (@edge_transformE F c g hc) // fills_out //.
    apply/mapP => -[p /allpairsP[[e k] [he hk ->]]]; rewrite !mem_iota /= in he hk *; rewrite /jetsize /hessians /=; lia.
  rewrite (@vertex_sum _ c g J b hc hg weights 1%N 12%N un (f (half_at v))) //.
  by move=> d hd; rewrite unv.
- case: k h2 ei => // _; rewrite muln1 addn0 => ei; rewrite ei.
  have -> : split_dof R (pulled q f) (9 + e)%N = split_mean R (pulled q f) e.
    have := @numbered_edge F 3 1 (split_vertex_dof R (pulled q f)) (fun e _ => edge_weight R e * split_mean R (pulled q f) e) (fun _ => 0) e 0 h1 isT.
    by rewrite muln1 addn0 mul1r.
  have hu : un (9 + e)%N = weights e * split_mean T f e.
    have := @numbered_edge F 3 1 (fun v a => jet (f (half_at v)) (corner T v) a) ed inner e 0 h1 isT.
    by rewrite muln1 addn0.
  have := @moment_sum F c g hc 1%N 0%N avg 12%N un e 0%N isT h1 isT.
  have e1 : (3 * jetsize 1 + e * (2 * 0 + 1) + 0 = 9 + e)%N by rewrite /jetsize /hessians /=; lia.
  cbv zeta; rewrite e1 => -> //; rewrite -[jetsize 1]/3%N.
  rewrite split_mean_pull // !unv0; [|by case: (first_other h1)|by case: (second_other h1)].
  rewrite hu hw // bin0 expr0 ltnn.
  move: (split_mean _ _ _) (jet _ _ _) (jet _ _ _) (bnn _ _ _) (bnt _ _ _) (L _) => *; case: (avg); ring.
Qed.

Lemma split_linear i : linear_dof (fun f => split_dof T f i).
Proof.
apply: (@numbered_linear _ 3 1 (split_vertex_dof T) (fun f e _ => edge_weight T e * split_mean T f e) (fun _ _ => 0)).
- move=> v d N a phi; rewrite /split_vertex_dof /combination (jet_comb _ _ (fun j => phi j _)) mulr_sumr.
  by apply: eq_bigr => j _; rewrite mulrCA.
- move=> e _ N a phi; rewrite /split_mean /combination.
  rewrite (along_comb _ _ (fun j => phi j e)) (line_comb _ _ (fun j => along (phi j e) _)).
  rewrite (along_comb _ _ (fun j => phi j (3 + e)%N)) (line_comb _ _ (fun j => along (phi j (3 + e)%N) _)).
  rewrite !integral_sum -big_split mulr_suml mulr_sumr /=; apply: eq_bigr => j _; rewrite !integralZ.
  by move: (integral _) (integral _) => *; ring.
- by move=> k N a phi; rewrite big1 // => j _; rewrite mulr0.
Qed.

Lemma ps12_nodal_proof avg phi :
  (forall e, (e < 3)%N -> weights e = if avg then 1 else L e) ->
  (forall j, (j < 12)%N -> split_smooth T (phi j)) ->
  nodal 12 (split_dof R) (fun j => pulled q (phi j)) ->
  nodal 12 (split_dof T) (fun l => combination 12 (powell_sabin12_transformation o avg c g l) phi).
Proof.
move=> hw hs hn; apply: (nodal_basis split_linear _ hn) => i j hi hj.
by apply: ps12_element => //; exact: hs.
Qed.
End PowellSabin.
