(** Basis transformations of elements for symmetric matrices. *)
From mathcomp Require Import all_ssreflect all_algebra ring zify.
From SsrMultinomials Require Import mpoly.
From Verif Require Import Model.Prelude Model.Gem Model.Piola Model.Zany Model.PiolaElements.
From Verif Require Import Spec.Algebra Spec.Polynomials Spec.PiolaElements.
From Verif Require Import Proofs.PiolaFields Proofs.PiolaArrays Proofs.PiolaSums.
Set Implicit Arguments.
Unset Strict Implicit.
Unset Printing Implicit Defensive.
Import GRing.Theory Num.Theory.
Local Open Scope ring_scope.

Section Rows.
Variable F : realFieldType.
Local Notation o := (ring_ops F).
Variables (c : scell (F := F)) (g : geometry (F := F)).

Definition rows_at f : array (F := F) :=
  match facet_rows o c (jacobian_at g (centre o c)) (detJ_at g (centre o c)) f with Ok r => r | Err _ => mkArray 0 0 (fun _ _ => 0) end.

Lemma rows_at_ok f : (sc_dim c = 2 \/ sc_dim c = 3)%N ->
  facet_rows o c (jacobian_at g (centre o c)) (detJ_at g (centre o c)) f = Ok (rows_at f) /\
  n_rows (rows_at f) = (sc_dim c - 1)%N /\ n_cols (rows_at f) = sc_dim c.
Proof. by rewrite /rows_at /facet_rows => -[->|->]. Qed.

Lemma rows_good : (sc_dim c = 2 \/ sc_dim c = 3)%N -> good_facets o c g rows_at.
Proof. move=> h f _; exact: rows_at_ok. Qed.
End Rows.

Section Facets.
Variables (F : realFieldType) (m : nat).
Local Notation n := m.+1.
Local Notation o := (ring_ops F).
Variables (c : scell (F := F)) (g : geometry (F := F)) (J : 'M[F]_n) (b : point F n).
Hypothesis hcell : fiat_cell m c.
Hypothesis hg : provides g J.
Hypothesis hn : (n = 2 \/ n = 3)%N.
Let X := @cell_facet F m c.
Let mref := mdof (reference_place (mfield F m) X).
Let mphys := mdof (physical_place J b X (cell_size g) (mpreimage J b)).
Variables (K : nat) (pf : nat -> nat) (lam : nat -> nat -> on_facet F m).
Hypothesis hlam : forall f k, (f < n.+1)%N -> (k < K)%N -> is_linear (lam f k).

Lemma hdim : (sc_dim c = 2 \/ sc_dim c = 3)%N.
Proof. by case: hcell => ->. Qed.

Definition fnode (bl q : nat) : mnode F m :=
  let f := (bl %/ K)%N in let k := (bl %% K)%N in
  if (q == 0)%N then MNormal (pf f) f (lam f k) else MTangential (pf f) f (lam f k) q.-1.

Lemma facets_first_block rest bl q : (bl < n.+1 * K)%N -> (q < n)%N ->
  facets_first n.+1 K pf lam rest (n * bl + q) = fnode bl q.
Proof.
clear hn hcell hg hlam; move=> hb hq; rewrite /facets_first.
have hK : (0 < K)%N by case: (K) hb => //; rewrite muln0.
have -> : (n * bl + q < n.+1 * (n * K))%N by nia.
have e1 : ((n * bl + q) %/ (n * K) = bl %/ K)%N.
  by rewrite divnMA [(n * bl)%N]mulnC divnMDl // [(q %/ n)%N]divn_small // addn0.
have e2 : ((n * bl + q) %% (n * K) = n * (bl %% K) + q)%N.
  have := divn_eq (n * bl + q) (n * K); rewrite e1 => h; have := divn_eq bl K; nia.
rewrite e1 e2 /mfacet_node /facet_node /fnode.
have -> : ((n * (bl %% K) + q) %% n = q)%N by rewrite mulnC modnMDl modn_small.
have -> // : ((n * (bl %% K) + q) %/ n = bl %% K)%N by rewrite mulnC divnMDl // divn_small // addn0.
Qed.

Lemma facet_relation rest N i s : (n * (n.+1 * K) <= N)%N -> (i < n * (n.+1 * K))%N ->
  mref (facets_first n.+1 K pf lam rest i) (mpreimage J b s) =
  \sum_(j < N) facet_entry o n (fun bl => n_at (rows_at c g (Nat.div bl K))) i j *
    mphys (facets_first n.+1 K pf lam rest j) s.
Proof.
move=> hN hi.
rewrite (@facet_sum F n (fun bl => n_at (rows_at c g (Nat.div bl K))) (n.+1 * K) N
  (fun j => mphys (facets_first n.+1 K pf lam rest j) s)) //.
have ei := divn_eq i n; have hq : (i %% n < n)%N by rewrite ltn_mod.
set bl := (i %/ n)%N in ei *; set q := (i %% n)%N in ei hq *.
have hb : (bl < n.+1 * K)%N by rewrite /bl ltn_divLR // mulnC.
have hK : (0 < K)%N by case: (K) hb => //; rewrite muln0.
have -> : i = (n * bl + q)%N by rewrite mulnC.
rewrite facets_first_block //.
have hf : (bl %/ K < n.+1)%N by rewrite ltn_divLR.
have hk : (bl %% K < K)%N by rewrite ltn_mod.
have hl := hlam hf hk.
have [hr _] := rows_at_ok g (bl %/ K) hdim.
rewrite divE //.
case: eqP => [e0|/eqP h0].
  by rewrite e0; exact: (mnormal_ref b hcell hg (pf _) s hf hr hl).
rewrite big_ord_recl /= addn0 -[X in facets_first _ _ _ _ _ X]addn0 facets_first_block //.
have hb2 (l : 'I_m) : (bump 0 l < n)%N by exact: (ltn_ord (lift ord0 l)).
under eq_bigr => l _ do rewrite facets_first_block ?hb2 //.
have hq1 : (q.-1 < m)%N by lia.
rewrite {1}/fnode (negbTE h0); exact: (mtangential_ref b hcell hg (pf _) s hf hr hl hq1).
Qed.
End Facets.

Lemma comb_1 k : comb k 1 = k.
Proof. elim: k => [//|k IH]; rewrite /comb -/comb IH; by case: (k). Qed.
Lemma comb_n k : comb k k = 1%N /\ forall l, (k < l)%N -> comb k l = 0%N.
Proof.
elim: k => [|k [e h]]; first by split=> // -[].
split; first by rewrite /comb -/comb e h.
by case=> [//|l] hl; rewrite /comb -/comb !h //; lia.
Qed.
Lemma dim_linear d : polynomial_dimension d 1 = d.+1.
Proof.
rewrite /polynomial_dimension plusE add1n; elim: d => [//|d IH].
have e : comb d.+2 d.+1 = (comb d.+1 d + comb d.+1 d.+1)%coq_nat by [].
by rewrite e IH (comb_n d.+1).1 plusE addn1.
Qed.
Lemma dim_edge k : polynomial_dimension 1 k = k.+1.
Proof. by rewrite /polynomial_dimension comb_1 plusE addn1. Qed.

Section Elements.
Variables (F : realFieldType) (m : nat).
Local Notation n := m.+1.
Local Notation o := (ring_ops F).
Variables (c : scell (F := F)) (g : geometry (F := F)) (J : 'M[F]_n) (b : point F n).
Hypothesis hcell : fiat_cell m c.
Hypothesis hg : provides g J.

Lemma zero_times x : fmul o (f0 o) x = f0 o. Proof. exact: mul0r. Qed.

(** The nodes of the facets are linear. *)
Lemma facet_linear K pf lam rest (s : nat) (sense : nat -> mnode F m) N :
  (forall i, (i < n.+1 * (n * K))%N -> sense (s + i)%N = facets_first n.+1 K pf lam rest i) ->
  (s + n.+1 * (n * K) <= N)%N -> (forall i, (i < N)%N -> mlinear (sense i)) ->
  forall f k, (f < n.+1)%N -> (k < K)%N -> is_linear (lam f k).
Proof.
move=> hs hN hl f k hf hk; have hi : (n * (f * K + k) + 0 < n.+1 * (n * K))%N by nia.
have hiN : (s + (n * (f * K + k) + 0) < N)%N by apply: leq_trans hN; rewrite ltn_add2l.
have hb : (f * K + k < n.+1 * K)%N by nia.
have hK : (0 < K)%N by lia.
have := hl _ hiN; rewrite hs // facets_first_block // /fnode /=.
by rewrite divnMDl // modnMDl modn_small // divn_small // addn0.
Qed.

Section First.
Variables (K numbf ndof : nat) (pf : nat -> nat) (lam : nat -> nat -> on_facet F m) (ell : nat -> mfield F m -> F).
Let sense := facets_first n.+1 K pf lam (fun i => MOther (ell i)).
Hypothesis hn : (n = 2 \/ n = 3)%N.
Hypothesis hL : (n.+1 * (n * K) <= ndof)%N.
Hypothesis hle : (ndof <= numbf)%N.
Hypothesis hlin : forall i, (i < numbf)%N -> mlinear (sense i).

Lemma first_transforms M : n_rows M = ndof -> n_cols M = numbf ->
  (forall i j, n_at M j i = first_entry o n (fun bl => n_at (rows_at c g (Nat.div bl K))) (n.+1 * (n * K)) i j) ->
  transforms_matrices c g J b numbf ndof sense M.
Proof.
move=> hr hc hM.
have hlam : forall f k, (f < n.+1)%N -> (k < K)%N -> is_linear (lam f k).
  by apply: (@facet_linear K pf lam (fun i => MOther (ell i)) 0 sense numbf) => //; rewrite add0n; apply: leq_trans hle.
have hV u i : symmetric u -> (i < numbf)%N -> mdof (reference_place (mfield F m) (@cell_facet F m c)) (sense i) (mpreimage J b u) =
  \sum_(j < numbf) first_entry o n (fun bl => n_at (rows_at c g (Nat.div bl K))) (n.+1 * (n * K)) i j *
    mdof (physical_place J b (@cell_facet F m c) (cell_size g) (mpreimage J b)) (sense j) u.
  move=> _ hi; rewrite /first_entry; case: PeanoNat.Nat.ltb_spec => [h|h].
    by apply: facet_relation => //; nia.
  under eq_bigr => j _ do rewrite identityE.
  rewrite (@sum_identity F numbf i (fun j => mdof (physical_place J b (@cell_facet F m c) (cell_size g) (mpreimage J b)) (sense j) u)) //.
  have e : sense i = MOther (ell (i - n.+1 * (n * K))%N).
    by rewrite /sense /facets_first; have -> : (i < n.+1 * (n * K))%N = false by lia.
  by rewrite e.
split=> //; split=> //; split.
- by apply: (square_relates hle hV) => i l hi hl; apply: hM.
- apply: (square_nodal hle hV); first by move=> i l hi hl; apply: hM.
  by move=> i a phi hi; apply: mphys_linear; apply: hlin.
Qed.
End First.

Lemma jm_transforms numbf ndof pf lam ell : (n = 2 \/ n = 3)%N -> (n.+1 * (n * n) <= ndof)%N -> (ndof <= numbf)%N ->
  let sense := facets_first n.+1 n pf lam (fun i => MOther (ell i)) in
  (forall i, (i < numbf)%N -> mlinear (sense i)) ->
  exists M, jm_transformation o numbf ndof c g = Ok M /\ transforms_matrices c g J b numbf ndof sense M.
Proof.
move=> hn hL hle sense hlin; have [hd [hl _]] := hcell.
have hd23 : (sc_dim c = 2 \/ sc_dim c = 3)%N by rewrite hd.
have [M [e [hr [hc hM]]]] := @jm_ok F o c g (rows_at c g) n n numbf ndof hd (ltac:(lia))
   (ltac:(by rewrite minusE subn1 dim_linear)) (rows_good g hd23)
   (ltac:(rewrite hl; lia)) (ltac:(rewrite hl; lia)).
exists M; split=> //; apply: first_transforms => // i j; by rewrite hM hl.
Qed.
End Elements.

Section Plane.
Variable F : realFieldType.
Local Notation o := (ring_ops F).
Variables (c : scell (F := F)) (g : geometry (F := F)) (J : 'M[F]_2) (b : point F 2).
Hypothesis hcell : fiat_cell 1 c.
Hypothesis hg : provides g J.
Let hd : sc_dim c = 2%N := proj1 hcell.
Let hl3 : length (sc_facets c) = 3%N := proj1 (proj2 hcell).

Lemma awnc_transforms numbf ndof pf lam ell : (12 <= ndof)%N -> (ndof <= numbf)%N ->
  let sense := facets_first 3 2 pf lam (fun i => MOther (ell i)) in
  (forall i, (i < numbf)%N -> mlinear (sense i)) ->
  exists M, awnc_transformation o numbf ndof c g = Ok M /\ transforms_matrices c g J b numbf ndof sense M.
Proof.
move=> hL hle sense hlin.
have [M [e [hr [hc hM]]]] := @awnc_ok F o c g (rows_at c g) numbf ndof hd hl3 (rows_good g (or_introl hd))
   (ltac:(lia)) (ltac:(lia)).
exists M; split=> //; apply: (@first_transforms F 1 c g J b hcell hg 2) => //; by left.
Qed.

Section Zany.
Variables (K numbf ndof : nat) (pv pf : nat -> nat) (lam : nat -> nat -> on_facet F 1) (rest : nat -> mnode F 1).
Variable restV : nat -> nat -> F.
Let sense := vertices_first (@cell_vertex F 1 c) pv (facets_first 3 K pf lam rest).
Let L := (3 * (2 * K))%N.
Hypothesis hL : (9 + L <= ndof)%N.
Hypothesis hle : (ndof <= numbf)%N.
Hypothesis hlin : forall i, (i < numbf)%N -> mlinear (sense i).
Let mref := mdof (reference_place (mfield F 1) (@cell_facet F 1 c)).
Let mphys := mdof (physical_place J b (@cell_facet F 1 c) (cell_size g) (mpreimage J b)).
Hypothesis hrest : forall i u, symmetric u -> (9 + L <= i < numbf)%N ->
  mref (sense i) (mpreimage J b u) = \sum_(j < numbf) (if (j < 9)%N then 0 else restV i j) * mphys (sense j) u.

Lemma zany_transforms M : n_rows M = ndof -> n_cols M = numbf ->
  (forall i j, (i < numbf)%N -> (j < ndof)%N -> n_at M j i = zany_entry o (n_at (evaluation_transform o c g)) (cell_size g)
     (fun bl => n_at (rows_at c g (Nat.div bl K))) L restV i j) ->
  transforms_matrices c g J b numbf ndof sense M.
Proof.
move=> hr hc hM.
have hlam : forall f k, (f < 3)%N -> (k < K)%N -> is_linear (lam f k).
  apply: (@facet_linear F 1 K pf lam rest 9 sense numbf) => //.
    by move=> i hi; rewrite /sense /vertices_first addKn; have -> : (9 + i < 9)%N = false by lia.
  by rewrite -/L; lia.
have hV u i : symmetric u -> (i < numbf)%N -> mref (sense i) (mpreimage J b u) =
  \sum_(j < numbf) zany_entry o (n_at (evaluation_transform o c g)) (cell_size g)
     (fun bl => n_at (rows_at c g (Nat.div bl K))) L restV i j * mphys (sense j) u.
  move=> hu hi; rewrite /zany_entry.
  case: (PeanoNat.Nat.ltb_spec i 9) => [h|h].
    have hi9 : (i < 9)%N by lia.
    rewrite (divE i) // (modE i) //.
    under eq_bigr => j _ do rewrite (divE j) // (modE j) //.
    have hv : (i %/ 3 < 3)%N by rewrite ltn_divLR.
    have hq : (i %% 3 < 3)%N by rewrite ltn_mod.
    rewrite (@sum_window F numbf (3 * (i %/ 3)) 3 (fun j => (if Nat.eqb (i %/ 3) (j %/ 3) then
        fmul o (n_at (evaluation_transform o c g) (i %% 3) (j %% 3)) (fdiv o (f1 o) (fmul o (cell_size g (i %/ 3)) (cell_size g (i %/ 3))))
        else f0 o) * mphys (sense j) u)).
    - have -> : sense i = component (MVertex (pv (i %/ 3)%N) (i %/ 3)%N (@cell_vertex F 1 c (i %/ 3)%N)) (i %% 3)%N.
        by rewrite /sense /vertices_first hi9.
      rewrite /mref (mvertex_ref b hd hg) //; apply: eq_bigr => q _.
      have hq3 := ltn_ord q.
      have e1 : ((3 * (i %/ 3) + q) %/ 3 = i %/ 3)%N by rewrite mulnC divnMDl // [(q %/ 3)%N]divn_small // addn0.
      have e2 : ((3 * (i %/ 3) + q) %% 3 = q)%N by rewrite mulnC modnMDl modn_small.
      rewrite e1 e2 PeanoNat.Nat.eqb_refl /=; congr (_ * _).
      rewrite /sense /vertices_first e1 e2.
      by have -> : (3 * (i %/ 3) + q < 9)%N by nia.
    - nia.
    - move=> j hj hw; case: (PeanoNat.Nat.eqb_spec (i %/ 3) (j %/ 3)) => [e|_]; last exact: mul0r.
      exfalso; move/negP: hw; apply; rewrite e mulnC; have := divn_eq j 3; have : (j %% 3 < 3)%N by rewrite ltn_mod.
      by lia.
  have hi9 : (9 <= i)%N by lia.
  have h9 (j : 'I_numbf) : Nat.ltb j 9 = (j < 9)%N by case: PeanoNat.Nat.ltb_spec; lia.
  under eq_bigr => j _ do rewrite h9.
  case: (PeanoNat.Nat.ltb_spec i (9 + L)) => [h2|h2]; last by apply: hrest => //; lia.
  have hN : (9 + (numbf - 9) = numbf)%N by lia.
  have -> : \sum_(j < numbf) (if (j < 9)%N then f0 o else facet_entry o 2 (fun bl : nat => n_at (rows_at c g (Nat.div bl K))) (i - 9) (j - 9)) *
      mphys (sense j) u = \sum_(q < numbf - 9) facet_entry o 2 (fun bl : nat => n_at (rows_at c g (Nat.div bl K))) (i - 9) q * mphys (sense (9 + q)%N) u.
    rewrite (@sum_window F numbf 9 (numbf - 9) (fun j => (if (j < 9)%N then f0 o else facet_entry o 2 (fun bl : nat => n_at (rows_at c g (Nat.div bl K))) (i - 9) (j - 9)) * mphys (sense j) u)).
    - apply: eq_bigr => q _; have -> : (9 + q < 9)%N = false by lia.
      by rewrite addKn.
    - lia.
    - move=> j hj hw; have -> : (j < 9)%N = true by lia.
      exact: mul0r.
  have es j : sense (9 + j)%N = facets_first 3 K pf lam rest j.
    by rewrite /sense /vertices_first addKn; have -> : (9 + j < 9)%N = false by lia.
  under eq_bigr => q _ do rewrite es.
  have -> : sense i = facets_first 3 K pf lam rest (i - 9) by rewrite -es subnKC.
  apply: (@facet_relation F 1 c g J b hcell hg (or_introl erefl) K pf lam hlam) => //; have := hL; move: h2; rewrite /L; lia.
split=> //; split=> //; split.
- by apply: (square_relates hle hV) => i l hi hll; apply: hM.
- apply: (square_nodal hle hV); first by move=> i l hi hll; apply: hM.
  by move=> i a phi hi; apply: mphys_linear; apply: hlin.
Qed.
End Zany.

Lemma aw_transforms numbf ndof pv pf lam ell : (21 <= ndof)%N -> (ndof <= numbf)%N ->
  let sense := vertices_first (@cell_vertex F 1 c) pv (facets_first 3 2 pf lam (fun i => MOther (ell i))) in
  (forall i, (i < numbf)%N -> mlinear (sense i)) ->
  exists M, aw_transformation o numbf ndof c g = Ok M /\ transforms_matrices c g J b numbf ndof sense M.
Proof.
move=> hL hle sense hlin.
have [M [e [hr [hc hM]]]] := @aw_ok F o (@zero_times F) c g (rows_at c g) numbf ndof hd hl3 (rows_good g (or_introl hd))
   (ltac:(lia)) (ltac:(lia)).
exists M; split=> //; apply: (@zany_transforms 2 numbf ndof pv pf lam (fun i => MOther (ell i)) (identity o)) => //.
move=> i u hu hi; rewrite -/sense.
under eq_bigr => j _.
  have -> : (if (j < 9)%N then 0 else identity o i j) = (i == j)%:R.
    rewrite identityE; case: ifP => // hj; have -> // : (i == j) = false by apply/eqP => E; lia.
  over.
rewrite (@sum_identity F numbf i (fun j => mdof (physical_place J b (@cell_facet F 1 c) (cell_size g) (mpreimage J b)) (sense j) u)); last lia.
have -> // : sense i = MOther (ell (i - 9 - 12)%N).
rewrite /sense /vertices_first; have -> : (i < 9)%N = false by lia.
by rewrite /facets_first; have -> : (i - 9 < 3 * (2 * 2))%N = false by lia.
Qed.

(** Hu-Zhang elements: the inner dofs are components at points or others. *)
Lemma hz_transforms ndofs degree variant k pv pf lam ell Y py : (2 <= degree)%N ->
  (9 + 6 * (degree - 1) <= ndofs)%N ->
  (is_point variant = true -> ndofs = 9 + 6 * (degree - 1) + 3 * k)%N ->
  let rest := if is_point variant then components_at Y py else fun i => MOther (ell i) in
  let sense := vertices_first (@cell_vertex F 1 c) pv (facets_first 3 (degree - 1) pf lam rest) in
  (forall i, (i < ndofs)%N -> mlinear (sense i)) ->
  exists M, hz_transformation o ndofs degree variant c g = Ok M /\ transforms_matrices c g J b ndofs ndofs sense M.
Proof.
move=> hdeg hL hk rest sense hlin; set K := (degree - 1)%N in hL hk sense hlin *.
have eK : polynomial_dimension 1 (Nat.sub degree 2) = K by rewrite dim_edge /K; lia.
have [M [e [hr [hc hM]]]] := @hz_ok F o (@zero_times F) c g (rows_at c g) ndofs degree variant K k hd hl3 (rows_good g (or_introl hd)) eK
   (ltac:(lia)) (ltac:(move=> h; rewrite (hk h); lia)).
exists M; split=> //; apply: (@zany_transforms K ndofs ndofs pv pf lam rest
  (hz_rest o (is_point variant) (n_at (evaluation_transform o c g)) (3 * (2 * K)))) => //.
- lia.
- move=> i u hu hi; rewrite -/sense.
  have erest j : (9 + 3 * (2 * K) <= j)%N -> sense j = rest (j - (9 + 3 * (2 * K)))%N.
    move=> hj; rewrite /sense /vertices_first; have -> : (j < 9)%N = false by lia.
    rewrite /facets_first subnDA; by have -> : (j - 9 < 3 * (2 * K))%N = false by lia.
  rewrite erest; last lia.
  rewrite /hz_rest /rest; case hp: (is_point variant); last first.
    under eq_bigr => j _.
      have -> : (if (j < 9)%N then 0 else identity o i j) = (i == j)%:R.
        rewrite identityE; case: ifP => // hj; have -> // : (i == j) = false by apply/eqP => E; lia.
      over.
    rewrite (@sum_identity F ndofs i (fun j => mdof (physical_place J b (@cell_facet F 1 c) (cell_size g) (mpreimage J b)) (sense j) u)); last lia.
    by rewrite erest /rest ?hp //; lia.
  have hnd := hk hp.
  set s := (9 + 3 * (2 * K))%N in hi erest *; set r := (i - s)%N.
  have hr3 : (r %/ 3 < k)%N by rewrite ltn_divLR // /r; lia.
  have hq : (r %% 3 < 3)%N by rewrite ltn_mod.
  rewrite (@sum_window F ndofs (s + 3 * (r %/ 3)) 3 (fun j => (if (j < 9)%N then 0 else if Nat.ltb j (9 + 3 * (2 * K)) then f0 o
      else vertex_entry o (n_at (evaluation_transform o c g)) (i - (9 + 3 * (2 * K))) (j - (9 + 3 * (2 * K)))) *
      mdof (physical_place J b (@cell_facet F 1 c) (cell_size g) (mpreimage J b)) (sense j) u)).
  + rewrite /components_at (mcomponent_ref b hd hg) //; apply: eq_bigr => q _; have hq3 := ltn_ord q.
    have -> : (s + 3 * (r %/ 3) + q < 9)%N = false by rewrite /s; lia.
    have -> : Nat.ltb (s + 3 * (r %/ 3) + q) (9 + 3 * (2 * K)) = false by case: PeanoNat.Nat.ltb_spec => //; rewrite /s; lia.
    have -> : (i - (9 + 3 * (2 * K)))%N = r by rewrite /r /s; lia.
    have -> : (s + 3 * (r %/ 3) + q - (9 + 3 * (2 * K)))%N = (3 * (r %/ 3) + q)%N by rewrite /s; lia.
    have e1 : ((3 * (r %/ 3) + q) %/ 3 = r %/ 3)%N by rewrite mulnC divnMDl // [(q %/ 3)%N]divn_small // addn0.
    have e2 : ((3 * (r %/ 3) + q) %% 3 = q)%N by rewrite mulnC modnMDl modn_small.
    rewrite /vertex_entry !divE // !modE // e1 e2 PeanoNat.Nat.eqb_refl; congr (_ * _).
    rewrite erest /rest ?hp; last lia.
    have -> : (s + 3 * (r %/ 3) + q - s = 3 * (r %/ 3) + q)%N by lia.
    by rewrite /components_at e1 e2.
  + rewrite /s in hr3 *; lia.
  + move=> j hj hw; case: ifP => [_|h9]; first exact: mul0r.
    case: PeanoNat.Nat.ltb_spec => [_|hj2]; first exact: mul0r.
    rewrite /vertex_entry !divE //; case: PeanoNat.Nat.eqb_spec => [E|_]; last exact: mul0r.
    exfalso; move/negP: hw; apply.
    have E1 : (i - (9 + 3 * (2 * K)))%N = r by rewrite /r /s; lia.
    rewrite E1 in E; have := divn_eq (j - s) 3; have : ((j - s) %% 3 < 3)%N by rewrite ltn_mod.
    have -> : ((j - s) %/ 3 = r %/ 3)%N by rewrite E.
    rewrite /s; lia.
- move=> i j hi hj; apply: hM; exact/ltP.
Qed.
End Plane.

From Coq Require Import String.
(** The point variant by name. *)
Lemma is_point_name variant : is_point variant = true <-> variant = Some "point"%string.
Proof.
case: variant => [v|] //=; split; first by move/String.eqb_eq => ->.
by case=> ->.
Qed.
Lemma hz_transforms_variants (F : realFieldType) (c : scell (F := F)) (g : geometry (F := F)) (J : 'M[F]_2) (b : point F 2) :
  fiat_cell 1 c -> provides g J -> forall ndofs degree variant k pv pf lam ell Y py, (2 <= degree)%N ->
  (9 + 6 * (degree - 1) <= ndofs)%N ->
  (variant = Some "point"%string -> ndofs = 9 + 6 * (degree - 1) + 3 * k)%N ->
  forall rest, (variant = Some "point"%string -> rest = components_at Y py) ->
  (variant <> Some "point"%string -> rest = fun i => MOther (ell i)) ->
  let sense := vertices_first (@cell_vertex F 1 c) pv (facets_first 3 (degree - 1) pf lam rest) in
  (forall i, (i < ndofs)%N -> mlinear (sense i)) ->
  exists M, hz_transformation (ring_ops F) ndofs degree variant c g = Ok M /\ transforms_matrices c g J b ndofs ndofs sense M.
Proof.
move=> hc hg ndofs degree variant k pv pf lam ell Y py h1 h2 h3 rest h4 h5 sense hlin.
have e : rest = (if is_point variant then components_at Y py else fun i => MOther (ell i)).
  case hp: (is_point variant); first by apply: h4; apply/is_point_name.
  by apply: h5 => /is_point_name; rewrite hp.
have := @hz_transforms F c g J b hc hg ndofs degree variant k pv pf lam ell Y py h1 h2.
rewrite -e; apply=> //; by move=> /is_point_name.
Qed.
