(** Cells for the elements with dofs at vertices, and samples. *)
From Coq Require Import String.
From mathcomp Require Import all_ssreflect all_algebra ring.
From SsrMultinomials Require Import mpoly.
From Verif Require Import Model.Prelude Model.Gem Model.Cell Model.Element Model.Piola Model.Zany Model.PiolaElements.
From Verif Require Import Spec.Algebra Spec.Polynomials Spec.EntityDofs Spec.PiolaElements Spec.PiolaSamples Spec.PiolaConformity.
From Verif Require Import Proofs.Determinant Proofs.PiolaFacts Proofs.Polynomials Proofs.PiolaSamples.
From Verif Require Import Proofs.PiolaFields Proofs.PiolaMatrices Proofs.PiolaVectors Proofs.PiolaConformity Proofs.PiolaConformity2 Proofs.PiolaConformity3 Proofs.PiolaCells.
Set Implicit Arguments.
Unset Strict Implicit.
Unset Printing Implicit Defensive.
Import GRing.Theory Num.Theory.
Local Open Scope ring_scope.

Section Vertices.
Variables (F : realFieldType) (c : scell (F := F)) (L : nat) (x : nat -> F) (shape : nat -> {mpoly F[2]}).
Hypothesis hc : fiat_cell 1 c.
Hypothesis hL : (0 < L)%N.
Local Notation X := (@cell_facet F 1 c).
Local Notation sense := (vertices_first (@cell_vertex F 1 c) (fun _ => 0%N)
  (facets_first 3 L (fun _ => 0%N) (fun _ k => edge_value (x k)) (fun i => MOther (fun _ => 0)))).

(** The points where the dofs are taken: vertices, then points of edges; the
    functions are one at one of them and zero at the others. *)
Definition spot_of (i : nat) : point F 2 :=
  if (i < 3)%N then @cell_vertex F 1 c i else facet_point (X ((i - 3) %/ L)%N) (fun _ => x ((i - 3) %% L)%N).
Hypothesis hshape : forall i j, (i < 3 + 3 * L)%N -> (j < 3 + 3 * L)%N -> (shape j).@[spot_of i] = (i == j)%:R.
Variable d : nat.
Hypothesis hdeg : forall j, (msize (shape j) <= d.+1)%N.

Definition entries (r : nat) : 'M[F]_2 := \matrix_(i, l) ((i + l == r)%N)%:R.
(** The point of a dof and the matrix that belongs to it. *)
Definition place_of (j : nat) : nat := if (j < 9)%N then (j %/ 3)%N else (3 + (j - 9) %/ 2)%N.
Definition matrix_of (j : nat) : 'M[F]_2 :=
  if (j < 9)%N then entries (j %% 3)
  else symm (X ((j - 9) %/ (2 * L))%N) (dualv (X ((j - 9) %/ (2 * L))%N) (inord ((j - 9) %% 2)%N)).
Definition vref (j : nat) : mfield F 1 := fun _ i l => matrix_of j i l *: shape (place_of j).

Lemma entries_sym r i l : entries r i l = entries r l i.
Proof. by rewrite !mxE addnC. Qed.
Lemma matrix_sym j i l : matrix_of j i l = matrix_of j l i.
Proof. by rewrite /matrix_of; case: ifP => _; [exact: entries_sym|exact: symm_sym]. Qed.

Lemma place_lt j : (j < 9 + 3 * (2 * L))%N -> (place_of j < 3 + 3 * L)%N.
Proof.
move=> hj; rewrite /place_of; case: (ltnP j 9) => h; first by rewrite ltn_addr // ltn_divLR.
rewrite ltn_add2l ltn_divLR //; move: hj; rewrite -{1}(subnKC h) ltn_add2l => hj.
by apply: leq_trans hj _; rewrite mulnCA mulnC.
Qed.

Lemma vref_value j i : (j < 9 + 3 * (2 * L))%N -> (i < 3 + 3 * L)%N -> mvalue (vref j) 0 (spot_of i) = (i == place_of j)%:R *: matrix_of j.
Proof.
move=> hj hi; apply/matrixP => k l; rewrite [RHS]mxE mulrC -(hshape hi (place_lt hj)) -mevalZ.
by rewrite mxE.
Qed.

Lemma edge_dof f k b s : (k < L)%N -> (b < 2)%N -> (f < 3)%N ->
  mdof (reference_place (mfield F 1) X) (mfacet_node (fun _ => 0%N) (fun _ k => edge_value (x k)) f (k * 2 + b)) s =
  inner (col (inord b) (frame (X f))) (mvalue s 0 (spot_of (3 + (f * L + k))) *m fnormal (X f)).
Proof.
move=> hk hb hf; rewrite /mfacet_node /facet_node modnMDl (modn_small hb) divnMDl // (divn_small hb) addn0.
have lin : is_linear (@edge_value F (x k)) by move=> a p q; rewrite /edge_value mevalD mevalZ.
have em : mmat (edge_value (x k)) (X f) (s 0%N) = mvalue s 0 (spot_of (3 + (f * L + k))).
  apply/matrixP => i j; rewrite !mxE /edge_value chart_point /spot_of.
  by rewrite ltnNge leq_addr /= addKn divnMDl // divn_small // addn0 modnMDl modn_small.
case: b hb => [|b] hb; cbn [eqn eq_op Equality.op nat_eqMixin nat_eqType].
  rewrite [LHS]/= mfunctional ?em //.
  by congr (inner _ _); rewrite -frame_normal; congr (col _ _); apply: val_inj; rewrite /= inordK.
rewrite [LHS]/= mfunctional ?em //.
by congr (inner _ _); rewrite (@frame_tangent _ _ _ b) // inordK.
Qed.

Lemma vertex_dof v r s : (v < 3)%N -> (r < 3)%N -> 
  mdof (reference_place (mfield F 1) X) (component (MVertex 0 v (@cell_vertex F 1 c v)) r) s =
  mvalue s 0 (spot_of v) (if (r == 2)%N then 1 else 0) (if (r == 0)%N then 0 else 1).
Proof.
move=> hv hr; have e : spot_of v = @cell_vertex F 1 c v by rewrite /spot_of hv.
by case: r hr => [|[|[|r]]] // _; rewrite /component /= expr1n mul1r e mxE.
Qed.
Lemma entries_dof r r' : (r < 3)%N -> (r' < 3)%N -> entries r (if (r' == 2)%N then 1 else 0) (if (r' == 0)%N then 0 else 1) = (r' == r)%:R.
Proof.
by case: r => [|[|[|r]]] // _; case: r' => [|[|[|r']]] // _; rewrite /entries !mxE /= ?addr0 ?add0r.
Qed.

Lemma vnodal J b i j : \det J != 0 -> (i < 9 + 3 * (2 * L))%N -> (j < 9 + 3 * (2 * L))%N ->
  mdof (reference_place (mfield F 1) X) (sense i) (mpreimage J b (mimage J b (vref j))) = (i == j)%:R.
Proof.
move=> hJ hi hj; have hm3 k : (k %% 3 < 3)%N by rewrite ltn_mod.
have hm2 k : (k %% 2 < 2)%N by rewrite ltn_mod.
case: (ltnP i 9) => h.
  have hd : (i %/ 3 < 3)%N by rewrite ltn_divLR.
  rewrite {1}(divn_eq i 3) mulnC vertex_node // vertex_dof // mimage_value // vref_value //; last exact: ltn_addr.
  rewrite mxE /place_of /matrix_of; case: (ltnP j 9) => h'; last first.
    have -> : (i %/ 3 == 3 + (j - 9) %/ 2)%N = false by apply/negbTE; rewrite neq_ltn (leq_trans hd) ?leq_addr.
    by rewrite mul0r; case: eqP => // e; move: h'; rewrite -e leqNgt h.
  rewrite entries_dof // -natrM mulnb; congr ((nat_of_bool _)%:R).
  by apply/andP/eqP => [[/eqP e1 /eqP e2]|->]; rewrite ?eqxx // (divn_eq i 3) (divn_eq j 3) e1 e2.
pose k := (i - 9)%N; have ei : i = (9 + k)%N by rewrite /k subnKC.
have hk : (k < 3 * (2 * L))%N by move: hi; rewrite ei ltn_add2l.
have h2L : (0 < 2 * L)%N by rewrite muln_gt0.
have hf : (k %/ (2 * L) < 3)%N by rewrite ltn_divLR.
have hr : (k %% (2 * L) < 2 * L)%N by rewrite ltn_mod.
have hq : (k %% (2 * L) %/ 2 < L)%N by rewrite ltn_divLR // [(L * 2)%N]mulnC.
have es : sense i = mfacet_node (fun _ => 0%N) (fun _ k => edge_value (x k)) (k %/ (2 * L)) (k %% (2 * L) %/ 2 * 2 + k %% (2 * L) %% 2).
  rewrite /vertices_first ltnNge h /= -/k {1}(divn_eq k (2 * L)) block_node //; by rewrite -divn_eq.
have e2 : (k %% (2 * L) %% 2 = k %% 2)%N by rewrite modn_dvdm // dvdn_mulr.
have ep : (k %/ (2 * L) * L + k %% (2 * L) %/ 2 = k %/ 2)%N.
  by rewrite {3}(divn_eq k (2 * L)) [(2 * L)%N]mulnC mulnA divnMDl.
have hp : (3 + k %/ 2 < 3 + 3 * L)%N by rewrite ltn_add2l ltn_divLR //; apply: leq_trans hk _; rewrite mulnCA mulnC.
rewrite es edge_dof ?ltn_mod // ep e2 mimage_value // vref_value //.
rewrite -scalemxAl /inner -scalemxAr mxE -/(inner _ _) /place_of /matrix_of; case: (ltnP j 9) => h'.
  have -> : (3 + k %/ 2 == j %/ 3)%N = false by apply/negbTE; rewrite neq_ltn orbC (leq_trans _ (leq_addr _ _)) // ltn_divLR.
  by rewrite mul0r; case: eqP => // e; move: h'; rewrite -e ltnNge h.
pose q := (j - 9)%N; have ej : j = (9 + q)%N by rewrite /q subnKC.
rewrite -/q eqn_add2l ei ej eqn_add2l.
have [e|e] := eqVneq (k %/ 2)%N (q %/ 2)%N; last by rewrite mul0r; case: eqP => // ek; rewrite ek eqxx in e.
have ef : (q %/ (2 * L) = k %/ (2 * L))%N by rewrite ![(_ %/ (2 * L))%N]divnMA e.
rewrite mul1r ef symm_normal ?facet_normal // dualvE ?facet_normal //; congr ((nat_of_bool _)%:R).
by rewrite -val_eqE /= !inordK ?ltn_mod // (divn_eq k 2) (divn_eq q 2) e eqn_add2l !modnMDl !modn_mod.
Qed.

Lemma vcells g J b : provides g J -> exists K : pcell F 1 (mfield F 1), [/\ pgeo K = g, pmatrix K = J, porigin K = b &
  mbased c (9 + 3 * (2 * L)) d sense K].
Proof.
move=> hg; exists (PCell g J b (fun j => mimage J b (vref j))); split=> //; split=> //; split.
  by move=> j hj; apply: mimage_sym => p i l; rewrite /vref matrix_sym.
have [hJ _] := hg; split; last by move=> i j hi hj; apply: vnodal.
move=> j p i k hj; apply: mimage_size => i' k'; rewrite /vref.
by apply: (leq_trans (mmeasureZ_le _ _ _)); exact: hdeg.
Qed.
End Vertices.
