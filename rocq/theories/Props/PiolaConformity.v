(** Property C68: vector and matrix fields of Piola-mapped elements fit together
    across facets that two cells share. *)
From Coq Require Import String.
From mathcomp Require Import all_ssreflect all_algebra.
From SsrMultinomials Require Import mpoly.
From Verif Require Import Model.Prelude Model.Gem Model.Cell Model.Element Model.Zany Model.PiolaElements.
From Verif Require Import Spec.Algebra Spec.Polynomials Spec.EntityDofs Spec.PiolaElements Spec.PiolaSamples Spec.PiolaConformity.
From Verif Require Import Proofs.PiolaSamples Proofs.PiolaConformity2 Proofs.PiolaConformity3 Proofs.PiolaCells Proofs.PiolaNeighbours.
Set Implicit Arguments.
Unset Strict Implicit.
Unset Printing Implicit Defensive.
Import GRing.Theory Num.Theory.
Local Open Scope ring_scope.
Local Notation Q := [realFieldType of rat].

(** ** Johnson-Mercier *)
(** The two cells are arbitrary affine images of the reference cell that share
    a facet, with different numbers in them.  The fields have coefficients that
    agree for the dofs of that facet.  Then both fields times the facet's normal
    are equal at all points of the facet. *)
Theorem C68_johnson_mercier : forall (F : realFieldType) m (c : scell (F := F)), fiat_cell m c ->
  forall N ndof pf lam ell, let n := m.+1 in (n = 2 \/ n = 3)%N -> (n.+1 * (n * n) <= ndof)%N -> (ndof <= N)%N ->
  let sense := facets_first n.+1 n pf lam (fun i => MOther (ell i)) in
  (forall i, (i < N)%N -> mlinear (sense i)) ->
  forall (K K' : pcell F m (mfield F m)) M M' f f' (a a' : nat -> F),
  mbased c N 1 sense K -> mbased c N 1 sense K' ->
  jm_transformation (ring_ops F) N ndof c (pgeo K) = Ok M -> jm_transformation (ring_ops F) N ndof c (pgeo K') = Ok M' ->
  (f <= n)%N -> (f' <= n)%N -> same_facet (pfacet c K f) (pfacet c K' f') ->
  determine 1 n (lam f) -> (forall k q, (k < n)%N -> lam f k q = lam f' k q) ->
  same_from a (f * (n * n)) a' (f' * (n * n)) (n * n) ->
  traction_continuous (pfacet c K f) (mfield_of N ndof M K a) (mfield_of N ndof M' K' a') (pf f) (pf f').
Proof. exact jm_conforming. Qed.
Print Assumptions C68_johnson_mercier.

(** Such cells exist over each affine map. *)
Theorem C68_johnson_mercier_cells : forall (F : realFieldType) m (c : scell (F := F)), fiat_cell m c ->
  forall (g : geometry (F := F)) J b ell, let n := m.+1 in provides g J ->
  exists K : pcell F m (mfield F m), [/\ pgeo K = g, pmatrix K = J, porigin K = b &
  mbased c (n.+1 * (n * n)) 1 (facets_first n.+1 n id (fun _ => @corner_value F m) (fun k => MOther (ell k))) K].
Proof. move=> F m c hc g J b ell n hg; exact (jm_cells hc b ell hg). Qed.
Print Assumptions C68_johnson_mercier_cells.

(** Two triangles and two tetrahedra; the shared facet has different numbers. *)
Example C68_johnson_mercier_example : exists (K K' : pcell Q 1 (mfield Q 1)) M M',
  jm_transformation (ring_ops Q) 12 12 cell2 g2 = Ok M /\ jm_transformation (ring_ops Q) 12 12 cell2 g2' = Ok M' /\
  pgeo K = g2 /\ pgeo K' = g2' /\
  traction_continuous (pfacet cell2 K 0) (mfield_of 12 12 M K (left_of 0 4)) (mfield_of 12 12 M' K' (right_of 4 4)) 0 1.
Proof.
have [K [e1 e2 e3 hK]] := C68_johnson_mercier_cells cell2_fiat b2 (@other_dof 1) g2_provides.
have [K' [e1' e2' e3' hK']] := C68_johnson_mercier_cells cell2_fiat b2' (@other_dof 1) g2'_provides.
have hl i : (i < 12)%N -> _ := fun _ => @corner_nodes_linear 1 i.
have [M [eM _]] := PiolaMatrices.jm_transforms b2 cell2_fiat g2_provides (or_introl erefl) (leqnn 12) (leqnn 12) hl.
have [M' [eM' _]] := PiolaMatrices.jm_transforms b2' cell2_fiat g2'_provides (or_introl erefl) (leqnn 12) (leqnn 12) hl.
exists K, K', M, M'; split; [exact: eM|split; [exact: eM'|split; [exact: e1|split; [exact: e1'|]]]].
have eMK : jm_transformation (ring_ops Q) 12 12 cell2 (pgeo K) = Ok M by rewrite e1; exact: eM.
have eMK' : jm_transformation (ring_ops Q) 12 12 cell2 (pgeo K') = Ok M' by rewrite e1'; exact: eM'.
have hs : same_from (left_of 0 4) (0 * (2 * 2)) (right_of 4 4) (1 * (2 * 2)) (2 * 2) := @same_coefficients 0 4 4.
exact: (C68_johnson_mercier cell2_fiat (or_introl erefl) (leqnn 12) (leqnn 12) hl hK hK' eMK eMK' (erefl : (0 <= 2)%N) (erefl : (1 <= 2)%N)
  (neighbours2 e2 e3 e2' e3') (@corners_determine Q 1) (fun _ _ _ => erefl) hs).
Qed.

Example C68_johnson_mercier_example3 : exists (K K' : pcell Q 2 (mfield Q 2)) M M',
  jm_transformation (ring_ops Q) 36 36 cell3 g3 = Ok M /\ jm_transformation (ring_ops Q) 36 36 cell3 g3' = Ok M' /\
  pgeo K = g3 /\ pgeo K' = g3' /\
  traction_continuous (pfacet cell3 K 0) (mfield_of 36 36 M K (left_of 0 9)) (mfield_of 36 36 M' K' (right_of 27 9)) 0 3.
Proof.
have [K [e1 e2 e3 hK]] := C68_johnson_mercier_cells cell3_fiat b3 (@other_dof 2) g3_provides.
have [K' [e1' e2' e3' hK']] := C68_johnson_mercier_cells cell3_fiat b3' (@other_dof 2) g3'_provides.
have hl i : (i < 36)%N -> _ := fun _ => @corner_nodes_linear 2 i.
have [M [eM _]] := PiolaMatrices.jm_transforms b3 cell3_fiat g3_provides (or_intror erefl) (leqnn 36) (leqnn 36) hl.
have [M' [eM' _]] := PiolaMatrices.jm_transforms b3' cell3_fiat g3'_provides (or_intror erefl) (leqnn 36) (leqnn 36) hl.
exists K, K', M, M'; split; [exact: eM|split; [exact: eM'|split; [exact: e1|split; [exact: e1'|]]]].
have eMK : jm_transformation (ring_ops Q) 36 36 cell3 (pgeo K) = Ok M by rewrite e1; exact: eM.
have eMK' : jm_transformation (ring_ops Q) 36 36 cell3 (pgeo K') = Ok M' by rewrite e1'; exact: eM'.
have hs : same_from (left_of 0 9) (0 * (3 * 3)) (right_of 27 9) (3 * (3 * 3)) (3 * 3) := @same_coefficients 0 27 9.
exact: (C68_johnson_mercier cell3_fiat (or_intror erefl) (leqnn 36) (leqnn 36) hl hK hK' eMK eMK' (erefl : (0 <= 3)%N) (erefl : (3 <= 3)%N)
  (neighbours3 e2 e3 e2' e3') (@corners_determine Q 2) (fun _ _ _ => erefl) hs).
Qed.

(** ** The nonconforming Arnold-Winther element *)
(** The functionals that are dofs have the same values on both sides; the fields
    are of higher degree than they determine. *)
Theorem C68_arnold_winther_nc : forall (F : realFieldType) (c : scell (F := F)), fiat_cell 1 c ->
  forall N ndof d pf lam ell, (12 <= ndof)%N -> (ndof <= N)%N ->
  let sense := facets_first 3 2 pf lam (fun i => MOther (ell i)) in
  (forall i, (i < N)%N -> mlinear (sense i)) ->
  forall (K K' : pcell F 1 (mfield F 1)) M M' f f' (a a' : nat -> F),
  mbased c N d sense K -> mbased c N d sense K' ->
  awnc_transformation (ring_ops F) N ndof c (pgeo K) = Ok M -> awnc_transformation (ring_ops F) N ndof c (pgeo K') = Ok M' ->
  (f <= 2)%N -> (f' <= 2)%N -> same_facet (pfacet c K f) (pfacet c K' f') ->
  (forall k q, (k < 2)%N -> lam f k q = lam f' k q) ->
  same_from a (f * 4) a' (f' * 4) 4 ->
  forall k, (k < 2)%N -> traction_moment (pfacet c K f) (lam f k) (mfield_of N ndof M K a) (mfield_of N ndof M' K' a') (pf f) (pf f').
Proof. exact awnc_conforming. Qed.
Print Assumptions C68_arnold_winther_nc.

Example C68_arnold_winther_nc_example : exists (K K' : pcell Q 1 (mfield Q 1)) M M',
  awnc_transformation (ring_ops Q) 12 12 cell2 g2 = Ok M /\ awnc_transformation (ring_ops Q) 12 12 cell2 g2' = Ok M' /\
  pgeo K = g2 /\ pgeo K' = g2' /\
  traction_moment (pfacet cell2 K 0) (@corner_value Q 1 1) (mfield_of 12 12 M K (left_of 0 4)) (mfield_of 12 12 M' K' (right_of 4 4)) 0 1.
Proof.
have [K [e1 e2 e3 hK]] := C68_johnson_mercier_cells cell2_fiat b2 (@other_dof 1) g2_provides.
have [K' [e1' e2' e3' hK']] := C68_johnson_mercier_cells cell2_fiat b2' (@other_dof 1) g2'_provides.
have hl i : (i < 12)%N -> _ := fun _ => @corner_nodes_linear 1 i.
have [M [eM _]] := PiolaMatrices.awnc_transforms b2 cell2_fiat g2_provides (leqnn 12) (leqnn 12) hl.
have [M' [eM' _]] := PiolaMatrices.awnc_transforms b2' cell2_fiat g2'_provides (leqnn 12) (leqnn 12) hl.
exists K, K', M, M'; split; [exact: eM|split; [exact: eM'|split; [exact: e1|split; [exact: e1'|]]]].
have eMK : awnc_transformation (ring_ops Q) 12 12 cell2 (pgeo K) = Ok M by rewrite e1; exact: eM.
have eMK' : awnc_transformation (ring_ops Q) 12 12 cell2 (pgeo K') = Ok M' by rewrite e1'; exact: eM'.
have hs : same_from (left_of 0 4) (0 * 4) (right_of 4 4) (1 * 4) 4 := @same_coefficients 0 4 4.
exact: (C68_arnold_winther_nc cell2_fiat (leqnn 12) (leqnn 12) hl hK hK' eMK eMK' (erefl : (0 <= 2)%N) (erefl : (1 <= 2)%N)
  (neighbours2 e2 e3 e2' e3') (fun _ _ _ => erefl) hs (erefl : (1 < 2)%N)).
Qed.

(** ** Mardal-Tai-Winther *)
(** The normal components are equal on the facet; the functionals that are dofs
    have the same values for the whole vector on both sides. *)
Theorem C68_mardal_tai_winther : forall (F : realFieldType) (c : scell (F := F)), fiat_cell 1 c ->
  forall N ndof dofs (sense : nat -> vnode F 1), (ndof <= N)%N ->
  (forall i, (i < N)%N -> vlinear (sense i)) ->
  edofs_ok (topology (Simplex 2)) ndof dofs ->
  (forall f l, has_dofs dofs (DI 1) f l -> exists a r p lam, l = a :: r /\ List.In a.+1 r /\
     sense a = Normal p f lam /\ sense a.+1 = Tangential p f lam 0) ->
  (forall i, (i < N)%N -> shared (sense i) \/ exists f a r, has_dofs dofs (DI 1) f (a :: r) /\ i = a.+1) ->
  forall d L pf idx lam,
  (forall g k, (g <= 2)%N -> (k < L)%N -> (idx g k < N)%N /\ sense (idx g k) = Normal (pf g) g (lam k)) ->
  determine d L lam ->
  forall (K K' : pcell F 1 (vfield F 1)) M M' f f' (a a' : nat -> F),
  vbased c N d sense pf K -> vbased c N d sense pf K' ->
  mtw_transformation (ring_ops F) N ndof dofs c (pgeo K) = Ok M ->
  mtw_transformation (ring_ops F) N ndof dofs c (pgeo K') = Ok M' ->
  (f <= 2)%N -> (f' <= 2)%N -> same_facet (pfacet c K f) (pfacet c K' f') ->
  (forall k, (k < L)%N -> (idx f k < ndof)%N = (idx f' k < ndof)%N /\ ((idx f k < ndof)%N -> a (idx f k) = a' (idx f' k))) ->
  let u := vfield_of N ndof M K a in let u' := vfield_of N ndof M' K' a' in
  normal_continuous (pfacet c K f) u u' (pf f) (pf f') /\
  forall t t' k, (t < ndof)%N -> (t' < ndof)%N -> (k < L)%N ->
    sense t = Tangential (pf f) f (lam k) 0 -> sense t' = Tangential (pf f') f' (lam k) 0 -> a t = a' t' ->
    vector_moment (pfacet c K f) (lam k) u u' (pf f) (pf f').
Proof. exact mtw_conforming. Qed.
Print Assumptions C68_mardal_tai_winther.

Theorem C68_mardal_tai_winther_cells : forall (F : realFieldType) (c : scell (F := F)), fiat_cell 1 c ->
  forall (g : geometry (F := F)) J b, provides g J ->
  exists K : pcell F 1 (vfield F 1), [/\ pgeo K = g, pmatrix K = J, porigin K = b & vbased c 9 1 (mtw_nodes F) id K].
Proof. move=> F c hc g J b hg; exact (mtw_cells hc b hg). Qed.
Print Assumptions C68_mardal_tai_winther_cells.

Example C68_mardal_tai_winther_example : exists (K K' : pcell Q 1 (vfield Q 1)) M M',
  mtw_transformation (ring_ops Q) 9 9 mtw_dofs cell2 g2 = Ok M /\ mtw_transformation (ring_ops Q) 9 9 mtw_dofs cell2 g2' = Ok M' /\
  pgeo K = g2 /\ pgeo K' = g2' /\
  let u := vfield_of 9 9 M K (left_of 0 3) in let u' := vfield_of 9 9 M' K' (right_of 3 3) in
  normal_continuous (pfacet cell2 K 0) u u' 0 1 /\ vector_moment (pfacet cell2 K 0) (@corner_value Q 1 0) u u' 0 1.
Proof.
have [K [e1 e2 e3 hK]] := C68_mardal_tai_winther_cells cell2_fiat b2 g2_provides.
have [K' [e1' e2' e3' hK']] := C68_mardal_tai_winther_cells cell2_fiat b2' g2'_provides.
have hl i : (i < 9)%N -> _ := fun _ => mtw_nodes_linear i.
have [M [eM _]] := PiolaVectors.mtw_transforms b2 cell2_fiat g2_provides (leqnn 9) hl mtw_edofs mtw_nodes_facets mtw_nodes_shared.
have [M' [eM' _]] := PiolaVectors.mtw_transforms b2' cell2_fiat g2'_provides (leqnn 9) hl mtw_edofs mtw_nodes_facets mtw_nodes_shared.
have eMK : mtw_transformation (ring_ops Q) 9 9 mtw_dofs cell2 (pgeo K) = Ok M by rewrite e1; exact: eM.
have eMK' : mtw_transformation (ring_ops Q) 9 9 mtw_dofs cell2 (pgeo K') = Ok M' by rewrite e1'; exact: eM'.
have ha k : (k < 2)%N -> (mtw_normal 0 k < 9)%N = (mtw_normal 1 k < 9)%N /\
  ((mtw_normal 0 k < 9)%N -> left_of 0 3 (mtw_normal 0 k) = right_of 3 3 (mtw_normal 1 k)) by case: k => [|[|k]].
have [h1 h2] := C68_mardal_tai_winther cell2_fiat (leqnn 9) hl mtw_edofs mtw_nodes_facets mtw_nodes_shared mtw_normals
  (@corners_determine Q 1) hK hK' eMK eMK' (erefl : (0 <= 2)%N) (erefl : (1 <= 2)%N) (neighbours2 e2 e3 e2' e3') ha.
exists K, K', M, M'; split; [exact: eM|split; [exact: eM'|split; [exact: e1|split; [exact: e1'|split; first exact: h1]]]].
exact: (h2 1%N 4%N 0%N).
Qed.

(** ** Functionals that determine polynomials on facets *)
(** Values at distinct points of an edge, moments against polynomials of
    increasing degrees, and values of linear functions at the vertices. *)
Theorem C68_points : forall (F : realFieldType) d (x : nat -> F),
  (forall i j, (i < d.+1)%N -> (j < d.+1)%N -> x i = x j -> i = j) -> determine d d.+1 (fun k => edge_value (x k)).
Proof. exact points_determine. Qed.
Print Assumptions C68_points.
Theorem C68_moments : forall (F : realFieldType) d (P : nat -> {poly F}), (forall k, size (P k) = k.+1) ->
  determine d d.+1 (fun k => edge_moment (P k)).
Proof. exact moments_determine. Qed.
Print Assumptions C68_moments.
Theorem C68_corners : forall (F : realFieldType) m, determine 1 m.+1 (@corner_value F m).
Proof. exact corners_determine. Qed.
Print Assumptions C68_corners.
Example C68_points_example : determine 2 3 (fun k => edge_value (k%:R : Q)).
Proof. by apply: C68_points => i j _ _ /eqP; rewrite eqr_nat => /eqP. Qed.
Example C68_moments_example : determine 1 2 (fun k => edge_moment ('X^k : {poly Q})).
Proof. by apply: C68_moments => k; rewrite size_polyXn. Qed.
