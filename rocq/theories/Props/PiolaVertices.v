(** Property C68, continued: matrix fields with dofs at vertices. *)
From Coq Require Import String.
From mathcomp Require Import all_ssreflect all_algebra.
From SsrMultinomials Require Import mpoly.
From Verif Require Import Model.Prelude Model.Gem Model.Cell Model.Element Model.Zany Model.PiolaElements.
From Verif Require Import Spec.Algebra Spec.Polynomials Spec.PiolaElements Spec.PiolaSamples Spec.PiolaConformity.
From Verif Require Import Proofs.PiolaSamples Proofs.PiolaConformity2 Proofs.PiolaConformity3 Proofs.PiolaCells Proofs.PiolaCells2.
From Verif Require Import Proofs.PiolaNeighbours Proofs.PiolaShapes.
Set Implicit Arguments.
Unset Strict Implicit.
Unset Printing Implicit Defensive.
Import GRing.Theory Num.Theory.
Local Open Scope ring_scope.
Local Notation Q := [realFieldType of rat].

(** ** Arnold-Winther *)
(** Coefficients that agree for the dofs at the ends of a common edge and on it,
    and cells that have the same size at these ends: the fields times the normal
    are equal at all points of the edge. *)
Theorem C68_arnold_winther : forall (F : realFieldType) (c : scell (F := F)), fiat_cell 1 c -> named_vertices 1 c ->
  forall N ndof lam ell, (21 <= ndof)%N -> (ndof <= N)%N ->
  let sense := vertices_first (@cell_vertex F 1 c) (fun _ => 0%N) (facets_first 3 2 (fun _ => 0%N) lam (fun i => MOther (ell i))) in
  (forall i, (i < N)%N -> mlinear (sense i)) ->
  forall (K K' : pcell F 1 (mfield F 1)) M M' f f' (a a' : nat -> F),
  mbased c N 3 sense K -> mbased c N 3 sense K' ->
  aw_transformation (ring_ops F) N ndof c (pgeo K) = Ok M -> aw_transformation (ring_ops F) N ndof c (pgeo K') = Ok M' ->
  (f <= 2)%N -> (f' <= 2)%N -> same_facet (pfacet c K f) (pfacet c K' f') ->
  determine_inside 3 2 (lam f) -> (forall k q, (k < 2)%N -> lam f k q = lam f' k q) ->
  same_at_vertices c K K' f f' a a' -> same_from a (9 + f * 4) a' (9 + f' * 4) 4 ->
  traction_continuous (pfacet c K f) (mfield_of N ndof M K a) (mfield_of N ndof M' K' a') 0 0.
Proof. exact aw_conforming. Qed.
Print Assumptions C68_arnold_winther.

Example C68_arnold_winther_example : exists (K K' : pcell Q 1 (mfield Q 1)) M M',
  aw_transformation (ring_ops Q) 21 21 cell2 g2 = Ok M /\ aw_transformation (ring_ops Q) 21 21 cell2 g2' = Ok M' /\
  pgeo K = g2 /\ pgeo K' = g2' /\
  traction_continuous (pfacet cell2 K 0) (mfield_of 21 21 M K (left_vertices 2)) (mfield_of 21 21 M' K' (right_vertices 2)) 0 0.
Proof.
have [K [e1 e2 e3 hK]] := cubic_cells b2 g2_provides.
have [K' [e1' e2' e3' hK']] := cubic_cells b2' g2'_provides.
have hl i : (i < 21)%N -> _ := fun _ => vertex_edge_linear 2 i.
have [M [eM _]] := PiolaMatrices.aw_transforms b2 cell2_fiat g2_provides (leqnn 21) (leqnn 21) hl.
have [M' [eM' _]] := PiolaMatrices.aw_transforms b2' cell2_fiat g2'_provides (leqnn 21) (leqnn 21) hl.
exists K, K', M, M'; split; [exact: eM|split; [exact: eM'|split; [exact: e1|split; [exact: e1'|]]]].
have eMK : aw_transformation (ring_ops Q) 21 21 cell2 (pgeo K) = Ok M by rewrite e1; exact: eM.
have eMK' : aw_transformation (ring_ops Q) 21 21 cell2 (pgeo K') = Ok M' by rewrite e1'; exact: eM'.
have hs : same_from (left_vertices 2) (9 + 0 * 4) (right_vertices 2) (9 + 1 * 4) 4 := @same_edges 2.
exact (@C68_arnold_winther Q cell2 cell2_fiat cell2_names 21 21 (fun _ k => edge_value (division 2 k)) (fun _ _ => 0) (leqnn 21) (leqnn 21) hl K K' M M' 0 1 _ _ hK hK' eMK eMK' erefl erefl
  (neighbours2 e2 e3 e2' e3') (@division_inside 2) (fun _ _ _ => erefl) (same_vertices 2 e1 e1') hs).
Qed.

(** ** Hu-Zhang *)
(** Every degree and both variants. *)
Theorem C68_hu_zhang : forall (F : realFieldType) (c : scell (F := F)), fiat_cell 1 c -> named_vertices 1 c ->
  forall ndofs degree variant k lam ell Y py, (2 <= degree)%N -> (9 + 6 * (degree - 1) <= ndofs)%N ->
  (variant = Some "point"%string -> ndofs = 9 + 6 * (degree - 1) + 3 * k)%N ->
  forall rest, (variant = Some "point"%string -> rest = components_at Y py) ->
  (variant <> Some "point"%string -> rest = fun i => MOther (ell i)) ->
  let sense := vertices_first (@cell_vertex F 1 c) (fun _ => 0%N) (facets_first 3 (degree - 1) (fun _ => 0%N) lam rest) in
  (forall i, (i < ndofs)%N -> mlinear (sense i)) ->
  forall (K K' : pcell F 1 (mfield F 1)) M M' f f' (a a' : nat -> F),
  mbased c ndofs degree sense K -> mbased c ndofs degree sense K' ->
  hz_transformation (ring_ops F) ndofs degree variant c (pgeo K) = Ok M ->
  hz_transformation (ring_ops F) ndofs degree variant c (pgeo K') = Ok M' ->
  (f <= 2)%N -> (f' <= 2)%N -> same_facet (pfacet c K f) (pfacet c K' f') ->
  determine_inside degree (degree - 1) (lam f) -> (forall l q, (l < degree - 1)%N -> lam f l q = lam f' l q) ->
  same_at_vertices c K K' f f' a a' ->
  same_from a (9 + f * (2 * (degree - 1))) a' (9 + f' * (2 * (degree - 1))) (2 * (degree - 1)) ->
  traction_continuous (pfacet c K f) (mfield_of ndofs ndofs M K a) (mfield_of ndofs ndofs M' K' a') 0 0.
Proof. exact hz_conforming. Qed.
Print Assumptions C68_hu_zhang.

Definition no_points : nat -> point Q 2 := fun _ _ => 0.
Example C68_hu_zhang_example : exists (K K' : pcell Q 1 (mfield Q 1)) M M',
  hz_transformation (ring_ops Q) 21 3 (Some "integral"%string) cell2 g2 = Ok M /\
  hz_transformation (ring_ops Q) 21 3 (Some "integral"%string) cell2 g2' = Ok M' /\
  pgeo K = g2 /\ pgeo K' = g2' /\
  traction_continuous (pfacet cell2 K 0) (mfield_of 21 21 M K (left_vertices 2)) (mfield_of 21 21 M' K' (right_vertices 2)) 0 0.
Proof.
have [K [e1 e2 e3 hK]] := cubic_cells b2 g2_provides.
have [K' [e1' e2' e3' hK']] := cubic_cells b2' g2'_provides.
have hl i : (i < 21)%N -> _ := fun _ => vertex_edge_linear 2 i.
have hv1 : Some "integral"%string = Some "point"%string -> (21 = 9 + 6 * (3 - 1) + 3 * 0)%N by [].
have hv2 : Some "integral"%string = Some "point"%string -> (fun i : nat => MOther (fun _ : mfield Q 1 => 0)) = components_at no_points (fun _ => 0%N) by [].
have hv3 : Some "integral"%string <> Some "point"%string -> (fun i : nat => MOther (fun _ : mfield Q 1 => 0)) = fun i => MOther (fun _ => 0) by [].
have [M [eM _]] := @PiolaMatrices.hz_transforms_variants Q cell2 g2 J2 b2 cell2_fiat g2_provides 21 3 (Some "integral"%string) 0 (fun _ => 0%N) (fun _ => 0%N) (fun _ k => edge_value (division 2 k)) (fun _ _ => 0) no_points (fun _ => 0%N) erefl erefl hv1 _ hv2 hv3 hl.
have [M' [eM' _]] := @PiolaMatrices.hz_transforms_variants Q cell2 g2' J2' b2' cell2_fiat g2'_provides 21 3 (Some "integral"%string) 0 (fun _ => 0%N) (fun _ => 0%N) (fun _ k => edge_value (division 2 k)) (fun _ _ => 0) no_points (fun _ => 0%N) erefl erefl hv1 _ hv2 hv3 hl.
exists K, K', M, M'; split; [exact: eM|split; [exact: eM'|split; [exact: e1|split; [exact: e1'|]]]].
have eMK : hz_transformation (ring_ops Q) 21 3 (Some "integral"%string) cell2 (pgeo K) = Ok M by rewrite e1; exact: eM.
have eMK' : hz_transformation (ring_ops Q) 21 3 (Some "integral"%string) cell2 (pgeo K') = Ok M' by rewrite e1'; exact: eM'.
exact (@C68_hu_zhang Q cell2 cell2_fiat cell2_names 21 3 (Some "integral"%string) 0 (fun _ k => edge_value (division 2 k)) (fun _ _ => 0) no_points (fun _ => 0%N) erefl erefl hv1 _ hv2 hv3 hl K K' M M' 0 1 _ _ hK hK' eMK eMK' erefl erefl
  (neighbours2 e2 e3 e2' e3') (@division_inside 2) (fun _ _ _ => erefl) (same_vertices 2 e1 e1') (@same_edges 2)).
Qed.

(** Values at points and moments determine, together with the values at the
    ends, polynomials on an edge. *)
Theorem C68_points_inside : forall (F : realFieldType) d (x : nat -> F),
  (forall i j, (i < d)%N -> (j < d)%N -> x i = x j -> i = j) -> (forall i, (i < d)%N -> x i != 0 /\ x i != 1) ->
  determine_inside d.+1 d (fun k => edge_value (x k)).
Proof. exact points_determine_inside. Qed.
Print Assumptions C68_points_inside.
Example C68_points_inside_example : determine_inside 3 2 (fun k => edge_value (qq k.+1 3 : Q)).
Proof. by apply: C68_points_inside; [case=> [|[|i]] // [|[|j]]|case=> [|[|i]]]. Qed.
Theorem C68_moments_inside : forall (F : realFieldType) d (P : nat -> {poly F}), (forall k, size (P k) = k.+1) ->
  determine_inside d.+1 d (fun k => edge_moment (P k)).
Proof. exact moments_determine_inside. Qed.
Print Assumptions C68_moments_inside.
Example C68_moments_inside_example : determine_inside 3 2 (fun k => edge_moment ('X^k : {poly Q})).
Proof. by apply: C68_moments_inside => k; rewrite size_polyXn. Qed.
