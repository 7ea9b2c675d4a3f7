(** Transformations of enlarged cells: the theorems. *)
From Coq Require Import String.
From mathcomp Require Import all_ssreflect all_algebra.
From Verif Require Import Model.Gem Model.Zany Spec.Algebra Spec.Polynomials Spec.Zany Spec.ZanySamples Spec.Scaling.
From Verif Require Import Proofs.ZanySamples Proofs.Scaling.
Set Implicit Arguments.
Unset Strict Implicit.
Unset Printing Implicit Defensive.
Import GRing.Theory Num.Theory.
Local Open Scope ring_scope.

Local Notation Q := [realFieldType of rat].

(** ** C65: cells of all sizes *)

(** Enlarging the physical cell does not change the transformation. *)
Theorem C65_scale_invariance : forall (F : realFieldType) (c : simplex (F := F)) N t (g g' : geometry (F := F)) s,
  conditioned c N t -> fiat_triangle c -> enlarged s c g g' ->
  forall i j, (i < N)%N -> (j < N)%N -> t g' i j = t g i j.
Proof. exact conditioned_scaled. Qed.
Print Assumptions C65_scale_invariance.

Example C65_scale_invariance_example :
  (forall i j, (i < 6)%N -> (j < 6)%N -> morley_transformation (ring_ops Q) geometry10_24_26 i j = morley_transformation (ring_ops Q) geometry5_12_13 i j) /\
  (forall i j, (i < 24)%N -> (j < 24)%N -> argyris_transformation (ring_ops Q) 6 "integral"%string false triangle345 geometry10_24_26 i j =
    argyris_transformation (ring_ops Q) 6 "integral"%string false triangle345 geometry5_12_13 i j) /\
  morley_transformation (ring_ops Q) geometry5_12_13 3%N 3%N != 0 /\
  morley_transformation (ring_ops Q) geometry5_12_13 1%N 3%N != 0 /\
  jacobian_at geometry10_24_26 [:: 0; 0] 0%N 0%N != jacobian_at geometry5_12_13 [:: 0; 0] 0%N 0%N.
Proof.
split; first exact: (C65_scale_invariance (Con_morley _) triangle345_fiat sample_enlarged).
split; first exact: (C65_scale_invariance (Con_argyris _ 24 1) triangle345_fiat sample_enlarged).
by split; [|split]; vm_compute.
Qed.

(** Mass matrices, computed with any quadrature rule on the reference cell,
    grow with the area of the cell. *)
Theorem C65_mass : forall (F : realFieldType) (c : simplex (F := F)) N t (g g' : geometry (F := F)) s,
  conditioned c N t -> fiat_triangle c -> enlarged s c g g' ->
  forall x x' (q : rule F) i j, (i < N)%N -> (j < N)%N ->
  mass N (t g') (detJ_at g' x') q i j = s ^+ 2 * mass N (t g) (detJ_at g x) q i j.
Proof. exact mass_scaled. Qed.
Print Assumptions C65_mass.

Example C65_mass_example : 
  let q : rule Q := [:: (1 / 2%:R, fun a => nth 0 [:: 1 / 3%:R; 1 / 3%:R; 1 / 3%:R; 2%:R; - 1; 3%:R] a)] in
  mass 6 (morley_transformation (ring_ops Q) geometry10_24_26) (detJ_at geometry10_24_26 [:: 0; 0]) q 3 4 = 4%:R * mass 6 (morley_transformation (ring_ops Q) geometry5_12_13) (detJ_at geometry5_12_13 [:: 0; 0]) q 3 4 /\
  mass 6 (morley_transformation (ring_ops Q) geometry5_12_13) (detJ_at geometry5_12_13 [:: 0; 0]) q 3 4 != 0.
Proof.
move=> q; split; last first.
  have E (M : nat -> nat -> rat) d w f : mass (F := Q) 6 M d [:: (w, f)] 3 4 =
    w * `|d| * foldr (fun a x => M 3%N a * f a + x) 0 (iota 0 6) * foldr (fun a x => M 4%N a * f a + x) 0 (iota 0 6).
    by rewrite /mass big_seq1 !big_ord_recl !big_ord0.
  by rewrite /q E; vm_compute.
have -> : 4%:R = 2%:R ^+ 2 :> rat by apply/eqP; vm_compute.
exact: (C65_mass (Con_morley _) triangle345_fiat sample_enlarged [:: 0; 0] [:: 0; 0]).
Qed.

(** With moments of normal derivatives divided by the length of the edge
    ([avg]) the functions dual to them grow with the cell, and nothing else
    changes. *)
Theorem C65_edge_moments : forall (F : realFieldType) (c : simplex (F := F)) (g g' : geometry (F := F)) s,
  fiat_triangle c -> enlarged s c g g' ->
  (forall m avg i j, argyris_transformation (ring_ops F) (5 + m) "integral"%string avg c g' i j =
    (if avg && (i == j) && normal_moment 6 m i then s else 1) * argyris_transformation (ring_ops F) (5 + m) "integral"%string avg c g i j) /\
  (forall m avg i j, hct_transformation (ring_ops F) (3 + m) avg c g' i j =
    (if avg && (i == j) && normal_moment 3 m i then s else 1) * hct_transformation (ring_ops F) (3 + m) avg c g i j) /\
  (forall avg i j, (i < 12)%N -> (j < 12)%N -> powell_sabin12_transformation (ring_ops F) avg c g' i j =
    (if avg && (i == j) && normal_moment 3 0 i then s else 1) * powell_sabin12_transformation (ring_ops F) avg c g i j).
Proof. exact edge_moments_scaled. Qed.
Print Assumptions C65_edge_moments.

Example C65_edge_moments_example :
  hct_transformation (ring_ops Q) 4 true triangle345 geometry10_24_26 13%N 13%N = 2%:R * hct_transformation (ring_ops Q) 4 true triangle345 geometry5_12_13 13%N 13%N /\
  hct_transformation (ring_ops Q) 4 true triangle345 geometry10_24_26 14%N 14%N = hct_transformation (ring_ops Q) 4 true triangle345 geometry5_12_13 14%N 14%N /\
  hct_transformation (ring_ops Q) 4 true triangle345 geometry5_12_13 13%N 13%N != 0.
Proof.
have [_ [h _]] := C65_edge_moments triangle345_fiat sample_enlarged.
split; first exact: (h 1%N true 13%N 13%N).
split; last by vm_compute.
by rewrite (h 1%N true 14%N 14%N) /= mul1r.
Qed.

(** Hence with [avg] the conditioning of mass matrices depends on the size of
    the cell. *)
Theorem C65_average_refuted : exists (c : simplex (F := rat)) (g g' : geometry (F := rat)) s,
  fiat_triangle c /\ enlarged (F := Q) s c g g' /\
  argyris_transformation (ring_ops Q) 5 "integral"%string true c g' 18%N 18%N <> argyris_transformation (ring_ops Q) 5 "integral"%string true c g 18%N 18%N /\
  hct_transformation (ring_ops Q) 3 true c g' 9%N 9%N <> hct_transformation (ring_ops Q) 3 true c g 9%N 9%N /\
  powell_sabin12_transformation (ring_ops Q) true c g' 9%N 9%N <> powell_sabin12_transformation (ring_ops Q) true c g 9%N 9%N.
Proof. exact average_not_invariant. Qed.
Print Assumptions C65_average_refuted.

(** Hermite elements: in any dimension, with any coordinate mapping, the
    transformation is unchanged if the Jacobian and the cell sizes at the
    vertices are multiplied by the same number. *)
Theorem C65_hermite : forall (F : realFieldType) n (c : simplex (F := F)) (g g' : geometry (F := F)) (s : F),
  sx_dim c = n -> List.length (sx_vertices c) = n.+1 -> s != 0 ->
  (forall v i j, (v <= n)%N -> (i < n)%N -> (j < n)%N ->
    jacobian_at g' (List.nth v (sx_vertices c) nil) i j = s * jacobian_at g (List.nth v (sx_vertices c) nil) i j) ->
  (forall v, (v <= n)%N -> cell_size g' v = s * cell_size g v) ->
  forall i j, hermite_transformation (ring_ops F) c g' i j = hermite_transformation (ring_ops F) c g i j.
Proof. exact hermite_scaled. Qed.
Print Assumptions C65_hermite.

Example C65_hermite_example : forall i j,
  hermite_transformation (ring_ops Q) triangle345 geometry10_24_26 i j = hermite_transformation (ring_ops Q) triangle345 geometry5_12_13 i j.
Proof.
apply: (@C65_hermite Q 2 _ _ _ 2%:R) => //.
  by move=> v [|[|i]] [|[|j]] // _ _ _; apply/eqP; vm_compute.
by move=> v _; rewrite /= natrM.
Qed.
