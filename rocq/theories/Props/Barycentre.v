(** Property C69: transformations ask the coordinate mapping for its Jacobian
    matrix at the barycentre only. *)
From mathcomp Require Import all_ssreflect all_algebra.
From Verif Require Import Model.Prelude Model.Gem Model.Cell Model.Element Model.Zany Model.PiolaElements.
From Verif Require Import Spec.Algebra Spec.Zany Spec.ZanySamples Spec.PiolaSamples Spec.Barycentre.
From Verif Require Import Proofs.ZanySamples Proofs.Barycentre.
Set Implicit Arguments.
Unset Strict Implicit.
Unset Printing Implicit Defensive.
Import GRing.Theory.
Local Open Scope ring_scope.

(** On cells of any shape the matrix is that of the affine map whose Jacobian
    matrix is the one at the barycentre of the reference cell: matrices. *)
Theorem C69_matrices : forall (F : fieldType) (c : scell (F := F)) (g : geometry (F := F)) N ndof degree variant,
  let o := ring_ops F in
  let l := linearised g (mean_point (sc_vertices c) (sc_dim c)) in
  [/\ jm_transformation o N ndof c g = jm_transformation o N ndof c l,
      awnc_transformation o N ndof c g = awnc_transformation o N ndof c l,
      aw_transformation o N ndof c g = aw_transformation o N ndof c l &
      hz_transformation o N degree variant c g = hz_transformation o N degree variant c l].
Proof. exact all_matrices. Qed.
Print Assumptions C69_matrices.

(** Vectors. *)
Theorem C69_vectors : forall (F : fieldType) (c : scell (F := F)) (g : geometry (F := F)) N ndof bfs dofs deriv,
  let o := ring_ops F in
  let l := linearised g (mean_point (sc_vertices c) (sc_dim c)) in
  [/\ mtw_transformation o N ndof dofs c g = mtw_transformation o N ndof dofs c l,
      as_transformation o N dofs deriv c g = as_transformation o N dofs deriv c l &
      bubble_transformation o N ndof bfs dofs deriv c g = bubble_transformation o N ndof bfs dofs deriv c l].
Proof. exact all_vectors. Qed.
Print Assumptions C69_vectors.

(** Scalar elements. *)
Theorem C69_scalars : forall (F : fieldType) (c : simplex (F := F)) (g : geometry (F := F)) degree variant avg,
  let o := ring_ops F in
  let l := linearised g (mean_point (sx_vertices c) (sx_dim c)) in
  [/\ argyris_transformation o degree variant avg c g = argyris_transformation o degree variant avg c l,
      bell_transformation o c g = bell_transformation o c l,
      hct_transformation o degree avg c g = hct_transformation o degree avg c l &
      reduced_hct_transformation o c g = reduced_hct_transformation o c l].
Proof. exact all_scalars. Qed.
Print Assumptions C69_scalars.

(** A mapping that is not affine, and what is used of it. *)
Definition curved : geometry (F := rat) := mkGeometry (fun x i j => (i == j)%:R + x`_i * x`_j) (fun x => 1 + x`_0 ^+ 2 + x`_1 ^+ 2)
  (fun v => v.+1%:R) (fun _ _ => 0) (fun _ _ => 0) (fun _ _ => 0) (fun _ => 1).
Example C69_matrices_example :
  mean_point (sc_vertices cell2) (sc_dim cell2) = [:: 1; qq 4 3] /\
  (forall u i j, jacobian_at (linearised curved [:: 1; qq 4 3]) u i j = (i == j)%:R + [:: 1; qq 4 3]`_i * [:: 1; qq 4 3]`_j) /\
  jacobian_at curved [:: 0; 0] 0 0 <> jacobian_at (linearised curved [:: 1; qq 4 3]) [:: 0; 0] 0 0 /\
  jm_transformation (ring_ops _) 12 12 cell2 curved = jm_transformation (ring_ops _) 12 12 cell2 (linearised curved [:: 1; qq 4 3]).
Proof.
have e : mean_point (sc_vertices cell2) (sc_dim cell2) = [:: 1; qq 4 3].
  by rewrite /mean_point /= !big_cons !big_nil; congr [:: _; _]; apply/eqP; vm_compute.
split; [exact: e|split; [by []|split; [by move/eqP; vm_compute|]]].
by rewrite -e; case: (@C69_matrices _ cell2 curved 12 12 0 None).
Qed.

(** ** Elements that ask for it at (1/3, 1/3) *)
(** That is the barycentre of UFC's reference triangle. *)
Theorem C69_powell_sabin12 : forall (F : fieldType) avg (c : simplex (F := F)) (g : geometry (F := F)),
  mean_point (sx_vertices c) (sx_dim c) = [:: 3%:R^-1; 3%:R^-1] ->
  powell_sabin12_transformation (ring_ops F) avg c g =
  powell_sabin12_transformation (ring_ops F) avg c (linearised g (mean_point (sx_vertices c) (sx_dim c))).
Proof. exact ps12_lin. Qed.
Print Assumptions C69_powell_sabin12.
Theorem C69_morley : forall (F : fieldType) (g : geometry (F := F)),
  morley_transformation (ring_ops F) g = morley_transformation (ring_ops F) (linearised g [:: 3%:R^-1; 3%:R^-1]).
Proof. exact morley_lin. Qed.
Print Assumptions C69_morley.
Example C69_morley_example : morley_transformation (ring_ops _) curved = morley_transformation (ring_ops _) (linearised curved [:: 3%:R^-1; 3%:R^-1]) /\
  jacobian_at curved [:: 3%:R^-1; 3%:R^-1] 0 1 = qq 1 9 /\ jacobian_at curved [:: 1; 1] 0 1 = 1.
Proof. by split; [exact: C69_morley|split; apply/eqP; vm_compute]. Qed.
Theorem C69_ufc_triangle : forall F : fieldType,
  mean_point [:: [:: 0; 0]; [:: 1; 0]; [:: 0; 1]] 2 = [:: 3%:R^-1; 3%:R^-1] :> seq F.
Proof. exact ufc_mean. Qed.
Print Assumptions C69_ufc_triangle.
Example C69_powell_sabin12_example : let c := mkSimplex 2 [:: [:: 0; 0]; [:: 1; 0]; [:: 0; 1]] [:: (1, 2); (0, 2); (0, 1)]%N (fun _ => 1) in
  powell_sabin12_transformation (ring_ops _) true c curved =
  powell_sabin12_transformation (ring_ops _) true c (linearised curved [:: 3%:R^-1; 3%:R^-1]).
Proof. by move=> c; rewrite -(C69_ufc_triangle [fieldType of rat]); apply: C69_powell_sabin12; exact: C69_ufc_triangle. Qed.

(** On other reference triangles it is another point, and the matrix is not that
    of the map linearised at the barycentre. *)
Theorem C69_powell_sabin12_refuted : exists (c : simplex (F := rat)) (g : geometry (F := rat)) i j,
  fiat_triangle c /\
  powell_sabin12_transformation (ring_ops _) false c g i j <>
  powell_sabin12_transformation (ring_ops _) false c (linearised g (mean_point (sx_vertices c) (sx_dim c))) i j.
Proof. exact ps12_elsewhere. Qed.
Print Assumptions C69_powell_sabin12_refuted.
