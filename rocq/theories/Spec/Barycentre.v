(** The barycentre of a simplex, and coordinate mappings that are affine. *)
From mathcomp Require Import all_ssreflect all_algebra.
From Verif Require Import Model.Zany Spec.Algebra.
Set Implicit Arguments.
Unset Strict Implicit.
Unset Printing Implicit Defensive.
Import GRing.Theory.
Local Open Scope ring_scope.

(** The mean of points with [d] coordinates. *)
Definition mean_point (F : fieldType) (vertices : seq (seq F)) (d : nat) : seq F :=
  [seq (\sum_(x <- vertices) x`_i) / (size vertices)%:R | i <- iota 0 d].

(** The mapping that has everywhere the Jacobian matrix and the determinant that
    [g] has at a point; sizes, normals, tangents and lengths stay. *)
Definition linearised (F : fieldType) (g : geometry (F := F)) (x : seq F) : geometry (F := F) :=
  mkGeometry (fun _ => jacobian_at g x) (fun _ => detJ_at g x) (cell_size g) (reference_normals g) (physical_normals g)
    (physical_tangents g) (physical_edge_lengths g).
