(** Fields of mathcomp as scalars, and matrices given by lists. *)
From mathcomp Require Import all_ssreflect all_algebra.
From Verif Require Import Model.Gem Model.Piola.
Set Implicit Arguments.
Unset Strict Implicit.
Unset Printing Implicit Defensive.
Import GRing.Theory.
Local Open Scope ring_scope.

(** The operations of a commutative ring with (partial) division. *)
Definition ring_ops (R : comUnitRingType) : ops R :=
  mkOps R 0 1 +%R *%R (fun x y => x - y) -%R (fun x y => x / y) (fun x => x == 0).

(** An array with [m] rows and [n] columns. *)
Definition array_shape {R : Type} (m n : nat) (A : list (list R)) : Prop :=
  length A = m /\ List.Forall (fun r => length r = n) A.

(** The matrix an array stands for. *)
Definition matrix_of (R : ringType) (m n : nat) (A : list (list R)) : 'M[R]_(m, n) :=
  \matrix_(i, j) List.nth j (List.nth i A nil) 0.

(** Vectors and matrices given by functions of indices. *)
Definition vector_of (R : ringType) (n : nat) (v : nat -> R) : 'cV[R]_n := \col_i v i.
Definition table_of (R : ringType) (m n : nat) (J : nat -> nat -> R) : 'M[R]_(m, n) := \matrix_(i, j) J i j.

(** The inner product of two vectors. *)
Definition inner (R : ringType) (n : nat) (u v : 'cV[R]_n) : R := (u^T *m v) 0 0.

(** A vector of the plane turned clockwise by a right angle. *)
Definition turned (R : ringType) (u : 'cV[R]_2) : 'cV[R]_2 := \col_i (if i == 0 then u 1 0 else - u 0 0).

(** The product of two vectors of space: its inner product with any third
    vector is the determinant of the three. *)
Definition cross_product (R : ringType) (u v : 'cV[R]_3) : 'cV[R]_3 :=
  \col_i (u (i + 1) 0 * v (i + 1 + 1) 0 - u (i + 1 + 1) 0 * v (i + 1) 0).

(** The contravariant Piola image of a reference value. *)
Definition piola (R : comUnitRingType) (n : nat) (J : 'M[R]_n) (u : 'cV[R]_n) : 'cV[R]_n := (\det J)^-1 *: (J *m u).
