(** Polynomial functions of several variables: composition with maps,
    restriction to lines, integrals over the unit interval. *)
From mathcomp Require Import all_ssreflect all_algebra.
From SsrMultinomials Require Import mpoly.
Set Implicit Arguments.
Unset Strict Implicit.
Unset Printing Implicit Defensive.
Import GRing.Theory.
Local Open Scope ring_scope.

Section Polynomials.
Variable F : fieldType.

(** A point of [n]-dimensional space. *)
Definition point (n : nat) := 'I_n -> F.

(** A polynomial map of [n]-dimensional space, the image of a point and the
    Jacobian at a point. *)
Definition polymap (n : nat) := n.-tuple {mpoly F[n]}.
Definition image n (q : polymap n) (x : point n) : point n := fun i => (tnth q i).@[x].
Definition jacobian n (q : polymap n) (x : point n) (i j : 'I_n) : F := ((tnth q i)^`M(j)).@[x].

(** The composition of a function with a map. *)
Definition pull n (q : polymap n) (f : {mpoly F[n]}) : {mpoly F[n]} := f \mPo q.

(** The affine map [x |-> J x + b]. *)
Definition affine n (J : 'I_n -> 'I_n -> F) (b : point n) : polymap n :=
  [tuple \sum_j J i j *: 'X_j + (b i)%:MP | i < n].

(** The function [s |-> f (p + s t)] on the line through [p] along [t]. *)
Definition line n (f : {mpoly F[n]}) (p t : point n) : {poly F} := mmap polyC (fun i => (p i)%:P + t i *: 'X) f.

(** The integral from 0 to 1. *)
Definition integral (p : {poly F}) : F := \sum_(i < size p) p`_i / i.+1%:R.

(** The derivative of a function along a vector. *)
Definition along n (f : {mpoly F[n]}) (t : point n) : {mpoly F[n]} := \sum_i t i *: f^`M(i).

(** The Legendre polynomials of degrees four and two, shifted to the unit
    interval. *)
Definition legendre4 : {poly F} := 70%:R *: 'X^4 - 140%:R *: 'X^3 + 90%:R *: 'X^2 - 20%:R *: 'X + 1.
Definition legendre2 : {poly F} := 6%:R *: 'X^2 - 6%:R *: 'X + 1.

(** The Jacobi polynomial with both parameters [a] and degree [k], shifted to
    the unit interval. *)
Definition jacobi (a k : nat) : {poly F} :=
  \sum_(j < k.+1) 'C(k + a, k - j)%:R *: ('C(k + a, j)%:R *: (('X - 1) ^+ j * 'X ^+ (k - j))).
End Polynomials.
