(** What becomes of the transformations of scalar elements when the physical
    cell is enlarged. *)
From mathcomp Require Import all_ssreflect all_algebra.
From Coq Require Import String.
From Verif Require Import Model.Gem Model.Zany Spec.Algebra Spec.Polynomials Spec.Zany Spec.ZanySamples.
Set Implicit Arguments.
Unset Strict Implicit.
Unset Printing Implicit Defensive.
Import GRing.Theory Num.Theory.
Local Open Scope ring_scope.

Section Scaling.
Variable F : realFieldType.
Local Notation o := (ring_ops F).
Implicit Types (c : simplex (F := F)) (g : geometry (F := F)).

(** The cell of [g'] is that of [g] enlarged by the factor [s], possibly moved;
    so are the cell sizes at the vertices. *)
Definition enlarged (s : F) c g g' : Prop := 0 < s /\
  (exists J b b', provides g c J b /\ provides g' c (fun i j => s * J i j) b') /\
  forall v, (v < 3)%N -> cell_size g' v = s * cell_size g v.

(** The elements whose dofs are scaled so that mass matrices of all cells have
    the same conditioning: [N] is the number of dofs of the reference element,
    extra ones included. *)
Inductive conditioned c : nat -> (geometry (F := F) -> nat -> nat -> F) -> Prop :=
  | Con_hermite N : conditioned c N (hermite_transformation o c)
  | Con_argyris N m : conditioned c N (argyris_transformation o (5 + m) "integral"%string false c)
  | Con_argyris_point N avg : conditioned c N (argyris_transformation o 5 "point"%string avg c)
  | Con_bell N : conditioned c N (bell_transformation o c)
  | Con_hct N m : conditioned c N (hct_transformation o (3 + m) false c)
  | Con_reduced N : conditioned c N (reduced_hct_transformation o c)
  | Con_powell_sabin12 : conditioned c 12 (powell_sabin12_transformation o false c)
  | Con_morley : conditioned c 6 (morley_transformation o).

(** The dofs of an element with [nv] dofs at each vertex and [2 m + 1] at each
    edge that are moments of the normal derivative. *)
Definition normal_moment (nv m i : nat) : bool :=
  ((3 * nv <= i) && (i < 3 * nv + 3 * (2 * m + 1)) && ((i - 3 * nv) %% (2 * m + 1) <= m))%N.

(** A quadrature rule on the reference cell: weights, and the values of the
    reference basis functions at the points. *)
Definition rule := seq (F * (nat -> F)).

(** The mass matrix on the cell of [g]. *)
Definition mass (N : nat) (M : nat -> nat -> F) (det : F) (q : rule) (i j : nat) : F :=
  \sum_(p <- q) p.1 * `|det| * (\sum_(a < N) M i a * p.2 a) * (\sum_(a < N) M j a * p.2 a).
End Scaling.

(** The sample triangle with sides 5, 12 and 13, enlarged by the factor 2. *)
Definition geometry10_24_26 : geometry (F := rat) := mkGeometry
  (fun _ i j => if (i == j)%N then (if (i == 0)%N then q_of 10 3 else 6%:R) else 0)
  (fun _ => 20%:R)
  (fun v => (2 * v.+1)%:R)
  (fun e i => nth 0 (nth [::] [:: [:: q_of 4 5; q_of 3 5]; [:: 1; 0]; [:: 0; - 1]] e) i)
  (fun e i => nth 0 (nth [::] [:: [:: q_of 12 13; q_of 5 13]; [:: 1; 0]; [:: 0; - 1]] e) i)
  (fun e i => nth 0 (nth [::] [:: [:: - q_of 5 13; q_of 12 13]; [:: 0; 1]; [:: 1; 0]] e) i)
  (fun e => nth 0 [:: 26%:R; 24%:R; 10%:R] e).
