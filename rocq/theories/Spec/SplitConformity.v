(** Piecewise quadratic functions on two triangles that share an edge. *)
From mathcomp Require Import all_ssreflect all_algebra.
From SsrMultinomials Require Import mpoly.
From Verif Require Import Model.Gem Model.Zany Spec.Algebra Spec.Polynomials Spec.Zany Spec.Split Spec.Conformity.
Set Implicit Arguments.
Unset Strict Implicit.
Unset Printing Implicit Defensive.
Import GRing.Theory Num.Theory.
Local Open Scope ring_scope.

Section SplitConformity.
Variable F : realFieldType.
Implicit Types (T : shape F) (f : pieces F) (z : point F 2) (K : cell F).

(** Values and gradients agree at the vertices and at the midpoints of the
    edges (see [Spec/Split.v] for the numbers of the pieces). *)
Definition split_c1 T f : Prop := split_smooth T f /\
  forall e a, (e < 3)%N -> (a < 3)%N -> jet (f e) (midpoint T e) a = jet (f (3 + e)%N) (midpoint T e) a.

(** The line from the midpoint of an edge to a point [z]; values and gradients
    of the pieces on its sides agree on it. *)
Definition spoke T z e : point F 2 := fun i => z i - midpoint T e i.
Definition centred T z f : Prop := forall e s a, (e < 3)%N -> (a < 3)%N ->
  let x : point F 2 := fun i => midpoint T e i + s * spoke T z e i in
  jet (f e) x a = jet (f (3 + e)%N) x a.

(** The [N] functions of a cell are such functions, and their compositions with
    the map are dual to [ref]. *)
Definition split_based c w N (ref : pieces F -> nat -> F) K : Prop :=
  provides (geo K) c (matrix K) (origin K) /\
  (forall j, (j < N)%N -> split_c1 (shape_of c w K) (funs K j)) /\
  (forall j p, (j < N)%N -> (p < 6)%N -> (msize (funs K j p) <= 3)%N) /\
  nodal N ref (fun j => pulled (map_of K) (funs K j)).

(** The dofs of Powell-Sabin 6: values and gradients at the vertices. *)
Definition split_vertices T f (i : nat) : F := split_vertex_dof T f (i %/ 3) (i %% 3).

(** Equal values, or values and gradients, on both halves of an edge. *)
Definition split_continuous_across T e f e' f' : Prop :=
  continuous_across T e (f e) (f' e') /\ continuous_across T e (f (3 + e)%N) (f' (3 + e')%N).
Definition split_smooth_across T e f e' f' : Prop :=
  smooth_across T e (f e) (f' e') /\ smooth_across T e (f (3 + e)%N) (f' (3 + e')%N).
End SplitConformity.
