(** Functions on a triangle whose edges are split at their midpoints. *)
From mathcomp Require Import all_ssreflect all_algebra.
From SsrMultinomials Require Import mpoly.
From Verif Require Import Spec.Polynomials Spec.Zany.
Set Implicit Arguments.
Unset Strict Implicit.
Unset Printing Implicit Defensive.
Import GRing.Theory Num.Theory.
Local Open Scope ring_scope.

Section Split.
Variable F : realFieldType.
Implicit Types (T : shape F) (f : pieces F).

(** Half of the vector along an edge; the midpoint of the edge. *)
Definition half T e : point F 2 := fun i => tangent T e i / 2%:R.
Definition midpoint T e : point F 2 := fun i => corner T (first e) i + half T e i.

(** Piece [e] is next to the first half of edge [e], piece [3 + e] next to the
    second half.  A piece that meets vertex [v]. *)
Definition half_at (v : nat) : nat := if (v == 0)%N then 1%N else if (v == 1)%N then 0%N else 3%N.

(** Value and first derivatives agree at the vertices, the values also at the
    midpoints of the edges. *)
Definition split_smooth T f : Prop := forall e, (e < 3)%N ->
  (forall a, (a < 3)%N -> jet (f e) (corner T (first e)) a = jet (f (half_at (first e))) (corner T (first e)) a) /\
  (forall a, (a < 3)%N -> jet (f (3 + e)%N) (corner T (second e)) a = jet (f (half_at (second e))) (corner T (second e)) a) /\
  (f e).@[midpoint T e] = (f (3 + e)%N).@[midpoint T e].

(** The dofs: values and derivatives at the vertices, and the mean of the
    normal derivative on each edge. *)
Definition split_vertex_dof T f (v a : nat) : F := weight (size_at T v) a * jet (f (half_at v)) (corner T v) a.
Definition split_mean T f e : F :=
  (integral (line (along (f e) (normal T e)) (corner T (first e)) (half T e)) +
   integral (line (along (f (3 + e)%N) (normal T e)) (midpoint T e) (half T e))) / 2%:R.
Definition split_dof T f (i : nat) : F :=
  numbered 3 1 (split_vertex_dof T f) (fun e _ => edge_weight T e * split_mean T f e) (fun _ => 0) i.
End Split.
