(** Functions on two triangles that share an edge. *)
From mathcomp Require Import all_ssreflect all_algebra.
From SsrMultinomials Require Import mpoly.
From Verif Require Import Model.Gem Model.Zany Spec.Algebra Spec.Polynomials Spec.Zany.
Set Implicit Arguments.
Unset Strict Implicit.
Unset Printing Implicit Defensive.
Import GRing.Theory Num.Theory.
Local Open Scope ring_scope.

Section Conformity.
Variable F : realFieldType.
Implicit Types (T : shape F) (a : nat -> F) (u : {mpoly F[2]}).

(** Edge [e] of [T] is edge [e'] of [T'], its vertices are numbered in the same
    order in both triangles, and the cell sizes at the vertices are the same. *)
Definition meet T e T' e' : Prop :=
  (forall i, corner T (first e) i = corner T' (first e') i) /\
  (forall i, corner T (second e) i = corner T' (second e') i) /\
  size_at T (first e) = size_at T' (first e') /\ size_at T (second e) = size_at T' (second e').

(** The point with parameter [s] of the line through an edge; the edge itself
    has [0 <= s <= 1]. *)
Definition edge_point T e (s : F) : point F 2 := fun i => corner T (first e) i + s * tangent T e i.

(** Two functions with the same values, or the same values and gradients, on
    an edge. *)
Definition continuous_across T e u u' : Prop := forall s, u.@[edge_point T e s] = u'.@[edge_point T e s].
Definition smooth_across T e u u' : Prop :=
  continuous_across T e u u' /\ forall i s, u^`M(i).@[edge_point T e s] = u'^`M(i).@[edge_point T e s].

(** Coefficients that are the same for the dofs at the common vertices and on
    the common edge, [nv] at each vertex and [ne] at each edge. *)
Definition shared nv ne a e a' e' : Prop :=
  (forall k, (k < nv)%N -> a (first e * nv + k)%N = a' (first e' * nv + k)%N /\ a (second e * nv + k)%N = a' (second e' * nv + k)%N) /\
  forall k, (k < ne)%N -> a (3 * nv + e * ne + k)%N = a' (3 * nv + e' * ne + k)%N.

(** A cell: what the coordinate mapping provides, the affine map and the
    functions whose compositions with the map are the reference basis. *)
Record cell := Cell { geo : geometry (F := F); matrix : 'I_2 -> 'I_2 -> F; origin : point F 2; funs : nat -> pieces F }.
Definition map_of (K : cell) : polymap F 2 := affine (matrix K) (origin K).
Definition shape_of (c : simplex (F := F)) (w : geometry (F := F) -> nat -> F) (K : cell) : shape F :=
  physical c (map_of K) (physical_edge_lengths (geo K)) (cell_size (geo K)) (w (geo K)).

(** Weights of the edge dofs: of integrals or means, and of point values. *)
Definition mean_weight (avg : bool) (g : geometry (F := F)) e : F := if avg then 1 else physical_edge_lengths g e.
Definition size_weight (g : geometry (F := F)) e : F := (cell_size g (first e) + cell_size g (second e)) / 2%:R.

(** The [N] functions of a cell are polynomials of degree less than [d] next to
    each edge, agree at the vertices in the first [nj] derivatives, and their
    compositions with the map are dual to the dofs [ref]. *)
Definition based c w N nj d (ref : pieces F -> nat -> F) (K : cell) : Prop :=
  provides (geo K) c (matrix K) (origin K) /\
  (forall j, (j < N)%N -> smooth (shape_of c w K) (funs K j) nj) /\
  (forall j e, (j < N)%N -> (e < 3)%N -> (msize (funs K j e) <= d)%N) /\
  nodal N ref (fun j => pulled (map_of K) (funs K j)).

(** The function with coefficients [a 0], ..., [a (n - 1)] with respect to the
    functions obtained with the transformation [M]. *)
Definition field n N (M : geometry (F := F) -> nat -> nat -> F) (K : cell) a : pieces F :=
  combination n a (fun l => combination N (M (geo K) l) (funs K)).

(** A functional that is linear. *)
Definition functional (d : pieces F -> F) : Prop :=
  forall n a phi f, (forall e, f e = combination n a phi e) -> d f = \sum_(j < n) a j * d (phi j).

(** ** Hermite elements in any dimension *)
Record hermite_cell n := HermiteCell { h_geo : geometry (F := F); h_map : polymap F n; h_funs : nat -> {mpoly F[n]} }.
Definition h_vertex n (c : simplex (F := F)) (K : hermite_cell n) (v : nat) : point F n := image (h_map K) (@vertex_of F n c v).

(** The [N] functions are cubic, and their compositions with the map are dual
    to the values and gradients at the vertices and to the functionals
    [inner]. *)
Definition hermite_based n (c : simplex (F := F)) N (inner : {mpoly F[n]} -> nat -> F) (K : hermite_cell n) : Prop :=
  (forall v (i j : 'I_n), (v <= n)%N -> jacobian_at (h_geo K) (List.nth v (sx_vertices c) nil) i j = jacobian (h_map K) (@vertex_of F n c v) i j) /\
  (forall v, (v <= n)%N -> cell_size (h_geo K) v != 0) /\
  (forall j, (j < N)%N -> (msize (h_funs K j) <= 4)%N) /\
  forall i j, (i < N)%N -> (j < N)%N ->
    hermite_dof (@vertex_of F n c) (fun _ => 1) (fun _ => pull (h_map K) (h_funs K j)) (inner (pull (h_map K) (h_funs K j))) i = (i == j)%:R.

Definition hermite_field n (c : simplex (F := F)) N (K : hermite_cell n) a : {mpoly F[n]} :=
  \sum_(l < N) a l *: \sum_(j < N) hermite_transformation (ring_ops F) c (h_geo K) l j *: h_funs K j.
End Conformity.
