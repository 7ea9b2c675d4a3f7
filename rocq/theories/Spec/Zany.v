(** Degrees of freedom of scalar elements on a triangle, and what a coordinate
    mapping must provide. *)
From mathcomp Require Import all_ssreflect all_algebra.
From SsrMultinomials Require Import mpoly.
From Verif Require Import Model.Gem Model.Zany Spec.Algebra Spec.Polynomials.
Set Implicit Arguments.
Unset Strict Implicit.
Unset Printing Implicit Defensive.
Import GRing.Theory Num.Theory.
Local Open Scope ring_scope.

Section Jets.
Variables (F : fieldType) (n : nat).

(** Value, first and second derivatives of a function at a point, the second
    derivatives in the order of the pairs [i <= j]. *)
Definition pairs : seq ('I_n * 'I_n) := 
  filter (fun p : 'I_n * 'I_n => (p.1 <= p.2)%N) [seq (i, j) | i <- enum 'I_n, j <- enum 'I_n].
Definition jets (f : {mpoly F[n]}) (x : point F n) : seq F :=
  f.@[x] :: [seq f^`M(i).@[x] | i <- enum 'I_n] ++ [seq f^`M(p.1)^`M(p.2).@[x] | p <- pairs].
Definition jet (f : {mpoly F[n]}) (x : point F n) (a : nat) : F := nth 0 (jets f x) a.

(** Hermite dofs: value and derivatives at each of the [n + 1] vertices [X v],
    the derivatives scaled by [h v]; then come dofs of other kinds.  Near vertex
    [v] the function is the polynomial [f v]. *)
Definition hermite_dof (X : nat -> point F n) (h : nat -> F) (f : nat -> {mpoly F[n]}) (inner : nat -> F) (i : nat) : F :=
  let v := (i %/ n.+1)%N in
  let a := (i %% n.+1)%N in
  if (v <= n)%N then (if (a == 0)%N then 1 else h v) * jet (f v) (X v) a else inner (i - n.+1 * n.+1)%N.

(** The vertices of a simplex. *)
Definition vertex_of (c : simplex) (v : nat) : point F n := fun i => List.nth i (List.nth v (sx_vertices c) nil) 0.
End Jets.

Section Dofs.
Variable F : realFieldType.
Local Notation o := (ring_ops F).
Local Notation plane := (point F 2).
Implicit Types (f : {mpoly F[2]}) (x t : plane).

(** A vector turned clockwise by a right angle, the square of the length. *)
Definition clockwise t : plane := fun i => if i == 0 then t 1 else - t 0.
Definition square t : F := t 0 * t 0 + t 1 * t 1.

(** The image of a vector under a matrix. *)
Definition mapped (J : 'I_2 -> 'I_2 -> F) t : plane := fun i => \sum_j J i j * t j.

(** The power of the cell size by which a derivative is scaled. *)
Definition weight (h : F) (a : nat) : F := if (a == 0)%N then 1 else if (a <= 2)%N then h else h * h.

(** A triangle with the data that its dofs depend on: vertices, for each edge
    its end points, a normal vector and a weight, and the cell size at each
    vertex.  Edge [e] goes from the lower to the higher of the vertices other
    than [e]. *)
Record shape := Shape { corner : nat -> plane; normal : nat -> plane; edge_weight : nat -> F; size_at : nat -> F }.
Definition first (e : nat) : nat := if (e == 0)%N then 1%N else 0%N.
Definition second (e : nat) : nat := if (e == 2)%N then 1%N else 2%N.
Definition tangent (T : shape) (e : nat) : plane := fun i => corner T (second e) i - corner T (first e) i.

(** A function given by polynomials, one next to each edge. *)
Definition pieces := nat -> {mpoly F[2]}.
(** An edge that meets a vertex. *)
Definition edge_at (v : nat) : nat := if (v == 0)%N then 1%N else 0%N.
(** The pieces have the same value and first derivatives at the vertices. *)
Definition smooth (T : shape) (f : pieces) (m : nat) : Prop := forall e v a, (e < 3)%N -> (v < 3)%N -> v != e -> (a < m)%N ->
  jet (f e) (corner T v) a = jet (f (edge_at v)) (corner T v) a.

(** A function and its normal derivative along an edge. *)
Definition trace (T : shape) (f : pieces) e : {poly F} := line (f e) (corner T (first e)) (tangent T e).
Definition flux (T : shape) (f : pieces) e : {poly F} := line (along (f e) (normal T e)) (corner T (first e)) (tangent T e).

(** Dofs are numbered by vertex ([nv] at each), then by edge ([ne] at each),
    then come those of the interior. *)
Definition numbered (nv ne : nat) (vd ed : nat -> nat -> F) (inner : nat -> F) (i : nat) : F :=
  if (i < 3 * nv)%N then vd (i %/ nv)%N (i %% nv)%N
  else if (i - 3 * nv < 3 * ne)%N then ed ((i - 3 * nv) %/ ne)%N ((i - 3 * nv) %% ne)%N
  else inner (i - 3 * nv - 3 * ne)%N.

(** The dofs at the vertices. *)
Definition vertex_dof (T : shape) (f : pieces) (v a : nat) : F :=
  weight (size_at T v) a * jet (f (edge_at v)) (corner T v) a.

(** Integral moments on edges: [m + 1] of the normal derivative and [m] of the
    function, against Jacobi polynomials and their derivatives. *)
Definition moment_dof (T : shape) (vorder m : nat) (f : pieces) (e k : nat) : F :=
  if (k <= m)%N then edge_weight T e * integral (flux T f e * jacobi F vorder k)
  else integral (trace T f e * (jacobi F vorder (k - m))^`()).

(** The normal derivative at the midpoint of an edge. *)
Definition midpoint_dof (T : shape) (f : pieces) (e k : nat) : F := edge_weight T e * (flux T f e).[1 / 2%:R].

(** The moment of the normal derivative against a polynomial. *)
Definition constraint_dof (T : shape) (phi : {poly F}) (f : pieces) (e k : nat) : F :=
  edge_weight T e * integral (flux T f e * phi).

(** FIAT's triangle: three vertices in the plane, the edges opposite to them
    and numpy.linalg.norm. *)
Definition fiat_triangle (c : simplex) : Prop :=
  sx_dim c = 2%N /\ List.length (sx_vertices c) = 3%N /\ sx_edges c = [:: (1, 2); (0, 2); (0, 1)]%N /\
  forall e, (e < 3)%N -> let t := edge_tangent o c e in 0 < sx_norm c t /\ sx_norm c t ^+ 2 = t 0%N * t 0%N + t 1%N * t 1%N.

(** The reference cell: unit normals, no scaling. *)
Definition reference (c : simplex) : shape :=
  Shape (fun v i => vertex o c v i)
    (fun e i => clockwise (fun i => edge_tangent o c e i) i / sx_norm c (edge_tangent o c e))
    (fun _ => 1) (fun _ => 1).

(** The image of the reference cell under an affine map. *)
Definition physical (c : simplex) (q : polymap F 2) (lengths sizes weights : nat -> F) : shape :=
  let X v := image q (corner (reference c) v) in
  let t e : plane := fun i => X (second e) i - X (first e) i in
  Shape X (fun e i => clockwise (t e) i / lengths e) weights sizes.

(** What a coordinate mapping provides for the affine map with matrix [J]. *)
Definition provides (g : geometry) (c : simplex) (J : 'I_2 -> 'I_2 -> F) (b : plane) : Prop :=
  let T := physical c (affine J b) (physical_edge_lengths g) (cell_size g) (fun _ => 1) in
  J 0 0 * J 1 1 - J 0 1 * J 1 0 != 0 /\
  (forall u (i j : 'I_2), jacobian_at g u i j = J i j) /\
  (forall u, detJ_at g u = J 0 0 * J 1 1 - J 0 1 * J 1 0) /\
  (forall v, (v < 3)%N -> 0 < cell_size g v) /\
  (forall e, (e < 3)%N -> 0 < physical_edge_lengths g e /\
     physical_edge_lengths g e ^+ 2 = square (tangent T e) /\
     forall i : 'I_2, physical_tangents g e i = tangent T e i / physical_edge_lengths g e /\
       physical_normals g e i = normal T e i /\ reference_normals g e i = normal (reference c) e i).

(** The composition of a function with a map. *)
Definition pulled (q : polymap F 2) (f : pieces) : pieces := fun e => pull q (f e).
(** Linear combinations. *)
Definition combination (N : nat) (a : nat -> F) (phi : nat -> pieces) : pieces := fun e => \sum_(j < N) a j *: phi j e.
(** The functions [phi 0], ..., [phi (N - 1)] are the nodal basis with respect
    to the dofs. *)
Definition nodal (N : nat) (dof : pieces -> nat -> F) (phi : nat -> pieces) : Prop :=
  forall i j, (i < N)%N -> (j < N)%N -> dof (phi j) i = (i == j)%:R.
End Dofs.
