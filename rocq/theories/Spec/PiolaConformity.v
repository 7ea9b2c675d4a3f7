(** Vector and matrix fields on two simplices that share a facet. *)
From mathcomp Require Import all_ssreflect all_algebra.
From SsrMultinomials Require Import mpoly.
From Verif Require Import Model.Gem Model.Cell Model.Element Model.Zany Model.PiolaElements.
From Verif Require Import Spec.Algebra Spec.Polynomials Spec.PiolaElements.
Set Implicit Arguments.
Unset Strict Implicit.
Unset Printing Implicit Defensive.
Import GRing.Theory Num.Theory.
Local Open Scope ring_scope.

Section PiolaConformity.
Variables (F : realFieldType) (m : nat).
Local Notation n := m.+1.
Local Notation point := (point F n).
Implicit Types (c : scell (F := F)) (X : facet F m) (a : nat -> F).

(** A cell: what the coordinate mapping provides, the affine map and the fields
    whose Piola preimages are the reference basis. *)
Record pcell (field : Type) := PCell { pgeo : geometry (F := F); pmatrix : 'M[F]_n; porigin : point; pfuns : nat -> field }.

(** The vertices of facet [f] of a cell; two cells that share a facet number its
    vertices in the same order. *)
Definition pfacet (field : Type) c (K : pcell field) (f : nat) : facet F m :=
  fun k => image (affine (pmatrix K) (porigin K)) (@cell_facet F m c f k).
Definition same_facet X X' : Prop := forall k i, (k <= m)%N -> X k i = X' k i.

(** The point of the plane of a facet with given coordinates. *)
Definition facet_point X (y : 'I_m -> F) : point := fun i => X 0%N i + \sum_(k < m) y k * ftangent X k i 0.

(** Functionals that tell polynomials of degree at most [d] on a facet apart,
    by themselves or together with the values at the ends of an edge. *)
Definition determine (d K : nat) (lam : nat -> on_facet F m) : Prop := forall q : {mpoly F[m]},
  (msize q <= d.+1)%N -> (forall k, (k < K)%N -> lam k q = 0) -> q = 0.
Definition determine_inside (d K : nat) (lam : nat -> on_facet F m) : Prop := forall q : {mpoly F[m]},
  (msize q <= d.+1)%N -> q.@[fun _ => 0] = 0 -> q.@[fun _ => 1] = 0 -> (forall k, (k < K)%N -> lam k q = 0) -> q = 0.

(** The [N] fields of a cell are piecewise polynomials of degree at most [d] and
    their preimages are dual to the reference dofs. *)
Definition mbased c N d (sense : nat -> mnode F m) (K : pcell (mfield F m)) : Prop :=
  provides (pgeo K) (pmatrix K) /\
  (forall j, (j < N)%N -> symmetric (pfuns K j)) /\
  (forall j p i k, (j < N)%N -> (msize (pfuns K j p i k) <= d.+1)%N) /\
  forall i j, (i < N)%N -> (j < N)%N ->
    mdof (reference_place (mfield F m) (@cell_facet F m c)) (sense i) (mpreimage (pmatrix K) (porigin K) (pfuns K j)) = (i == j)%:R.

(** For vectors the degree matters for normal components on facets only. *)
Definition vbased c N d (sense : nat -> vnode F m) (pf : nat -> nat) (K : pcell (vfield F m)) : Prop :=
  provides (pgeo K) (pmatrix K) /\
  (forall j f, (j < N)%N -> (f <= n)%N -> let X := pfacet c K f in
     (msize (chart X (\sum_i fnormal X i 0 *: pfuns K j (pf f) i)) <= d.+1)%N) /\
  forall i j, (i < N)%N -> (j < N)%N ->
    vdof (reference_place (vfield F m) (@cell_facet F m c)) (sense i) (vpreimage (pmatrix K) (porigin K) (pfuns K j)) = (i == j)%:R.

(** The fields with coefficients [a 0], ..., [a (ndof - 1)] with respect to the
    basis obtained with the matrix [M]. *)
Definition mfield_of N ndof (M : array (F := F)) (K : pcell (mfield F m)) a : mfield F m :=
  mcombination ndof a (fun l => mcombination N (n_at M l) (pfuns K)).
Definition vfield_of N ndof (M : array (F := F)) (K : pcell (vfield F m)) a : vfield F m :=
  vcombination ndof a (fun l => vcombination N (n_at M l) (pfuns K)).

(** Continuity across a facet: of a matrix field times the normal, and of the
    normal component of a vector field. *)
Definition traction_continuous X (s s' : mfield F m) (p p' : nat) : Prop := forall y,
  mvalue s p (facet_point X y) *m fnormal X = mvalue s' p' (facet_point X y) *m fnormal X.
Definition normal_continuous X (u u' : vfield F m) (p p' : nat) : Prop := forall y,
  (fnormal X)^T *m vvalue u p (facet_point X y) = (fnormal X)^T *m vvalue u' p' (facet_point X y).

(** A functional has the same values for the components of both fields on the
    facet, times the normal for matrices. *)
Definition traction_moment X (lam : on_facet F m) (s s' : mfield F m) (p p' : nat) : Prop := forall i,
  lam (chart X (\sum_j fnormal X j 0 *: s p i j)) = lam (chart X (\sum_j fnormal X j 0 *: s' p' i j)).
Definition vector_moment X (lam : on_facet F m) (u u' : vfield F m) (p p' : nat) : Prop := forall i,
  lam (chart X (u p i)) = lam (chart X (u' p' i)).

(** The same coefficients, [k] from [s] on. *)
Definition same_from a s a' s' (k : nat) : Prop := forall r, (r < k)%N -> a (s + r)%N = a' (s' + r)%N.

(** The number of a facet's vertex, and cells that have the same size there;
    the coefficients there are [3 v], [3 v + 1], [3 v + 2]. *)
Definition facet_vertex c (f k : nat) : nat := List.nth k (List.nth f (sc_facets c) nil) 0%N.
Definition named_vertices c : Prop := forall f k, (f <= n)%N -> (k <= m)%N -> (facet_vertex c f k <= n)%N.
Definition same_at_vertices (field : Type) c (K K' : pcell field) f f' a a' : Prop := forall k, (k <= m)%N ->
  cell_size (pgeo K) (facet_vertex c f k) = cell_size (pgeo K') (facet_vertex c f' k) /\
  same_from a (3 * facet_vertex c f k) a' (3 * facet_vertex c f' k) 3.
End PiolaConformity.

(** ** Functionals on facets *)

(** The values at the vertices of a facet. *)
Definition corner_value (F : realFieldType) m (k : nat) : on_facet F m := fun q => q.@[fun i => (k == i.+1)%:R].
(** The value at a point of an edge, and the moment of a polynomial. *)
Definition edge_value (F : realFieldType) (x : F) : on_facet F 1 := fun q => q.@[fun _ => x].
Definition edge_moment (F : realFieldType) (P : {poly F}) : on_facet F 1 := fun q =>
  integral (line q (fun _ => 0) (fun _ => 1) * P).
