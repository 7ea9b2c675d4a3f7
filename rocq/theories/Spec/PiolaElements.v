(** Vector and matrix fields on a simplex of dimension [m + 1], the degrees of
    freedom of Piola-mapped elements on the reference cell and on its image
    under an affine map, and what a coordinate mapping must provide. *)
From mathcomp Require Import all_ssreflect all_algebra.
From SsrMultinomials Require Import mpoly.
From Verif Require Import Model.Gem Model.Cell Model.Element Model.Zany Model.PiolaElements Spec.Algebra Spec.Polynomials.
Set Implicit Arguments.
Unset Strict Implicit.
Unset Printing Implicit Defensive.
Import GRing.Theory Num.Theory.
Local Open Scope ring_scope.

Section Fields.
Variables (F : realFieldType) (m : nat).
Local Notation n := m.+1.
Local Notation point := (point F n).
Local Notation o := (ring_ops F).

(** Fields are given by polynomials on numbered pieces of the cell (a macro
    element has several). *)
Definition vfield := nat -> 'I_n -> {mpoly F[n]}.
Definition mfield := nat -> 'I_n -> 'I_n -> {mpoly F[n]}.

(** [u] and [s] are the contravariant Piola images of these fields under
    [x |-> J x + b]: [u = J v / det J] and [s = J r J^T / det J ^ 2] at
    corresponding points. *)
Definition vpreimage (J : 'M[F]_n) (b : point) (u : vfield) : vfield := fun p i =>
  \sum_j (\det J * invmx J i j) *: pull (affine J b) (u p j).
Definition mpreimage (J : 'M[F]_n) (b : point) (s : mfield) : mfield := fun p i j =>
  \sum_k \sum_l (\det J ^+ 2 * invmx J i k * invmx J j l) *: pull (affine J b) (s p k l).

(** The values of a field at a point. *)
Definition vvalue (u : vfield) p (x : point) : 'cV[F]_n := \col_i (u p i).@[x].
Definition mvalue (s : mfield) p (x : point) : 'M[F]_n := \matrix_(i, j) (s p i j).@[x].

(** A facet is given by its vertices.  Tangents go from its first vertex to the
    others; the inner product of the normal with a vector is the determinant of
    the vector and the tangents. *)
Definition facet := nat -> point.
Definition ftangent (X : facet) (k : nat) : 'cV[F]_n := \col_i (X k.+1 i - X 0%N i).
Definition fnormal (X : facet) : 'cV[F]_n :=
  \col_i \det (row_mx (delta_mx i 0 : 'cV[F]_n) (\matrix_(j < n, k < m) ftangent X k j 0)).

(** A function on a facet in terms of the facet's barycentric coordinates, and
    linear functionals of such functions: moments, values at points, ... *)
Definition chart (X : facet) (f : {mpoly F[n]}) : {mpoly F[m]} :=
  f \mPo [tuple (X 0%N i)%:MP + \sum_(k < m) ftangent X k i 0 *: 'X_k | i < n].
Definition on_facet := {mpoly F[m]} -> F.
Definition is_linear (lam : on_facet) : Prop := forall a f g, lam (a *: f + g) = a * lam f + lam g.

(** A cell with the data that dofs depend on: the map that takes reference
    points to it, the facets, the sizes at the vertices and the map that takes
    fields on it to the reference cell. *)
Record place (field : Type) := Place {
  moved : point -> point; facet_at : nat -> facet; size_at : nat -> F; back : field -> field }.
Definition reference_place (field : Type) (X : nat -> facet) : place field :=
  Place id X (fun _ => 1) id.
Definition physical_place (field : Type) (J : 'M[F]_n) (b : point) (X : nat -> facet) (h : nat -> F)
    (back : field -> field) : place field :=
  Place (image (affine J b)) (fun f k => image (affine J b) (X f k)) h back.

(** Dofs of vector fields: components at a point, the divergence at a point,
    functionals of the normal component and of the components along tangents on
    a facet; other dofs are taken on the reference cell. *)
Inductive vnode :=
  | Component (p : nat) (x : point) (c : 'I_n)
  | Divergence (p : nat) (x : point)
  | Normal (p f : nat) (lam : on_facet)
  | Tangential (p f : nat) (lam : on_facet) (k : nat)
  | Other (ell : vfield -> F).

Definition vdof (P : place vfield) (d : vnode) (u : vfield) : F :=
  match d with
  | Component p x c => (u p c).@[moved P x]
  | Divergence p x => \sum_i ((u p i)^`M(i)).@[moved P x]
  | Normal p f lam => lam (chart (facet_at P f) (\sum_i fnormal (facet_at P f) i 0 *: u p i))
  | Tangential p f lam k => lam (chart (facet_at P f) (\sum_i ftangent (facet_at P f) k i 0 *: u p i))
  | Other ell => ell (back P u)
  end.

(** Dofs of matrix fields: components at vertices, scaled by the square of the
    cell's size there, components at other points, functionals of the normal and
    tangential components of the field times the normal of a facet. *)
Inductive mnode :=
  | MVertex (p v : nat) (x : point) (i j : 'I_n)
  | MComponent (p : nat) (x : point) (i j : 'I_n)
  | MNormal (p f : nat) (lam : on_facet)
  | MTangential (p f : nat) (lam : on_facet) (k : nat)
  | MOther (ell : mfield -> F).

Definition mdof (P : place mfield) (d : mnode) (s : mfield) : F :=
  match d with
  | MVertex p v x i j => size_at P v ^+ 2 * (s p i j).@[moved P x]
  | MComponent p x i j => (s p i j).@[moved P x]
  | MNormal p f lam =>
      let N := fnormal (facet_at P f) in
      lam (chart (facet_at P f) (\sum_i \sum_j (N i 0 * N j 0) *: s p i j))
  | MTangential p f lam k =>
      let N := fnormal (facet_at P f) in let t := ftangent (facet_at P f) k in
      lam (chart (facet_at P f) (\sum_i \sum_j (t i 0 * N j 0) *: s p i j))
  | MOther ell => ell (back P s)
  end.

Definition symmetric (s : mfield) : Prop := forall p i j, s p i j = s p j i.

(** The functionals that occur are linear. *)
Definition vlinear (d : vnode) : Prop :=
  match d with
  | Component _ _ _ | Divergence _ _ => True
  | Normal _ _ lam | Tangential _ _ lam _ => is_linear lam
  | Other ell => forall N (a : nat -> F) (phi : nat -> vfield) u,
      (forall p i, u p i = \sum_(j < N) a j *: phi j p i) -> ell u = \sum_(j < N) a j * ell (phi j)
  end.
Definition mlinear (d : mnode) : Prop :=
  match d with
  | MVertex _ _ _ _ _ | MComponent _ _ _ _ => True
  | MNormal _ _ lam | MTangential _ _ lam _ => is_linear lam
  | MOther ell => forall N (a : nat -> F) (phi : nat -> mfield) s,
      (forall p i k, s p i k = \sum_(j < N) a j *: phi j p i k) -> ell s = \sum_(j < N) a j * ell (phi j)
  end.

(** Linear combinations. *)
Definition vcombination (N : nat) (a : nat -> F) (phi : nat -> vfield) : vfield := fun p i =>
  \sum_(j < N) a j *: phi j p i.
Definition mcombination (N : nat) (a : nat -> F) (phi : nat -> mfield) : mfield := fun p i k =>
  \sum_(j < N) a j *: phi j p i k.

(** The facets of FIAT's cell. *)
Definition cell_facet (c : scell) (f : nat) : facet := fun k i =>
  List.nth i (List.nth (List.nth k (List.nth f (sc_facets c) nil) 0%N) (sc_vertices c) nil) 0.
Definition cell_vertex (c : scell) (v : nat) : point := fun i => List.nth i (List.nth v (sc_vertices c) nil) 0.

(** FIAT's simplices: facets that are not degenerate; in two dimensions
    numpy.linalg.norm is that of the Euclidean plane. *)
Definition fiat_cell (c : scell) : Prop :=
  sc_dim c = n /\ List.length (sc_facets c) = n.+1 /\
  (forall f, (f < n.+1)%N -> fnormal (cell_facet c f) != 0) /\
  (n = 2%N -> forall f, (f < 3)%N -> let t := facet_tangent o c f 0 in
     sc_norm c t ^+ 2 = t 0%N * t 0%N + t 1%N * t 1%N).

(** What a coordinate mapping provides for the affine map with matrix [J]: the
    matrix, its determinant, sizes. *)
Definition provides (g : geometry) (J : 'M[F]_n) : Prop :=
  \det J != 0 /\
  (forall u (i j : 'I_n), jacobian_at g u i j = J i j) /\
  (forall u, detJ_at g u = \det J) /\
  (forall v, (v < n.+1)%N -> cell_size g v != 0).

(** The two claims made of a matrix [M] with [ndof] rows and [numbf] columns.
    The reference element has dofs [ref 0], ..., [ref (numbf - 1)], the physical
    one the same dofs on its own cell; [ndof] of them are dofs of the element,
    the others vanish on its functions.

    - The reference dofs of a function's preimage are the columns of [M] times
      the dofs of the function.
    - If the preimages of [phi 0], ..., [phi (numbf - 1)] are the reference
      basis, then [M] times these functions is the physical basis. *)
Definition relates (field : Type) (ok : field -> Prop) (numbf ndof : nat) (ref phys : nat -> field -> F)
    (pre : field -> field) (M : nat -> nat -> F) : Prop :=
  forall u, ok u -> (forall j, (ndof <= j < numbf)%N -> phys j u = 0) ->
  forall i, (i < numbf)%N -> ref i (pre u) = \sum_(l < ndof) M l i * phys l u.
Definition makes_nodal (field : Type) (ok : field -> Prop) (combine : nat -> (nat -> F) -> (nat -> field) -> field)
    (numbf ndof : nat) (ref phys : nat -> field -> F) (pre : field -> field) (M : nat -> nat -> F) : Prop :=
  forall phi : nat -> field, (forall j, (j < numbf)%N -> ok (phi j)) ->
  (forall i j, (i < numbf)%N -> (j < numbf)%N -> ref i (pre (phi j)) = (i == j)%:R) ->
  forall l i, (l < ndof)%N -> (i < numbf)%N -> phys i (combine numbf (M l) phi) = (i == l)%:R.
Definition transforms_vectors (c : scell) (g : geometry) (J : 'M[F]_n) (b : point) (numbf ndof : nat)
    (sense : nat -> vnode) (M : array (F := F)) : Prop :=
  let X := cell_facet c in
  let ref i u := vdof (reference_place vfield X) (sense i) u in
  let phys i u := vdof (physical_place J b X (cell_size g) (vpreimage J b)) (sense i) u in
  n_rows M = ndof /\ n_cols M = numbf /\
  relates (fun _ => True) numbf ndof ref phys (vpreimage J b) (n_at M) /\
  makes_nodal (fun _ => True) vcombination numbf ndof ref phys (vpreimage J b) (n_at M).
Definition transforms_matrices (c : scell) (g : geometry) (J : 'M[F]_n) (b : point) (numbf ndof : nat)
    (sense : nat -> mnode) (M : array (F := F)) : Prop :=
  let X := cell_facet c in
  let ref i s := mdof (reference_place mfield X) (sense i) s in
  let phys i s := mdof (physical_place J b X (cell_size g) (mpreimage J b)) (sense i) s in
  n_rows M = ndof /\ n_cols M = numbf /\
  relates symmetric numbf ndof ref phys (mpreimage J b) (n_at M) /\
  makes_nodal symmetric mcombination numbf ndof ref phys (mpreimage J b) (n_at M).

(** ** Numberings *)

(** On each of [nf] facets [K] functionals of the normal component and, for
    each, of the tangential ones; then other dofs. *)
Definition facet_node (A : Type) (nrm : nat -> A) (tng : nat -> nat -> A) (r : nat) : A :=
  if (r %% n == 0)%N then nrm (r %/ n)%N else tng (r %/ n)%N (r %% n).-1.
Definition mfacet_node (pf : nat -> nat) (lam : nat -> nat -> on_facet) (f r : nat) : mnode :=
  facet_node (fun k => MNormal (pf f) f (lam f k)) (fun k => MTangential (pf f) f (lam f k)) r.
Definition facets_first (nf K : nat) (pf : nat -> nat) (lam : nat -> nat -> on_facet) (rest : nat -> mnode) (i : nat)
    : mnode :=
  if (i < nf * (n * K))%N then mfacet_node pf lam (i %/ (n * K))%N (i %% (n * K))%N
  else rest (i - nf * (n * K))%N.

(** The dofs of one entity that are not functionals on facets: divergences and,
    [n] at a time, the components at a point.  FIAT's nodes have derivatives
    exactly if they are divergences. *)
Definition is_divergence (d : vnode) : bool := match d with Divergence _ _ => true | _ => false end.
Inductive blocks (sense : nat -> vnode) : seq nat -> Prop :=
  | no_block : blocks sense [::]
  | divergence_block d p x l : sense d = Divergence p x -> blocks sense l -> blocks sense (d :: l)
  | component_block G p x l : size G = n -> (forall k : 'I_n, sense (nth 0%N G k) = Component p x k) ->
      blocks sense l -> blocks sense (G ++ l).

(** Dofs that a function and its preimage share. *)
Definition shared (d : vnode) : Prop :=
  match d with Normal _ f _ => (f < n.+1)%N | Other _ => True | _ => False end.
End Fields.

(** The components of symmetric matrices of the plane at a point: 00, 01, 11. *)
Section Plane.
Variable F : realFieldType.
Definition component (mk : 'I_2 -> 'I_2 -> mnode F 1) (r : nat) : mnode F 1 :=
  if (r == 0)%N then mk 0 0 else if (r == 1)%N then mk 0 1 else mk 1 1.
(** Three components at each vertex, then the facets, then the rest. *)
Definition vertices_first (X : nat -> point F 2) (pv : nat -> nat) (rest : nat -> mnode F 1) (i : nat) : mnode F 1 :=
  if (i < 9)%N then component (MVertex (pv (i %/ 3)%N) (i %/ 3)%N (X (i %/ 3)%N)) (i %% 3)%N else rest (i - 9)%N.
(** Components at interior points. *)
Definition components_at (Y : nat -> point F 2) (py : nat -> nat) (i : nat) : mnode F 1 :=
  component (MComponent (py (i %/ 3)%N) (Y (i %/ 3)%N)) (i %% 3)%N.
End Plane.
