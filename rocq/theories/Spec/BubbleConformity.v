(** Vector fields of the elements with facet bubbles, on neighbouring cells.
    Everything is stated from first principles. *)
From mathcomp Require Import all_ssreflect all_algebra.
From SsrMultinomials Require Import mpoly.
From Verif Require Import Model.Prelude Model.Cell Model.Zany Model.PiolaElements.
From Verif Require Import Spec.Algebra Spec.Polynomials Spec.PiolaElements Spec.PiolaConformity.
Set Implicit Arguments.
Unset Strict Implicit.
Unset Printing Implicit Defensive.
Import GRing.Theory.
Local Open Scope ring_scope.

Section BubbleConformity.
Variables (F : realFieldType) (m : nat).
Local Notation n := m.+1.
Implicit Types (T : {mpoly F[m]} -> Prop) (c : scell (F := F)).

(** A vector space of polynomials on a facet, whose members are told apart by
    their values at the vertices and one functional. *)
Definition subspace T : Prop := T 0 /\ forall a p q, T p -> T q -> T (a *: p + q).
Definition settled T (lam : on_facet F m) : Prop := forall q, T q ->
  (forall k, (k <= m)%N -> corner_value k q = 0) -> lam q = 0 -> q = 0.
(** Linear polynomials and one more. *)
Definition linear_and (b q : {mpoly F[m]}) : Prop := exists l t, (msize l <= 2)%N /\ q = l + t *: b.

(** The components of the [N] fields of a cell are in [T] on the facets, and
    their preimages are dual to the reference dofs. *)
Definition tbased c N T (sense : nat -> vnode F m) (pf : nat -> nat) (K : pcell F m (vfield F m)) : Prop :=
  provides (pgeo K) (pmatrix K) /\
  (forall j f i, (j < N)%N -> (f <= n)%N -> T (chart (pfacet c K f) (pfuns K j (pf f) i))) /\
  forall i j, (i < N)%N -> (j < N)%N ->
    vdof (reference_place (vfield F m) (@cell_facet F m c)) (sense i) (vpreimage (pmatrix K) (porigin K) (pfuns K j)) = (i == j)%:R.

(** All components agree on the facet. *)
Definition field_continuous (X : facet F m) (u u' : vfield F m) (p p' : nat) : Prop := forall y,
  vvalue u p (facet_point X y) = vvalue u' p' (facet_point X y).
End BubbleConformity.
