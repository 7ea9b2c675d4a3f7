(** Helpers of Piola-mapped elements: the theorems. *)
From mathcomp Require Import all_ssreflect all_algebra.
From Verif Require Import Model.Gem Model.Piola Spec.Algebra Proofs.Determinant Proofs.PiolaFacts.
Set Implicit Arguments.
Unset Strict Implicit.
Unset Printing Implicit Defensive.
Import GRing.Theory.
Local Open Scope ring_scope.

(** ** C29: determinants and adjugates *)

(** determinant computes determinants. *)
Theorem C29_determinant : forall (R : comUnitRingType) n (A : list (list R)), array_shape n n A ->
  determinant (ring_ops R) n A = \det (matrix_of n n A).
Proof. exact determinantE. Qed.
Print Assumptions C29_determinant.

(** adjugate computes adjugates: transposed matrices of cofactors. *)
Theorem C29_adjugate : forall (R : comUnitRingType) n (A : list (list R)), array_shape n n A ->
  array_shape n n (adjugate (ring_ops R) n A) /\ matrix_of n n (adjugate (ring_ops R) n A) = \adj (matrix_of n n A).
Proof. exact (fun R n A h => conj (@adjugate_shape R n A) (adjugateE h)). Qed.
Print Assumptions C29_adjugate.

(** A matrix times its adjugate is its determinant, on both sides; divided by
    an invertible determinant the adjugate is the inverse. *)
Theorem C29_inverse : forall (R : comUnitRingType) n (A : list (list R)), array_shape n n A ->
  let d := determinant (ring_ops R) n A in
  matrix_of n n A *m matrix_of n n (adjugate (ring_ops R) n A) = d%:M /\
  matrix_of n n (adjugate (ring_ops R) n A) *m matrix_of n n A = d%:M /\
  (d \is a GRing.unit -> d^-1 *: matrix_of n n (adjugate (ring_ops R) n A) = invmx (matrix_of n n A)).
Proof. exact adjugate_inverse. Qed.
Print Assumptions C29_inverse.

(** piola_inverse undoes the contravariant Piola map. *)
Theorem C29_piola_inverse : forall (R : comUnitRingType) n (J : nat -> nat -> R), \det (table_of n n J) \is a GRing.unit ->
  matrix_of n n (piola_inverse (ring_ops R) n J) *m ((\det (table_of n n J))^-1 *: table_of n n J) = 1%:M.
Proof. exact piola_inverseE. Qed.
Print Assumptions C29_piola_inverse.

Local Notation z := (ring_ops [comUnitRingType of int]).
Definition sample : list (list int) :=
  [:: [:: 2; 0; 1; 3]; [:: -1; 4; 0; 5]; [:: 7; 2; 2; 0]; [:: 1; 1; 1; 1]].

Example C29_four_by_four : array_shape 4 4 sample /\ determinant z 4 sample = 71%:Z /\
  adjugate z 4 sample =
    [:: [:: 8; 2; 13; -34]; [:: -23; 12; 7; 9]; [:: -5; -19; -17; 110]; [:: 20; 5; -3; -14]] /\
  determinant z 0 [::] = 1.
Proof.
split; first by split=> //; repeat constructor.
by repeat split; vm_compute.
Qed.

(** ** C30: normal and tangential moments *)

(** In the plane: with the normalised edge tangent [t] of the reference cell,
    its image [J t] and the normal of that, the normal component of a
    contravariant Piola field is that of the reference field, and the returned
    row gives the reference tangential component from the physical normal and
    tangential ones. *)
Theorem C30_edge : forall (F : realFieldType) (J : nat -> nat -> F) (that : nat -> F) (norm : F) (v : 'cV[F]_2),
  let Jm := table_of 2 2 J in
  let t := norm^-1 *: vector_of 2 that in
  let row := normal_tangential_edge_transform (ring_ops F) J (\det Jm) that norm in
  \det Jm != 0 -> vector_of 2 that != 0 -> norm ^+ 2 = inner (vector_of 2 that) (vector_of 2 that) ->
  inner (turned (Jm *m t)) (piola Jm v) = inner (turned t) v /\
  inner t v = row.1 * inner (turned (Jm *m t)) (piola Jm v) + row.2 * inner (Jm *m t) (piola Jm v).
Proof. exact edge_transform. Qed.
Print Assumptions C30_edge.

(** In space: the same with the two tangents of a face and the normal they
    span. *)
Theorem C30_face : forall (F : realFieldType) (J : nat -> nat -> F) (t0 t1 : nat -> F) (v : 'cV[F]_3),
  let Jm := table_of 3 3 J in
  let s0 := vector_of 3 t0 in
  let s1 := vector_of 3 t1 in
  let rows := normal_tangential_face_transform (ring_ops F) J (\det Jm) t0 t1 in
  let u := piola Jm v in
  \det Jm != 0 -> cross_product s0 s1 != 0 ->
  let moment := inner (cross_product (Jm *m s0) (Jm *m s1)) u in
  moment = inner (cross_product s0 s1) v /\
  inner s0 v = rows.1.1.1 * moment + rows.1.1.2 * inner (Jm *m s0) u + rows.1.2 * inner (Jm *m s1) u /\
  inner s1 v = rows.2.1.1 * moment + rows.2.1.2 * inner (Jm *m s0) u + rows.2.2 * inner (Jm *m s1) u.
Proof. exact face_transform. Qed.
Print Assumptions C30_face.

Local Notation q := (ring_ops [comUnitRingType of rat]).
Definition seqf (l : list rat) : nat -> rat := fun i => List.nth i l 0.
Definition seqm (l : list (list rat)) : nat -> nat -> rat := fun i j => List.nth j (List.nth i l nil) 0.

(** An edge with tangent (3, -4) and a face of the reference tetrahedron. *)
Example C30_samples :
  let J := seqm [:: [:: 2; 1]; [:: 1; 3]] in
  let that := seqf [:: 3; -4] in
  \det (table_of 2 2 J) = 5 /\ vector_of 2 that != 0 /\ 5 ^+ 2 = inner (vector_of 2 that) (vector_of 2 that) /\
  normal_tangential_edge_transform q J 5 that 5 = (- 19%:R / 17%:R, 25%:R / 17%:R) /\
  let K := seqm [:: [:: 1; 0; 2]; [:: 0; 3; 0]; [:: 1; 1; 0]] in
  let t0 := seqf [:: -1; 1; 0] in
  let t1 := seqf [:: -1; 0; 1] in
  \det (table_of 3 3 K) != 0 /\ cross_product (vector_of 3 t0) (vector_of 3 t1) != 0.
Proof.
split; first by rewrite det2 !mxE; apply/eqP; vm_compute.
split; first by apply/eqP => /colP /(_ 0); rewrite !mxE.
split; first by rewrite inner2 !mxE; apply/eqP; vm_compute.
split; first by apply/eqP; vm_compute.
split; last by apply/eqP => /colP /(_ 0); rewrite !mxE.
by rewrite -rows_matrix -(determinantE (rows_shape 3 _)); vm_compute.
Qed.
