(** Helpers of Piola-mapped elements, finat/piola_mapped.py.  The entries of
    matrices are GEM expressions; the model computes with their values. *)
From Coq Require Import List Arith Bool.
From Verif Require Import Model.Prelude Model.Gem.
Import ListNotations.

Section Piola.
  Context {F : Type} (o : ops F).
  Local Notation "x + y" := (fadd o x y).
  Local Notation "x - y" := (fsub o x y).
  Local Notation "x * y" := (fmul o x y).
  Local Notation "x / y" := (fdiv o x y).
  Local Notation "- x" := (fopp o x).

  (** A two-dimensional numpy array: the list of its rows. *)
  Definition mat := list (list F).
  Definition entry (A : mat) (i j : nat) : F := nth j (nth i A []) (f0 o).

  (** [A[rows, :]] and [A[:, cols]] with boolean masks that are true everywhere
      except at [k]: the list without position [k]. *)
  Definition without {A} (k : nat) (l : list A) : list A := firstn k l ++ skipn (S k) l.

  (** [(-1)**k * x]. *)
  Definition alternate (k : nat) (x : F) : F := if Nat.even k then x else - x.

  (** determinant, finat/piola_mapped.py:9-25; [n] is [A.shape[0]].  The loop
      goes over [j = 1, ..., n - 1] and adds to the term of column 0. *)
  Fixpoint determinant (n : nat) (A : mat) : F :=
    match n with
    | 0 => f1 o
    | 1 => entry A 0 0
    | 2 => entry A 0 0 * entry A 1 1 - entry A 0 1 * entry A 1 0
    | S m =>
        fold_left
          (fun detA j => detA + alternate j (entry A 0 j) * determinant m (map (without j) (tl A)))
          (seq 1 m) (entry A 0 0 * determinant m (map (@tl F) (tl A)))
    end.

  (** adjugate, finat/piola_mapped.py:28-41: [C[j, i]] is set for all [i], [j];
      [A] has [n] rows and columns. *)
  Definition adjugate (n : nat) (A : mat) : mat :=
    map (fun j => map (fun i => alternate (Nat.add i j) (determinant (n - 1)%nat (map (without j) (without i A)))) (seq 0 n))
      (seq 0 n).

  (** piola_inverse, finat/piola_mapped.py:44-49.  [J] is indexed, [sd] is
      the cell's dimension; the argument detJ is not used. *)
  Definition piola_inverse (sd : nat) (J : nat -> nat -> F) : mat :=
    adjugate sd (map (fun i => map (fun j => J i j) (seq 0 sd)) (seq 0 sd)).

  (** Products with vectors of length [n]. *)
  Definition fsum (n : nat) (f : nat -> F) : F := fold_right (fun i s => f i + s) (f0 o) (seq 0 n).
  Definition dot (n : nat) (u v : nat -> F) : F := fsum n (fun i => u i * v i).
  Definition matvec (n : nat) (J : nat -> nat -> F) (v : nat -> F) : nat -> F := fun i => fsum n (fun j => J i j * v j).
  (** [R @ v] for [R = [[0, 1], [-1, 0]]]. *)
  Definition rotate (v : nat -> F) : nat -> F := fun i => match i with 0 => v 1 | _ => - v 0 end.
  (** numpy.cross of two vectors of length 3. *)
  Definition cross (u v : nat -> F) : nat -> F := fun i =>
    match i with
    | 0 => u 1 * v 2 - u 2 * v 1
    | 1 => u 2 * v 0 - u 0 * v 2
    | _ => u 0 * v 1 - u 1 * v 0
    end.

  (** normal_tangential_edge_transform, finat/piola_mapped.py:52-65.  [that] is
      [fiat_cell.compute_edge_tangent(f)], [norm] stands for
      [numpy.linalg.norm] of it. *)
  Definition normal_tangential_edge_transform (J : nat -> nat -> F) (detJ : F) (that : nat -> F) (norm : F) : F * F :=
    let that := fun i => that i / norm in
    let nhat := rotate that in
    let Jn := matvec 2 J nhat in
    let Jt := matvec 2 J that in
    let alpha := dot 2 Jn Jt in
    let beta := dot 2 Jt Jt in
    (- alpha / beta, detJ / beta).

  (** normal_tangential_face_transform, finat/piola_mapped.py:68-89; [t0], [t1]
      are [fiat_cell.compute_tangents(2, f)]. *)
  Definition normal_tangential_face_transform (J : nat -> nat -> F) (detJ : F) (t0 t1 : nat -> F)
    : (F * F * F) * (F * F * F) :=
    let nhat0 := cross t0 t1 in
    let nn := dot 3 nhat0 nhat0 in
    let nhat := fun i => nhat0 i / nn in
    let orth a := match a with 0 => nhat | 1 => cross nhat t1 | _ => cross t0 nhat end in
    let t b := match b with 0 => t0 | _ => t1 end in
    let A a b := dot 3 (matvec 3 J (orth a)) (matvec 3 J (t b)) in
    let det0 := A 1 0 * A 2 1 - A 1 1 * A 2 0 in
    let det1 := A 2 0 * A 0 1 - A 2 1 * A 0 0 in
    let det2 := A 0 0 * A 1 1 - A 0 1 * A 1 0 in
    let scale := detJ / det0 in
    ((- det1 / det0, - (scale * A 2 1), scale * A 2 0),
     (- det2 / det0, scale * A 1 1, - (scale * A 1 0))).
End Piola.
