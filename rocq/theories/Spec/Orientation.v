(** What orientation maps of quadrature rules are for. *)
From Coq Require Import String List Arith ZArith Permutation.
From Verif Require Import Model.Prelude Model.Cell Model.Element Model.Gem Model.PointSet Model.Quadrature Model.Orientation.
From Verif Require Import Spec.Rowmajor Spec.Tabulation Spec.Quadrature.
Import ListNotations.

(** The axes of a cell: the cells of which it is the product, for a quadrilateral
    two intervals. *)
Fixpoint axes (c : cell) : list cell :=
  match c with
  | TPCell cs => flat_map axes cs
  | Hypercube 2 => [Simplex 1; Simplex 1]
  | _ => [c]
  end.

(** Orientation [io] sends point [i] to point [result[io][i]]. *)
Definition reorient (maps : list ornt_map) (ios idx : list nat) : list nat :=
  map (fun x => nth (snd x) (nth (snd (fst x)) (fst (fst x)) []) 0) (combine (combine maps ios) idx).

(** The rules from FIAT of which a rule is made, in order. *)
Fixpoint leaves {F} (r : orule F) : list (orule F) :=
  match r with
  | ORule _ _ _ _ => [r]
  | OTensor _ rs _ => flat_map leaves rs
  end.

(** What the rules of Model/Quadrature.v take from FIAT. *)
Definition plain_line {F} (gl : cell -> nat -> frule F) (c : cell) (m : nat) : list (list F) * list F :=
  (fr_points (gl c m), fr_weights (gl c m)).
Definition plain_scheme {F} (sch : cell -> nat -> string -> result (frule F)) (c : cell) (d : nat) (s : string) : result (list (list F) * list F) :=
  match sch c d s with Ok f => Ok (fr_points f, fr_weights f) | Err e => Err e end.

(** The rule [l] belongs to axis [c]: one index and one map, if any, that permutes
    the values of this index. *)
Definition axis_rule {F} (l : orule F) (c : cell) : Prop :=
  o_ref_el l = Some c /\ exists i m, ps_indices (q_point_set (o_rule l)) = [i] /\ o_io l = [m] /\
    forall rows, m = Some rows -> Forall (fun row => Permutation row (seq 0 (ix_extent i))) rows.

(** Values of the rule's indices. *)
Definition index_values {F} (r : orule F) (env : nat -> nat) : list nat :=
  map (fun i => env (ix_id i)) (ps_indices (q_point_set (o_rule r))).

(** The cell whose orientations count: a quadrilateral is treated as a product. *)
Definition oriented_cell (c : cell) : cell :=
  match c with Hypercube 2 => TPCell [Simplex 1; Simplex 1] | _ => c end.

Section Orientation.
  Context {F : Type} (o : ops F) (vars : string -> list nat -> F).
  (** [move c io]: what orientation [io] does to the points of [c]. *)
  Context (move : cell -> nat -> list F -> list F).

  (** On a product every axis is reoriented for itself. *)
  Fixpoint move_axes (cs : list cell) (ios : list nat) (p : list F) : list F :=
    match cs, ios with
    | c :: cs', io :: ios' =>
        move c io (firstn (spatial_dimension c) p) ++ move_axes cs' ios' (skipn (spatial_dimension c) p)
    | _, _ => p
    end.

  (** The contract on FIAT's rules: one map or None, and the map tells which point
      is the image of which; their weights are the same. *)
  Definition orientable (c : cell) (f : frule F) : Prop :=
    fiat_rule_ok c (fr_points f, fr_weights f) /\
    exists m, fr_io f = [m] /\
      forall rows io row, m = Some rows -> nth_error rows io = Some row ->
        Permutation row (seq 0 (length (fr_points f))) /\
        forall i, i < length (fr_points f) ->
          nth (nth i row 0) (fr_points f) [] = move c io (nth i (fr_points f) []) /\
          nth (nth i row 0) (fr_weights f) (f0 o) = nth i (fr_weights f) (f0 o).
  Definition fiat_orientable (gl : cell -> nat -> frule F) (sch : cell -> nat -> string -> result (frule F)) : Prop :=
    (forall c m, is_line c = true -> 1 <= m -> orientable c (gl c m) /\ length (fr_points (gl c m)) = m) /\
    (forall c d s f, sch c d s = Ok f -> orientable c f).

End Orientation.
