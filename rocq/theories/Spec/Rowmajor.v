(** Specification vocabulary: row-major numbers of multi-indices. *)
From Coq Require Import List Arith Permutation.
Import ListNotations.

(** Horner's scheme: the last index varies fastest. *)
Definition rowmajor (shape idx : list nat) : nat :=
  fold_left (fun acc di => acc * fst di + snd di) (combine shape idx) 0.

(** [idx] is a legal multi-index for [shape]. *)
Definition in_shape (shape idx : list nat) : Prop := Forall2 (fun d i => i < d) shape idx.

(** The lists in [ls] together contain each number below [n] exactly once and
    nothing else. *)
Definition partitions (n : nat) (ls : list (list nat)) : Prop :=
  Permutation (concat ls) (seq 0 n).
