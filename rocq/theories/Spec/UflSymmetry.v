(** Symmetries of mixed elements. *)
From Coq Require Import List Arith.
From Verif Require Import Model.Prelude Model.UflElement Spec.Rowmajor.
Import ListNotations.

(** A part of a mixed element: the shape of its values and its symmetries. *)
Notation part := (list nat * symmetry)%type (only parsing).
Definition sizes (parts : list part) : nat := fold_right (fun p n => prod (fst p) + n) 0 parts.
(** Which component stands for which, both components of the part. *)
Definition proper (p : part) : Prop :=
  NoDup (map fst (snd p)) /\ forall c d, In (c, d) (snd p) -> in_shape (fst p) c /\ in_shape (fst p) d.
(** In the vector of all values, those of one part after the other in row-major order, the
    component [a] is represented by [b]. *)
Definition represented (parts : list part) (a b : nat) : Prop :=
  exists before p after c d, parts = before ++ p :: after /\ In (c, d) (snd p) /\
    a = sizes before + rowmajor (fst p) c /\ b = sizes before + rowmajor (fst p) d.

(** The element without its restrictions. *)
Fixpoint unrestricted (e : uel) : uel := match e with URestricted _ e _ => unrestricted e | _ => e end.
Definition is_mixed (e : uel) : Prop :=
  match e with UMixed _ _ | UVector _ _ _ | UTensor _ _ _ _ _ _ => True | _ => False end.
