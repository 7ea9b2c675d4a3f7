(** Component-wise order on degrees. *)
From Coq Require Import List Arith.
From Verif Require Import Model.Element.
Import ListNotations.

Inductive deg_le : deg -> deg -> Prop :=
| dle_int : forall a b, a <= b -> deg_le (Dg a) (Dg b)
| dle_tuple : forall xs ys, Forall2 deg_le xs ys -> deg_le (DgT xs) (DgT ys).
