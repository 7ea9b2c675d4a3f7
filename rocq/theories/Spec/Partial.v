(** Numbers with division by zero undefined. *)
From mathcomp Require Import all_ssreflect all_algebra.
From Verif Require Import Model.Gem.
Set Implicit Arguments.
Unset Strict Implicit.
Unset Printing Implicit Defensive.
Import GRing.Theory.
Local Open Scope ring_scope.

Definition lift2 (T : Type) (f : T -> T -> T) (x y : option T) : option T :=
  match x, y with Some a, Some b => Some (f a b) | _, _ => None end.

(** Everything computed from an undefined number is undefined. *)
Definition partial_ops (F : fieldType) : ops (option F) :=
  mkOps (option F) (Some 0) (Some 1) (lift2 +%R) (lift2 *%R) (lift2 (fun x y => x - y))
    (omap -%R) (fun x y => match x, y with
                           | Some a, Some b => if b == 0 then None else Some (a / b)
                           | _, _ => None
                           end)
    (fun x => x == Some 0).
