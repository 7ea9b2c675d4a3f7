(** What the operators and queries of the symbolic elements should answer. *)
From Coq Require Import String List ZArith Bool Sorted Permutation.
From Verif Require Import Model.Prelude Model.Registry Model.UflElement Spec.UflElement Spec.Reconstruct.
Import ListNotations.
Open Scope string_scope.

(** ** Order *)

(** [l'] is [l] sorted: the same members, none before a smaller one. *)
Definition sorted_by {A} (smaller : A -> A -> Prop) (l l' : list A) : Prop :=
  Permutation l l' /\ StronglySorted (fun a b => ~ smaller b a) l'.

(** ** Degrees of parts *)

(** The bubbles of the families that are registered without a least degree. *)
Definition is_bubble (e : uel) : bool :=
  match e with
  | UFinite d _ _ _ => existsb (String.eqb (ds_family d)) ["Bernardi-Raugel Bubble"; "Guzman-Neilan Bubble"]
  | _ => false
  end.
(** Elements with no components. *)
Definition is_empty (e : uel) : bool :=
  match e with
  | UMixed _ [] | UVector _ _ 0 | UTensor _ _ _ _ _ 0 => true
  | _ => false
  end.
(** Elements whose degree is no number. *)
Definition lacks_degree (e : uel) : bool :=
  match e with
  | UTensorProduct _ _ _ => true
  | UFinite d _ _ _ => match ds_order d with Order _ => false | _ => true end
  | _ => false
  end.
Definition is_nodal (e : uel) : bool := match e with UEnriched true _ _ => true | _ => false end.
Definition is_symmetric (e : uel) : bool :=
  match e with UTensor _ _ _ (_ :: _) _ _ => true | _ => false end.

(** ** Spaces *)
Definition related (s t : sobolev) : Prop := included s t \/ included t s.
