(** Operators and queries of the symbolic elements, finat/ufl/*.py. *)
From Coq Require Import Ascii String List ZArith Bool.
From Verif Require Import Model.Prelude Model.Registry Model.UflElement.
Import ListNotations.
Open Scope string_scope.

(** ** Comparison *)

(** FiniteElementBase.__lt__ and __ne__, finat/ufl/finiteelementbase.py:91-97.  Python compares
    strings by the code points at the first position where they differ. *)
Definition u_ltb (a b : uel) : bool := String.ltb (u_repr a) (u_repr b).
Definition u_neb (a b : uel) : bool := negb (u_eqb a b).

(** ** Operators *)

(** The other operand: an element, or an object that is none. *)
Inductive operand := Operand (e : uel) | Other.

(** FiniteElementBase.__add__, __mul__, finat/ufl/finiteelementbase.py:209-221. *)
Definition u_add (a : uel) (b : operand) : result uel :=
  match b with Operand b => mk_enriched false [a; b] | Other => Err ValueError end.
Definition u_mul (a : uel) (b : operand) : result uel :=
  match b with Operand b => mk_mixed [a; b] | Other => Err ValueError end.
(** FiniteElementBase.__getitem__, finat/ufl/finiteelementbase.py:223-230. *)
Definition u_getitem (e : uel) (k : string) : result uel :=
  if existsb (String.eqb k) valid_restriction_domains then mk_restricted e k else Err KeyError.
(** CallableSobolevSpace.__call__, finat/ufl/hdivcurl.py:23-31, for a space of the given name. *)
Definition space_call (name : string) (e : uel) : result uel :=
  if String.eqb name "HDiv" then mk_hdiv e
  else if String.eqb name "HCurl" then mk_hcurl e
  else Err NotImplementedError.

(** ** Queries *)

(** _is_globally_constant, finat/ufl/finiteelementbase.py:64-69,
    finat/ufl/finiteelement.py:182-184. *)
Definition globally_constant (e : uel) : bool :=
  match e with UFinite d _ _ _ => String.eqb (ds_family d) "Real" | _ => false end.

(** is_cellwise_constant without a component, finat/ufl/finiteelementbase.py:120-122,
    finat/ufl/mixedelement.py:220-226, finat/ufl/enrichedelement.py:114-116, 140-142,
    finat/ufl/restrictedelement.py:51-53.  Classes without the method, WithMapping among them,
    use that of FiniteElementBase. *)
Fixpoint cellwise_constant (e : uel) : bool :=
  match e with
  | UMixed _ subs => forallb cellwise_constant subs
  | UVector _ sub n | UTensor _ sub _ _ _ n => forallb (fun b => b) (repeat (cellwise_constant sub) n)
  | UEnriched nodal _ subs => if nodal then false else forallb cellwise_constant subs
  | URestricted _ sub _ => cellwise_constant sub
  | _ => globally_constant e || deg_eqb (u_degree e) (DInt 0)
  end.

(** _is_linear, finat/ufl/finiteelementbase.py:71-73, finat/ufl/finiteelement.py:186-188,
    finat/ufl/mixedelement.py:80-82, finat/ufl/restrictedelement.py:55-57. *)
Fixpoint is_linear (e : uel) : bool :=
  match e with
  | UFinite d _ _ _ => String.eqb (ds_family d) "Lagrange" && deg_eqb (u_degree e) (DInt 1)
  | UMixed _ subs => forallb is_linear subs
  | UVector _ sub n | UTensor _ sub _ _ _ n => forallb (fun b => b) (repeat (is_linear sub) n)
  | URestricted _ sub _ => is_linear sub
  | _ => false
  end.

(** num_sub_elements and sub_elements, finat/ufl/finiteelementbase.py:199-207,
    finat/ufl/mixedelement.py:128-136, finat/ufl/tensorproductelement.py:97-105,
    finat/ufl/restrictedelement.py:93-101.  WithMapping inherits those of
    FiniteElementBase. *)
Fixpoint sub_elements (e : uel) : list uel :=
  match e with
  | UMixed _ _ | UVector _ _ _ | UTensor _ _ _ _ _ _ | UTensorProduct _ _ _ => u_subs e
  | URestricted _ sub _ => sub_elements sub
  | _ => []
  end.
Fixpoint num_sub_elements (e : uel) : nat :=
  match e with
  | UMixed _ _ | UVector _ _ _ | UTensor _ _ _ _ _ _ | UTensorProduct _ _ _ => length (u_subs e)
  | URestricted _ sub _ => num_sub_elements sub
  | _ => 0
  end.

(** ** Spaces of mixed elements *)

(** UFL's comparison of spaces (external): [a < b] if b is among the parents of a;
    [a > b] by functools.total_ordering: neither [a < b] nor [a == b]. *)
Definition sobolev_ltb (a b : sobolev) : bool := existsb (sobolev_eqb b) (parents a).
Definition sobolev_gtb (a b : sobolev) : bool := negb (sobolev_ltb a b) && negb (sobolev_eqb a b).
(** MixedElement.sobolev_space, finat/ufl/mixedelement.py:116-119, given the spaces of the
    sub-elements: [max] keeps the first member unless a later one is greater. *)
Definition mixed_space (spaces : list sobolev) : result sobolev :=
  match spaces with
  | [] => Err ValueError
  | s :: r => Ok (fold_left (fun m t => if sobolev_gtb t m then t else m) r s)
  end.
(** The same for a mixed element, when the spaces of its sub-elements are predefined. *)
Definition u_mixed_space (e : uel) : result sobolev :=
  do ss <- sequence (map u_space (u_subs e)) ;;
  do ps <- mapM predefined ss ;;
  mixed_space ps.
