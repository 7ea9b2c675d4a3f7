(** Functionals for the examples of dual bases. *)
From Coq Require Import String List Arith ZArith.
From Verif Require Import Model.Prelude Model.Cell Model.Element Model.Gem Model.PointSet Model.Dual Spec.Samples Spec.ZSamples Spec.Dual.
Import ListNotations.

(** Tuples of integers, as Python compares them. *)
Fixpoint zleb (a b : list Z) : bool :=
  match a, b with
  | [], _ => true
  | _, [] => false
  | x :: a', y :: b' => if Z.eqb x y then zleb a' b' else Z.ltb x y
  end.
Definition zeqb : list Z -> list Z -> bool := list_eqb Z.eqb.

(** Point values. *)
Definition zpoint (x : Z) : functional Z := mkFunctional [([x], [(1%Z, [])])] false.
Definition zduals (l : leaf Z) : list (functional Z) :=
  match lf_dim l with 1 => [zpoint 0] | _ => [zpoint 0; zpoint 1] end.
Definition zleaf_dual (l : leaf Z) : fresh (gem Z * pset Z) := fiat_dual_basis zops zleb zeqb (Z.eqb 1) (zduals l).
Definition zterms (l : leaf Z) : list nat -> list (term Z) := fiat_terms (zduals l).

(** Two functionals of vector-valued functions, on the same points. *)
Definition zvector : list (functional Z) :=
  [mkFunctional [([0; 0]%Z, [(2%Z, [0]); ((-1)%Z, [1])]); ([1; 0]%Z, [(1%Z, [1])])] false;
   mkFunctional [([1; 0]%Z, [(3%Z, [0])]); ([0; 0]%Z, [(1%Z, [1])])] false].

(** H(div) on the quadrilateral, twice, components first. *)
Definition zhdiv : elt Z := EHDiv (ETensorProduct [zcg1; zdg0]).
Definition zrows : elt Z := ETensor zhdiv [2] true.
