(** A quadrilateral with a mapping, and expressions that are differentiated by the rules. *)
From Coq Require Import String ZArith.
From mathcomp Require Import all_ssreflect all_algebra.
From Verif Require Import Model.Prelude Model.Cell Model.Gem Model.PointSet Model.Sympy2Gem Model.SerendipityEvaluation.
From Verif Require Import Spec.Partial Spec.Algebra Spec.Sympy Spec.PointEvaluation Spec.SerendipityEvaluation.
Set Implicit Arguments.
Unset Strict Implicit.
Unset Printing Implicit Defensive.
Import GRing.Theory Num.Theory.
Local Open Scope ring_scope.

(** Numbers: powers with integer exponents. *)
Definition sample_ofZ (z : Z) : rat :=
  match z with Z0 => 0 | Zpos p => (Pos.to_nat p)%:R | Zneg p => - (Pos.to_nat p)%:R end.
Definition sample_xops : xops rat :=
  mkXops rat (fun x y => x ^ numq y) (fun x => `|x|) (fun x y => x == y) (fun x y => x < y) (fun x y => x <= y).
Definition sample_fn (name : string) (args : list rat) : rat :=
  let named s := String.eqb name s in
  let t (b : bool) : rat := if b then 1 else 0 in
  match args with
  | [:: x] => if named "abs"%string then `|x| else t (x == 0)
  | [:: x; y] =>
      if named "power"%string then x ^ numq y
      else t (if named "=="%string then x == y else if named "!="%string then x != y
              else if named ">"%string then y < x else if named ">="%string then y <= x
              else if named "<"%string then x < y else if named "<="%string then x <= y
              else if named "or"%string then (x != 0) || (y != 0) else (x != 0) && (y != 0))
  | [:: c; x; y] => if c != 0 then x else y
  | _ => 0
  end.

(** Expressions as they are, with [-1] and negative powers. *)
Fixpoint expression_of (e : rexpr) : snode rat :=
  match e with
  | RNat n => SInteger (Z.of_nat n)
  | RSym s => SSymbol s
  | RAdd a b => SAdd [:: expression_of a; expression_of b]
  | RMul a b => SMul [:: expression_of a; expression_of b]
  | RSub a b => SAdd [:: expression_of a; SMul [:: SInteger (-1); expression_of b]]
  | ROpp a => SMul [:: SInteger (-1); expression_of a]
  | RDiv a b => SMul [:: expression_of a; SPow (expression_of b) (SInteger (-1))]
  end.
Definition sample_diff (e : rexpr) (l : list string) : snode rat := expression_of (derive_all l e).

(** The map [(X, Y) |-> (X + X Y, Y)] of the unit square. *)
Definition sample_map (X : list rat) : list rat := [:: X`_0 + X`_0 * X`_1; X`_1].
Definition sample_mapping : mapping rat :=
  mkMapping
    (fun ps _ => flift (bind (ps_points ps) (fun l =>
       Ok (GLiteral (mkArr ([seq ix_extent j | j <- ps_indices ps] ++ [:: 2]%N) (flatten [seq sample_map X | X <- l]))))))
    (GLiteral (mkArr [:: 4; 2]%N [:: 0; 0; 1; 0; 0; 1; 2%:R; 1])).
(** The middle of the square and the node of an edge of degree 2. *)
Definition sample_points : pset rat := PPoints PGeneric 2 [:: [:: 1 / 2%:R; 1 / 2%:R]; [:: 1; 1 / 2%:R]] [:: (0, 2)%N].
