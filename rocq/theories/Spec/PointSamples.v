(** Symbolic tables for the examples of evaluation at symbolic points. *)
From Coq Require Import String List Arith ZArith.
From Verif Require Import Model.Prelude Model.Cell Model.Element Model.Gem Model.Sympy2Gem Model.PointEvaluation Spec.Samples Spec.ZSamples Spec.Sympy Spec.PointEvaluation.
Import ListNotations.

Definition zxops' : xops Z := mkXops Z Z.pow Z.abs Z.eqb Z.ltb Z.leb.
Definition zfunction (s : string) (l : list Z) : Z :=
  let t (b : bool) := if b then 1%Z else 0%Z in
  let is_ x := negb (Z.eqb x 0) in
  match l with
  | [x] => if String.eqb s "abs" then Z.abs x else t (negb (is_ x))
  | [x; y] =>
      if String.eqb s "power" then Z.pow x y else if String.eqb s "==" then t (Z.eqb x y)
      else if String.eqb s "!=" then t (negb (Z.eqb x y)) else if String.eqb s ">" then t (Z.ltb y x)
      else if String.eqb s ">=" then t (Z.leb y x) else if String.eqb s "<" then t (Z.ltb x y)
      else if String.eqb s "<=" then t (Z.leb x y) else if String.eqb s "or" then t (is_ x || is_ y)%bool
      else t (is_ x && is_ y)%bool
  | [c; x; y] => if is_ c then x else y
  | _ => 0%Z
  end.

(** The functions of Spec.ZSamples as expressions. *)
Definition zsx (ent : dimkey * nat) : snode Z :=
  match ent with (DI 0, j) => SInteger (Z.of_nat j) | _ => SSymbol "X" end.
Definition zlinear (a b : Z) (x : snode Z) : snode Z := SAdd [SInteger a; SMul [SInteger b; x]].
Definition zsym (l : leaf Z) (alpha : list nat) (ent : dimkey * nat) (i : nat) (v : list nat) : snode Z :=
  let x := zsx ent in
  match lf_dim l with
  | 1 => match sum alpha with 0 => SInteger 1 | _ => SInteger 0 end
  | 2 => match sum alpha, i with
         | 0, 0 => zlinear 1 (-1) x | 0, _ => x
         | 1, 0 => SInteger (-1) | 1, _ => SInteger 1
         | _, _ => SInteger 0
         end
  | _ => match sum alpha, i with
         | 0, 0 => SMul [zlinear 1 (-1) x; zlinear 1 (-2) x]
         | 0, 1 => SAdd [SMul [SInteger 2; SPow x (SInteger 2)]; SMul [SInteger (-1); x]]
         | 0, _ => SMul [SInteger 4; x; zlinear 1 (-1) x]
         | 1, 0 => zlinear (-3) 4 x | 1, 1 => zlinear (-1) 4 x | 1, _ => zlinear 4 (-8) x
         | 2, 0 => SInteger 4 | 2, 1 => SInteger 4 | 2, _ => SInteger (-8)
         | _, _ => SInteger 0
         end
  end.

Definition zpoint_leaf := fiat_point_evaluation zops id (-1)%Z zfunction zsym.
