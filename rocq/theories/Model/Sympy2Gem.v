(** Translation of sympy (symengine) expressions to GEM, finat/sympy2gem.py.

    sympy, symengine and gem are external; expressions are abstract syntax
    trees.  The Memoizer that calls the function stores results by node and does
    not change them; it is left out.  GEM's folding of constants is left out as
    in Model.Gem. *)
From Coq Require Import String List Arith Bool ZArith.
From Verif Require Import Model.Prelude Model.Gem.
Import ListNotations.

(** sympy.Eq, Gt, Ge, Lt, Le. *)
Inductive rel := REq | RGt | RGe | RLt | RLe.
(** Truth values: sympy's true/false, Python's bool, numpy.bool. *)
Inductive boolkind := BSympy | BPython | BNumpy.

(** What the function is called with.  Nodes of fixed arity have their arguments;
    [SRational] is a rational that is not an Integer, as numerator and denominator;
    [SExpr] an instance of sympy.Expr without a rule of its own (e.g. sympy.Max,
    sympy.pi); [SForeign] anything else (e.g. sympy.Ne, a string). *)
Inductive snode (F : Type) :=
| SAdd (args : list (snode F))
| SMul (args : list (snode F))
| SPow (base exponent : snode F)
| SBool (k : boolkind) (b : bool)
| SInteger (z : Z)
| SFloat (x : F)
| SSymbol (name : string)
| SRational (num den : Z)
| SAbs (a : snode F)
| SNot (a : snode F)
| SOr (args : list (snode F))
| SAnd (args : list (snode F))
| SRel (r : rel) (a b : snode F)
| SPiecewise (args : list (snode F * snode F))
| SITE (c t e : snode F)
| SExpr
| SForeign.
Arguments SAdd {F}. Arguments SMul {F}. Arguments SPow {F}. Arguments SBool {F}. Arguments SInteger {F}.
Arguments SFloat {F}. Arguments SSymbol {F}. Arguments SRational {F}. Arguments SAbs {F}. Arguments SNot {F}.
Arguments SOr {F}. Arguments SAnd {F}. Arguments SRel {F}. Arguments SPiecewise {F}. Arguments SITE {F}.
Arguments SExpr {F}. Arguments SForeign {F}.

(** The GEM nodes that are made.  [XGem] is an expression bound to a symbol.
    [gem.Literal] stores numbers as floats, also a bool. *)
Inductive xgem (F : Type) :=
| XGem (g : gem F)
| XLiteral (x : F)
| XSum (a b : xgem F)
| XProduct (a b : xgem F)
| XDivision (a b : xgem F)
| XPower (a b : xgem F)
| XMathFunction (name : string) (a : xgem F)
| XComparison (operator : string) (a b : xgem F)
| XLogicalNot (a : xgem F)
| XLogicalOr (a b : xgem F)
| XLogicalAnd (a b : xgem F)
| XConditional (c t e : xgem F).
Arguments XGem {F}. Arguments XLiteral {F}. Arguments XSum {F}. Arguments XProduct {F}. Arguments XDivision {F}.
Arguments XPower {F}. Arguments XMathFunction {F}. Arguments XComparison {F}. Arguments XLogicalNot {F}.
Arguments XLogicalOr {F}. Arguments XLogicalAnd {F}. Arguments XConditional {F}.

Section Sympy2Gem.
  Context {F : Type} (o : ops F).
  (** [float(z)], [float("nan")]. *)
  Context (ofZ : Z -> F) (nan : F).

  (** [node.shape]; constructors assert that their operands are scalar, Conditional
      that its branches have the same shape. *)
  Fixpoint xshape (g : xgem F) : list nat :=
    match g with XGem g => gshape g | XConditional _ t _ => xshape t | _ => [] end.
  Definition xscalar (g : xgem F) : bool := match xshape g with [] => true | _ => false end.
  Definition mk1 (f : xgem F -> xgem F) (a : xgem F) : result (xgem F) :=
    do! guard (xscalar a) AssertionError ;; Ok (f a).
  Definition mk2 (f : xgem F -> xgem F -> xgem F) (a b : xgem F) : result (xgem F) :=
    do! guard (xscalar a && xscalar b) AssertionError ;; Ok (f a b).
  Definition mk_conditional (c t e : xgem F) : result (xgem F) :=
    do! guard (xscalar c) AssertionError ;;
    do! guard (list_eqb Nat.eqb (xshape t) (xshape e)) AssertionError ;;
    Ok (XConditional c t e).

  (** [self.bindings[node]]. *)
  Context (bindings : list (string * gem F)).

  Section Lists.
    Variable self : snode F -> result (xgem F).
    (** [reduce(f, map(self, args))]: an argument is translated just before it
        is combined. *)
    Fixpoint reduce_args (f : xgem F -> xgem F -> xgem F) (acc : xgem F) (args : list (snode F)) : result (xgem F) :=
      match args with
      | [] => Ok acc
      | a :: r => do x <- self a ;; do acc <- mk2 f acc x ;; reduce_args f acc r
      end.
    Definition reduce_map (f : xgem F -> xgem F -> xgem F) (args : list (snode F)) : result (xgem F) :=
      match args with
      | [] => Err TypeError
      | a :: r => do x <- self a ;; reduce_args f x r
      end.
    (** [isinstance(c, (bool, numpy.bool, BooleanTrue)) and c]. *)
    Definition certainly (c : snode F) : bool := match c with SBool _ b => b | _ => false end.
    (** sympy2gem_conditional, finat/sympy2gem.py:130-144: the pieces before the
        first that is certain are put around it from the last to the first. *)
    Fixpoint piecewise (args : list (snode F * snode F)) : result (xgem F) :=
      match args with
      | [] => Ok (XLiteral nan)
      | (v, c) :: r =>
          if certainly c then self v
          else do expr <- piecewise r ;; do gc <- self c ;; do gv <- self v ;; mk_conditional gc gv expr
      end.
  End Lists.

  Definition relop (r : rel) : string :=
    match r with REq => "==" | RGt => ">" | RGe => ">=" | RLt => "<" | RLe => "<=" end%string.

  (** sympy2gem, finat/sympy2gem.py:16-149, dispatched on the type of the node. *)
  Fixpoint sympy2gem (node : snode F) : result (xgem F) :=
    match node with
    | SAdd args => reduce_map sympy2gem XSum args
    | SMul args => reduce_map sympy2gem XProduct args
    | SPow a b => do x <- sympy2gem a ;; do y <- sympy2gem b ;; mk2 XPower x y
    | SBool BNumpy _ => Err AssertionError
    | SBool _ b => Ok (XLiteral (if b then f1 o else f0 o))
    | SInteger z => Ok (XLiteral (ofZ z))
    | SFloat x => Ok (XLiteral x)
    | SSymbol s => do g <- dict_get String.eqb bindings s ;; Ok (XGem g)
    | SRational p q => mk2 XDivision (XLiteral (ofZ p)) (XLiteral (ofZ q))
    | SAbs a => do x <- sympy2gem a ;; mk1 (XMathFunction "abs") x
    | SNot a => do x <- sympy2gem a ;; mk1 XLogicalNot x
    | SOr args => reduce_map sympy2gem XLogicalOr args
    | SAnd args => reduce_map sympy2gem XLogicalAnd args
    | SRel r a b => do x <- sympy2gem a ;; do y <- sympy2gem b ;; mk2 (XComparison (relop r)) x y
    | SPiecewise args => piecewise sympy2gem args
    | SITE c t e => do x <- sympy2gem c ;; do y <- sympy2gem t ;; do z <- sympy2gem e ;; mk_conditional x y z
    | SExpr => Err NotImplementedError
    | SForeign => Err AssertionError
    end.
End Sympy2Gem.
