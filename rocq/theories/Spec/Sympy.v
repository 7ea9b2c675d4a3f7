(** Meaning of sympy expressions and of GEM's scalar nodes, written down
    separately; numbers and truth values are kept apart. *)
From Coq Require Import String List Bool ZArith.
From Verif Require Import Model.Prelude Model.Gem Model.Sympy2Gem.
Import ListNotations.

(** Powers, absolute value and comparisons of numbers. *)
Record xops (F : Type) := mkXops {
  xpow : F -> F -> F; xabs : F -> F;
  xeq : F -> F -> bool; xlt : F -> F -> bool; xle : F -> F -> bool
}.
Arguments xpow {F}. Arguments xabs {F}. Arguments xeq {F}. Arguments xlt {F}. Arguments xle {F}.

Inductive value (F : Type) := VNum (x : F) | VBool (b : bool).
Arguments VNum {F}. Arguments VBool {F}.

Section Meaning.
  Context {F : Type} (o : ops F) (xo : xops F) (ofZ : Z -> F) (nan : F).

  Definition num (v : option (value F)) : option F := match v with Some (VNum x) => Some x | _ => None end.
  Definition truthvalue (v : option (value F)) : option bool := match v with Some (VBool b) => Some b | _ => None end.
  Definition nums (l : list (option (value F))) : option (list F) :=
    fold_right (fun v acc => match num v, acc with Some x, Some xs => Some (x :: xs) | _, _ => None end) (Some []) l.
  Definition truths (l : list (option (value F))) : option (list bool) :=
    fold_right (fun v acc => match truthvalue v, acc with Some x, Some xs => Some (x :: xs) | _, _ => None end) (Some []) l.
  Definition omap {A B} (f : A -> B) (a : option A) : option B := match a with Some x => Some (f x) | None => None end.
  Definition omap2 {A B C} (f : A -> B -> C) (a : option A) (b : option B) : option C :=
    match a, b with Some x, Some y => Some (f x y) | _, _ => None end.
  Definition compare (r : rel) (x y : F) : bool :=
    match r with REq => xeq xo x y | RGt => xlt xo y x | RGe => xle xo y x | RLt => xlt xo x y | RLe => xle xo x y end.

  (** The value of a sympy expression when the symbols have the numbers [rho];
      [None] for ill-typed expressions and symbols without a number.  A Piecewise
      has the value of the first piece with a true condition, NaN without one. *)
  Fixpoint smean (rho : string -> option F) (e : snode F) : option (value F) :=
    match e with
    | SAdd l => omap (fun xs => VNum (fold_right (fadd o) (f0 o) xs)) (nums (map (smean rho) l))
    | SMul l => omap (fun xs => VNum (fold_right (fmul o) (f1 o) xs)) (nums (map (smean rho) l))
    | SPow a b => omap2 (fun x y => VNum (xpow xo x y)) (num (smean rho a)) (num (smean rho b))
    | SBool _ b => Some (VBool b)
    | SInteger z => Some (VNum (ofZ z))
    | SFloat x => Some (VNum x)
    | SSymbol s => omap VNum (rho s)
    | SRational p q => Some (VNum (fdiv o (ofZ p) (ofZ q)))
    | SAbs a => omap (fun x => VNum (xabs xo x)) (num (smean rho a))
    | SNot a => omap (fun b => VBool (negb b)) (truthvalue (smean rho a))
    | SOr l => omap (fun bs => VBool (existsb (fun b => b) bs)) (truths (map (smean rho) l))
    | SAnd l => omap (fun bs => VBool (forallb (fun b => b) bs)) (truths (map (smean rho) l))
    | SRel r a b => omap2 (fun x y => VBool (compare r x y)) (num (smean rho a)) (num (smean rho b))
    | SPiecewise l =>
        (fix first (l : list (snode F * snode F)) : option (value F) :=
           match l with
           | [] => Some (VNum nan)
           | (v, c) :: r =>
               match truthvalue (smean rho c) with
               | Some true => smean rho v
               | Some false => first r
               | None => None
               end
           end) l
    | SITE c t e =>
        match truthvalue (smean rho c) with
        | Some true => smean rho t
        | Some false => smean rho e
        | None => None
        end
    | SExpr | SForeign => None
    end.

  (** The value of a GEM expression.  A number counts as true if it is not zero;
      there is no arithmetic with truth values. *)
  Context (vars : string -> list nat -> F) (env : nat -> nat).
  Definition truth (v : value F) : bool := match v with VNum x => negb (xeq xo x (f0 o)) | VBool b => b end.
  Definition gcompare (op : string) (x y : F) : option bool :=
    if String.eqb op "==" then Some (xeq xo x y) else if String.eqb op "!=" then Some (negb (xeq xo x y))
    else if String.eqb op ">" then Some (xlt xo y x) else if String.eqb op ">=" then Some (xle xo y x)
    else if String.eqb op "<" then Some (xlt xo x y) else if String.eqb op "<=" then Some (xle xo x y) else None.
  Fixpoint xeval (g : xgem F) : option (value F) :=
    match g with
    | XGem g => Some (VNum (eval o vars g env []))
    | XLiteral x => Some (VNum x)
    | XSum a b => omap2 (fun x y => VNum (fadd o x y)) (num (xeval a)) (num (xeval b))
    | XProduct a b => omap2 (fun x y => VNum (fmul o x y)) (num (xeval a)) (num (xeval b))
    | XDivision a b => omap2 (fun x y => VNum (fdiv o x y)) (num (xeval a)) (num (xeval b))
    | XPower a b => omap2 (fun x y => VNum (xpow xo x y)) (num (xeval a)) (num (xeval b))
    | XMathFunction f a => if String.eqb f "abs" then omap (fun x => VNum (xabs xo x)) (num (xeval a)) else None
    | XComparison op a b =>
        match num (xeval a), num (xeval b) with
        | Some x, Some y => omap VBool (gcompare op x y)
        | _, _ => None
        end
    | XLogicalNot a => omap (fun x => VBool (negb (truth x))) (xeval a)
    | XLogicalOr a b => omap2 (fun x y => VBool (truth x || truth y)) (xeval a) (xeval b)
    | XLogicalAnd a b => omap2 (fun x y => VBool (truth x && truth y)) (xeval a) (xeval b)
    | XConditional c t e =>
        match xeval c with
        | Some v => if truth v then xeval t else xeval e
        | None => None
        end
    end.

  (** The same number, the same truth. *)
  Definition agrees (v : value F) (w : option (value F)) : Prop :=
    match v with
    | VNum x => w = Some (VNum x)
    | VBool b => exists u, w = Some u /\ truth u = b
    end.
End Meaning.

(** Expressions that can be translated: every part that matters has a rule,
    sums etc. have arguments, symbols are bound.  What follows a certain condition
    in a Piecewise does not matter. *)
Inductive translatable {F} (bound : string -> Prop) : snode F -> Prop :=
| tr_add l : l <> [] -> Forall (translatable bound) l -> translatable bound (SAdd l)
| tr_mul l : l <> [] -> Forall (translatable bound) l -> translatable bound (SMul l)
| tr_pow a b : translatable bound a -> translatable bound b -> translatable bound (SPow a b)
| tr_bool k b : k <> BNumpy -> translatable bound (SBool k b)
| tr_integer z : translatable bound (SInteger z)
| tr_float x : translatable bound (SFloat x)
| tr_symbol s : bound s -> translatable bound (SSymbol s)
| tr_rational p q : translatable bound (SRational p q)
| tr_abs a : translatable bound a -> translatable bound (SAbs a)
| tr_not a : translatable bound a -> translatable bound (SNot a)
| tr_or l : l <> [] -> Forall (translatable bound) l -> translatable bound (SOr l)
| tr_and l : l <> [] -> Forall (translatable bound) l -> translatable bound (SAnd l)
| tr_rel r a b : translatable bound a -> translatable bound b -> translatable bound (SRel r a b)
| tr_nopiece : translatable bound (SPiecewise [])
| tr_certain v k r : translatable bound v -> translatable bound (SPiecewise ((v, SBool k true) :: r))
| tr_piece v c r : translatable bound v -> translatable bound c -> translatable bound (SPiecewise r) ->
    translatable bound (SPiecewise ((v, c) :: r))
| tr_ite c t e : translatable bound c -> translatable bound t -> translatable bound e -> translatable bound (SITE c t e).

(** Why a node has no translation. *)
Inductive part {F} : snode F -> snode F -> Prop :=
| part_refl e : part e e
| part_add m e l : In e l -> part m e -> part m (SAdd l)
| part_mul m e l : In e l -> part m e -> part m (SMul l)
| part_or m e l : In e l -> part m e -> part m (SOr l)
| part_and m e l : In e l -> part m e -> part m (SAnd l)
| part_pow m e a b : In e [a; b] -> part m e -> part m (SPow a b)
| part_abs m a : part m a -> part m (SAbs a)
| part_not m a : part m a -> part m (SNot a)
| part_rel m e r a b : In e [a; b] -> part m e -> part m (SRel r a b)
| part_piece m e v c l : In (v, c) l -> In e [v; c] -> part m e -> part m (SPiecewise l)
| part_ite m e a b c : In e [a; b; c] -> part m e -> part m (SITE a b c).
Definition blame {F} (bound : string -> Prop) (m : snode F) (x : exn) : Prop :=
  match m with
  | SAdd l | SMul l | SOr l | SAnd l => l = [] /\ x = TypeError
  | SBool BNumpy _ | SForeign => x = AssertionError
  | SSymbol s => ~ bound s /\ x = KeyError
  | SExpr => x = NotImplementedError
  | _ => False
  end.

(** Shapes when symbols may stand for tensors ([bound s sh]: the expression bound
    to [s] has the shape [sh]): operands are scalar, except that a sum etc. of one
    argument is the argument, and the branches of a condition have the same shape. *)
Definition chain {F} (e : snode F) (l : list (snode F)) : Prop := e = SAdd l \/ e = SMul l \/ e = SOr l \/ e = SAnd l.
Inductive has_shape {F} (bound : string -> list nat -> Prop) : snode F -> list nat -> Prop :=
| hs_one e a s : chain e [a] -> has_shape bound a s -> has_shape bound e s
| hs_many e a b l : chain e (a :: b :: l) -> Forall (fun x => has_shape bound x []) (a :: b :: l) -> has_shape bound e []
| hs_pow a b : has_shape bound a [] -> has_shape bound b [] -> has_shape bound (SPow a b) []
| hs_bool k b : k <> BNumpy -> has_shape bound (SBool k b) []
| hs_integer z : has_shape bound (SInteger z) []
| hs_float x : has_shape bound (SFloat x) []
| hs_symbol n s : bound n s -> has_shape bound (SSymbol n) s
| hs_rational p q : has_shape bound (SRational p q) []
| hs_abs a : has_shape bound a [] -> has_shape bound (SAbs a) []
| hs_not a : has_shape bound a [] -> has_shape bound (SNot a) []
| hs_rel r a b : has_shape bound a [] -> has_shape bound b [] -> has_shape bound (SRel r a b) []
| hs_nopiece : has_shape bound (SPiecewise []) []
| hs_certain v k r s : has_shape bound v s -> has_shape bound (SPiecewise ((v, SBool k true) :: r)) s
| hs_piece v c r s : (forall k, c <> SBool k true) -> has_shape bound v s -> has_shape bound c [] ->
    has_shape bound (SPiecewise r) s -> has_shape bound (SPiecewise ((v, c) :: r)) s
| hs_ite c t e s : has_shape bound c [] -> has_shape bound t s -> has_shape bound e s -> has_shape bound (SITE c t e) s.
