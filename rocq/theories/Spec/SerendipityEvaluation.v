(** What the tabulation of direct serendipity elements has to deliver: rational
    expressions, their values and their derivatives. *)
From Coq Require Import String ZArith.
From mathcomp Require Import all_ssreflect all_algebra.
From Verif Require Import Model.Prelude Model.Cell Model.Gem Model.PointSet Model.Sympy2Gem Model.SerendipityEvaluation.
From Verif Require Import Spec.Partial Spec.Algebra Spec.Sympy.
Set Implicit Arguments.
Unset Strict Implicit.
Unset Printing Implicit Defensive.
Import GRing.Theory.
Local Open Scope ring_scope.

(** Differentiation with respect to a symbol, by the usual rules. *)
Fixpoint derive (s : string) (e : rexpr) : rexpr :=
  match e with
  | RNat _ => RNat 0
  | RSym t => if String.eqb s t then RNat 1 else RNat 0
  | RAdd a b => RAdd (derive s a) (derive s b)
  | RMul a b => RAdd (RMul (derive s a) b) (RMul a (derive s b))
  | RSub a b => RSub (derive s a) (derive s b)
  | ROpp a => ROpp (derive s a)
  | RDiv a b => RDiv (RSub (RMul (derive s a) b) (RMul a (derive s b))) (RMul b b)
  end.
(** Differentiation in the symbols of a list, one after the other. *)
Definition derive_all (l : seq string) (e : rexpr) : rexpr := foldl (fun e s => derive s e) e l.

Fixpoint occurs (s : string) (e : rexpr) : Prop :=
  match e with
  | RNat _ => False
  | RSym t => s = t
  | RAdd a b | RMul a b | RSub a b | RDiv a b => occurs s a \/ occurs s b
  | ROpp a => occurs s a
  end.

(** The vertices and the point that the symbols stand for. *)
Definition assign (F : Type) (v : nat -> F * F) (p : F * F) (s : string) : option F :=
  List.fold_right (fun kv r => if String.eqb s kv.1 then Some kv.2 else r) None
    ([:: ("x"%string, p.1); ("y"%string, p.2)]
     ++ [seq (List.nth i x_names ""%string, (v i).1) | i <- iota 0 4]
     ++ [seq (List.nth i y_names ""%string, (v i).2) | i <- iota 0 4]).

Section Values.
  Variable F : fieldType.

  (** The value of an expression, undefined where a denominator is zero. *)
  Fixpoint rvalue (rho : string -> option F) (e : rexpr) : option F :=
    match e with
    | RNat n => Some n%:R
    | RSym s => rho s
    | RAdd a b => lift2 +%R (rvalue rho a) (rvalue rho b)
    | RMul a b => lift2 *%R (rvalue rho a) (rvalue rho b)
    | RSub a b => lift2 (fun x y => x - y) (rvalue rho a) (rvalue rho b)
    | ROpp a => omap -%R (rvalue rho a)
    | RDiv a b => match rvalue rho a, rvalue rho b with
                  | Some x, Some y => if y == 0 then None else Some (x / y)
                  | _, _ => None
                  end
    end.

  Definition set_symbol (rho : string -> option F) (s : string) (x : F) (t : string) : option F :=
    if String.eqb s t then Some x else rho t.

  (** The contract on sympy's (symengine's) expressions: they stay within the
      translatable ones, bring in no symbols, and have the value of the derivative
      wherever this is defined. *)
  Definition differentiates (xo : xops F) (ofZ : Z -> F) (nan : F) (diff : rexpr -> list string -> snode F) : Prop :=
    forall e l,
      (forall bound : string -> Prop, (forall s, occurs s e -> bound s) -> translatable bound (diff e l)) /\
      forall rho y, rvalue rho (derive_all l e) = Some y ->
        smean (ring_ops F) xo ofZ nan rho (diff e l) = Some (VNum y).
End Values.

Section Derivatives.
  Variable F : fieldType.
  Implicit Types (p : F * F) (f g : F * F -> option F).
  Definition shift (k : nat) p (h : F) : F * F := if k == 0%N then (p.1 + h, p.2) else (p.1, p.2 + h).

  (** [g] is the derivative of [f] in the coordinate [k]: wherever [f] is defined
      so is [g], and [f] is a linear function with this slope but for a remainder
      of second order. *)
  Definition slope (k : nat) f g : Prop :=
    forall p y, f p = Some y -> exists d, g p = Some d /\
      exists P Q : {poly F}, Q.[0] != 0 /\
        forall h, Q.[h] != 0 -> f (shift k p h) = Some (y + h * d + h ^+ 2 * (P.[h] / Q.[h])).

  (** [D] are the derivatives of [f] of all orders. *)
  Definition partial_derivatives f (D : seq nat -> F * F -> option F) : Prop :=
    [/\ forall p, D [:: 0; 0]%N p = f p,
        forall a, slope 0 (D [:: a; 0%N]) (D [:: a.+1; 0%N])
      & forall a b, slope 1 (D [:: a; b]) (D [:: a; b.+1])].
End Derivatives.

(** Where tables are taken. *)
Section Places.
  Variable F : realFieldType.
  Local Notation O := (ring_ops F).
  Variables (vars : string -> list nat -> F) (env : nat -> nat).
  (** The quadrilateral and the point that expressions stand for. *)
  Definition vertices_at (verts : gem F) (j : nat) : F * F :=
    (eval O vars verts env [:: j; 0]%N, eval O vars verts env [:: j; 1]%N).
  Definition point_at (pts : gem F) (ixs : seq ix) : F * F :=
    let b := [seq env (ix_id j) | j <- ixs] in
    (eval O vars pts env (b ++ [:: 0])%N, eval O vars pts env (b ++ [:: 1])%N).
  (** Contract of the coordinate mapping: four vertices in the plane, and one
      point of the plane for each point of the point set.  [n], [n1]: the indices in
      use before and after. *)
  Definition maps_points (cm : mapping F) (ps : pset F) (ent : option (dimkey * nat)) (pts : gem F) (n n1 : nat) : Prop :=
    [/\ gshape (physical_vertices cm) = [:: 4; 2]%N, physical_points cm ps ent n = Ok (pts, n1) /\ (n <= n1)%N,
        gshape pts = [seq ix_extent j | j <- ps_indices ps] ++ [:: 2]%N,
        forall x, List.In x (gfree pts) -> (x < n1)%N & forall i, List.In i (ps_indices ps) -> (ix_id i < n1)%N].
End Places.
