(** Translation of symbolic expressions: C38. *)
From Coq Require Import String List Bool ZArith.
From Verif Require Import Model.Prelude Model.Gem Model.Sympy2Gem Spec.Sympy Spec.ZSamples.
From Verif Require Import Proofs.Sympy Proofs.SympyShapes.
Import ListNotations.

(** The translation has the value of the expression, whenever this is defined. *)
Theorem C38_meaning : forall F (o : ops F) (xo : xops F) (ofZ : Z -> F) (nan : F),
  (forall x y z, fadd o x (fadd o y z) = fadd o (fadd o x y) z) -> (forall x, fadd o x (f0 o) = x) ->
  (forall x y z, fmul o x (fmul o y z) = fmul o (fmul o x y) z) -> (forall x, fmul o x (f1 o) = x) ->
  xeq xo (f0 o) (f0 o) = true -> xeq xo (f1 o) (f0 o) = false ->
  forall bindings vars env rho,
  (forall s x g, rho s = Some x -> dict_get String.eqb bindings s = Ok g -> eval o vars g env [] = x) ->
  forall e g v, sympy2gem o ofZ nan bindings e = Ok g -> smean o xo ofZ nan rho e = Some v ->
  agrees o xo v (xeval o xo vars env g).
Proof. exact @translation_sound. Qed.
Print Assumptions C38_meaning.

(** What can be translated, and why the rest cannot. *)
Theorem C38_defined : forall F (o : ops F) (ofZ : Z -> F) (nan : F) bindings,
  (forall s g, dict_get String.eqb bindings s = Ok g -> gshape g = []) ->
  forall e, (exists g, sympy2gem o ofZ nan bindings e = Ok g) <->
            translatable (fun s => exists g, dict_get String.eqb bindings s = Ok g) e.
Proof. exact @translation_defined. Qed.
Print Assumptions C38_defined.
Theorem C38_errors : forall F (o : ops F) (ofZ : Z -> F) (nan : F) bindings,
  (forall s g, dict_get String.eqb bindings s = Ok g -> gshape g = []) ->
  forall e x, sympy2gem o ofZ nan bindings e = Err x ->
  exists m, part m e /\ blame (fun s => exists g, dict_get String.eqb bindings s = Ok g) m x.
Proof. exact @translation_errors. Qed.
Print Assumptions C38_errors.

(** Whatever shapes are bound: there is a translation exactly if the shapes fit,
    and it has that shape.  The other errors come from a tensor. *)
Theorem C38_shapes : forall F (o : ops F) (ofZ : Z -> F) (nan : F) bindings e s,
  (exists g, sympy2gem o ofZ nan bindings e = Ok g /\ xshape g = s) <->
  has_shape (fun n sh => exists g, dict_get String.eqb bindings n = Ok g /\ gshape g = sh) e s.
Proof. exact @translation_shapes. Qed.
Print Assumptions C38_shapes.
Theorem C38_shape_errors : forall F (o : ops F) (ofZ : Z -> F) (nan : F) bindings e x,
  sympy2gem o ofZ nan bindings e = Err x ->
  (exists m, part m e /\ blame (fun s => exists g, dict_get String.eqb bindings s = Ok g) m x) \/
  (x = AssertionError /\ exists m s, part m e /\
     has_shape (fun n sh => exists g, dict_get String.eqb bindings n = Ok g /\ gshape g = sh) m s /\ s <> []).
Proof. exact @translation_errors'. Qed.
Print Assumptions C38_shape_errors.

(** Over the integers, with -1 for NaN: |x + 3| if x < 0, 2 x y if x > 0. *)
Definition zxops : xops Z := mkXops Z Z.pow Z.abs Z.eqb Z.ltb Z.leb.
Definition zbindings : list (string * gem Z) :=
  [("x"%string, GVariable "X" []); ("y"%string, GSum (GVariable "X" []) (GVariable "Y" []))].
Definition zexpr : snode Z :=
  SPiecewise [(SAbs (SAdd [SSymbol "x"; SInteger 3]), SRel RLt (SSymbol "x") (SInteger 0));
              (SMul [SInteger 2; SSymbol "x"; SSymbol "y"], SRel RGt (SSymbol "x") (SInteger 0));
              (SExpr, SBool BPython false)].
Definition zexpr' : snode Z :=
  SPiecewise [(SAbs (SAdd [SSymbol "x"; SInteger 3]), SRel RLt (SSymbol "x") (SInteger 0));
              (SMul [SInteger 2; SSymbol "x"; SSymbol "y"], SBool BSympy true); (SExpr, SForeign)].
Definition zvars (x y : Z) (s : string) (_ : list nat) : Z := if String.eqb s "X" then x else y.
Example C38_piecewise :
  sympy2gem zops id (-1)%Z zbindings zexpr = Err NotImplementedError /\
  exists g, sympy2gem zops id (-1)%Z zbindings zexpr' = Ok g /\
    smean zops zxops id (-1)%Z (fun s => if String.eqb s "x" then Some 5%Z else Some 7%Z) zexpr' = Some (VNum 70%Z) /\
    xeval zops zxops (zvars 5 2) (fun _ => 0) g = Some (VNum 70%Z) /\
    xeval zops zxops (zvars (-10) 2) (fun _ => 0) g = Some (VNum 7%Z).
Proof. split; [reflexivity|]. eexists. split; [reflexivity|]. split; [reflexivity|]. split; reflexivity. Qed.
Example C38_nan : exists g,
  sympy2gem zops id (-1)%Z zbindings (SPiecewise [(SInteger 4, SRel RLt (SSymbol "x") (SInteger 0))]) = Ok g /\
  xeval zops zxops (zvars 5 2) (fun _ => 0) g = Some (VNum (-1)%Z).
Proof. eexists. split; reflexivity. Qed.

(** A vector can be chosen, but not added to anything nor chosen against a number. *)
Definition zvectors : list (string * gem Z) :=
  [("x"%string, GVariable "X" []); ("v"%string, GVariable "V" [3]); ("w"%string, GVariable "W" [3])].
Example C38_vectors :
  (exists g, sympy2gem zops id (-1)%Z zvectors
     (SITE (SRel RLt (SSymbol "x") (SInteger 0)) (SAdd [SSymbol "v"]) (SSymbol "w")) = Ok g /\ xshape g = [3]) /\
  sympy2gem zops id (-1)%Z zvectors (SAdd [SSymbol "v"; SSymbol "w"; SExpr]) = Err AssertionError /\
  sympy2gem zops id (-1)%Z zvectors (SAdd [SSymbol "x"; SExpr; SSymbol "v"]) = Err NotImplementedError /\
  sympy2gem zops id (-1)%Z zvectors (SPiecewise [(SSymbol "v", SRel RLt (SSymbol "x") (SInteger 0))]) = Err AssertionError /\
  sympy2gem zops id (-1)%Z zvectors (SITE (SSymbol "v") (SInteger 1) (SInteger 2)) = Err AssertionError /\
  sympy2gem zops id (-1)%Z zvectors (SAbs (SSymbol "v")) = Err AssertionError.
Proof. split; [eexists; split; reflexivity|]. repeat split; reflexivity. Qed.
