(** Tabulation of direct serendipity elements, finat/direct_serendipity.py:72-123. *)
From Coq Require Import String List Arith Bool ZArith.
From Verif Require Import Model.Prelude Model.Cell Model.Element Model.Gem Model.PointSet Model.Evaluation Model.Sympy2Gem
  Model.PointEvaluation Model.Serendipity.
Import ListNotations.
Open Scope fresh_scope.

(** The operations that the code applies to symbols and numbers.  What sympy or
    symengine (external) make of them is left to the oracle [ext_diff] below. *)
Inductive rexpr :=
| RNat (n : nat)
| RSym (s : string)
| RAdd (a b : rexpr)
| RMul (a b : rexpr)
| RSub (a b : rexpr)
| ROpp (a : rexpr)
| RDiv (a b : rexpr).
Definition rops : ops rexpr := mkOps rexpr (RNat 0) (RNat 1) RAdd RMul RSub ROpp RDiv (fun _ => false).

(** [sp.symbols('x:4')], [sp.symbols('y:4')], [sp.symbols("x,y")],
    finat/direct_serendipity.py:147-152 and 266-270. *)
Definition x_names : list string := ["x0"; "x1"; "x2"; "x3"]%string.
Definition y_names : list string := ["y0"; "y1"; "y2"; "y3"]%string.
Definition xx_names : list string := ["x"; "y"]%string.
Definition vs_symbols (i : nat) : rexpr * rexpr := (RSym (nth i x_names ""%string), RSym (nth i y_names ""%string)).
Definition xx_symbols : rexpr * rexpr := (RSym "x", RSym "y").

(** DirectSerendipity._basis, finat/direct_serendipity.py:76-78: the functions.
    [subs] replaces the symbols of the point; here they are arguments. *)
Definition ds_basis (degree : nat) : list rexpr :=
  map (fun phi => phi xx_symbols) (ds_sym rops vs_symbols degree).

Section Evaluation.
  Context {F : Type} (o : ops F).
  Context (ofZ : Z -> F) (nan : F) (fn : string -> list F -> F).
  (** sympy's or symengine's expression (external) for the derivative in the symbols
      of a list, one after the other. *)
  Context (ext_diff : rexpr -> list string -> snode F).

  (** diff, finat/direct_serendipity.py:240-251: symengine is given each symbol as
      often as [alpha] says; sympy is given pairs of a symbol and a number, which
      means the same. *)
  Definition ds_diff (expr : rexpr) (alpha : list nat) : snode F :=
    ext_diff expr (concat (map (fun xa => repeat (fst xa) (snd xa)) (combine xx_names alpha))).

  (** The part of a coordinate mapping that is used (abstract in
      finat/physically_mapped.py:361-378). *)
  Record mapping := mkMapping {
    physical_points : pset F -> option (dimkey * nat) -> fresh (gem F);
    physical_vertices : gem F
  }.

  (** [dict((vs[idx], phys_verts[idx]) for idx in numpy.ndindex(vs.shape))],
      finat/direct_serendipity.py:107-108. *)
  Definition bind_vertices (phys_verts : gem F) : result (list (string * gem F)) :=
    mapM (fun ik =>
      do g <- mk_indexed phys_verts [IFixed (fst ik); IFixed (snd ik)] ;;
      Ok (nth (fst ik) (if Nat.eqb (snd ik) 0 then x_names else y_names) ""%string, g))
      (list_prod (seq 0 4) (seq 0 2)).

  (** [zip(xx, phys_points)], finat/direct_serendipity.py:110: expressions have no
      [__iter__], so that positions are tried until there is an IndexError. *)
  Fixpoint zip_point (names : list string) (k : nat) (point : gem F) : result (list (string * gem F)) :=
    match names with
    | [] => Ok []
    | s :: r =>
        match mk_indexed point [IFixed k] with
        | Ok g => do l <- zip_point r (S k) point ;; Ok ((s, g) :: l)
        | Err IndexError => Ok []
        | Err x => Err x
        end
    end.

  (** One derivative: DirectSerendipity._basis_deriv and the body of the loop,
      finat/direct_serendipity.py:80-87 and 119-121.  The cache returns what was
      computed before and is left out. *)
  Definition ds_alpha (degree : nat) (repl : list (string * gem F)) (alpha : list nat) : result (list nat * gem F) :=
    let dphis := map (fun phi => ds_diff phi alpha) (ds_basis degree) in
    do gs <- mapM (fun e => do g <- sympy2gem o ofZ nan repl e ;; Ok (gem_of fn g)) dphis ;;
    do t <- mk_list_tensor [length gs] gs ;;
    Ok (alpha, t).

  (** DirectSerendipity.basis_evaluation, finat/direct_serendipity.py:89-123.  The
      names in [repl] are distinct. *)
  Definition ds_basis_evaluation (degree order : nat) (ps : pset F) (ent : option (dimkey * nat))
      (coordinate_mapping : option mapping) : fresh (list (list nat * gem F)) :=
    cm <~ flift (match coordinate_mapping with Some cm => Ok cm | None => Err AttributeError end) ;;
    let phys_verts := physical_vertices cm in
    points <~ physical_points cm ps ent ;;
    phys_points <~ partial_indexed points (ps_indices ps) ;;
    verts <~ flift (bind_vertices phys_verts) ;;
    coords <~ flift (zip_point xx_names 0 phys_points) ;;
    flift (mapM (ds_alpha degree (verts ++ coords)) (flat_map (mis 2) (seq 0 (S order)))).

  (** DirectSerendipity.point_evaluation, finat/direct_serendipity.py:125-126. *)
  Definition ds_point_evaluation (degree order : nat) (refcoords : gem F) (ent : option (dimkey * nat))
    : fresh (list (list nat * gem F)) := flift (Err NotImplementedError).
End Evaluation.
Arguments mapping : clear implicits. Arguments physical_points {F}. Arguments physical_vertices {F}. Arguments mkMapping {F}.
