(** What evaluation at a symbolic point has to deliver. *)
From Coq Require Import String List Arith ZArith.
From Verif Require Import Model.Prelude Model.Cell Model.Element Model.EntityMaps Model.Gem Model.Sympy2Gem.
From Verif Require Import Spec.Rowmajor Spec.EntityDofs Spec.Layout Spec.Tabulation Spec.Sympy.
Import ListNotations.

Section PointEvaluation.
  Context {F : Type} (o : ops F).

  (** The coordinates a vector expression stands for. *)
  Definition coordinates (vars : string -> list nat -> F) (point : gem F) (env : nat -> nat) (d : nat) : list F :=
    map (fun k => eval o vars point env [k]) (seq 0 d).

  (** Tables that are right for element [e]: one of the advertised shape for
      each derivative, without free indices of their own; entries are values
      at the point that the expression stands for. *)
  Definition point_tables_ok (vars : string -> list nat -> F) (e : elt F) (d order : nat) (vsh : list nat)
      (point : gem F) (ent : dimkey * nat) (ts : list (list nat * gem F)) : Prop :=
    derivative_keys d order (map fst ts) /\
    forall alpha g, In (alpha, g) ts ->
      gshape g = index_shape e ++ vsh /\ incl (gfree g) (gfree point) /\
      forall env b v, in_shape (index_shape e) b -> in_shape vsh v ->
        value_of o e alpha ent (coordinates vars point env (dk_total (fst ent))) (rowmajor (index_shape e) b) v
          (eval o vars g env (b ++ v)).

  (** No product in the tree has a point for a factor. *)
  Inductive sliceable : elt F -> dimkey * nat -> Prop :=
  | sl_leaf : forall l ent, sliceable (ELeaf l) ent
  | sl_product : forall fs ks es ns,
      Forall2 (fun f kn => exists c, cell_of f = Ok c /\ In kn (topology c)) fs (combine ks ns) ->
      length ks = length ns -> in_shape ns es ->
      Forall (fun k => 0 < dk_total k) ks -> sliceable_each fs (combine ks es) ->
      sliceable (ETensorProduct fs) (DT ks, rowmajor ns es)
  | sl_tensor : forall b sh tr ent, sliceable b ent -> sliceable (ETensor b sh tr) ent
  | sl_enriched : forall es ent, (forall e, In e es -> sliceable e ent) -> sliceable (EEnriched es) ent
  | sl_mixed : forall e sz off ent, sliceable e ent -> sliceable (EMixedSub e sz off) ent
  | sl_flattened : forall p c k j ent,
      cell_of p = Ok c -> unflatten_entity c (Some (k, j)) = Ok ent -> sliceable p ent ->
      sliceable (EFlattened p) (DI k, j)
  | sl_discontinuous : forall e ent, sliceable e ent -> sliceable (EDiscontinuous e) ent
  | sl_hdiv : forall w ent, sliceable w ent -> sliceable (EHDiv w) ent
  | sl_hcurl : forall w ent, sliceable w ent -> sliceable (EHCurl w) ent
  with sliceable_each : list (elt F) -> list (dimkey * nat) -> Prop :=
  | sle_nil : sliceable_each [] []
  | sle_cons : forall f fs ent ents,
      sliceable f ent -> sliceable_each fs ents -> sliceable_each (f :: fs) (ent :: ents).

  (** The contract on a leaf's [point_evaluation]. *)
  Definition leaf_evaluates
      (leaf_point : leaf F -> nat -> gem F -> option (dimkey * nat) -> fresh (list (list nat * gem F)))
      (l : leaf F) : Prop :=
    forall vars order point ent n,
      (forall x, In x (gfree point) -> x < n) ->
      entity_of (topology (lf_cell l)) (entity_or_cell (lf_cell l) ent) ->
      gshape point = [dk_total (fst (entity_or_cell (lf_cell l) ent))] ->
      exists ts n', leaf_point l order point ent n = Ok (ts, n') /\ n <= n' /\
        point_tables_ok vars (ELeaf l) (spatial_dimension (lf_cell l)) order (lf_vshape l) point
          (entity_or_cell (lf_cell l) ent) ts.

  (* ---------------------------------------------------------------- *)
  (** ** FIAT leaves *)

  (** The functions behind GEM's nodes; truth values count as one and zero. *)
  Context (xo : xops F) (ofZ : Z -> F) (nan : F).
  Definition number_of (b : bool) : F := if b then f1 o else f0 o.
  Definition nonzero (x : F) : bool := negb (xeq xo x (f0 o)).
  Record functions_ok (fn : string -> list F -> F) : Prop := mkFunctions {
    fn_power : forall x y, fn "power"%string [x; y] = xpow xo x y;
    fn_abs : forall x, fn "abs"%string [x] = xabs xo x;
    fn_eq : forall x y, fn "=="%string [x; y] = number_of (xeq xo x y);
    fn_ne : forall x y, fn "!="%string [x; y] = number_of (negb (xeq xo x y));
    fn_gt : forall x y, fn ">"%string [x; y] = number_of (xlt xo y x);
    fn_ge : forall x y, fn ">="%string [x; y] = number_of (xle xo y x);
    fn_lt : forall x y, fn "<"%string [x; y] = number_of (xlt xo x y);
    fn_le : forall x y, fn "<="%string [x; y] = number_of (xle xo x y);
    fn_not : forall x, fn "not"%string [x] = number_of (negb (nonzero x));
    fn_or : forall x y, fn "or"%string [x; y] = number_of (orb (nonzero x) (nonzero y));
    fn_and : forall x y, fn "and"%string [x; y] = number_of (andb (nonzero x) (nonzero y));
    fn_if : forall c x y, fn "if"%string [c; x; y] = if nonzero c then x else y
  }.

  (** The symbols for the coordinates. *)
  Definition letter (s : string) : option nat :=
    if string_dec s "X" then Some 0 else if string_dec s "Y" then Some 1
    else if string_dec s "Z" then Some 2 else None.
  Definition at_point (pt : list F) (s : string) : option F :=
    match letter s with Some k => nth_error pt k | None => None end.
  Definition is_coordinate (d : nat) (s : string) : Prop := exists k, letter s = Some k /\ k < d.

  (** FIAT's expressions can be translated, and their values are the numbers
      FIAT tabulates. *)
  Definition tabulates_symbols (sym : leaf F -> list nat -> dimkey * nat -> nat -> list nat -> snode F)
      (l : leaf F) : Prop :=
    forall alpha ent i v, length alpha = spatial_dimension (lf_cell l) -> entity_of (topology (lf_cell l)) ent ->
      i < lf_dim l -> in_shape (lf_vshape l) v ->
      translatable (is_coordinate (dk_total (fst ent))) (sym l alpha ent i v) /\
      forall pt, length pt = dk_total (fst ent) ->
        smean o xo ofZ nan (at_point pt) (sym l alpha ent i v) = Some (VNum (lf_tab l alpha ent pt i v)).
End PointEvaluation.
