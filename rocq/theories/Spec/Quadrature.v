(** What quadrature rules and quadrature elements have to deliver. *)
From Coq Require Import String List Arith ZArith.
From Verif Require Import Model.Prelude Model.Cell Model.Element Model.Gem Model.PointSet Model.Quadrature.
From Verif Require Import Spec.Rowmajor Spec.Tabulation.
Import ListNotations.

Section Quadrature.
  Context {F : Type} (o : ops F) (vars : string -> list nat -> F).

  (** All assignments of the point set's indices, starting from [env]. *)
  Definition assignments (ps : pset F) (env : nat -> nat) : list (nat -> nat) :=
    map (fun vs x => fold_left (fun acc iv => if Nat.eqb x (ix_id (fst iv)) then snd iv else acc)
                       (combine (ps_indices ps) vs) (env x))
        (cart (map (fun i => seq 0 (ix_extent i)) (ps_indices ps))).

  (** [w] summed against [f] over the points. *)
  Definition quad (ps : pset F) (w : gem F) (f : list F -> F) (env : nat -> nat) : F :=
    fold_right (fadd o) (f0 o)
      (map (fun e => fmul o (eval o vars w e []) (f (pt_at ps e))) (assignments ps env)).

  (** Rules whose arrays of points have one index each, over its rows. *)
  Inductive rule_ok : qrule F -> Prop :=
  | ro_rule : forall kd D pts i w,
      pts <> [] -> ix_extent i = length pts -> (forall p, In p pts -> length p = D) ->
      length w = length pts -> rule_ok (QRule (PPoints kd D pts [i]) w)
  | ro_tensor : forall qs, qs <> [] -> Forall rule_ok qs -> rule_ok (QTensor qs).

  (** The same for point sets. *)
  Inductive arrays_ok : pset F -> Prop :=
  | ao_points : forall kd D pts i,
      pts <> [] -> ix_extent i = length pts -> (forall p, In p pts -> length p = D) ->
      arrays_ok (PPoints kd D pts [i])
  | ao_tensor : forall qs, qs <> [] -> Forall arrays_ok qs -> arrays_ok (PTensor qs).

  (** Two point sets of the same make whose coordinates are close. *)
  Inductive near (close : F -> F -> bool) : pset F -> pset F -> Prop :=
  | nr_points : forall kd D pts pts' m m',
      Forall2 (Forall2 (fun x y => close x y = true)) pts pts' ->
      near close (PPoints kd D pts m) (PPoints kd D pts' m')
  | nr_tensor : forall qs qs', Forall2 (near close) qs qs' -> near close (PTensor qs) (PTensor qs').

  (** No index belongs to two factors. *)
  Definition distinct_indices (ps : pset F) : Prop := NoDup (map ix_id (ps_indices ps)).

  (** [g] is the product of functions of separate blocks of coordinates. *)
  Definition separates (dims : list nat) (fs : list (list F -> F)) (g : list F -> F) : Prop :=
    length fs = length dims /\
    forall pts, Forall2 (fun d p => length p = d) dims pts ->
      g (concat pts) = fold_right (fmul o) (f1 o) (map (fun fp => fst fp (snd fp)) (combine fs pts)).

  (** No product of no cells anywhere in the cell. *)
  Inductive no_empty_product : cell -> Prop :=
  | ne_simplex : forall d, no_empty_product (Simplex d)
  | ne_hypercube : forall d, no_empty_product (Hypercube d)
  | ne_product : forall cs, cs <> [] -> Forall no_empty_product cs -> no_empty_product (TPCell cs).

  (** [integrates poly c deg g I]: on cell [c], function [g] is a sum of
      products of polynomials, of degree [deg] in each factor that is not a
      product itself, and its integral is [I].  [poly c d f I]: on the simplex or
      hexahedron [c], [f] is a polynomial of degree [d] with integral [I]. *)
  Context (poly : cell -> nat -> (list F -> F) -> F -> Prop).
  Inductive integrates : cell -> qdeg -> (list F -> F) -> F -> Prop :=
  | in_simple : forall c d f I,
      (forall cs, c <> TPCell cs) -> c <> Hypercube 2 ->
      poly c d f I -> integrates c (QInt (Z.of_nat d)) f I
  | in_product : forall cs deg ds fs Is g,
      (deg = QTuple ds \/ exists d, deg = QInt d /\ ds = repeat (QInt d) (length cs)) ->
      integrates_each cs ds fs Is ->
      separates (map spatial_dimension cs) fs g ->
      integrates (TPCell cs) deg g (fold_right (fmul o) (f1 o) Is)
  | in_quadrilateral : forall deg g I,
      integrates (TPCell [Simplex 1; Simplex 1]) deg g I -> integrates (Hypercube 2) deg g I
  | in_zero : forall c deg g, (forall p, length p = spatial_dimension c -> g p = f0 o) -> integrates c deg g (f0 o)
  | in_sum : forall c deg f g h I J,
      integrates c deg f I -> integrates c deg g J ->
      (forall p, length p = spatial_dimension c -> h p = fadd o (f p) (g p)) ->
      integrates c deg h (fadd o I J)
  with integrates_each : list cell -> list qdeg -> list (list F -> F) -> list F -> Prop :=
  | ie_nil : integrates_each [] [] [] []
  | ie_cons : forall c cs d ds f fs I Is,
      integrates c d f I -> integrates_each cs ds fs Is ->
      integrates_each (c :: cs) (d :: ds) (f :: fs) (I :: Is).

  (** The contract on FIAT's rules: they have points of the right dimension,
      as many weights, at least one point, and integrate exactly.  The
      Gauss-Legendre rule [gl c m] has m points and is exact up to degree
      2m-1. *)
  Definition fiat_rule_ok (c : cell) (r : list (list F) * list F) : Prop :=
    fst r <> [] /\ length (snd r) = length (fst r) /\ forall p, In p (fst r) -> length p = spatial_dimension c.
  Definition fiat_rule_exact (c : cell) (d : nat) (r : list (list F) * list F) : Prop :=
    forall f I, poly c d f I ->
      fold_right (fadd o) (f0 o) (map (fun pw => fmul o (snd pw) (f (fst pw))) (combine (fst r) (snd r))) = I.
  Definition gauss_legendre_ok (gl : cell -> nat -> list (list F) * list F) : Prop :=
    forall c m, is_line c = true -> 1 <= m ->
      fiat_rule_ok c (gl c m) /\ length (fst (gl c m)) = m /\ forall d, d + 1 <= 2 * m -> fiat_rule_exact c d (gl c m).
  Definition fiat_scheme_ok (sch : cell -> nat -> string -> result (list (list F) * list F)) : Prop :=
    forall c d s r, sch c d s = Ok r -> fiat_rule_ok c r /\ fiat_rule_exact c d r.

  (** Degrees that suit a cell: one natural number per factor that is not a
      product, or a number for all factors. *)
  Inductive degree_fits : cell -> qdeg -> Prop :=
  | df_simple : forall c d, (forall cs, c <> TPCell cs) -> c <> Hypercube 2 ->
      degree_fits c (QInt (Z.of_nat d))
  | df_tuple : forall cs ds, Forall2 degree_fits cs ds -> degree_fits (TPCell cs) (QTuple ds)
  | df_all : forall cs d, Forall (fun c => degree_fits c (QInt d)) cs -> degree_fits (TPCell cs) (QInt d)
  | df_quadrilateral : forall ds, degree_fits (TPCell [Simplex 1; Simplex 1]) ds -> degree_fits (Hypercube 2) ds.
End Quadrature.
