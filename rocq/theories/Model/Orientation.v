(** Orientation maps of quadrature rules (finat/quadrature.py). *)
From Coq Require Import String List Arith ZArith Bool.
From Verif Require Import Model.Prelude Model.Cell Model.Element Model.Gem Model.PointSet Model.Evaluation Model.Quadrature.
Import ListNotations.
Open Scope fresh_scope.

(** A map from intrinsic orientations to point permutations: [result[io]] is an
    array of numbers of points (finat/quadrature.py:87-95).  Orientations are
    numbered from 0. *)
Definition ornt_map := list (list nat).

(** What is taken from a rule of FIAT (external), finat/quadrature.py:51-56:
    get_points(), get_weights() and _intrinsic_orientation_permutation_map_tuple,
    whose entries are None where FIAT has no map. *)
Record frule (F : Type) := mkFrule { fr_points : list (list F); fr_weights : list F; fr_io : list (option ornt_map) }.
Arguments mkFrule {F}. Arguments fr_points {F}. Arguments fr_weights {F}. Arguments fr_io {F}.

(** QuadratureRule and TensorProductQuadratureRule with the attributes ref_el and
    _intrinsic_orientation_permutation_map_tuple, finat/quadrature.py:101-132. *)
Inductive orule (F : Type) :=
| ORule (ref_el : option cell) (ps : pset F) (weights : list F) (io : list (option ornt_map))
| OTensor (ref_el : option cell) (factors : list (orule F)) (io : list (option ornt_map)).
Arguments ORule {F}. Arguments OTensor {F}.

(** An iterable argument: a list or tuple can be gone through again, a generator
    is empty the second time. *)
Inductive iterable (A : Type) := Again (l : list A) | Once (l : list A).
Arguments Again {A}. Arguments Once {A}.
Definition first_pass {A} (it : iterable A) : list A := match it with Again l | Once l => l end.
Definition second_pass {A} (it : iterable A) : list A := match it with Again l => l | Once _ => [] end.

Section Orientation.
  Context {F E : Type}.
  Local Notation orule := (orule F).

  Definition o_ref_el (r : orule) : option cell := match r with ORule c _ _ _ | OTensor c _ _ => c end.
  Definition o_io (r : orule) : list (option ornt_map) := match r with ORule _ _ _ io | OTensor _ _ io => io end.
  (** The rule without these attributes: it has the same point_set and
      weight_expression, finat/quadrature.py:113-119, 134-140. *)
  Fixpoint o_rule (r : orule) : qrule F :=
    match r with
    | ORule _ ps w _ => QRule ps w
    | OTensor _ fs _ => QTensor (map o_rule fs)
    end.

  (** QuadratureRule.__init__, finat/quadrature.py:104-111, and
      TensorProductQuadratureRule.__init__, finat/quadrature.py:125-132.  The
      latter goes through its argument [factors] twice (127, 130). *)
  Definition mk_orule (ps : pset F) (w : list F) (ref_el : option cell) (io : list (option ornt_map)) : result orule :=
    do _ <- mk_qrule ps w ;; Ok (ORule ref_el ps w io).
  Definition mk_otensor (factors : iterable orule) (ref_el : option cell) : orule :=
    OTensor ref_el (first_pass factors) (concat (map o_io (second_pass factors))).

  (** extrinsic_orientation_permutation_map, finat/quadrature.py:72-84.
      [extrinsic c] (external) is the attribute of the cell. *)
  Context (extrinsic : cell -> E).
  Definition extrinsic_map (r : orule) : result E :=
    match o_ref_el r with
    | None => Err ValueError
    | Some c => Ok (extrinsic c)
    end.
  (** intrinsic_orientation_permutation_map_tuple, finat/quadrature.py:86-98. *)
  Definition intrinsic_maps (r : orule) : result (list (option ornt_map)) :=
    if existsb (fun m => match m with None => true | Some _ => false end) (o_io r) then Err ValueError
    else Ok (o_io r).

  (** make_quadrature, finat/quadrature.py:14-56, as in Model/Quadrature.v but with
      these attributes. *)
  Context (gauss_legendre : cell -> nat -> frule F).
  Context (fiat_scheme : cell -> nat -> string -> result (frule F)).
  Context (is_macrocell : cell -> bool).
  Definition o_simple (c : cell) (degree : qdeg) (scheme : string) : fresh orule :=
    match degree with
    | QTuple _ => flift (Err TypeError)
    | QInt d =>
        if (d <? 0)%Z then flift (Err ValueError)
        else if is_line c && negb (is_macrocell c) then
          let num_points := Z.to_nat ((d + 1 + 1) / 2) in
          let fiat_rule := gauss_legendre c num_points in
          i <~ new_indices [length (fr_points fiat_rule)] ;;
          flift (mk_orule (PPoints PGaussLegendre (spatial_dimension c) (fr_points fiat_rule) i) (fr_weights fiat_rule)
                   (Some c) (fr_io fiat_rule))
        else
          fiat_rule <~ flift (fiat_scheme c (Z.to_nat d) scheme) ;;
          i <~ new_indices [length (fr_points fiat_rule)] ;;
          flift (mk_orule (PPoints PGeneric (spatial_dimension c) (fr_points fiat_rule) i) (fr_weights fiat_rule)
                   (Some c) (fr_io fiat_rule))
    end.
  (** On a product [quad_rules] is a list (35).  On a quadrilateral the rule is
      made for, and remembers, the product of two intervals (39-40). *)
  Fixpoint o_make (c : cell) (degree : qdeg) (scheme : string) : fresh orule :=
    match c with
    | TPCell cs =>
        ds <~ flift (split_degree (length cs) degree) ;;
        rules <~ map2F (fun c' d => o_make c' d scheme) cs ds ;;
        fret (mk_otensor (Again rules) (Some (TPCell cs)))
    | Hypercube 2 =>
        ds <~ flift (split_degree 2 degree) ;;
        rules <~ map2F (fun c' d => o_simple c' d scheme) [Simplex 1; Simplex 1] ds ;;
        fret (mk_otensor (Again rules) (Some (TPCell [Simplex 1; Simplex 1])))
    | _ => o_simple c degree scheme
    end.
End Orientation.
