(** Quadrature rules (finat/quadrature.py) and QuadratureElement
    (finat/quadrature_element.py). *)
From Coq Require Import String List Arith ZArith Bool.
From Verif Require Import Model.Prelude Model.Cell Model.Element Model.Gem Model.PointSet Model.Evaluation.
Import ListNotations.
Open Scope fresh_scope.

(** QuadratureRule (finat/quadrature.py:101-119) and TensorProductQuadratureRule
    (finat/quadrature.py:122-140).  Their orientation maps are in Model/Orientation.v. *)
Inductive qrule (F : Type) :=
| QRule (ps : pset F) (weights : list F)
| QTensor (factors : list (qrule F)).
Arguments QRule {F}. Arguments QTensor {F}.

(** The [degree] argument of make_quadrature: an int or a (nested) tuple. *)
Inductive qdeg :=
| QInt (d : Z)
| QTuple (ds : list qdeg).

Section Quadrature.
  Context {F : Type}.
  Local Notation gem := (gem F).
  Local Notation pset := (pset F).
  Local Notation qrule := (qrule F).

  (** [rule.point_set], finat/quadrature.py:113-115, 134-136. *)
  Fixpoint q_point_set (r : qrule) : pset :=
    match r with
    | QRule ps _ => ps
    | QTensor fs => PTensor (map q_point_set fs)
    end.

  (** [rule.weight_expression], finat/quadrature.py:117-119, 138-140. *)
  Fixpoint q_weight (r : qrule) : result gem :=
    match r with
    | QRule ps w => mk_indexed (GLiteral (mkArr [length w] w)) (map IFree (ps_indices ps))
    | QTensor fs => do ws <- mapM q_weight fs ;; reduce_product ws
    end.

  (** QuadratureRule.__init__, finat/quadrature.py:104-111: as many points as
      weights. *)
  Definition ps_len (ps : pset) : result nat :=
    match ps with
    | PUnknown _ N _ _ => Ok N
    | _ => do pts <- ps_points ps ;; Ok (length pts)
    end.
  Definition mk_qrule (ps : pset) (w : list F) : result qrule :=
    do n <- ps_len ps ;;
    do! guard (Nat.eqb n (length w)) AssertionError ;;
    Ok (QRule ps w).

  (** FIAT (external): [GaussLegendreQuadratureLineRule(ref_el, m)] and
      [create_quadrature(ref_el, degree, scheme)], each as its points and
      weights, and [ref_el.is_macrocell()]. *)
  Context (gauss_legendre : cell -> nat -> list (list F) * list F).
  Context (fiat_scheme : cell -> nat -> string -> result (list (list F) * list F)).
  Context (is_macrocell : cell -> bool).

  (** make_quadrature on a cell that is neither a product nor a
      quadrilateral, finat/quadrature.py:42-56.  Comparing a tuple with 0 raises
      TypeError. *)
  Definition simple_quadrature (c : cell) (degree : qdeg) (scheme : string) : fresh qrule :=
    match degree with
    | QTuple _ => flift (Err TypeError)
    | QInt d =>
        if (d <? 0)%Z then flift (Err ValueError)
        else if is_line c && negb (is_macrocell c) then
          let num_points := Z.to_nat ((d + 1 + 1) / 2) in
          let fiat_rule := gauss_legendre c num_points in
          i <~ new_indices [length (fst fiat_rule)] ;;
          flift (mk_qrule (PPoints PGaussLegendre (spatial_dimension c) (fst fiat_rule) i) (snd fiat_rule))
        else
          fiat_rule <~ flift (fiat_scheme c (Z.to_nat d) scheme) ;;
          i <~ new_indices [length (fst fiat_rule)] ;;
          flift (mk_qrule (PPoints PGeneric (spatial_dimension c) (fst fiat_rule) i) (snd fiat_rule))
    end.

  (** The degrees of the factors, finat/quadrature.py:29-34. *)
  Definition split_degree (n : nat) (degree : qdeg) : result (list qdeg) :=
    let ds := match degree with QTuple l => l | QInt _ => repeat degree n end in
    do! guard (Nat.eqb n (length ds)) AssertionError ;; Ok ds.

  (** make_quadrature, finat/quadrature.py:14-56.  [UFCQuadrilateral.product] is the
      product of two intervals; of the flattened cells only the quadrilateral
      is treated as a product (39-40). *)
  Fixpoint make_quadrature (c : cell) (degree : qdeg) (scheme : string) : fresh qrule :=
    match c with
    | TPCell cs =>
        ds <~ flift (split_degree (length cs) degree) ;;
        rules <~ map2F (fun c' d => make_quadrature c' d scheme) cs ds ;;
        fret (QTensor rules)
    | Hypercube 2 =>
        ds <~ flift (split_degree 2 degree) ;;
        rules <~ map2F (fun c' d => simple_quadrature c' d scheme) [Simplex 1; Simplex 1] ds ;;
        fret (QTensor rules)
    | _ => simple_quadrature c degree scheme
    end.

  (* ---------------------------------------------------------------- *)
  (** ** Comparison of point sets *)

  (** [x] and [y] differ by at most the tolerance. *)
  Context (close : F -> F -> bool).

  (** [almost_equal], finat/point_set.py:148-152, 198-203.  PointSingleton and
      UnknownPointSet do not have this method.  [ps.points.shape] of a PointSet
      is (number of points, dimension). *)
  Definition pkind_eqb (a b : pkind) : bool :=
    match a, b with
    | PGeneric, PGeneric | PGaussLegendre, PGaussLegendre
    | PGaussLobattoLegendre, PGaussLobattoLegendre => true
    | _, _ => false
    end.
  Fixpoint almost_equal (a b : pset) : result bool :=
    match a with
    | PSingleton _ | PUnknown _ _ _ _ => Err AttributeError
    | PPoints ka Da pa _ =>
        match b with
        | PPoints kb Db pb _ =>
            Ok (pkind_eqb ka kb && (Nat.eqb (length pa) (length pb) && Nat.eqb Da Db) &&
                forallb (fun pq => forallb (fun xy => close (fst xy) (snd xy)) (zip (fst pq) (snd pq)))
                        (zip pa pb))
        | _ => Ok false
        end
    | PTensor fa =>
        match b with
        | PTensor fb =>
            if Nat.eqb (length fa) (length fb) then
              (fix go (fa fb : list pset) : result bool :=
                 match fa, fb with
                 | x :: fa', y :: fb' =>
                     do e <- almost_equal x y ;; if e then go fa' fb' else Ok false
                 | _, _ => Ok true
                 end) fa fb
            else Ok false
        | _ => Ok false
        end
    end.

  (* ---------------------------------------------------------------- *)
  (** ** QuadratureElement *)

  Record qelt := mkQelt { qe_cell : cell; qe_rule : qrule }.

  (** QuadratureElement.__init__, finat/quadrature_element.py:35-47. *)
  Definition mk_quadrature_element (c : cell) (r : qrule) : result qelt :=
    do d <- ps_dimension (q_point_set r) ;;
    do! guard (Nat.eqb (spatial_dimension c) d) ValueError ;;
    Ok (mkQelt c r).

  (** make_quadrature_element, finat/quadrature_element.py:16-29. *)
  Definition make_quadrature_element (c : cell) (degree : qdeg) (scheme : string) : fresh qelt :=
    r <~ make_quadrature c degree scheme ;; flift (mk_quadrature_element c r).

  (** index_shape and space_dimension, finat/quadrature_element.py:76-82. *)
  Definition qe_index_shape (e : qelt) : list nat := map ix_extent (ps_indices (q_point_set (qe_rule e))).
  Definition qe_space_dimension (e : qelt) : nat := prod (qe_index_shape e).

  (** finat/quadrature_element.py:65-74. *)
  Definition qe_entity_dofs (e : qelt) : edofs :=
    dict_set dimkey_eqb (empty_dofs (qe_cell e)) (get_dimension (qe_cell e))
      [(0, seq 0 (qe_space_dimension e))].

  (** The identity matrices of basis_evaluation and dual_basis,
      finat/quadrature_element.py:119-125, 132-138. *)
  Definition qe_deltas (e : qelt) (ps : pset) : fresh gem :=
    multiindex <~ new_indices (qe_index_shape e) ;;
    flift (do p <- reduce_product (map2 (fun q r => GDelta (IFree q) (IFree r)) (ps_indices ps) multiindex) ;;
           mk_component_tensor p multiindex).

  (** basis_evaluation, finat/quadrature_element.py:102-125. *)
  Definition qe_basis_evaluation (e : qelt) (order : nat) (ps : pset) (ent : option (dimkey * nat))
    : fresh (list (list nat * gem)) :=
    _ <~ flift (guard (match ent with
                       | None => true
                       | Some (k, i) => dimkey_eqb k (get_dimension (qe_cell e)) && Nat.eqb i 0
                       end) ValueError) ;;
    _ <~ flift (guard (Nat.eqb order 0) ValueError) ;;
    eq <~ flift (almost_equal (q_point_set (qe_rule e)) ps) ;;
    _ <~ flift (guard eq ValueError) ;;
    t <~ qe_deltas e ps ;;
    fret [(repeat 0 (spatial_dimension (qe_cell e)), t)].

  (** dual_basis, finat/quadrature_element.py:130-139. *)
  Definition qe_dual_basis (e : qelt) : fresh (gem * pset) :=
    let ps := q_point_set (qe_rule e) in
    q <~ qe_deltas e ps ;; fret (q, ps).

  (** The element as a leaf of an element tree: the answers of its structural
      methods (finat/quadrature_element.py:49-86, 141-143).  It has no degree and no
      tabulation function of its own. *)
  Definition qe_leaf (e : qelt) (tab : list nat -> dimkey * nat -> list F -> nat -> list nat -> F) : leaf F :=
    mkLeaf KOther (qe_cell e) (DgT []) None (qe_entity_dofs e) (qe_space_dimension e) (qe_index_shape e) []
      ["affine"%string] false tab.
End Quadrature.
