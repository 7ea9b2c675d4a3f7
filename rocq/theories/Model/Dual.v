(** Dual bases and dual evaluation: finat/fiat_elements.py:181-261,
    finat/tensor_product.py:174-189, finat/tensorfiniteelement.py:153-205,
    finat/hdivcurl.py:81-92, finat/cube.py:86-88, finat/discontinuous.py:74-76,
    finat/finiteelementbase.py:177-275. *)
From Coq Require Import String List Arith Bool.
From Verif Require Import Model.Prelude Model.Cell Model.Element Model.EntityMaps Model.Gem Model.PointSet Model.Evaluation.
Import ListNotations.
Open Scope fresh_scope.

(** A FIAT functional: its [get_point_dict()], from points to lists of pairs of
    a weight and a component, in insertion order; and whether
    [len(deriv_dict) != 0]. *)
Record functional (F : Type) := mkFunctional {
  fn_points : list (list F * list (F * list nat));
  fn_derivs : bool
}.
Arguments mkFunctional {F}. Arguments fn_points {F}. Arguments fn_derivs {F}.

Section FiatDual.
  Context {F : Type} (o : ops F).
  (** [leb], [eqb]: Python's [<=] and [==] on tuples of floats; [isone]:
      [np.isclose(weight, 1)]. *)
  Context (leb eqb : list F -> list F -> bool) (isone : F -> bool).
  Local Notation gem := (gem F).
  Local Notation pset := (pset F).
  Local Notation functional := (functional F).

  (** [tuple(sorted(dual.get_point_dict().keys()))], finat/fiat_elements.py:197-198, 219. *)
  Definition dual_pts (d : functional) : list (list F) := sorted leb (map fst (fn_points d)).

  (** The first loop, finat/fiat_elements.py:188-204: [seen] and [allpts]. *)
  Definition pts_eqb : list (list F) -> list (list F) -> bool := list_eqb eqb.
  Fixpoint collect_points (ds : list functional) (seen : list (list (list F) * (nat * nat))) (allpts : list (list F))
    : result (list (list (list F) * (nat * nat)) * list (list F)) :=
    match ds with
    | [] => Ok (seen, allpts)
    | d :: ds' =>
        do! guard (negb (fn_derivs d)) NotImplementedError ;;
        let pts := dual_pts d in
        if dict_mem pts_eqb seen pts then collect_points ds' seen allpts
        else
          let kstart := length allpts in
          collect_points ds' (dict_set pts_eqb seen pts (kstart, kstart + length pts)) (allpts ++ pts)
    end.

  (** One functional's part of the second loop, finat/fiat_elements.py:218-223. *)
  Definition key_eqb : list nat -> list nat -> bool := list_eqb Nat.eqb.
  Definition add_weights (i k : nat) (Q : list (list nat * F)) (ws : list (F * list nat)) : list (list nat * F) :=
    fold_left (fun Q wc => dict_set key_eqb Q (i :: k :: snd wc) (fst wc)) ws Q.
  Definition add_functional (seen : list (list (list F) * (nat * nat))) (Q : list (list nat * F))
      (id : nat * functional) : result (list (list nat * F)) :=
    let pts := dual_pts (snd id) in
    do ks <- dict_get pts_eqb seen pts ;;
    fold_res (fun Q pk =>
      do ws <- dict_get eqb (fn_points (snd id)) (fst pk) ;;
      Ok (add_weights (fst id) (snd pk) Q ws))
      (zip pts (seq (fst ks) (snd ks - fst ks))) Q.

  (** The second loop, finat/fiat_elements.py:216-223. *)
  Definition build_weights (seen : list (list (list F) * (nat * nat))) (ds : list functional)
    : result (list (list nat * F)) :=
    fold_res (add_functional seen) (enumerate ds) [].

  (** [map(max, zip( *keys))] and [map(max, *keys)]: both stop at the shortest
      key, finat/fiat_elements.py:227, 238-241. *)
  Fixpoint column_max (keys : list (list nat)) : list nat :=
    match keys with
    | [] => []
    | [k] => k
    | k :: r => map2 Nat.max k (column_max r)
    end.

  (** [len(set(key)) == 1 and len(key) == 2 and np.isclose(weight, 1)],
      finat/fiat_elements.py:224-225. *)
  Definition diagonal_one (kw : list nat * F) : bool :=
    match fst kw with
    | [i; k] => Nat.eqb i k && isone (snd kw)
    | _ => false
    end.

  (** finat/fiat_elements.py:224-245.  [Qdense[idx] = value] raises IndexError if
      [idx] has more members than the array has axes. *)
  Definition dense (shape : list nat) (Q : list (list nat * F)) : arr F :=
    mkArr shape (map (fun idx => match dict_get key_eqb Q idx with Ok w => w | Err _ => f0 o end)
                     (cart (map (seq 0) shape))).
  Definition weights_tensor (Q : list (list nat * F)) : fresh gem :=
    if forallb diagonal_one Q then
      js <~ new_indices (map S (column_max (map fst Q))) ;;
      match js with
      | [j0; j1] => flift (mk_component_tensor (GDelta (IFree j0) (IFree j1)) [j0; j1])
      | _ => flift (Err AssertionError)
      end
    else
      let shape := map S (column_max (map fst Q)) in
      flift (do! guard (forallb (fun kw => Nat.eqb (length (fst kw)) (length shape)) Q) IndexError ;;
             Ok (GLiteral (dense shape Q))).

  (** FiatElement._dual_basis, finat/fiat_elements.py:181-246. *)
  Definition fiat_dual_numbers (ds : list functional) : fresh (gem * list (list F)) :=
    sp <~ flift (collect_points ds [] []) ;;
    Q <~ flift (build_weights (fst sp) ds) ;;
    t <~ weights_tensor Q ;;
    fret (t, snd sp).

  (** PointSet(pts), finat/point_set.py:127-141: no points make an array of shape
      (0,); points of different length cannot be made an array. *)
  Definition new_point_set (pts : list (list F)) : fresh pset :=
    match pts with
    | [] => flift (Err AssertionError)
    | p :: _ =>
        _ <~ flift (guard (forallb (fun q => Nat.eqb (length q) (length p)) pts) ValueError) ;;
        i <~ new_indices [length pts] ;;
        fret (PPoints PGeneric (length p) pts i)
    end.

  (** FiatElement.dual_basis, finat/fiat_elements.py:248-261. *)
  Definition fiat_dual_basis (ds : list functional) : fresh (gem * pset) :=
    Qp <~ fiat_dual_numbers ds ;;
    x <~ new_point_set (snd Qp) ;;
    match gshape (fst Qp), ps_indices x with
    | d :: m :: r, [k] =>
        _ <~ flift (guard (Nat.eqb m (ix_extent k)) AssertionError) ;;
        ijs <~ new_indices (d :: r) ;;
        match ijs with
        | i :: js =>
            flift (do q <- mk_indexed (fst Qp) (map IFree (i :: k :: js)) ;;
                   do t <- mk_component_tensor q (i :: js) ;;
                   Ok (t, x))
        | [] => flift (Err ValueError)
        end
    | _, _ => flift (Err AssertionError)
    end.
End FiatDual.

Section Dual.
  Context {F : Type} (o : ops F).
  Local Notation gem := (gem F).
  Local Notation pset := (pset F).

  (** TensorProductElement.dual_basis, finat/tensor_product.py:174-189, from
      the factors' results; unpacking the empty zip raises ValueError. *)
  Definition product_dual (ishapes vshapes : list (list nat)) (rs : list (gem * pset)) : fresh (gem * pset) :=
    _ <~ flift (guard (negb (Nat.eqb (length rs) 0)) ValueError) ;;
    alphas <~ mapF new_indices ishapes ;;
    zetas <~ mapF new_indices vshapes ;;
    flift (
      do qis <- mapM (fun x : gem * (list ix * list ix) =>
          mk_indexed (fst x) (map IFree (fst (snd x) ++ snd (snd x))))
        (zip (map fst rs) (zip alphas zetas)) ;;
      do p <- reduce_product qis ;;
      do Q <- mk_component_tensor p (concat (alphas ++ zetas)) ;;
      Ok (Q, PTensor (map snd rs))).

  (** TensorFiniteElement.dual_basis, finat/tensorfiniteelement.py:153-175. *)
  Definition tensor_dual (ishape vshape shape : list nat) (transpose : bool) (Q : gem) : fresh gem :=
    scalar_i <~ new_indices ishape ;;
    scalar_vi <~ new_indices vshape ;;
    tensor_i <~ new_indices shape ;;
    tensor_vi <~ new_indices shape ;;
    flift (
      do deltas <- reduce_product (map2 (fun j k => GDelta (IFree j) (IFree k)) tensor_i tensor_vi) ;;
      let index_ordering := if transpose then tensor_i ++ scalar_i ++ tensor_vi ++ scalar_vi
                            else scalar_i ++ tensor_i ++ tensor_vi ++ scalar_vi in
      do Qi <- mk_indexed Q (map IFree (scalar_i ++ scalar_vi)) ;;
      do p <- mk_product Qi deltas ;;
      mk_component_tensor p index_ordering).

  (** WrapperElementBase.dual_basis, finat/hdivcurl.py:81-92. *)
  Definition wrapper_dual (ishape vshape : list nat) (tr : gem -> result (list gem)) (Q : gem) : fresh gem :=
    beta <~ new_indices ishape ;;
    zeta <~ new_indices vshape ;;
    v <~ partial_indexed Q beta ;;
    flift (do us <- tr v ;;
           do u <- mk_list_tensor [length us] us ;;
           do x <- mk_indexed u (map IFree zeta) ;;
           mk_component_tensor x (beta ++ zeta)).

  (** [leaf_dual]: dual_basis of the leaves. *)
  Context (leaf_dual : leaf F -> fresh (gem * pset)).

  (** dual_basis: finat/tensor_product.py:174-189, finat/tensorfiniteelement.py:153-175,
      finat/hdivcurl.py:81-92, finat/cube.py:86-88, finat/discontinuous.py:74-76.
      EnrichedElement and MixedSubElement have the base class's, which raises
      (finat/finiteelementbase.py:235-237). *)
  Fixpoint dual_basis (e : elt F) : fresh (gem * pset) :=
    match e with
    | ELeaf l => leaf_dual l
    | ETensorProduct fs =>
        rs <~ mapF dual_basis fs ;;
        vss <~ flift (mapM value_shape fs) ;;
        product_dual (map index_shape fs) vss rs
    | ETensor b shape transpose =>
        Qx <~ dual_basis b ;;
        vs <~ flift (value_shape b) ;;
        tQ <~ tensor_dual (index_shape b) vs shape transpose (fst Qx) ;;
        fret (tQ, snd Qx)
    | EEnriched _ | EMixedSub _ _ _ => flift (Err NotImplementedError)
    | EFlattened p => dual_basis p
    | EDiscontinuous e' => dual_basis e'
    | EHDiv w =>
        Qx <~ dual_basis w ;;
        vs <~ flift (value_shape (EHDiv w)) ;;
        tr <~ flift (select_hdiv_transformer w) ;;
        Q <~ wrapper_dual (index_shape w) vs (apply_transform o tr) (fst Qx) ;;
        fret (Q, snd Qx)
    | EHCurl w =>
        Qx <~ dual_basis w ;;
        vs <~ flift (value_shape (EHCurl w)) ;;
        tr <~ flift (select_hcurl_transformer w) ;;
        Q <~ wrapper_dual (index_shape w) vs (apply_transform o tr) (fst Qx) ;;
        fret (Q, snd Qx)
    end.

  (** FiniteElementBase.dual_evaluation, finat/finiteelementbase.py:239-275.
      [fn] makes the expression for the function at the points.  GEM's
      rewriting of the result ([delta_elimination], [sum_factorise],
      [contraction]) does not change its meaning and is left out. *)
  Definition base_dual_evaluation (db : fresh (gem * pset)) (fn : pset -> fresh gem) : fresh (gem * list ix) :=
    Qx <~ db ;;
    expr <~ fn (snd Qx) ;;
    let qsh := gshape (fst Qx) in
    let esh := gshape expr in
    _ <~ flift (guard (list_eqb Nat.eqb esh (skipn (length qsh - length esh) qsh)) AssertionError) ;;
    shape_indices <~ new_indices esh ;;
    basis_indices <~ new_indices (firstn (length qsh - length esh) qsh) ;;
    flift (
      do Qi <- mk_indexed (fst Qx) (map IFree (basis_indices ++ shape_indices)) ;;
      do expri <- mk_indexed expr (map IFree shape_indices) ;;
      do p <- mk_product Qi expri ;;
      do s <- mk_index_sum p (ps_indices (snd Qx) ++ shape_indices) ;;
      Ok (s, basis_indices)).

  (** TensorFiniteElement.dual_evaluation, finat/tensorfiniteelement.py:177-205;
      [db]: its own dual_basis; [ishape], [vshape]: of the base element. *)
  Definition tensor_dual_evaluation (ishape vshape shape : list nat) (transpose : bool)
      (db : fresh (gem * pset)) (fn : pset -> fresh gem) : fresh (gem * list ix) :=
    Qx <~ db ;;
    expr <~ fn (snd Qx) ;;
    _ <~ flift (guard (list_eqb Nat.eqb (gshape expr) (shape ++ vshape)) AssertionError) ;;
    scalar_i <~ new_indices ishape ;;
    scalar_vi <~ new_indices vshape ;;
    tensor_i <~ new_indices shape ;;
    tensor_vi <~ new_indices shape ;;
    let index_ordering := if transpose then tensor_i ++ scalar_i ++ tensor_vi ++ scalar_vi
                          else scalar_i ++ tensor_i ++ tensor_vi ++ scalar_vi in
    flift (
      do tQi <- mk_indexed (fst Qx) (map IFree index_ordering) ;;
      do expri <- mk_indexed expr (map IFree (tensor_i ++ scalar_vi)) ;;
      do p <- mk_product tQi expri ;;
      do s <- mk_index_sum p (ps_indices (snd Qx) ++ scalar_vi ++ tensor_i) ;;
      Ok (s, scalar_i ++ tensor_vi)).

  (** dual_evaluation by class. *)
  Definition dual_evaluation (e : elt F) (fn : pset -> fresh gem) : fresh (gem * list ix) :=
    match e with
    | ETensor b shape transpose =>
        fun n => match value_shape b with
                 | Ok vs => tensor_dual_evaluation (index_shape b) vs shape transpose (dual_basis e) fn n
                 | Err x => Err x
                 end
    | _ => base_dual_evaluation (dual_basis e) fn
    end.
End Dual.
