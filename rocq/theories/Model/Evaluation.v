(** Tabulation: basis_evaluation of the element classes. *)
From Coq Require Import String List Arith Bool.
From Verif Require Import Model.Prelude Model.Cell Model.Element Model.EntityMaps Model.Gem Model.PointSet.
Import ListNotations.
Open Scope fresh_scope.

(** numpy on arrays in C order. *)
Section Arrays.
  Context {F : Type} (o : ops F).
  (** The array of the given shape with entries [f idx]. *)
  Definition array_of (sh : list nat) (f : list nat -> F) : arr F :=
    mkArr sh (map f (cart (map (seq 0) sh))).
  (** [a.reshape(sh)]. *)
  Definition reshape (a : arr F) (sh : list nat) : result (arr F) :=
    do! guard (Nat.eqb (prod (a_shape a)) (prod sh)) ValueError ;; Ok (mkArr sh (a_data a)).
  (** [a.transpose(1, 2, 0)]. *)
  Definition transpose120 (a : arr F) : result (arr F) :=
    match a_shape a with
    | [d0; d1; d2] =>
        Ok (array_of [d1; d2; d0] (fun idx => match idx with
                                              | [j; k; i] => arr_at o a [i; j; k]
                                              | _ => f0 o end))
    | _ => Err ValueError
    end.
  (** Iterating over an array: its slices along the first axis. *)
  Definition arr_rows (a : arr F) : list (arr F) :=
    match a_shape a with
    | [] => []
    | d :: s => map (fun i => mkArr s (firstn (prod s) (skipn (i * prod s) (a_data a)))) (seq 0 d)
    end.
  Definition zeros (sh : list nat) : arr F := array_of sh (fun _ => f0 o).
End Arrays.

Section Evaluation.
  Context {F : Type} (o : ops F).
  (** [G]: physical geometry objects (coordinate_mapping). *)
  Context {G : Type}.
  Local Notation gem := (gem F).
  Local Notation pset := (pset F).
  Definition tables : Type := list (list nat * gem).
  Definition entity : Type := (dimkey * nat)%type.

  (* ---------------------------------------------------------------- *)
  (** ** FIAT leaves *)

  (** [fiat_element.tabulate(order, points, entity)] (external): a dictionary
      with one array of shape (space_dimension, *value_shape, npoints) per
      derivative multi-index up to the order; each entry is the leaf's number at
      that point. *)
  Definition fiat_tabulate (l : leaf F) (order : nat) (pts : list (list F)) (ent : entity)
    : list (list nat * arr F) :=
    map (fun alpha =>
      (alpha, array_of (lf_dim l :: lf_vshape l ++ [length pts])
                (fun idx => match idx with
                            | [] => f0 o
                            | i :: r => lf_tab l alpha ent (nth (last r 0) pts []) i (removelast r)
                            end)))
      (flat_map (mis (spatial_dimension (lf_cell l))) (seq 0 (S order))).

  (** One row (one value component) of the table of derivative order
      [derivative]: finat/fiat_elements.py:124-139. *)
  Definition fiat_expr (l : leaf F) (derivative : nat) (ps : pset) (table : arr F) : fresh gem :=
    fun n =>
    match lf_degree l with
    | DgT _ => Err TypeError
    | Dg degree =>
        (if (derivative =? degree) && negb (lf_macro l) then
           flift (match arr_rows table with
                  | [] => Err IndexError
                  | t0 :: _ => Ok (GLiteral t0)
                  end)
         else if degree <? derivative then
           flift (do! guard (forallb (fclose0 o) (a_data table)) AssertionError ;;
                  Ok (GLiteral (zeros o (lf_ishape l))))
         else
           t <~ flift (reshape table (map ix_extent (ps_indices ps) ++ [lf_dim l])) ;;
           partial_indexed (GLiteral t) (ps_indices ps)) n
    end.

  (** One derivative: finat/fiat_elements.py:118-157. *)
  Definition fiat_alpha (l : leaf F) (ps : pset) (npoints : nat) (alpha : list nat) (fiat_table : arr F)
    : fresh gem :=
    a <~ flift (reshape fiat_table [lf_dim l; prod (lf_vshape l); npoints]) ;;
    table_roll <~ flift (transpose120 o a) ;;
    exprs <~ mapF (fiat_expr l (sum alpha) ps) (arr_rows table_roll) ;;
    match lf_vshape l with
    | [] => match exprs with [expr] => fret expr | _ => flift (Err ValueError) end
    | _ =>
        beta <~ new_indices [lf_dim l] ;;
        self_indices <~ new_indices (lf_ishape l) ;;
        _ <~ flift (guard (Nat.eqb (length beta) (length self_indices)) AssertionError) ;;
        zeta <~ new_indices (lf_vshape l) ;;
        flift (do items <- mapM (fun expr => mk_indexed expr (map IFree beta)) exprs ;;
               do lt <- mk_list_tensor (lf_vshape l) items ;;
               do x <- mk_indexed lt (map IFree zeta) ;;
               mk_component_tensor x (beta ++ zeta))
    end.

  (** FiatElement.basis_evaluation, finat/fiat_elements.py:93-158.  FIAT
      tables that are exceptions (110-112) are not modelled: the numbers of a
      leaf are given by a total function. *)
  Definition fiat_basis_evaluation (l : leaf F) (order : nat) (ps : pset) (ent : option entity)
    : fresh tables :=
    pts <~ flift (ps_points ps) ;;
    mapF (fun at_ => x <~ fiat_alpha l ps (length pts) (fst at_) (snd at_) ;; fret (fst at_, x))
      (fiat_tabulate l order pts
         (match ent with Some x => x | None => (get_dimension (lf_cell l), 0) end)).

  (* ---------------------------------------------------------------- *)
  (** ** Composites, on the tables of their parts *)

  (** TensorProductElement._merge_evaluations, finat/tensor_product.py:99-138.
      [cdims]: spatial dimensions of the factor cells; [ishapes], [vshapes]:
      index and value shapes of the factors. *)
  Definition merge_evaluations (cdims : list nat) (ishapes vshapes : list (list nat))
      (factor_results : list tables) : fresh tables :=
    let keys := concat (map (map fst) factor_results) in
    match keys with
    | [] => flift (Err ValueError)
    | _ =>
      let order := fold_right Nat.max 0 (map sum keys) in
      alphas <~ mapF new_indices ishapes ;;
      zetas <~ mapF new_indices vshapes ;;
      flift (mapM (fun Delta =>
        do scalars <- mapM (fun x : (tables * list nat) * (list ix * list ix) =>
            let '((fr, delta), (alpha, zeta)) := x in
            do t <- dict_get (list_eqb Nat.eqb) fr delta ;;
            mk_indexed t (map IFree (alpha ++ zeta)))
          (zip (zip factor_results (split_slices cdims Delta)) (zip alphas zetas)) ;;
        do p <- reduce_product scalars ;;
        do ct <- mk_component_tensor p (concat alphas ++ concat zetas) ;;
        Ok (Delta, ct))
        (flat_map (mis (sum cdims)) (seq 0 (S order))))
    end.

  (** TensorFiniteElement._tensorise, finat/tensorfiniteelement.py:127-151. *)
  Definition tensorise (ishape vshape shape : list nat) (transpose : bool) (scalar_evaluation : tables)
    : fresh tables :=
    scalar_i <~ new_indices ishape ;;
    scalar_vi <~ new_indices vshape ;;
    tensor_i <~ new_indices shape ;;
    tensor_vi <~ new_indices shape ;;
    flift (
      do deltas <- reduce_product (map2 (fun j k => GDelta (IFree j) (IFree k)) tensor_i tensor_vi) ;;
      let index_ordering := if transpose then tensor_i ++ scalar_i ++ tensor_vi ++ scalar_vi
                            else scalar_i ++ tensor_i ++ tensor_vi ++ scalar_vi in
      mapM (fun ae =>
        do x <- mk_indexed (snd ae) (map IFree (scalar_i ++ scalar_vi)) ;;
        do p <- mk_product deltas x ;;
        do ct <- mk_component_tensor p index_ordering ;;
        Ok (fst ae, ct)) scalar_evaluation).

  (** EnrichedElement._compose_evaluations, finat/enriched.py:95-114.
      [ishapes]: index shapes of the summands; [n]: own space dimension;
      [vshape]: own value shape.  Keys are taken in the order of the first
      summand (Python: in the order of a frozenset). *)
  Definition same_keys (a b : tables) : bool :=
    forallb (fun kv => dict_mem (list_eqb Nat.eqb) b (fst kv)) a &&
    forallb (fun kv => dict_mem (list_eqb Nat.eqb) a (fst kv)) b.
  Definition merge_tables (ishapes : list (list nat)) (n : nat) (vshape : list nat) (ts : list gem)
    : fresh gem :=
    zeta <~ new_indices vshape ;;
    tensors <~ map2F (fun ishape table =>
        beta_i <~ new_indices ishape ;;
        flift (do x <- mk_indexed table (map IFree (beta_i ++ zeta)) ;; mk_component_tensor x beta_i))
      ishapes ts ;;
    beta <~ new_indices [n] ;;
    flift (do x <- mk_indexed (GConcatenate tensors) (map IFree beta) ;;
           mk_component_tensor x (beta ++ zeta)).
  Definition compose_evaluations (ishapes : list (list nat)) (n : nat) (vshape : list nat)
      (results : list tables) : fresh tables :=
    match results with
    | [] => flift (Err ValueError)
    | r0 :: rest =>
        _ <~ flift (guard (forallb (same_keys r0) rest) ValueError) ;;
        mapF (fun kv =>
          ts <~ flift (mapM (fun r => dict_get (list_eqb Nat.eqb) r (fst kv)) results) ;;
          m <~ merge_tables ishapes n vshape ts ;;
          fret (fst kv, m)) r0
    end.

  (** WrapperElementBase._transform_evaluation, finat/hdivcurl.py:61-71 and
      MixedSubElement._transform_evaluation, finat/mixed.py:78-88, for a
      transformation from a tensor to a list of scalars. *)
  Definition transform_evaluation (ishape vshape : list nat) (tr : gem -> result (list gem))
      (core_eval : tables) : fresh tables :=
    beta <~ new_indices ishape ;;
    zeta <~ new_indices vshape ;;
    mapF (fun at_ =>
      v <~ partial_indexed (snd at_) beta ;;
      flift (do us <- tr v ;;
             do u <- mk_list_tensor [length us] us ;;
             do x <- mk_indexed u (map IFree zeta) ;;
             do ct <- mk_component_tensor x (beta ++ zeta) ;;
             Ok (fst at_, ct))) core_eval.

  (** MixedSubElement._transform, finat/mixed.py:72-76; [vshape] is the value
      shape of the sub-element, [numpy.ndindex] runs in row-major order.
      Assignment outside the list raises IndexError. *)
  Fixpoint list_set {A} (l : list A) (k : nat) (x : A) : result (list A) :=
    match l, k with
    | [], _ => Err IndexError
    | _ :: r, 0 => Ok (x :: r)
    | y :: r, S k' => do r' <- list_set r k' x ;; Ok (y :: r')
    end.
  Definition mixed_transform (vshape : list nat) (size offset : nat) (v : gem) : result (list gem) :=
    fold_res (fun u jz =>
      do x <- mk_indexed v (map IFixed (snd jz)) ;;
      list_set u (offset + fst jz) x)
      (enumerate (cart (map (seq 0) vshape))) (repeat (GZero []) size).

  (** The transformations of finat/hdivcurl.py:151-225. *)
  Definition minus (v : gem) : result gem := mk_product (GLiteral (mkArr [] [fopp o (f1 o)])) v.
  Definition apply_transform (t : transform) (v : gem) : result (list gem) :=
    match t with
    | TScalar negate pos n =>
        do x <- (if negate then minus v else Ok v) ;;
        Ok (repeat (GZero []) pos ++ [x] ++ repeat (GZero []) (n - pos - 1))
    | TPad =>
        do a <- mk_indexed v [IFixed 0] ;;
        do b <- mk_indexed v [IFixed 1] ;;
        Ok [a; b; GZero []]
    | TRotHDiv =>
        do a <- mk_indexed v [IFixed 1] ;;
        do b <- mk_indexed v [IFixed 0] ;;
        do b' <- minus b ;;
        Ok [a; b'; GZero []]
    | TRotHCurl =>
        do a <- mk_indexed v [IFixed 1] ;;
        do a' <- minus a ;;
        do b <- mk_indexed v [IFixed 0] ;;
        Ok [a'; b; GZero []]
    end.

  (* ---------------------------------------------------------------- *)
  (** ** Element trees *)

  (** [leaf_eval]: basis_evaluation of the leaves, called with order, point
      set, entity and coordinate mapping. *)
  Context (leaf_eval : leaf F -> nat -> pset -> option entity -> option G -> fresh tables).

  (** finat/tensor_product.py:140-149, finat/tensorfiniteelement.py:112-121,
      finat/enriched.py:116-126, finat/mixed.py:90-92, finat/cube.py:67-78,
      finat/discontinuous.py:68-69, finat/hdivcurl.py:73-75.  TensorProductElement,
      FlattenedDimensions and the wrappers do not pass the coordinate mapping
      on. *)
  Fixpoint basis_evaluation (e : elt F) (order : nat) (ps : pset) (ent : option entity) (cm : option G)
    : fresh tables :=
    match e with
    | ELeaf l => leaf_eval l order ps ent cm
    | ETensorProduct fs =>
        cs <~ flift (mapM cell_of fs) ;;
        ents <~ flift (factor_entity cs ent) ;;
        _ <~ flift (guard (negb (Nat.eqb (length ents) 0)) ValueError) ;;
        pss <~ flift (factor_point_set (map (fun x => dk_total (fst x)) ents) ps) ;;
        frs <~ map2F (fun fe pe => basis_evaluation fe order (fst pe) (Some (snd pe)) None) fs (zip pss ents) ;;
        vss <~ flift (mapM value_shape fs) ;;
        merge_evaluations (map spatial_dimension cs) (map index_shape fs) vss frs
    | ETensor b shape transpose =>
        t <~ basis_evaluation b order ps ent cm ;;
        vs <~ flift (value_shape b) ;;
        tensorise (index_shape b) vs shape transpose t
    | EEnriched es =>
        rs <~ mapF (fun x => basis_evaluation x order ps ent cm) es ;;
        vs <~ flift (value_shape (EEnriched es)) ;;
        compose_evaluations (map index_shape es) (space_dimension (EEnriched es)) vs rs
    | EMixedSub e' size offset =>
        t <~ basis_evaluation e' order ps ent cm ;;
        vs <~ flift (value_shape e') ;;
        transform_evaluation (index_shape e') [size] (mixed_transform vs size offset) t
    | EFlattened p =>
        c <~ flift (cell_of p) ;;
        ent' <~ flift (match ent with
                       | None => do _ <- cell_of (EFlattened p) ;; unflatten_entity c None
                       | Some (DI k, i) => unflatten_entity c (Some (k, i))
                       | Some (DT _, _) => Err KeyError
                       end) ;;
        basis_evaluation p order ps (Some ent') None
    | EDiscontinuous e' => basis_evaluation e' order ps ent cm
    | EHDiv w =>
        t <~ basis_evaluation w order ps ent None ;;
        vs <~ flift (value_shape (EHDiv w)) ;;
        tr <~ flift (select_hdiv_transformer w) ;;
        transform_evaluation (index_shape w) vs (apply_transform tr) t
    | EHCurl w =>
        t <~ basis_evaluation w order ps ent None ;;
        vs <~ flift (value_shape (EHCurl w)) ;;
        tr <~ flift (select_hcurl_transformer w) ;;
        transform_evaluation (index_shape w) vs (apply_transform tr) t
    end.
End Evaluation.
