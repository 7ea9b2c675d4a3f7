(** Element trees and their structural methods (no evaluation). *)
From Coq Require Import String List Arith Bool.
From Verif Require Import Model.Prelude Model.Cell.
Import ListNotations.

(** Dispatch classes of leaf elements.
    [KFiat]: plain FiatElement subclasses (finat/fiat_elements.py:43);
    [KDiscontinuous]: DiscontinuousLagrange, Legendre and subclasses
    (finat/restricted.py:56-57); [KHDivTrace] (finat/restricted.py:209);
    [KPhysicallyMapped] (finat/restricted.py:41); [KOther]: element classes
    without a restriction rule (QuadratureElement, RuntimeTabulated,
    DirectSerendipity), represented by the results of their methods. *)
Inductive leaf_kind :=
| KFiat | KDiscontinuous | KHDivTrace | KPhysicallyMapped | KOther.

(** Polynomial degrees: an int or a (nested) tuple of ints. *)
Inductive deg :=
| Dg (d : nat)
| DgT (ds : list deg).

Fixpoint deg_eqb (a b : deg) : bool :=
  match a, b with
  | Dg x, Dg y => Nat.eqb x y
  | DgT xs, DgT ys =>
      (fix go (xs ys : list deg) : bool :=
         match xs, ys with
         | [], [] => true
         | x :: xs', y :: ys' => deg_eqb x y && go xs' ys'
         | _, _ => false
         end) xs ys
  | _, _ => false
  end.

Definition edofs := edict (list nat).

(** What a leaf (FIAT) element answers.  [F] is the type of scalars;
    [lf_tab alpha entity point i v] is component [v] of derivative [alpha] of
    basis function [i] at a point given in coordinates of [entity];
    [lf_macro] is [complex.is_macrocell()].
    finat/fiat_elements.py:50-91, 263-270 delegate to these; for FiatElement
    [lf_ishape] is [[lf_dim]] (finat/fiat_elements.py:80-82), for QuadratureElement it
    is the shape of the point set (finat/quadrature_element.py:79-82). *)
Record leaf (F : Type) := mkLeaf {
  lf_kind : leaf_kind;
  lf_cell : cell;
  lf_degree : deg;
  lf_formdegree : option nat;
  lf_edofs : edofs;
  lf_dim : nat;
  lf_ishape : list nat;
  lf_vshape : list nat;
  lf_mappings : list string;
  lf_macro : bool;
  lf_tab : list nat -> dimkey * nat -> list F -> nat -> list nat -> F
}.
Arguments lf_kind {F}. Arguments lf_cell {F}. Arguments lf_degree {F}.
Arguments lf_formdegree {F}. Arguments lf_edofs {F}. Arguments lf_dim {F}.
Arguments lf_ishape {F}. Arguments lf_vshape {F}. Arguments lf_mappings {F}.
Arguments lf_macro {F}. Arguments lf_tab {F}.
Arguments mkLeaf {F}.

(** Element objects. *)
Inductive elt (F : Type) :=
| ELeaf (l : leaf F)
| ETensorProduct (factors : list (elt F))                       (* finat/tensor_product.py:19 *)
| ETensor (base : elt F) (shape : list nat) (transpose : bool)  (* finat/tensorfiniteelement.py:13 *)
| EEnriched (elements : list (elt F))                           (* finat/enriched.py:13 *)
| EMixedSub (element : elt F) (size offset : nat)               (* finat/mixed.py:23 *)
| EFlattened (product : elt F)                                  (* finat/cube.py:12 *)
| EDiscontinuous (element : elt F)                              (* finat/discontinuous.py:8 *)
| EHDiv (wrappee : elt F)                                       (* finat/hdivcurl.py:95 *)
| EHCurl (wrappee : elt F).                                     (* finat/hdivcurl.py:123 *)
Arguments ELeaf {F}. Arguments ETensorProduct {F}. Arguments ETensor {F}.
Arguments EEnriched {F}. Arguments EMixedSub {F}. Arguments EFlattened {F}.
Arguments EDiscontinuous {F}. Arguments EHDiv {F}. Arguments EHCurl {F}.

Section Methods.
  Context {F : Type}.
  Local Notation elt := (elt F).

  (** finat/tensor_product.py:33-35, finat/tensorfiniteelement.py:56-58,
      finat/enriched.py:26-29, finat/mixed.py:36-38, finat/cube.py:22-30,
      finat/discontinuous.py:15-17, finat/hdivcurl.py:25-27, finat/fiat_elements.py:50-52. *)
  Fixpoint cell_of (e : elt) : result cell :=
    match e with
    | ELeaf l => Ok (lf_cell l)
    | ETensorProduct fs => do cs <- mapM cell_of fs ;; Ok (TPCell cs)
    | ETensor b _ _ => cell_of b
    | EEnriched es => do cs <- mapM cell_of es ;; unique cell_eqb cs
    | EMixedSub e' _ _ => cell_of e'
    | EFlattened p =>
        do c <- cell_of p ;;
        match spatial_dimension c with
        | 2 => Ok (Hypercube 2)
        | 3 => Ok (Hypercube 3)
        | _ => Err NotImplementedError
        end
    | EDiscontinuous e' => cell_of e'
    | EHDiv w => cell_of w
    | EHCurl w => cell_of w
    end.

  (** finat/tensor_product.py:25-31, 74-76; finat/tensorfiniteelement.py:108-110;
      finat/enriched.py:72-76; finat/mixed.py:68-70; finat/hdivcurl.py:57-59;
      finat/discontinuous.py:60-62; finat/cube.py:94-96. *)
  Definition product_value_shape (shapes : list (list nat)) : result (list nat) :=
    match filter (fun s => negb (list_eqb Nat.eqb s [])) shapes with
    | [] => Ok []
    | [s] => Ok s
    | _ => Err NotImplementedError
    end.

  Fixpoint value_shape (e : elt) : result (list nat) :=
    match e with
    | ELeaf l => Ok (lf_vshape l)
    | ETensorProduct fs => do ss <- mapM value_shape fs ;; product_value_shape ss
    | ETensor b shape _ => do s <- value_shape b ;; Ok (shape ++ s)
    | EEnriched es => do ss <- mapM value_shape es ;; unique (list_eqb Nat.eqb) ss
    | EMixedSub _ size _ => Ok [size]
    | EFlattened p => value_shape p
    | EDiscontinuous e' => value_shape e'
    | EHDiv w => do c <- cell_of w ;; Ok [spatial_dimension c]
    | EHCurl w => do c <- cell_of w ;; Ok [spatial_dimension c]
    end.

  (** index_shape and space_dimension.  In Python these are separate methods
      that call each other: TensorFiniteElement.space_dimension is the product
      of its index_shape (finat/tensorfiniteelement.py:98-106), EnrichedElement's
      index_shape is [(space_dimension,)] (finat/enriched.py:64-70),
      TensorProductElement has both (finat/tensor_product.py:67-72).  The pair
      (space_dimension, index_shape) is computed together here.
      Also finat/fiat_elements.py:77-82, finat/mixed.py:61-66, finat/cube.py:60-61, 90-92,
      finat/discontinuous.py:53-58, finat/hdivcurl.py:50-55. *)
  Fixpoint dims (e : elt) : nat * list nat :=
    match e with
    | ELeaf l => (lf_dim l, lf_ishape l)
    | ETensorProduct fs =>
        (prod (map (fun f => fst (dims f)) fs), concat (map (fun f => snd (dims f)) fs))
    | ETensor b shape transpose =>
        let ish := if transpose then shape ++ snd (dims b) else snd (dims b) ++ shape in
        (prod ish, ish)
    | EEnriched es =>
        let n := sum (map (fun x => fst (dims x)) es) in (n, [n])
    | EMixedSub e' _ _ => dims e'
    | EFlattened p => dims p
    | EDiscontinuous e' => dims e'
    | EHDiv w => dims w
    | EHCurl w => dims w
    end.
  Definition space_dimension (e : elt) : nat := fst (dims e).
  Definition index_shape (e : elt) : list nat := snd (dims e).

  (** finat/tensor_product.py:45-50, finat/enriched.py:39-45,
      finat/discontinuous.py:27-30, finat/hdivcurl.py:110-112, 138-140; the others
      delegate (finat/fiat_elements.py:63-65, finat/tensorfiniteelement.py:68-70, finat/mixed.py:48-50,
      finat/cube.py:41-43).  The inner option is Python's [None].  [max] of an empty set
      raises ValueError. *)
  Fixpoint formdegree (e : elt) : result (option nat) :=
    match e with
    | ELeaf l => Ok (lf_formdegree l)
    | ETensorProduct fs =>
        do ks <- mapM formdegree fs ;;
        Ok (fold_right (fun k acc => match k, acc with
                                     | Some a, Some b => Some (a + b)
                                     | _, _ => None end) (Some 0) ks)
    | ETensor b _ _ => formdegree b
    | EEnriched es =>
        do ks <- mapM formdegree es ;;
        match ks with
        | [] => Err ValueError
        | _ => Ok (fold_right (fun k acc => match k, acc with
                                            | Some a, Some b => Some (Nat.max a b)
                                            | _, _ => None end) (Some 0) ks)
        end
    | EMixedSub e' _ _ => formdegree e'
    | EFlattened p => formdegree p
    | EDiscontinuous e' => do c <- cell_of e' ;; Ok (Some (spatial_dimension c))
    | EHDiv w => do c <- cell_of w ;; Ok (Some (spatial_dimension c - 1))
    | EHCurl _ => Ok (Some 1)
    end.

  (** finat/fiat_elements.py:263-270, finat/tensor_product.py:191-199,
      finat/enriched.py:143-150, finat/hdivcurl.py:118-120, 146-148; others delegate
      (finat/tensorfiniteelement.py:207-209, finat/mixed.py:98-100, finat/cube.py:98-100,
      finat/discontinuous.py:78-80).
      [None] is Python's [None]. *)
  Definition unique_opt {A} (eqb : A -> A -> bool) (l : list A) : option A :=
    match unique eqb l with Ok x => Some x | Err _ => None end.
  Definition ostring_eqb (a b : option string) : bool :=
    match a, b with
    | None, None => true
    | Some x, Some y => String.eqb x y
    | _, _ => false
    end.
  Fixpoint mapping (e : elt) : option string :=
    match e with
    | ELeaf l => unique_opt String.eqb (lf_mappings l)
    | ETensorProduct fs =>
        match filter (fun m => negb (ostring_eqb m (Some "affine"%string))) (map mapping fs) with
        | [] => Some "affine"%string
        | [m] => m
        | _ => None
        end
    | ETensor b _ _ => mapping b
    | EEnriched es =>
        match unique_opt ostring_eqb (map mapping es) with
        | Some m => m
        | None => None
        end
    | EMixedSub e' _ _ => mapping e'
    | EFlattened p => mapping p
    | EDiscontinuous e' => mapping e'
    | EHDiv _ => Some "contravariant piola"%string
    | EHCurl _ => Some "covariant piola"%string
    end.

  (** finat/enriched.py:153-160, [tree_map(max, *degrees)]: all arguments
      ints, or all tuples of one length; otherwise unpacking raises.  Python's
      [max] with a single int argument is not reachable here (at least two
      summands); modelled as that int. *)
  Fixpoint tree_max2 (a b : deg) : result deg :=
    match a, b with
    | Dg x, Dg y => Ok (Dg (Nat.max x y))
    | DgT xs, DgT ys =>
        do zs <- (fix go (xs ys : list deg) : result (list deg) :=
                    match xs, ys with
                    | [], [] => Ok []
                    | x :: xs', y :: ys' =>
                        do z <- tree_max2 x y ;; do zs <- go xs' ys' ;; Ok (z :: zs)
                    | _, _ => Err ValueError
                    end) xs ys ;;
        Ok (DgT zs)
    | _, _ => Err ValueError
    end.
  Fixpoint tree_max (a : deg) (l : list deg) : result deg :=
    match l with
    | [] => Ok a
    | b :: r => do c <- tree_max2 a b ;; tree_max c r
    end.

  (** finat/tensor_product.py:41-43, finat/enriched.py:35-37, finat/cube.py:36-39; the
      others delegate (finat/fiat_elements.py:58-61, finat/tensorfiniteelement.py:64-66,
      finat/mixed.py:44-46, finat/discontinuous.py:23-25, finat/hdivcurl.py:33-35).  FlattenedDimensions iterates over the product's
      degree, which raises TypeError for an int. *)
  Fixpoint degree (e : elt) : result deg :=
    match e with
    | ELeaf l => Ok (lf_degree l)
    | ETensorProduct fs => do ds <- mapM degree fs ;; Ok (DgT ds)
    | ETensor b _ _ => degree b
    | EEnriched es =>
        do ds <- mapM degree es ;;
        match ds with [] => Err ValueError | d :: r => tree_max d r end
    | EMixedSub e' _ _ => degree e'
    | EFlattened p =>
        do d <- degree p ;;
        match d with Dg _ => Err TypeError | DgT ds => unique deg_eqb ds end
    | EDiscontinuous e' => degree e'
    | EHDiv w => degree w
    | EHCurl w => degree w
    end.

  (* ---------------------------------------------------------------- *)
  (** ** entity_dofs *)

  (** finat/tensor_product.py:202-224, [productise], on the factors'
      topology keys, space dimensions and dof dictionaries. *)
  Definition productise (topkeys : list (list dimkey)) (shape : list nat) (methods : list edofs)
    : result edofs :=
    mapM (fun dim =>
      do topds <- mapM (fun md => dict_get dimkey_eqb (fst md) (snd md)) (zip methods dim) ;;
      do dim_dofs <-
        mapM (fun tuple_ei =>
          do lists <- mapM (fun te => dict_get Nat.eqb (fst te) (snd te)) (zip topds tuple_ei) ;;
          match cart lists with
          | [] => Ok (tuple_ei, [])
          | tuple_vs => do vs <- mapM (ravel_multi_index shape) tuple_vs ;; Ok (tuple_ei, vs)
          end)
          (cart (map (fun topd => sorted Nat.leb (map fst topd)) topds)) ;;
      Ok (DT dim,
          enumerate (map snd (sorted (fun a b => tuple_leb (fst a) (fst b)) dim_dofs))))
      (cart topkeys).

  (** finat/enriched.py:163-181, [concatenate_entity_dofs]. *)
  Definition empty_dofs (c : cell) : edofs :=
    map (fun kn => (fst kn, map (fun i => (i, [])) (seq 0 (snd kn)))) (topology c).

  Definition extend_entity (acc : edofs) (dim : dimkey) (ent : nat) (new : list nat)
    : result edofs :=
    do row <- dict_get dimkey_eqb acc dim ;;
    do old <- dict_get Nat.eqb row ent ;;
    Ok (dict_set dimkey_eqb acc dim (dict_set Nat.eqb row ent (old ++ new))).

  Fixpoint fold_res {A B} (f : A -> B -> result A) (l : list B) (a : A) : result A :=
    match l with
    | [] => Ok a
    | x :: r => do a' <- f a x ;; fold_res f r a'
    end.

  Definition add_element_dofs (acc : edofs) (od : nat * edofs) : result edofs :=
    fold_res (fun acc dimdofs =>
      fold_res (fun acc entoff =>
        extend_entity acc (fst dimdofs) (fst entoff) (map (fun v => fst od + v) (snd entoff)))
        (snd dimdofs) acc)
      (snd od) acc.

  Definition concatenate_entity_dofs (c : cell) (space_dims : list nat) (ds : list edofs)
    : result edofs :=
    fold_res add_element_dofs (zip (cumsum0 space_dims) ds) (empty_dofs c).

  (** finat/tensorfiniteelement.py:72-93. *)
  Definition expand (transpose : bool) (space_dim ndof : nat) (dofs : list nat) : list nat :=
    if transpose then flat_map (fun i => map (fun v => v + i * space_dim) dofs) (seq 0 ndof)
    else flat_map (fun v => seq (v * ndof) ((v + 1) * ndof - v * ndof)) dofs.

  Definition tensor_entity_dofs (c : cell) (transpose : bool) (space_dim ndof : nat)
      (base_dofs : edofs) : result edofs :=
    mapM (fun dim =>
      do row <- dict_get dimkey_eqb base_dofs dim ;;
      Ok (dim, map (fun kd => (fst kd, expand transpose space_dim ndof (snd kd))) row))
      (map fst (topology c)).

  (** finat/discontinuous.py:32-38. *)
  Definition discontinuous_entity_dofs (c : cell) (space_dim : nat) : result edofs :=
    extend_entity (empty_dofs c) (get_dimension c) 0 (seq 0 space_dim).

  (** finat/tensor_product.py:52-61, finat/tensorfiniteelement.py:95-96,
      finat/enriched.py:47-51, finat/mixed.py:52-53, finat/cube.py:45-54,
      finat/discontinuous.py:40-41, finat/hdivcurl.py:37-38, finat/fiat_elements.py:67-68. *)
  Fixpoint entity_dofs (e : elt) : result edofs :=
    match e with
    | ELeaf l => Ok (lf_edofs l)
    | ETensorProduct fs =>
        do cs <- mapM cell_of fs ;;
        do ds <- mapM entity_dofs fs ;;
        productise (map (fun c => map fst (topology c)) cs) (map space_dimension fs) ds
    | ETensor b shape transpose =>
        do c <- cell_of b ;;
        do d <- entity_dofs b ;;
        tensor_entity_dofs c transpose (space_dimension b) (prod shape) d
    | EEnriched es =>
        do c <- (do cs <- mapM cell_of es ;; unique cell_eqb cs) ;;
        do ds <- mapM entity_dofs es ;;
        concatenate_entity_dofs c (map space_dimension es) ds
    | EMixedSub e' _ _ => entity_dofs e'
    | EFlattened p => do d <- entity_dofs p ;; Ok (flatten_entities d)
    | EDiscontinuous e' =>
        do c <- cell_of e' ;; discontinuous_entity_dofs c (space_dimension e')
    | EHDiv w => entity_dofs w
    | EHCurl w => entity_dofs w
    end.

  (* ---------------------------------------------------------------- *)
  (** ** Constructors *)

  (** TensorProductElement.__init__, finat/tensor_product.py:21-31. *)
  Definition mk_tensor_product (fs : list elt) : result elt :=
    do ss <- mapM value_shape fs ;;
    do _ <- product_value_shape ss ;;
    Ok (ETensorProduct fs).

  (** EnrichedElement.__new__, finat/enriched.py:17-24. *)
  Definition mk_enriched (es : list elt) : elt :=
    match flat_map (fun e => match e with EEnriched es' => es' | _ => [e] end) es with
    | [e] => e
    | es' => EEnriched es'
    end.

  (** MixedSubElement.__init__, finat/mixed.py:27-34. *)
  Definition mk_mixed_sub (e : elt) (size offset : nat) : result elt :=
    do! guard (offset <=? size) AssertionError ;;
    do s <- value_shape e ;;
    do! guard (offset + prod s <=? size) AssertionError ;;
    Ok (EMixedSub e size offset).

  (** MixedElement, finat/mixed.py:9-20. *)
  Definition mk_mixed (es : list elt) : result elt :=
    do ss <- mapM value_shape es ;;
    let sizes := map prod ss in
    let offsets := removelast (cumsum0 sizes) in
    let total_size := last (cumsum0 sizes) 0 in
    do subs <- mapM (fun oe => mk_mixed_sub (snd oe) total_size (fst oe)) (zip offsets es) ;;
    Ok (mk_enriched subs).

  (** FlattenedDimensions.__init__, finat/cube.py:17-20. *)
  Definition mk_flattened (p : elt) : result elt :=
    do _ <- cell_of p ;; Ok (EFlattened p).

  (** Transformations of H(div)/H(curl) wrappers, named by their effect:
      [TScale k pos n]: the scalar times [k] (k = -1 or 1; [true] is -1) at
      position [pos] of an n-vector;
      [TPad]: (v0, v1, 0); [TRotHDiv]: (v1, -v0, 0); [TRotHCurl]: (-v1, v0, 0). *)
  Inductive transform :=
  | TScalar (negate : bool) (pos n : nat)
  | TPad | TRotHDiv | TRotHCurl.

  Definition wrapper_factors (w : elt) : result (list elt) :=
    match w with ETensorProduct fs => Ok fs | _ => Err AssertionError end.

  (** select_hdiv_transformer, finat/hdivcurl.py:151-188. *)
  Definition select_hdiv_transformer (w : elt) : result transform :=
    do fs <- wrapper_factors w ;;
    match fs with
    | [f0; f1] =>
        do c1 <- cell_of f1 ;;
        do! guard (is_line c1) AssertionError ;;
        do k0 <- formdegree f0 ;;
        do k1 <- formdegree f1 ;;
        match k0, k1 with
        | Some 0, Some 1 => Ok (TScalar true 0 2)
        | Some 1, Some 0 => Ok (TScalar false 1 2)
        | Some 2, Some 0 => Ok (TScalar false 2 3)
        | Some 1, Some 1 =>
            if ostring_eqb (mapping w) (Some "contravariant piola"%string) then Ok TPad
            else if ostring_eqb (mapping w) (Some "covariant piola"%string) then Ok TRotHDiv
            else Err AssertionError
        | _, _ => Err AssertionError
        end
    | _ => Err AssertionError
    end.

  (** select_hcurl_transformer, finat/hdivcurl.py:191-225. *)
  Definition select_hcurl_transformer (w : elt) : result transform :=
    do fs <- wrapper_factors w ;;
    match fs with
    | [f0; f1] =>
        do c1 <- cell_of f1 ;;
        do! guard (is_line c1) AssertionError ;;
        do c <- cell_of w ;;
        do k0 <- formdegree f0 ;;
        do k1 <- formdegree f1 ;;
        if ostring_eqb (mapping w) (Some "affine"%string) then
          match k0, k1 with
          | Some 1, Some 0 => Ok (TScalar false 0 2)
          | Some 0, Some 1 =>
              Ok (TScalar false (spatial_dimension c - 1) (spatial_dimension c))
          | _, _ => Err AssertionError
          end
        else if ostring_eqb (mapping w) (Some "covariant piola"%string) then Ok TPad
        else if ostring_eqb (mapping w) (Some "contravariant piola"%string) then Ok TRotHCurl
        else Err AssertionError
    | _ => Err AssertionError
    end.

  (** HDivElement.__init__, finat/hdivcurl.py:98-108. *)
  Definition all_some (ks : list (option nat)) : result (list nat) :=
    mapM (fun k => match k with Some n => Ok n | None => Err ValueError end) ks.

  Definition mk_hdiv (w : elt) : result elt :=
    do fs <- wrapper_factors w ;;
    do ks <- mapM formdegree fs ;;
    do ns <- all_some ks ;;
    do c <- cell_of w ;;
    do! guard (Nat.eqb (sum ns + 1) (spatial_dimension c)) ValueError ;;
    do _ <- select_hdiv_transformer w ;;
    Ok (EHDiv w).

  (** HCurlElement.__init__, finat/hdivcurl.py:126-136. *)
  Definition mk_hcurl (w : elt) : result elt :=
    do fs <- wrapper_factors w ;;
    do ks <- mapM formdegree fs ;;
    do ns <- all_some ks ;;
    do! guard (Nat.eqb (sum ns) 1) ValueError ;;
    do _ <- select_hcurl_transformer w ;;
    Ok (EHCurl w).
End Methods.

(** Objects that Python code can build with the constructors above from given
    leaves. *)
Inductive built {F} : elt F -> Prop :=
| built_leaf : forall l, built (ELeaf l)
| built_tensor_product : forall fs e,
    Forall built fs -> mk_tensor_product fs = Ok e -> built e
| built_tensor : forall b shape tr, built b -> built (ETensor b shape tr)
| built_enriched : forall es, Forall built es -> built (mk_enriched es)
| built_mixed : forall es e, Forall built es -> mk_mixed es = Ok e -> built e
| built_flattened : forall p e, built p -> mk_flattened p = Ok e -> built e
| built_discontinuous : forall e, built e -> built (EDiscontinuous e)
| built_hdiv : forall w e, built w -> mk_hdiv w = Ok e -> built e
| built_hcurl : forall w e, built w -> mk_hcurl w = Ok e -> built e.
