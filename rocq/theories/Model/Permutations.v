(** Permutations of the dofs of an entity under a change of its orientation. *)
From Coq Require Import List Arith Bool.
From Verif Require Import Model.Prelude Model.Cell Model.Element Model.EntityMaps.
Import ListNotations.

(** [entity_dofs() == entity_closure_dofs()], Python's comparison of nested
    dictionaries: the same keys on both levels and equal lists. *)
Definition row_eqb (a b : list (nat * list nat)) : bool :=
  (length a =? length b) &&
  forallb (fun kv => match dict_get Nat.eqb b (fst kv) with
                     | Ok w => list_eqb Nat.eqb (snd kv) w
                     | Err _ => false end) a.
Definition edofs_eqb (a b : edofs) : bool :=
  (length a =? length b) &&
  forallb (fun kr => match dict_get dimkey_eqb b (fst kr) with
                     | Ok r => row_eqb (snd kr) r
                     | Err _ => false end) a.

Section TreePermutations.
  Context {F O : Type} (oeqb : O -> O -> bool).
  Local Notation elt := (elt F).
  Local Notation omap := (list (O * list nat)).

  (** FIAT's make_entity_permutations_tensorproduct(cells, dim, o_p_maps)
      (imported in finat/tensor_product.py:10, called in 297). *)
  Variable tp_permutations : list cell -> list dimkey -> list omap -> omap.
  (** FIAT's flatten_permutations (imported in finat/cube.py:4) renumbers
      entities as flatten_entities does and replaces the orientation tuple of
      an entity of dimension [dim] by an integer: [flat_orientation dim o]. *)
  Variable flat_orientation : dimkey -> O -> O.
  (** FIAT's [entity_permutations()] of the element behind a leaf
      (finat/fiat_elements.py:73-75), or NotImplementedError of the classes
      without it (finat/fiat_elements.py:415-417, 424-426, 433-435, 442-444,
      456-458, 465-467; finat/finiteelementbase.py:40-63 for
      QuadratureElement, RuntimeTabulated and DirectSerendipity). *)
  Variable leaf_permutations : leaf F -> result (eperms (O := O)).
  (** [cell.sub_entities] (FIAT). *)
  Variable sub_entities : cell -> edict (list (dimkey * nat)).

  (** compose_permutations, finat/tensor_product.py:227-300.  The factors'
      dictionaries are computed before the loops, in Python inside them (they
      are cached); the result is the same. *)
  Definition compose_permutations (cells : list cell) (perms : list (eperms (O := O)))
    : result (eperms (O := O)) :=
    mapM (fun dim =>
      do e_o_p_maps <- mapM (fun pd => dict_get dimkey_eqb (fst pd) (snd pd)) (zip perms dim) ;;
      do dim_permutations <-
        mapM (fun e_tuple =>
          do o_p_maps <- mapM (fun me => dict_get Nat.eqb (fst me) (snd me)) (zip e_o_p_maps e_tuple) ;;
          Ok (e_tuple, tp_permutations cells dim o_p_maps))
          (cart (map (fun m => sorted Nat.leb (map fst m)) e_o_p_maps)) ;;
      Ok (DT dim,
          enumerate (map snd (sorted (fun a b => tuple_leb (fst a) (fst b)) dim_permutations))))
      (cart (map (fun c => map fst (topology c)) cells)).

  (** FIAT.reference_element.flatten_permutations, see above. *)
  Definition flatten_permutations (perms : eperms (O := O)) : eperms (O := O) :=
    flatten_entities
      (map (fun kr => (fst kr,
              map (fun im => (fst im, map (fun op => (flat_orientation (fst kr) (fst op), snd op)) (snd im)))
                  (snd kr))) perms).

  (** finat/tensor_product.py:63-65, finat/enriched.py:53-57,
      finat/cube.py:56-58, finat/discontinuous.py:43-51, finat/hdivcurl.py:40-42;
      TensorFiniteElement and MixedSubElement do not override
      finat/finiteelementbase.py:40-63.  [entity_closure_dofs] in
      finat/discontinuous.py:48 is the one of finat/finiteelementbase.py:65-78
      for every class; the FIAT and wrapper versions return the same lists. *)
  Fixpoint entity_permutations (e : elt) : result (eperms (O := O)) :=
    match e with
    | ELeaf l => leaf_permutations l
    | ETensorProduct fs =>
        do cs <- mapM cell_of fs ;;
        do ps <- mapM entity_permutations fs ;;
        compose_permutations cs ps
    | ETensor _ _ _ => Err NotImplementedError
    | EEnriched es =>
        do ps <- mapM entity_permutations es ;;
        Ok (concatenate_entity_permutations oeqb ps)
    | EMixedSub _ _ _ => Err NotImplementedError
    | EFlattened p =>
        do ps <- entity_permutations p ;; Ok (flatten_permutations ps)
    | EDiscontinuous e' =>
        do c <- cell_of e' ;;
        do d <- entity_dofs e' ;;
        do cl <- entity_closure_dofs (sub_entities c) d ;;
        if edofs_eqb d cl then entity_permutations e' else Err NotImplementedError
    | EHDiv w => entity_permutations w
    | EHCurl w => entity_permutations w
    end.
End TreePermutations.
