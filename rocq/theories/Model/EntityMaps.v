(** Maps between entities, closures, permutations of dofs. *)
From Coq Require Import List Arith Bool.
From Verif Require Import Model.Prelude Model.Cell Model.Element.
Import ListNotations.

(** TensorProductElement._factor_entity, finat/tensor_product.py:84-97; the
    default entity [None] is the cell itself.  [entity_dim] that is not a
    tuple, or of the wrong length, fails an assertion. *)
Definition factor_entity (cs : list cell) (entity : option (dimkey * nat))
  : result (list (dimkey * nat)) :=
  let entity' := match entity with
                 | None => (get_dimension (TPCell cs), 0)
                 | Some x => x end in
  match fst entity' with
  | DI _ => Err AssertionError
  | DT dims =>
      do! guard (Nat.eqb (length dims) (length cs)) AssertionError ;;
      do shape <- mapM (fun cd => dict_get dimkey_eqb (topology (fst cd)) (snd cd)) (zip cs dims) ;;
      do ids <- unravel_index shape (snd entity') ;;
      Ok (zip dims ids)
  end.

(** FlattenedDimensions.basis_evaluation's choice of product entity,
    finat/cube.py:75-78: [self._unflatten[entity]], default the cell itself. *)
Definition unflatten_entity (c : cell) (entity : option (nat * nat)) : result (dimkey * nat) :=
  let entity' := match entity with None => (spatial_dimension c, 0) | Some x => x end in
  dict_get pair_eqb (compute_unflattening_map (topology c)) entity'.

(** FiniteElementBase._entity_closure_dofs, finat/finiteelementbase.py:65-72.
    [subs] is [cell.sub_entities] (FIAT). *)
Definition entity_closure_dofs (subs : edict (list (dimkey * nat))) (entity_dofs : edofs)
  : result edofs :=
  mapM (fun dim_entities =>
    do row <- mapM (fun e_subs =>
      do ls <- mapM (fun d_se =>
        do r <- dict_get dimkey_eqb entity_dofs (fst d_se) ;; dict_get Nat.eqb r (snd d_se))
        (snd e_subs) ;;
      Ok (fst e_subs, sorted Nat.leb (concat ls)))
      (snd dim_entities) ;;
    Ok (fst dim_entities, row))
    subs.

Section Permutations.
  (** [O]: orientation keys (ints, or tuples on product cells). *)
  Context {O : Type} (oeqb : O -> O -> bool).

  Definition eperms := edict (list (O * list nat)).

  Definition getd {K V} (eqb : K -> K -> bool) (dflt : V) (d : list (K * V)) (k : K) : V :=
    match dict_get eqb d k with Ok v => v | Err _ => dflt end.

  (** [for k, w in items: v = d.setdefault(k, dflt); v <- upd v w]. *)
  Definition dict_merge {K V W} (eqb : K -> K -> bool) (dflt : V) (upd : V -> W -> V)
      (d : list (K * V)) (items : list (K * W)) : list (K * V) :=
    fold_left (fun d kw => dict_set eqb d (fst kw) (upd (getd eqb dflt d (fst kw)) (snd kw))) items d.

  (** concatenate_entity_permutations, finat/enriched.py:184-203. *)
  Definition append_shifted (old p : list nat) : list nat :=
    old ++ map (fun q => length old + q) p.
  Definition add_permutations (acc el : eperms) : eperms :=
    dict_merge dimkey_eqb [] (dict_merge Nat.eqb [] (dict_merge oeqb [] append_shifted)) acc el.
  Definition concatenate_entity_permutations (els : list eperms) : eperms :=
    fold_left add_permutations els [].
End Permutations.
