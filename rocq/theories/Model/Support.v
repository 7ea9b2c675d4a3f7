(** Entity support dofs: the basis functions that do not vanish on an entity. *)
From Coq Require Import String List Arith ZArith Bool.
From Verif Require Import Model.Prelude Model.Cell Model.Element Model.Gem Model.PointSet Model.Evaluation
  Model.Quadrature.
Import ListNotations.
Open Scope fresh_scope.

(** [(2*numpy.array(self.degree)).tolist()], finat/finiteelementbase.py:88.
    numpy only makes an array of a nested tuple if its members have the same
    shape, else it raises ValueError (numpy 1.24 and later). *)
Fixpoint deg_shape (d : deg) : option (list nat) :=
  match d with
  | Dg _ => Some []
  | DgT ds =>
      (fix go (l : list deg) : option (list nat) :=
         match l with
         | [] => Some [0]
         | [d] => match deg_shape d with Some s => Some (1 :: s) | None => None end
         | d :: r =>
             match deg_shape d, go r with
             | Some s, Some (n :: s') => if list_eqb Nat.eqb s s' then Some (S n :: s) else None
             | _, _ => None
             end
         end) ds
  end.
Fixpoint doubled (d : deg) : qdeg :=
  match d with
  | Dg n => QInt (2 * Z.of_nat n)
  | DgT ds => QTuple (map doubled ds)
  end.
Definition double_degree (d : deg) : result qdeg :=
  match deg_shape d with Some _ => Ok (doubled d) | None => Err ValueError end.

Section Support.
  Context {F G : Type} (o : ops F).
  (** [i > eps] and [eps = 1.e-8], finat/finiteelementbase.py:90, 107. *)
  Context (gtb : F -> F -> bool) (eps : F).
  (** As in [make_quadrature] and [basis_evaluation]. *)
  Context (gl : cell -> nat -> list (list F) * list F).
  Context (sch : cell -> nat -> string -> result (list (list F) * list F)).
  Context (macro : cell -> bool).
  Context (leaf_eval : leaf F -> nat -> pset F -> option (dimkey * nat) -> option G -> fresh (list (list nat * gem F))).
  (** FIAT's [cell.construct_subelement(dim)]: the cell of an entity. *)
  Context (sub_cell : cell -> dimkey -> cell).
  Local Notation elt := (elt F).

  (** The body of the inner loop, finat/finiteelementbase.py:94-107.
      [gem.interpreter.evaluate] (external) gives the values of an expression
      without variables for all its multi-indices; [flatten] puts them in
      row-major order. *)
  Definition entity_support (e : elt) (beta zeta : list ix) (quad : qrule F) (k : dimkey) (f : nat)
    : fresh (nat * list nat) :=
    ts <~ basis_evaluation o leaf_eval e 0 (q_point_set quad) (Some (k, f)) None ;;
    flift (
      do vals <- match ts with [(_, v)] => Ok v | _ => Err ValueError end ;;
      do x <- mk_indexed vals (map IFree (beta ++ zeta)) ;;
      do y <- mk_indexed vals (map IFree (beta ++ zeta)) ;;
      do xy <- mk_product x y ;;
      do square <- mk_index_sum xy zeta ;;
      do weight <- q_weight quad ;;
      do weighted <- mk_product square weight ;;
      do ints <- mk_index_sum weighted (ps_indices (q_point_set quad)) ;;
      do t <- mk_component_tensor ints beta ;;
      let arr := map (eval o (fun _ _ => f0 o) t (fun _ => 0)) (cart (map (seq 0) (gshape t))) in
      do! guard (match gfree t with [] => true | _ => false end) AssertionError ;;
      Ok (f, map fst (filter (fun di => gtb (snd di) eps) (enumerate arr)))).

  (** FiniteElementBase._entity_support_dofs, finat/finiteelementbase.py:80-109.
      [cell.sub_entities] has the dimensions of the topology as its keys. *)
  Definition base_support (e : elt) : fresh edofs :=
    c <~ flift (cell_of e) ;;
    mapF (fun k =>
      beta <~ new_indices (index_shape e) ;;
      vs <~ flift (value_shape e) ;;
      zeta <~ new_indices vs ;;
      deg <~ flift (do d <- degree e ;; double_degree d) ;;
      quad <~ make_quadrature gl sch macro (sub_cell c k) deg "default" ;;
      row <~ flift (do d <- entity_dofs e ;; dict_get dimkey_eqb d k) ;;
      result <~ mapF (entity_support e beta zeta quad k) (map fst row) ;;
      fret (k, result))
      (map fst (topology c)).

  (** [entity_support_dofs()], finat/finiteelementbase.py:111-115,
      finat/tensor_product.py:56-58, finat/enriched.py:59-62,
      finat/cube.py:49-51, finat/mixed.py:58-59, finat/hdivcurl.py:47-48. *)
  Fixpoint entity_support_dofs (e : elt) : fresh edofs :=
    match e with
    | ELeaf _ | ETensor _ _ _ | EDiscontinuous _ => base_support e
    | ETensorProduct fs =>
        cs <~ flift (mapM cell_of fs) ;;
        ds <~ mapF entity_support_dofs fs ;;
        flift (productise (map (fun c => map fst (topology c)) cs) (map space_dimension fs) ds)
    | EEnriched es =>
        c <~ flift (do cs <- mapM cell_of es ;; unique cell_eqb cs) ;;
        ds <~ mapF entity_support_dofs es ;;
        flift (concatenate_entity_dofs c (map space_dimension es) ds)
    | EMixedSub e' _ _ => entity_support_dofs e'
    | EFlattened p => d <~ entity_support_dofs p ;; fret (flatten_entities d)
    | EHDiv w => entity_support_dofs w
    | EHCurl w => entity_support_dofs w
    end.

  (** The function of the same name, finat/finiteelementbase.py:283-290. *)
  Definition entity_support_row (e : elt) (k : dimkey) : fresh (list (nat * list nat)) :=
    d <~ entity_support_dofs e ;; flift (dict_get dimkey_eqb d k).
End Support.
