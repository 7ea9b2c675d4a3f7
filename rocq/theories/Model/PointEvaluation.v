(** Evaluation at a point given by a GEM expression: point_evaluation of the
    element classes. *)
From Coq Require Import String List Arith Bool ZArith.
From Verif Require Import Model.Prelude Model.Cell Model.Element Model.EntityMaps Model.Gem Model.PointSet
  Model.Evaluation Model.Sympy2Gem.
Import ListNotations.
Open Scope fresh_scope.

Section PointEvaluation.
  Context {F : Type} (o : ops F).
  (** [float(z)], NaN and the functions behind [gem.Power] etc., by name. *)
  Context (ofZ : Z -> F) (nan : F) (fn : string -> list F -> F).
  Local Notation gem := (gem F).
  Local Notation tables := (@tables F).

  (** The nodes made by sympy2gem as GEM expressions (change of
      representation, no code of its own; XConditional has scalar branches
      here). *)
  Fixpoint gem_of (g : xgem F) : gem :=
    match g with
    | XGem g => g
    | XLiteral x => GLiteral (mkArr [] [x])
    | XSum a b => GSum (gem_of a) (gem_of b)
    | XProduct a b => GProduct (gem_of a) (gem_of b)
    | XDivision a b => GDivision (gem_of a) (gem_of b)
    | XPower a b => GFunction (fn "power") [gem_of a; gem_of b]
    | XMathFunction name a => GFunction (fn name) [gem_of a]
    | XComparison operator a b => GFunction (fn operator) [gem_of a; gem_of b]
    | XLogicalNot a => GFunction (fn "not") [gem_of a]
    | XLogicalOr a b => GFunction (fn "or") [gem_of a; gem_of b]
    | XLogicalAnd a b => GFunction (fn "and") [gem_of a; gem_of b]
    | XConditional c t e => GFunction (fn "if") [gem_of c; gem_of t; gem_of e]
    end.

  (** [fiat_element.tabulate(order, [Xi], entity)] with symbols for the
      coordinates (external): [sym l alpha ent i v] is the expression for
      component [v] of derivative [alpha] of function [i]. *)
  Context (sym : leaf F -> list nat -> entity -> nat -> list nat -> snode F).
  Definition fiat_tabulate_symbols (l : leaf F) (order : nat) (ent : entity) : list (list nat * arr (snode F)) :=
    map (fun alpha =>
      (alpha, array_of (lf_dim l :: lf_vshape l ++ [1])
                (fun idx => match idx with
                            | [] => SForeign
                            | i :: r => sym l alpha ent i (removelast r)
                            end)))
      (flat_map (mis (spatial_dimension (lf_cell l))) (seq 0 (S order))).

  (** [a.reshape(rows, cols).transpose()] row by row, of a flat array. *)
  Definition columns (rows cols : nat) (data : list gem) : result (list (list gem)) :=
    do! guard (Nat.eqb (length data) (rows * cols)) ValueError ;;
    Ok (map (fun j => map (fun i => nth (i * cols + j) data (GZero [])) (seq 0 rows)) (seq 0 cols)).

  (** One derivative: finat/fiat_elements.py:287-312.  [np.vectorize] refuses
      arrays without entries. *)
  Definition point_alpha (l : leaf F) (refcoords : gem) (Xi : list string) (fiat_table : arr (snode F))
    : fresh gem :=
    bindings <~ flift (mapM (fun is_ => do x <- mk_indexed refcoords [IFixed (fst is_)] ;; Ok (snd is_, x))
                         (enumerate Xi)) ;;
    _ <~ flift (guard (negb (Nat.eqb (prod (a_shape fiat_table)) 0)) ValueError) ;;
    gem_table <~ flift (mapM (fun e => do g <- sympy2gem o ofZ nan bindings e ;; Ok (gem_of g))
                          (a_data fiat_table)) ;;
    table_roll <~ flift (columns (lf_dim l) (prod (lf_vshape l)) gem_table) ;;
    exprs <~ flift (mapM (mk_list_tensor [lf_dim l]) table_roll) ;;
    match lf_vshape l with
    | [] => match exprs with [expr] => fret expr | _ => flift (Err ValueError) end
    | _ =>
        beta <~ new_indices [lf_dim l] ;;
        zeta <~ new_indices (lf_vshape l) ;;
        flift (do items <- mapM (fun expr => mk_indexed expr (map IFree beta)) exprs ;;
               do lt <- mk_list_tensor (lf_vshape l) items ;;
               do x <- mk_indexed lt (map IFree zeta) ;;
               mk_component_tensor x (beta ++ zeta))
    end.

  (** FiatElement.point_evaluation and point_evaluation,
      finat/fiat_elements.py:160-179 and 273-313.  Tables that are exceptions
      (283-285) are not modelled. *)
  Definition fiat_point_evaluation (l : leaf F) (order : nat) (refcoords : gem) (ent : option entity)
    : fresh tables :=
    let ent := match ent with Some x => x | None => (get_dimension (lf_cell l), 0) end in
    let esd := dk_total (fst ent) in
    _ <~ flift (guard (list_eqb Nat.eqb (gshape refcoords) [esd]) AssertionError) ;;
    mapF (fun at_ => x <~ point_alpha l refcoords (firstn esd ["X"; "Y"; "Z"]%string) (snd at_) ;; fret (fst at_, x))
      (fiat_tabulate_symbols l order ent).

  (* ---------------------------------------------------------------- *)
  (** ** Element trees *)

  (** finat/tensor_product.py:155-166: the point expression, cut into vectors
      for the factors. *)
  Definition split_point (point_dims : list nat) (point : gem) : result (list gem) :=
    do! guard (list_eqb Nat.eqb (gshape point) [sum point_dims]) AssertionError ;;
    mapM (fun s => do xs <- mapM (fun i => mk_indexed point [IFixed i]) s ;; mk_list_tensor [length xs] xs)
      (split_slices point_dims (seq 0 (sum point_dims))).

  (** [leaf_point]: point_evaluation of the leaves.  PhysicallyMappedElement,
      DirectSerendipity, QuadratureElement and RuntimeTabulated raise
      NotImplementedError (finat/physically_mapped.py:287-288,
      finat/direct_serendipity.py:125-126, finat/quadrature_element.py:127-128,
      finat/runtime_tabulated.py:97-98). *)
  Context (leaf_point : leaf F -> nat -> gem -> option entity -> fresh tables).

  (** finat/tensor_product.py:151-172, finat/tensorfiniteelement.py:123-125,
      finat/enriched.py:128-141, finat/mixed.py:94-96, finat/cube.py:80-84,
      finat/discontinuous.py:71-72, finat/hdivcurl.py:77-79. *)
  Fixpoint point_evaluation (e : elt F) (order : nat) (point : gem) (ent : option entity) : fresh tables :=
    match e with
    | ELeaf l => leaf_point l order point ent
    | ETensorProduct fs =>
        cs <~ flift (mapM cell_of fs) ;;
        ents <~ flift (factor_entity cs ent) ;;
        _ <~ flift (guard (negb (Nat.eqb (length ents) 0)) ValueError) ;;
        point_factors <~ flift (split_point (map (fun x => dk_total (fst x)) ents) point) ;;
        frs <~ map2F (fun fe pe => point_evaluation fe order (fst pe) (Some (snd pe))) fs (zip point_factors ents) ;;
        vss <~ flift (mapM value_shape fs) ;;
        merge_evaluations (map spatial_dimension cs) (map index_shape fs) vss frs
    | ETensor b shape transpose =>
        t <~ point_evaluation b order point ent ;;
        vs <~ flift (value_shape b) ;;
        tensorise (index_shape b) vs shape transpose t
    | EEnriched es =>
        rs <~ mapF (fun x => point_evaluation x order point ent) es ;;
        vs <~ flift (value_shape (EEnriched es)) ;;
        compose_evaluations (map index_shape es) (space_dimension (EEnriched es)) vs rs
    | EMixedSub e' size offset =>
        t <~ point_evaluation e' order point ent ;;
        vs <~ flift (value_shape e') ;;
        transform_evaluation (index_shape e') [size] (mixed_transform vs size offset) t
    | EFlattened p =>
        c <~ flift (cell_of p) ;;
        ent' <~ flift (match ent with
                       | None => do _ <- cell_of (EFlattened p) ;; unflatten_entity c None
                       | Some (DI k, i) => unflatten_entity c (Some (k, i))
                       | Some (DT _, _) => Err KeyError
                       end) ;;
        point_evaluation p order point (Some ent')
    | EDiscontinuous e' => point_evaluation e' order point ent
    | EHDiv w =>
        t <~ point_evaluation w order point ent ;;
        vs <~ flift (value_shape (EHDiv w)) ;;
        tr <~ flift (select_hdiv_transformer w) ;;
        transform_evaluation (index_shape w) vs (apply_transform o tr) t
    | EHCurl w =>
        t <~ point_evaluation w order point ent ;;
        vs <~ flift (value_shape (EHCurl w)) ;;
        tr <~ flift (select_hcurl_transformer w) ;;
        transform_evaluation (index_shape w) vs (apply_transform o tr) t
    end.
End PointEvaluation.
