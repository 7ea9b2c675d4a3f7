(** What restricting an element to entities has to deliver. *)
From Coq Require Import String List Arith Bool.
From Verif Require Import Model.Prelude Model.Cell Model.Element Model.Gem Model.Restricted.
From Verif Require Import Spec.Rowmajor Spec.EntityDofs Spec.Layout Spec.Tabulation.
Import ListNotations.

(** Dimension of the entities a restriction domain names, on a cell of
    dimension [D]. *)
Inductive names : string -> nat -> nat -> Prop :=
| nm_interior : forall D, names "interior" D D
| nm_facet : forall D, names "facet" (S D) D
| nm_face : forall D, names "face" D 2
| nm_edge : forall D, names "edge" D 1
| nm_vertex : forall D, names "vertex" D 0.

(** A domain that names entities of a [D]-dimensional cell. *)
Definition valid (domain : string) (D : nat) : Prop := exists d, names domain D d /\ d <= D.

(** [selects domain closure D d]: restriction to [domain] selects the dofs on
    entities of dimension [d]: those of the named dimension and, when the
    closure is taken, all below; but "interior" is the cell only. *)
Definition selects (domain : string) (closure : bool) (D d : nat) : Prop :=
  exists n, names domain D n /\ d <= D /\
    (d = n \/ closure = true /\ domain <> "interior"%string /\ d < n).

Section Restriction.
  Context {F : Type} (o : ops F).

  (** An entity of [e]'s cell has a dof and its dimension satisfies [S]. *)
  Definition some_dof (S : nat -> Prop) (d : edofs) : Prop :=
    exists k i v l, has_dofs d k i l /\ S (dk_total k) /\ In v l.

  (** Basis function [j] of [r] is basis function [sigma j] of [e]: on the
      selected entities [r] has [e]'s dofs in [e]'s order, elsewhere none, and
      values agree. *)
  Definition restricts (S : nat -> Prop) (e r : elt F) (sigma : nat -> nat) : Prop :=
    (exists c, cell_of e = Ok c /\ cell_of r = Ok c) /\
    (exists s, value_shape e = Ok s /\ value_shape r = Ok s) /\
    (exists de dr, entity_dofs e = Ok de /\ entity_dofs r = Ok dr /\
       forall k i le, has_dofs de k i le ->
         exists lr, has_dofs dr k i lr /\
           (S (dk_total k) -> map sigma lr = le) /\ (~ S (dk_total k) -> lr = [])) /\
    forall alpha ent pt j v x, j < space_dimension r ->
      value_of o r alpha ent pt j v x -> value_of o e alpha ent pt (sigma j) v x.

  (** The contract on FIAT.RestrictedElement for the domains of [l]'s cell. *)
  Definition leaf_restricts (S : nat -> Prop) (l l' : leaf F) (sigma : nat -> nat) : Prop :=
    lf_cell l' = lf_cell l /\ lf_vshape l' = lf_vshape l /\
    lf_formdegree l' = lf_formdegree l /\ mapping (ELeaf l') = mapping (ELeaf l) /\
    leaf_ok l' /\ 0 < lf_dim l' /\
    (forall k i le, has_dofs (lf_edofs l) k i le ->
       exists lr, has_dofs (lf_edofs l') k i lr /\
         (S (dk_total k) -> map sigma lr = le) /\ (~ S (dk_total k) -> lr = [])) /\
    forall alpha ent pt j v, j < lf_dim l' ->
      lf_tab l' alpha ent pt j v = lf_tab l alpha ent pt (sigma j) v.

  Definition fiat_restricts (fiat_restrict : leaf F -> string -> bool -> result (leaf F)) (l : leaf F) : Prop :=
    forall domain closure, valid domain (spatial_dimension (lf_cell l)) ->
      let S := selects domain closure (spatial_dimension (lf_cell l)) in
      (some_dof S (lf_edofs l) ->
         exists l' sigma, fiat_restrict l domain closure = Ok l' /\ leaf_restricts S l l' sigma) /\
      (~ some_dof S (lf_edofs l) -> fiat_restrict l domain closure = Err ValueError).

  (** Elements whose form degree and mapping do not depend on the part of the
      element that is looked at. *)
  Inductive uniform : elt F -> Prop :=
  | un_leaf : forall l, uniform (ELeaf l)
  | un_product : forall fs, Forall uniform fs -> uniform (ETensorProduct fs)
  | un_tensor : forall b s t, uniform b -> uniform (ETensor b s t)
  | un_enriched : forall es, Forall uniform es ->
      (forall a b, In a es -> In b es -> formdegree a = formdegree b /\ mapping a = mapping b) ->
      uniform (EEnriched es)
  | un_flattened : forall p, uniform p -> uniform (EFlattened p)
  | un_discontinuous : forall e, uniform (EDiscontinuous e)
  | un_hdiv : forall w, uniform (EHDiv w)
  | un_hcurl : forall w, uniform (EHCurl w).

  (** Elements that can be restricted to [domain]:
      - FIAT leaves for which FIAT does what it says; a trace element is
        restricted with closure;
      - discontinuous elements, all of whose dofs belong to the cell, unless a
        domain other than "interior" names the cell itself;
      - products of factors on cells with an int dimension that can be
        restricted without closure to every kind of entity;
      - tensor and flattened elements, sums;
      - mixed elements with at least two members, as MixedElement makes
        them, either all or none of which
        have a selected dof;
      - H(div) and H(curl) wrappers around a product of uniform factors. *)
  Context (fiat_restrict : leaf F -> string -> bool -> result (leaf F)).
  Inductive restrictable : string -> bool -> elt F -> Prop :=
  | rs_fiat : forall domain cl l, lf_kind l = KFiat -> fiat_restricts fiat_restrict l ->
      restrictable domain cl (ELeaf l)
  | rs_trace : forall domain cl l, lf_kind l = KHDivTrace -> fiat_restricts fiat_restrict l ->
      (forall k i ds, has_dofs (lf_edofs l) k i ds -> ds <> [] -> S (dk_total k) = spatial_dimension (lf_cell l)) ->
      (cl = true \/ domain = "interior"%string \/ ~ selects domain true (spatial_dimension (lf_cell l)) (spatial_dimension (lf_cell l))) ->
      restrictable domain cl (ELeaf l)
  | rs_discontinuous_leaf : forall domain cl l, lf_kind l = KDiscontinuous -> 0 < lf_dim l ->
      (forall k i ds, has_dofs (lf_edofs l) k i ds -> ds <> [] -> dk_total k = spatial_dimension (lf_cell l)) ->
      (domain = "interior"%string \/ ~ selects domain cl (spatial_dimension (lf_cell l)) (spatial_dimension (lf_cell l))) ->
      restrictable domain cl (ELeaf l)
  | rs_discontinuous : forall domain cl e c, cell_of e = Ok c -> built e -> 0 < space_dimension e ->
      (domain = "interior"%string \/ ~ selects domain cl (spatial_dimension c) (spatial_dimension c)) ->
      restrictable domain cl (EDiscontinuous e)
  | rs_product : forall domain cl fs,
      Forall (fun f => exists c n, cell_of f = Ok c /\ get_dimension c = DI n /\ n <= 4 /\
                forall d m, names d n m -> m <= n -> d = "interior"%string \/ m < n -> restrictable d false f) fs ->
      restrictable domain cl (ETensorProduct fs)
  | rs_tensor : forall domain cl b s t, Forall (lt 0) s -> restrictable domain cl b -> restrictable domain cl (ETensor b s t)
  | rs_flattened : forall domain cl p, restrictable domain cl p -> restrictable domain cl (EFlattened p)
  | rs_enriched : forall domain cl es,
      Forall (fun e => match e with EMixedSub _ _ _ => False | _ => True end) es ->
      Forall (restrictable domain cl) es -> restrictable domain cl (EEnriched es)
  | rs_mixed : forall domain cl es subs c, Forall (restrictable domain cl) es ->
      mk_mixed es = Ok (EEnriched subs) -> cell_of (EEnriched subs) = Ok c ->
      (forall a b da db, In a es -> In b es -> entity_dofs a = Ok da -> entity_dofs b = Ok db ->
         some_dof (selects domain cl (spatial_dimension c)) da -> some_dof (selects domain cl (spatial_dimension c)) db) ->
      restrictable domain cl (EEnriched subs)
  | rs_hdiv : forall domain cl w, restrictable domain cl w -> uniform w -> mk_hdiv w = Ok (EHDiv w) ->
      (exists s, value_shape w = Ok s) -> restrictable domain cl (EHDiv w)
  | rs_hcurl : forall domain cl w, restrictable domain cl w -> uniform w -> mk_hcurl w = Ok (EHCurl w) ->
      (exists s, value_shape w = Ok s) -> restrictable domain cl (EHCurl w).
End Restriction.
