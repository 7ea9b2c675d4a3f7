(** What tabulation has to deliver, stated by basis functions, points and
    components. *)
From Coq Require Import String List Arith.
From Verif Require Import Model.Prelude Model.Cell Model.Element Model.EntityMaps Model.Gem Model.PointSet.
From Verif Require Import Spec.Rowmajor Spec.EntityDofs Spec.Layout.
Import ListNotations.

Section Tabulation.
  Context {F : Type} (o : ops F).

  (* ---------------------------------------------------------------- *)
  (** ** Point sets *)

  (** A usable point set with known points: positive number of points, as many
      as its indices enumerate, all of the stated dimension. *)
  Inductive ps_ok : pset F -> Prop :=
  | po_singleton : forall pt, ps_ok (PSingleton pt)
  | po_points : forall kd D pts ixs,
      pts <> [] -> fold_right Nat.mul 1 (map ix_extent ixs) = length pts ->
      (forall p, In p pts -> length p = D) -> ps_ok (PPoints kd D pts ixs)
  | po_tensor : forall qs, Forall ps_ok qs -> ps_ok (PTensor qs).

  (** Number of coordinates of its points. *)
  Fixpoint psdim (ps : pset F) : nat :=
    match ps with
    | PSingleton pt => length pt
    | PUnknown _ _ D _ => D
    | PPoints _ D _ _ => D
    | PTensor qs => fold_right Nat.add 0 (map psdim qs)
    end.

  (** The point selected by values of the point set's indices. *)
  Fixpoint pt_at (ps : pset F) (env : nat -> nat) : list F :=
    match ps with
    | PSingleton pt => pt
    | PUnknown _ _ _ _ => []
    | PPoints _ _ pts ixs =>
        nth (rowmajor (map ix_extent ixs) (map (fun i => env (ix_id i)) ixs)) pts []
    | PTensor qs => concat (map (fun q => pt_at q env) qs)
    end.

  (** All of the point set's indices have legal values. *)
  Definition env_ok (ps : pset F) (env : nat -> nat) : Prop :=
    forall i, In i (ps_indices ps) -> env (ix_id i) < ix_extent i.

  (* ---------------------------------------------------------------- *)
  (** ** H(div) and H(curl) embeddings *)

  (** One component of the embedded vector: zero, or a component of the
      wrapped value, possibly negated. *)
  Inductive slot := SZero | SComp (negated : bool) (v : list nat).

  (** [hdiv_case k0 k1 m vs d slots]: a product with factor form degrees
      [k0], [k1], mapping [m] and value shape [vs] on a [d]-dimensional cell
      becomes the [d]-vector [slots]. *)
  Inductive hdiv_case : nat -> nat -> option string -> list nat -> nat -> list slot -> Prop :=
  | hd_horizontal : forall m, hdiv_case 0 1 m [] 2 [SComp true []; SZero]
  | hd_vertical : forall m, hdiv_case 1 0 m [] 2 [SZero; SComp false []]
  | hd_extruded : forall m, hdiv_case 2 0 m [] 3 [SZero; SZero; SComp false []]
  | hd_div : hdiv_case 1 1 (Some "contravariant piola"%string) [2] 3 [SComp false [0]; SComp false [1]; SZero]
  | hd_curl : hdiv_case 1 1 (Some "covariant piola"%string) [2] 3 [SComp false [1]; SComp true [0]; SZero].

  Inductive hcurl_case : nat -> nat -> option string -> list nat -> nat -> list slot -> Prop :=
  | hc_horizontal : hcurl_case 1 0 (Some "affine"%string) [] 2 [SComp false []; SZero]
  | hc_vertical : forall d, hcurl_case 0 1 (Some "affine"%string) [] (S d) (repeat SZero d ++ [SComp false []])
  | hc_curl : forall k0 k1, hcurl_case k0 k1 (Some "covariant piola"%string) [2] 3 [SComp false [0]; SComp false [1]; SZero]
  | hc_div : forall k0 k1, hcurl_case k0 k1 (Some "contravariant piola"%string) [2] 3 [SComp true [1]; SComp false [0]; SZero].

  (** The case a given product element falls in. *)
  Definition embeds (case : nat -> nat -> option string -> list nat -> nat -> list slot -> Prop)
      (w : elt F) (slots : list slot) : Prop :=
    exists a b k0 k1 vs c,
      w = ETensorProduct [a; b] /\ formdegree a = Ok (Some k0) /\ formdegree b = Ok (Some k1) /\
      value_shape w = Ok vs /\ cell_of w = Ok c /\
      case k0 k1 (mapping w) vs (spatial_dimension c) slots.

  (* ---------------------------------------------------------------- *)
  (** ** Values of basis functions *)

  (** [value_of e alpha ent pt i v x]: component [v] of derivative [alpha] of
      basis function number [i] of [e] at the point with coordinates [pt] on
      entity [ent] is [x]. *)
  Inductive value_of : elt F -> list nat -> dimkey * nat -> list F -> nat -> list nat -> F -> Prop :=
  | vo_leaf : forall l alpha ent pt i v,
      value_of (ELeaf l) alpha ent pt i v (lf_tab l alpha ent pt i v)
  (* a product of functions of separate coordinates *)
  | vo_product : forall fs alphas ks es ns pts is vs xs,
      values_of fs alphas (combine ks es) pts is vs xs ->
      Forall2 (fun f kn => exists c, cell_of f = Ok c /\ In kn (topology c)) fs (combine ks ns) ->
      length ks = length ns -> in_shape ns es ->
      value_of (ETensorProduct fs) (concat alphas) (DT ks, rowmajor ns es) (concat pts)
        (rowmajor (map space_dimension fs) is) (concat vs) (fold_right (fmul o) (f1 o) xs)
  (* function i in component s of the tensor *)
  | vo_tensor : forall b shape (tr : bool) alpha ent pt i s t v x,
      value_of b alpha ent pt i v x -> i < space_dimension b -> in_shape shape s -> in_shape shape t ->
      value_of (ETensor b shape tr) alpha ent pt
        (if tr then rowmajor shape s * space_dimension b + i
         else i * fold_right Nat.mul 1 shape + rowmajor shape s)
        (t ++ v) (if list_eq_dec Nat.eq_dec s t then x else f0 o)
  | vo_enriched : forall before e after alpha ent pt i v x,
      value_of e alpha ent pt i v x -> i < space_dimension e ->
      value_of (EEnriched (before ++ e :: after)) alpha ent pt
        (fold_right Nat.add 0 (map space_dimension before) + i) v x
  (* inside and outside of the sub-element's own block of components *)
  | vo_mixed_own : forall e size offset alpha ent pt i s v x,
      value_of e alpha ent pt i v x -> value_shape e = Ok s -> in_shape s v ->
      value_of (EMixedSub e size offset) alpha ent pt i [offset + rowmajor s v] x
  | vo_mixed_other : forall e size offset alpha ent pt i s c,
      value_shape e = Ok s -> c < offset \/ offset + fold_right Nat.mul 1 s <= c ->
      value_of (EMixedSub e size offset) alpha ent pt i [c] (f0 o)
  | vo_flattened : forall p c alpha k j ent pt i v x,
      cell_of p = Ok c -> unflatten_entity c (Some (k, j)) = Ok ent ->
      value_of p alpha ent pt i v x -> value_of (EFlattened p) alpha (DI k, j) pt i v x
  | vo_discontinuous : forall e alpha ent pt i v x,
      value_of e alpha ent pt i v x -> value_of (EDiscontinuous e) alpha ent pt i v x
  | vo_hdiv_zero : forall w slots alpha ent pt i k,
      embeds hdiv_case w slots -> nth_error slots k = Some SZero ->
      value_of (EHDiv w) alpha ent pt i [k] (f0 o)
  | vo_hdiv : forall w slots alpha ent pt i k (neg : bool) v x,
      embeds hdiv_case w slots -> nth_error slots k = Some (SComp neg v) ->
      value_of w alpha ent pt i v x ->
      value_of (EHDiv w) alpha ent pt i [k] (if neg then fopp o x else x)
  | vo_hcurl_zero : forall w slots alpha ent pt i k,
      embeds hcurl_case w slots -> nth_error slots k = Some SZero ->
      value_of (EHCurl w) alpha ent pt i [k] (f0 o)
  | vo_hcurl : forall w slots alpha ent pt i k (neg : bool) v x,
      embeds hcurl_case w slots -> nth_error slots k = Some (SComp neg v) ->
      value_of w alpha ent pt i v x ->
      value_of (EHCurl w) alpha ent pt i [k] (if neg then fopp o x else x)
  (* factor by factor; each factor gets its own directions, entity,
     coordinates, basis function and value components *)
  with values_of : list (elt F) -> list (list nat) -> list (dimkey * nat) -> list (list F) ->
                   list nat -> list (list nat) -> list F -> Prop :=
  | vs_nil : values_of [] [] [] [] [] [] []
  | vs_cons : forall f fs c s alpha alphas ent ents pt pts i is v vs x xs,
      cell_of f = Ok c -> length alpha = spatial_dimension c ->
      length pt = dk_total (fst ent) ->
      i < space_dimension f ->
      value_shape f = Ok s -> in_shape s v ->
      value_of f alpha ent pt i v x ->
      values_of fs alphas ents pts is vs xs ->
      values_of (f :: fs) (alpha :: alphas) (ent :: ents) (pt :: pts) (i :: is) (v :: vs) (x :: xs).

  (* ---------------------------------------------------------------- *)
  (** ** Tables *)

  (** [keys] are the derivative multi-indices in [d] directions up to the
      order, each once. *)
  Definition derivative_keys (d order : nat) (keys : list (list nat)) : Prop :=
    NoDup keys /\
    forall alpha, In alpha keys <-> length alpha = d /\ fold_right Nat.add 0 alpha <= order.

  (** A table of shape [ish ++ vsh] in which only the point set's indices are
      free. *)
  Definition advertised (ps : pset F) (ish vsh : list nat) (g : gem F) : Prop :=
    gshape g = ish ++ vsh /\ incl (gfree g) (map ix_id (ps_indices ps)).

  (** Tables that are right for element [e]. *)
  Definition tables_ok (vars : string -> list nat -> F) (e : elt F) (d order : nat) (vsh : list nat)
      (ps : pset F) (ent : dimkey * nat) (ts : list (list nat * gem F)) : Prop :=
    derivative_keys d order (map fst ts) /\
    forall alpha g, In (alpha, g) ts ->
      advertised ps (index_shape e) vsh g /\
      forall env b v, env_ok ps env -> in_shape (index_shape e) b -> in_shape vsh v ->
        value_of e alpha ent (pt_at ps env) (rowmajor (index_shape e) b) v (eval o vars g env (b ++ v)).

  (* ---------------------------------------------------------------- *)
  (** ** Legal requests *)

  (** The entity meant by an optional argument. *)
  Definition entity_or_cell (c : cell) (ent : option (dimkey * nat)) : dimkey * nat :=
    match ent with Some x => x | None => (get_dimension c, 0) end.

  (** [ps] can be used on entity [ent] of [e]: it has the entity's dimension,
      and where a TensorPointSet meets a product with as many factors, its
      factors have the dimensions of the entity's factors. *)
  Inductive fits : elt F -> dimkey * nat -> pset F -> Prop :=
  | fit_singleton : forall e ent pt, length pt = dk_total (fst ent) -> fits e ent (PSingleton pt)
  | fit_points : forall e ent kd D pts ixs, D = dk_total (fst ent) -> fits e ent (PPoints kd D pts ixs)
  | fit_leaf : forall l ent ps, psdim ps = dk_total (fst ent) -> fits (ELeaf l) ent ps
  | fit_factors : forall fs ks es ns qs,
      Forall2 (fun f kn => exists c, cell_of f = Ok c /\ In kn (topology c)) fs (combine ks ns) ->
      length ks = length ns -> in_shape ns es ->
      fits_each fs (combine ks es) qs ->
      fits (ETensorProduct fs) (DT ks, rowmajor ns es) (PTensor qs)
  | fit_other : forall fs ent qs,
      length qs <> length fs -> psdim (PTensor qs) = dk_total (fst ent) ->
      fits (ETensorProduct fs) ent (PTensor qs)
  | fit_tensor : forall b sh tr ent ps, fits b ent ps -> fits (ETensor b sh tr) ent ps
  | fit_enriched : forall es ent ps, (forall e, In e es -> fits e ent ps) -> fits (EEnriched es) ent ps
  | fit_mixed : forall e sz off ent ps, fits e ent ps -> fits (EMixedSub e sz off) ent ps
  | fit_flattened : forall p c k j ent ps,
      cell_of p = Ok c -> unflatten_entity c (Some (k, j)) = Ok ent -> fits p ent ps ->
      fits (EFlattened p) (DI k, j) ps
  | fit_discontinuous : forall e ent ps, fits e ent ps -> fits (EDiscontinuous e) ent ps
  | fit_hdiv : forall w ent ps, fits w ent ps -> fits (EHDiv w) ent ps
  | fit_hcurl : forall w ent ps, fits w ent ps -> fits (EHCurl w) ent ps
  with fits_each : list (elt F) -> list (dimkey * nat) -> list (pset F) -> Prop :=
  | fe_nil : fits_each [] [] []
  | fe_cons : forall f fs ent ents q qs,
      fits f ent q -> fits_each fs ents qs -> fits_each (f :: fs) (ent :: ents) (q :: qs).

  (** Trees for which all shapes are sensible: non-empty products, only cubes
      flattened, no empty or zero shapes, H(div)/H(curl) wrappers around values
      of a kind that has an embedding. *)
  Definition shaped (e : elt F) : Prop :=
    sensible e /\
    (forall b sh tr, subelt (ETensor b sh tr) e -> sh <> [] /\ Forall (lt 0) sh) /\
    (forall l, leaf_of l e -> Forall (lt 0) (lf_vshape l)) /\
    (forall w, subelt (EHDiv w) e -> exists slots, embeds hdiv_case w slots) /\
    (forall w, subelt (EHCurl w) e -> exists slots, embeds hcurl_case w slots).

  (** The contract on a leaf's [basis_evaluation]. *)
  Definition leaf_tabulates {G : Type}
      (leaf_eval : leaf F -> nat -> pset F -> option (dimkey * nat) -> option G ->
                   fresh (list (list nat * gem F)))
      (l : leaf F) : Prop :=
    forall vars order ps ent cm n,
      ps_ok ps -> (forall i, In i (ps_indices ps) -> ix_id i < n) ->
      entity_of (topology (lf_cell l)) (entity_or_cell (lf_cell l) ent) ->
      psdim ps = dk_total (fst (entity_or_cell (lf_cell l) ent)) ->
      exists ts n', leaf_eval l order ps ent cm n = Ok (ts, n') /\ n <= n' /\
        tables_ok vars (ELeaf l) (spatial_dimension (lf_cell l)) order (lf_vshape l) ps
          (entity_or_cell (lf_cell l) ent) ts.

  (** The same for the point sets with property [Q] only. *)
  Definition leaf_tabulates_on {G : Type} (Q : pset F -> Prop)
      (leaf_eval : leaf F -> nat -> pset F -> option (dimkey * nat) -> option G ->
                   fresh (list (list nat * gem F)))
      (l : leaf F) : Prop :=
    forall vars order ps ent cm n,
      ps_ok ps -> Q ps -> (forall i, In i (ps_indices ps) -> ix_id i < n) ->
      entity_of (topology (lf_cell l)) (entity_or_cell (lf_cell l) ent) ->
      psdim ps = dk_total (fst (entity_or_cell (lf_cell l) ent)) ->
      exists ts n', leaf_eval l order ps ent cm n = Ok (ts, n') /\ n <= n' /\
        tables_ok vars (ELeaf l) (spatial_dimension (lf_cell l)) order (lf_vshape l) ps
          (entity_or_cell (lf_cell l) ent) ts.

  (** FIAT elements are piecewise polynomials of their degree: derivatives of
      that order are constant on a cell that is not subdivided, higher ones
      vanish. *)
  Definition fiat_polynomial (l : leaf F) : Prop :=
    exists d, lf_degree l = Dg d /\
      (lf_macro l = false -> forall alpha ent p q i v,
         fold_right Nat.add 0 alpha = d -> lf_tab l alpha ent p i v = lf_tab l alpha ent q i v) /\
      (forall alpha ent p i v, d < fold_right Nat.add 0 alpha -> lf_tab l alpha ent p i v = f0 o).
End Tabulation.

(* ------------------------------------------------------------------ *)
(** ** Tables of the parts of a composite *)

(** Directions, index shape, value shape and tables of one part. *)
Record part (F : Type) := mkPart { p_dim : nat; p_ish : list nat; p_vsh : list nat; p_tab : list (list nat * gem F) }.
Arguments mkPart {F}. Arguments p_dim {F}. Arguments p_ish {F}. Arguments p_vsh {F}. Arguments p_tab {F}.

(** One factor's share of a query. *)
Record share (F : Type) := mkShare { x_alpha : list nat; x_b : list nat; x_v : list nat; x_g : gem F }.
Arguments mkShare {F}. Arguments x_alpha {F}. Arguments x_b {F}. Arguments x_v {F}. Arguments x_g {F}.

Section Parts.
  Context {F : Type}.

  (** Tables of order [order] in which only [ids] are free. *)
  Definition part_ok (order : nat) (ids : list nat) (r : part F) : Prop :=
    derivative_keys (p_dim r) order (map fst (p_tab r)) /\
    forall a g, In (a, g) (p_tab r) -> gshape g = p_ish r ++ p_vsh r /\ incl (gfree g) ids.

  (** A legal query to such tables. *)
  Definition share_ok (r : part F) (x : share F) : Prop :=
    length (x_alpha x) = p_dim r /\ In (x_alpha x, x_g x) (p_tab r) /\
    length (x_b x) = length (p_ish r) /\ length (x_v x) = length (p_vsh r).

  (** One component of an embedded vector, given the components of the wrapped value. *)
  Context (o : ops F).
  Definition slot_val (f : list nat -> F) (s : slot) : F :=
    match s with SZero => f0 o | SComp neg v => if neg then fopp o (f v) else f v end.
End Parts.

(* ------------------------------------------------------------------ *)
(** ** Coordinates of a point as numbers *)

Section Coordinates.
  Context {F : Type} (vars : string -> list nat -> F).

  (** Like [pt_at]; the points of an UnknownPointSet are given by the values of
      its variable. *)
  Fixpoint coords (ps : pset F) (env : nat -> nat) : list F :=
    match ps with
    | PUnknown name _ D i => map (fun k => vars name [env (ix_id i); k]) (seq 0 D)
    | PTensor qs => concat (map (fun q => coords q env) qs)
    | _ => pt_at ps env
    end.

  (** Point sets as the constructors make them: each array of points has one
      index, over its rows.  Unknown points may be direct factors of a
      TensorPointSet, but not deeper inside. *)
  Inductive ps_plain : pset F -> Prop :=
  | pp_singleton : forall pt, pt <> [] -> ps_plain (PSingleton pt)
  | pp_unknown : forall name N D i, 0 < D -> ix_extent i = N -> ps_plain (PUnknown name N D i)
  | pp_points : forall kd D pts i, 0 < D -> pts <> [] -> ix_extent i = length pts ->
      (forall p, In p pts -> length p = D) -> ps_plain (PPoints kd D pts [i])
  | pp_tensor : forall qs, qs <> [] -> Forall ps_plain qs ->
      (forall q, In q qs -> ps_ok q \/ exists name N D i, q = PUnknown name N D i) -> ps_plain (PTensor qs).
End Coordinates.
