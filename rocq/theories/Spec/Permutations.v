(** Entity permutations: what they have to be, and what is assumed of FIAT. *)
From Coq Require Import List Arith Permutation Sorted.
From Verif Require Import Model.Prelude Model.Cell Model.Element.
From Verif Require Import Spec.Rowmajor Spec.EntityDofs Spec.Layout.
Import ListNotations.

Section Contracts.
  Context {F O : Type}.
  Local Notation omap := (list (O * list nat)).

  (** The orientations of an entity of dimension [k] of a cell. *)
  Variable orientations : cell -> dimkey -> list O.
  (** The orientations under which dofs are permuted.  FIAT also lists
      orientations that exchange the axes of a product of unlike factors, for
      which there is no permutation. *)
  Variable proper : O -> Prop.

  (** The map [m] has one entry per orientation in [os]. *)
  Definition one_per (os : list O) (m : omap) : Prop :=
    NoDup (map fst m) /\ forall o, In o (map fst m) <-> In o os.

  (** [ep] is a legal answer of [entity_permutations] for an element on the
      cell [c] with dof dictionary [d]: one row per dimension, one map per
      entity, one entry per orientation, and each (proper) entry is a
      permutation of the positions in the dof list of that entity. *)
  Definition permutations_fit (c : cell) (d : edofs) (ep : edict omap) : Prop :=
    keys_match (topology c) ep /\
    (forall k i m, has_dofs ep k i m -> one_per (orientations c k) m) /\
    (forall k i l o p, has_dofs d k i l -> has_perm ep k i o p -> proper o -> permutes (length l) p).

  (** FIAT's make_entity_permutations_tensorproduct on cells [cs]: entries for
      the orientations of the product entity; permutations of the positions
      of a list of [n1 * ... * nr] dofs if the factors' are permutations of
      [n1], ..., [nr]. *)
  Definition tp_contract (tp : list cell -> list dimkey -> list omap -> omap) (cs : list cell) : Prop :=
    forall dim maps,
      Forall2 (fun c k => In k (map fst (topology c))) cs dim ->
      Forall2 (fun ck m => one_per (orientations (fst ck) (snd ck)) m) (combine cs dim) maps ->
      one_per (orientations (TPCell cs) (DT dim)) (tp cs dim maps) /\
      forall ns, Forall2 (fun m n => forall o p, In (o, p) m -> proper o -> permutes n p) maps ns ->
        forall o p, In (o, p) (tp cs dim maps) -> proper o -> permutes (fold_right Nat.mul 1 ns) p.

  (** The integers that stand for the orientation tuples of a flattened cell:
      one per orientation, the same ones for all entities of that dimension. *)
  Definition flat_contract (flat : dimkey -> O -> O) (c : cell) : Prop :=
    forall K, In K (map fst (topology c)) ->
      (forall o o', In o (orientations c K) -> In o' (orientations c K) -> flat K o = flat K o' -> o = o') /\
      (forall o', In o' (orientations (Hypercube (spatial_dimension c)) (DI (dk_total K))) <->
                  exists o, In o (orientations c K) /\ o' = flat K o) /\
      (forall o, In o (orientations c K) -> proper (flat K o) -> proper o).

  (** A leaf answers with a legal dictionary or not at all. *)
  Definition leaf_contract (lp : leaf F -> result (edict omap)) (l : leaf F) : Prop :=
    match lp l with
    | Ok ep => permutations_fit (lf_cell l) (lf_edofs l) ep
    | Err e => e = NotImplementedError
    end.

  (** All these for the cells and leaves that occur in [e]. *)
  Definition fiat_contract (tp : list cell -> list dimkey -> list omap -> omap) (flat : dimkey -> O -> O)
      (lp : leaf F -> result (edict omap)) (subs : cell -> edict (list (dimkey * nat))) (e : elt F) : Prop :=
    (forall l, leaf_of l e -> leaf_contract lp l) /\
    (forall fs cs, subelt (ETensorProduct fs) e -> mapM cell_of fs = Ok cs -> tp_contract tp cs) /\
    (forall p c, subelt (EFlattened p) e -> cell_of p = Ok c -> flat_contract flat c) /\
    (forall e' c, subelt (EDiscontinuous e') e -> cell_of e' = Ok c ->
       subentities_ok (topology c) (get_dimension c) (subs c) /\
       (* the cell is a sub-entity of itself only *)
       forall k i l, has_dofs (subs c) k i l -> In (get_dimension c, 0) l -> k = get_dimension c /\ i = 0).

  (** All dofs belong to the interior of the cell, listed in increasing order. *)
  Definition interior_dofs (e : elt F) : Prop :=
    exists c d, cell_of e = Ok c /\ entity_dofs e = Ok d /\
      forall k i l, has_dofs d k i l ->
        StronglySorted lt l /\ (l <> [] -> k = get_dimension c /\ i = 0).

  (** The elements that have permutations: built from leaves that have them,
      without vector, tensor or mixed elements, and with a broken continuity
      only where there was none. *)
  Inductive permutable (lp : leaf F -> result (edict omap)) : elt F -> Prop :=
  | pm_leaf : forall l ep, lp l = Ok ep -> permutable lp (ELeaf l)
  | pm_tensor_product : forall fs, Forall (permutable lp) fs -> permutable lp (ETensorProduct fs)
  | pm_enriched : forall es, Forall (permutable lp) es -> permutable lp (EEnriched es)
  | pm_flattened : forall p, permutable lp p -> permutable lp (EFlattened p)
  | pm_discontinuous : forall e, permutable lp e -> interior_dofs e -> permutable lp (EDiscontinuous e)
  | pm_hdiv : forall w, permutable lp w -> permutable lp (EHDiv w)
  | pm_hcurl : forall w, permutable lp w -> permutable lp (EHCurl w).

  (** [join os]: the orientation of a product entity that turns each factor
      entity by its own orientation and exchanges no axes.  Its permutation
      takes positions [js] to the positions the factors' permutations give. *)
  Definition join_contract (tp : list cell -> list dimkey -> list omap -> omap) (join : list O -> O)
      (cs : list cell) : Prop :=
    forall dim maps os ps p,
      Forall2 (fun c k => In k (map fst (topology c))) cs dim ->
      Forall2 (fun ck m => one_per (orientations (fst ck) (snd ck)) m) (combine cs dim) maps ->
      Forall2 (fun m op => In op m) maps (combine os ps) -> length os = length ps ->
      length maps = length cs -> In (join os, p) (tp cs dim maps) ->
      forall js, in_shape (map (@length nat) ps) js ->
        nth_error p (rowmajor (map (@length nat) ps) js)
        = Some (rowmajor (map (@length nat) ps) (map (fun pj => nth (snd pj) (fst pj) 0) (combine ps js))).
End Contracts.
