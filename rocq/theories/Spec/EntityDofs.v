(** What "a dof dictionary" has to satisfy, stated on the dictionary itself. *)
From Coq Require Import List Arith Permutation.
From Verif Require Import Model.Prelude Model.Cell Model.Element Spec.Rowmajor.
Import ListNotations.

(** Entity [i] of dimension [k] carries the dof list [l]. *)
Definition has_dofs {V} (d : edict V) (k : dimkey) (i : nat) (l : V) : Prop :=
  exists row, In (k, row) d /\ In (i, l) row.

(** The dictionary has one row per entry [(k, c)] of the topology [t] and that
    row has exactly the entities [0 .. c-1], each once. *)
Definition keys_match {V} (t : list (dimkey * nat)) (d : edict V) : Prop :=
  Permutation (map fst d) (map fst t) /\
  forall k row, In (k, row) d ->
    exists c, In (k, c) t /\ Permutation (map fst row) (seq 0 c).

(** All dof lists of a dictionary. *)
Definition all_lists {V} (d : edict V) : list V := flat_map (fun kr => map snd (snd kr)) d.

(** [d] is a legal answer of [entity_dofs] for an element with [n] basis
    functions on a cell with topology [t]. *)
Definition edofs_ok (t : list (dimkey * nat)) (n : nat) (d : edofs) : Prop :=
  keys_match t d /\ partitions n (all_lists d).

(** The contract on leaf (FIAT) elements: their dof dictionary is legal and
    their basis-function shape has as many entries as there are functions. *)
Definition leaf_ok {F} (l : leaf F) : Prop :=
  edofs_ok (topology (lf_cell l)) (lf_dim l) (lf_edofs l) /\
  fold_right Nat.mul 1 (lf_ishape l) = lf_dim l.

(** All leaves of an element tree. *)
Inductive leaf_of {F} : leaf F -> elt F -> Prop :=
| lo_leaf : forall l, leaf_of l (ELeaf l)
| lo_tensor_product : forall l f fs, In f fs -> leaf_of l f -> leaf_of l (ETensorProduct fs)
| lo_tensor : forall l b s t, leaf_of l b -> leaf_of l (ETensor b s t)
| lo_enriched : forall l f fs, In f fs -> leaf_of l f -> leaf_of l (EEnriched fs)
| lo_mixed_sub : forall l e s o, leaf_of l e -> leaf_of l (EMixedSub e s o)
| lo_flattened : forall l e, leaf_of l e -> leaf_of l (EFlattened e)
| lo_discontinuous : forall l e, leaf_of l e -> leaf_of l (EDiscontinuous e)
| lo_hdiv : forall l e, leaf_of l e -> leaf_of l (EHDiv e)
| lo_hcurl : forall l e, leaf_of l e -> leaf_of l (EHCurl e).

(** [sub] occurs in the tree [e] (or is [e]). *)
Inductive subelt {F} : elt F -> elt F -> Prop :=
| se_refl : forall e, subelt e e
| se_tensor_product : forall s f fs, In f fs -> subelt s f -> subelt s (ETensorProduct fs)
| se_tensor : forall s b sh t, subelt s b -> subelt s (ETensor b sh t)
| se_enriched : forall s f fs, In f fs -> subelt s f -> subelt s (EEnriched fs)
| se_mixed_sub : forall s e sz o, subelt s e -> subelt s (EMixedSub e sz o)
| se_flattened : forall s e, subelt s e -> subelt s (EFlattened e)
| se_discontinuous : forall s e, subelt s e -> subelt s (EDiscontinuous e)
| se_hdiv : forall s e, subelt s e -> subelt s (EHDiv e)
| se_hcurl : forall s e, subelt s e -> subelt s (EHCurl e).

(** Cells that are cubes: built from points and intervals by products. *)
Inductive cube_cell : cell -> Prop :=
| cc_point : cube_cell (Simplex 0)
| cc_interval : cube_cell (Simplex 1)
| cc_hypercube : forall d, cube_cell (Hypercube d)
| cc_product : forall cs, Forall cube_cell cs -> cube_cell (TPCell cs).

(** Trees a user can mean: no product of zero factors, and only cubes are
    flattened. *)
Definition sensible {F} (e : elt F) : Prop :=
  (forall fs, subelt (ETensorProduct fs) e -> fs <> []) /\
  (forall p c, subelt (EFlattened p) e -> cell_of p = Ok c -> cube_cell c).
