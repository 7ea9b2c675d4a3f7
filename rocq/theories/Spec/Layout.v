(** Specifications of dof layouts, stated by position. *)
From Coq Require Import List Arith Permutation.
From Verif Require Import Model.Cell Model.Element Spec.Rowmajor Spec.EntityDofs.
Import ListNotations.

(** [l] lists the row-major numbers (for extents [ns]) of all tuples that take
    component [j] from [ls_j]: the tuple at positions [js] stands at the
    row-major position of [js]. *)
Definition lists_tuples (ns : list nat) (ls : list (list nat)) (l : list nat) : Prop :=
  length l = fold_right Nat.mul 1 (map (@length nat) ls) /\
  forall js vs, Forall2 (fun lj p => nth_error (fst lj) (snd lj) = Some p) (combine ls js) vs ->
    length js = length ls ->
    nth_error l (rowmajor (map (@length nat) ls) js) = Some (rowmajor ns vs).

(** Blocks [ls] one after the other, block k shifted by the sizes before it. *)
Fixpoint shifted_blocks (off : nat) (blocks : list (nat * list nat)) : list nat :=
  match blocks with
  | [] => []
  | (size, l) :: r => map (fun v => off + v) l ++ shifted_blocks (off + size) r
  end.

(** A summand list with its nesting. *)
Inductive nest (A : Type) :=
| NLeaf (a : A)
| NNode (l : list (nest A)).
Arguments NLeaf {A}. Arguments NNode {A}.

Fixpoint nest_leaves {A} (n : nest A) : list A :=
  match n with
  | NLeaf a => [a]
  | NNode l => flat_map nest_leaves l
  end.

(** The Python expression with that nesting: each node is an EnrichedElement
    of the results of its members. *)
Fixpoint enrich {F} (n : nest (elt F)) : elt F :=
  match n with
  | NLeaf a => a
  | NNode l => mk_enriched (map enrich l)
  end.

(** Not an EnrichedElement. *)
Definition plain {F} (e : elt F) : Prop := match e with EEnriched _ => False | _ => True end.

(** The sub-entity relation of a cell with topology [t] and top entity
    [(kc, 0)]: per entity a duplicate-free list of entities that contains the
    entity itself, is closed under taking sub-entities, and is everything for
    the cell itself. *)
Definition entity_of (t : list (dimkey * nat)) (x : dimkey * nat) : Prop :=
  exists n, In (fst x, n) t /\ snd x < n.
Definition subentities_ok (t : list (dimkey * nat)) (kc : dimkey)
    (subs : edict (list (dimkey * nat))) : Prop :=
  keys_match t subs /\
  (forall k i l, has_dofs subs k i l ->
     NoDup l /\ In (k, i) l /\ (forall x, In x l -> entity_of t x) /\
     (forall k' i' l', In (k', i') l -> has_dofs subs k' i' l' -> incl l' l)) /\
  (forall l, has_dofs subs kc 0 l -> forall x, entity_of t x -> In x l).

(** [p] is a permutation of [0 .. n-1]. *)
Definition permutes (n : nat) (p : list nat) : Prop := Permutation p (seq 0 n).

(** Entity [i] of dimension [k] has the permutation [p] for orientation [o]. *)
Definition has_perm {O} (d : edict (list (O * list nat))) (k : dimkey) (i : nat) (o : O) (p : list nat) : Prop :=
  exists m, has_dofs d k i m /\ In (o, p) m.

(** No key occurs twice on any level of the dictionary. *)
Definition unique_keys {O} (d : edict (list (O * list nat))) : Prop :=
  NoDup (map fst d) /\
  (forall k row, In (k, row) d -> NoDup (map fst row)) /\
  (forall k i m, has_dofs d k i m -> NoDup (map fst m)).
