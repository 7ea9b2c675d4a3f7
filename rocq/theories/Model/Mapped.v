(** Physically mapped elements: how a transformation matrix is applied to
    FIAT's tables, and the dof numbering of elements that drop FIAT's
    constraint dofs. *)
From Coq Require Import String List Arith Bool.
From Verif Require Import Model.Prelude Model.Cell Model.Element Model.Gem Model.PointSet Model.Evaluation.
Import ListNotations.
Open Scope fresh_scope.

Section Mapped.
  Context {F : Type} (o : ops F).
  (** [G]: physical geometry objects (coordinate_mapping). *)
  Context {G : Type}.

  (** The local function matvec of PhysicallyMappedElement.basis_evaluation,
      finat/physically_mapped.py:273-280.  [gem.indices(2)] have no extents until
      they are used; the first use of [j] is in [table], that of [i] in [M], and
      using [j] in [M] compares the extents (ValueError).  The calls of
      constant_fold_zero and aggressive_unroll rewrite an expression without
      changing shape or meaning and are left out. *)
  Definition mapped_matvec (M : gem F) (vshape : list nat) (table : gem F) : fresh (gem F) :=
    i_ <~ new_indices [hd 0 (gshape M)] ;;
    j_ <~ new_indices [hd 0 (gshape table)] ;;
    value_indices <~ new_indices vshape ;;
    flift (
      do t <- mk_indexed table (map IFree (j_ ++ value_indices)) ;;
      do m <- mk_indexed M (map IFree (i_ ++ j_)) ;;
      do p <- mk_product m t ;;
      do s <- mk_index_sum p j_ ;;
      mk_component_tensor s (i_ ++ value_indices)).

  (** PhysicallyMappedElement.basis_evaluation,
      finat/physically_mapped.py:267-285, for a subclass whose other base class
      is FiatElement; [transformation] is its method basis_transformation. *)
  Definition mapped_basis_evaluation (transformation : G -> result (gem F)) (l : leaf F) (order : nat) (ps : pset F)
      (ent : option (dimkey * nat)) (coordinate_mapping : option G) : fresh (tables (F := F)) :=
    match coordinate_mapping with
    | None => flift (Err AssertionError)
    | Some g =>
        M <~ flift (transformation g) ;;
        result <~ fiat_basis_evaluation o l order ps ent ;;
        mapF (fun at_ => x <~ mapped_matvec M (lf_vshape l) (snd at_) ;; fret (fst at_, x)) result
    end.

  (** [ListTensor(V.T)] for a numpy array [V] with [numbf] rows and [ndof]
      columns of scalar expressions; every basis_transformation ends so. *)
  Definition list_tensor_T (numbf ndof : nat) (V : nat -> nat -> gem F) : result (gem F) :=
    mk_list_tensor [ndof; numbf] (flat_map (fun j => map (fun i => V i j) (seq 0 numbf)) (seq 0 ndof)).
End Mapped.

(** ** Dof dictionaries of elements that drop FIAT's constraint dofs
    Simplification: [sd - 1] is taken in [nat], so a cell of dimension 0 is read
    as having the vertex as facet; none of the classes exists there. *)

(** [for entity in reduced_dofs[sd-1]: reduced_dofs[sd-1][entity] = []],
    finat/bell.py:17-21 and finat/hct.py:46-50. *)
Definition clear_facets (sd : nat) (d : edofs) : result edofs :=
  do row <- dict_get dimkey_eqb d (DI (sd - 1)) ;;
  Ok (dict_set dimkey_eqb d (DI (sd - 1)) (map (fun il => (fst il, [])) row)).

(** Bell.entity_dofs and Bell.space_dimension, finat/bell.py:17-21, 73-81. *)
Definition bell_entity_dofs (sd : nat) (fiat : edofs) : result edofs := clear_facets sd fiat.
Definition bell_space_dimension : nat := 18.

(** ReducedHsiehCloughTocher.entity_dofs and .space_dimension,
    finat/hct.py:46-50, 93-101. *)
Definition rhct_entity_dofs (sd : nat) (fiat : edofs) : result edofs := clear_facets sd fiat.
Definition rhct_space_dimension : nat := 9.

(** ArnoldWintherNC.entity_dofs and .space_dimension, finat/aw.py:74-86. *)
Definition awnc_entity_dofs : edofs :=
  [(DI 0, [(0, []); (1, []); (2, [])]);
   (DI 1, [(0, [0; 1; 2; 3]); (1, [4; 5; 6; 7]); (2, [8; 9; 10; 11])]);
   (DI 2, [(0, [12; 13; 14])])].
Definition awnc_space_dimension : nat := 15.

(** ArnoldWinther.entity_dofs and .space_dimension, finat/aw.py:125-137. *)
Definition aw_entity_dofs : edofs :=
  [(DI 0, [(0, [0; 1; 2]); (1, [3; 4; 5]); (2, [6; 7; 8])]);
   (DI 1, [(0, [9; 10; 11; 12]); (1, [13; 14; 15; 16]); (2, [17; 18; 19; 20])]);
   (DI 2, [(0, [21; 22; 23])])].
Definition aw_space_dimension : nat := 24.

(** MardalTaiWinther.__init__, finat/mtw.py:17-24: dictionary and dimension. *)
Definition mtw_init (sd : nat) (fiat : edofs) : result (edofs * nat) :=
  let fdofs := sd + 1 in
  do row <- dict_get dimkey_eqb fiat (DI sd) ;;
  let reduced := dict_set dimkey_eqb fiat (DI sd) (dict_set Nat.eqb row 0 []) in
  do facets <- dict_get dimkey_eqb reduced (DI (sd - 1)) ;;
  let facets' := map (fun il => (fst il, firstn fdofs (snd il))) facets in
  Ok (dict_set dimkey_eqb reduced (DI (sd - 1)) facets', fdofs * length facets').

(** The loop of PiolaBubbleElement.__init__, finat/piola_mapped.py:104-109;
    [ents]: the facets still to visit; state: facet row, reduced_dim, cur. *)
Fixpoint bubble_loop (ents : list nat) (row : list (nat * list nat)) (reduced_dim cur : nat)
  : result (list (nat * list nat) * nat) :=
  match ents with
  | [] => Ok (row, reduced_dim)
  | entity :: r =>
      do l <- dict_get Nat.eqb row entity ;;
      bubble_loop r (dict_set Nat.eqb row entity [cur]) (reduced_dim + length (tl l)) (cur + 1)
  end.

(** PiolaBubbleElement.__init__, finat/piola_mapped.py:94-111: dictionary and
    dimension.  [mappings]: fiat_element.mapping(), one name per basis function;
    unpacking [mapping, = set(...)] is a ValueError unless there is exactly one
    distinct name. *)
Definition piola_bubble_init (mappings : list string) (sd dim : nat) (fiat : edofs) : result (edofs * nat) :=
  match nodup string_dec mappings with
  | [mapping] =>
      do! guard (String.eqb mapping "contravariant piola") ValueError ;;
      do row <- dict_get dimkey_eqb fiat (DI (sd - 1)) ;;
      do f0 <- dict_get Nat.eqb row 0 ;;
      match f0 with
      | [] => Err IndexError
      | cur :: _ =>
          do rr <- bubble_loop (sorted Nat.leb (map fst row)) row 0 cur ;;
          Ok (dict_set dimkey_eqb fiat (DI (sd - 1)) (fst rr), dim - snd rr)
      end
  | _ => Err ValueError
  end.
