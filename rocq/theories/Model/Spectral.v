(** Spectral elements: tabulation at their own nodes. *)
From Coq Require Import String List Arith Bool.
From Verif Require Import Model.Prelude Model.Cell Model.Element Model.EntityMaps Model.Gem Model.PointSet Model.Evaluation.
Import ListNotations.
Open Scope fresh_scope.

(** [isinstance(ps, GaussLobattoLegendrePointSet)], etc. *)
Definition pkind_eqb (a b : pkind) : bool :=
  match a, b with
  | PGeneric, PGeneric | PGaussLegendre, PGaussLegendre | PGaussLobattoLegendre, PGaussLobattoLegendre => true
  | _, _ => false
  end.

Section Spectral.
  Context {F : Type} (o : ops F).

  (** [ps] is an instance of the class [own] and [len(ps.points) == space_dim]:
      finat/spectral.py:28 and 57. *)
  Definition own_points (own : pkind) (l : leaf F) (ps : pset F) : bool :=
    match ps with
    | PPoints kind _ pts _ => pkind_eqb kind own && Nat.eqb (length pts) (lf_dim l)
    | _ => false
    end.

  (** [entity is None or entity == (cell_dimension, 0)]: finat/spectral.py:26, 55. *)
  Definition on_cell (l : leaf F) (ent : option entity) : bool :=
    match ent with
    | None => true
    | Some (k, i) => dimkey_eqb k (get_dimension (lf_cell l)) && Nat.eqb i 0
    end.

  (** GaussLobattoLegendre.basis_evaluation, finat/spectral.py:16-34, with [own]
      the class GaussLobattoLegendrePointSet, and GaussLegendre.basis_evaluation,
      finat/spectral.py:45-63, with [own] the class GaussLegendrePointSet.
      [super().basis_evaluation] is FiatElement's; neither passes the coordinate
      mapping on.  [get_indices] makes fresh indices for the index shape
      (finat/finiteelementbase.py:139-143). *)
  Definition spectral_evaluation (own : pkind) (l : leaf F) (order : nat) (ps : pset F) (ent : option entity)
    : fresh (tables (F := F)) :=
    result <~ fiat_basis_evaluation o l order ps ent ;;
    if on_cell l ent then
      if own_points own l ps then
        q <~ flift (match ps_indices ps with [q] => Ok q | _ => Err ValueError end) ;;
        rs <~ new_indices (lf_ishape l) ;;
        r <~ flift (match rs with [r] => Ok r | _ => Err ValueError end) ;;
        ct <~ flift (mk_component_tensor (GDelta (IFree q) (IFree r)) [r]) ;;
        fret (dict_set (list_eqb Nat.eqb) result (repeat 0 (spatial_dimension (lf_cell l))) ct)
      else fret result
    else fret result.

  (** basis_evaluation of the leaves of a tree, some of which are spectral:
      [cls l] is the class of point sets [l] looks for, if it is. *)
  Definition leaf_basis_evaluation {G : Type} (cls : leaf F -> option pkind)
      (l : leaf F) (order : nat) (ps : pset F) (ent : option entity) (_ : option G) : fresh (tables (F := F)) :=
    match cls l with
    | Some own => spectral_evaluation own l order ps ent
    | None => fiat_basis_evaluation o l order ps ent
    end.
End Spectral.
