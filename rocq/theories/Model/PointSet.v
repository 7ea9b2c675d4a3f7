(** Point sets, finat/point_set.py. *)
From Coq Require Import String List Arith Bool.
From Verif Require Import Model.Prelude Model.Cell Model.Gem.
Import ListNotations.

(** Classes of indexed point sets: PointSet (finat/point_set.py:123-152),
    GaussLegendrePointSet (155-162), GaussLobattoLegendrePointSet (165-172). *)
Inductive pkind := PGeneric | PGaussLegendre | PGaussLobattoLegendre.

(** PointSingleton (finat/point_set.py:41-66); UnknownPointSet (finat/point_set.py:86-120:
    a variable of shape (N, D)); PointSet with its [points] array of shape
    (N, D) and its [indices], which are one Index of extent N
    (finat/point_set.py:140-142) unless they were overwritten
    (finat/tensor_product.py:333-334); TensorPointSet (finat/point_set.py:175-203). *)
Inductive pset (F : Type) :=
| PSingleton (pt : list F)
| PUnknown (name : string) (N D : nat) (i : ix)
| PPoints (kind : pkind) (D : nat) (pts : list (list F)) (indices : list ix)
| PTensor (factors : list (pset F)).
Arguments PSingleton {F}. Arguments PUnknown {F}. Arguments PPoints {F}. Arguments PTensor {F}.

Section PointSet.
  Context {F : Type}.
  Local Notation pset := (pset F).

  (** [ps.points] as a list of points: finat/point_set.py:56-60, 136-138, 180-184.
      An UnknownPointsArray (finat/point_set.py:69-83) has no values; iterating over
      it raises TypeError. *)
  Fixpoint ps_points (ps : pset) : result (list (list F)) :=
    match ps with
    | PSingleton pt => Ok [pt]
    | PUnknown _ _ _ _ => Err TypeError
    | PPoints _ _ pts _ => Ok pts
    | PTensor fs =>
        do ls <- mapM ps_points fs ;; Ok (map (@concat F) (cart ls))
    end.

  (** [ps.indices]: finat/point_set.py:62, 113-116, 140-142, 186-188. *)
  Fixpoint ps_indices (ps : pset) : list ix :=
    match ps with
    | PSingleton _ => []
    | PUnknown _ _ _ i => [i]
    | PPoints _ _ _ ixs => ixs
    | PTensor fs => flat_map ps_indices fs
    end.

  (** [ps.dimension]: [_, dim = self.points.shape], finat/point_set.py:24-28.  A
      TensorPointSet without points has an array of shape (0,), which cannot be
      unpacked. *)
  Definition ps_dimension (ps : pset) : result nat :=
    match ps with
    | PSingleton pt => Ok (length pt)
    | PUnknown _ _ D _ => Ok D
    | PPoints _ D _ _ => Ok D
    | PTensor _ =>
        do pts <- ps_points ps ;;
        match pts with [] => Err ValueError | p :: _ => Ok (length p) end
    end.

  (** numpy array of the points. *)
  Definition points_array (D : nat) (pts : list (list F)) : arr F :=
    mkArr [length pts; D] (concat pts).

  (** [ps.expression]: finat/point_set.py:64-66, 118-120, 144-146, 190-196. *)
  Fixpoint ps_expression (ps : pset) : fresh (gem F) :=
    match ps with
    | PSingleton pt => fret (GLiteral (mkArr [length pt] pt))
    | PUnknown name N D i => partial_indexed (GVariable name [N; D]) [i]
    | PPoints _ D pts ixs => partial_indexed (GLiteral (points_array D pts)) ixs
    | PTensor fs =>
        fbind (mapF (fun f =>
          fbind (flift (ps_dimension f)) (fun d =>
          fbind (ps_expression f) (fun e =>
          flift (mapM (fun i => mk_indexed e [IFixed i]) (seq 0 d))))) fs)
          (fun ls => flift (mk_list_tensor [length (concat ls)] (concat ls)))
    end.

  (** TensorProductCell._split_slices (FIAT): consecutive slices of the given
      lengths, applied to a list. *)
  Fixpoint split_slices {A} (dims : list nat) (l : list A) : list (list A) :=
    match dims with
    | [] => []
    | d :: r => firstn d l :: split_slices r (skipn d l)
    end.

  (** factor_point_set, finat/tensor_product.py:303-338.
      [point_dims] are the spatial dimensions of the factor entities
      ([cell.construct_subelement(dim).get_spatial_dimension()], the sum of the
      ints in [dim]). *)
  Definition factor_point_set (point_dims : list nat) (ps : pset) : result (list pset) :=
    let slice :=
      do d <- ps_dimension ps ;;
      do! guard (Nat.eqb d (sum point_dims)) AssertionError ;;
      match ps with
      | PSingleton pt => Ok (map PSingleton (split_slices point_dims pt))
      | PUnknown _ _ _ _ => Err NotImplementedError
      | _ =>
          do pts <- ps_points ps ;;
          Ok (map (fun k => PPoints PGeneric (nth k point_dims 0)
                      (map (fun p => nth k (split_slices point_dims p) []) pts) (ps_indices ps))
                  (seq 0 (length point_dims)))
      end in
    match ps with
    | PTensor fs =>
        if Nat.eqb (length point_dims) (length fs) then
          do ds <- mapM ps_dimension fs ;;
          do! guard (list_eqb Nat.eqb ds point_dims) AssertionError ;;
          Ok fs
        else slice
    | _ => slice
    end.
End PointSet.
