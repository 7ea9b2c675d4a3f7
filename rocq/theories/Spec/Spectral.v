(** When a basis is the identity matrix at given points. *)
From Coq Require Import String List Arith.
From Verif Require Import Model.Prelude Model.Cell Model.Element Model.Gem Model.PointSet.
Import ListNotations.

Section Spectral.
  Context {F : Type} (o : ops F).

  (** [q] is [ps] or a factor of it, at any depth. *)
  Inductive within : pset F -> pset F -> Prop :=
  | wi_self : forall ps, within ps ps
  | wi_factor : forall q f fs, In f fs -> within q f -> within q (PTensor fs).

  (** Basis function [i] is one at the [i]th point and zero at the others. *)
  Definition nodal_at (l : leaf F) (pts : list (list F)) : Prop :=
    forall k p i, nth_error pts k = Some p -> i < lf_dim l ->
      (k = i -> lf_tab l (repeat 0 (spatial_dimension (lf_cell l))) (get_dimension (lf_cell l), 0) p i [] = f1 o) /\
      (k <> i -> lf_tab l (repeat 0 (spatial_dimension (lf_cell l))) (get_dimension (lf_cell l), 0) p i [] = f0 o).

  (** Wherever the class [own] and as many points as [l] has basis functions
      occur in [ps] in [l]'s dimension, they are the nodes of [l] in their order,
      numbered by one index. *)
  Definition collocated (own : pkind) (l : leaf F) (ps : pset F) : Prop :=
    forall D pts ixs, within (PPoints own D pts ixs) ps -> length pts = lf_dim l ->
      D = dk_total (get_dimension (lf_cell l)) ->
      (exists q, ixs = [q]) /\ nodal_at l pts.

  (** Scalar leaves with one index over the basis functions. *)
  Definition scalar_leaf (l : leaf F) : Prop := lf_ishape l = [lf_dim l] /\ lf_vshape l = [].
End Spectral.
