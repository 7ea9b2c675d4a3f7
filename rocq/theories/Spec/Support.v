(** Entity support dofs: what they have to be, and what is assumed. *)
From Coq Require Import String List Arith ZArith.
From Verif Require Import Model.Prelude Model.Cell Model.Element Model.Gem Model.PointSet Model.Quadrature.
From Verif Require Import Spec.Rowmajor Spec.EntityDofs Spec.Layout Spec.Tabulation Spec.Quadrature.
Import ListNotations.

(** Degrees as numbers or regular nested tuples, and their doubles. *)
Inductive regular : deg -> list nat -> Prop :=
| rg_int : forall n, regular (Dg n) []
| rg_tuple : forall ds s, Forall (fun d => regular d s) ds -> regular (DgT ds) (length ds :: s).
Inductive twice : deg -> qdeg -> Prop :=
| tw_int : forall n, twice (Dg n) (QInt (Z.of_nat (2 * n)))
| tw_tuple : forall ds qs, Forall2 twice ds qs -> twice (DgT ds) (QTuple qs).

Section Support.
  Context {F : Type} (o : ops F).
  Local Notation elt := (elt F).

  (** Basis function [m] of [e] has a nonzero value on the entity. *)
  Definition nonzero_on (e : elt) (ent : dimkey * nat) (m : nat) : Prop :=
    exists c vs pt v x, cell_of e = Ok c /\ value_shape e = Ok vs /\
      length pt = dk_total (fst ent) /\ in_shape vs v /\
      value_of o e (repeat 0 (spatial_dimension c)) ent pt m v x /\ x <> f0 o.

  (** [f] is the sum of the squares of the components of basis function [m] on the
      entity. *)
  Definition square_of (e : elt) (ent : dimkey * nat) (m : nat) (f : list F -> F) : Prop :=
    forall pt, length pt = dk_total (fst ent) ->
    exists c vs g, cell_of e = Ok c /\ value_shape e = Ok vs /\
      (forall v, in_shape vs v -> value_of o e (repeat 0 (spatial_dimension c)) ent pt m v (g v)) /\
      f pt = fold_right (fadd o) (f0 o) (map (fun v => fmul o (g v) (g v)) (cart (map (seq 0) vs))).

  (** FIAT: polynomials with their integrals, and the cells of entities. *)
  Context (poly : cell -> nat -> (list F -> F) -> F -> Prop).
  Context (sub_cell : cell -> dimkey -> cell).

  (** The integral of that square over the entity is [I]; it is a polynomial of twice
      the degree of the element. *)
  Definition square_integral (e : elt) (ent : dimkey * nat) (m : nat) (I : F) : Prop :=
    exists c d q f, cell_of e = Ok c /\ degree e = Ok d /\ twice d q /\ square_of e ent m f /\
      integrates o poly (sub_cell c (fst ent)) q f I.

  (** Point sets of the rules on a cell: an array of points, or one per factor
      of a product cell or quadrilateral. *)
  Inductive rule_points : cell -> pset F -> Prop :=
  | rp_simple : forall c kd pts ixs, (forall cs, c <> TPCell cs) -> c <> Hypercube 2 ->
      rule_points c (PPoints kd (spatial_dimension c) pts ixs)
  | rp_product : forall cs qs, Forall2 rule_points cs qs -> rule_points (TPCell cs) (PTensor qs)
  | rp_quadrilateral : forall ps, rule_points (TPCell [Simplex 1; Simplex 1]) ps -> rule_points (Hypercube 2) ps.

  (** Squares can be integrated over the entities: entities have cells of their
      dimension, degrees that suit these cells, and the points of rules on
      these cells can be used for tabulation. *)
  Definition integrable (e : elt) : Prop :=
    exists c vs d s q, cell_of e = Ok c /\ value_shape e = Ok vs /\
      degree e = Ok d /\ regular d s /\ twice d q /\
      forall k n, In (k, n) (topology c) ->
        spatial_dimension (sub_cell c k) = dk_total k /\ no_empty_product (sub_cell c k) /\
        degree_fits (sub_cell c k) q /\
        forall i ps, i < n -> rule_points (sub_cell c k) ps -> fits e (k, i) ps.

  (** The nodes of a tree at which integrals are computed. *)
  Inductive base_of : elt -> elt -> Prop :=
  | bo_leaf : forall l, base_of (ELeaf l) (ELeaf l)
  | bo_tensor : forall b sh tr, base_of (ETensor b sh tr) (ETensor b sh tr)
  | bo_discontinuous : forall e, base_of (EDiscontinuous e) (EDiscontinuous e)
  | bo_tensor_product : forall b f fs, In f fs -> base_of b f -> base_of b (ETensorProduct fs)
  | bo_enriched : forall b f fs, In f fs -> base_of b f -> base_of b (EEnriched fs)
  | bo_mixed_sub : forall b e sz off, base_of b e -> base_of b (EMixedSub e sz off)
  | bo_flattened : forall b p, base_of b p -> base_of b (EFlattened p)
  | bo_hdiv : forall b w, base_of b w -> base_of b (EHDiv w)
  | bo_hcurl : forall b w, base_of b w -> base_of b (EHCurl w).

  (** The integrals tell zero from nonzero functions. *)
  Definition separated (gtb : F -> F -> bool) (eps : F) (e : elt) : Prop :=
    forall c ent m, cell_of e = Ok c -> entity_of (topology c) ent -> m < space_dimension e ->
      exists I, square_integral e ent m I /\ (gtb I eps = true <-> nonzero_on e ent m).
End Support.
