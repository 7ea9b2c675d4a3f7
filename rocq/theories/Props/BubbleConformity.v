(** Property C68, continued: vector fields with components at vertices and a
    moment on each facet. *)
From Coq Require Import String.
From mathcomp Require Import all_ssreflect all_algebra.
From SsrMultinomials Require Import mpoly.
From Verif Require Import Model.Prelude Model.Gem Model.Cell Model.Element Model.Mapped Model.Piola Model.Zany Model.PiolaElements.
From Verif Require Import Spec.Algebra Spec.Polynomials Spec.EntityDofs Spec.PiolaElements Spec.PiolaSamples Spec.PiolaConformity Spec.BubbleConformity.
From Verif Require Import Proofs.PiolaSamples Proofs.PiolaVectors Proofs.PiolaNeighbours Proofs.BubbleConformity.
Set Implicit Arguments.
Unset Strict Implicit.
Unset Printing Implicit Defensive.
Import GRing.Theory.
Local Open Scope ring_scope.
Local Notation Q := [realFieldType of rat].

(** Piola bubble elements in two and three dimensions: if the components at the
    vertices of a facet and one functional on it tell the fields' components on
    the facet apart, then fields with equal coefficients there agree on the
    facet, in all components. The tangential moments are not coefficients: they
    vanish on both sides. *)
Theorem C68_piola_bubble : forall (F : realFieldType) m (c : scell (F := F)), fiat_cell m c ->
  forall numbf ndof (sense : nat -> vnode F m), let n := m.+1 in (n = 2 \/ n = 3)%N -> (ndof <= numbf)%N ->
  (forall i, (i < numbf)%N -> vlinear (sense i)) ->
  forall deriv, (forall d, (d < numbf)%N -> deriv d = is_divergence (sense d)) ->
  forall mappings s d pf lam vat T,
  mappings <> nil -> (forall y, List.In y mappings -> y = "contravariant piola"%string) ->
  edofs_ok (topology (Simplex n)) numbf d ->
  (forall k i l x, has_dofs d k i l -> List.In x l -> k <> DI m -> (x < ndof)%N) ->
  (forall k i l, has_dofs d k i l -> k <> DI m -> blocks sense l) ->
  (forall f l, has_dofs d (DI m) f l -> exists R, l = (s + f)%N :: R /\ (s + f < ndof)%N /\
     (forall x, List.In x R -> (ndof <= x)%N) /\ size R = m /\ sense (s + f)%N = Normal (pf f) f (lam f) /\
     forall k, (k < m)%N -> sense (nth 0%N R k) = Tangential (pf f) f (lam f) k) ->
  (forall f k i, (f <= n)%N -> (k <= m)%N -> (vat f k i < ndof)%N /\ sense (vat f k i) = Component (pf f) (@cell_facet F m c f k) i) ->
  subspace T ->
  forall (K K' : pcell F m (vfield F m)) d' M M' f f' (a a' : nat -> F),
  tbased c numbf T sense pf K -> tbased c numbf T sense pf K' ->
  piola_bubble_init mappings n numbf d = Ok (d', ndof) ->
  bubble_transformation (ring_ops F) numbf ndof d d' deriv c (pgeo K) = Ok M ->
  bubble_transformation (ring_ops F) numbf ndof d d' deriv c (pgeo K') = Ok M' ->
  (f <= n)%N -> (f' <= n)%N -> same_facet (pfacet c K f) (pfacet c K' f') ->
  settled T (lam f) -> (forall q, lam f q = lam f' q) ->
  (forall k i, (k <= m)%N -> a (vat f k i) = a' (vat f' k i)) -> a (s + f)%N = a' (s + f')%N ->
  field_continuous (pfacet c K f) (vfield_of numbf ndof M K a) (vfield_of numbf ndof M' K' a') (pf f) (pf f').
Proof. exact bubble_conforming. Qed.
Print Assumptions C68_piola_bubble.

(** The Bernardi-Raugel element on two triangles, with quadratic fields; the
    coefficients agree at the ends of the shared edge and on it only. *)
Example C68_piola_bubble_example : let deriv (_ : nat) := false in
  let mappings := List.repeat "contravariant piola"%string 12 in
  let K := br_cell g2 J2 b2 in let K' := br_cell g2' J2' b2' in
  exists d' M M', piola_bubble_init mappings 2 12 br_dofs = Ok (d', 9%N) /\
    bubble_transformation (ring_ops Q) 12 9 br_dofs d' deriv cell2 g2 = Ok M /\
    bubble_transformation (ring_ops Q) 12 9 br_dofs d' deriv cell2 g2' = Ok M' /\
    field_continuous (pfacet cell2 K 0) (vfield_of 12 9 M K br_left) (vfield_of 12 9 M' K' br_right) 0 0.
Proof.
move=> deriv mappings K K'.
have hl i : (i < 12)%N -> vlinear (br_sense i) := fun _ => br_linear i.
have hder i : (i < 12)%N -> deriv i = is_divergence (br_sense i).
  by move=> hi; rewrite /br_sense; do 2?[case: ifP => _ //].
have h1 : mappings <> nil by [].
have h2 y : List.In y mappings -> y = "contravariant piola"%string := List.repeat_spec _ _ _.
have h3 k i l x := @br_small k i l x.
have [d' [M [ed [eM _]]]] := bubble_transforms b2 cell2_fiat g2_provides (isT : (9 <= 12)%N) hl hder (or_introl erefl) h1 h2
  br_edofs h3 br_blocks br_facets.
have [d2 [M' [ed2 [eM' _]]]] := bubble_transforms b2' cell2_fiat g2'_provides (isT : (9 <= 12)%N) hl hder (or_introl erefl) h1 h2
  br_edofs h3 br_blocks br_facets.
have E : d2 = d' by move: ed2; rewrite ed => -[].
rewrite E in eM'; exists d', M, M'; split; first exact: ed.
split; first exact: eM.
split; first exact: eM'.
have hm : same_facet (pfacet cell2 K 0) (pfacet cell2 K' 1) by exact: neighbours2.
have hn : br_left (6 + 0)%N = br_right (6 + 1)%N by [].
exact (@C68_piola_bubble Q 1 cell2 cell2_fiat 12 9 br_sense (or_introl erefl) isT hl deriv hder mappings 6 br_dofs
  (fun _ => 0%N) (fun _ => value_at (fun _ => qq 1 2)) br_vat quadratic h1 h2 br_edofs h3 br_blocks br_facets br_vats quadratic_space
  K K' d' M M' 0 1 br_left br_right (br_cells b2 g2_provides) (br_cells b2' g2'_provides) ed eM eM' isT isT hm
  midpoint_settles (fun _ => erefl) br_agree hn).
Qed.

(** Linear polynomials and a bubble on a facet are told apart in this way. *)
Theorem C68_bubble_space : forall (F : realFieldType) m (b : {mpoly F[m]}) (lam : on_facet F m), is_linear lam ->
  (forall k, (k <= m)%N -> corner_value k b = 0) -> lam b != 0 -> subspace (linear_and b) /\ settled (linear_and b) lam.
Proof. exact linear_and_settled. Qed.
Print Assumptions C68_bubble_space.
Example C68_bubble_space_example : let b := 'X_0 * 'X_1 * (1 - 'X_0 - 'X_1) : {mpoly rat[2]} in
  let lam := value_at (fun _ => qq 1 3) : on_facet Q 2 in subspace (F := Q) (linear_and (F := Q) b) /\ settled (F := Q) (linear_and (F := Q) b) lam.
Proof.
exact (@C68_bubble_space Q 2 _ _ (@value_linear 2 (fun _ => qq 1 3)) bubble3_corners bubble3_moment).
Qed.
