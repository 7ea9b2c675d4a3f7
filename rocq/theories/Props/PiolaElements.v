(** Property C54: basis transformations of Piola-mapped elements. *)
From Coq Require Import String.
From mathcomp Require Import all_ssreflect all_algebra.
From SsrMultinomials Require Import mpoly.
From Verif Require Import Model.Prelude Model.Gem Model.Cell Model.Element Model.Mapped Model.Piola Model.Zany Model.PiolaElements.
From Verif Require Import Spec.Algebra Spec.Polynomials Spec.EntityDofs Spec.PiolaElements Spec.PiolaSamples.
From Verif Require Import Proofs.PiolaFields Proofs.PiolaArrays Proofs.PiolaMatrices Proofs.PiolaVectors Proofs.PiolaSamples.
Set Implicit Arguments.
Unset Strict Implicit.
Unset Printing Implicit Defensive.
Import GRing.Theory Num.Theory.
Local Open Scope ring_scope.
Local Notation Q := [realFieldType of rat].

(** [vpreimage] and [mpreimage] are what the contravariant Piola maps of vector
    and matrix fields take back to the fields. *)
Theorem C54_preimage : forall (F : realFieldType) m (J : 'M[F]_m.+1) (b : point F m.+1), \det J != 0 ->
  (forall (u : vfield F m) p x, vvalue u p (image (affine J b) x) = (\det J)^-1 *: (J *m vvalue (vpreimage J b u) p x)) /\
  (forall (s : mfield F m) p x, mvalue s p (image (affine J b) x) =
     (\det J)^-2 *: (J *m mvalue (mpreimage J b s) p x *m J^T)).
Proof. exact: piola_preimage. Qed.
Print Assumptions C54_preimage.

Example C54_preimage_example : let x : point Q 2 := fun k => qq 1 (k + 2) in
  vvalue (br_basis 6) 0 (image (affine J2 b2) x) = (6%:R)^-1 *: (J2 *m vvalue (vpreimage J2 b2 (br_basis 6)) 0 x).
Proof. by move=> x; have [h _] := @C54_preimage Q 1 J2 b2 (proj1 g2_provides); rewrite (h (br_basis 6)) detJ2. Qed.

(** Johnson-Mercier, in two and three dimensions: on each facet [n] functionals
    of the normal component and of the tangential ones; other dofs are taken on
    the reference cell. *)
Theorem C54_johnson_mercier : forall (F : realFieldType) m (c : scell (F := F)) (g : geometry (F := F)) (J : 'M[F]_m.+1) (b : point F m.+1),
  fiat_cell m c -> provides g J -> forall numbf ndof pf lam ell, let n := m.+1 in
  (n = 2 \/ n = 3)%N -> (n.+1 * (n * n) <= ndof)%N -> (ndof <= numbf)%N ->
  let sense := facets_first n.+1 n pf lam (fun i => MOther (ell i)) in
  (forall i, (i < numbf)%N -> mlinear (sense i)) ->
  exists M, jm_transformation (ring_ops F) numbf ndof c g = Ok M /\ transforms_matrices c g J b numbf ndof sense M.
Proof. exact: jm_transforms. Qed.
Print Assumptions C54_johnson_mercier.

Example C54_johnson_mercier_example :
  exists M, jm_transformation (ring_ops Q) 42 42 cell3 g3 = Ok M /\
     transforms_matrices cell3 g3 J3 b3 42 42 (facets_first 4 3 (fun f => f) (@lam_at 2) (fun i => MOther (@inner_entry 2 i))) M.
Proof.
apply: (@C54_johnson_mercier Q 2 cell3 g3 J3 b3 cell3_fiat g3_provides) => //; first by right.
by move=> i _; apply: facets_linear; exact: inner_mlinear.
Qed.

(** Arnold-Winther, nonconforming and conforming, and Hu-Zhang. *)
Theorem C54_arnold_winther_nc : forall (F : realFieldType) (c : scell (F := F)) (g : geometry (F := F)) (J : 'M[F]_2) (b : point F 2),
  fiat_cell 1 c -> provides g J -> forall numbf ndof pf lam ell, (12 <= ndof)%N -> (ndof <= numbf)%N ->
  let sense := facets_first 3 2 pf lam (fun i => MOther (ell i)) in
  (forall i, (i < numbf)%N -> mlinear (sense i)) ->
  exists M, awnc_transformation (ring_ops F) numbf ndof c g = Ok M /\ transforms_matrices c g J b numbf ndof sense M.
Proof. exact: awnc_transforms. Qed.
Print Assumptions C54_arnold_winther_nc.

Example C54_arnold_winther_nc_example :
  exists M, awnc_transformation (ring_ops Q) 18 15 cell2 g2 = Ok M /\
     transforms_matrices cell2 g2 J2 b2 18 15 (facets_first 3 2 (fun f => f) (@lam_at 1) (fun i => MOther (@inner_entry 1 i))) M.
Proof.
apply: (@C54_arnold_winther_nc Q cell2 g2 J2 b2 cell2_fiat g2_provides) => //.
by move=> i _; apply: facets_linear; exact: inner_mlinear.
Qed.

Theorem C54_arnold_winther : forall (F : realFieldType) (c : scell (F := F)) (g : geometry (F := F)) (J : 'M[F]_2) (b : point F 2),
  fiat_cell 1 c -> provides g J -> forall numbf ndof pv pf lam ell, (21 <= ndof)%N -> (ndof <= numbf)%N ->
  let sense := vertices_first (@cell_vertex F 1 c) pv (facets_first 3 2 pf lam (fun i => MOther (ell i))) in
  (forall i, (i < numbf)%N -> mlinear (sense i)) ->
  exists M, aw_transformation (ring_ops F) numbf ndof c g = Ok M /\ transforms_matrices c g J b numbf ndof sense M.
Proof. exact: aw_transforms. Qed.
Print Assumptions C54_arnold_winther.

Example C54_arnold_winther_example :
  exists M, aw_transformation (ring_ops Q) 30 24 cell2 g2 = Ok M /\
     transforms_matrices cell2 g2 J2 b2 30 24
       (vertices_first (@cell_vertex Q 1 cell2) (fun v => v) (facets_first 3 2 (fun f => f) (@lam_at 1) (fun i => MOther (@inner_entry 1 i)))) M.
Proof.
apply: (@C54_arnold_winther Q cell2 g2 J2 b2 cell2_fiat g2_provides) => //.
by move=> i _; apply: vertices_linear => j; apply: facets_linear; exact: inner_mlinear.
Qed.

(** Hu-Zhang of degree [degree]: [degree - 1] functionals of each component on
    an edge; with the point variant the inner dofs are components at points. *)
Theorem C54_hu_zhang : forall (F : realFieldType) (c : scell (F := F)) (g : geometry (F := F)) (J : 'M[F]_2) (b : point F 2),
  fiat_cell 1 c -> provides g J -> forall ndofs degree variant k pv pf lam ell Y py, (2 <= degree)%N ->
  (9 + 6 * (degree - 1) <= ndofs)%N ->
  (variant = Some "point"%string -> ndofs = 9 + 6 * (degree - 1) + 3 * k)%N ->
  forall rest, (variant = Some "point"%string -> rest = components_at Y py) ->
  (variant <> Some "point"%string -> rest = fun i => MOther (ell i)) ->
  let sense := vertices_first (@cell_vertex F 1 c) pv (facets_first 3 (degree - 1) pf lam rest) in
  (forall i, (i < ndofs)%N -> mlinear (sense i)) ->
  exists M, hz_transformation (ring_ops F) ndofs degree variant c g = Ok M /\ transforms_matrices c g J b ndofs ndofs sense M.
Proof. exact: hz_transforms_variants. Qed.
Print Assumptions C54_hu_zhang.

Example C54_hu_zhang_example : let Y (i : nat) : point Q 2 := fun k => qq i.+1 (k + 5) in
  exists M, hz_transformation (ring_ops Q) 30 3 (Some "point"%string) cell2 g2 = Ok M /\
     transforms_matrices cell2 g2 J2 b2 30 30
       (vertices_first (@cell_vertex Q 1 cell2) (fun v => v) (facets_first 3 2 (fun f => f) (@lam_at 1) (components_at Y (fun i => i)))) M.
Proof.
move=> Y.
apply: (@C54_hu_zhang Q cell2 g2 J2 b2 cell2_fiat g2_provides 30 3 (Some "point"%string) 3 _ _ _ (fun i => @inner_entry 1 i) Y (fun i => i)) => //.
move=> i _; apply: vertices_linear => j; apply: facets_linear => q.
by rewrite /components_at /component; case: ifP => _ //; case: ifP.
Qed.

(** Mardal-Tai-Winther: on each edge the first dof is a functional of the normal
    component, the second the same functional of the tangential component. *)
Theorem C54_mardal_tai_winther : forall (F : realFieldType) (c : scell (F := F)) (g : geometry (F := F)) (J : 'M[F]_2) (b : point F 2),
  fiat_cell 1 c -> provides g J -> forall numbf ndof dofs (sense : nat -> vnode F 1), (ndof <= numbf)%N ->
  (forall i, (i < numbf)%N -> vlinear (sense i)) ->
  edofs_ok (topology (Simplex 2)) ndof dofs ->
  (forall f l, has_dofs dofs (DI 1) f l -> exists a r p lam, l = a :: r /\ List.In a.+1 r /\
     sense a = Normal p f lam /\ sense a.+1 = Tangential p f lam 0) ->
  (forall i, (i < numbf)%N -> shared (sense i) \/ exists f a r, has_dofs dofs (DI 1) f (a :: r) /\ i = a.+1) ->
  exists M, mtw_transformation (ring_ops F) numbf ndof dofs c g = Ok M /\ transforms_vectors c g J b numbf ndof sense M.
Proof. exact: mtw_transforms. Qed.
Print Assumptions C54_mardal_tai_winther.

Example C54_mardal_tai_winther_example :
  exists M, mtw_transformation (ring_ops Q) 12 9 mtw_dofs cell2 g2 = Ok M /\
     transforms_vectors cell2 g2 J2 b2 12 9 (mtw_sense inner_value) M.
Proof.
apply: (@C54_mardal_tai_winther Q cell2 g2 J2 b2 cell2_fiat g2_provides 12 9) => //.
- by move=> i _; exact: mtw_linear.
- exact: mtw_edofs.
- exact: mtw_facets.
- exact: mtw_shared.
Qed.

(** Alfeld-Sorokina, any dimension: the dofs of every entity are divergences and
    complete sets of components at points. *)
Theorem C54_alfeld_sorokina : forall (F : realFieldType) m (c : scell (F := F)) (g : geometry (F := F)) (J : 'M[F]_m.+1) (b : point F m.+1),
  fiat_cell m c -> provides g J -> forall ndof (sense : nat -> vnode F m) deriv dofs,
  (forall i, (i < ndof)%N -> vlinear (sense i)) ->
  (forall d, (d < ndof)%N -> deriv d = is_divergence (sense d)) ->
  edofs_ok (topology (Simplex m.+1)) ndof dofs ->
  (forall k e l, has_dofs dofs k e l -> blocks sense l) ->
  exists M, as_transformation (ring_ops F) ndof dofs deriv c g = Ok M /\ transforms_vectors c g J b ndof ndof sense M.
Proof. exact: alfeld_sorokina_transforms. Qed.
Print Assumptions C54_alfeld_sorokina.

Example C54_alfeld_sorokina_example : let deriv d := is_divergence (as_sense d) in
  exists M, as_transformation (ring_ops Q) 15 as_dofs deriv cell2 g2 = Ok M /\ transforms_vectors cell2 g2 J2 b2 15 15 as_sense M.
Proof.
move=> deriv; apply: (@C54_alfeld_sorokina Q 1 cell2 g2 J2 b2 cell2_fiat g2_provides) => //.
- by move=> i _; exact: as_linear.
- exact: as_edofs.
- exact: as_blocks.
Qed.

(** Piola bubble elements (Bernardi-Raugel, Guzman-Neilan, Christiansen-Hu,
    Alfeld-Sorokina enriched ...): on each facet the normal dof, then the
    tangential ones, which are numbered last and vanish on the element's
    functions; other entities as above. *)
Theorem C54_piola_bubble : forall (F : realFieldType) m (c : scell (F := F)) (g : geometry (F := F)) (J : 'M[F]_m.+1) (b : point F m.+1),
  fiat_cell m c -> provides g J -> forall numbf ndof (sense : nat -> vnode F m), (ndof <= numbf)%N ->
  (forall i, (i < numbf)%N -> vlinear (sense i)) -> forall deriv,
  (forall d, (d < numbf)%N -> deriv d = is_divergence (sense d)) ->
  forall mappings s d pf lam, (m.+1 = 2 \/ m.+1 = 3)%N ->
  mappings <> nil -> (forall y, List.In y mappings -> y = "contravariant piola"%string) ->
  edofs_ok (topology (Simplex m.+1)) numbf d ->
  (forall k i l x, has_dofs d k i l -> List.In x l -> k <> DI m -> (x < ndof)%N) ->
  (forall k i l, has_dofs d k i l -> k <> DI m -> blocks sense l) ->
  (forall f l, has_dofs d (DI m) f l -> exists T, l = (s + f)%N :: T /\ (s + f < ndof)%N /\
     (forall x, List.In x T -> (ndof <= x)%N) /\ size T = m /\ sense (s + f)%N = Normal (pf f) f (lam f) /\
     forall k, (k < m)%N -> sense (nth 0%N T k) = Tangential (pf f) f (lam f) k) ->
  exists d' M, piola_bubble_init mappings m.+1 numbf d = Ok (d', ndof) /\
    bubble_transformation (ring_ops F) numbf ndof d d' deriv c g = Ok M /\ transforms_vectors c g J b numbf ndof sense M.
Proof. exact: bubble_transforms. Qed.
Print Assumptions C54_piola_bubble.

(** Quadratic fields on a triangle, reduced to linear ones and normal bubbles:
    the basis on the physical cell. *)
Example C54_piola_bubble_example : let deriv _ := false in
  exists d' M, piola_bubble_init (List.repeat "contravariant piola"%string 12) 2 12 br_dofs = Ok (d', 9%N) /\
    bubble_transformation (ring_ops Q) 12 9 br_dofs d' deriv cell2 g2 = Ok M /\
    (forall l i, (l < 9)%N -> (i < 12)%N ->
       vdof (physical_place J2 b2 (@cell_facet Q 1 cell2) (cell_size g2) (vpreimage J2 b2)) (br_sense i)
         (vcombination 12 (n_at M l) br_basis) = (i == l)%:R).
Proof.
move=> deriv.
have [||||||||d' [M [e1 [e2 [_ [_ [_ h]]]]]]] := @C54_piola_bubble Q 1 cell2 g2 J2 b2 cell2_fiat g2_provides 12 9 br_sense isT _ deriv _
  (List.repeat "contravariant piola"%string 12) 6 br_dofs (fun _ => 0%N) (fun _ => value_at (fun _ => qq 1 2)) (or_introl erefl).
- by move=> i _; exact: br_linear.
- by move=> i hi; rewrite /br_sense; do 2?[case: ifP => _ //].
- by [].
- by move=> y hy; exact: (List.repeat_spec _ _ _ hy).
- exact: br_edofs.
- by move=> k i l x; exact: br_small.
- exact: br_blocks.
- exact: br_facets.
exists d', M; split=> //; split=> //.
move=> l i hl hi; apply: (h br_basis) => // i' j' hi' hj'; exact: br_nodal.
Qed.

(** Other dimensions are refused. *)
Theorem C54_johnson_mercier_dimension : forall (F : realFieldType) (c : scell (F := F)) (g : geometry (F := F)) numbf ndof,
  sc_dim c <> 2%N -> sc_dim c <> 3%N -> sc_facets c <> nil ->
  jm_transformation (ring_ops F) numbf ndof c g = Err NotImplementedError.
Proof. exact: jm_dimension. Qed.
Print Assumptions C54_johnson_mercier_dimension.
Theorem C54_mardal_tai_winther_dimension : forall (F : realFieldType) (c : scell (F := F)) (g : geometry (F := F)) numbf ndof
    (dofs : edofs) facets f rest a l, sc_dim c <> 2%N ->
  dict_get dimkey_eqb dofs (DI (sc_dim c - 1)) = Ok facets -> sorted Nat.leb (List.map fst facets) = f :: rest ->
  dict_get Nat.eqb facets f = Ok (a :: l) -> mtw_transformation (ring_ops F) numbf ndof dofs c g = Err ValueError.
Proof. exact: mtw_dimension. Qed.
Print Assumptions C54_mardal_tai_winther_dimension.
