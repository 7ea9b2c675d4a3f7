(** C60: reconstruction with one argument changed. *)
From Coq Require Import Ascii String List ZArith Bool Lia.
From Verif Require Import Model.Prelude Model.Registry Model.UflElement Spec.Registry Spec.UflElement Spec.Reconstruct
  Proofs.Repr Proofs.Equality Proofs.Rebuild Proofs.Expansion Proofs.Reconstruct Proofs.ReconstructCell Proofs.ReconstructLeaves.
Import ListNotations.
Open Scope string_scope.

(** Elements for the examples. *)
Definition square : ucell := ProductCell [Named Interval; Named Interval].
Definition cg_1 : uel :=
  UFinite (mkDescription "Lagrange" (Some "CG") (Order 1) [] H1 "identity" (Order 1)) (Some (Named Triangle)) None None.
Definition dg_0 : uel :=
  UFinite (mkDescription "Discontinuous Lagrange" (Some "DG") (Order 0) [] L2 "identity" (Order 0)) (Some (Named Triangle)) None None.
Example cg_1_made : mk_finite "CG" (Some (Named Triangle)) (Order 1) None None None = Ok cg_1.
Proof. vm_compute. reflexivity. Qed.
Example dg_0_made : mk_finite "DG" (Some (Named Triangle)) (Order 0) None None None = Ok dg_0.
Proof. vm_compute. reflexivity. Qed.
Definition th : uel :=
  UMixed (mkAttrs "Mixed" (Some (Named Triangle)) (DInt 1) None [3])
    [UVector (mkAttrs "Lagrange" (Some (Named Triangle)) (DInt 1) None [2]) cg_1 2; dg_0].
Example th_made : mk_vector cg_1 None = Ok (UVector (mkAttrs "Lagrange" (Some (Named Triangle)) (DInt 1) None [2]) cg_1 2) /\
  mk_mixed [UVector (mkAttrs "Lagrange" (Some (Named Triangle)) (DInt 1) None [2]) cg_1 2; dg_0] = Ok th.
Proof. split; vm_compute; reflexivity. Qed.
Example th_built : built th.
Proof.
  apply (built_mixed _ _) with (2 := proj2 th_made). repeat constructor.
  - exact (built_vector _ _ _ (mk_finite_built _ _ _ _ _ _ _ cg_1_made) (proj1 th_made)).
  - exact (mk_finite_built _ _ _ _ _ _ _ dg_0_made).
Qed.
Example th_inhabited : inhabited th.
Proof. repeat constructor. discriminate. Qed.

(** ** The variant *)

(** Another variant: the same tree with that variant at every leaf, and all else as before. *)
Theorem C60_variant e v : built e -> quiet (Some v) -> exists e', reconstruct (set_variant v) e = Ok e' /\
  leafwise (with_variant v) e e' /\ built e' /\ u_attrs e = u_attrs e'.
Proof. exact (reconstruct_variant e v). Qed.

(** It is the element that FiniteElement makes with that variant, expanded on product cells or not. *)
Theorem C60_variant_finite v f c o k s w e : quiet (Some v) -> mk_finite f c o k s w = Ok e ->
  exists e1 e2, reconstruct (set_variant v) e = Ok e1 /\ mk_finite f c o k s (Some v) = Ok e2 /\ same e1 e2.
Proof. exact (fun Q => variant_commutes v Q f c o k s w e). Qed.

(** The variant is read back, unless the tree has a broken element. *)
Theorem C60_variant_read v e e' : built e -> inhabited e -> nowhere is_broken e = true -> quiet (Some v) ->
  reconstruct (set_variant v) e = Ok e' -> u_variant e' = Some v.
Proof. exact (variant_read_back v e e'). Qed.
(** The full statement fails of broken elements: they forget the variant. *)
Theorem C60_variant_broken_refuted : exists e v e', built e /\ inhabited e /\ quiet (Some v) /\
  reconstruct (set_variant v) e = Ok e' /\ u_variant e' = None.
Proof.
  exists (UBroken (mkAttrs "BrokenElement" (Some (Named Triangle)) (DInt 1) None []) cg_1), "spectral". eexists.
  split; [exact (built_broken _ _ (mk_finite_built _ _ _ _ _ _ _ cg_1_made) eq_refl)|].
  split; [repeat constructor|]. split; [split; cbn; intuition discriminate|]. split; vm_compute; reflexivity.
Qed.

(** A variant with a quotation mark is refused. *)
Theorem C60_variant_refused e v : built e -> inhabited e -> ~ quiet (Some v) -> reconstruct (set_variant v) e = Err AssertionError.
Proof. exact (reconstruct_loud e v). Qed.

Example C60_variant_example : exists e',
  quiet (Some "spectral") /\ reconstruct (set_variant "spectral") th = Ok e' /\ u_variant th = None /\ u_variant e' = Some "spectral" /\
  nowhere is_broken th = true /\ u_repr e' <> u_repr th /\
  ~ quiet (Some "it's") /\ reconstruct (set_variant "it's") th = Err AssertionError.
Proof.
  eexists. split; [split; cbn; intuition discriminate|]. split; [vm_compute; reflexivity|]. split; [reflexivity|]. split; [reflexivity|].
  split; [reflexivity|]. split; [vm_compute; discriminate|]. split; [|vm_compute; reflexivity]. intros [H _]. apply H. cbn. auto.
Qed.
Example C60_variant_finite_example : exists e, mk_finite "RTCF" (Some square) (Order 1) None None None = Ok e /\
  exists e1, reconstruct (set_variant "point") e = Ok e1 /\ mk_finite "RTCF" (Some square) (Order 1) None None (Some "point") = Ok e1 /\
  u_variant e1 = Some "point".
Proof. eexists. split; [vm_compute; reflexivity|]. eexists. split; [vm_compute; reflexivity|]. split; vm_compute; reflexivity. Qed.

(** ** The degree *)

(** With another degree, outside the vector families on product cells: the element that
    FiniteElement makes with that degree. *)
Theorem C60_degree f c o s v q e e2 : ~ In f vector_families -> mk_finite f c o None s v = Ok e ->
  mk_finite f c (Order q) None s v = Ok e2 -> exists e1, reconstruct (set_degree q) e = Ok e1 /\ same e1 e2.
Proof. exact (degree_commutes f c o s v q e e2). Qed.
(** For the vector families this is false: every factor gets the degree, also those of one less. *)
Theorem C60_degree_refuted : exists f c o q e e1 e2, mk_finite f c o None None None = Ok e /\
  mk_finite f c (Order q) None None None = Ok e2 /\ reconstruct (set_degree q) e = Ok e1 /\ ~ same e1 e2 /\
  (exists a x y, e1 = UEnriched false a [x; y] /\ u_degree x = DTuple [DInt 2; DInt 2] /\ u_degree y = DTuple [DInt 2; DInt 2]) /\
  (exists a x y, e2 = UEnriched false a [x; y] /\ u_degree x = DTuple [DInt 2; DInt 1] /\ u_degree y = DTuple [DInt 1; DInt 2]).
Proof.
  exists "RTCF", (Some square), (Order 1), 2%Z. do 3 eexists. split; [vm_compute; reflexivity|]. split; [vm_compute; reflexivity|].
  split; [vm_compute; reflexivity|]. split; [|split; do 3 eexists; repeat split; reflexivity].
  intros S. apply same_repr in S. vm_compute in S. discriminate S.
Qed.
Example C60_degree_example : ~ In "DQ" vector_families /\ exists e e2, mk_finite "DQ" (Some square) (Order 1) None None None = Ok e /\
  mk_finite "DQ" (Some square) (Order 3) None None None = Ok e2 /\ reconstruct (set_degree 3) e = Ok e2 /\ u_degree e2 = DTuple [DInt 3; DInt 3].
Proof.
  split; [cbn; intuition discriminate|]. do 2 eexists. split; [vm_compute; reflexivity|]. split; [vm_compute; reflexivity|].
  split; vm_compute; reflexivity.
Qed.

(** ** The cell *)

(** With another cell the element is on that cell. *)
Theorem C60_cell c e e' : built e -> inhabited e -> reconstruct (set_cell c) e = Ok e' -> u_cell e' = Some c.
Proof. exact (reconstruct_cell c e e'). Qed.
(** It need not be the element of that cell: the factors of a product stay where they are. *)
Theorem C60_cell_refuted : exists f c c' o e e1 e2, mk_finite f (Some c) o None None None = Ok e /\ mk_finite f (Some c') o None None None = Ok e2 /\
  reconstruct (set_cell c') e = Ok e1 /\ ~ same e1 e2 /\ u_cell e1 = Some c' /\
  map u_cell (u_subs e1) = [Some (Named Interval); Some (Named Interval)] /\ map u_cell (u_subs e2) = [Some (Named Triangle); Some (Named Interval)].
Proof.
  exists "DQ", square, (ProductCell [Named Triangle; Named Interval]), (Order 1). do 3 eexists.
  split; [vm_compute; reflexivity|]. split; [vm_compute; reflexivity|]. split; [vm_compute; reflexivity|].
  split; [|repeat split; vm_compute; reflexivity].
  intros S. apply same_repr in S. vm_compute in S. discriminate S.
Qed.
Example C60_cell_example : exists e', reconstruct (set_cell (Named Tetrahedron)) th = Ok e' /\ u_cell e' = Some (Named Tetrahedron) /\
  u_cell th = Some (Named Triangle) /\ u_shape e' = u_shape th.
Proof. eexists. split; [vm_compute; reflexivity|]. repeat split. Qed.

(** ** The quadrature scheme *)

(** With another scheme: the same tree with that scheme at every leaf and at the root, and all
    else as before, when there is no tensor product in the tree. *)
Theorem C60_scheme e q : built e -> inhabited e -> nowhere is_product e = true -> quiet (Some q) -> exists e',
  reconstruct (set_scheme q) e = Ok e' /\ leafwise (with_scheme q) e e' /\ built e' /\
  same_but_scheme (u_attrs e) (u_attrs e') /\ u_scheme e' = Some q.
Proof. exact (scheme_changed e q). Qed.
(** With one it can fail: tensor products have no scheme, and then the parts disagree. *)
Theorem C60_scheme_refuted : exists e q, built e /\ inhabited e /\ quiet (Some q) /\ reconstruct (set_scheme q) e = Err ValueError.
Proof.
  assert (exists a b, mk_finite "Q" (Some square) (Order 1) None None None = Ok a /\ mk_finite "Real" (Some square) (Order 0) None None None = Ok b /\
    exists e, mk_mixed [a; b] = Ok e /\ inhabited e /\ reconstruct (set_scheme "KMV") e = Err ValueError) as (a & b & A & B & e & E & I & R).
  { do 2 eexists. split; [vm_compute; reflexivity|]. split; [vm_compute; reflexivity|]. eexists. split; [vm_compute; reflexivity|].
    split; [repeat constructor; discriminate|vm_compute; reflexivity]. }
  exists e, "KMV". split; [|split; [exact I|split; [split; cbn; intuition discriminate|exact R]]].
  apply (built_mixed [a; b] e); [|exact E]. repeat constructor; eapply mk_finite_built; eassumption.
Qed.
Example C60_scheme_example : exists e', nowhere is_product th = true /\ reconstruct (set_scheme "KMV") th = Ok e' /\
  u_scheme th = None /\ u_scheme e' = Some "KMV" /\ map u_scheme (u_subs e') = [Some "KMV"; Some "KMV"].
Proof. eexists. split; [reflexivity|]. split; [vm_compute; reflexivity|]. repeat split. Qed.

(** ** Several arguments *)

(** Whatever arguments are given besides cell and mapping: the same tree, whose leaves are what
    FiniteElement makes from the given arguments and the leaf's own ones otherwise. *)
Theorem C60_leaves e kw e' : built e -> kw_cell kw = None -> kw_mapping kw = None -> reconstruct kw e = Ok e' ->
  leafwise (replaced kw) e e'.
Proof. exact (leaves_replaced e kw e'). Qed.
Example C60_leaves_example : exists e', reconstruct (mkKwargs (Some "DG") None (Some (Order 2)) None None None) th = Ok e' /\
  map u_repr (u_subs e') = ["VectorElement(FiniteElement('Discontinuous Lagrange', triangle, 2), dim=2)"; "FiniteElement('Discontinuous Lagrange', triangle, 2)"].
Proof. eexists. split; [vm_compute; reflexivity|]. vm_compute. reflexivity. Qed.
(** The leaf relation holds of no other family. *)
Example C60_leaves_sharp : ~ replaced (set_family "DG") cg_1 cg_1.
Proof.
  intros (f & o & s & v & [F|[F _]] & K); [|discriminate F]. injection F as <-.
  destruct K as ([O|[_ ->]] & K); [discriminate O|]. destruct K as ([[S _]|[_ ->]] & K); [now destruct S|].
  destruct K as ([[V _]|[_ ->]] & M); [now destruct V|]. vm_compute in M. discriminate M.
Qed.

(** ** The mapping *)

(** Another mapping goes to the outermost changes of mapping; all else stays. *)
Theorem C60_mapping m e e' : built e -> reconstruct (set_mapping m) e = Ok e' -> remapped m e e'.
Proof. exact (mapping_replaced m e e'). Qed.
(** It is taken wherever there is a change of mapping above every leaf, if these are for as many
    axes. *)
Theorem C60_mapping_accepted m e : built e -> covered (alike m) e = true -> m <> "symmetries" ->
  exists e', reconstruct (set_mapping m) e = Ok e' /\ remapped m e e' /\ built e' /\ u_attrs e = u_attrs e'.
Proof. exact (mapping_accepted m e). Qed.
(** Elsewhere it is not: FiniteElement does not know the argument. *)
Theorem C60_mapping_refused m e : built e -> covered (fun _ => true) e = false -> exists x, reconstruct (set_mapping m) e = Err x.
Proof. exact (mapping_refused m e). Qed.
Example C60_mapping_example : exists w v e', mk_with_mapping cg_1 "identity" = Ok w /\ mk_vector w None = Ok v /\ covered (alike "custom") v = true /\
  reconstruct (set_mapping "custom") v = Ok e' /\ u_repr e' = "VectorElement(WithMapping(FiniteElement('Lagrange', triangle, 1), 'custom'), dim=2)" /\
  covered (fun _ => true) th = false /\ reconstruct (set_mapping "custom") th = Err TypeError.
Proof. do 3 eexists. split; [vm_compute; reflexivity|]. split; [vm_compute; reflexivity|]. repeat split; vm_compute; reflexivity. Qed.

Print Assumptions C60_leaves.
Print Assumptions C60_mapping.
Print Assumptions C60_mapping_accepted.
Print Assumptions C60_mapping_refused.
Print Assumptions C60_variant.
Print Assumptions C60_variant_finite.
Print Assumptions C60_variant_read.
Print Assumptions C60_variant_broken_refuted.
Print Assumptions C60_variant_refused.
Print Assumptions C60_degree.
Print Assumptions C60_degree_refuted.
Print Assumptions C60_cell.
Print Assumptions C60_cell_refuted.
Print Assumptions C60_scheme.
Print Assumptions C60_scheme_refuted.
