(** C64: mappings and form degrees of element trees. *)
From Coq Require Import String List Arith Lia.
From Verif Require Import Model.Prelude Model.Cell Model.Element.
From Verif Require Import Spec.EntityDofs Spec.Mappings Spec.Samples Proofs.Mappings.
Import ListNotations.

(** [mapping] is the one mapping of all basis functions; if it is [None], then there is a function
    without a mapping or there are two with different mappings. *)
Theorem C64_mapping : forall F (e : elt F) m, populated e ->
  (mapping e = Some m <-> forall m', mapped_by e m' <-> m' = Some m).
Proof. exact (fun F => @mapping_spec F). Qed.
Print Assumptions C64_mapping.

Theorem C64_no_mapping : forall F (e : elt F), populated e -> mapping e = None ->
  mapped_by e None \/ exists a b, mapped_by e a /\ mapped_by e b /\ a <> b.
Proof. exact (fun F => @mapping_none F). Qed.
Print Assumptions C64_no_mapping.

(** [formdegree] is the degree of the forms. *)
Theorem C64_form_degree : forall F (e : elt F) k, formdegree e = Ok (Some k) <-> forms e k.
Proof. exact (fun F => @formdegree_spec F). Qed.
Print Assumptions C64_form_degree.

(** It is there for every element with a cell, and it is [None] exactly if a leaf it depends on
    has none. *)
Theorem C64_form_degree_missing : forall F (e : elt F) c, cell_of e = Ok c ->
  exists r, formdegree e = Ok r /\ (r = None <-> exists l, exposed l e /\ lf_formdegree l = None).
Proof. exact (fun F => @formdegree_missing F). Qed.
Print Assumptions C64_form_degree_missing.

(** Form degrees stay between 0 and the dimension of the cell. *)
Theorem C64_form_degree_bound : forall F (e : elt F) c k, built e -> cell_of e = Ok c ->
  (forall l i, exposed l e -> lf_formdegree l = Some i -> i <= spatial_dimension (lf_cell l)) ->
  formdegree e = Ok (Some k) -> k <= spatial_dimension c.
Proof. exact (fun F => @built_bound F). Qed.
Print Assumptions C64_form_degree_bound.

(** The form degree that an H(div) or H(curl) wrapper reports is that of the product in it. *)
Theorem C64_wrappers : forall F (w e : elt F), mk_hdiv w = Ok e \/ mk_hcurl w = Ok e ->
  formdegree e = formdegree w /\ exists k, forms w k /\ forms e k.
Proof. exact (fun F => @wrapper_degree F). Qed.
Print Assumptions C64_wrappers.

(* ------------------------------------------------------------------ *)
(** ** Examples *)

Local Notation RTCF := (rtcf no_tab).
Local Notation TRI2 := (ELeaf (tri2 no_tab)).
Local Notation RT1 := (ELeaf (rt1 no_tab)).
(** A leaf without a form degree. *)
Definition formless : leaf unit :=
  mkLeaf KOther I1 (Dg 0) None [(DI 0, [(0, []); (1, [])]); (DI 1, [(0, [0])])] 1 [1] [] ["affine"%string] false no_tab.

(** RTCF, the RT element times an interval, vector elements. *)
Example C64_rtcf : populated RTCF /\ mapping RTCF = Some "contravariant piola"%string /\
  forall m', mapped_by RTCF m' <-> m' = Some "contravariant piola"%string.
Proof.
  assert (P : populated RTCF) by (repeat constructor; discriminate).
  split; [exact P|]. split; [reflexivity|]. now apply C64_mapping.
Qed.
Example C64_prism : populated (prism no_tab) /\ mapping (prism no_tab) = Some "contravariant piola"%string.
Proof. split; [repeat constructor; discriminate | reflexivity]. Qed.
(** A sum of an RT element and a vector element has no single mapping. *)
Example C64_mixture : let e := mk_enriched [RT1; ETensor TRI2 [2] false] in
  populated e /\ mapping e = None /\
  mapped_by e (Some "contravariant piola"%string) /\ mapped_by e (Some "affine"%string).
Proof.
  split; [repeat constructor; discriminate|]. split; [reflexivity|]. split.
  - apply mb_enriched with RT1; [now left|]. constructor. now left.
  - apply mb_enriched with (ETensor TRI2 [2] false); [right; now left|]. constructor. constructor. now left.
Qed.
(** Form degrees of RTCF, of the prism element, of a discontinuous element and of a sum. *)
Example C64_degrees : formdegree RTCF = Ok (Some 1) /\ formdegree (prism no_tab) = Ok (Some 2) /\
  formdegree (EDiscontinuous TRI2) = Ok (Some 2) /\ formdegree (mk_enriched [TRI2; RT1]) = Ok (Some 1).
Proof. repeat split. Qed.
Example C64_formless : formdegree (ETensorProduct [ELeaf formless; ELeaf (cg1 no_tab)]) = Ok None /\
  exposed formless (ETensorProduct [ELeaf formless; ELeaf (cg1 no_tab)]) /\
  formdegree (EDiscontinuous (ELeaf formless)) = Ok (Some 1).
Proof. repeat split. econstructor; [now left | constructor]. Qed.
Example C64_bound : built RTCF /\ cell_of RTCF = Ok (TPCell [I1; I1]).
Proof.
  split; [|reflexivity].
  change RTCF with (mk_enriched [EHDiv (ETensorProduct [ELeaf (cg2 no_tab); ELeaf (dg1 no_tab)]); EHDiv (ETensorProduct [ELeaf (dg1 no_tab); ELeaf (cg2 no_tab)])]).
  apply built_enriched. repeat constructor.
  - apply built_hdiv with (ETensorProduct [ELeaf (cg2 no_tab); ELeaf (dg1 no_tab)]); [|reflexivity].
    apply built_tensor_product with [ELeaf (cg2 no_tab); ELeaf (dg1 no_tab)]; [repeat constructor | reflexivity].
  - apply built_hdiv with (ETensorProduct [ELeaf (dg1 no_tab); ELeaf (cg2 no_tab)]); [|reflexivity].
    apply built_tensor_product with [ELeaf (dg1 no_tab); ELeaf (cg2 no_tab)]; [repeat constructor | reflexivity].
Qed.
Example C64_curl : mk_hcurl (ETensorProduct [ELeaf (cg2 no_tab); ELeaf (dg1 no_tab)])
  = Ok (EHCurl (ETensorProduct [ELeaf (cg2 no_tab); ELeaf (dg1 no_tab)])).
Proof. reflexivity. Qed.
