(** C63: order, operators and queries of symbolic elements. *)
From Coq Require Import Ascii String List ZArith Bool Lia.
From Verif Require Import Model.Prelude Model.Registry Model.UflElement Model.UflOperators
  Spec.Registry Spec.UflElement Spec.Reconstruct Spec.Attributes Spec.Operators
  Proofs.Repr Proofs.Rebuild Proofs.Operators Proofs.Constancy.
Import ListNotations.
Open Scope string_scope.

(** Elements for the examples. *)
Definition leaf (f s : string) (k : Z) (sp : sobolev) (m : string) : uel :=
  UFinite (mkDescription f (Some s) (Order k) (if String.eqb m "identity" then [] else [2]) sp m (Order k)) (Some (Named Triangle)) None None.
Definition p1 : uel := leaf "Lagrange" "CG" 1 H1 "identity".
Definition p2 : uel := leaf "Lagrange" "CG" 2 H1 "identity".
Definition dg0 : uel := leaf "Discontinuous Lagrange" "DG" 0 L2 "identity".
Definition rt : uel := leaf "Raviart-Thomas" "RT" 1 HDiv "contravariant Piola".
Definition n1curl : uel := leaf "Nedelec 1st kind H(curl)" "N1curl" 1 HCurl "covariant Piola".
Definition on_triangle (f : string) (k : Z) : result uel := mk_finite f (Some (Named Triangle)) (Order k) None None None.
Example leaves_made : on_triangle "CG" 1 = Ok p1 /\ on_triangle "CG" 2 = Ok p2 /\ on_triangle "DG" 0 = Ok dg0 /\
  on_triangle "RT" 1 = Ok rt /\ on_triangle "N1curl" 1 = Ok n1curl.
Proof. repeat split; vm_compute; reflexivity. Qed.
Lemma leaves_built : built p1 /\ built p2 /\ built dg0 /\ built rt /\ built n1curl.
Proof.
  destruct leaves_made as (A & B & C & D & E).
  split; [exact (mk_finite_built _ _ _ _ _ _ _ A)|]. split; [exact (mk_finite_built _ _ _ _ _ _ _ B)|]. split; [exact (mk_finite_built _ _ _ _ _ _ _ C)|].
  split; [exact (mk_finite_built _ _ _ _ _ _ _ D)|exact (mk_finite_built _ _ _ _ _ _ _ E)].
Qed.

(** ** Order *)

(** Exactly one: an element is smaller than another, the same, or greater. *)
Theorem C63_order a b : built a -> plain_mappings a -> built b -> plain_mappings b ->
  u_ltb a b = true /\ ~ same a b /\ u_ltb b a = false \/ u_ltb a b = false /\ same a b /\ u_ltb b a = false \/
  u_ltb a b = false /\ ~ same a b /\ u_ltb b a = true.
Proof. exact (order_same a b). Qed.
Example C63_order_example : plain_mappings p1 /\ plain_mappings rt /\ u_ltb p1 rt = true /\ u_ltb rt p1 = false.
Proof. repeat split; try constructor; vm_compute; reflexivity. Qed.

Theorem C63_transitive a b c : u_ltb a b = true -> u_ltb b c = true -> u_ltb a c = true.
Proof. exact (order_trans a b c). Qed.
Example C63_transitive_example : u_ltb dg0 p1 = true /\ u_ltb p1 p2 = true /\ u_ltb p2 rt = true.
Proof. repeat split; vm_compute; reflexivity. Qed.

(** However the elements were arranged, sorting them gives the same list. *)
Theorem C63_sorted l l1 l2 : Forall built l -> Forall plain_mappings l ->
  sorted_by (fun a b => u_ltb a b = true) l l1 -> sorted_by (fun a b => u_ltb a b = true) l l2 -> Forall2 same l1 l2.
Proof. exact (sorted_same l l1 l2). Qed.
Example C63_sorted_example : sorted_by (fun a b => u_ltb a b = true) [rt; dg0; p2] [dg0; p2; rt].
Proof.
  split.
  - apply Permutation.Permutation_sym. apply (Permutation.perm_trans (l' := [dg0; rt; p2])); [apply Permutation.perm_skip, Permutation.perm_swap|apply Permutation.perm_swap].
  - repeat (apply Sorted.SSorted_cons || apply Sorted.SSorted_nil || apply Forall_cons || apply Forall_nil); vm_compute; discriminate.
Qed.
Theorem C63_unequal a b : built a -> plain_mappings a -> built b -> plain_mappings b -> (u_neb a b = true <-> ~ same a b).
Proof. exact (unequal_same a b). Qed.
Example C63_unequal_example : u_neb p1 p2 = true /\ u_neb p1 p1 = false.
Proof. split; vm_compute; reflexivity. Qed.

(** ** Operators *)

(** A sum has the two operands as parts, a product mixes them; other objects are refused. *)
Theorem C63_operators a b e :
  (u_add a (Operand b) = Ok e -> exists at', e = UEnriched false at' [a; b]) /\
  (u_mul a (Operand b) = Ok e -> exists at', e = UMixed at' [a; b] /\ sub_elements e = [a; b]) /\
  u_add a Other = Err ValueError /\ u_mul a Other = Err ValueError.
Proof. exact (operators_spec a b e). Qed.
Example C63_operators_example : exists s t, u_add p1 (Operand p2) = Ok s /\ u_degree s = DInt 2 /\ u_mul p2 (Operand rt) = Ok t /\ u_shape t = [3].
Proof. eexists. eexists. repeat split; vm_compute; reflexivity. Qed.

(** [element[domain]] restricts to each of the six domains; other keys are refused. *)
Theorem C63_getitem e k :
  (In k ["interior"; "facet"; "face"; "edge"; "vertex"; "reduced"] -> exists at', u_getitem e k = Ok (URestricted at' e k)) /\
  (~ In k ["interior"; "facet"; "face"; "edge"; "vertex"; "reduced"] -> u_getitem e k = Err KeyError).
Proof. exact (getitem_spec e k). Qed.
Example C63_getitem_example : exists r, u_getitem p2 "facet" = Ok r /\ u_repr r = "RestrictedElement(FiniteElement('Lagrange', triangle, 2), 'facet')" /\
  u_getitem p2 "cell" = Err KeyError.
Proof. eexists. repeat split; vm_compute; reflexivity. Qed.

(** [HDiv(element)] and [HCurl(element)]; no other space can be applied. *)
Theorem C63_call e :
  (u_cell e <> None -> exists a a', space_call "HDiv" e = Ok (UHDiv a e) /\ space_call "HCurl" e = Ok (UHCurl a' e)) /\
  (forall s, s <> "HDiv" -> s <> "HCurl" -> space_call s e = Err NotImplementedError).
Proof. exact (call_spec e). Qed.
Example C63_call_example : u_cell p1 <> None /\ space_call "H1" p1 = Err NotImplementedError.
Proof. split; [discriminate|reflexivity]. Qed.

(** ** Constant elements *)

(** Without bubbles and without empty vectors, an element that is said to be constant on
    cells has degree 0. *)
Theorem C63_constant e lo hi : built e -> nowhere is_bubble e = true -> nowhere is_empty e = true ->
  cellwise_constant e = true -> bounds e lo hi -> lo = 0%Z /\ hi = 0%Z.
Proof. exact (constant_bounds e lo hi). Qed.
(** If moreover all degrees are numbers and no sum is nodal, every element of degree 0 is
    said to be constant. *)
Theorem C63_constant_found e lo hi : built e -> nowhere is_bubble e = true -> nowhere is_empty e = true ->
  nowhere lacks_degree e = true -> nowhere is_nodal e = true -> bounds e lo hi -> (hi <= 0)%Z -> cellwise_constant e = true.
Proof. exact (constant_found e lo hi). Qed.
Lemma dg0_bounds : bounds dg0 0 0.
Proof. apply (bounds_finite _ _ _ _ [0; 0]%Z); [reflexivity| |]; (split; [now left|intros z [<-|[<-|[]]]; lia]). Qed.
Example C63_constant_example : exists v m, mk_vector dg0 None = Ok v /\ u_mul dg0 (Operand v) = Ok m /\ built m /\
  nowhere is_bubble m = true /\ nowhere is_empty m = true /\ nowhere lacks_degree m = true /\ nowhere is_nodal m = true /\
  bounds m 0 0 /\ cellwise_constant m = true.
Proof.
  destruct (mk_vector dg0 None) as [v|] eqn:V; [|vm_compute in V; discriminate V]. exists v.
  destruct (u_mul dg0 (Operand v)) as [m|] eqn:M; [|vm_compute in V; injection V as <-; vm_compute in M; discriminate M]. exists m.
  destruct leaves_built as (_ & _ & D & _).
  split; [reflexivity|]. split; [reflexivity|]. split.
  - apply (built_mixed [dg0; v]); [|exact M]. constructor; [exact D|]. constructor; [|constructor]. exact (built_vector _ _ _ D V).
  - vm_compute in V. injection V as <-. vm_compute in M. injection M as <-. do 4 (split; [vm_compute; reflexivity|]). split; [|vm_compute; reflexivity].
    apply (bounds_mixed _ _ [(0, 0)%Z; (0, 0)%Z]).
    + constructor; [exact dg0_bounds|]. constructor; [|constructor]. cbn [fst snd]. constructor; [lia|exact dg0_bounds].
    + split; [now left|intros z [<-|[<-|[]]]; cbn; lia].
    + split; [now left|intros z [<-|[<-|[]]]; cbn; lia].
Qed.
Example C63_constant_sharp : cellwise_constant p1 = false /\ cellwise_constant rt = false.
Proof. split; vm_compute; reflexivity. Qed.

(** The bubbles of the Bernardi-Raugel elements may be asked for with degree 0, and are then
    said to be constant. *)
Theorem C63_bubble_refuted : exists e lo hi, built e /\ cellwise_constant e = true /\ bounds e lo hi /\ (hi > 0)%Z.
Proof.
  destruct (on_triangle "BRB" 0) as [e|] eqn:E; [|vm_compute in E; discriminate E]. exists e, 0%Z, 2%Z.
  split; [exact (mk_finite_built _ _ _ _ _ _ _ E)|]. vm_compute in E. injection E as <-. split; [vm_compute; reflexivity|]. split; [|lia].
  apply (bounds_finite _ _ _ _ [0; 2]%Z); [reflexivity| |]; (split; [cbn; tauto|intros z [<-|[<-|[]]]; lia]).
Qed.
(** Products of constants and nodal sums of constants are not said to be constant. *)
Theorem C63_product_refuted :
  (exists e, built e /\ bounds e 0 0 /\ cellwise_constant e = false /\ exists a l c, e = UTensorProduct a l c) /\
  (exists e, built e /\ bounds e 0 0 /\ cellwise_constant e = false /\ exists a l, e = UEnriched true a l).
Proof.
  split.
  - destruct (mk_finite "DG" (Some (Named Interval)) (Order 0) None None None) as [d|] eqn:D; [|vm_compute in D; discriminate D].
    destruct (mk_tensor_product [d; d] None) as [e|] eqn:E; [|vm_compute in D; injection D as <-; vm_compute in E; discriminate E]. exists e.
    assert (B : built d) by exact (mk_finite_built _ _ _ _ _ _ _ D).
    split; [exact (built_tensor_product _ _ _ (Forall_cons _ B (Forall_cons _ B (Forall_nil _))) E)|].
    vm_compute in D. injection D as <-. vm_compute in E. injection E as <-. split; [|split; [vm_compute; reflexivity|eauto]].
    apply (bounds_product _ _ _ [0; 0]%Z); [reflexivity|]. split; [now left|intros z [<-|[<-|[]]]; lia].
  - destruct (mk_enriched true [dg0; dg0]) as [e|] eqn:E; [|vm_compute in E; discriminate E]. exists e.
    destruct leaves_built as (_ & _ & B & _).
    split; [exact (built_enriched _ _ _ (Forall_cons _ B (Forall_cons _ B (Forall_nil _))) E)|].
    vm_compute in E. injection E as <-. split; [|split; [vm_compute; reflexivity|eauto]].
    apply (bounds_enriched _ _ _ [(0, 0)%Z; (0, 0)%Z]).
    + constructor; [exact dg0_bounds|]. constructor; [exact dg0_bounds|constructor].
    + split; [now left|intros z [<-|[<-|[]]]; cbn; lia].
    + split; [now left|intros z [<-|[<-|[]]]; cbn; lia].
Qed.

(** ** Linear elements *)

(** An element that is said to be linear contains the polynomials of degree 1 and is
    contained in them. *)
Theorem C63_linear e : built e -> nowhere is_empty e = true -> is_linear e = true -> u_degree e = DInt 1 /\ bounds e 1 1.
Proof. exact (linear_bounds e). Qed.
Example C63_linear_example : exists v, mk_vector p1 None = Ok v /\ nowhere is_empty v = true /\ is_linear v = true /\ is_linear p2 = false /\ is_linear rt = false.
Proof. eexists. repeat split; vm_compute; reflexivity. Qed.
(** Not all linear elements are said to be: the mapping need only be named. *)
Theorem C63_linear_refuted : exists e, built e /\ bounds e 1 1 /\ u_mapping e = "identity" /\ u_shape e = [] /\ is_linear e = false.
Proof.
  destruct leaves_built as (B & _).
  exists (UWithMapping p1 "identity"). split; [apply (built_with_mapping p1 "identity" _ B); reflexivity|]. split; [|repeat split; vm_compute; reflexivity].
  constructor. cbn [bare p1 leaf]. apply (bounds_finite _ _ _ _ [1; 1]%Z); [reflexivity| |]; (split; [now left|intros z [<-|[<-|[]]]; lia]).
Qed.

(** ** Sub-elements *)

(** The number of sub-elements is how many there are; a restriction has those of what it
    restricts, mixed elements and products have those they were made of. *)
Theorem C63_sub_elements e : num_sub_elements e = length (sub_elements e) /\
  (forall l m, mk_mixed l = Ok m -> sub_elements m = l) /\
  (forall l c m, mk_tensor_product l c = Ok m -> sub_elements m = l) /\
  (forall d r, mk_restricted e d = Ok r -> sub_elements r = sub_elements e) /\
  (forall n v, mk_vector e (Some n) = Ok v -> sub_elements v = repeat e n).
Proof. exact (sub_elements_spec e). Qed.
Example C63_sub_elements_example : exists m r, mk_mixed [p1; rt] = Ok m /\ mk_restricted m "facet" = Ok r /\ sub_elements r = [p1; rt] /\ num_sub_elements r = 2.
Proof. eexists. eexists. repeat split; vm_compute; reflexivity. Qed.
(** A change of mapping hides them. *)
Theorem C63_sub_elements_refuted : exists m w, mk_mixed [p1; rt] = Ok m /\ mk_with_mapping m "identity" = Ok w /\ num_sub_elements m = 2 /\ num_sub_elements w = 0.
Proof. eexists. eexists. repeat split; vm_compute; reflexivity. Qed.

(** ** Spaces of mixed elements *)

(** When of any two spaces one includes the other, the space of a mixed element is the one
    that includes all. *)
Theorem C63_mixed_space a l spaces : map u_space l = map (fun s => Ok (Predefined s)) spaces -> spaces <> [] ->
  (forall s t, In s spaces -> In t spaces -> related s t) ->
  exists s, u_mixed_space (UMixed a l) = Ok s /\ In s spaces /\ smallest spaces s.
Proof. exact (mixed_element_space a l spaces). Qed.
Example C63_mixed_space_example : map u_space [p1; rt] = map (fun s => Ok (Predefined s)) [H1; HDiv] /\
  (forall s t, In s [H1; HDiv] -> In t [H1; HDiv] -> related s t) /\
  exists m, mk_mixed [p1; rt] = Ok m /\ u_mixed_space m = Ok HDiv.
Proof.
  split; [vm_compute; reflexivity|]. split; [|eexists; split; vm_compute; reflexivity].
  intros s t [<-|[<-|[]]] [<-|[<-|[]]]; ((left; constructor) || (right; constructor)).
Qed.
(** Otherwise it depends on the order of the sub-elements, and includes not all of them. *)
Theorem C63_mixed_space_refuted : exists m m', mk_mixed [rt; n1curl] = Ok m /\ mk_mixed [n1curl; rt] = Ok m' /\
  u_mixed_space m = Ok HCurl /\ u_mixed_space m' = Ok HDiv /\ ~ included HDiv HCurl /\ ~ included HCurl HDiv.
Proof.
  eexists. eexists. split; [vm_compute; reflexivity|]. split; [vm_compute; reflexivity|]. split; [vm_compute; reflexivity|]. split; [vm_compute; reflexivity|].
  split; intros H; apply Proofs.Spaces.up_included in H; discriminate H.
Qed.

Print Assumptions C63_order.
Print Assumptions C63_transitive.
Print Assumptions C63_sorted.
Print Assumptions C63_unequal.
Print Assumptions C63_operators.
Print Assumptions C63_getitem.
Print Assumptions C63_call.
Print Assumptions C63_constant.
Print Assumptions C63_constant_found.
Print Assumptions C63_bubble_refuted.
Print Assumptions C63_product_refuted.
Print Assumptions C63_linear.
Print Assumptions C63_linear_refuted.
Print Assumptions C63_sub_elements.
Print Assumptions C63_sub_elements_refuted.
Print Assumptions C63_mixed_space.
Print Assumptions C63_mixed_space_refuted.
