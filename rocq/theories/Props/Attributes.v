(** C61: attributes of composite elements: which arguments the constructors take, and the
    cell, degree, scheme and shape they compute. *)
From Coq Require Import Ascii String List ZArith Bool Lia.
From Verif Require Import Model.Prelude Model.Registry Model.UflElement Spec.Registry Spec.UflElement Spec.Attributes
  Proofs.Repr Proofs.DegreeOrder Proofs.Attributes.
Import ListNotations.
Open Scope string_scope.

(** Elements for the examples. *)
Definition cg (c : cellkind) (k : Z) : uel :=
  UFinite (mkDescription "Lagrange" (Some "CG") (Order k) [] H1 "identity" (Order k)) (Some (Named c)) None None.
Example cg_made : mk_finite "CG" (Some (Named Triangle)) (Order 2) None None None = Ok (cg Triangle 2) /\
  mk_finite "CG" (Some (Named Interval)) (Order 1) None None None = Ok (cg Interval 1).
Proof. split; vm_compute; reflexivity. Qed.
Lemma cg_built k : (k = 1 \/ k = 2)%Z -> built (cg Interval k).
Proof.
  intros [->| ->].
  - apply (built_finite "CG" (Some (Named Interval)) (Order 1) None None None). vm_compute. reflexivity.
  - apply (built_finite "CG" (Some (Named Interval)) (Order 2) None None None). vm_compute. reflexivity.
Qed.
(** A product of elements of given degrees on the intervals of a square. *)
Definition square : ucell := ProductCell [Named Interval; Named Interval].
Definition qel (j k : Z) : uel :=
  UTensorProduct (mkAttrs "TensorProductElement" (Some square) (DTuple [DInt j; DInt k]) None []) [cg Interval j; cg Interval k] square.
Example qel_made j k : mk_tensor_product [cg Interval j; cg Interval k] None = Ok (qel j k).
Proof. reflexivity. Qed.
Lemma qel_built j k : (j = 1 \/ j = 2)%Z -> (k = 1 \/ k = 2)%Z -> built (qel j k).
Proof. intros J K. exact (built_tensor_product _ _ _ (Forall_cons _ (cg_built j J) (Forall_cons _ (cg_built k K) (Forall_nil _))) (qel_made j k)). Qed.
(** One level more: (square) times interval. *)
Definition cube : ucell := ProductCell [square; Named Interval].
Definition nested (i j k : Z) : uel :=
  UTensorProduct (mkAttrs "TensorProductElement" (Some cube) (DTuple [DTuple [DInt i; DInt j]; DInt k]) None []) [qel i j; cg Interval k] cube.
Example nested_made i j k : mk_tensor_product [qel i j; cg Interval k] None = Ok (nested i j k).
Proof. reflexivity. Qed.
Lemma nested_built i j k : (i = 1 \/ i = 2)%Z -> (j = 1 \/ j = 2)%Z -> (k = 1 \/ k = 2)%Z -> built (nested i j k).
Proof. intros I J K. exact (built_tensor_product _ _ _ (Forall_cons _ (qel_built i j I J) (Forall_cons _ (cg_built k K) (Forall_nil _))) (nested_made i j k)). Qed.

(** ** Mixed elements *)

(** The cells that are given and the schemes agree; the degree is the greatest in every
    direction of the degrees that are given. *)
Theorem C61_mixed es e : mk_mixed es = Ok e ->
  all_equal (defined (map u_cell es)) /\ all_equal (map u_scheme es) /\
  at_family (u_attrs e) = "Mixed" /\ u_cell e = hd_error (defined (map u_cell es)) /\ u_scheme e = hd None (map u_scheme es) /\
  u_shape e = [total_size (map u_shape es)] /\ mixed_degree (given (map u_degree es)) (u_degree e).
Proof. exact (mixed_ok es e). Qed.
Theorem C61_mixed_accepted es : all_equal (defined (map u_cell es)) -> all_equal (map u_scheme es) ->
  mixable (given (map u_degree es)) -> exists e, mk_mixed es = Ok e.
Proof. exact (mixed_accepted es). Qed.
Theorem C61_mixed_refused es :
  (~ all_equal (defined (map u_cell es)) \/ ~ all_equal (map u_scheme es) -> mk_mixed es = Err ValueError) /\
  (all_equal (defined (map u_cell es)) -> all_equal (map u_scheme es) ->
    (~ Forall flat (given (map u_degree es)) -> mk_mixed es = Err TypeError) /\
    (Forall flat (given (map u_degree es)) -> ~ mixable (given (map u_degree es)) -> mk_mixed es = Err ValueError)).
Proof. exact (mixed_refused es). Qed.

(** Degrees (1, 2) and (2, 1) on a square make (2, 2). *)
Example C61_mixed_example : exists e, mk_mixed [qel 1 2; qel 2 1] = Ok e /\ u_degree e = DTuple [DInt 2; DInt 2] /\ u_shape e = [2].
Proof. eexists. split; [vm_compute; reflexivity|]. split; reflexivity. Qed.
Example C61_mixed_cells : mk_mixed [cg Triangle 2; cg Interval 1] = Err ValueError.
Proof. reflexivity. Qed.
(** Degree (1, 2) is not the degree of the mixed element of (1, 2) and (2, 1). *)
Example C61_mixed_sharp : ~ mixed_degree [DTuple [DInt 1; DInt 2]; DTuple [DInt 2; DInt 1]] (DTuple [DInt 1; DInt 2]).
Proof.
  intros H. destruct (mixed_tuple_inv _ [1%Z; 2%Z] H) as (_ & _ & G). destruct (G 0 1%Z eq_refl) as (col & F & [_ M]).
  inversion F as [|? x ? l X F' E1 E2]; subst. inversion F' as [|? y ? l' Y F'' E1 E2]; subst.
  assert (y = 2)%Z as -> by (inversion Y; subst; cbn in *; congruence). specialize (M 2%Z (or_intror (or_introl eq_refl))). lia.
Qed.

(** ** Vectors and tensors *)
Theorem C61_vector sub dim e : mk_vector sub dim = Ok e -> exists n,
  (dim = Some n \/ dim = None /\ exists c, u_cell sub = Some c /\ n = ucell_dim c) /\
  u_attrs e = mkAttrs (at_family (u_attrs sub)) (u_cell sub) (u_degree sub) (u_scheme sub) (n :: u_shape sub).
Proof. exact (vector_ok sub dim e). Qed.
Theorem C61_vector_accepted sub dim : flat_or_none (u_degree sub) -> (dim = None -> u_cell sub <> None) -> exists e, mk_vector sub dim = Ok e.
Proof. exact (vector_accepted sub dim). Qed.
Theorem C61_vector_refused sub : (u_cell sub = None -> mk_vector sub None = Err ValueError) /\
  (forall n, ~ flat_or_none (u_degree sub) -> mk_vector sub (Some (S n)) = Err TypeError).
Proof. exact (vector_refused sub). Qed.
(** Not every element has vectors: products of products do not. *)
Theorem C61_vector_refuted : exists sub, built sub /\ u_cell sub <> None /\ (forall dim, dim <> Some 0 -> forall e, mk_vector sub dim <> Ok e) /\
  (forall e, mk_mixed [sub] <> Ok e).
Proof.
  exists (nested 1 1 1). split; [apply nested_built; now left|]. split; [discriminate|]. split.
  - intros [[|n]|] N e; [now destruct N| |].
    + rewrite (proj2 (vector_refused (nested 1 1 1)) n); [discriminate|]. intros F. inversion F as [|x l [z E]]. discriminate E.
    + intros H. vm_compute in H. discriminate H.
  - intros e H. vm_compute in H. discriminate H.
Qed.
Example C61_vector_example : exists e, mk_vector (qel 1 2) None = Ok e /\ u_shape e = [2] /\ u_degree e = DTuple [DInt 1; DInt 2].
Proof. eexists. split; [vm_compute; reflexivity|]. split; reflexivity. Qed.

(** With symmetries the shape is one direction of independent components. *)
Theorem C61_tensor sub shape s e : mk_tensor sub shape s = Ok e -> exists sh,
  (shape = Some sh \/ shape = None /\ exists c, u_cell sub = Some c /\ sh = [ucell_dim c; ucell_dim c]) /\
  at_family (u_attrs e) = at_family (u_attrs sub) /\ u_degree e = u_degree sub /\
  (exists sym t n, e = UTensor (u_attrs e) sub sh sym t n /\ u_shape e = (match sym with [] => sh | _ => [size sh - List.length sym] end ++ u_shape sub)%list /\
    (0 < n -> u_cell e = u_cell sub /\ u_scheme e = u_scheme sub) /\ (n = 0 -> u_cell e = None /\ u_scheme e = None)).
Proof. exact (tensor_ok sub shape s e). Qed.
Theorem C61_tensor_refused sub shape n : (u_cell sub = None -> forall s, mk_tensor sub None s = Err ValueError) /\
  (~ flat_or_none (u_degree sub) -> mk_tensor sub (Some (S n :: shape)) NoSym = Err TypeError \/ size (S n :: shape) = 0).
Proof. exact (tensor_refused sub shape n). Qed.
Example C61_tensor_example : exists e, mk_tensor (cg Triangle 2) None AutoSym = Ok e /\ u_shape e = [3] /\ u_cell e = Some (Named Triangle).
Proof. eexists. split; [vm_compute; reflexivity|]. split; reflexivity. Qed.

(** ** Products *)
Theorem C61_product es c e : mk_tensor_product es c = Ok e -> es <> [] /\ exists cell,
  (c = Some cell \/ c = None /\ exists cs, cell = ProductCell cs /\ map u_cell es = map Some cs) /\
  u_attrs e = mkAttrs "TensorProductElement" (Some cell) (DTuple (map u_degree es)) None (List.concat (map u_shape es)) /\
  List.length (List.concat (map u_shape es)) <= 1.
Proof. exact (product_ok es c e). Qed.
Theorem C61_product_accepted es c : es <> [] -> List.length (List.concat (map u_shape es)) <= 1 ->
  (c = None -> Forall (fun e => u_cell e <> None) es) -> exists e, mk_tensor_product es c = Ok e.
Proof. exact (product_accepted es c). Qed.
Theorem C61_product_refused es c :
  es = [] \/ 1 < List.length (List.concat (map u_shape es)) \/ (c = None /\ ~ Forall (fun e => u_cell e <> None) es) ->
  mk_tensor_product es c = Err ValueError.
Proof. exact (product_refused es c). Qed.
(** The product forgets the schemes of its factors. *)
Theorem C61_product_scheme_refuted : exists es e, Forall built es /\ mk_tensor_product es None = Ok e /\
  all_equal (map u_scheme es) /\ u_scheme e <> hd None (map u_scheme es).
Proof.
  set (q := UFinite (mkDescription "Quadrature" (Some "Quadrature") (Order 2) [] L2 "identity" (Order 2)) (Some (Named Interval)) (Some "KMV") None).
  assert (B : built q) by (apply (built_finite "Quadrature" (Some (Named Interval)) (Order 2) None (Some "KMV") None); vm_compute; reflexivity).
  exists [q; q]. eexists. split; [constructor; [exact B|constructor; [exact B|constructor]]|]. split; [vm_compute; reflexivity|].
  split; [intros x y [<-|[<-|[]]] [<-|[<-|[]]]; reflexivity|discriminate].
Qed.
Example C61_product_vectors : exists v, mk_vector (cg Interval 1) (Some 2) = Ok v /\ mk_tensor_product [v; v] None = Err ValueError /\
  exists e, mk_tensor_product [v; cg Interval 1] None = Ok e /\ u_shape e = [2].
Proof.
  eexists. split; [vm_compute; reflexivity|]. split; [vm_compute; reflexivity|]. eexists. split; [vm_compute; reflexivity|]. reflexivity.
Qed.

(** ** Sums *)
Theorem C61_sum nodal es e : mk_enriched nodal es = Ok e -> exists e0 rest, es = e0 :: rest /\
  all_equal (map u_cell es) /\ all_equal (defined (map u_scheme es)) /\ all_equal (map u_shape es) /\
  u_cell e = u_cell e0 /\ u_shape e = u_shape e0 /\ u_scheme e = hd_error (defined (map u_scheme es)) /\ sum_degree (map u_degree es) (u_degree e).
Proof. exact (enriched_ok nodal es e). Qed.
Theorem C61_sum_accepted nodal es : all_equal (map u_cell es) -> all_equal (defined (map u_scheme es)) -> all_equal (map u_shape es) ->
  summable (map u_degree es) -> exists e, mk_enriched nodal es = Ok e.
Proof. exact (enriched_accepted nodal es). Qed.
Theorem C61_sum_refused nodal e0 es :
  mk_enriched nodal [] = Err IndexError /\
  (~ all_equal (map u_cell (e0 :: es)) -> mk_enriched nodal (e0 :: es) = Err ValueError) /\
  (all_equal (map u_cell (e0 :: es)) ->
    (u_degree e0 = DNone \/ (exists z, u_degree e0 = DInt z) /\ (exists e t, In e es /\ u_degree e = DTuple t) \/
      (exists t, u_degree e0 = DTuple t) /\ (exists e, In e es /\ forall t, u_degree e <> DTuple t) -> mk_enriched nodal (e0 :: es) = Err TypeError) /\
    (summable (map u_degree (e0 :: es)) -> ~ all_equal (defined (map u_scheme (e0 :: es))) \/ ~ all_equal (map u_shape (e0 :: es)) ->
      mk_enriched nodal (e0 :: es) = Err ValueError)).
Proof. exact (enriched_refused nodal e0 es). Qed.
Example C61_sum_example : exists e, mk_enriched false [qel 1 2; qel 2 1] = Ok e /\ u_degree e = DTuple [DInt 2; DInt 2].
Proof. eexists. split; [vm_compute; reflexivity|]. reflexivity. Qed.
Example C61_sum_summable : summable (map u_degree [qel 1 2; qel 2 1]).
Proof.
  apply (sm_tuple [DInt 1; DInt 2] [[DInt 2; DInt 1]]). intros i r r' x y R R' X Y.
  assert (D : forall r i x, In r [[DInt 1; DInt 2]; [DInt 2; DInt 1]] -> nth_error r i = Some x -> exists z, x = DInt z).
  { intros s j u [<-|[<-|[]]]; (destruct j as [|[|[|j]]]; cbn; intros E; try discriminate E; injection E as <-; eauto). }
  apply D in X as [a ->]; [|exact R]. apply D in Y as [b ->]; [|exact R']. constructor.
Qed.
(** The degree of a sum need not bound those of the summands: tuples in tuples are compared
    as a whole. *)
Theorem C61_sum_bound_refuted : exists a b e p x y, built a /\ built b /\ mk_enriched false [a; b] = Ok e /\
  number_at p (u_degree a) x /\ number_at p (u_degree e) y /\ (y < x)%Z.
Proof.
  exists (nested 1 2 1), (nested 2 1 1). eexists. exists [0; 1], 2%Z, 1%Z.
  split; [apply nested_built; auto|]. split; [apply nested_built; auto|]. split; [vm_compute; reflexivity|].
  split; [apply (num_inside _ _ _ (DTuple [DInt 1; DInt 2])); [reflexivity|]; apply (num_inside _ _ _ (DInt 2)); [reflexivity|constructor]|].
  split; [apply (num_inside _ _ _ (DTuple [DInt 2; DInt 1])); [reflexivity|]; apply (num_inside _ _ _ (DInt 1)); [reflexivity|constructor]|]. lia.
Qed.
(** Whether an element without a degree can be added depends on the order. *)
Theorem C61_sum_order_refuted : exists a b e, built a /\ built b /\ mk_enriched false [a; b] = Ok e /\ mk_enriched false [b; a] = Err TypeError.
Proof.
  set (n := UFinite (mkDescription "Bernardi-Raugel Bubble" (Some "BRB") NoOrder [2] H1 "contravariant Piola" (Order 2)) (Some (Named Triangle)) None None).
  assert (N : built n) by (apply (built_finite "BRB" (Some (Named Triangle)) NoOrder None None None); vm_compute; reflexivity).
  set (r := UFinite (mkDescription "Bernardi-Raugel" (Some "BR") (Order 1) [2] H1 "contravariant Piola" (Order 2)) (Some (Named Triangle)) None None).
  assert (R : built r) by (apply (built_finite "BR" (Some (Named Triangle)) (Order 1) None None None); vm_compute; reflexivity).
  exists r, n. eexists. split; [exact R|]. split; [exact N|]. split; vm_compute; reflexivity.
Qed.

(** ** Wrappers *)
Theorem C61_hdivcurl sub : match u_cell sub with
  | None => mk_hdiv sub = Err AttributeError /\ mk_hcurl sub = Err AttributeError
  | Some c => exists e e', mk_hdiv sub = Ok e /\ mk_hcurl sub = Ok e' /\ u_attrs e = u_attrs e' /\
      u_attrs e = mkAttrs "TensorProductElement" (u_cell sub) (u_degree sub) (u_scheme sub) [ucell_dim c]
  end.
Proof. exact (hdiv_spec sub). Qed.
Theorem C61_restricted sub dom : (In dom ["interior"; "facet"; "face"; "edge"; "vertex"; "reduced"] -> exists e, mk_restricted sub dom = Ok e /\
    u_attrs e = mkAttrs "RestrictedElement" (u_cell sub) (u_degree sub) (u_scheme sub) (u_shape sub)) /\
  (~ In dom ["interior"; "facet"; "face"; "edge"; "vertex"; "reduced"] -> mk_restricted sub dom = Err ValueError).
Proof. exact (restricted_spec sub dom). Qed.
Theorem C61_wrappers sub : (forall m, m <> "symmetries" -> exists e, mk_with_mapping sub m = Ok e /\
    at_family (u_attrs e) = at_family (u_attrs sub) /\ u_cell e = u_cell sub /\ u_degree e = u_degree sub /\ u_scheme e = u_scheme sub) /\
  mk_with_mapping sub "symmetries" = Err ValueError /\
  exists e, mk_broken sub = Ok e /\ u_attrs e = mkAttrs "BrokenElement" (u_cell sub) (u_degree sub) (u_scheme sub) (u_shape sub).
Proof. exact (wrappers sub). Qed.
Example C61_hdiv_example : exists e, mk_hdiv (qel 1 2) = Ok e /\ u_shape e = [2] /\ u_degree e = DTuple [DInt 1; DInt 2].
Proof. eexists. split; [vm_compute; reflexivity|]. split; reflexivity. Qed.

Print Assumptions C61_mixed.
Print Assumptions C61_mixed_accepted.
Print Assumptions C61_mixed_refused.
Print Assumptions C61_vector.
Print Assumptions C61_vector_accepted.
Print Assumptions C61_vector_refused.
Print Assumptions C61_vector_refuted.
Print Assumptions C61_tensor.
Print Assumptions C61_tensor_refused.
Print Assumptions C61_product.
Print Assumptions C61_product_accepted.
Print Assumptions C61_product_refused.
Print Assumptions C61_product_scheme_refuted.
Print Assumptions C61_sum.
Print Assumptions C61_sum_accepted.
Print Assumptions C61_sum_refused.
Print Assumptions C61_sum_bound_refuted.
Print Assumptions C61_sum_order_refuted.
Print Assumptions C61_hdivcurl.
Print Assumptions C61_restricted.
Print Assumptions C61_wrappers.
