(** C41, C43-C49: symbolic elements. *)
From Coq Require Import Ascii String List ZArith Bool Lia.
From Verif Require Import Model.Prelude Model.Registry Model.UflElement Spec.Registry Spec.UflElement
  Proofs.Repr Proofs.Equality Proofs.Rebuild Proofs.Spaces Proofs.Symmetry Proofs.Components
  Proofs.Embedded Proofs.Expansion.
Import ListNotations.
Open Scope string_scope.

(** Elements for the examples. *)
Definition p_k (c : ucell) (k : Z) : uel :=
  UFinite (mkDescription "Lagrange" (Some "CG") (Order k) [] H1 "identity" (Order k)) (Some c) None None.
Definition rt (k : Z) : uel :=
  UFinite (mkDescription "Raviart-Thomas" (Some "RT") (Order k) [2] HDiv "contravariant Piola" (Order k))
    (Some (Named Triangle)) None None.
Definition no_degree : uel :=
  UFinite (mkDescription "Lagrange" (Some "CG") NoOrder [] H1 "identity" NoOrder) (Some (Named Triangle)) None None.
Example p_2_made : mk_finite "CG" (Some (Named Triangle)) (Order 2) None None None = Ok (p_k (Named Triangle) 2).
Proof. vm_compute. reflexivity. Qed.
Example p_2_built : built (p_k (Named Triangle) 2).
Proof. exact (mk_finite_built _ _ _ _ _ _ _ p_2_made). Qed.
Example rt_1_built : built (rt 1).
Proof. apply (mk_finite_built "RT" (Some (Named Triangle)) (Order 1) None None None). vm_compute. reflexivity. Qed.
Example no_degree_built : built no_degree.
Proof. apply (mk_finite_built "CG" (Some (Named Triangle)) NoOrder None None None). vm_compute. reflexivity. Qed.

(** ** C41: reconstruction *)

(** What FiniteElement returns is an element, also when it is a product or a sum. *)
Theorem C41_built f c o k s v e : mk_finite f c o k s v = Ok e -> built e.
Proof. exact (mk_finite_built f c o k s v e). Qed.

(** Reconstruction without changes succeeds on every element and makes it from the same data. *)
Theorem C41_reconstruct e : built e -> exists e', reconstruct no_kwargs e = Ok e' /\ same e e' /\ built e'.
Proof. exact (reconstruct_same e). Qed.

Example C41_reconstruct_example : exists v e, mk_vector (p_k (Named Triangle) 2) None = Ok v /\ mk_mixed [v; rt 1] = Ok e /\
  reconstruct no_kwargs e = Ok e.
Proof. do 2 eexists. split; [vm_compute; reflexivity|]. split; [vm_compute; reflexivity|]. vm_compute. reflexivity. Qed.

(** ** C43: equality *)

(** Elements are equal exactly when they are of the same class and made from the same data,
    unless the name of a mapping contains an apostrophe. *)
Theorem C43_equality a b : built a -> plain_mappings a -> built b -> plain_mappings b ->
  u_eqb a b = true <-> same a b.
Proof. exact (eqb_same a b). Qed.

(** Equality is an equivalence, and equal elements have equal hashes. *)
Theorem C43_equivalence :
  (forall a, u_eqb a a = true) /\ (forall a b, u_eqb a b = true -> u_eqb b a = true) /\
  (forall a b c, u_eqb a b = true -> u_eqb b c = true -> u_eqb a c = true).
Proof. exact eqb_equiv. Qed.
Theorem C43_hash md5 a b : u_eqb a b = true -> u_hash md5 a = u_hash md5 b.
Proof. exact (eqb_hash md5 a b). Qed.

(** Elements made from the same data have the same family, cell, degree, quadrature scheme,
    reference value shape, mapping, Sobolev space and variant. *)
Theorem C43_same a b : same a b -> built a -> built b ->
  (u_attrs a = u_attrs b /\ u_mapping a = u_mapping b /\ u_space a = u_space b) /\ u_variant a = u_variant b.
Proof. exact (fun S A B => conj (same_agree a b S A B) (same_variant a b S)). Qed.

(** With apostrophes in the names of mappings two elements can be confused: here one with
    two sub-elements and one with a single one. *)
Theorem C43_apostrophe_refuted : exists a b, built a /\ built b /\ u_eqb a b = true /\ ~ same a b /\
  length (u_subs a) = 2 /\ length (u_subs b) = 1.
Proof.
  assert (W : forall m, m <> "symmetries" -> built (UWithMapping (p_k (Named Triangle) 2) m)).
  { intros m M. apply (built_with_mapping (p_k (Named Triangle) 2) m _ p_2_built). unfold mk_with_mapping.
    apply String.eqb_neq in M. now rewrite M. }
  set (m := "a'), WithMapping(" ++ u_repr (p_k (Named Triangle) 2) ++ ", 'b").
  exists (UMixed (mkAttrs "Mixed" (Some (Named Triangle)) (DInt 2) None [2])
            [UWithMapping (p_k (Named Triangle) 2) "a"; UWithMapping (p_k (Named Triangle) 2) "b"]),
    (UMixed (mkAttrs "Mixed" (Some (Named Triangle)) (DInt 2) None [1]) [UWithMapping (p_k (Named Triangle) 2) m]).
  split; [apply (built_mixed [UWithMapping (p_k (Named Triangle) 2) "a"; UWithMapping (p_k (Named Triangle) 2) "b"])|].
  { apply Forall_cons; [apply W; discriminate|]. apply Forall_cons; [apply W; discriminate|apply Forall_nil]. }
  { vm_compute. reflexivity. }
  split; [apply (built_mixed [UWithMapping (p_k (Named Triangle) 2) m])|].
  { apply Forall_cons; [apply W; discriminate|apply Forall_nil]. }
  { vm_compute. reflexivity. }
  split; [vm_compute; reflexivity|]. split; [|split; reflexivity].
  intros S. inversion S as [|? ? ? ? F| | | | | | | | |]; subst. inversion F as [|? ? ? ? _ F']; subst. inversion F'.
Qed.

(** The order in which the entries of a symmetry are given matters: equal dictionaries give
    unequal elements. *)
Theorem C43_symmetry_refuted : exists s s' a b, (forall ij, In ij s <-> In ij s') /\
  mk_tensor (p_k (Named Triangle) 2) (Some [2; 2]) (SymDict s) = Ok a /\
  mk_tensor (p_k (Named Triangle) 2) (Some [2; 2]) (SymDict s') = Ok b /\ u_eqb a b = false.
Proof.
  exists [([1; 0], [0; 1]); ([1; 1], [0; 0])], [([1; 1], [0; 0]); ([1; 0], [0; 1])].
  do 2 eexists. split; [intros ij; cbn [In]; tauto|]. repeat split; vm_compute; reflexivity.
Qed.

Example C43_example : built (p_k (Named Triangle) 2) /\ plain_mappings (p_k (Named Triangle) 2) /\
  u_eqb (p_k (Named Triangle) 2) (p_k (Named Triangle) 2) = true /\
  u_eqb (p_k (Named Triangle) 2) (p_k (Named Triangle) 3) = false /\
  u_eqb (p_k (Named Triangle) 2) (p_k (Named Tetrahedron) 2) = false.
Proof. split; [exact p_2_built|]. split; [constructor|]. vm_compute. repeat split. Qed.

(** ** C44: components *)

(** One level: component p of a sub-element has the number p plus the sizes of the
    sub-elements before; there are no other numbers. *)
Theorem C44_level pre s post p c : nth_error (all_indices (u_shape s)) p = Some c ->
  mixed_reference_component (pre ++ s :: post) [sum (map (fun e => prod (u_shape e)) (pre ++ s :: post))]
    [Z.of_nat (sum (map (fun e => prod (u_shape e)) pre) + p)] = Ok (length pre, map Z.of_nat c).
Proof. exact (level_at pre s post p c). Qed.
Theorem C44_level_all subs j : j < sum (map (fun e => prod (u_shape e)) subs) -> exists pre s post p c,
  subs = (pre ++ s :: post)%list /\ j = sum (map (fun e => prod (u_shape e)) pre) + p /\
  nth_error (all_indices (u_shape s)) p = Some c.
Proof. exact (level_all subs j). Qed.

(** All levels: the k-th index gives the k-th component, and there are as many. *)
Theorem C44_components e : built e -> flat e ->
  length (components e) = prod (u_shape e) /\
  forall k c x idx, nth_error (components e) k = Some (c, x) -> nth_error (all_indices (u_shape e)) k = Some idx ->
    extract_reference_component e (map Z.of_nat idx) = Ok (map Z.of_nat c, x).
Proof. exact (flat_located e). Qed.

(** Indices of the wrong length or with too large entries are refused, for every element;
    negative ones by mixed elements. *)
Theorem C44_outside e i : length i <> length (u_shape e) \/
  (exists p j n, nth_error i p = Some j /\ nth_error (u_shape e) p = Some n /\ (Z.of_nat n <= j)%Z) ->
  extract_reference_component e i = Err ValueError.
Proof. exact (extract_bad e i). Qed.
Theorem C44_negative subs n j : subs <> [] -> (j < 0)%Z -> mixed_reference_component subs [n] [j] = Err ValueError.
Proof. exact (level_negative subs n j). Qed.

(** Vector and tensor elements whose reference value has not rank one refuse every valid
    index. *)
Theorem C44_rank e i :
  match e with UMixed _ _ | UVector _ _ _ | UTensor _ _ _ _ _ _ => True | _ => False end ->
  length (u_shape e) <> 1 -> In i (all_indices (u_shape e)) ->
  extract_reference_component e (map Z.of_nat i) = Err AssertionError.
Proof. exact (extract_rank e i). Qed.
Theorem C44_rank_refuted : exists e i, built e /\ In i (all_indices (u_shape e)) /\
  extract_reference_component e (map Z.of_nat i) = Err AssertionError.
Proof.
  exists (UVector (mkAttrs "Raviart-Thomas" (Some (Named Triangle)) (DInt 1) None [3; 2]) (rt 1) 3), [1; 1].
  split; [exact (built_vector (rt 1) (Some 3) _ rt_1_built eq_refl)|]. split; [vm_compute; auto 10|]. vm_compute. reflexivity.
Qed.

(** Elements that are not mixed accept negative indices. *)
Theorem C44_negative_refuted : exists e, built e /\ u_shape e = [2] /\
  extract_reference_component e [(-1)%Z] = Ok ([(-1)%Z], e).
Proof. exists (rt 1). split; [exact rt_1_built|]. split; reflexivity. Qed.

Example C44_example : exists v e, mk_vector (p_k (Named Triangle) 2) None = Ok v /\ mk_mixed [rt 1; v; p_k (Named Triangle) 1] = Ok e /\
  flat e /\ u_shape e = [5] /\
  extract_reference_component e [1%Z] = Ok ([1%Z], rt 1) /\
  extract_reference_component e [3%Z] = Ok ([], p_k (Named Triangle) 2) /\
  extract_reference_component e [4%Z] = Ok ([], p_k (Named Triangle) 1).
Proof.
  do 2 eexists. split; [vm_compute; reflexivity|]. split; [vm_compute; reflexivity|].
  split; [|vm_compute; repeat split]. apply flat_mixed. constructor; [now apply flat_simple|].
  constructor; [apply flat_vector; [now apply flat_simple|reflexivity]|]. constructor; [now apply flat_simple|constructor].
Qed.

(** ** C45: symmetries *)

(** Sub-elements of a tensor element with full keys: one for each index that is no key.  When
    keys come after the indices they equal, an index has the number that follows from the
    symmetry, in the element and in the pullback. *)
Theorem C45_numbers sub shape s a sub' sh sy t n : mk_tensor sub shape s = Ok (UTensor a sub' sh sy t n) ->
  full_keys sh sy ->
  n + length sy = prod sh /\ at_shape a = (match sy with [] => sh | _ => [n] end ++ u_shape sub)%list /\
  ((forall i j, In (i, j) sy -> before j i) -> forall i, In i (all_indices sh) -> exists k, k < n /\ numbered sh sy i k /\
     (forall k', numbered sh sy i k' -> k' = k) /\ dict_get index_eqb t i = Ok k /\
     dict_get index_eqb (pullback_numbers sh sy) i = Ok k).
Proof. exact (tensor_numbers sub shape s a sub' sh sy t n). Qed.

(** All numbers are used. *)
Theorem C45_onto sub shape s a sub' sh sy t n : mk_tensor sub shape s = Ok (UTensor a sub' sh sy t n) ->
  full_keys sh sy -> (forall i j, In (i, j) sy -> before j i) ->
  forall k, k < n -> exists i, In i (all_indices sh) /\ dict_get index_eqb t i = Ok k.
Proof. exact (tensor_reached sub shape s a sub' sh sy t n). Qed.

(** Such symmetries are accepted; full keys with an entry out of range are refused. *)
Theorem C45_accepted sub sh sy z : u_degree sub = DInt z -> NoDup (map fst sy) ->
  (forall i j, In (i, j) sy -> In i (all_indices sh) /\ In j (all_indices sh) /\ before j i) ->
  exists a t n, mk_tensor sub (Some sh) (SymDict sy) = Ok (UTensor a sub sh sy t n).
Proof. exact (tensor_accepts sub sh sy z). Qed.
Theorem C45_refused sub sh sy i j : NoDup (map fst sy) -> full_keys sh sy -> In (i, j) sy ->
  ~ (In i (all_indices sh) /\ In j (all_indices sh)) ->
  mk_tensor sub (Some sh) (SymDict sy) = Err ValueError.
Proof. exact (tensor_refuses sub sh sy i j). Qed.

(** symmetry=True: n(n+1)/2 sub-elements; (i, j) and (j, i) use the same one, also in the
    pullback; each is used by one pair i <= j. *)
Theorem C45_symmetric sub n z : u_degree sub = DInt z -> exists a sy t m,
  mk_tensor sub (Some [n; n]) AutoSym = Ok (UTensor a sub [n; n] sy t m) /\
  (2 * m = n * (n + 1))%nat /\ (prod (at_shape a) = m * prod (u_shape sub))%nat /\
  (forall i j, i < n -> j < n -> exists k, k < m /\
     dict_get index_eqb t [i; j] = Ok k /\ dict_get index_eqb t [j; i] = Ok k /\
     dict_get index_eqb (pullback_numbers [n; n] sy) [i; j] = Ok k) /\
  (forall k, k < m -> exists i j, i <= j /\ j < n /\ dict_get index_eqb t [i; j] = Ok k /\
     forall i' j', i' <= j' -> j' < n -> dict_get index_eqb t [i'; j'] = Ok k -> i' = i /\ j' = j).
Proof.
  exact (fun D => match auto_numbers sub n z D with
                  | ex_intro _ a (ex_intro _ t (ex_intro _ m H)) =>
                      ex_intro _ a (ex_intro _ (auto n) (ex_intro _ t (ex_intro _ m H)))
                  end).
Qed.

(** A key before the index it equals: element and pullback number the components
    differently. *)
Theorem C45_pullback_refuted : exists sy a t n i k k',
  mk_tensor (p_k (Named Triangle) 2) (Some [2; 2]) (SymDict sy) = Ok (UTensor a (p_k (Named Triangle) 2) [2; 2] sy t n) /\
  dict_get index_eqb t i = Ok k /\ dict_get index_eqb (pullback_numbers [2; 2] sy) i = Ok k' /\ k <> k'.
Proof.
  exists [([0; 1], [1; 0])]. do 3 eexists. exists [1; 0]. do 2 eexists. split; [vm_compute; reflexivity|].
  split; [vm_compute; reflexivity|]. split; [vm_compute; reflexivity|]. discriminate.
Qed.

(** Keys equal to themselves, or to a key that comes later, end in a KeyError; keys that are
    too long in an IndexError. *)
Theorem C45_errors_refuted :
  mk_tensor (p_k (Named Triangle) 2) (Some [2; 2]) (SymDict [([0; 0], [0; 0])]) = Err KeyError /\
  mk_tensor (p_k (Named Triangle) 2) (Some [2; 2]) (SymDict [([0; 1], [1; 0]); ([1; 0], [0; 0])]) = Err KeyError /\
  mk_tensor (p_k (Named Triangle) 2) (Some [2; 2]) (SymDict [([0; 1; 0], [1; 0; 0])]) = Err IndexError.
Proof. vm_compute. repeat split. Qed.

(** Keys that are too short are accepted and ignored, except in the reference value shape:
    it has three components while there are four sub-elements. *)
Theorem C45_short_keys_refuted : exists a t,
  mk_tensor (p_k (Named Triangle) 2) (Some [2; 2]) (SymDict [([0], [1])]) =
    Ok (UTensor a (p_k (Named Triangle) 2) [2; 2] [([0], [1])] t 4) /\ at_shape a = [3].
Proof. do 2 eexists. split; [vm_compute; reflexivity|reflexivity]. Qed.

Example C45_example : exists a t, mk_tensor (p_k (Named Triangle) 2) (Some [3; 3]) AutoSym =
    Ok (UTensor a (p_k (Named Triangle) 2) [3; 3] [([1; 0], [0; 1]); ([2; 0], [0; 2]); ([2; 1], [1; 2])] t 6) /\
  at_shape a = [6] /\ dict_get index_eqb t [2; 1] = Ok 4 /\ dict_get index_eqb t [1; 2] = Ok 4.
Proof. do 2 eexists. split; [vm_compute; reflexivity|]. vm_compute. repeat split. Qed.

(** ** C46: replaced sub-elements *)

(** With as many elements as before the sub-elements are the given ones. *)
Theorem C46_elements e l e' : length l = length (u_subs e) -> reconstruct_from_elements e l = Ok e' ->
  Forall2 (fun x y => u_eqb x y = true) l (u_subs e').
Proof. exact (reconstruct_elements e l e'). Qed.

(** With fewer or more elements they can be ignored. *)
Theorem C46_length_refuted : exists e, built e /\ length (u_subs e) = 2 /\
  reconstruct_from_elements e [] = Ok e /\
  reconstruct_from_elements e [rt 1] = Ok e /\
  reconstruct_from_elements e [rt 1; p_k (Named Triangle) 2; p_k (Named Triangle) 3] = Ok e.
Proof.
  exists (UMixed (mkAttrs "Mixed" (Some (Named Triangle)) (DInt 2) None [3]) [rt 1; p_k (Named Triangle) 2]).
  split; [|vm_compute; repeat split].
  apply (built_mixed [rt 1; p_k (Named Triangle) 2]); [|vm_compute; reflexivity].
  apply Forall_cons; [exact rt_1_built|]. apply Forall_cons; [exact p_2_built|apply Forall_nil].
Qed.

Example C46_example : exists e, mk_mixed [rt 1; p_k (Named Triangle) 2] = Ok e /\
  exists e', reconstruct_from_elements e [rt 1; p_k (Named Triangle) 3] = Ok e' /\ u_subs e' = [rt 1; p_k (Named Triangle) 3].
Proof. eexists. split; [vm_compute; reflexivity|]. eexists. split; [vm_compute; reflexivity|reflexivity]. Qed.

(** ** C47: spaces of sums *)

(** The smallest predefined space that includes the spaces of all summands; there is
    always one. *)
Theorem C47_spaces l : l <> [] -> exists s, enriched_space l = Ok s /\ smallest l s.
Proof. exact (enriched_smallest l). Qed.
Theorem C47_element nodal subs e l : mk_enriched nodal subs = Ok e ->
  map u_space subs = map (fun s => Ok (Predefined s)) l ->
  exists s, u_space e = Ok (Predefined s) /\ smallest l s.
Proof. exact (enriched_element nodal subs e l). Qed.

Example C47_example :
  enriched_space [H1; HDiv] = Ok HDiv /\ enriched_space [HDiv; HCurl] = Ok L2 /\ enriched_space [H2; H1; HInf] = Ok H1 /\
  enriched_space [HEin; H1] = Ok L2.
Proof. vm_compute. repeat split. Qed.

(** ** C48: families on product cells *)

(** Q, DQ and DQ L2: the product has the cell, the shape, the mapping, the space and the
    variant asked for, and on each factor the degree. *)
Theorem C48_lagrange f cs o k s v d e : describe_name f (Some (ProductCell cs)) o k = Ok d ->
  In (ds_family d) ["Q"; "DQ"; "DQ L2"] -> mk_finite f (Some (ProductCell cs)) o k s v = Ok e ->
  u_cell e = Some (ProductCell cs) /\ u_degree e = DTuple (map (spread (deg_of (ds_order d))) cs) /\
  u_shape e = ds_shape d /\ u_mapping e = ds_mapping d /\ u_space e = Ok (Predefined (ds_space d)) /\ u_variant e = v.
Proof. exact (lagrange_agrees f cs o k s v d e). Qed.

(** They exist for all products of simplices and cubes, and all degrees registered. *)
Theorem C48_lagrange_accepted f cs o k s v d z : describe_name f (Some (ProductCell cs)) o k = Ok d ->
  In (ds_family d) ["Q"; "DQ"; "DQ L2"] -> ds_order d = Order z -> factor_cell (ProductCell cs) -> quiet v ->
  exists e, mk_finite f (Some (ProductCell cs)) o k s v = Ok e.
Proof. exact (lagrange_ok f cs o k s v d z). Qed.

(** RTCF, RTCE, NCF and NCE: the same, with the degree in both directions. *)
Theorem C48_vector f cs o k s v d e : describe_name f (Some (ProductCell cs)) o k = Ok d ->
  In (ds_family d) vector_families -> mk_finite f (Some (ProductCell cs)) o k s v = Ok e ->
  exists z, ds_order d = Order z /\ u_cell e = Some (ProductCell cs) /\ u_degree e = DTuple [DInt z; DInt z] /\
    u_shape e = ds_shape d /\ u_mapping e = ds_mapping d /\ u_space e = Ok (Predefined (ds_space d)) /\ u_variant e = v.
Proof. exact (vector_agrees f cs o k s v d e). Qed.

(** They exist on interval x interval, or quadrilateral x interval, for all degrees
    registered, and are refused on other products. *)
Theorem C48_vector_accepted f cs o k s v d z : describe_name f (Some (ProductCell cs)) o k = Ok d ->
  In (ds_family d) vector_families -> ds_order d = Order z -> map cell_name cs = vector_cells (ds_family d) -> quiet v ->
  exists e, mk_finite f (Some (ProductCell cs)) o k s v = Ok e.
Proof. exact (vector_accepted f cs o k s v d z). Qed.
Theorem C48_vector_refused f cs o k s v d : describe_name f (Some (ProductCell cs)) o k = Ok d ->
  In (ds_family d) vector_families -> map cell_name cs <> vector_cells (ds_family d) ->
  mk_finite f (Some (ProductCell cs)) o k s v = Err ValueError.
Proof. exact (vector_refused f cs o k s v d). Qed.

(** What the registry refuses is refused. *)
Theorem C48_undescribed f c o k s v x : describe_name f c o k = Err x -> mk_finite f c o k s v = Err x.
Proof. exact (undescribed f c o k s v x). Qed.

(** The quadrature scheme is lost on product cells. *)
Theorem C48_scheme_refuted : exists e e',
  mk_finite "Q" (Some (ProductCell [Named Interval; Named Interval])) (Order 1) None (Some "KMV") None = Ok e /\
  u_scheme e = None /\
  mk_finite "Q" (Some (Named Quadrilateral)) (Order 1) None (Some "KMV") None = Ok e' /\ u_scheme e' = Some "KMV".
Proof. do 2 eexists. split; [vm_compute; reflexivity|]. split; [reflexivity|]. split; [vm_compute; reflexivity|reflexivity]. Qed.

(** On prisms as a factor Q exists, DQ does not. *)
Theorem C48_prism_refuted : exists e,
  mk_finite "Q" (Some (ProductCell [Named Prism; Named Interval])) (Order 1) None None None = Ok e /\
  is_ok (describe_name "DQ" (Some (ProductCell [Named Prism; Named Interval])) (Order 1) None) = true /\
  mk_finite "DQ" (Some (ProductCell [Named Prism; Named Interval])) (Order 1) None None None = Err ValueError.
Proof. eexists. split; [vm_compute; reflexivity|]. vm_compute. split; reflexivity. Qed.

Example C48_example : exists d e,
  describe_name "NCF" (Some (ProductCell [Named Quadrilateral; Named Interval])) (Order 2) None = Ok d /\
  mk_finite "NCF" (Some (ProductCell [Named Quadrilateral; Named Interval])) (Order 2) None None (Some "spectral") = Ok e /\
  u_shape e = [3] /\ u_mapping e = "contravariant Piola" /\ u_degree e = DTuple [DInt 2; DInt 2].
Proof. do 2 eexists. split; [vm_compute; reflexivity|]. split; [vm_compute; reflexivity|]. vm_compute. repeat split. Qed.
Example C48_example_nested : exists e,
  mk_finite "DQ" (Some (ProductCell [ProductCell [Named Triangle; Named Interval]; Named Interval])) (Order 3) None None None = Ok e /\
  u_degree e = DTuple [DTuple [DInt 3; DInt 3]; DInt 3] /\
  factor_cell (ProductCell [ProductCell [Named Triangle; Named Interval]; Named Interval]).
Proof.
  eexists. split; [vm_compute; reflexivity|]. split; [reflexivity|].
  apply factor_product; [discriminate|]. apply Forall_cons; [apply factor_product; [discriminate|]|].
  - apply Forall_cons; [|apply Forall_cons; [|apply Forall_nil]]; apply factor_named; cbn [In]; auto.
  - apply Forall_cons; [|apply Forall_nil]. apply factor_named. cbn [In]. auto.
Qed.

(** ** C49: embedded degrees *)

(** Both degrees are numbers exactly when the bounds exist, and then they are the bounds. *)
Theorem C49_bounds e : built e -> forall lo hi,
  (embedded_subdegree e = Ok (DInt lo) /\ embedded_superdegree e = Ok (DInt hi)) <-> bounds e lo hi.
Proof. exact (degrees_bounds e). Qed.
Theorem C49_order e : built e -> forall lo hi, bounds e lo hi -> (lo <= hi)%Z.
Proof. exact (bounds_le e). Qed.

(** They are not defined for elements without a degree, empty mixed elements, and products
    of products. *)
Theorem C49_defined_refuted :
  (exists e, built e /\ embedded_subdegree e = Err TypeError /\ embedded_superdegree e = Err TypeError) /\
  (exists e, built e /\ mk_mixed [] = Ok e /\ embedded_subdegree e = Err ValueError) /\
  (exists e, built e /\ u_cell e = Some (ProductCell [ProductCell [Named Interval; Named Interval]; Named Interval]) /\
     embedded_superdegree e = Err TypeError).
Proof.
  split; [|split].
  - exists no_degree. split; [exact no_degree_built|]. vm_compute. split; reflexivity.
  - eexists. split; [apply (built_mixed []); [apply Forall_nil|vm_compute; reflexivity]|]. split; vm_compute; reflexivity.
  - assert (H : is_ok (mk_finite "Q" (Some (ProductCell [ProductCell [Named Interval; Named Interval]; Named Interval])) (Order 1) None None None) = true)
      by (vm_compute; reflexivity).
    destruct (mk_finite "Q" (Some (ProductCell [ProductCell [Named Interval; Named Interval]; Named Interval])) (Order 1) None None None) as [e|] eqn:E;
      [|discriminate H]. exists e. split; [exact (mk_finite_built _ _ _ _ _ _ _ E)|]. vm_compute in E. injection E as <-. vm_compute. split; reflexivity.
Qed.

(** A restricted element has its degree as both bounds, even of a family whose bounds
    differ. *)
Theorem C49_restricted_refuted : exists e r lo hi, built e /\ mk_restricted e "facet" = Ok r /\
  embedded_subdegree e = Ok (DInt lo) /\ embedded_superdegree e = Ok (DInt hi) /\
  embedded_superdegree r = Ok (DInt lo) /\ (lo < hi)%Z.
Proof.
  exists (UFinite (mkDescription "Bernardi-Raugel" (Some "BR") (Order 1) [2] H1 "contravariant Piola" (Order 2)) (Some (Named Triangle)) None None).
  eexists. exists 1%Z, 2%Z. split; [apply (mk_finite_built "BR" (Some (Named Triangle)) (Order 1) None None None); vm_compute; reflexivity|].
  split; [vm_compute; reflexivity|]. vm_compute. repeat split.
Qed.

Example C49_example : exists e, mk_mixed [rt 1; p_k (Named Triangle) 3] = Ok e /\
  embedded_subdegree e = Ok (DInt 1) /\ embedded_superdegree e = Ok (DInt 3).
Proof. eexists. split; [vm_compute; reflexivity|]. vm_compute. split; reflexivity. Qed.

Print Assumptions C41_built.
Print Assumptions C41_reconstruct.
Print Assumptions C43_equality.
Print Assumptions C43_equivalence.
Print Assumptions C43_hash.
Print Assumptions C43_same.
Print Assumptions C43_apostrophe_refuted.
Print Assumptions C43_symmetry_refuted.
Print Assumptions C44_level.
Print Assumptions C44_level_all.
Print Assumptions C44_components.
Print Assumptions C44_outside.
Print Assumptions C44_negative.
Print Assumptions C44_rank.
Print Assumptions C44_rank_refuted.
Print Assumptions C44_negative_refuted.
Print Assumptions C45_numbers.
Print Assumptions C45_onto.
Print Assumptions C45_accepted.
Print Assumptions C45_refused.
Print Assumptions C45_symmetric.
Print Assumptions C45_pullback_refuted.
Print Assumptions C45_errors_refuted.
Print Assumptions C45_short_keys_refuted.
Print Assumptions C46_elements.
Print Assumptions C46_length_refuted.
Print Assumptions C47_spaces.
Print Assumptions C47_element.
Print Assumptions C48_lagrange.
Print Assumptions C48_lagrange_accepted.
Print Assumptions C48_vector.
Print Assumptions C48_vector_accepted.
Print Assumptions C48_vector_refused.
Print Assumptions C48_undescribed.
Print Assumptions C48_scheme_refuted.
Print Assumptions C48_prism_refuted.
Print Assumptions C49_bounds.
Print Assumptions C49_order.
Print Assumptions C49_defined_refuted.
Print Assumptions C49_restricted_refuted.
