(** Degrees of freedom: C01-C10 and C52. *)
From Coq Require Import String List Arith Permutation Sorted Bool.
From Verif Require Import Model.Prelude Model.Cell Model.Element Model.EntityMaps.
From Verif Require Import Spec.Rowmajor Spec.EntityDofs Spec.Layout Spec.Degrees Spec.Samples.
From Verif Require Import Proofs.Lists Proofs.Cells Proofs.EntityDofs2 Proofs.Layout Proofs.Closure Proofs.Flatten Proofs.Perms
  Proofs.Degrees Proofs.SampleFacts Proofs.DofProps.
Import ListNotations.

Theorem C01_entity_dofs_partition : forall F (e : elt F) c,
  (forall l, leaf_of l e -> leaf_ok l) -> sensible e -> cell_of e = Ok c ->
  exists d, entity_dofs e = Ok d /\ partitions (space_dimension e) (all_lists d).
Proof. exact entity_dofs_partition. Qed.
Print Assumptions C01_entity_dofs_partition.

Theorem C02_entity_dofs_keys : forall F (e : elt F) c,
  (forall l, leaf_of l e -> leaf_ok l) -> sensible e -> cell_of e = Ok c ->
  exists d, entity_dofs e = Ok d /\ keys_match (topology c) d.
Proof. exact entity_dofs_keys. Qed.
Print Assumptions C02_entity_dofs_keys.

(** Without the restriction to cubes the claim C02 fails: a flattened
    triangle x interval is said to be a hexahedron. *)
Theorem C02_flattened_prism_refuted : exists (e : elt unit) c d,
  (forall l, leaf_of l e -> leaf_ok l) /\ mk_flattened (prism no_tab) = Ok e /\
  cell_of e = Ok c /\ entity_dofs e = Ok d /\ ~ keys_match (topology c) d.
Proof. exact flattened_prism_refuted. Qed.
Print Assumptions C02_flattened_prism_refuted.

(** Nor does it hold for a product of no factors, which can be built. *)
Theorem C02_empty_product_refuted : exists (e : elt unit) c err,
  mk_tensor_product (F := unit) [] = Ok e /\ cell_of e = Ok c /\ space_dimension e = 1 /\
  entity_dofs e = Err err.
Proof. exact empty_product_refuted. Qed.
Print Assumptions C02_empty_product_refuted.

Theorem C03_space_dimension : forall F (e : elt F),
  (forall l, leaf_of l e -> fold_right Nat.mul 1 (lf_ishape l) = lf_dim l) ->
  fold_right Nat.mul 1 (index_shape e) = space_dimension e.
Proof. exact space_dimension_prod. Qed.
Print Assumptions C03_space_dimension.

Theorem C04_tensor_product_layout : forall F (fs : list (elt F)) cs d k i l,
  (forall l, leaf_of l (ETensorProduct fs) -> leaf_ok l) -> sensible (ETensorProduct fs) ->
  mapM cell_of fs = Ok cs -> entity_dofs (ETensorProduct fs) = Ok d ->
  has_dofs d k i l ->
  exists ds ents ls, mapM entity_dofs fs = Ok ds /\
    factor_entity cs (Some (k, i)) = Ok ents /\
    length ents = length fs /\ length ls = length fs /\
    Forall2 (fun d_f kel => has_dofs d_f (fst (fst kel)) (snd (fst kel)) (snd kel)) ds (combine ents ls) /\
    lists_tuples (map space_dimension fs) ls l.
Proof. exact tensor_product_layout. Qed.
Print Assumptions C04_tensor_product_layout.

Theorem C05_tensor_layout : forall F (b : elt F) shape tr d k i l,
  (forall l, leaf_of l (ETensor b shape tr) -> leaf_ok l) -> sensible (ETensor b shape tr) ->
  entity_dofs (ETensor b shape tr) = Ok d -> has_dofs d k i l ->
  exists db lb, entity_dofs b = Ok db /\ has_dofs db k i lb /\
    length l = length lb * fold_right Nat.mul 1 shape /\
    forall j bidx c, in_shape (index_shape b) bidx -> in_shape shape c ->
      nth_error lb j = Some (rowmajor (index_shape b) bidx) ->
      nth_error l (if tr then rowmajor shape c * length lb + j
                   else j * fold_right Nat.mul 1 shape + rowmajor shape c)
      = Some (rowmajor (index_shape (ETensor b shape tr)) (if tr then c ++ bidx else bidx ++ c)).
Proof. exact tensor_layout. Qed.
Print Assumptions C05_tensor_layout.

Theorem C06_enriched_layout : forall F (es : list (elt F)) d k i l,
  (forall l, leaf_of l (EEnriched es) -> leaf_ok l) -> sensible (EEnriched es) ->
  entity_dofs (EEnriched es) = Ok d -> has_dofs d k i l ->
  exists ds ls, mapM entity_dofs es = Ok ds /\
    Forall2 (fun de le => has_dofs de k i le) ds ls /\
    l = shifted_blocks 0 (combine (map space_dimension es) ls).
Proof. exact enriched_layout. Qed.
Print Assumptions C06_enriched_layout.

(** A DiscontinuousElement has all its dofs on the cell itself, in order. *)
Theorem C06_discontinuous_layout : forall F (e : elt F) c d k i l,
  cell_of e = Ok c -> entity_dofs (EDiscontinuous e) = Ok d -> has_dofs d k i l ->
  l = if dimkey_eqb k (get_dimension c) && Nat.eqb i 0 then seq 0 (space_dimension e) else [].
Proof. exact discontinuous_layout. Qed.
Print Assumptions C06_discontinuous_layout.

Theorem C07_enriched_nesting : forall F (l : list (nest (elt F))),
  Forall plain (flat_map nest_leaves l) ->
  enrich (NNode l) = mk_enriched (flat_map nest_leaves l) /\
  (forall e, flat_map nest_leaves l = [e] -> enrich (NNode l) = e) /\
  (length (flat_map nest_leaves l) <> 1 -> enrich (NNode l) = EEnriched (flat_map nest_leaves l)).
Proof. exact enrich_flatten. Qed.
Print Assumptions C07_enriched_nesting.

Theorem C07_no_enriched_summand : forall F (es : list (elt F)),
  built (EEnriched es) -> Forall plain es.
Proof. exact no_enriched_summand. Qed.
Print Assumptions C07_no_enriched_summand.

Theorem C08_entity_closure_dofs : forall F (e : elt F) c subs,
  (forall l, leaf_of l e -> leaf_ok l) -> sensible e -> cell_of e = Ok c ->
  subentities_ok (topology c) (get_dimension c) subs ->
  exists d cl, entity_dofs e = Ok d /\ entity_closure_dofs subs d = Ok cl /\
    keys_match (topology c) cl /\
    (forall k i l, has_dofs cl k i l ->
       StronglySorted lt l /\
       forall v, In v l <-> exists s k' i' l', has_dofs subs k i s /\ In (k', i') s /\
                              has_dofs d k' i' l' /\ In v l') /\
    (forall k i l k' i' l' s, has_dofs cl k i l -> has_dofs cl k' i' l' ->
       has_dofs subs k i s -> In (k', i') s -> incl l' l) /\
    (forall l, has_dofs cl (get_dimension c) 0 l -> l = seq 0 (space_dimension e)).
Proof. exact closure_main. Qed.
Print Assumptions C08_entity_closure_dofs.

Theorem C09_unflatten_bijective : forall c,
  (* every entity of the product cell is reached from exactly one flat entity, of the summed dimension *)
  (forall K I, entity_of (topology c) (K, I) ->
     exists i, unflatten_entity c (Some (dk_total K, i)) = Ok (K, I) /\
       forall k' i', unflatten_entity c (Some (k', i')) = Ok (K, I) -> k' = dk_total K /\ i' = i) /\
  (* a flat entity is sent to an entity of the product cell of that dimension *)
  (forall k i K I, unflatten_entity c (Some (k, i)) = Ok (K, I) ->
     dk_total K = k /\ entity_of (topology c) (K, I)) /\
  (* the numbering follows the order of dimension tuples, then entity numbers *)
  (forall k i j K I K' I', i < j -> unflatten_entity c (Some (k, i)) = Ok (K, I) ->
     unflatten_entity c (Some (k, j)) = Ok (K', I') ->
     dimkey_leb K K' = true /\ (K = K' -> I < I')) /\
  (* on cubes the flat entities are those of the flattened cell *)
  (cube_cell c -> forall k i,
     entity_of (topology (Hypercube (spatial_dimension c))) (DI k, i) <->
     exists x, unflatten_entity c (Some (k, i)) = Ok x).
Proof. exact unflatten_bijective. Qed.
Print Assumptions C09_unflatten_bijective.

Theorem C09_flattened_layout : forall F (p : elt F) c d,
  (forall l, leaf_of l p -> leaf_ok l) -> sensible (EFlattened p) ->
  cell_of p = Ok c -> entity_dofs p = Ok d ->
  exists d', entity_dofs (EFlattened p) = Ok d' /\
    (forall key i l, has_dofs d' key i l ->
       exists k K I, key = DI k /\ unflatten_entity c (Some (k, i)) = Ok (K, I) /\ has_dofs d K I l) /\
    (forall k i K I l, unflatten_entity c (Some (k, i)) = Ok (K, I) -> has_dofs d K I l ->
       has_dofs d' (DI k) i l).
Proof. exact flattened_layout. Qed.
Print Assumptions C09_flattened_layout.

(** The 27 entities of the hexahedron are the same triples of interval
    entities for interval^3 and for quadrilateral x interval. *)
Theorem C09_hexahedron_numbering : forall k i,
  entity_of (topology (Hypercube 3)) (DI k, i) ->
  exists a b c x y,
    (* interval^3: (k, i) is the product of the interval entities a, b, c *)
    (exists K I, unflatten_entity (TPCell [I1; I1; I1]) (Some (k, i)) = Ok (K, I) /\
       factor_entity [I1; I1; I1] (Some (K, I)) = Ok [a; b; c]) /\
    (* quadrilateral x interval: (k, i) is (x, y) on the quadrilateral times c,
       and (x, y) is a times b *)
    (exists K I, unflatten_entity (TPCell [Hypercube 2; I1]) (Some (k, i)) = Ok (K, I) /\
       factor_entity [Hypercube 2; I1] (Some (K, I)) = Ok [(DI x, y); c]) /\
    (exists K I, unflatten_entity (TPCell [I1; I1]) (Some (x, y)) = Ok (K, I) /\
       factor_entity [I1; I1] (Some (K, I)) = Ok [a; b]).
Proof. exact hexahedron_numbering. Qed.
Print Assumptions C09_hexahedron_numbering.

Theorem C10_permutation_blocks : forall O (oeqb : O -> O -> bool),
  (forall a b, reflect (a = b) (oeqb a b)) ->
  forall els : list (edict (list (O * list nat))),
  Forall unique_keys els ->
  (forall el el' k i o p, In el els -> In el' els -> has_perm el k i o p -> exists p', has_perm el' k i o p') ->
  forall k i o p,
  has_perm (concatenate_entity_permutations oeqb els) k i o p <->
  els <> [] /\ exists ps, Forall2 (fun el q => has_perm el k i o q) els ps /\
                 p = shifted_blocks 0 (map (fun q => (length q, q)) ps).
Proof. exact @permutations_blocks. Qed.
Print Assumptions C10_permutation_blocks.

Theorem C10_permutations_of_dofs : forall O (oeqb : O -> O -> bool),
  (forall a b, reflect (a = b) (oeqb a b)) ->
  forall F (es : list (elt F)) d ds (els : list (edict (list (O * list nat)))),
  (forall l, leaf_of l (EEnriched es) -> leaf_ok l) -> sensible (EEnriched es) ->
  entity_dofs (EEnriched es) = Ok d -> mapM entity_dofs es = Ok ds ->
  Forall unique_keys els ->
  (forall el el' k i o p, In el els -> In el' els -> has_perm el k i o p -> exists p', has_perm el' k i o p') ->
  Forall2 (fun dj el => forall k i l o p, has_dofs dj k i l -> has_perm el k i o p -> permutes (length l) p) ds els ->
  forall k i l o p, has_dofs d k i l ->
    has_perm (concatenate_entity_permutations oeqb els) k i o p -> permutes (length l) p.
Proof. exact @enriched_permutations. Qed.
Print Assumptions C10_permutations_of_dofs.

Theorem C52_enriched_degree : forall F (es : list (elt F)) D, degree (EEnriched es) = Ok D ->
  exists ds, mapM degree es = Ok ds /\ Forall (fun d => deg_le d D) ds /\
    forall B, Forall (fun d => deg_le d B) ds -> deg_le D B.
Proof. exact degree_enriched. Qed.
Print Assumptions C52_enriched_degree.

Theorem C52_enriched_degree_defined : forall F (es : list (elt F)) ds,
  mapM degree es = Ok ds -> ds <> [] -> (forall a b, In a ds -> In b ds -> same_form a b) ->
  exists D, degree (EEnriched es) = Ok D.
Proof. exact degree_enriched_defined. Qed.
Print Assumptions C52_enriched_degree_defined.

Theorem C52_product_degree : forall F (fs : list (elt F)) D, degree (ETensorProduct fs) = Ok D ->
  exists ds, D = DgT ds /\ Forall2 (fun f d => degree f = Ok d) fs ds.
Proof. exact degree_product. Qed.
Print Assumptions C52_product_degree.

Theorem C52_flattened_degree : forall F (p : elt F) D,
  degree (EFlattened p) = Ok D <->
  exists ds, degree p = Ok (DgT ds) /\ ds <> [] /\ Forall (fun d => d = D) ds.
Proof. exact degree_flattened. Qed.
Print Assumptions C52_flattened_degree.

(* -------------------------------------------------------------------- *)
(** Concrete cases that meet the hypotheses. *)

Example C01_hexahedron : (forall l, leaf_of l (hex2 no_tab) -> leaf_ok l) /\ sensible (hex2 no_tab) /\
  cell_of (hex2 no_tab) = Ok (Hypercube 3) /\ space_dimension (hex2 no_tab) = 18.
Proof. split; [leaves | split; [is_sensible | split; reflexivity]]. Qed.

Example C01_mixed : (forall l, leaf_of l (mixed_tree no_tab) -> leaf_ok l) /\ sensible (mixed_tree no_tab) /\
  cell_of (mixed_tree no_tab) = Ok (Simplex 2) /\ space_dimension (mixed_tree no_tab) = 18.
Proof. split; [leaves | split; [is_sensible | split; reflexivity]]. Qed.

Example C04_quadrilateral : (forall l, leaf_of l (q2 no_tab) -> leaf_ok l) /\ sensible (q2 no_tab) /\
  mapM cell_of [ELeaf (cg2 no_tab); ELeaf (cg2 no_tab)] = Ok [I1; I1] /\
  exists d, entity_dofs (q2 no_tab) = Ok d /\ has_dofs d (DT [DI 0; DI 1]) 1 [5].
Proof.
  split; [leaves | split; [is_sensible | split; [reflexivity|]]].
  eexists. split; [vm_compute; reflexivity|]. eexists. split; [cbn; auto | cbn; auto].
Qed.

Example C05_vector : (forall l, leaf_of l (vec_q2 no_tab true) -> leaf_ok l) /\ sensible (vec_q2 no_tab true) /\
  exists d, entity_dofs (vec_q2 no_tab true) = Ok d /\ has_dofs d (DI 1) 0 [2; 11; 20; 29; 38; 47].
Proof.
  split; [leaves | split; [is_sensible|]].
  eexists. split; [vm_compute; reflexivity|]. eexists. split; [cbn; auto | cbn; auto].
Qed.

Example C06_rtcf : (forall l, leaf_of l (rtcf no_tab) -> leaf_ok l) /\ sensible (rtcf no_tab) /\
  exists d, entity_dofs (rtcf no_tab) = Ok d /\ has_dofs d (DT [DI 1; DI 1]) 0 [4; 5; 8; 11].
Proof.
  split; [leaves | split; [is_sensible|]].
  eexists. split; [vm_compute; reflexivity|]. eexists. split; [cbn; auto | cbn; auto 6].
Qed.

Example C07_nested :
  let a := ELeaf (cg1 no_tab) in let b := ELeaf (dg0 no_tab) in let c := ELeaf (cg2 no_tab) in
  Forall plain (flat_map nest_leaves [NNode [NLeaf a; NNode [NLeaf b]]; NLeaf c]) /\
  enrich (NNode [NNode [NLeaf a; NNode [NLeaf b]]; NLeaf c]) = EEnriched [a; b; c] /\
  built (EEnriched [a; b; c]).
Proof.
  cbv zeta. split; [repeat constructor | split; [reflexivity|]].
  apply (built_enriched [ELeaf (cg1 no_tab); ELeaf (dg0 no_tab); ELeaf (cg2 no_tab)]). repeat constructor.
Qed.

Example C08_interval :
  subentities_ok (topology I1) (get_dimension I1)
    [(DI 0, [(0, [(DI 0, 0)]); (1, [(DI 0, 1)])]); (DI 1, [(0, [(DI 0, 0); (DI 0, 1); (DI 1, 0)])])].
Proof. exact interval_subentities. Qed.

Example C10_two_summands :
  let p k := [(DI 1, [(0, [(0, seq 0 k); (1, rev (seq 0 k))])])] : edict (list (nat * list nat)) in
  Forall unique_keys [p 2; p 3] /\
  (forall el el' k i o q, In el [p 2; p 3] -> In el' [p 2; p 3] -> has_perm el k i o q -> exists q', has_perm el' k i o q') /\
  has_perm (concatenate_entity_permutations Nat.eqb [p 2; p 3]) (DI 1) 0 1 [1; 0; 4; 3; 2].
Proof. exact two_summand_permutations. Qed.

Example C52_cases :
  degree (rtcf no_tab) = Ok (DgT [Dg 2; Dg 2]) /\ degree (hex2 no_tab) = Err ValueError /\
  degree (EFlattened (q2 no_tab)) = Ok (Dg 2).
Proof. repeat split; reflexivity. Qed.
