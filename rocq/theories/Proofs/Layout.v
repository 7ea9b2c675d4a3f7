(** Proofs of the layout properties. *)
From Coq Require Import List Arith Lia Bool Permutation Sorted.
From Verif Require Import Model.Prelude Model.Cell Model.Element Model.EntityMaps.
From Verif Require Import Spec.Rowmajor Spec.EntityDofs Spec.Layout.
From Verif Require Import Proofs.Lists Proofs.Cells Proofs.Cubes Proofs.EntityDofs Proofs.EntityDofs2.
Import ListNotations.

Lemma nth_error_flat_map_const : forall A B (f : A -> list B) m l i j x y,
  (forall a, In a l -> length (f a) = m) ->
  nth_error l i = Some x -> nth_error (f x) j = Some y ->
  nth_error (flat_map f l) (i * m + j) = Some y.
Proof.
  induction l as [|a l IH]; intros i j x y Hm Hi Hj; [destruct i; discriminate|].
  assert (Lj : j < length (f x)) by (apply nth_error_Some; congruence).
  destruct i as [|i]; simpl in *.
  - injection Hi as ->. rewrite nth_error_app1 by exact Lj. exact Hj.
  - assert (La : length (f a) = m) by (apply Hm; auto).
    rewrite nth_error_app2 by lia. replace (m + i * m + j - length (f a)) with (i * m + j) by lia.
    eapply IH; eauto.
Qed.

Lemma nth_error_cart : forall A (ls : list (list A)) js vs,
  Forall2 (fun lj p => nth_error (fst lj) (snd lj) = Some p) (combine ls js) vs ->
  length js = length ls ->
  nth_error (cart ls) (ravel (map (@length A) ls) js) = Some vs.
Proof.
  induction ls as [|l ls IH]; intros [|j js] vs H L; simpl in *; try discriminate.
  - inversion H; reflexivity.
  - inversion H as [|? v ? vs' Hv H']; subst. simpl in Hv.
    rewrite <- cart_length.
    eapply nth_error_flat_map_const with (x := v).
    + intros; apply map_length.
    + exact Hv.
    + apply map_nth_error. apply IH; [exact H' | lia].
Qed.

Lemma cart_lists_tuples : forall ns ls, length ns = length ls ->
  lists_tuples ns ls (map (ravel ns) (cart ls)).
Proof.
  intros ns ls Ln. split.
  - rewrite map_length, cart_length. symmetry; apply fold_mul_prod.
  - intros js vs H L. rewrite rowmajor_ravel by (rewrite map_length; lia).
    rewrite rowmajor_ravel.
    + apply map_nth_error. apply nth_error_cart; assumption.
    + apply Forall2_length in H. rewrite combine_length in H. lia.
Qed.

(** Facts about the rows of a product. *)
Lemma product_rowof : forall xs dim, Forall fac_ok xs ->
  Forall2 (fun x k => In k (map fst (ft x))) xs dim ->
  rowof (product_dofs xs) (DT dim) = product_row xs dim.
Proof.
  intros xs dim FO H.
  assert (km := product_dofs_keys xs FO).
  assert (tn : NoDup (map fst (product_topology (map ft xs)))).
  { rewrite map_fst_product_topology.
    apply FinFun.Injective_map_NoDup; [intros a b; congruence|]. apply cart_NoDup. rewrite map_map.
    clear - FO. induction FO as [|x xs [tn _] FO IH]; simpl; constructor; auto. }
  eapply km_rowof; [exact tn | exact km |].
  apply in_map_iff. exists dim. split; [reflexivity|]. apply in_dims; exact H.
Qed.

Lemma product_topology_NoDup : forall xs, Forall fac_ok xs -> NoDup (map fst (product_topology (map ft xs))).
Proof.
  intros xs FO. rewrite map_fst_product_topology.
  apply FinFun.Injective_map_NoDup; [intros a b; congruence|]. apply cart_NoDup. rewrite map_map.
  induction FO as [|x xs [tn _] FO IH]; simpl; constructor; auto.
Qed.

Lemma product_dof_at : forall xs dim i, Forall fac_ok xs ->
  Forall2 (fun x k => In k (map fst (ft x))) xs dim -> i < prod (counts xs dim) ->
  dof_at (product_dofs xs) (DT dim) i
  = map (ravel (map fn xs)) (cart (at_tuple xs dim (unravel_digits (counts xs dim) i))).
Proof.
  intros xs dim i FO H Hi. unfold dof_at. rewrite product_rowof by assumption.
  unfold product_row, inrow. rewrite cart_seq, map_map.
  rewrite (dict_get_enumerate _ _ i (map (ravel (map fn xs)) (cart (at_tuple xs dim (unravel_digits (counts xs dim) 0))))).
  - rewrite nth_map_seq with (f := fun x => map (ravel (map fn xs)) (cart (at_tuple xs dim (unravel_digits (counts xs dim) x)))) by exact Hi.
    reflexivity.
  - rewrite map_length, seq_length. exact Hi.
Qed.

Lemma at_tuple_has : forall xs dim ei, Forall fac_ok xs ->
  Forall2 (fun x k => In k (map fst (ft x))) xs dim ->
  in_shape (counts xs dim) ei ->
  Forall2 (fun x kel => has_dofs (fd x) (fst (fst kel)) (snd (fst kel)) (snd kel))
    xs (combine (combine dim ei) (at_tuple xs dim ei)).
Proof.
  intros xs dim ei FO H. revert ei.
  induction H as [|x k xs dim Hk H IH]; intros ei Hei; inversion FO as [|? ? [tn ok] FO']; subst.
  - constructor.
  - cbn in Hei. inversion Hei as [|? i ? ei' Hi Hei']; subst. cbn. constructor; [|apply IH; assumption].
    cbn. apply (has_dofs_get (ft x)); [exact tn | apply ok|]. auto.
Qed.

Lemma at_tuple_length : forall xs dim ei, length xs = length dim -> length dim = length ei ->
  length (at_tuple xs dim ei) = length xs.
Proof.
  intros. unfold at_tuple. rewrite map2_length; rewrite zip_length_eq; auto; lia.
Qed.

Theorem tensor_product_layout : forall F (fs : list (elt F)) cs d k i l,
  leaves_ok (ETensorProduct fs) -> sensible (ETensorProduct fs) ->
  mapM cell_of fs = Ok cs -> entity_dofs (ETensorProduct fs) = Ok d ->
  has_dofs d k i l ->
  exists ds ents ls, mapM entity_dofs fs = Ok ds /\
    factor_entity cs (Some (k, i)) = Ok ents /\
    length ents = length fs /\ length ls = length fs /\
    Forall2 (fun d_f kel => has_dofs d_f (fst (fst kel)) (snd (fst kel)) (snd kel)) ds (combine ents ls) /\
    lists_tuples (map space_dimension fs) ls l.
Proof.
  intros F fs cs d k i l L S E Ed Hh.
  assert (IH : Forall dofs_good fs) by (apply Forall_forall; intros; apply entity_dofs_main).
  destruct (tensor_product_ok F fs cs IH L S E) as (xs & FO & Et & En & Ems & Ed').
  rewrite Ed in Ed'. injection Ed' as ->.
  assert (Lx : length xs = length fs) by (rewrite <- (map_length fn), En, map_length; reflexivity).
  assert (Lc : length cs = length fs) by (apply mapM_length in E; exact E).
  assert (km := product_dofs_keys xs FO). assert (tn := product_topology_NoDup xs FO).
  apply (has_dofs_get _ _ _ _ _ tn km) in Hh as (Hk & Hi & ->).
  rewrite product_topology_fac in Hk. apply in_map_iff in Hk as (dim & <- & Hdim).
  apply in_dims in Hdim. assert (Ld : length xs = length dim) by (eapply Forall2_length; eassumption).
  assert (Hc : cnt (product_dofs xs) (DT dim) = prod (counts xs dim)).
  { eapply km_count_eq; [exact tn | exact km | apply counts_in_topology; assumption]. }
  rewrite Hc in Hi. set (ei := unravel_digits (counts xs dim) i).
  assert (Hei : in_shape (counts xs dim) ei) by (apply unravel_in_shape; exact Hi).
  assert (Lcn : length (counts xs dim) = length xs) by (unfold counts; apply map2_length; exact Ld).
  assert (Le : length ei = length xs) by (rewrite <- (in_shape_length _ _ Hei); exact Lcn).
  assert (La : length (at_tuple xs dim ei) = length xs) by (apply at_tuple_length; lia).
  exists (map fd xs), (combine dim ei), (at_tuple xs dim ei). split; [exact Ems|]. split; [|split; [|split; [|split]]].
  - unfold factor_entity. cbn [fst snd].
    replace (length dim =? length cs) with true by (symmetry; apply Nat.eqb_eq; lia). cbn [guard bind].
    assert (Es : mapM (fun cd : cell * dimkey => dict_get dimkey_eqb (topology (fst cd)) (snd cd)) (zip cs dim)
                 = Ok (counts xs dim)).
    { assert (G := Forall2_Forall_l _ _ _ _ _ _ FO Hdim). clear - G Et.
      revert cs Et. induction G as [|x k xs dim [[tn ok] Hk] G IH]; intros [|c cs] Et; try discriminate Et; [reflexivity|].
      cbn in Et. injection Et as Ex Et. cbn [zip mapM fst snd].
      rewrite <- Ex. rewrite (dict_in_get _ dimkey_eqb_spec _ _ _ tn (proj1 (km_count _ _ tn (proj1 ok) k Hk))).
      cbn [bind]. rewrite IH by exact Et. reflexivity. }
    rewrite Es. cbn [bind]. unfold unravel_index.
    replace (i <? prod (counts xs dim)) with true by (symmetry; apply Nat.ltb_lt; exact Hi).
    cbn [bind]. rewrite zip_combine. reflexivity.
  - rewrite combine_length. lia.
  - lia.
  - rewrite Forall2_map_l. apply at_tuple_has; assumption.
  - rewrite product_dof_at by assumption. rewrite <- En. fold ei.
    apply cart_lists_tuples. rewrite map_length. lia.
Qed.

(* ------------------------------------------------------------------ *)
(** ** Vector and tensor elements *)

Lemma tensor_dof_at : forall t tr sd nd d k i, NoDup (map fst t) -> keys_match t d -> In k (map fst t) ->
  dof_at (tensor_dofs t tr sd nd d) k i = expand tr sd nd (dof_at d k i).
Proof.
  intros t tr sd nd d k i tn km Hk. unfold dof_at.
  assert (E : rowof (tensor_dofs t tr sd nd d) k
              = map (fun kd => (fst kd, expand tr sd nd (snd kd))) (rowof d k)).
  { eapply km_rowof; [exact tn | apply tensor_dofs_keys; assumption |].
    unfold tensor_dofs. apply in_map_iff. exists k; auto. }
  rewrite E. unfold inrow. rewrite (dict_get_map Nat.eqb _ (expand tr sd nd)).
  destruct (dict_get Nat.eqb (rowof d k) i); [reflexivity|]. rewrite expand_nil. reflexivity.
Qed.

Lemma tensor_cnt : forall t tr sd nd d k, NoDup (map fst t) -> keys_match t d -> In k (map fst t) ->
  cnt (tensor_dofs t tr sd nd d) k = cnt d k.
Proof.
  intros t tr sd nd d k tn km Hk.
  destruct (km_count t d tn km k Hk) as [Hc _].
  eapply km_count_eq; [exact tn | apply tensor_dofs_keys; assumption | exact Hc].
Qed.

Lemma nth_error_seq : forall a n i, i < n -> nth_error (seq a n) i = Some (a + i).
Proof.
  intros a n i H. rewrite (nth_error_nth' (seq a n) 0) by (rewrite seq_length; exact H).
  rewrite seq_nth by exact H. reflexivity.
Qed.

Lemma expand_nth : forall tr sd nd l j c v, nth_error l j = Some v -> c < nd ->
  nth_error (expand tr sd nd l) (if tr then c * length l + j else j * nd + c)
  = Some (if tr then c * sd + v else v * nd + c).
Proof.
  intros [] sd nd l j c v Hj Hc; unfold expand.
  - eapply nth_error_flat_map_const with (x := c).
    + intros; apply map_length.
    + rewrite nth_error_seq by exact Hc. reflexivity.
    + rewrite (map_nth_error _ _ _ Hj). f_equal; lia.
  - eapply nth_error_flat_map_const with (x := v).
    + intros; rewrite seq_length; nia.
    + exact Hj.
    + rewrite nth_error_seq by nia. reflexivity.
Qed.

Lemma expand_length : forall tr sd nd l, length (expand tr sd nd l) = length l * nd.
Proof.
  assert (G : forall A B (f : A -> list B) m l, (forall a, length (f a) = m) -> length (flat_map f l) = length l * m).
  { induction l as [|a l IH]; intros H; simpl; [reflexivity|]. rewrite app_length, H, IH by exact H. lia. }
  intros [] sd nd l; unfold expand.
  - rewrite (G _ _ _ (length l)) by (intros; apply map_length). rewrite seq_length; lia.
  - rewrite (G _ _ _ nd) by (intros; rewrite seq_length; nia). reflexivity.
Qed.

Theorem tensor_layout : forall F (b : elt F) shape tr d k i l,
  leaves_ok (ETensor b shape tr) -> sensible (ETensor b shape tr) ->
  entity_dofs (ETensor b shape tr) = Ok d -> has_dofs d k i l ->
  exists db lb, entity_dofs b = Ok db /\ has_dofs db k i lb /\
    length l = length lb * prod shape /\
    forall j bidx c, in_shape (index_shape b) bidx -> in_shape shape c ->
      nth_error lb j = Some (rowmajor (index_shape b) bidx) ->
      nth_error l (if tr then rowmajor shape c * length lb + j else j * prod shape + rowmajor shape c)
      = Some (rowmajor (index_shape (ETensor b shape tr)) (if tr then c ++ bidx else bidx ++ c)).
Proof.
  intros F b shape tr d k i l L S Ed Hh.
  assert (Lb : leaves_ok b) by (intros x Hx; apply L; constructor; exact Hx).
  assert (Sb : sensible b) by (eapply sensible_sub; [exact S|]; intros; constructor; assumption).
  assert (Ed' := Ed). cbn [entity_dofs] in Ed'. apply bind_ok in Ed' as (c & Ec & Ed').
  apply bind_ok in Ed' as (db & Eb & Ed').
  destruct (entity_dofs_main F b Lb Sb c Ec) as (db' & Eb' & ok). rewrite Eb in Eb'. injection Eb' as <-.
  assert (km := proj1 ok). assert (tn := topology_NoDup c).
  rewrite tensor_entity_dofs_ok in Ed' by exact km. injection Ed' as <-.
  apply (has_dofs_get (topology c)) in Hh as (Hk & Hi & ->); [|exact tn | apply tensor_dofs_keys; assumption].
  rewrite tensor_cnt in Hi by assumption.
  exists db, (dof_at db k i). split; [exact Eb|]. split.
  { apply (has_dofs_get (topology c)); auto. }
  rewrite tensor_dof_at by assumption. split; [apply expand_length|].
  intros j bidx cc Hb Hcc Hj.
  assert (Lbi := in_shape_length _ _ Hb). assert (Lcc := in_shape_length _ _ Hcc).
  rewrite !rowmajor_ravel in * by auto.
  assert (Hlt := ravel_lt _ _ Hcc).
  rewrite (expand_nth tr (space_dimension b) (prod shape) _ j (ravel shape cc) _ Hj Hlt).
  rewrite rowmajor_ravel.
  - f_equal. unfold index_shape. cbn [dims snd]. fold (index_shape b).
    assert (P := dims_prod F b (leaves_ok_prod F b Lb)).
    destruct tr; rewrite ravel_app by auto; [rewrite P|]; reflexivity.
  - unfold index_shape. cbn [dims snd]. fold (index_shape b).
    destruct tr; rewrite !app_length; lia.
Qed.

(* ------------------------------------------------------------------ *)
(** ** Enriched elements *)

Lemma shifted_blocks_zip : forall ns (ds : list edofs) k i a, length ns = length ds ->
  flat_map (fun od => map (fun v => fst od + v) (dof_at (snd od) k i)) (zip (cumsum_from a ns) ds)
  = shifted_blocks a (combine ns (map (fun d => dof_at d k i) ds)).
Proof.
  induction ns as [|n ns IH]; intros [|d ds] k i a L; simpl in *; try lia; [reflexivity|].
  rewrite IH by lia. reflexivity.
Qed.

Theorem enriched_layout : forall F (es : list (elt F)) d k i l,
  leaves_ok (EEnriched es) -> sensible (EEnriched es) ->
  entity_dofs (EEnriched es) = Ok d -> has_dofs d k i l ->
  exists ds ls, mapM entity_dofs es = Ok ds /\
    Forall2 (fun de le => has_dofs de k i le) ds ls /\
    l = shifted_blocks 0 (combine (map space_dimension es) ls).
Proof.
  intros F es d k i l L S Ed Hh.
  assert (IH : Forall dofs_good es) by (apply Forall_forall; intros; apply entity_dofs_main).
  assert (Ec : exists c, cell_of (EEnriched es) = Ok c).
  { cbn [entity_dofs] in Ed. apply bind_ok in Ed as (c & Ec & _). exists c; exact Ec. }
  destruct Ec as [c Ec].
  destruct (enriched_data F es c IH L S Ec) as (nds & FO & En & Ems & Ed').
  destruct (concatenate_ok c nds FO) as (d' & Hd & [km _] & D).
  rewrite Ed in Ed'. rewrite <- Ed' in Hd. injection Hd as <-.
  assert (tn := topology_NoDup c).
  apply (has_dofs_get (topology c)) in Hh as (Hk & Hi & ->); [|exact tn | exact km].
  destruct (km_count _ d tn km k Hk) as [Hin _].
  exists (map snd nds), (map (fun d => dof_at d k i) (map snd nds)). split; [exact Ems|]. split.
  - rewrite map_map, Forall2_map_l, Forall2_map_r. clear - FO tn Hk Hin Hi.
    induction FO as [|[n dn] nds [kmn _] FO IH]; constructor; [|exact IH]. cbn [snd].
    apply (has_dofs_get (topology c)); [exact tn | exact kmn|]. split; [exact Hk|]. split; [|reflexivity].
    rewrite (km_count_eq (topology c) dn tn kmn k _ Hin). exact Hi.
  - rewrite D. unfold cumsum0. rewrite shifted_blocks_zip by (rewrite !map_length; reflexivity).
    rewrite En. reflexivity.
Qed.

(* ------------------------------------------------------------------ *)
(** ** Nesting of enriched elements *)

Section NestInd.
  Context {A : Type}.
  Variable P : nest A -> Prop.
  Hypothesis HL : forall a, P (NLeaf a).
  Hypothesis HN : forall l, Forall P l -> P (NNode l).
  Fixpoint nest_ind' (n : nest A) : P n :=
    match n with
    | NLeaf a => HL a
    | NNode l => HN l ((fix go (l : list (nest A)) : Forall P l :=
                          match l with
                          | [] => Forall_nil P
                          | x :: r => Forall_cons x (nest_ind' x) (go r)
                          end) l)
    end.
End NestInd.

Definition flat1 {F} (e : elt F) : list (elt F) := match e with EEnriched es => es | _ => [e] end.

Lemma flat1_plain : forall F (e : elt F), plain e -> flat1 e = [e].
Proof. intros F [] H; simpl in *; try reflexivity. contradiction. Qed.

Lemma flat1_mk : forall F (es : list (elt F)), flat_map flat1 es <> [] ->
  (forall e, In e (flat_map flat1 es) -> plain e) -> flat1 (mk_enriched es) = flat_map flat1 es.
Proof.
  intros F es _ H. unfold mk_enriched. fold (@flat1 F). destruct (flat_map flat1 es) as [|x [|y r]].
  - reflexivity.
  - apply flat1_plain, H; left; reflexivity.
  - reflexivity.
Qed.

Lemma flat1_mk' : forall F (es : list (elt F)),
  (forall e, In e (flat_map flat1 es) -> plain e) -> flat1 (mk_enriched es) = flat_map flat1 es.
Proof.
  intros F es H. unfold mk_enriched. fold (@flat1 F). destruct (flat_map flat1 es) as [|x [|y r]].
  - reflexivity.
  - apply flat1_plain, H; left; reflexivity.
  - reflexivity.
Qed.

Lemma enrich_leaves : forall F (n : nest (elt F)), Forall plain (nest_leaves n) ->
  flat1 (enrich n) = nest_leaves n.
Proof.
  intros F n. induction n as [a|l IH] using nest_ind'; intros H; simpl in *.
  - apply flat1_plain. inversion H; assumption.
  - assert (E : flat_map flat1 (map enrich l) = flat_map nest_leaves l).
    { rewrite flat_map_map. apply flat_map_ext_in. intros x Hx.
      rewrite Forall_forall in IH. apply IH; [exact Hx|].
      rewrite Forall_forall in H |- *. intros a Ha. apply H. apply in_flat_map. exists x; auto. }
    rewrite flat1_mk'; [exact E|]. rewrite E. rewrite Forall_forall in H. exact H.
Qed.

Lemma flat1_all_plain : forall F (es : list (elt F)), Forall plain es -> flat_map flat1 es = es.
Proof.
  induction 1 as [|e es He H IH]; simpl; [reflexivity|]. rewrite flat1_plain by exact He. simpl. rewrite IH; reflexivity.
Qed.

Theorem enrich_flatten : forall F (l : list (nest (elt F))),
  Forall plain (flat_map nest_leaves l) ->
  enrich (NNode l) = mk_enriched (flat_map nest_leaves l) /\
  (forall e, flat_map nest_leaves l = [e] -> enrich (NNode l) = e) /\
  (length (flat_map nest_leaves l) <> 1 -> enrich (NNode l) = EEnriched (flat_map nest_leaves l)).
Proof.
  intros F l H.
  assert (E : flat_map flat1 (map enrich l) = flat_map nest_leaves l).
  { rewrite flat_map_map. apply flat_map_ext_in. intros x Hx. apply enrich_leaves.
    rewrite Forall_forall in H |- *. intros a Ha. apply H. apply in_flat_map. exists x; auto. }
  assert (M : enrich (NNode l) = match flat_map nest_leaves l with [e] => e | es => EEnriched es end).
  { cbn [enrich]. unfold mk_enriched. fold (@flat1 F). rewrite E. reflexivity. }
  split; [|split].
  - rewrite M. unfold mk_enriched. fold (@flat1 F). rewrite flat1_all_plain by exact H. reflexivity.
  - intros e He. rewrite M, He. reflexivity.
  - intros Hl. rewrite M. destruct (flat_map nest_leaves l) as [|x [|y r]]; [reflexivity | simpl in Hl; lia | reflexivity].
Qed.

(** Elements built by constructors never have an enriched summand. *)
Lemma built_enriched_plain : forall F (e : elt F), built e -> Forall plain (flat1 e).
Proof.
  assert (MK : forall F (es : list (elt F)), Forall (fun e => Forall plain (flat1 e)) es ->
     Forall plain (flat1 (mk_enriched es))).
  { intros F es H.
    assert (G : Forall plain (flat_map flat1 es)).
    { apply Forall_forall. intros x Hx. apply in_flat_map in Hx as (e & He & Hx).
      rewrite Forall_forall in H. specialize (H e He). rewrite Forall_forall in H. apply H; exact Hx. }
    rewrite flat1_mk'; [exact G|]. rewrite Forall_forall in G. exact G. }
  fix IH 3. intros F e H. destruct H as [l|fs e FB E|b s tr B|es FB|es e FB E|p e B E|e B|w e B E|w e B E].
  - repeat constructor.
  - unfold mk_tensor_product in E. apply bind_ok in E as (ss & _ & E). apply bind_ok in E as (v & _ & E).
    injection E as <-. repeat constructor.
  - repeat constructor.
  - apply MK. clear MK. induction FB as [|e es He FB IHF]; constructor; [apply IH; exact He | exact IHF].
  - clear FB IH. unfold mk_mixed in E. apply bind_ok in E as (ss & _ & E). apply bind_ok in E as (subs & Hs & E).
    injection E as <-. apply MK. apply mapM_ok in Hs.
    induction Hs as [|x y l l' Hxy Hs IHs]; constructor; [|exact IHs].
    unfold mk_mixed_sub in Hxy. apply bind_ok in Hxy as (? & _ & Hxy). apply bind_ok in Hxy as (? & _ & Hxy).
    apply bind_ok in Hxy as (? & _ & Hxy). injection Hxy as <-. repeat constructor.
  - unfold mk_flattened in E. apply bind_ok in E as (? & _ & E). injection E as <-. repeat constructor.
  - repeat constructor.
  - unfold mk_hdiv in E. repeat (apply bind_ok in E as (? & _ & E)). injection E as <-. repeat constructor.
  - unfold mk_hcurl in E. repeat (apply bind_ok in E as (? & _ & E)). injection E as <-. repeat constructor.
Qed.
