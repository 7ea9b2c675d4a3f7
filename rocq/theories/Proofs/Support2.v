(** Supports of trees of elements. *)
From Coq Require Import String List Arith Lia Bool ZArith Permutation Sorted Ring.
From Verif Require Import Model.Prelude Model.Cell Model.Element Model.EntityMaps Model.Gem Model.PointSet Model.Evaluation
  Model.Quadrature Model.Support.
From Verif Require Import Spec.Rowmajor Spec.EntityDofs Spec.Layout Spec.Tabulation Spec.Quadrature Spec.Support.
From Verif Require Import Proofs.Lists Proofs.Cells Proofs.EntityDofs Proofs.EntityDofs2 Proofs.Closure Proofs.Flatten
  Proofs.GemEval Proofs.Leaf Proofs.Factor Proofs.Sums Proofs.Tables Proofs.Tree Proofs.Single Proofs.TreePerms Proofs.Support.
Import ListNotations.
Open Scope fresh_scope.

(* ------------------------------------------------------------------ *)
(** ** Lists of dofs *)

Lemma sorted_app : forall a b, StronglySorted lt a -> StronglySorted lt b ->
  (forall x y, In x a -> In y b -> x < y) -> StronglySorted lt (a ++ b).
Proof.
  induction 1 as [|x a Sa IHa Hxa]; intros Sb Hab; [exact Sb|]. cbn [app]. constructor.
  - apply IHa; [exact Sb|]. intros; apply Hab; [right|]; assumption.
  - apply Forall_app. split; [exact Hxa|]. apply Forall_forall. intros y Hy. apply Hab; [left; reflexivity | exact Hy].
Qed.

Lemma sorted_shift : forall a l, StronglySorted lt l -> StronglySorted lt (map (fun v => a + v) l).
Proof.
  intros a. induction 1 as [|x l S IH H]; cbn [map]; constructor; [exact IH|].
  rewrite Forall_map. eapply Forall_impl; [|exact H]. intros; lia.
Qed.

Lemma ravel_cart_lt : forall shape ls, Forall2 (fun n l => forall v, In v l -> v < n) shape ls ->
  forall r, In r (cart ls) -> in_shape shape r.
Proof.
  intros shape ls H r Hr. apply in_cart in Hr. revert r Hr.
  induction H as [|n l shape ls B H IH]; intros r Hr; inversion Hr; subst; constructor; auto. apply IH; assumption.
Qed.

Lemma ravel_cart_sorted : forall shape ls,
  Forall2 (fun n l => StronglySorted lt l /\ forall v, In v l -> v < n) shape ls ->
  StronglySorted lt (map (ravel shape) (cart ls)).
Proof.
  induction 1 as [|n l shape ls [Sl Bl] H IH]; [repeat constructor|].
  assert (Bd : forall r, In r (cart ls) -> ravel shape r < prod shape).
  { intros r Hr. apply ravel_lt. eapply ravel_cart_lt; [|exact Hr].
    eapply Forall2_impl_in; [|exact H]. intros a b _ _ [_ B]. exact B. }
  cbn [cart]. clear Bl. induction Sl as [|x l Sl IHl Hx]; [constructor|].
  cbn [flat_map]. rewrite map_app. apply sorted_app; [|exact IHl|].
  - rewrite map_map. cbn [ravel].
    replace (map (fun r => x * prod shape + ravel shape r) (cart ls))
      with (map (fun v => x * prod shape + v) (map (ravel shape) (cart ls))) by (rewrite map_map; reflexivity).
    apply sorted_shift. exact IH.
  - intros a b Ha Hb. apply in_map_iff in Ha as (ra & <- & Ha). apply in_map_iff in Ha as (ra' & <- & Ha).
    apply in_map_iff in Hb as (rb & <- & Hb). apply in_flat_map in Hb as (y & Hy & Hb). apply in_map_iff in Hb as (rb' & <- & Hb).
    cbn [ravel]. assert (A := Bd _ Ha). rewrite Forall_forall in Hx. specialize (Hx _ Hy). nia.
Qed.

Definition bounded_by (n : nat) (d : edofs) : Prop := forall k i l v, has_dofs d k i l -> In v l -> v < n.

Definition product_lists (ns : list nat) (_ : list cell) (_ : list dimkey) (ls : list (list nat)) : list nat :=
  map (ravel ns) (cart ls).

Lemma productise_lists : forall (xs : list (cell * edict (list nat))) ns, xs <> [] -> Forall pfac_ok xs ->
  Forall2 (fun x n => bounded_by n (snd x)) xs ns ->
  productise (map (fun c => map fst (topology c)) (map fst xs)) ns (map snd xs) = Ok (pdict (product_lists ns) xs).
Proof.
  intros xs ns NE FO FB. unfold productise, pdict. apply mapM_all_ok. intros dim Hdim.
  apply in_pdims in Hdim. assert (L : length xs = length dim) by (eapply Forall2_length; eassumption).
  assert (G := Forall2_Forall_l _ _ _ _ _ _ FO Hdim).
  rewrite (mapM_zip _ _ _ _ _ snd (fun (x : cell * edict (list nat)) k => rowof (snd x) k)).
  2:{ eapply Forall2_impl_in; [|exact G]. intros x k _ _ [ok Hk]; simpl.
      eapply km_row; [apply topology_NoDup | exact ok | exact Hk]. }
  cbn [bind].
  replace (map (fun topd : list (nat * list nat) => sorted Nat.leb (map fst topd)) (map2 (fun (x : cell * edict (list nat)) k => rowof (snd x) k) xs dim))
    with (map (seq 0) (pcounts xs dim)).
  2:{ unfold pcounts. clear - G. induction G as [|x k xs dim [ok Hk] G IH]; simpl; [reflexivity|].
      rewrite IH. f_equal. symmetry. apply sorted_perm_seq.
      eapply km_count; [apply topology_NoDup | exact ok | exact Hk]. }
  rewrite (mapM_all_ok _ _ _ (fun ei => (ei, product_lists ns (map fst xs) dim (maps_at xs dim ei)))).
  2:{ intros ei Hei. apply in_cart_seq in Hei. assert (Hei0 := Hei). unfold in_shape, pcounts in Hei.
      rewrite map2_map, Forall2_map_l in Hei.
      rewrite (mapM_zip2 _ _ _ _ _ (fun (x : cell * edict (list nat)) k => rowof (snd x) k)
                (fun xk i => val_at [] (snd (fst xk)) (snd xk) i)); [|exact L|].
      2:{ apply Forall_zip in G as [_ G].
          assert (G' := Forall2_Forall_l _ _ _ _ _ _ G Hei).
          eapply Forall2_impl_in; [|exact G']. simpl. intros [x k] i _ _ [[ok Hk] Hi]; simpl in *.
          destruct (km_entry _ _ (topology_NoDup _) ok k i Hk Hi) as (l & Gl & _).
          unfold val_at, inrow_. rewrite Gl. reflexivity. }
      cbn [bind]. fold (maps_at xs dim ei).
      assert (IS : forall vs, In vs (cart (maps_at xs dim ei)) -> in_shape ns vs).
      { apply ravel_cart_lt. assert (M := maps_at_has xs dim ei FO Hdim Hei0).
        assert (Le : length ei = length xs).
        { rewrite <- (in_shape_length _ _ Hei0). unfold pcounts. apply map2_length. exact L. }
        assert (Lm : length (maps_at xs dim ei) = length xs).
        { unfold maps_at. rewrite map2_length; rewrite zip_length_eq; auto; lia. }
        revert M Lm. generalize (maps_at xs dim ei) as ms. clear - FB L Le.
        revert dim ei L Le. induction FB as [|x n xs ns B FB IH]; intros [|k dim] [|i ei] L Le [|m ms] M Lm; try discriminate; [constructor|].
        cbn [combine] in M. inversion M; subst. constructor; [|eapply IH; [| |eassumption|]; simpl in *; lia].
        intros v Hv. eapply B; [|exact Hv]. eassumption. }
      unfold product_lists.
      destruct (cart (maps_at xs dim ei)) as [|v0 vr] eqn:E; [reflexivity|].
      change ((do vs <- mapM (ravel_multi_index ns) (v0 :: vr) ;; Ok (ei, vs))
              = Ok (ei, map (ravel ns) (v0 :: vr))).
      rewrite (mapM_all_ok _ _ (ravel_multi_index ns) (ravel ns) (v0 :: vr)); [reflexivity|].
      intros vs Hvs. unfold ravel_multi_index. destruct ns as [|n ns]; [inversion FB; subst; exfalso; apply NE; reflexivity|].
      apply ravel_strides_ok. apply IS. exact Hvs. }
  cbn [bind]. rewrite sorted_id.
  - rewrite map_map. reflexivity.
  - rewrite cart_seq, map_map. apply StronglySorted_map_seq. intros i j _ Hij Hj. simpl.
    apply tuple_leb_ravel with (pcounts xs dim).
    + apply unravel_in_shape; lia.
    + apply unravel_in_shape; lia.
    + rewrite !ravel_unravel by lia. lia.
Qed.

(* ------------------------------------------------------------------ *)
(** ** Values of products *)

Section Values.
  Context {F : Type} (o : ops F).
  Context (R : ring_theory (f0 o) (f1 o) (fadd o) (fmul o) (fsub o) (fopp o) eq).
  Local Notation elt := (elt F).
  Local Notation nonzero := (nonzero_on o).
  Add Ring FRS : R.

  Lemma factor_nonzero : forall xs, fold_right (fmul o) (f1 o) xs <> f0 o -> Forall (fun x => x <> f0 o) xs.
  Proof using R.
    induction xs as [|x xs IH]; intros H; constructor; cbn [fold_right] in H.
    - intros ->. apply H. clear - R. ring.
    - apply IH. intros E. apply H. rewrite E. clear - R. ring.
  Qed.

  Lemma product_nonzero : forall xs, f1 o <> f0 o ->
    (forall x y, fmul o x y = f0 o -> x = f0 o \/ y = f0 o) ->
    Forall (fun x => x <> f0 o) xs -> fold_right (fmul o) (f1 o) xs <> f0 o.
  Proof using.
    intros xs H1 HD. induction 1 as [|x xs Hx H IH]; cbn [fold_right]; [exact H1|].
    intros E. apply HD in E as [E|E]; auto.
  Qed.

  Lemma concat_repeat : forall cs, concat (map (fun c => repeat 0 (spatial_dimension c)) cs) = repeat 0 (spatial_dimension (TPCell cs)).
  Proof using.
    intros cs. cbn [spatial_dimension].
    induction cs as [|c cs IH]; [reflexivity|]. cbn [map concat sum]. rewrite IH. symmetry. apply repeat_app.
  Qed.

  Lemma values_assemble : forall (fs : list elt) cs vss ks es ms, mapM cell_of fs = Ok cs -> mapM value_shape fs = Ok vss ->
    length ks = length fs -> length es = length fs -> in_shape (map space_dimension fs) ms ->
    Forall2 (fun f x => nonzero f (fst x) (snd x)) fs (combine (combine ks es) ms) ->
    exists pts vs xs, values_of o fs (map (fun c => repeat 0 (spatial_dimension c)) cs) (combine ks es) pts ms vs xs /\
      Forall (fun x => x <> f0 o) xs.
  Proof using.
    induction fs as [|f fs IH]; intros cs vss ks es ms Hc Hv Lk Le Hm H.
    - injection Hc as <-. destruct ks, es; try discriminate. inversion Hm; subst. exists [], [], []. split; constructor.
    - cbn [mapM] in Hc, Hv. apply bind_ok in Hc as (c & Hc & E). apply bind_ok in E as (cs' & Hcs & E). injection E as <-.
      apply bind_ok in Hv as (v & Hv & E). apply bind_ok in E as (vss' & Hvs & E). injection E as <-.
      destruct ks as [|k ks], es as [|i es]; try discriminate. inversion Hm as [|? m ? ms' Hm1 Hm2]; subst.
      cbn [combine] in H. inversion H as [|? ? ? ? H1 H2]; subst. cbn [fst snd] in H1.
      destruct (IH cs' vss' ks es ms' Hcs Hvs ltac:(simpl in *; lia) ltac:(simpl in *; lia) Hm2 H2) as (pts & vs & xs & HV & Hx).
      destruct H1 as (c1 & vs1 & pt & v1 & x & Hc1 & Hv1 & Lp & Sv & Vx & Nx).
      rewrite Hc in Hc1. injection Hc1 as <-. rewrite Hv in Hv1. injection Hv1 as <-.
      exists (pt :: pts), (v1 :: vs), (x :: xs). split; [|constructor; assumption].
      cbn [map combine]. econstructor; try eassumption. apply repeat_length.
  Qed.

  Lemma values_split : forall (fs : list elt) alphas ents pts is vs xs, values_of o fs alphas ents pts is vs xs ->
    Forall (Forall (eq 0)) alphas -> Forall (fun x => x <> f0 o) xs ->
    Forall2 (fun f x => nonzero f (fst x) (snd x)) fs (combine ents is).
  Proof using.
    induction 1 as [|f fs c s a alphas ent ents pt pts i is v vs x xs Hc Ha Hp Hi Hs Hv Hval _ IH]; intros Z NZ; [constructor|].
    inversion Z as [|? ? Z1 Z2]; inversion NZ as [|? ? N1 N2]; subst. cbn [combine]. constructor; [|apply IH; assumption].
    cbn [fst snd]. exists c, s, pt, v, x. repeat split; auto.
    replace (repeat 0 (spatial_dimension c)) with a; [exact Hval|].
    rewrite <- Ha. clear - Z1. induction Z1 as [|y l <- _ IH]; [reflexivity|]. cbn [length repeat]. f_equal. exact IH.
  Qed.

  Lemma product_nonzero_on : forall (fs : list elt) cs vss ks ns es ms,
    mapM cell_of fs = Ok cs -> mapM value_shape fs = Ok vss -> value_shape (ETensorProduct fs) = Ok (concat vss) ->
    Forall2 (fun c kn => In kn (topology c)) cs (combine ks ns) -> length ks = length ns -> in_shape ns es ->
    in_shape (map space_dimension fs) ms ->
    (nonzero (ETensorProduct fs) (DT ks, rowmajor ns es) (rowmajor (map space_dimension fs) ms) ->
       Forall2 (fun f x => nonzero f (fst x) (snd x)) fs (combine (combine ks es) ms)) /\
    (f1 o <> f0 o -> (forall x y, fmul o x y = f0 o -> x = f0 o \/ y = f0 o) ->
     Forall2 (fun f x => nonzero f (fst x) (snd x)) fs (combine (combine ks es) ms) ->
     nonzero (ETensorProduct fs) (DT ks, rowmajor ns es) (rowmajor (map space_dimension fs) ms)).
  Proof using R.
    intros fs cs vss ks ns es ms Hc Hv HV HT Ln He Hm.
    assert (Lc : length cs = length fs) by (eapply mapM_length; eassumption).
    assert (Lk : length ks = length cs) by (symmetry; eapply Forall2_combine_l; eassumption).
    assert (Les : length es = length ns) by (symmetry; apply in_shape_length; exact He).
    assert (HT' : Forall2 (fun f kn => exists c, cell_of f = Ok c /\ In kn (topology c)) fs (combine ks ns)).
    { apply mapM_ok in Hc. clear - Hc HT. revert HT. generalize (combine ks ns) as kns. 
      induction Hc as [|f c fs cs Hf Hc IH]; intros kns H; inversion H; subst; constructor; eauto. }
    split.
    - intros (c & vs & pt & v & x & Hc0 & Hvs0 & Lp & Sv & Vx & Nx).
      remember (DT ks, rowmajor ns es) as T eqn:ET. remember (rowmajor (map space_dimension fs) ms) as M eqn:EM.
      remember (repeat 0 (spatial_dimension c)) as A eqn:EA.
      inversion Vx as [|? alphas ks' es' ns' pts is vs' xs HVs HF' HL' HI' E1 E2 E3 E4 E5 E6 | | | | | | | | | | ]; subst. clear Vx.
      match goal with H : (DT ks', _) = _ |- _ => injection H as -> Eent end.
      assert (ns' = ns) as ->.
      { assert (G : forall n1, Forall2 (fun f kn => exists c, cell_of f = Ok c /\ In kn (topology c)) fs (combine ks n1) ->
                Forall2 (fun c kn => In kn (topology c)) cs (combine ks n1)).
        { intros n1. generalize (combine ks n1) as kns. apply mapM_ok in Hc. clear - Hc.
          induction Hc as [|f c fs cs Hf Hc IH]; intros kns H; inversion H as [|? ? ? ? (c' & Hc' & Hin) H2]; subst; constructor; [congruence | auto]. }
        eapply topologies_unique; [| |apply G; exact HF' | exact HT]; [exact HL' | exact Ln]. }
      apply rowmajor_inj in Eent as ->; [|assumption|assumption].
      destruct (values_parts o _ _ _ _ _ _ _ HVs) as (_ & _ & Sis & _).
      match goal with H : rowmajor _ is = rowmajor _ ms |- _ => apply rowmajor_inj in H as ->; [|assumption|assumption] end.
      eapply values_split; [exact HVs| |apply factor_nonzero; exact Nx].
      match goal with H : concat alphas = repeat 0 _ |- _ => rename H into EA end.
      apply Forall_forall. intros a Ha. apply Forall_forall. intros y Hy. symmetry. apply repeat_spec with (n := spatial_dimension c).
      rewrite <- EA. apply in_concat. exists a. auto.
    - intros H1 HD H.
      destruct (values_assemble fs cs vss ks es ms Hc Hv ltac:(lia) ltac:(lia) Hm H) as (pts & vs & xs & HVs & Hx).
      destruct (values_parts o _ _ _ _ _ _ _ HVs) as (_ & P2 & _ & P4).
      exists (TPCell cs), (concat vss), (concat pts), (concat vs), (fold_right (fmul o) (f1 o) xs).
      split; [cbn [cell_of]; rewrite Hc; reflexivity|]. split; [exact HV|]. split; [|split; [|split]].
      + cbn [fst]. assert (L : length ks = length es) by lia. clear - P2 L. revert es L pts P2.
        induction ks as [|k ks IH]; intros [|i es] L pts P2; try discriminate; inversion P2 as [|? p ? pts' Hp P3]; subst; [reflexivity|].
        cbn [concat]. rewrite app_length, (IH es) by (assumption || (simpl in L; lia)). cbn [fst] in Hp. rewrite Hp. reflexivity.
      + apply mapM_ok in Hv. clear - P4 Hv. revert vs P4. induction Hv as [|f s fs vss Hs Hv IH]; intros vs P4; inversion P4 as [|? v ? vs' (s' & Hs' & Hin) P4']; subst; [constructor|].
        cbn [concat]. apply in_shape_app; [congruence | apply IH; exact P4'].
      + rewrite <- concat_repeat. apply vo_product; assumption.
      + apply product_nonzero; assumption.
  Qed.

  (** *** Other nodes *)

  Lemma mixed_nonzero_on : forall (e : elt) sz off sh ent m, value_shape e = Ok sh -> off + prod sh <= sz ->
    (nonzero (EMixedSub e sz off) ent m <-> nonzero e ent m).
  Proof using.
    intros e sz off sh ent m Hsh Hle. split.
    - intros (c & vs & pt & v & x & Hc & _ & Lp & _ & Vx & Nx). cbn [cell_of] in Hc.
      inversion Vx as [| | | |? ? ? ? ? ? ? s1 v1 ? H1 S1 V1|? ? ? ? ? ? ? s1 c1 S1 C1 | | | | | | ]; subst; [|congruence].
      exists c, s1, pt, v1, x. repeat split; auto.
    - intros (c & vs & pt & v & x & Hc & Hv & Lp & Sv & Vx & Nx). rewrite Hsh in Hv. injection Hv as <-.
      exists c, [sz], pt, [off + rowmajor sh v], x. repeat split; auto.
      + constructor; [|constructor]. rewrite rowmajor_ravel by (apply in_shape_length; exact Sv).
        assert (A := ravel_lt _ _ Sv). lia.
      + apply vo_mixed_own; assumption.
  Qed.

  Lemma unflatten_total : forall c k j K I, unflatten_entity c (Some (k, j)) = Ok (K, I) -> dk_total K = k.
  Proof using.
    intros c k j K I H. apply unflatten_some in H. apply nth_error_In in H. apply ents_sorted_in in H as (H & _). exact H.
  Qed.

  Lemma flattened_nonzero_on : forall (p : elt) c h k j K I m, cell_of p = Ok c -> cell_of (EFlattened p) = Ok h ->
    unflatten_entity c (Some (k, j)) = Ok (K, I) ->
    (nonzero (EFlattened p) (DI k, j) m <-> nonzero p (K, I) m).
  Proof using.
    intros p c h k j K I m Hc Hh Hu.
    assert (Ed : spatial_dimension h = spatial_dimension c).
    { cbn [cell_of] in Hh. rewrite Hc in Hh. cbn [bind] in Hh.
      destruct (spatial_dimension c) as [|[|[|[|]]]]; try discriminate; injection Hh as <-; reflexivity. }
    assert (Et := unflatten_total _ _ _ _ _ Hu). split.
    - intros (c0 & vs & pt & v & x & Hc0 & Hv & Lp & Sv & Vx & Nx). rewrite Hh in Hc0. injection Hc0 as <-.
      inversion Vx as [| | | | | |? c' ? ? ? en ? ? ? ? Hc' Hu' H1| | | | | ]; subst.
      rewrite Hc in Hc'. injection Hc' as <-. rewrite Hu in Hu'. injection Hu' as <-.
      exists c, vs, pt, v, x. rewrite <- Ed. cbn [fst dk_total] in *. repeat split; auto.
    - intros (c0 & vs & pt & v & x & Hc0 & Hv & Lp & Sv & Vx & Nx). rewrite Hc in Hc0. injection Hc0 as <-.
      exists h, vs, pt, v, x. rewrite Ed. cbn [fst dk_total] in *. repeat split; auto; [congruence|].
      eapply vo_flattened; eassumption.
  Qed.

  Lemma enriched_nonzero_on : forall pre (e : elt) post c vs ent i,
    cell_of (EEnriched (pre ++ e :: post)) = Ok c -> value_shape (EEnriched (pre ++ e :: post)) = Ok vs ->
    cell_of e = Ok c -> value_shape e = Ok vs -> i < space_dimension e ->
    (nonzero (EEnriched (pre ++ e :: post)) ent (sum (map space_dimension pre) + i) <-> nonzero e ent i).
  Proof using.
    intros pre e post c vs ent i HC HV Hc Hv Hi. split.
    - intros (c0 & vs0 & pt & v & x & Hc0 & Hv0 & Lp & Sv & Vx & Nx). rewrite HC in Hc0. injection Hc0 as <-.
      rewrite HV in Hv0. injection Hv0 as <-. rewrite <- sum_fold in Vx.
      remember (fold_right Nat.add 0 (map space_dimension pre) + i) as N eqn:EN.
      remember (pre ++ e :: post) as L eqn:EL.
      inversion Vx as [| | |bef e1 aft ? ? ? i1 ? ? H1 L1| | | | | | | | ]; subst. clear Vx.
      match goal with H : bef ++ _ = pre ++ _ |- _ => rename H into EL end.
      match goal with H : _ + i1 = _ + i |- _ => rename H into EN end.
      destruct (block_unique _ space_dimension _ _ _ _ _ _ _ _ EL EN L1 Hi) as (_ & -> & ->).
      exists c, vs, pt, v, x. repeat split; auto.
    - intros (c0 & vs0 & pt & v & x & Hc0 & Hv0 & Lp & Sv & Vx & Nx). rewrite Hc in Hc0. injection Hc0 as <-.
      rewrite Hv in Hv0. injection Hv0 as <-. exists c, vs, pt, v, x. repeat split; auto.
      rewrite <- sum_fold. apply vo_enriched; assumption.
  Qed.

  (** The slots of an embedding are the components of the wrapped value and zeros. *)
  Definition slots_cover (vs : list nat) (slots : list slot) : Prop :=
    (forall k neg v, nth_error slots k = Some (SComp neg v) -> in_shape vs v) /\
    (forall v, in_shape vs v -> exists k neg, nth_error slots k = Some (SComp neg v)).

  Lemma pair_components : forall v, in_shape [2] v -> v = [0] \/ v = [1].
  Proof using.
    intros v H. inversion H as [|? i ? r Hi Hr]; subst. inversion Hr; subst. destruct i as [|[|]]; [left|right|lia]; reflexivity.
  Qed.

  Lemma hdiv_cover : forall k0 k1 m vs d slots, hdiv_case k0 k1 m vs d slots -> slots_cover vs slots /\ length slots = d.
  Proof using.
    intros k0 k1 m vs d slots H. split; [|inversion H; reflexivity]. split.
    - intros k neg v E. apply nth_error_In in E. inversion H; subst; cbn in E; repeat destruct E as [E|E]; try discriminate; try contradiction;
        injection E as _ <-; repeat constructor.
    - intros v Hv. inversion H; subst.
      + inversion Hv; subst. exists 0, true. reflexivity.
      + inversion Hv; subst. exists 1, false. reflexivity.
      + inversion Hv; subst. exists 2, false. reflexivity.
      + destruct (pair_components v Hv) as [-> | ->]; [exists 0, false | exists 1, false]; reflexivity.
      + destruct (pair_components v Hv) as [-> | ->]; [exists 1, true | exists 0, false]; reflexivity.
  Qed.

  Lemma hcurl_cover : forall k0 k1 m vs d slots, hcurl_case k0 k1 m vs d slots -> slots_cover vs slots /\ length slots = d.
  Proof using.
    intros k0 k1 m vs d slots H. split; [|inversion H; try reflexivity; rewrite app_length, repeat_length; cbn; lia]. split.
    - intros k neg v E. apply nth_error_In in E. inversion H; subst; cbn in E; try (apply in_app_or in E as [E|E]; [apply repeat_spec in E; discriminate|]);
        repeat destruct E as [E|E]; try discriminate; try contradiction; injection E as _ <-; repeat constructor.
    - intros v Hv. inversion H; subst.
      + inversion Hv; subst. exists 0, false. reflexivity.
      + inversion Hv; subst. match goal with |- context [repeat SZero ?n] => exists n, false; rewrite nth_error_app2, repeat_length, Nat.sub_diag by (rewrite repeat_length; lia) end. reflexivity.
      + destruct (pair_components v Hv) as [-> | ->]; [exists 0, false | exists 1, false]; reflexivity.
      + destruct (pair_components v Hv) as [-> | ->]; [exists 1, false | exists 0, true]; reflexivity.
  Qed.

  Lemma opp_nonzero : forall (neg : bool) x, (if neg then fopp o x else x) <> f0 o <-> x <> f0 o.
  Proof using R.
    intros [|] x; [|reflexivity]. split; intros H E; apply H.
    - rewrite E. clear - R. ring.
    - replace x with (fopp o (fopp o x)) by (clear - R; ring). rewrite E. clear - R. ring.
  Qed.

  Lemma hdiv_nonzero_on : forall (w : elt) slots ent m, embeds hdiv_case w slots ->
    (nonzero (EHDiv w) ent m <-> nonzero w ent m).
  Proof using R.
    intros w slots ent m Em. assert (Em' := Em). destruct Em' as (a & b & k0 & k1 & vs & c & _ & _ & _ & Hv & Hc & Hcase).
    destruct (hdiv_cover _ _ _ _ _ _ Hcase) as [[C1 C2] Ls]. split.
    - intros (c0 & vs0 & pt & v & x & Hc0 & Hv0 & Lp & Sv & Vx & Nx). cbn [cell_of] in Hc0. rewrite Hc in Hc0. injection Hc0 as <-.
      inversion Vx as [| | | | | | | |? s1 ? ? ? ? k N0|? s1 ? ? ? ? k ng v1 x1 Em1 N1 H1| | ]; subst; [congruence|].
      rewrite <- (embeds_fun _ _ _ _ hdiv_case_fun Em Em1) in N1. apply (proj1 (opp_nonzero ng x1)) in Nx.
      exists c, vs, pt, v1, x1. split; [exact Hc|]. split; [exact Hv|]. split; [exact Lp|]. split; [eapply C1; eassumption|]. split; assumption.
    - intros (c0 & vs0 & pt & v & x & Hc0 & Hv0 & Lp & Sv & Vx & Nx). rewrite Hc in Hc0. injection Hc0 as <-.
      rewrite Hv in Hv0. injection Hv0 as <-. destruct (C2 v Sv) as (k & ng & Nk).
      exists c, [spatial_dimension c], pt, [k], (if ng then fopp o x else x). split; [exact Hc|].
      split; [cbn [value_shape]; rewrite Hc; reflexivity|]. split; [exact Lp|]. split; [|split].
      + constructor; [|constructor]. rewrite <- Ls. apply nth_error_Some. congruence.
      + eapply vo_hdiv; eassumption.
      + apply opp_nonzero. exact Nx.
  Qed.

  Lemma hcurl_nonzero_on : forall (w : elt) slots ent m, embeds hcurl_case w slots ->
    (nonzero (EHCurl w) ent m <-> nonzero w ent m).
  Proof using R.
    intros w slots ent m Em. assert (Em' := Em). destruct Em' as (a & b & k0 & k1 & vs & c & _ & _ & _ & Hv & Hc & Hcase).
    destruct (hcurl_cover _ _ _ _ _ _ Hcase) as [[C1 C2] Ls]. split.
    - intros (c0 & vs0 & pt & v & x & Hc0 & Hv0 & Lp & Sv & Vx & Nx). cbn [cell_of] in Hc0. rewrite Hc in Hc0. injection Hc0 as <-.
      inversion Vx as [| | | | | | | | | |? s1 ? ? ? ? k N0|? s1 ? ? ? ? k ng v1 x1 Em1 N1 H1]; subst; [congruence|].
      rewrite <- (embeds_fun _ _ _ _ hcurl_case_fun Em Em1) in N1. apply (proj1 (opp_nonzero ng x1)) in Nx.
      exists c, vs, pt, v1, x1. split; [exact Hc|]. split; [exact Hv|]. split; [exact Lp|]. split; [eapply C1; eassumption|]. split; assumption.
    - intros (c0 & vs0 & pt & v & x & Hc0 & Hv0 & Lp & Sv & Vx & Nx). rewrite Hc in Hc0. injection Hc0 as <-.
      rewrite Hv in Hv0. injection Hv0 as <-. destruct (C2 v Sv) as (k & ng & Nk).
      exists c, [spatial_dimension c], pt, [k], (if ng then fopp o x else x). split; [exact Hc|].
      split; [cbn [value_shape]; rewrite Hc; reflexivity|]. split; [exact Lp|]. split; [|split].
      + constructor; [|constructor]. rewrite <- Ls. apply nth_error_Some. congruence.
      + eapply vo_hcurl; eassumption.
      + apply opp_nonzero. exact Nx.
  Qed.
End Values.

(* ------------------------------------------------------------------ *)
(** ** Concatenation *)

Section Blocks.
  Context {E A : Type} (size : E -> nat) (g : A -> list nat) (P : E -> list nat -> Prop).
  Context (PB : forall e l v, P e l -> In v l -> v < size e) (PS : forall e l, P e l -> StronglySorted lt l).

  Definition joined (a : nat) (es : list E) (ds : list A) : list nat :=
    flat_map (fun od => map (fun v => fst od + v) (g (snd od))) (zip (cumsum_from a (map size es)) ds).

  Lemma joined_in : forall es ds, Forall2 (fun e d => P e (g d)) es ds -> forall a m, In m (joined a es ds) ->
    exists pre e post d j, es = pre ++ e :: post /\ P e (g d) /\ In j (g d) /\ m = a + (sum (map size pre) + j).
  Proof using.
    induction 1 as [|e d es ds Hed H IH]; intros a m Hm; [destruct Hm|].
    unfold joined in Hm. cbn [map cumsum_from zip flat_map fst snd] in Hm. apply in_app_or in Hm as [Hm|Hm].
    - apply in_map_iff in Hm as (j & <- & Hj). exists [], e, es, d, j. auto.
    - destruct (IH _ _ Hm) as (pre & e' & post & d' & j & -> & He & Hj & ->).
      exists (e :: pre), e', post, d', j. split; [reflexivity|]. split; [exact He|]. split; [exact Hj|]. cbn [map sum]. lia.
  Qed.

  Lemma joined_has : forall es ds, Forall2 (fun e d => P e (g d)) es ds -> forall a pre e post, es = pre ++ e :: post ->
    exists d, P e (g d) /\ forall j, In j (g d) -> In (a + (sum (map size pre) + j)) (joined a es ds).
  Proof using.
    induction 1 as [|e d es ds Hed H IH]; intros a pre e' post Ee; [destruct pre; discriminate|].
    destruct pre as [|e0 pre]; cbn [app] in Ee; injection Ee as -> ->.
    - exists d. split; [exact Hed|]. intros j Hj. unfold joined. cbn [map cumsum_from zip flat_map fst snd sum].
      apply in_or_app. left. apply in_map. exact Hj.
    - destruct (IH (a + size e0) pre e' post eq_refl) as (d' & Hd' & Hj'). exists d'. split; [exact Hd'|]. intros j Hj.
      unfold joined. cbn [map cumsum_from zip flat_map fst snd sum]. apply in_or_app. right.
      replace (a + (size e0 + sum (map size pre) + j)) with (a + size e0 + (sum (map size pre) + j)) by lia. apply Hj'. exact Hj.
  Qed.

  Lemma joined_sorted : forall es ds, Forall2 (fun e d => P e (g d)) es ds -> forall a, StronglySorted lt (joined a es ds).
  Proof using PB PS.
    induction 1 as [|e d es ds Hed H IH]; intros a; [constructor|].
    unfold joined. cbn [map cumsum_from zip flat_map fst snd]. apply sorted_app.
    - apply sorted_shift. eapply PS; exact Hed.
    - apply IH.
    - intros x y Hx Hy. apply in_map_iff in Hx as (j & <- & Hj). apply (joined_in es ds H) in Hy as (pre & e' & post & d' & j' & _ & _ & _ & ->).
      assert (A1 := PB _ _ _ Hed Hj). lia.
  Qed.
End Blocks.

(* ------------------------------------------------------------------ *)
(** ** Trees *)

Section Trees.
  Context {F G : Type} (o : ops F).
  Context (R : ring_theory (f0 o) (f1 o) (fadd o) (fmul o) (fsub o) (fopp o) eq).
  Context (gtb : F -> F -> bool) (eps : F).
  Context (gl : cell -> nat -> list (list F) * list F).
  Context (sch : cell -> nat -> string -> result (list (list F) * list F)).
  Context (macro : cell -> bool).
  Context (leaf_eval : leaf F -> nat -> pset F -> option (dimkey * nat) -> option G -> fresh (list (list nat * gem F))).
  Context (sub_cell : cell -> dimkey -> cell).
  (** How certain it is that listed functions are nonzero, and whether all
      nonzero functions are listed. *)
  Context (N : Prop -> Prop) (N_ret : forall P : Prop, P -> N P) (N_bind : forall P Q : Prop, N P -> (P -> N Q) -> N Q).
  Context (C : Prop).
  Context (H1 : f1 o <> f0 o) (HD : forall x y, fmul o x y = f0 o -> x = f0 o \/ y = f0 o).
  Local Notation elt := (elt F).
  Local Notation support := (entity_support_dofs o gtb eps gl sch macro leaf_eval sub_cell).
  Local Notation nonzero := (nonzero_on o).
  Local Notation prepared := (prepared o leaf_eval).

  Definition good (e : elt) (ent : dimkey * nat) (l : list nat) : Prop :=
    StronglySorted lt l /\ (forall m, In m l -> m < space_dimension e /\ N (nonzero e ent m)) /\
    (C -> forall m, m < space_dimension e -> nonzero e ent m -> In m l).

  Definition answered (e : elt) (c : cell) (dd : edofs) : Prop :=
    keys_match (topology c) dd /\ forall k i l, has_dofs dd k i l -> good e (k, i) l.

  Definition answers (e : elt) : Prop := forall c vs, prepared e -> cell_of e = Ok c -> value_shape e = Ok vs ->
    forall n, exists dd n', support e n = Ok (dd, n') /\ n <= n' /\ answered e c dd.

  Lemma prepared_sub : forall e e' : elt, prepared e -> (forall s, subelt s e' -> subelt s e) ->
    (forall l, leaf_of l e' -> leaf_of l e) -> prepared e'.
  Proof using.
    intros e e' (A & B & D) Hs Hl. split; [intros s Hss; apply A, Hs, Hss|].
    split; [eapply shaped_sub; eassumption|]. intros l Hll. apply D, Hl, Hll.
  Qed.

  Lemma good_iff : forall (e e' : elt) ent ent' l, space_dimension e = space_dimension e' ->
    (forall m, nonzero e ent m <-> nonzero e' ent' m) -> good e' ent' l -> good e ent l.
  Proof using N_ret N_bind.
    intros e e' ent ent' l Ed Hi (S & A & B). split; [exact S|]. split.
    - intros m Hm. destruct (A m Hm) as [L H]. split; [lia|]. eapply N_bind; [exact H|]. intros H'. apply N_ret, Hi, H'.
    - intros HC m Hm H. apply B; [exact HC | lia | apply Hi, H].
  Qed.

  Lemma N_all : forall A B (P : A -> B -> Prop) xs ys, Forall2 (fun x y => N (P x y)) xs ys -> N (Forall2 P xs ys).
  Proof using N_ret N_bind.
    induction 1 as [|x y xs ys H H' IH]; [apply N_ret; constructor|].
    eapply N_bind; [exact H|]. intros Hx. eapply N_bind; [exact IH|]. intros Hr. apply N_ret. constructor; assumption.
  Qed.

  Lemma wrapper_answers : forall e e' : elt, (forall n, support e n = support e' n) -> cell_of e = cell_of e' ->
    space_dimension e = space_dimension e' ->
    (prepared e -> prepared e' /\ (exists vs, value_shape e' = Ok vs) /\
       forall ent m, nonzero e ent m <-> nonzero e' ent m) ->
    answers e' -> answers e.
  Proof using N_ret N_bind.
    intros e e' Es Ec Ed Hp HA c vs HP Hc Hv n. destruct (Hp HP) as (HP' & (vs' & Hv') & Hi).
    destruct (HA c vs' HP' ltac:(congruence) Hv' n) as (dd & n' & E & L & K & HG).
    exists dd, n'. split; [rewrite Es; exact E|]. split; [exact L|]. split; [exact K|]. intros k i l Hl.
    apply (good_iff e e' (k, i) (k, i)); [exact Ed | apply Hi | apply HG; exact Hl].
  Qed.

  Lemma mixed_answers : forall e sz off, answers e -> answers (EMixedSub e sz off).
  Proof using N_ret N_bind.
    intros e sz off. apply wrapper_answers; try reflexivity. intros HP.
    split; [eapply prepared_sub; [exact HP | intros; constructor; assumption | intros; constructor; assumption]|].
    destruct HP as (HC & _). destruct (HC _ (se_refl _)) as (sh & Hsh & Hle). split; [eauto|].
    intros ent m. eapply mixed_nonzero_on; eassumption.
  Qed.

  Lemma hdiv_answers : forall w, answers w -> answers (EHDiv w).
  Proof using N_ret N_bind R.
    intros w. apply wrapper_answers; try reflexivity. intros HP.
    split; [eapply prepared_sub; [exact HP | intros; constructor; assumption | intros; constructor; assumption]|].
    destruct HP as (_ & (_ & _ & _ & S4 & _) & _). destruct (S4 w (se_refl _)) as (slots & Em).
    split; [destruct Em as (? & ? & ? & ? & vs & ? & _ & _ & _ & Hv & _); eauto|]. intros. eapply hdiv_nonzero_on; [exact R | exact Em].
  Qed.

  Lemma hcurl_answers : forall w, answers w -> answers (EHCurl w).
  Proof using N_ret N_bind R.
    intros w. apply wrapper_answers; try reflexivity. intros HP.
    split; [eapply prepared_sub; [exact HP | intros; constructor; assumption | intros; constructor; assumption]|].
    destruct HP as (_ & (_ & _ & _ & _ & S5) & _). destruct (S5 w (se_refl _)) as (slots & Em).
    split; [destruct Em as (? & ? & ? & ? & vs & ? & _ & _ & _ & Hv & _); eauto|]. intros. eapply hcurl_nonzero_on; [exact R | exact Em].
  Qed.

  Lemma flattened_answers : forall p, answers p -> answers (EFlattened p).
  Proof using N_ret N_bind.
    intros p HA h vs HP Hh Hv n.
    assert (HP' : prepared p) by (eapply prepared_sub; [exact HP | intros; constructor; assumption | intros; constructor; assumption]).
    assert (Hh' := Hh). cbn [cell_of] in Hh'. apply bind_ok in Hh' as (c & Hc & Hh').
    destruct (HA c vs HP' Hc Hv n) as (dd & n' & E & L & K & HG).
    exists (flatten_entities dd), n'. cbn [entity_support_dofs]. rewrite (fbind_eq _ _ _ _ _ _ _ E).
    split; [reflexivity|]. split; [exact L|]. split.
    - replace h with (Hypercube (spatial_dimension c)) by (destruct (spatial_dimension c) as [|[|[|[|]]]]; try discriminate; injection Hh' as <-; reflexivity).
      apply flatten_keys_match; [|exact K]. destruct HP as (_ & ((_ & S) & _) & _). eapply S; [apply se_refl | exact Hc].
    - intros key i l Hl. destruct (proj1 (flatten_values [] c dd K) key i l Hl) as (k & KK & I & -> & Hu & Hd).
      apply (good_iff _ p _ (KK, I)); [reflexivity | | apply HG; exact Hd].
      intros m. eapply flattened_nonzero_on; eassumption.
  Qed.

  Lemma enriched_answers : forall es, Forall answers es -> answers (EEnriched es).
  Proof using N_ret N_bind.
    intros es IH c vs HP Hc Hv n. assert (Hc0 := Hc). assert (Hv0 := Hv).
    cbn [cell_of] in Hc. cbn [value_shape] in Hv.
    assert (Hc1 := Hc). apply bind_ok in Hc1 as (cs & Hcs & Hcu). apply bind_ok in Hv as (ss & Hss & Hv).
    destruct (unique_ok _ _ _ _ cell_eqb_spec Hcu) as [_ Hallc].
    destruct (unique_ok _ _ _ _ (list_eqb_spec _ _ nat_eqb_spec) Hv) as [_ Halls].
    assert (Hone : forall A (g : elt -> result A) l ys y, mapM g l = Ok ys -> Forall (eq y) ys -> forall e, In e l -> g e = Ok y).
    { intros A g l ys y E Ha e Hin. apply mapM_ok in E. clear -E Ha Hin. induction E as [|x z l ys Hx E IHE]; [destruct Hin|].
      inversion Ha; subst. destruct Hin as [<-|Hin]; [exact Hx | apply IHE; assumption]. }
    assert (Ec : forall e, In e es -> cell_of e = Ok c) by (eapply Hone; eassumption).
    assert (Ev : forall e, In e es -> value_shape e = Ok vs) by (eapply Hone; eassumption).
    destruct (mapF_ok _ _ support (fun e dd => answered e c dd) es) with (n := n) as (ds & n' & E & L & HF).
    { intros e He m. rewrite Forall_forall in IH. eapply (IH e He c vs); [|auto|auto].
      eapply prepared_sub; [exact HP | intros; econstructor; eassumption | intros; econstructor; eassumption]. }
    set (t := topology c). assert (tn : NoDup (map fst t)) by apply topology_NoDup.
    destruct (concat_fold_ok t (zip (cumsum0 (map space_dimension es)) ds) (empty_of t) tn (empty_keys t tn)) as (d & E' & km & _ & D).
    { unfold cumsum0. generalize 0 as a. clear - HF. induction HF as [|e dd es ds [K _] HF IH]; intros a; cbn [map cumsum_from zip]; constructor; auto. }
    exists d, n'. split.
    { cbn [entity_support_dofs]. cbn [bind] in Hc. unfold fbind, flift. rewrite Hc. cbn [bind]. rewrite E. unfold concatenate_entity_dofs.
      change (empty_dofs c) with (empty_of t). rewrite E'. reflexivity. }
    split; [exact L|]. split; [exact km|]. intros k i l Hl.
    apply (has_val_get [] t) in Hl as (Hk & Hi & El); [|exact tn | exact km].
    change (val_at [] d k i) with (dof_at d k i) in El. rewrite D, empty_dof_at in El. cbn [app] in El.
    change (l = joined space_dimension (fun dd => dof_at dd k i) 0 es ds) in El.
    assert (HF' : Forall2 (fun e dd => good e (k, i) (dof_at dd k i)) es ds).
    { eapply Forall2_impl_in; [|exact HF]. intros e dd _ _ [K HG]. apply HG. apply (has_val_get [] t); [exact tn | exact K|].
      split; [exact Hk|]. split; [|reflexivity].
      rewrite (km_count_eq t dd tn K k (cnt d k)); [exact Hi|]. apply km_count; assumption. }
    assert (PB : forall e l v, good e (k, i) l -> In v l -> v < space_dimension e) by (intros e l0 v (_ & A & _) Hin; apply A; exact Hin).
    rewrite El. split; [|split].
    - eapply (joined_sorted space_dimension _ (fun e l => good e (k, i) l)); [exact PB | intros e l0 HG; apply HG | exact HF'].
    - intros m Hm. apply (joined_in _ _ (fun e l => good e (k, i) l) es ds HF') in Hm as (pre & e & post & dd & j & Ee & HG & Hj & ->).
      assert (He : In e es) by (rewrite Ee; apply in_or_app; right; left; reflexivity). cbn [plus].
      destruct (proj1 (proj2 HG) j Hj) as [Lj Nj]. split.
      + rewrite Ee. unfold space_dimension at 2. cbn [dims fst]. rewrite map_app, sum_app. cbn [map sum]. 
        change (fst (dims e)) with (space_dimension e). change (fun x => fst (dims x)) with (@space_dimension F). lia.
      + eapply N_bind; [exact Nj|]. intros Hnz. apply N_ret. subst es.
        apply (enriched_nonzero_on o pre e post c vs (k, i) j); auto.
    - intros HC m Hm Hnz.
      assert (Hm' : m < sum (map space_dimension es)) by exact Hm.
      destruct (find_block _ _ _ _ Hm') as (pre & e & post & j & Ee & -> & Hj).
      assert (He : In e es) by (rewrite Ee; apply in_or_app; right; left; reflexivity).
      destruct (joined_has space_dimension _ (fun e l => good e (k, i) l) es ds HF' 0 pre e post Ee) as (dd & HG & Hin).
      apply (Hin j). apply (proj2 (proj2 HG) HC); [exact Hj|]. subst es.
      apply (enriched_nonzero_on o pre e post c vs (k, i) j) in Hnz; auto.
  Qed.

  Lemma entity_listed : forall c (d : edofs) k i l, keys_match (topology c) d -> has_dofs d k i l -> entity_of (topology c) (k, i).
  Proof using.
    intros c d k i l K H. apply (has_val_get [] (topology c)) in H as (Hk & Hi & _); [|apply topology_NoDup | exact K].
    exists (cnt d k). cbn [fst snd]. split; [|exact Hi]. apply km_count; [apply topology_NoDup | exact K | exact Hk].
  Qed.

  Lemma combine_inj : forall A B (a a' : list A) (b b' : list B), length a = length b -> length a' = length b' ->
    combine a b = combine a' b' -> a = a' /\ b = b'.
  Proof using.
    intros A B. induction a as [|x a IH]; intros [|x' a'] [|y b] [|y' b'] L L' E; try discriminate; [auto|].
    cbn [combine] in E. injection E as -> -> E. destruct (IH a' b b' ltac:(simpl in L; lia) ltac:(simpl in L'; lia) E) as [-> ->]. auto.
  Qed.

  Lemma product_answers : forall fs, Forall answers fs -> answers (ETensorProduct fs).
  Proof using R N_ret N_bind H1 HD.
    intros fs IH c vs HP Hc Hv n. assert (Hv0 := Hv).
    cbn [cell_of] in Hc. apply bind_ok in Hc as (cs & Hcs & Hc). injection Hc as <-.
    cbn [value_shape] in Hv. apply bind_ok in Hv as (ss & Hss & Hv). apply product_value_shape_concat in Hv as ->.
    assert (Hne : fs <> []) by (destruct HP as (_ & ((NE & _) & _) & _); apply (NE fs), se_refl).
    assert (HF : exists ds n', mapF support fs n = Ok (ds, n') /\ n <= n' /\ length ds = length fs /\
               Forall2 (fun f x => answered f (fst x) (snd x)) fs (combine cs ds)).
    { assert (HP' : forall f, In f fs -> prepared f).
      { intros f Hf. eapply prepared_sub; [exact HP | intros; econstructor; eassumption | intros; econstructor; eassumption]. }
      apply mapM_ok in Hcs, Hss. clear - IH HP' Hcs Hss. revert ss Hss n. induction Hcs as [|f c fs cs Hc Hcs IHf]; intros ss Hss n.
      - exists [], n. repeat split; [lia | constructor].
      - inversion Hss as [|? s ? ss' Hs Hss']; subst. inversion IH as [|? ? A1 A2]; subst.
        destruct (A1 c s (HP' f (or_introl eq_refl)) Hc Hs n) as (d & n1 & E & L & HA).
        destruct (IHf A2 (fun g Hg => HP' g (or_intror Hg)) ss' Hss' n1) as (ds & n2 & E' & L' & Ll & HF).
        exists (d :: ds), n2. cbn [mapF]. rewrite (fbind_eq _ _ _ _ _ _ _ E), (fbind_eq _ _ _ _ _ _ _ E').
        cbn [combine length]. repeat split; [lia | lia | constructor; assumption]. }
    destruct HF as (ds & n' & E & L & Ld & HF).
    assert (Lc : length cs = length fs) by (eapply mapM_length; eassumption).
    unfold edofs in *. set (xs := combine cs ds) in *.
    assert (M1 : map fst xs = cs) by (apply map_fst_combine; lia).
    assert (M2 : map snd xs = ds) by (apply map_snd_combine; lia).
    assert (Lx : length xs = length fs) by (rewrite <- Lc, <- M1, map_length; reflexivity).
    assert (FO : Forall pfac_ok xs).
    { apply Forall_forall. intros x Hx. clear - HF Hx. induction HF as [|f y fs ys [K _] HF IH]; [destruct Hx|].
      destruct Hx as [<-|Hx]; [exact K | auto]. }
    assert (FB : Forall2 (fun x n => bounded_by n (snd x)) xs (map space_dimension fs)).
    { apply Forall2_map_r. apply Forall2_flip. eapply Forall2_impl_in; [|exact HF]. intros f x _ _ [_ HG] k i l v Hl Hin.
      destruct (HG k i l Hl) as (_ & A & _). apply A. exact Hin. }
    assert (NE : xs <> []) by (intros E0; rewrite E0 in Lx; destruct fs; [congruence | discriminate]).
    set (tp := product_lists (map space_dimension fs)).
    exists (pdict tp xs), n'. split.
    { cbn [entity_support_dofs]. unfold fbind, flift. rewrite Hcs. cbn [bind]. unfold edofs in *. rewrite E.
      assert (EP := productise_lists xs _ NE FO FB). fold tp in EP. rewrite M1, M2 in EP.
      rewrite EP. reflexivity. }
    assert (KM := pdict_keys tp xs FO). rewrite M1 in KM.
    split; [exact L|]. split; [exact KM|]. intros K I l Hl.
    assert (Hent := entity_listed _ _ _ _ _ KM Hl).
    destruct (pdict_has tp xs K I l FO Hl) as (dim & ei & ms & -> & Hdim & Hfe & Lei & Lms & Hhas & ->).
    destruct (factor_entity_ok cs (Some (DT dim, I)) Hent) as (ks & ns & es & Een & Htop & Hl' & Hin & Hfe').
    cbn [entity_or_cell] in Een. injection Een as <- ->.
    assert (Ld' : length dim = length fs).
    { rewrite <- Lx. symmetry. eapply Forall2_length; exact Hdim. }
    rewrite M1, Hfe' in Hfe. injection Hfe as Hfe.
    assert (Les : length es = length ns) by (symmetry; apply in_shape_length; exact Hin).
    apply combine_inj in Hfe as [_ ->]; [| lia | lia].
    assert (HG : Forall2 (fun f kem => good f (fst kem) (snd kem)) fs (combine (combine dim ei) ms)).
    { clear - HF Hhas. revert Hhas. generalize (combine (combine dim ei) ms) as kem.
      induction HF as [|f x fs xs [_ HG] HF IH]; intros kem H; inversion H as [|? [[k i] m] ? ? Hx H']; subst; constructor; [|apply IH; assumption].
      cbn [fst snd] in *. apply HG. exact Hx. }
    assert (Sp : space_dimension (ETensorProduct fs) = prod (map space_dimension fs)) by reflexivity.
    unfold tp, product_lists.
    assert (HB : Forall2 (fun n l => StronglySorted lt l /\ forall v, In v l -> v < n) (map space_dimension fs) ms).
    { rewrite Forall2_map_l. clear - HG Ld' Lei Lms Lx. rewrite Lx in *. clear Lx xs cs ds. revert dim ei ms Ld' Lei Lms HG.
      induction fs as [|f fs IH]; intros [|k dim] [|i ei] [|m ms] L1 L2 L3 H; try discriminate; [constructor|].
      cbn [combine] in H. inversion H as [|? ? ? ? (S & A & _) H']; subst. constructor; [|eapply IH; [| | |exact H']; simpl in *; lia].
      split; [exact S|]. intros v Hv'. apply A. exact Hv'. }
    assert (HS : forall is, In is (cart ms) -> in_shape (map space_dimension fs) is).
    { apply ravel_cart_lt. eapply Forall2_impl_in; [|exact HB]. intros a b _ _ [_ A]. exact A. }
    rewrite <- (rowmajor_ravel ns ei) by (apply in_shape_length; exact Hin).
    split; [apply ravel_cart_sorted; exact HB|]. split.
    - intros m Hm. apply in_map_iff in Hm as (is & <- & His). assert (Sis := HS is His).
      split; [rewrite Sp; apply ravel_lt; exact Sis|].
      rewrite <- rowmajor_ravel by (apply in_shape_length; exact Sis).
      destruct (product_nonzero_on o R fs cs ss dim ns ei is Hcs Hss Hv0 Htop Hl' Hin Sis) as [_ Hback].
      eapply N_bind; [|intros Hall; apply N_ret, (Hback H1 HD); exact Hall].
      apply N_all. apply in_cart in His. clear - HG His Ld' Lei Lx. rewrite Lx in *. clear Lx xs cs ds. revert dim ei Ld' Lei ms HG is His.
      induction fs as [|f fs IH]; intros [|k dim] [|i ei] L1 L2 ms H is His; try discriminate; [constructor|].
      inversion His as [|v l is' ms' Hv His']; subst; cbn [combine] in H |- *; inversion H as [|? ? ? ? (_ & A & _) H']; subst.
      constructor; [apply A; exact Hv|]. eapply IH; [| |exact H' | exact His']; simpl in *; lia.
    - intros HC m Hm Hnz. rewrite Sp in Hm. destruct (ravel_onto _ m Hm) as (is & Sis & <-).
      apply in_map_iff. exists is. split; [reflexivity|]. apply in_cart.
      rewrite <- rowmajor_ravel in Hnz by (apply in_shape_length; exact Sis).
      destruct (product_nonzero_on o R fs cs ss dim ns ei is Hcs Hss Hv0 Htop Hl' Hin Sis) as [Hforth _].
      specialize (Hforth Hnz). clear - HG Hforth HC Ld' Lei Lms Lx Sis. rewrite Lx in *. clear Lx xs cs ds.
      revert dim ei Ld' Lei ms Lms HG is Sis Hforth.
      induction fs as [|f fs IH]; intros [|k dim] [|i ei] L1 L2 [|l ms] L3 H is Sis Hz; try discriminate; inversion Sis; subst; [constructor|].
      cbn [combine] in H, Hz. inversion H as [|? ? ? ? (_ & _ & B) H']; subst. inversion Hz as [|? ? ? ? Z1 Z2]; subst.
      cbn [fst snd] in *. constructor; [apply B; assumption|]. eapply IH; [| | |exact H' | eassumption | exact Z2]; simpl in *; lia.
  Qed.

  Theorem tree_answers : forall e : elt, (forall b, base_of b e -> answers b) -> answers e.
  Proof using R N_ret N_bind H1 HD.
    induction e as [l|fs IH|b sh t IH|es IH|e sz off IH|e IH|e IH|e IH|e IH] using elt_ind'; intros HB.
    - apply HB. constructor.
    - apply product_answers. rewrite Forall_forall in *. intros f Hf. apply (IH f Hf). intros b Hb. apply HB. econstructor; eassumption.
    - apply HB. constructor.
    - apply enriched_answers. rewrite Forall_forall in *. intros f Hf. apply (IH f Hf). intros b Hb. apply HB. econstructor; eassumption.
    - apply mixed_answers, IH. intros b Hb. apply HB. constructor. exact Hb.
    - apply flattened_answers, IH. intros b Hb. apply HB. constructor. exact Hb.
    - apply HB. constructor.
    - apply hdiv_answers, IH. intros b Hb. apply HB. constructor. exact Hb.
    - apply hcurl_answers, IH. intros b Hb. apply HB. constructor. exact Hb.
  Qed.
End Trees.
