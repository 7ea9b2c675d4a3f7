(** Entities and point sets of products, seen by the factors. *)
From Coq Require Import String List Arith Lia Bool.
From Verif Require Import Model.Prelude Model.Cell Model.Element Model.EntityMaps Model.Gem Model.PointSet Model.Evaluation.
From Verif Require Import Spec.Rowmajor Spec.EntityDofs Spec.Layout Spec.Tabulation.
From Verif Require Import Proofs.Lists Proofs.Cells Proofs.Cubes Proofs.EntityDofs Proofs.Flatten Proofs.Tables Proofs.Leaf.
Import ListNotations.

Lemma prod_same : forall l, fold_right Nat.mul 1 l = prod l.
Proof. reflexivity. Qed.

(* ------------------------------------------------------------------ *)
(** ** Entities of product cells *)

Lemma in_product_topology : forall ts k n, In (k, n) (product_topology ts) <->
  exists ks ns, k = DT ks /\ n = prod ns /\ length ks = length ns /\
    Forall2 (fun t kn => In kn t) ts (combine ks ns).
Proof.
  intros ts k n. unfold product_topology. rewrite in_map_iff. split.
  - intros (kns & E & Hin). injection E as <- <-. apply in_cart in Hin.
    exists (map fst kns), (map snd kns). split; [reflexivity|]. split; [reflexivity|].
    split; [rewrite !map_length; reflexivity|].
    replace (combine (map fst kns) (map snd kns)) with kns.
    + apply Forall2_flip in Hin. exact Hin.
    + clear. induction kns as [|[a b] r IH]; simpl; [reflexivity | rewrite <- IH; reflexivity].
  - intros (ks & ns & -> & -> & Hl & H). exists (combine ks ns). split.
    + f_equal; [f_equal|f_equal]; clear H; revert ns Hl; induction ks as [|k ks IH]; intros [|m ns] Hl; try discriminate; simpl; try reflexivity;
        f_equal; apply IH; simpl in Hl; lia.
    + apply in_cart. apply Forall2_flip. exact H.
Qed.

Lemma Forall2_combine_l : forall A B C (P : A -> B * C -> Prop) xs ks ns, Forall2 P xs (combine ks ns) -> length ks = length ns ->
  length xs = length ks.
Proof.
  intros A B C P xs ks ns H Hl. apply Forall2_length in H. rewrite combine_length, Hl, Nat.min_id in H. congruence.
Qed.

Lemma topology_unique : forall c k n m, In (k, n) (topology c) -> In (k, m) (topology c) -> n = m.
Proof.
  intros c k n m H1 H2. pose proof (topology_NoDup c) as N.
  pose proof (dict_in_get _ dimkey_eqb_spec (topology c) k n N H1) as E1.
  pose proof (dict_in_get _ dimkey_eqb_spec (topology c) k m N H2) as E2. congruence.
Qed.

Lemma topologies_unique : forall cs ks ns ms, length ks = length ns -> length ks = length ms ->
  Forall2 (fun c kn => In kn (topology c)) cs (combine ks ns) ->
  Forall2 (fun c kn => In kn (topology c)) cs (combine ks ms) -> ns = ms.
Proof.
  induction cs as [|c cs IH]; intros [|k ks] [|n ns] [|m ms] L1 L2 H1 H2; try discriminate; try reflexivity; simpl in H1; inversion H1; inversion H2; subst.
  f_equal; [eapply topology_unique; eassumption|].
  simpl in *. eapply IH with (ks := ks); eauto.
Qed.

Lemma factor_entity_ok : forall cs ent,
  entity_of (topology (TPCell cs)) (entity_or_cell (TPCell cs) ent) ->
  exists ks ns es, entity_or_cell (TPCell cs) ent = (DT ks, ravel ns es) /\
    Forall2 (fun c kn => In kn (topology c)) cs (combine ks ns) /\
    length ks = length ns /\ in_shape ns es /\ factor_entity cs ent = Ok (combine ks es).
Proof.
  intros cs ent (n & Hin & Hlt). unfold factor_entity.
  assert (E : match ent with None => (get_dimension (TPCell cs), 0) | Some x => x end = entity_or_cell (TPCell cs) ent)
    by (destruct ent; reflexivity).
  rewrite E. destruct (entity_or_cell (TPCell cs) ent) as [k i]. cbn [fst snd] in *.
  cbn [topology] in Hin. apply in_product_topology in Hin as (ks & ns & -> & -> & Hl & H).
  rewrite Forall2_map_l in H. exists ks, ns, (unravel_digits ns i).
  split; [rewrite ravel_unravel by exact Hlt; reflexivity|]. split; [exact H|]. split; [exact Hl|].
  split; [apply unravel_in_shape; exact Hlt|].
  rewrite (Forall2_combine_l _ _ _ _ _ _ _ H Hl), Nat.eqb_refl. cbn [guard bind].
  assert (Hm : mapM (fun cd => dict_get dimkey_eqb (topology (fst cd)) (snd cd)) (zip cs ks) = Ok ns).
  { clear Hlt E. revert ns Hl H. revert ks. induction cs as [|c cs IH]; intros [|k ks] [|m ns] Hl H; try discriminate; simpl in H; inversion H; subst; [reflexivity|].
    cbn [zip mapM fst snd].
    rewrite (dict_in_get _ dimkey_eqb_spec (topology c) k m (topology_NoDup c)) by assumption. cbn [bind].
    rewrite (IH ks ns) by (trivial; simpl in Hl; lia). reflexivity. }
  rewrite Hm. cbn [bind]. unfold unravel_index. apply Nat.ltb_lt in Hlt. rewrite Hlt. cbn [bind].
  rewrite zip_combine. reflexivity.
Qed.

(* ------------------------------------------------------------------ *)
(** ** Point sets *)

Section PointSets.
  Context {F : Type}.

  Lemma pt_at_in : forall (ps : pset F) pts, ps_ok ps -> ps_points ps = Ok pts ->
    forall env, env_ok ps env -> In (pt_at ps env) pts.
  Proof.
    intros ps pts Hok E env He. destruct (ps_points_ok ps Hok) as (pts' & E' & _ & _ & _ & H).
    rewrite E in E'. injection E' as <-. eapply nth_error_In. apply H. exact He.
  Qed.

  Lemma pt_at_length : forall (ps : pset F) env, ps_ok ps -> env_ok ps env -> length (pt_at ps env) = psdim ps.
  Proof.
    intros ps env Hok He. destruct (ps_points_ok ps Hok) as (pts & E & _ & _ & Hd & _).
    apply Hd. eapply pt_at_in; eassumption.
  Qed.

  Lemma ps_dimension_ok : forall ps : pset F, ps_ok ps -> ps_dimension ps = Ok (psdim ps).
  Proof.
    intros ps Hok. destruct (ps_points_ok ps Hok) as (pts & E & _ & Hne & Hd & _).
    destruct ps as [pt|s N D i|k D q ixs|qs]; try reflexivity.
    unfold ps_dimension. rewrite E. cbn [bind]. destruct pts as [|p r]; [congruence|].
    rewrite Hd by (left; reflexivity). reflexivity.
  Qed.

  Lemma psdim_sum : forall qs : list (pset F), psdim (PTensor qs) = sum (map psdim qs).
  Proof. reflexivity. Qed.

  Lemma env_ok_sub : forall (ps q : pset F) env, incl (ps_indices q) (ps_indices ps) -> env_ok ps env -> env_ok q env.
  Proof. intros ps q env H He i Hi. apply He, H, Hi. Qed.

  Lemma concat_nth_seq : forall A (L : list (list A)) n, length L = n ->
    concat (map (fun k => nth k L []) (seq 0 n)) = concat L.
  Proof.
    intros A L n <-. f_equal. apply nth_ext with (d := []) (d' := []); rewrite map_length, seq_length; [reflexivity|].
    intros k Hk. rewrite nth_map_seq by exact Hk. reflexivity.
  Qed.

  Lemma split_slices_length : forall A dims (l : list A), length (split_slices dims l) = length dims.
  Proof. induction dims as [|d dims IH]; intros l; simpl; [reflexivity | rewrite IH; reflexivity]. Qed.

  Lemma split_slices_nth_length : forall A dims (l : list A) k, length l = sum dims -> k < length dims ->
    length (nth k (split_slices dims l) []) = nth k dims 0.
  Proof.
    intros A dims l k Hl Hk. destruct (split_slices_spec A dims l Hl) as [_ H].
    exact (Forall2_nth _ _ _ _ _ k 0 [] H Hk).
  Qed.

  (** What the factors get to see. *)
  Definition seen_by (ps : pset F) (dims : list nat) (pss : list (pset F)) : Prop :=
    Forall ps_ok pss /\ map psdim pss = dims /\
    (forall q, In q pss -> incl (ps_indices q) (ps_indices ps)) /\
    forall env, env_ok ps env -> concat (map (fun q => pt_at q env) pss) = pt_at ps env.

  Lemma map_nth_seq : forall (dims : list nat), map (fun k => nth k dims 0) (seq 0 (length dims)) = dims.
  Proof.
    intros dims. apply nth_ext with (d := 0) (d' := 0); rewrite map_length, seq_length; [reflexivity|].
    intros k Hk. rewrite nth_map_seq by exact Hk. reflexivity.
  Qed.

  (** Slicing the coordinates of the points. *)
  Lemma slice_seen : forall ps dims pts kd, ps_ok ps -> ps_points ps = Ok pts -> psdim ps = sum dims ->
    seen_by ps dims (map (fun k => PPoints kd (nth k dims 0)
                        (map (fun p => nth k (split_slices dims p) []) pts) (ps_indices ps)) (seq 0 (length dims))).
  Proof.
    intros ps dims pts kd Hok E Hd.
    destruct (ps_points_ok ps Hok) as (pts' & E' & Hlen & Hne & Hdim & Hn). rewrite E in E'. injection E' as <-.
    split; [|split; [|split]].
    - apply Forall_forall. intros q Hq. apply in_map_iff in Hq as (k & <- & Hk). apply in_seq in Hk.
      constructor.
      + destruct pts; [congruence | discriminate].
      + rewrite map_length. rewrite prod_same. symmetry. exact Hlen.
      + intros p Hp. apply in_map_iff in Hp as (p' & <- & Hp'). apply split_slices_nth_length; [|lia].
        rewrite (Hdim p' Hp'). exact Hd.
    - rewrite map_map. cbn [psdim]. apply map_nth_seq.
    - intros q Hq. apply in_map_iff in Hq as (k & <- & Hk). cbn [ps_indices]. apply incl_refl.
    - intros env He. rewrite map_map. cbn [pt_at].
      pose proof (env_ok_in_shape ps env He) as Hin. pose proof (ravel_lt _ _ Hin) as Hlt. rewrite <- Hlen in Hlt.
      rewrite rowmajor_ravel by (rewrite !map_length; reflexivity).
      fold (extents ps). fold (values ps env).
      set (p := pt_at ps env).
      assert (Hp : nth (ravel (extents ps) (values ps env)) pts [] = p) by (apply nth_error_nth; apply Hn; exact He).
      assert (Hmap : forall k, nth (ravel (extents ps) (values ps env)) (map (fun p => nth k (split_slices dims p) []) pts) []
                     = nth k (split_slices dims p) []).
      { intros k. rewrite (nth_indep _ _ (nth k (split_slices dims []) [])) by (rewrite map_length; exact Hlt).
        rewrite (map_nth (fun p => nth k (split_slices dims p) [])). rewrite Hp. reflexivity. }
      erewrite map_ext; [|exact Hmap].
      rewrite concat_nth_seq by (rewrite split_slices_length; reflexivity).
      apply (split_slices_spec F dims p). unfold p. rewrite pt_at_length by assumption. exact Hd.
  Qed.

  Lemma singleton_seen : forall (pt : list F) dims, length pt = sum dims ->
    seen_by (PSingleton pt) dims (map PSingleton (split_slices dims pt)).
  Proof.
    intros pt dims Hl. destruct (split_slices_spec F dims pt Hl) as [E H].
    split; [|split; [|split]].
    - apply Forall_forall. intros q Hq. apply in_map_iff in Hq as (p & <- & _). constructor.
    - rewrite map_map. cbn [psdim]. clear E Hl. induction H as [|d x dims xs Hx H IH]; [reflexivity|].
      cbn [map]. rewrite Hx, IH. reflexivity.
    - intros q Hq. apply in_map_iff in Hq as (p & <- & _). intros i [].
    - intros env _. rewrite map_map. cbn [pt_at]. rewrite map_id. exact E.
  Qed.

  Lemma tensor_seen : forall (qs : list (pset F)), Forall ps_ok qs -> seen_by (PTensor qs) (map psdim qs) qs.
  Proof.
    intros qs H. split; [exact H|]. split; [reflexivity|]. split.
    - intros q Hq i Hi. cbn [ps_indices]. apply in_flat_map. exists q. split; assumption.
    - reflexivity.
  Qed.
End PointSets.

(* ------------------------------------------------------------------ *)
(** ** Legal requests, seen by the parts *)

Section Fits.
  Context {F : Type}.
  Local Notation elt := (elt F).

  (** A point set without structure fits everywhere if its dimension does. *)
  Definition loose (ps : pset F) : Prop :=
    match ps with PSingleton _ | PPoints _ _ _ _ => True | _ => False end.

  Lemma loose_fits : forall (e : elt) ent ps, loose ps -> psdim ps = dk_total (fst ent) -> fits e ent ps.
  Proof. intros e ent [pt|s N D i|k D q ixs|qs] H Hd; try destruct H; constructor; exact Hd. Qed.

  Lemma fits_tensor : forall b sh tr ent ps, fits (ETensor b sh tr : elt) ent ps -> fits b ent ps.
  Proof. intros b sh tr ent ps H. inversion H; subst; try assumption; constructor; assumption || reflexivity. Qed.
  Lemma fits_enriched : forall es ent ps (e : elt), fits (EEnriched es) ent ps -> In e es -> fits e ent ps.
  Proof. intros es ent ps e H Hin. inversion H; subst; auto; constructor; assumption || reflexivity. Qed.
  Lemma fits_mixed : forall e sz off ent ps, fits (EMixedSub e sz off : elt) ent ps -> fits e ent ps.
  Proof. intros e sz off ent ps H. inversion H; subst; try assumption; constructor; assumption || reflexivity. Qed.
  Lemma fits_discontinuous : forall e ent ps, fits (EDiscontinuous e : elt) ent ps -> fits e ent ps.
  Proof. intros e ent ps H. inversion H; subst; try assumption; constructor; assumption || reflexivity. Qed.
  Lemma fits_hdiv : forall e ent ps, fits (EHDiv e : elt) ent ps -> fits e ent ps.
  Proof. intros e ent ps H. inversion H; subst; try assumption; constructor; assumption || reflexivity. Qed.
  Lemma fits_hcurl : forall e ent ps, fits (EHCurl e : elt) ent ps -> fits e ent ps.
  Proof. intros e ent ps H. inversion H; subst; try assumption; constructor; assumption || reflexivity. Qed.

  Lemma unflatten_total : forall c k j K I, unflatten_entity c (Some (k, j)) = Ok (K, I) ->
    dk_total K = k /\ entity_of (topology c) (K, I).
  Proof.
    intros c k j K I H. apply unflatten_some in H. apply nth_error_In in H. apply ents_sorted_in in H. exact H.
  Qed.

  Lemma fits_flattened : forall p c k j ent ps, cell_of p = Ok c -> unflatten_entity c (Some (k, j)) = Ok ent ->
    fits (EFlattened p : elt) (DI k, j) ps -> fits p ent ps.
  Proof.
    intros p c k j [K I] ps Hc Hu H. destruct (unflatten_total _ _ _ _ _ Hu) as [Ht _].
    inversion H as [ | | | | | | | |? c' ? ? ent' ? Hc' Hu' Hf| | | ]; subst; try (constructor; cbn [fst dk_total] in *; congruence).
    rewrite Hc in Hc'. injection Hc' as <-. rewrite Hu in Hu'. injection Hu' as <-. exact Hf.
  Qed.

  (** The dimension of a point set that fits. *)
  Lemma fits_dim : forall (e : elt) c ent ps, cell_of e = Ok c -> fits e ent ps -> psdim ps = dk_total (fst ent).
  Proof.
    intros e. induction e as [l|fs IH|b s t IH|es IH|e s o IH|e IH|e IH|e IH|e IH] using elt_ind'; intros c ent ps Hc H.
    - inversion H; subst; auto.
    - inversion H as [ | | |? ks es ns qs Hf Hl Hi He| | | | | | | | ]; subst; auto.
      cbn [fst psdim]. rewrite dk_total_DT. cbn [cell_of] in Hc. apply bind_ok in Hc as (cs & Hcs & _). apply mapM_ok in Hcs.
      assert (Hlen : length ks = length es) by (rewrite Hl; apply in_shape_length; exact Hi).
      clear H Hf Hi Hl ns. revert ks es qs Hlen He cs Hcs. induction fs as [|f fs IHfs]; intros ks es qs Hlen He cs Hcs.
      + inversion He; subst. destruct ks, es; try discriminate. reflexivity.
      + inversion IH as [|? ? H1 H2]; subst. inversion Hcs as [|? c0 ? cs' Hc0 Hcs']; subst.
        destruct ks as [|k ks], es as [|i es]; try discriminate; simpl in He; inversion He; subst.
        cbn [map fold_right sum]. rewrite (H1 c0 (k, i) q) by assumption. cbn [fst]. f_equal.
        eapply IHfs; eauto.
    - eapply IH; [exact Hc | eapply fits_tensor; exact H].
    - inversion H as [ | | | | | |? ? ? Hall| | | | | ]; subst; auto. cbn [cell_of] in Hc.
      apply bind_ok in Hc as (cs & Hcs & Hu). destruct es as [|e es]; [injection Hcs as <-; discriminate|].
      inversion IH as [|? ? H1 H2]; subst. apply mapM_ok in Hcs. inversion Hcs; subst.
      eapply H1; [eassumption | apply Hall; left; reflexivity].
    - eapply IH; [exact Hc | eapply fits_mixed; exact H].
    - cbn [cell_of] in Hc. apply bind_ok in Hc as (cp & Hcp & _).
      inversion H as [ | | | | | | | |? c' k j [K I] ? Hc' Hu' Hf| | | ]; subst; auto.
      cbn [fst dk_total]. destruct (unflatten_total _ _ _ _ _ Hu') as [<- _]. exact (IH _ _ _ Hc' Hf).
    - eapply IH; [exact Hc | eapply fits_discontinuous; exact H].
    - eapply IH; [exact Hc | eapply fits_hdiv; exact H].
    - eapply IH; [exact Hc | eapply fits_hcurl; exact H].
  Qed.

  Lemma fits_each_Forall2 : forall (fs : list elt) ents qs, fits_each fs ents qs ->
    length fs = length qs /\ Forall2 (fun f x => fits f (snd x) (fst x)) fs (combine qs ents) /\ length ents = length qs.
  Proof.
    induction 1 as [|f fs ent ents q qs Hf H (L1 & IH & L2)]; [repeat split; constructor|].
    split; [simpl; lia|]. split; [constructor; assumption | simpl; lia].
  Qed.

  Lemma loose_slices : forall (fs : list elt) pss ents, length fs = length pss -> length pss = length ents ->
    Forall loose pss -> map psdim pss = map (fun x => dk_total (fst x)) ents ->
    Forall2 (fun f x => fits f (snd x) (fst x)) fs (combine pss ents).
  Proof.
    induction fs as [|f fs IH]; intros [|q pss] [|x ents] L1 L2 H E; try discriminate; cbn [combine]; constructor.
    - inversion H; subst. cbn [fst snd]. apply loose_fits; [assumption|]. cbn [map] in E. congruence.
    - inversion H; subst. cbn [map] in E. apply IH; simpl in *; try lia; [assumption | congruence].
  Qed.

  (** The point sets handed to the factors of a product. *)
  Lemma factor_point_set_ok : forall (fs : list elt) cs ks ns es ps,
    mapM cell_of fs = Ok cs -> Forall2 (fun c kn => In kn (topology c)) cs (combine ks ns) ->
    length ks = length ns -> in_shape ns es -> ps_ok ps ->
    fits (ETensorProduct fs) (DT ks, ravel ns es) ps ->
    exists pss, factor_point_set (map dk_total ks) ps = Ok pss /\ length pss = length fs /\
      seen_by ps (map dk_total ks) pss /\
      Forall2 (fun f x => fits f (snd x) (fst x)) fs (combine pss (combine ks es)).
  Proof.
    intros fs cs ks ns es ps Hcs Htop Hl Hin Hok Hfit.
    assert (Hce : cell_of (ETensorProduct fs) = Ok (TPCell cs)) by (cbn [cell_of]; rewrite Hcs; reflexivity).
    pose proof (fits_dim _ _ _ _ Hce Hfit) as Hdim. cbn [fst] in Hdim. rewrite dk_total_DT in Hdim.
    pose proof (ps_dimension_ok ps Hok) as Hpd.
    assert (Lc : length fs = length ks).
    { rewrite <- (mapM_length _ _ _ _ _ Hcs). eapply Forall2_combine_l; eassumption. }
    assert (Le : length ks = length es) by (rewrite Hl; apply in_shape_length; exact Hin).
    assert (Hents : map (fun x : dimkey * nat => dk_total (fst x)) (combine ks es) = map dk_total ks).
    { clear -Le. revert es Le. induction ks as [|k ks IH]; intros [|i es] L; try discriminate; [reflexivity|].
      cbn [combine map fst]. rewrite IH by (simpl in L; lia). reflexivity. }
    assert (Hslice : forall pts, ps_points ps = Ok pts ->
      exists pss, Ok (map (fun k => PPoints PGeneric (nth k (map dk_total ks) 0)
                      (map (fun p => nth k (split_slices (map dk_total ks) p) []) pts) (ps_indices ps))
                  (seq 0 (length (map dk_total ks)))) = Ok pss /\ length pss = length fs /\
      seen_by ps (map dk_total ks) pss /\
      Forall2 (fun f x => fits f (snd x) (fst x)) fs (combine pss (combine ks es))).
    { intros pts Ep. eexists. split; [reflexivity|].
      pose proof (slice_seen ps (map dk_total ks) pts PGeneric Hok Ep Hdim) as Hs.
      assert (Ll : length (map (fun k => PPoints PGeneric (nth k (map dk_total ks) 0)
                      (map (fun p => nth k (split_slices (map dk_total ks) p) []) pts) (ps_indices ps))
                  (seq 0 (length (map dk_total ks)))) = length fs) by (rewrite map_length, seq_length, map_length; congruence).
      split; [exact Ll|]. split; [exact Hs|].
      apply loose_slices; [congruence | rewrite Ll, combine_length; lia | |].
      - apply Forall_forall. intros q Hq. apply in_map_iff in Hq as (k & <- & _). exact I.
      - destruct Hs as (_ & -> & _). symmetry. exact Hents. }
    unfold factor_point_set. rewrite Hpd. cbn [bind].
    destruct (ps_points_ok ps Hok) as (pts & Epts & _).
    destruct ps as [pt|s N D i|kd D q ixs|qs].
    - cbn [psdim] in Hdim |- *. rewrite Hdim, Nat.eqb_refl. cbn [guard bind].
      eexists. split; [reflexivity|]. pose proof (singleton_seen pt (map dk_total ks) Hdim) as Hs.
      assert (Ll : length (map PSingleton (split_slices (map dk_total ks) pt)) = length fs)
        by (rewrite map_length, split_slices_length, map_length; congruence).
      split; [exact Ll|]. split; [exact Hs|].
      apply loose_slices; [congruence | rewrite Ll, combine_length; lia | |].
      + apply Forall_forall. intros q Hq. apply in_map_iff in Hq as (k & <- & _). exact I.
      + destruct Hs as (_ & -> & _). symmetry. exact Hents.
    - inversion Hok.
    - rewrite Hdim, Nat.eqb_refl. cbn [guard bind]. rewrite Epts. cbn [bind]. apply Hslice. exact Epts.
    - rewrite map_length. destruct (Nat.eqb_spec (length ks) (length qs)) as [Eq|Ne].
      + inversion Hok as [| |? Hqs]; subst.
        assert (Hds : mapM ps_dimension qs = Ok (map psdim qs)).
        { apply mapM_all_ok. intros q Hq. apply ps_dimension_ok. rewrite Forall_forall in Hqs. auto. }
        rewrite Hds. cbn [bind].
        inversion Hfit as [ | | |? ks' es' ns' qs' Ht' Hl' Hi' He| ? ? ? Hne| | | | | | | ]; subst; [|congruence].
        match goal with H : rowmajor _ _ = ravel _ _ |- _ => rename H into Hrm end.
        rewrite rowmajor_ravel in Hrm by (apply in_shape_length; exact Hi').
        assert (Htop' : Forall2 (fun c kn => In kn (topology c)) cs (combine ks ns')).
        { apply mapM_ok in Hcs. clear -Hcs Ht'. revert Ht'. generalize (combine ks ns'). induction Hcs as [|f c fs cs Hc Hcs IH]; intros L H; inversion H; subst; constructor.
          - destruct H2 as (c' & Hc' & Hi). congruence.
          - apply IH. assumption. }
        assert (ns' = ns) as -> by (eapply topologies_unique with (ks := ks); eauto).
        assert (es' = es) as -> by (eapply ravel_inj; eassumption).
        apply fits_each_Forall2 in He as (L1 & He & L2).
        assert (Hdims : map psdim qs = map dk_total ks).
        { apply mapM_ok in Hcs. rewrite <- Hents. clear -Hcs He L1 L2. revert qs L1 L2 He. generalize (combine ks es).
          induction Hcs as [|f c fs cs Hc Hcs IH]; intros L qs L1 L2 He.
          - destruct qs, L; try discriminate. reflexivity.
          - destruct qs as [|q qs], L as [|x L]; try discriminate. simpl in He. inversion He; subst. cbn [fst snd] in *.
            cbn [map]. f_equal; [eapply fits_dim; eassumption|]. apply IH; simpl in *; try lia. assumption. }
        rewrite Hdims. destruct (list_eqb_spec _ _ nat_eqb_spec (map dk_total ks) (map dk_total ks)) as [_|C]; [|congruence].
        cbn [guard bind]. exists qs. split; [reflexivity|]. split; [congruence|].
        split; [rewrite <- Hdims; apply tensor_seen; exact Hqs | exact He].
      + rewrite Hdim, Nat.eqb_refl. cbn [guard bind]. rewrite Epts. cbn [bind].
        destruct (Hslice pts Epts) as (pss & E & Hrest). rewrite map_length in E. exists pss. split; [exact E | exact Hrest].
  Qed.
End Fits.
