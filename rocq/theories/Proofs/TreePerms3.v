(** Entity permutations of all element trees: the main induction. *)
From Coq Require Import List Arith Lia Bool Permutation Sorted.
From Verif Require Import Model.Prelude Model.Cell Model.Element Model.EntityMaps Model.Permutations.
From Verif Require Import Spec.Rowmajor Spec.EntityDofs Spec.Layout Spec.Permutations.
From Verif Require Import Proofs.Lists Proofs.Cells Proofs.Cubes Proofs.EntityDofs Proofs.EntityDofs2
  Proofs.Layout Proofs.Closure Proofs.Flatten Proofs.Perms Proofs.TreePerms Proofs.TreePerms2.
Import ListNotations.

Lemma map_fst_combine : forall A B (a : list A) (b : list B), length a = length b -> map fst (combine a b) = a.
Proof. induction a as [|x a IH]; intros [|y b] H; cbn in *; try lia; [reflexivity | rewrite IH by lia; reflexivity]. Qed.
Lemma map_snd_combine : forall A B (a : list A) (b : list B), length a = length b -> map snd (combine a b) = b.
Proof. induction a as [|x a IH]; intros [|y b] H; cbn in *; try lia; [reflexivity | rewrite IH by lia; reflexivity]. Qed.

Lemma Forall2_all_eq : forall A B (P : A -> B -> Prop) c cs bs, Forall (eq c) cs -> Forall2 P cs bs -> Forall (P c) bs.
Proof. intros A B P c cs bs U H. induction H; inversion U; subst; constructor; auto. Qed.

Section Trees.
  Context {F O : Type} (oeqb : O -> O -> bool).
  Hypothesis osp : forall a b, reflect (a = b) (oeqb a b).
  Local Notation omap := (list (O * list nat)).
  Variable tp : list cell -> list dimkey -> list omap -> omap.
  Variable flat : dimkey -> O -> O.
  Variable lp : leaf F -> result (edict omap).
  Variable subs : cell -> edict (list (dimkey * nat)).
  Variable orientations : cell -> dimkey -> list O.
  Variable proper : O -> Prop.

  Local Notation perms := (entity_permutations oeqb tp flat lp subs).
  Local Notation fit := (permutations_fit orientations proper).
  Local Notation contract := (fiat_contract orientations proper tp flat lp subs).

  Lemma contract_sub : forall e e', contract e -> (forall l, leaf_of l e' -> leaf_of l e) ->
    (forall s, subelt s e' -> subelt s e) -> contract e'.
  Proof using.
    intros e e' (A & B & C & D) HL HS. split; [|split; [|split]].
    - intros l Hl. apply A, HL, Hl.
    - intros fs cs Hs. apply (B fs cs), HS, Hs.
    - intros p c Hs. apply (C p c), HS, Hs.
    - intros e0 c Hs. apply (D e0 c), HS, Hs.
  Qed.

  Definition good (e : elt F) : Prop := forall c, leaves_ok e -> sensible e -> contract e -> cell_of e = Ok c ->
    (exists ep d, perms e = Ok ep /\ entity_dofs e = Ok d /\ fit c d ep /\ permutable lp e)
    \/ (perms e = Err NotImplementedError /\ ~ permutable lp e).

  Lemma good_list : forall fs cs, Forall good fs -> Forall leaves_ok fs -> Forall sensible fs -> Forall contract fs ->
    Forall2 (fun f c => cell_of f = Ok c) fs cs ->
    (exists eps ds, mapM perms fs = Ok eps /\ mapM entity_dofs fs = Ok ds /\ length eps = length fs /\
       length ds = length fs /\
       Forall2 (fun c de => fit c (fst de) (snd de)) cs (combine ds eps) /\ Forall (permutable lp) fs)
    \/ (mapM perms fs = Err NotImplementedError /\ ~ Forall (permutable lp) fs).
  Proof using.
    intros fs cs G L S C E. induction E as [|f c fs cs Ec E IH].
    - left. exists [], []. repeat split; constructor.
    - inversion G as [|? ? Gf Gs]; subst. inversion L as [|? ? Lf Ls]; subst.
      inversion S as [|? ? Sf Ss]; subst. inversion C as [|? ? Cf Cs]; subst.
      cbn [mapM]. destruct (Gf c Lf Sf Cf Ec) as [(ep & d & Ep & Ed & Fit & Per)|[Er Np]].
      + destruct (IH Gs Ls Ss Cs) as [(eps & ds & Eps & Eds & L1 & L2 & Fits & Pers)|[Er Np]].
        * left. exists (ep :: eps), (d :: ds). rewrite Ep, Eps, Ed, Eds. cbn [bind length].
          repeat split; auto. cbn [combine]. constructor; [exact Fit | exact Fits].
        * right. rewrite Ep, Er. split; [reflexivity|]. intros H; inversion H; contradiction.
      + right. rewrite Er. split; [reflexivity|]. intros H; inversion H; contradiction.
  Qed.

  Lemma fit_keys : forall c d ep, fit c d ep -> fits_keys (orientations c) (topology c) ep.
  Proof using. intros c d ep (A & B & _). split; assumption. Qed.

  (** *** Products *)

  Lemma product_fit : forall (fs : list (elt F)) cs eps ds d, leaves_ok (ETensorProduct fs) -> sensible (ETensorProduct fs) ->
    mapM cell_of fs = Ok cs -> mapM entity_dofs fs = Ok ds -> entity_dofs (ETensorProduct fs) = Ok d ->
    length eps = length fs -> tp_contract orientations proper tp cs ->
    Forall2 (fun c de => fit c (fst de) (snd de)) cs (combine ds eps) ->
    exists ep, compose_permutations tp cs eps = Ok ep /\ fit (TPCell cs) d ep.
  Proof using.
    intros fs cs eps ds d L S Ec Eds Ed Le T Fits.
    assert (Lc : length cs = length fs) by (apply mapM_length in Ec; exact Ec).
    assert (Ld : length ds = length fs) by (apply mapM_length in Eds; exact Eds).
    set (xs := combine cs eps).
    assert (E1 : map fst xs = cs) by (apply map_fst_combine; lia).
    assert (E2 : map snd xs = eps) by (apply map_snd_combine; lia).
    assert (Lx : length xs = length fs) by (rewrite <- (map_length fst), E1; exact Lc).
    assert (FX : Forall (fun x => fits_keys (orientations (fst x)) (topology (fst x)) (snd x)) xs).
    { unfold xs. clear - Fits Le Lc Ld. revert ds eps Fits Ld Le. revert fs Lc.
      induction cs as [|c cs IH]; intros [|f fs] Lc [|d ds] [|ep eps] Fits Ld Le; cbn in *; try discriminate; constructor.
      - inversion Fits; subst. cbn [fst snd] in *. eapply fit_keys; eassumption.
      - inversion Fits; subst. eapply (IH fs); [lia | eassumption | lia | lia]. }
    assert (FO : Forall pfac_ok xs) by (eapply Forall_impl; [|exact FX]; intros x [K _]; exact K).
    exists (pdict tp xs). split; [rewrite <- E1, <- E2; apply compose_ok; exact FO|].
    assert (One : forall dim ei ms, length ei = length xs -> length ms = length xs ->
              Forall2 (fun x k => In k (map fst (topology (fst x)))) xs dim ->
              Forall2 (fun x kem => has_dofs (snd x) (fst (fst kem)) (snd (fst kem)) (snd kem)) xs (combine (combine dim ei) ms) ->
              Forall2 (fun ck m => one_per (orientations (fst ck) (snd ck)) m) (combine cs dim) ms).
    { rewrite <- E1. clear - FX. induction FX as [|x xs [_ O1] FX IH]; intros dim ei ms Le Lm Hd Hh.
      - destruct ms; [|discriminate]. inversion Hd; subst. constructor.
      - destruct ei as [|i ei]; [discriminate|]. destruct ms as [|m ms]; [discriminate|].
        inversion Hd as [|? k ? dim' Hk Hd']; subst. cbn [combine] in Hh. inversion Hh as [|? ? ? ? H1 H2]; subst.
        cbn [map combine]. constructor; cbn [fst snd] in *; [eapply O1; exact H1|].
        eapply (IH dim' ei ms); auto. }
    split; [|split].
    - rewrite <- E1. apply pdict_keys. exact FO.
    - intros K I m Hm. destruct (pdict_has tp xs K I m FO Hm) as (dim & ei & ms & -> & Hd & _ & L1 & L2 & Hh & ->).
      rewrite E1. apply T.
      + rewrite <- E1. rewrite Forall2_map_l. exact Hd.
      + eapply One; eassumption.
    - intros K I l o p Hl (m & Hm & Ho) Pr.
      destruct (pdict_has tp xs K I m FO Hm) as (dim & ei & ms & -> & Hd & Hf & L1 & L2 & Hh & ->).
      rewrite E1 in *.
      destruct (tensor_product_layout F fs cs d (DT dim) I l L S Ec Ed Hl)
        as (ds' & ents & ls & Eds' & Hents & Len & Lls & Hls & (LL & _)).
      rewrite Eds in Eds'. injection Eds' as <-. rewrite Hf in Hents. injection Hents as <-.
      rewrite LL. eapply (T dim ms); [| | | exact Ho | exact Pr].
      + rewrite <- E1. rewrite Forall2_map_l. exact Hd.
      + eapply One; eassumption.
      + rewrite Forall2_map_r.
        assert (L3 : length dim = length xs) by (symmetry; eapply Forall2_length; exact Hd).
        clear - Fits Hls Hh L1 L2 L3 Lls Lc Ld Le Lx. unfold xs in *. clear xs.
        revert dim ei ms ls ds eps fs Fits Hls Hh L1 L2 L3 Lls Lc Ld Le Lx.
        induction cs as [|c cs IH]; intros dim ei ms ls ds eps fs Fits Hls Hh L1 L2 L3 Lls Lc Ld Le Lx;
          destruct fs as [|f fs]; try discriminate; destruct ds as [|d0 ds]; try discriminate;
          destruct eps as [|ep eps]; try discriminate; cbn [combine length] in *;
          destruct ms as [|m ms]; try discriminate; destruct ls as [|l0 ls]; try discriminate; [constructor|].
        destruct dim as [|k dim]; [discriminate|]. destruct ei as [|i ei]; [discriminate|].
        cbn [combine] in *. inversion Fits as [|? ? ? ? F1 F2]; subst. inversion Hls as [|? ? ? ? H1 H2]; subst.
        inversion Hh as [|? ? ? ? G1 G2]; subst. cbn [fst snd] in *. constructor.
        * intros o p Hin Pr. destruct F1 as (_ & _ & F1). eapply F1; [exact H1 | exists m; split; [exact G1 | exact Hin] | exact Pr].
        * injection L1 as L1. injection L2 as L2. injection L3 as L3. injection Lls as Lls.
          injection Lc as Lc. injection Ld as Ld. injection Le as Le. injection Lx as Lx.
          eapply (IH dim ei ms ls ds eps fs); eassumption.
  Qed.

  (** *** Sums *)

  Lemma enriched_fit : forall (es : list (elt F)) c eps ds d, leaves_ok (EEnriched es) -> sensible (EEnriched es) ->
    es <> [] -> mapM entity_dofs es = Ok ds -> entity_dofs (EEnriched es) = Ok d -> length eps = length es ->
    Forall (fun de => fit c (fst de) (snd de)) (combine ds eps) ->
    fit c d (concatenate_entity_permutations oeqb eps).
  Proof using osp.
    intros es c eps ds d L S NE Eds Ed Le Fits.
    assert (Ld : length ds = length es) by (apply mapM_length in Eds; exact Eds).
    assert (E2 : map snd (combine ds eps) = eps) by (apply map_snd_combine; lia).
    assert (Fk : Forall (fits_keys (orientations c) (topology c)) eps).
    { rewrite <- E2. rewrite Forall_map. eapply Forall_impl; [|exact Fits]. intros [d0 ep] H. eapply fit_keys; exact H. }
    assert (NE' : eps <> []) by (intros ->; destruct es; [congruence | discriminate]).
    assert (tn := topology_NoDup c).
    destruct (concat_fits oeqb osp (orientations c) (topology c) eps tn NE' Fk) as [K1 K2].
    split; [exact K1|]. split; [exact K2|].
    intros k i l o p Hl Hp Pr.
    destruct (enriched_layout F es d k i l L S Ed Hl) as (ds' & ls & Eds' & Hls & ->).
    rewrite Eds in Eds'. injection Eds' as <-.
    assert (Fa := proj1 (Forall_forall _ _) Fk).
    apply (permutations_blocks oeqb osp) in Hp as (_ & ps & Hps & ->).
    2:{ eapply Forall_impl; [|exact Fk]. intros ep X. eapply fits_unique; [exact tn | exact X]. }
    2:{ intros el el' k0 i0 o0 p0 X X'. eapply fits_same; [exact tn | apply Fa, X | apply Fa, X']. }
    assert (P : Forall2 permutes (map (@length nat) ls) ps).
    { rewrite Forall2_map_l. clear - Hls Hps Fits Le Ld Pr. revert ls ps eps es Hls Hps Fits Le Ld.
      induction ds as [|d0 ds IH]; intros ls ps eps es Hls Hps Fits Le Ld; inversion Hls; subst; inversion Hps; subst;
        cbn [combine length] in *; try lia; constructor.
      - inversion Fits as [|? ? F1 F2]; subst. cbn [fst snd] in *. destruct F1 as (_ & _ & F1). eapply F1; eassumption.
      - inversion Fits as [|? ? F1 F2]; subst. destruct es as [|e0 es]; [cbn in *; discriminate|]. cbn [length] in *.
        eapply (IH _ _ _ es); [eassumption | eassumption | exact F2 | lia | lia]. }
    unfold permutes. rewrite shifted_length.
    - apply shifted_permutes. exact P.
    - rewrite map_length. apply Forall2_length in Hls. rewrite <- Hls, <- Ld. reflexivity.
  Qed.

  (** *** Flattened elements *)

  Definition flat_map_ (K : dimkey) (m : omap) : omap := map (fun op => (flat K (fst op), snd op)) m.
  Definition flat_dict (ep : edict omap) : edict omap :=
    map (fun kr => (fst kr, map (fun im => (fst im, flat_map_ (fst kr) (snd im))) (snd kr))) ep.

  Lemma flat_dict_has : forall ep K I m', has_dofs (flat_dict ep) K I m' <->
    exists m, has_dofs ep K I m /\ m' = flat_map_ K m.
  Proof using.
    intros ep K I m'. split.
    - intros (row & Hr & Hi). apply in_map_iff in Hr as ([k r] & E & Hr). injection E as -> <-.
      apply in_map_iff in Hi as ([i m] & E & Hi). injection E as -> <-. exists m. split; [exists r; auto | reflexivity].
    - intros (m & (row & Hr & Hi) & ->). eexists. split.
      + apply in_map_iff. exists (K, row). split; [reflexivity | exact Hr].
      + apply in_map_iff. exists (I, m). split; [reflexivity | exact Hi].
  Qed.

  Lemma flat_dict_keys : forall t ep, keys_match t ep -> keys_match t (flat_dict ep).
  Proof using.
    intros t ep [A B]. split.
    - unfold flat_dict. rewrite map_map. exact A.
    - intros k row H. apply in_map_iff in H as ([k0 r] & E & Hr). injection E as -> <-.
      destruct (B _ _ Hr) as (n & Hn & P). exists n. split; [exact Hn|]. rewrite map_map. exact P.
  Qed.

  Lemma flattened_fit : forall (p : elt F) cp d d' ep, leaves_ok p -> sensible (EFlattened p) ->
    cell_of p = Ok cp -> entity_dofs p = Ok d -> entity_dofs (EFlattened p) = Ok d' ->
    flat_contract orientations proper flat cp -> fit cp d ep ->
    fit (Hypercube (spatial_dimension cp)) d' (flatten_permutations flat ep).
  Proof using.
    intros p cp d d' ep L S Ec Ed Ed' FC (km & one & per).
    assert (CC : cube_cell cp) by (eapply S; [apply se_refl | exact Ec]).
    assert (kf := flat_dict_keys _ _ km).
    change (flatten_permutations flat ep) with (flatten_entities (flat_dict ep)).
    destruct (flatten_values [] cp (flat_dict ep) kf) as [FV _].
    destruct (flattened_layout F p cp d L S Ec Ed) as (d0 & Ed0 & LV & _). rewrite Ed' in Ed0. injection Ed0 as <-.
    destruct (unflatten_bijective cp) as (_ & UB & _).
    assert (Info : forall key i m', has_dofs (flatten_entities (flat_dict ep)) key i m' ->
      exists k K I m, key = DI k /\ unflatten_entity cp (Some (k, i)) = Ok (K, I) /\ dk_total K = k /\
        In K (map fst (topology cp)) /\ has_dofs ep K I m /\ m' = flat_map_ K m).
    { intros key i m' H. apply FV in H as (k & K & I & -> & U & H). apply flat_dict_has in H as (m & Hm & ->).
      destruct (UB _ _ _ _ U) as [T (n & Hn & _)]. exists k, K, I, m. repeat split; auto.
      apply in_map_iff. exists (K, n). auto. }
    split; [|split].
    - apply flatten_keys_match; assumption.
    - intros key i m' H. destruct (Info _ _ _ H) as (k & K & I & m & -> & U & T & HK & Hm & ->).
      destruct (one _ _ _ Hm) as [Nm Om]. destruct (FC K HK) as (Inj & Img & _). rewrite T in Img.
      unfold flat_map_. split.
      + rewrite map_map. cbn [fst]. rewrite <- (map_map fst (flat K)).
        assert (Hsub : forall o, In o (map fst m) -> In o (orientations cp K)) by (intros; apply Om; assumption).
        clear - Nm Inj Hsub. induction Nm as [|o l Ho Nm IH]; cbn [map]; constructor.
        * intros X. apply in_map_iff in X as (o' & E & Ho'). apply Ho.
          rewrite <- (Inj o' o); [exact Ho' | apply Hsub; right; exact Ho' | apply Hsub; left; reflexivity | exact E].
        * apply IH. intros o' Ho'. apply Hsub. right. exact Ho'.
      + intros o'. rewrite Img. rewrite map_map. cbn [fst]. rewrite <- (map_map fst (flat K)), in_map_iff.
        split; [intros (o & <- & Ho) | intros (o & Ho & ->)]; exists o; split; auto; apply Om; exact Ho.
    - intros key i l o' q Hl (m' & Hm' & Ho) Pr.
      destruct (Info _ _ _ Hm') as (k & K & I & m & -> & U & T & HK & Hm & ->).
      apply in_map_iff in Ho as ([o q'] & E & Ho). cbn [fst snd] in E. injection E as <- ->.
      destruct (LV _ _ _ Hl) as (k' & K' & I' & Ek & U' & Hl'). injection Ek as <-.
      rewrite U in U'. injection U' as <- <-.
      eapply per; [exact Hl' | exists m; split; [exact Hm | exact Ho] |].
      destruct (FC K HK) as (_ & _ & FP). apply FP; [|exact Pr].
      apply (one _ _ _ Hm). apply in_map_iff. exists (o, q). auto.
  Qed.

  (** *** Discontinuous elements *)

  Lemma discontinuous_fit : forall (e : elt F) c d d' ep, leaves_ok e -> sensible e -> cell_of e = Ok c ->
    entity_dofs e = Ok d -> interior_only c d -> entity_dofs (EDiscontinuous e) = Ok d' ->
    fit c d ep -> fit c d' ep.
  Proof using.
    intros e c d d' ep L S Ec Ed IO Ed' (km & one & per).
    split; [exact km|]. split; [exact one|].
    intros k i l o p Hl Hp Pr.
    destruct (entity_dofs_main F e L S c Ec) as (d0 & Ed0 & ok). rewrite Ed in Ed0. injection Ed0 as <-.
    cbn [entity_dofs] in Ed'. rewrite Ec in Ed'. cbn [bind] in Ed'.
    destruct (discontinuous_ok c (space_dimension e)) as (dd & Edd & okd & At). rewrite Ed' in Edd. injection Edd as <-.
    assert (tn := topology_NoDup c).
    apply (has_dofs_get _ _ _ _ _ tn (proj1 okd)) in Hl as (Hk & Hi & ->). rewrite At.
    assert (Hd : has_dofs d k i (dof_at d k i)).
    { apply (has_dofs_get _ _ _ _ _ tn (proj1 ok)). split; [exact Hk|]. split; [|reflexivity].
      destruct (km_count _ _ tn (proj1 okd) k Hk) as [Hn _]. rewrite (km_count_eq _ _ tn (proj1 ok) k _ Hn). exact Hi. }
    assert (El := interior_lists c _ d ok IO _ _ _ Hd). rewrite <- El.
    eapply per; eassumption.
  Qed.

  Theorem tree_permutations : forall e, good e.
  Proof using osp.
    intros e. induction e as [l|fs IH|b s t IH|es IH|e s o IH|e IH|e IH|e IH|e IH] using elt_ind';
      intros c L S C E.
    - cbn [entity_permutations entity_dofs cell_of] in *. injection E as <-.
      destruct C as (CL & _). specialize (CL l (lo_leaf l)). unfold leaf_contract in CL.
      destruct (lp l) as [ep|x] eqn:El.
      + left. exists ep, (lf_edofs l). split; [reflexivity|]. split; [reflexivity|]. split; [exact CL|]. econstructor; exact El.
      + right. subst x. split; [reflexivity|]. intros H. inversion H. congruence.
    - cbn [cell_of] in E. apply bind_ok in E as (cs & Ecs & E). injection E as <-.
      assert (L' : Forall leaves_ok fs).
      { apply Forall_forall. intros f Hf l Hl. apply L. econstructor; eassumption. }
      assert (S' : Forall sensible fs).
      { apply Forall_forall. intros f Hf. eapply sensible_sub; [exact S|]. intros; econstructor; eassumption. }
      assert (C' : Forall contract fs).
      { apply Forall_forall. intros f Hf. eapply contract_sub; [exact C | |]; intros; econstructor; eassumption. }
      cbn [entity_permutations]. rewrite Ecs. cbn [bind].
      destruct (entity_dofs_main F (ETensorProduct fs) L S (TPCell cs)) as (d & Ed & _).
      { cbn [cell_of]. rewrite Ecs. reflexivity. }
      destruct (good_list fs cs IH L' S' C') as [(eps & ds & Eps & Eds & L1 & L2 & Fits & Pers)|[Er Np]].
      { apply mapM_ok. exact Ecs. }
      + left. destruct (product_fit fs cs eps ds d L S Ecs Eds Ed L1) as (ep & Ep & Fit); [|exact Fits|].
        { destruct C as (_ & CT & _). apply (CT fs cs); [apply se_refl | exact Ecs]. }
        exists ep, d. rewrite Eps. cbn [bind]. split; [exact Ep|]. split; [exact Ed|]. split; [exact Fit|].
        constructor; exact Pers.
      + right. rewrite Er. split; [reflexivity|]. intros H. inversion H. contradiction.
    - right. split; [reflexivity|]. intros H. inversion H.
    - assert (L' : Forall leaves_ok es).
      { apply Forall_forall. intros f Hf l Hl. apply L. econstructor; eassumption. }
      assert (S' : Forall sensible es).
      { apply Forall_forall. intros f Hf. eapply sensible_sub; [exact S|]. intros; econstructor; eassumption. }
      assert (C' : Forall contract es).
      { apply Forall_forall. intros f Hf. eapply contract_sub; [exact C | |]; intros; econstructor; eassumption. }
      destruct (entity_dofs_main F (EEnriched es) L S c E) as (d & Ed & _).
      cbn [cell_of] in E. apply bind_ok in E as (cs & Ecs & U).
      destruct (unique_ok _ _ _ _ cell_eqb_spec U) as [Hin U'].
      assert (NE : es <> []) by (intros ->; cbn in Ecs; injection Ecs as <-; discriminate U).
      cbn [entity_permutations].
      destruct (good_list es cs IH L' S' C') as [(eps & ds & Eps & Eds & L1 & L2 & Fits & Pers)|[Er Np]].
      { apply mapM_ok. exact Ecs. }
      + left. exists (concatenate_entity_permutations oeqb eps), d. rewrite Eps. cbn [bind].
        split; [reflexivity|]. split; [exact Ed|]. split; [|constructor; exact Pers].
        apply (enriched_fit es c eps ds d L S NE Eds Ed L1).
        exact (Forall2_all_eq _ _ _ _ _ _ U' Fits).
      + right. rewrite Er. split; [reflexivity|]. intros H. inversion H. contradiction.
    - right. split; [reflexivity|]. intros H. inversion H.
    - assert (L' : leaves_ok e) by (intros l Hl; apply L; constructor; assumption).
      assert (S' : sensible e) by (eapply sensible_sub; [exact S|]; intros; constructor; assumption).
      assert (C' : contract e) by (eapply contract_sub; [exact C | |]; intros; constructor; assumption).
      destruct (entity_dofs_main F (EFlattened e) L S c E) as (d' & Ed' & _).
      cbn [cell_of] in E. apply bind_ok in E as (cp & Ep & E).
      assert (Ec : c = Hypercube (spatial_dimension cp)).
      { destruct (spatial_dimension cp) as [|[|[|[|n]]]]; try discriminate; congruence. }
      cbn [entity_permutations].
      destruct (IH cp L' S' C' Ep) as [(ep & d & Eep & Ed & Fit & Per)|[Er Np]].
      + left. exists (flatten_permutations flat ep), d'. rewrite Eep. cbn [bind].
        split; [reflexivity|]. split; [exact Ed'|]. split; [|constructor; exact Per].
        rewrite Ec. eapply (flattened_fit e cp d d' ep L' S Ep Ed Ed'); [|exact Fit].
        destruct C as (_ & _ & CF & _). apply (CF e cp); [apply se_refl | exact Ep].
      + right. rewrite Er. split; [reflexivity|]. intros H. inversion H. contradiction.
    - assert (L' : leaves_ok e) by (intros l Hl; apply L; constructor; assumption).
      assert (S' : sensible e) by (eapply sensible_sub; [exact S|]; intros; constructor; assumption).
      assert (C' : contract e) by (eapply contract_sub; [exact C | |]; intros; constructor; assumption).
      destruct (entity_dofs_main F (EDiscontinuous e) L S c E) as (d' & Ed' & _).
      cbn [cell_of] in E.
      destruct (entity_dofs_main F e L' S' c E) as (d & Ed & ok).
      destruct C as (_ & _ & _ & CS). destruct (CS e c (se_refl _) E) as [so top].
      destruct (closure_interior c _ d ok (subs c) so top) as (cl & Ecl & Eq).
      cbn [entity_permutations]. rewrite E, Ed. cbn [bind]. rewrite Ecl. cbn [bind].
      destruct (edofs_eqb d cl).
      + destruct (IH c L' S' C' E) as [(ep & d0 & Eep & Ed0 & Fit & Per)|[Er Np]].
        * left. rewrite Ed in Ed0. injection Ed0 as <-. exists ep, d'. split; [exact Eep|]. split; [exact Ed'|].
          assert (IO : interior_only c d) by (apply Eq; reflexivity).
          split; [eapply discontinuous_fit; eassumption|]. constructor; [exact Per|]. exists c, d. auto.
        * right. split; [exact Er|]. intros H. inversion H. contradiction.
      + right. split; [reflexivity|]. intros H. inversion H as [| | | | ? ? (c0 & d0 & Ec0 & Ed0 & IO) | |]; subst.
        rewrite E in Ec0. injection Ec0 as <-. rewrite Ed in Ed0. injection Ed0 as <-.
        apply Eq in IO. discriminate.
    - assert (L' : leaves_ok e) by (intros l Hl; apply L; constructor; assumption).
      assert (S' : sensible e) by (eapply sensible_sub; [exact S|]; intros; constructor; assumption).
      assert (C' : contract e) by (eapply contract_sub; [exact C | |]; intros; constructor; assumption).
      cbn [cell_of entity_dofs entity_permutations] in *.
      destruct (IH c L' S' C' E) as [(ep & d & Eep & Ed & Fit & Per)|[Er Np]].
      + left. exists ep, d. split; [exact Eep|]. split; [exact Ed|]. split; [exact Fit|]. constructor; exact Per.
      + right. split; [exact Er|]. intros H. inversion H. contradiction.
    - assert (L' : leaves_ok e) by (intros l Hl; apply L; constructor; assumption).
      assert (S' : sensible e) by (eapply sensible_sub; [exact S|]; intros; constructor; assumption).
      assert (C' : contract e) by (eapply contract_sub; [exact C | |]; intros; constructor; assumption).
      cbn [cell_of entity_dofs entity_permutations] in *.
      destruct (IH c L' S' C' E) as [(ep & d & Eep & Ed & Fit & Per)|[Er Np]].
      + left. exists ep, d. split; [exact Eep|]. split; [exact Ed|]. split; [exact Fit|]. constructor; exact Per.
      + right. split; [exact Er|]. intros H. inversion H. contradiction.
  Qed.

  (** *** What the permutations of a product do *)

  Lemma zip_positions : forall (ls : list (list nat)) ps js ws,
    Forall2 (fun l p => permutes (length l) p) ls ps -> length js = length ls ->
    Forall2 (fun lj w => nth_error (fst lj) (snd lj) = Some w)
      (combine ls (map (fun pj => nth (snd pj) (fst pj) 0) (combine ps js))) ws ->
    length (map (fun pj => nth (snd pj) (fst pj) 0) (combine ps js)) = length ls.
  Proof using.
    intros ls ps js ws P L _. apply Forall2_length in P. rewrite map_length, combine_length. lia.
  Qed.

  Theorem product_action : forall (fs : list (elt F)) cs (eps : list (edict omap)) ep d join K I l,
    leaves_ok (ETensorProduct fs) -> sensible (ETensorProduct fs) -> contract (ETensorProduct fs) ->
    mapM cell_of fs = Ok cs -> join_contract orientations tp join cs ->
    mapM perms fs = Ok eps -> perms (ETensorProduct fs) = Ok ep ->
    entity_dofs (ETensorProduct fs) = Ok d -> has_dofs d K I l ->
    exists ds ents ls, mapM entity_dofs fs = Ok ds /\ factor_entity cs (Some (K, I)) = Ok ents /\
      length ents = length fs /\ length ls = length fs /\
      Forall2 (fun d_f kel => has_dofs d_f (fst (fst kel)) (snd (fst kel)) (snd kel)) ds (combine ents ls) /\
      forall os ps p, length os = length fs -> length ps = length fs -> Forall proper os ->
        Forall2 (fun e_f kop => has_perm e_f (fst (fst kop)) (snd (fst kop)) (fst (snd kop)) (snd (snd kop)))
          eps (combine ents (combine os ps)) ->
        has_perm ep K I (join os) p ->
        forall js vs ws, length js = length fs ->
          Forall2 (fun lj v => nth_error (fst lj) (snd lj) = Some v) (combine ls js) vs ->
          Forall2 (fun lj w => nth_error (fst lj) (snd lj) = Some w)
            (combine ls (map (fun pj => nth (snd pj) (fst pj) 0) (combine ps js))) ws ->
          nth_error l (rowmajor (map (@length nat) ls) js) = Some (rowmajor (map space_dimension fs) vs) /\
          exists j', nth_error p (rowmajor (map (@length nat) ls) js) = Some j' /\
                     nth_error l j' = Some (rowmajor (map space_dimension fs) ws).
  Proof using osp.
    intros fs cs eps ep d join K I l L S C Ec J Eps Ep Ed Hl.
    destruct (tensor_product_layout F fs cs d K I l L S Ec Ed Hl)
      as (ds & ents & ls & Eds & Hents & Len & Lls & Hls & LT).
    exists ds, ents, ls. split; [exact Eds|]. split; [exact Hents|]. split; [exact Len|]. split; [exact Lls|].
    split; [exact Hls|]. intros os ps p Lo Lp Pr Hps (m & Hm & Hin) js vs ws Lj Hv Hw.
    assert (L' : Forall leaves_ok fs).
    { apply Forall_forall. intros f Hf l0 Hl0. apply L. econstructor; eassumption. }
    assert (S' : Forall sensible fs).
    { apply Forall_forall. intros f Hf. eapply sensible_sub; [exact S|]. intros; econstructor; eassumption. }
    assert (C' : Forall contract fs).
    { apply Forall_forall. intros f Hf. eapply contract_sub; [exact C | |]; intros; econstructor; eassumption. }
    assert (G : Forall good fs) by (apply Forall_forall; intros; apply tree_permutations).
    destruct (good_list fs cs G L' S' C') as [(eps' & ds' & Eps' & Eds' & L1 & L2 & Fits & _)|[Er _]];
      [apply mapM_ok; exact Ec | | congruence].
    rewrite Eps in Eps'. injection Eps' as <-. rewrite Eds in Eds'. injection Eds' as <-.
    assert (Lc : length cs = length fs) by (apply mapM_length in Ec; exact Ec).
    assert (L1' : length eps = length fs) by exact L1. clear L1. rename L1' into L1.
    set (xs := combine cs eps).
    assert (E1 : map fst xs = cs) by (apply map_fst_combine; lia).
    assert (E2 : map snd xs = eps) by (apply map_snd_combine; lia).
    assert (FO : Forall pfac_ok xs).
    { unfold xs. clear - Fits L1 L2 Lc. revert cs fs eps Fits L1 L2 Lc.
      induction ds as [|d0 ds IH]; intros [|c cs] [|f fs] [|ep0 eps] Fits L1 L2 Lc; cbn in *; try discriminate; constructor;
        inversion Fits as [|? ? ? ? F1 F2]; subst; cbn [fst snd] in *; [apply F1|].
      injection L1 as L1. injection L2 as L2. injection Lc as Lc. eapply (IH cs fs eps); assumption. }
    assert (Ep' : ep = pdict tp xs).
    { cbn [entity_permutations] in Ep. rewrite Ec, Eps in Ep. cbn [bind] in Ep.
      assert (K1 : compose_permutations tp cs eps = Ok (pdict tp xs)).
      { rewrite <- E1, <- E2. apply compose_ok. exact FO. }
      rewrite K1 in Ep. injection Ep as <-. reflexivity. }
    subst ep.
    destruct (pdict_has tp xs K I m FO Hm) as (dim & ei & ms & -> & Hd & Hf & Le & Lm & Hh & ->).
    rewrite E1 in *. rewrite Hf in Hents. injection Hents as <-.
    assert (Lx : length xs = length fs) by (rewrite <- (map_length fst), E1; exact Lc).
    assert (Ld : length dim = length xs) by (symmetry; eapply Forall2_length; exact Hd).
    (* the maps at the factor entities hold the permutations [ps] *)
    assert (M : Forall2 (fun m op => In op m) ms (combine os ps)).
    { rewrite Lx in Le, Lm, Ld. clear - Hh Hps FO Le Lm Ld Lo Lp Lc L1. unfold xs in *. clear xs.
      revert dim ei ms os ps eps fs Hh Hps FO Le Lm Ld Lo Lp Lc L1.
      induction cs as [|c cs IH]; intros dim ei ms os ps eps fs Hh Hps FO Le Lm Ld Lo Lp Lc L1;
        destruct fs as [|f fs]; try discriminate; destruct eps as [|ep0 eps]; try discriminate;
        destruct ms as [|m ms]; try discriminate; destruct os as [|o os]; try discriminate;
        destruct ps as [|q ps]; try discriminate; cbn [combine length] in *; [constructor|].
      destruct dim as [|k dim]; [discriminate|]. destruct ei as [|i ei]; [discriminate|]. cbn [combine] in *.
      inversion Hh as [|? ? ? ? H1 H2]; subst. inversion Hps as [|? ? ? ? P1 P2]; subst.
      inversion FO as [|? ? O1 O2]; subst. cbn [fst snd] in *. constructor.
      - destruct P1 as (m' & Hm' & Hin). rewrite (has_dofs_fun _ (topology c) ep0 _ _ _ _ (topology_NoDup c) O1 H1 Hm'). exact Hin.
      - injection Le as Le. injection Lm as Lm. injection Ld as Ld. injection Lo as Lo. injection Lp as Lp.
        injection Lc as Lc. injection L1 as L1. eapply (IH dim ei ms os ps eps fs); assumption. }
    assert (P : Forall2 (fun l0 p0 => permutes (length l0) p0) ls ps).
    { rewrite Lx in Le, Ld. clear - Fits Hls Hps Pr Le Ld Lo Lp Lc L1 L2 Lls.
      revert dim ei ls os ps eps ds fs Fits Hls Hps Pr Le Ld Lo Lp Lc L1 L2 Lls.
      induction cs as [|c cs IH]; intros dim ei ls os ps eps ds fs Fits Hls Hps Pr Le Ld Lo Lp Lc L1 L2 Lls;
        destruct fs as [|f fs]; try discriminate; destruct eps as [|ep0 eps]; try discriminate;
        destruct ds as [|d0 ds]; try discriminate; destruct ls as [|l0 ls]; try discriminate;
        destruct os as [|o os]; try discriminate;
        destruct ps as [|q ps]; try discriminate; cbn [combine length] in *; [constructor|].
      destruct dim as [|k dim]; [discriminate|]. destruct ei as [|i ei]; [discriminate|]. cbn [combine] in *.
      inversion Hls as [|? ? ? ? H1 H2]; subst. inversion Hps as [|? ? ? ? P1 P2]; subst.
      inversion Fits as [|? ? ? ? F1 F2]; subst. inversion Pr as [|? ? Q1 Q2]; subst. cbn [fst snd] in *. constructor.
      - destruct F1 as (_ & _ & F1). eapply F1; eassumption.
      - injection Le as Le. injection Ld as Ld. injection Lo as Lo. injection Lp as Lp.
        injection Lc as Lc. injection L1 as L1. injection L2 as L2. injection Lls as Lls.
        eapply (IH dim ei ls os ps eps ds fs); eassumption. }
    assert (One : Forall2 (fun ck m => one_per (orientations (fst ck) (snd ck)) m) (combine cs dim) ms).
    { rewrite Lx in Le, Lm, Ld. clear - Fits Hh Le Lm Ld Lc L1 L2. unfold xs in *. clear xs.
      revert dim ei ms eps ds fs Fits Hh Le Lm Ld Lc L1 L2.
      induction cs as [|c cs IH]; intros dim ei ms eps ds fs Fits Hh Le Lm Ld Lc L1 L2;
        destruct fs as [|f fs]; try discriminate; destruct eps as [|ep0 eps]; try discriminate;
        destruct ds as [|d0 ds]; try discriminate; destruct ms as [|m ms]; try discriminate;
        cbn [combine length] in *; [constructor|].
      destruct dim as [|k dim]; [discriminate|]. destruct ei as [|i ei]; [discriminate|]. cbn [combine] in *.
      inversion Hh as [|? ? ? ? H1 H2]; subst. inversion Fits as [|? ? ? ? F1 F2]; subst. cbn [fst snd] in *. constructor.
      - cbn [fst snd]. destruct F1 as (_ & F1 & _). eapply F1; eassumption.
      - injection Le as Le. injection Lm as Lm. injection Ld as Ld.
        injection Lc as Lc. injection L1 as L1. injection L2 as L2.
        eapply (IH dim ei ms eps ds fs); eassumption. }
    assert (El : map (@length nat) ls = map (@length nat) ps).
    { clear - P. induction P as [|l0 p0 ls ps H P IH]; cbn; [reflexivity|]. f_equal; [|exact IH].
      apply Permutation_length in H. rewrite seq_length in H. congruence. }
    assert (IS : in_shape (map (@length nat) ps) js).
    { rewrite <- El. clear - Hv Lj Lls. revert js vs fs Hv Lj Lls.
      induction ls as [|l0 ls IH]; intros [|j js] vs [|f fs] Hv Lj Lls; cbn in *; try discriminate; constructor.
      - inversion Hv as [|? ? ? ? H1 H2]; subst. cbn [fst snd] in *. apply nth_error_Some. congruence.
      - inversion Hv as [|? ? ? ? H1 H2]; subst. injection Lj as Lj. injection Lls as Lls. eapply (IH js _ fs); eassumption. }
    destruct LT as [_ LT]. split; [apply LT; [exact Hv | lia]|].
    exists (rowmajor (map (@length nat) ps) (map (fun pj => nth (snd pj) (fst pj) 0) (combine ps js))). split.
    - rewrite El. eapply J; [| exact One | exact M | lia | lia | exact Hin | exact IS].
      rewrite <- E1. rewrite Forall2_map_l. exact Hd.
    - rewrite <- El. apply LT; [exact Hw|].
      eapply zip_positions; [exact P | lia | exact Hw].
  Qed.
End Trees.
