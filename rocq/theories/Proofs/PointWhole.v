(** Where evaluation at symbolic points works. *)
From Coq Require Import String List Arith Lia Bool.
From Verif Require Import Model.Prelude Model.Cell Model.Element Model.EntityMaps Model.Gem Model.PointSet Model.Evaluation Model.Sympy2Gem Model.PointEvaluation.
From Verif Require Import Spec.Rowmajor Spec.EntityDofs Spec.Layout Spec.Sympy Spec.Tabulation Spec.PointEvaluation.
From Verif Require Import Proofs.Lists Proofs.Cells Proofs.Cubes Proofs.EntityDofs Proofs.EntityDofs2 Proofs.Flatten
  Proofs.GemEval Proofs.Tables Proofs.Tables2 Proofs.Tables3 Proofs.Leaf Proofs.Factor Proofs.Tree Proofs.Single Proofs.PointTree.
Import ListNotations.
Open Scope fresh_scope.

(* ------------------------------------------------------------------ *)
(** ** Whole cells *)

Lemma total_le : forall c k n, In (k, n) (topology c) -> dk_total k <= spatial_dimension c.
Proof.
  induction c as [d|cs IH|d] using cell_ind'; intros k n H.
  - cbn [topology spatial_dimension] in *. apply in_map_iff in H as (j & E & Hj). injection E as <- _. apply in_seq in Hj. cbn [dk_total]. lia.
  - cbn [topology spatial_dimension] in *. apply in_product_topology in H as (ks & ns & -> & _ & Hl & HF).
    rewrite dk_total_DT. rewrite Forall2_map_l in HF. revert ks ns Hl HF. induction IH as [|c cs Hc IH IHcs]; intros ks ns Hl HF.
    + destruct ks as [|k ks]; [cbn; lia|]. destruct ns; [discriminate|]. inversion HF.
    + destruct ks as [|k ks]; [inversion HF|]. destruct ns as [|m ns]; [discriminate|]. cbn [combine] in HF. inversion HF; subst.
      cbn [map sum]. specialize (IHcs ks ns ltac:(simpl in Hl; lia) ltac:(assumption)).
      assert (dk_total k <= spatial_dimension c) by (eapply Hc; eassumption). lia.
  - apply (proj2 (cube_topology (Hypercube d) (cc_hypercube _))). unfold totals. apply in_map_iff. exists (k, n). split; [reflexivity | exact H].
Qed.

Section Whole.
  Context {F : Type}.
  Local Notation elt := (elt F).

  Definition solid (e : elt) : Prop := forall l, leaf_of l e -> 0 < spatial_dimension (lf_cell l).

  Lemma shaped_in : forall (f : elt) fs, shaped (ETensorProduct fs) -> In f fs -> shaped f.
  Proof. intros f fs HS Hf. eapply shaped_sub; [exact HS | intros; econstructor; eassumption | intros; econstructor; eassumption]. Qed.

  Lemma solid_cell : forall (e : elt) c, shaped e -> solid e -> cell_of e = Ok c -> 0 < spatial_dimension c.
  Proof.
    intros e. induction e as [l|fs IH|b s t IH|es IH|e s o IH|e IH|e IH|e IH|e IH] using elt_ind'; intros c HS HP Hc.
    - injection Hc as <-. apply HP. constructor.
    - cbn [cell_of] in Hc. apply bind_ok in Hc as (cs & Hcs & Hc). injection Hc as <-.
      assert (Hne : fs <> []) by (destruct HS as ((NE & _) & _); apply (NE fs), se_refl).
      destruct fs as [|f fs]; [congruence|]. cbn [mapM] in Hcs. apply bind_ok in Hcs as (c & Hc & Hcs). apply bind_ok in Hcs as (cs' & Hcs & E). injection E as <-.
      cbn [spatial_dimension map sum]. inversion IH as [|? ? H1 _]; subst.
      assert (0 < spatial_dimension c); [|lia]. apply H1; [eapply shaped_in; [exact HS | left; reflexivity] | | exact Hc].
      intros l Hl. apply HP. econstructor; [left; reflexivity | exact Hl].
    - apply IH; [|intros l Hl; apply HP; constructor; exact Hl | exact Hc].
      eapply shaped_sub; [exact HS | intros; constructor; assumption | intros; constructor; assumption].
    - cbn [cell_of] in Hc. apply bind_ok in Hc as (cs & Hcs & Hc). destruct (unique_ok _ _ _ _ cell_eqb_spec Hc) as [Hne Hall].
      destruct es as [|e es]; [injection Hcs as <-; congruence|]. cbn [mapM] in Hcs. apply bind_ok in Hcs as (c' & Hc' & Hcs). apply bind_ok in Hcs as (cs' & Hcs & E). injection E as <-.
      inversion Hall; subst. inversion IH as [|? ? H1' _]; subst.
      apply H1'; [|intros l Hl; apply HP; econstructor; [left; reflexivity | exact Hl] | exact Hc'].
      eapply shaped_sub; [exact HS | intros; econstructor; [left; reflexivity | eassumption] | intros; econstructor; [left; reflexivity | eassumption]].
    - apply IH; [|intros l Hl; apply HP; constructor; exact Hl | exact Hc].
      eapply shaped_sub; [exact HS | intros; constructor; assumption | intros; constructor; assumption].
    - cbn [cell_of] in Hc. apply bind_ok in Hc as (cp & Hcp & Hc).
      assert (Hdim : c = Hypercube (spatial_dimension cp)).
      { destruct (spatial_dimension cp) as [|[|[|[|d]]]]; try discriminate; injection Hc as <-; reflexivity. }
      subst c. cbn [spatial_dimension]. apply IH; [|intros l Hl; apply HP; constructor; exact Hl | exact Hcp].
      eapply shaped_sub; [exact HS | intros; constructor; assumption | intros; constructor; assumption].
    - apply IH; [|intros l Hl; apply HP; constructor; exact Hl | exact Hc].
      eapply shaped_sub; [exact HS | intros; constructor; assumption | intros; constructor; assumption].
    - apply IH; [|intros l Hl; apply HP; constructor; exact Hl | exact Hc].
      eapply shaped_sub; [exact HS | intros; constructor; assumption | intros; constructor; assumption].
    - apply IH; [|intros l Hl; apply HP; constructor; exact Hl | exact Hc].
      eapply shaped_sub; [exact HS | intros; constructor; assumption | intros; constructor; assumption].
  Qed.

  Lemma totals_equal : forall cs ks ns, length ks = length ns -> Forall2 (fun c kn => In kn (topology c)) cs (combine ks ns) ->
    sum (map dk_total ks) = sum (map spatial_dimension cs) -> Forall2 (fun c k => dk_total k = spatial_dimension c) cs ks.
  Proof.
    assert (Hle : forall cs ks ns, length ks = length ns -> Forall2 (fun c kn => In kn (topology c)) cs (combine ks ns) ->
      sum (map dk_total ks) <= sum (map spatial_dimension cs)).
    { induction cs as [|c cs IH]; intros [|k ks] [|n ns] Hl H; try discriminate; cbn [combine] in H; inversion H; subst; [cbn; lia|].
      cbn [map sum]. specialize (IH ks ns ltac:(simpl in Hl; lia) ltac:(assumption)).
      match goal with H : In (k, n) _ |- _ => pose proof (total_le _ _ _ H) end. lia. }
    induction cs as [|c cs IH]; intros [|k ks] [|n ns] Hl H E; try discriminate; cbn [combine] in H; inversion H; subst; constructor.
    - match goal with H : In (k, n) _ |- _ => pose proof (total_le _ _ _ H) as Hk end.
      pose proof (Hle cs ks ns ltac:(simpl in Hl; lia) ltac:(assumption)) as Hr; cbn [map sum] in E. lia.
    - match goal with H : In (k, n) _ |- _ => pose proof (total_le _ _ _ H) as Hk end.
      pose proof (Hle cs ks ns ltac:(simpl in Hl; lia) ltac:(assumption)) as Hr; cbn [map sum] in E.
      apply (IH ks ns); [simpl in Hl; lia | assumption | lia].
  Qed.

  (** An entity of full dimension can be cut. *)
  Theorem whole_sliceable : forall (e : elt) c ent, shaped e -> solid e -> cell_of e = Ok c -> entity_of (topology c) ent ->
    dk_total (fst ent) = spatial_dimension c -> sliceable e ent.
  Proof.
    intros e. induction e as [l|fs IH|b s t IH|es IH|e s o IH|e IH|e IH|e IH|e IH] using elt_ind'; intros c ent HS HP Hc Hent Hd.
    - constructor.
    - cbn [cell_of] in Hc. apply bind_ok in Hc as (cs & Hcs & Hc). injection Hc as <-.
      destruct (factor_entity_ok cs (Some ent) Hent) as (ks & ns & es & Een & Htop & Hl & Hin & _). cbn [entity_or_cell] in Een. subst ent.
      cbn [fst spatial_dimension] in Hd. rewrite dk_total_DT in Hd.
      pose proof (totals_equal cs ks ns Hl Htop Hd) as Heq.
      assert (Le : length ks = length es) by (rewrite Hl; apply in_shape_length; exact Hin).
      apply (product_sliceable fs cs ks ns es Hcs Htop Hl Hin).
      + apply mapM_ok in Hcs. clear -Heq Hcs HS HP. revert ks Heq.
        assert (Hsub : forall f, In f fs -> shaped f /\ solid f).
        { intros f Hf. split; [eapply shaped_in; eassumption|]. intros l Hll. apply HP. econstructor; eassumption. }
        clear HS HP. induction Hcs as [|f c fs cs Hc Hcs IHf]; intros ks Heq; inversion Heq; subst; constructor.
        * destruct (Hsub f (or_introl eq_refl)) as [S1 P1]. pose proof (solid_cell f c S1 P1 Hc). lia.
        * apply IHf; [intros f' Hf'; apply Hsub; right; exact Hf' | assumption].
      + apply mapM_ok in Hcs.
        assert (Hsub : forall f, In f fs -> shaped f /\ solid f).
        { intros f Hf. split; [eapply shaped_in; eassumption|]. intros l Hll. apply HP. econstructor; eassumption. }
        clear HS HP Hent Hd. revert cs ks ns es Hcs Htop Hl Hin Heq Le. induction IH as [|f fs Hf IH IHf]; intros cs ks ns es Hcs Htop Hl Hin Heq Le.
        * inversion Hcs; subst. inversion Heq; subst. constructor.
        * inversion Hcs as [|? c ? cs' Hc Hcs']; subst. inversion Heq as [|? k ? ks' Hk Heq']; subst.
          destruct ns as [|n ns]; [discriminate|]. destruct es as [|i es]; [discriminate|]. cbn [combine] in Htop |- *.
          inversion Htop; subst. inversion Hin; subst. destruct (Hsub f (or_introl eq_refl)) as [S1 P1]. constructor.
          -- apply (Hf c); [exact S1 | exact P1 | exact Hc | exists n; split; assumption | exact Hk].
          -- apply (IHf ltac:(intros f' Hf'; apply Hsub; right; exact Hf') cs' ks' ns es); simpl in *; auto.
    - constructor. apply (IH c); [| | exact Hc | exact Hent | exact Hd]; [|intros l Hl; apply HP; constructor; exact Hl].
      eapply shaped_sub; [exact HS | intros; constructor; assumption | intros; constructor; assumption].
    - cbn [cell_of] in Hc. apply bind_ok in Hc as (cs & Hcs & Hc). destruct (unique_ok _ _ _ _ cell_eqb_spec Hc) as [Hne Hall].
      constructor. intros e He. rewrite Forall_forall in IH.
      assert (Hce : cell_of e = Ok c).
      { apply mapM_ok in Hcs. clear -Hcs Hall He. induction Hcs as [|x z l ys Hx E IHE]; [destruct He|].
        inversion Hall; subst. destruct He as [<-|He]; [exact Hx | apply IHE; assumption]. }
      apply (IH e He c); [|intros l Hl; apply HP; econstructor; eassumption | exact Hce | exact Hent | exact Hd].
      eapply shaped_sub; [exact HS | intros; econstructor; eassumption | intros; econstructor; eassumption].
    - constructor. apply (IH c); [| | exact Hc | exact Hent | exact Hd]; [|intros l Hl; apply HP; constructor; exact Hl].
      eapply shaped_sub; [exact HS | intros; constructor; assumption | intros; constructor; assumption].
    - cbn [cell_of] in Hc. apply bind_ok in Hc as (cp & Hcp & Hc).
      assert (Hdim : c = Hypercube (spatial_dimension cp)).
      { destruct (spatial_dimension cp) as [|[|[|[|d]]]]; try discriminate; injection Hc as <-; reflexivity. }
      assert (Hcube : cube_cell cp) by (destruct HS as ((_ & S) & _); eapply S; [apply se_refl | exact Hcp]).
      subst c. destruct ent as [K j]. pose proof Hent as (m & Hin & _). cbn [fst] in Hin.
      apply (in_map fst) in Hin. cbn [topology fst] in Hin. apply flatten_topology_keys in Hin as (k & -> & _).
      destruct (unflatten_bijective cp) as (_ & Hto & _ & Hcub).
      destruct (proj1 (Hcub Hcube k j) Hent) as [[K I] Hun]. destruct (Hto _ _ _ _ Hun) as [Htot HentK].
      eapply sl_flattened; [exact Hcp | exact Hun|]. apply (IH cp); [| | exact Hcp | exact HentK|].
      + eapply shaped_sub; [exact HS | intros; constructor; assumption | intros; constructor; assumption].
      + intros l Hl; apply HP; constructor; exact Hl.
      + cbn [fst dk_total spatial_dimension] in *. lia.
    - constructor. apply (IH c); [| | exact Hc | exact Hent | exact Hd]; [|intros l Hl; apply HP; constructor; exact Hl].
      eapply shaped_sub; [exact HS | intros; constructor; assumption | intros; constructor; assumption].
    - constructor. apply (IH c); [| | exact Hc | exact Hent | exact Hd]; [|intros l Hl; apply HP; constructor; exact Hl].
      eapply shaped_sub; [exact HS | intros; constructor; assumption | intros; constructor; assumption].
    - constructor. apply (IH c); [| | exact Hc | exact Hent | exact Hd]; [|intros l Hl; apply HP; constructor; exact Hl].
      eapply shaped_sub; [exact HS | intros; constructor; assumption | intros; constructor; assumption].
  Qed.
End Whole.

(* ------------------------------------------------------------------ *)
(** ** It works or it fails *)

Section Fails.
  Context {F : Type} (o : ops F).
  Context (R : ring_theory (f0 o) (f1 o) (fadd o) (fmul o) (fsub o) (fopp o) eq).
  Context (leaf_point : leaf F -> nat -> gem F -> option (dimkey * nat) -> fresh (list (list nat * gem F))).
  Context (vars : string -> list nat -> F).
  Local Notation elt := (elt F).

  Definition settled (e : elt) : Prop :=
    forall order pnt ent n c vs,
      all_checked e -> shaped e -> leaves_evaluate o leaf_point e ->
      cell_of e = Ok c -> value_shape e = Ok vs ->
      gshape pnt = [dk_total (fst (entity_or_cell c ent))] -> (forall x, In x (gfree pnt) -> x < n) ->
      entity_of (topology c) (entity_or_cell c ent) ->
      sliceable e (entity_or_cell c ent) \/ point_evaluation o leaf_point e order pnt ent n = Err AssertionError.

  (** A factor that is a point stops a product, whatever the leaves do. *)
  Lemma product_refuses : forall fs cs order pnt ent n,
    mapM cell_of fs = Ok cs -> entity_of (topology (TPCell cs)) (entity_or_cell (TPCell cs) ent) ->
    gshape pnt = [dk_total (fst (entity_or_cell (TPCell cs) ent))] ->
    (exists ks i, entity_or_cell (TPCell cs) ent = (DT ks, i) /\ In 0 (map dk_total ks)) ->
    point_evaluation o leaf_point (ETensorProduct fs) order pnt ent n = Err AssertionError.
  Proof using Type.
    intros fs cs order pnt ent n Hcs Hent Hp (ks' & i & Ek & Hz).
    destruct (factor_entity_ok cs ent Hent) as (ks & ns & es & Een & Htop & Hl & Hin & Hfe).
    rewrite Een in *. injection Ek as <- <-. cbn [fst] in Hp. rewrite dk_total_DT in Hp.
    assert (Le : length ks = length es) by (rewrite Hl; apply in_shape_length; exact Hin).
    assert (Hents : map (fun x : dimkey * nat => dk_total (fst x)) (combine ks es) = map dk_total ks).
    { clear -Le. revert es Le. induction ks as [|k ks IH]; intros [|i es] L; try discriminate; [reflexivity|].
      cbn [combine map fst]. rewrite IH by (simpl in L; lia). reflexivity. }
    cbn [point_evaluation]. unfold fbind, flift. rewrite Hcs. cbn [bind]. rewrite Hfe. cbn [bind].
    assert (Hn : Nat.eqb (length (combine ks es)) 0 = false).
    { rewrite combine_length, <- Le, Nat.min_id. apply Nat.eqb_neq. destruct ks; [destruct Hz | discriminate]. }
    rewrite Hn. cbn [negb guard bind]. rewrite Hents, (split_point_empty _ _ Hp Hz). reflexivity.
  Qed.

  Lemma product_wrong_shape : forall fs cs order pnt ent n, fs <> [] ->
    mapM cell_of fs = Ok cs -> entity_of (topology (TPCell cs)) (entity_or_cell (TPCell cs) ent) ->
    gshape pnt <> [dk_total (fst (entity_or_cell (TPCell cs) ent))] ->
    point_evaluation o leaf_point (ETensorProduct fs) order pnt ent n = Err AssertionError.
  Proof using Type.
    intros fs cs order pnt ent n Hne Hcs Hent Hp.
    destruct (factor_entity_ok cs ent Hent) as (ks & ns & es & Een & Htop & Hl & Hin & Hfe).
    rewrite Een in *. cbn [fst] in Hp. rewrite dk_total_DT in Hp.
    assert (Le : length ks = length es) by (rewrite Hl; apply in_shape_length; exact Hin).
    assert (Hents : map (fun x : dimkey * nat => dk_total (fst x)) (combine ks es) = map dk_total ks).
    { clear -Le. revert es Le. induction ks as [|k ks IH]; intros [|i es] L; try discriminate; [reflexivity|].
      cbn [combine map fst]. rewrite IH by (simpl in L; lia). reflexivity. }
    cbn [point_evaluation]. unfold fbind, flift. rewrite Hcs. cbn [bind]. rewrite Hfe. cbn [bind].
    assert (Hn : Nat.eqb (length (combine ks es)) 0 = false).
    { rewrite combine_length, <- Le, Nat.min_id. apply Nat.eqb_neq.
      rewrite <- (Forall2_combine_l _ _ _ _ _ _ _ Htop Hl). rewrite (mapM_length _ _ _ _ _ Hcs). destruct fs; [congruence | discriminate]. }
    rewrite Hn. cbn [negb guard bind]. rewrite Hents, (split_point_shape _ _ Hp). reflexivity.
  Qed.

  Lemma factors_settled : forall order fs cs vss (pss : list (gem F)) (ents : list (dimkey * nat)) n,
    Forall settled fs -> Forall all_checked fs -> Forall shaped fs -> Forall (leaves_evaluate o leaf_point) fs ->
    Forall2 (fun f c => cell_of f = Ok c) fs cs -> Forall2 (fun f v => value_shape f = Ok v) fs vss ->
    Forall2 (fun x q => gshape q = [dk_total (fst x)]) ents pss ->
    Forall2 (fun c x => entity_of (topology c) x) cs ents ->
    (forall q x, In q pss -> In x (gfree q) -> x < n) ->
    Forall2 sliceable fs ents \/
    map2F (fun fe pe => point_evaluation o leaf_point fe order (fst pe) (Some (snd pe))) fs (zip pss ents) n = Err AssertionError.
  Proof using R vars.
    intros order fs. induction fs as [|f fs IH]; intros cs vss pss ents n HT HC HS HL Hcs Hvs Hps Hent Hids.
    - inversion Hcs; subst. inversion Hent; subst. left. constructor.
    - inversion Hcs as [|? c ? cs' Hc Hcs']; subst. inversion Hvs as [|? v ? vss' Hv Hvs']; subst.
      inversion Hent as [|? x ? ents' Hx Hent']; subst.
      inversion Hps as [|? q ? pss' P1 P2]; subst.
      inversion HT as [|? ? T1 T2]; subst. inversion HC as [|? ? C1 C2]; subst. inversion HS as [|? ? S1 S2]; subst.
      inversion HL as [|? ? L1 L2]; subst.
      assert (Hq : forall y, In y (gfree q) -> y < n) by (intros y Hy; apply (Hids q); [left; reflexivity | exact Hy]).
      cbn [zip map2F fst snd].
      destruct (T1 order q (Some x) n c v C1 S1 L1 Hc Hv P1 Hq Hx) as [Hs|He].
      2:{ right. unfold fbind. unfold entity, tables in *. rewrite He. reflexivity. }
      cbn [entity_or_cell] in Hs.
      destruct (tree_evaluates o R leaf_point vars f order q (Some x) n c v C1 S1 L1 Hc Hv P1 Hq Hx Hs) as (ts & n1 & E & Hle & _).
      destruct (IH cs' vss' pss' ents' n1 T2 C2 S2 L2 Hcs' Hvs' P2 Hent') as [Hss|Hee].
      { intros q' i Hq' Hi. specialize (Hids q' i (or_intror Hq') Hi). lia. }
      + left. constructor; assumption.
      + right. unfold fbind. unfold entity, tables in *. rewrite E, Hee. reflexivity.
  Qed.

  Lemma summands_settled : forall order pnt ent c vs es n,
    Forall settled es -> (forall e, In e es -> all_checked e /\ shaped e /\ leaves_evaluate o leaf_point e /\ cell_of e = Ok c /\
      value_shape e = Ok vs) ->
    gshape pnt = [dk_total (fst (entity_or_cell c ent))] -> (forall x, In x (gfree pnt) -> x < n) ->
    entity_of (topology c) (entity_or_cell c ent) ->
    (forall e, In e es -> sliceable e (entity_or_cell c ent)) \/
    mapF (fun x => point_evaluation o leaf_point x order pnt ent) es n = Err AssertionError.
  Proof using R vars.
    intros order pnt ent c vs es. induction es as [|e es IH]; intros n HT H Hps Hids Hent.
    - left. intros e [].
    - inversion HT as [|? ? T1 T2]; subst. destruct (H e (or_introl eq_refl)) as (C & S & L & Hc & Hv).
      cbn [mapF]. destruct (T1 order pnt ent n c vs C S L Hc Hv Hps Hids Hent) as [Hs|He].
      2:{ right. unfold fbind. unfold entity, tables in *. rewrite He. reflexivity. }
      destruct (tree_evaluates o R leaf_point vars e order pnt ent n c vs C S L Hc Hv Hps Hids Hent Hs) as (ts & n1 & E & Hle & _).
      destruct (IH n1 T2) as [Hss|Hee]; auto.
      { intros e' He'. apply H. right. exact He'. }
      { intros i Hi. specialize (Hids i Hi). lia. }
      + left. intros e' [<-|He']; [exact Hs | apply Hss; exact He'].
      + right. unfold fbind. unfold entity, tables in *. rewrite E, Hee. reflexivity.
  Qed.

  Theorem tree_settled : forall e, settled e.
  Proof using R vars.
    induction e as [l|fs IH|b sh t IH|es IH|e sz off IH|e IH|e IH|e IH|e IH] using elt_ind';
      intros order pnt ent n c vs HC HS HL Hc Hvs Hps Hids Hent.
    - left. constructor.
    - cbn [cell_of] in Hc. apply bind_ok in Hc as (cs & Hcs & Hc). injection Hc as <-.
      cbn [value_shape] in Hvs. apply bind_ok in Hvs as (ss & Hss & Hvs).
      destruct (factor_entity_ok cs ent Hent) as (ks & ns & es & Een & Htop & Hl & Hin & Hfe).
      destruct (in_dec Nat.eq_dec 0 (map dk_total ks)) as [Hz|Hz].
      { right. apply (product_refuses fs cs); auto. exists ks, (ravel ns es). auto. }
      assert (Hpos : Forall (fun k => 0 < dk_total k) ks).
      { apply Forall_forall. intros k Hk. destruct (dk_total k) eqn:E; [|lia]. exfalso. apply Hz. rewrite <- E. apply in_map. exact Hk. }
      rewrite Een in *. cbn [fst] in Hps. rewrite dk_total_DT in Hps.
      destruct (split_point_ok (map dk_total ks) pnt Hps) as (pss & Epss & Spos & Sincl & Spt).
      { rewrite Forall_map. exact Hpos. }
      assert (Le : length ks = length es) by (rewrite Hl; apply in_shape_length; exact Hin).
      assert (Hents : map (fun x : dimkey * nat => dk_total (fst x)) (combine ks es) = map dk_total ks).
      { clear -Le. revert es Le. induction ks as [|k ks IH]; intros [|i es] L; try discriminate; [reflexivity|].
        cbn [combine map fst]. rewrite IH by (simpl in L; lia). reflexivity. }
      assert (Hne : fs <> []) by (destruct HS as ((NE & _) & _); apply (NE fs), se_refl).
      destruct (factors_settled order fs cs ss pss (combine ks es) n) as [Hsl|He]; auto.
      { apply Forall_forall. intros f Hf x Hx. apply HC. econstructor; eassumption. }
      { apply Forall_forall. intros f Hf. eapply shaped_in; eassumption. }
      { apply Forall_forall. intros f Hf l Hll. apply HL. econstructor; eassumption. }
      { apply mapM_ok. exact Hcs. }
      { apply mapM_ok. exact Hss. }
      { rewrite <- Hents in Spos. rewrite Forall2_map_l in Spos. exact Spos. }
      { clear -Htop Hin Hl. revert ks ns es Htop Hin Hl. induction cs as [|c cs IH]; intros [|k ks] [|m ns] es Htop Hin Hl; try discriminate; simpl in Htop; inversion Htop; subst.
        - constructor.
        - inversion Hin as [|? i ? es' Hi Hin']; subst. cbn [combine]. constructor; [exists m; split; assumption|].
          eapply IH; [eassumption | exact Hin' | simpl in Hl; lia]. }
      { intros q i Hq Hi. apply Hids. rewrite Forall_forall in Sincl. eapply Sincl; eassumption. }
      + left. apply (product_sliceable fs cs); assumption.
      + right. cbn [point_evaluation]. unfold fbind at 1. unfold flift at 1. rewrite Hcs. cbn [bind].
        unfold fbind at 1. unfold flift at 1. rewrite Hfe. cbn [bind].
        assert (Hn : Nat.eqb (length (combine ks es)) 0 = false).
        { rewrite combine_length, <- Le, Nat.min_id. apply Nat.eqb_neq.
          rewrite <- (Forall2_combine_l _ _ _ _ _ _ _ Htop Hl). rewrite (mapM_length _ _ _ _ _ Hcs). destruct fs; [congruence | discriminate]. }
        unfold fbind at 1. unfold flift at 1. rewrite Hn. cbn [negb guard bind].
        unfold fbind at 1. unfold flift at 1. rewrite Hents, Epss. cbn [bind].
        unfold fbind at 1. unfold entity, tables in *. rewrite He. reflexivity.
    - cbn [cell_of] in Hc. cbn [value_shape] in Hvs. apply bind_ok in Hvs as (vb & Hvb & Hvs).
      destruct (IH order pnt ent n c vb) as [Hs|He]; auto.
      { eapply checked_sub; [exact HC | intros; constructor; assumption]. }
      { eapply shaped_sub; [exact HS | intros; constructor; assumption | intros; constructor; assumption]. }
      { eapply leaves_evaluate_sub; [exact HL | intros; constructor; assumption]. }
      + left. constructor. exact Hs.
      + right. cbn [point_evaluation]. unfold fbind. unfold entity, tables in *. rewrite He. reflexivity.
    - cbn [cell_of] in Hc. apply bind_ok in Hc as (cs & Hcs & Hc).
      destruct (unique_ok _ _ _ _ cell_eqb_spec Hc) as [Hne Hallc].
      cbn [value_shape] in Hvs. apply bind_ok in Hvs as (ss & Hss & Hvs).
      destruct (unique_ok _ _ _ _ (list_eqb_spec _ _ nat_eqb_spec) Hvs) as [_ Halls].
      assert (Hone : forall A (g : elt -> result A) l ys y, mapM g l = Ok ys -> Forall (eq y) ys -> forall e, In e l -> g e = Ok y).
      { intros A g l ys y E Ha e Hin. apply mapM_ok in E. clear -E Ha Hin. induction E as [|x z l ys Hx E IHE]; [destruct Hin|].
        inversion Ha; subst. destruct Hin as [<-|Hin]; [exact Hx | apply IHE; assumption]. }
      destruct (summands_settled order pnt ent c vs es n IH) as [Hs|He]; auto.
      { intros e He. split; [eapply checked_sub; [exact HC | intros; econstructor; eassumption]|].
        split; [eapply shaped_sub; [exact HS | intros; econstructor; eassumption | intros; econstructor; eassumption]|].
        split; [eapply leaves_evaluate_sub; [exact HL | intros; econstructor; eassumption]|].
        split; eapply Hone; eassumption. }
      + left. constructor. exact Hs.
      + right. cbn [point_evaluation]. unfold fbind. unfold entity, tables in *. rewrite He. reflexivity.
    - cbn [cell_of] in Hc. destruct (HC _ (se_refl _)) as (sh & Hsh & Hle0).
      destruct (IH order pnt ent n c sh) as [Hs|He]; auto.
      { eapply checked_sub; [exact HC | intros; constructor; assumption]. }
      { eapply shaped_sub; [exact HS | intros; constructor; assumption | intros; constructor; assumption]. }
      { eapply leaves_evaluate_sub; [exact HL | intros; constructor; assumption]. }
      + left. constructor. exact Hs.
      + right. cbn [point_evaluation]. unfold fbind. unfold entity, tables in *. rewrite He. reflexivity.
    - cbn [value_shape] in Hvs. pose proof Hc as Hc0. cbn [cell_of] in Hc. apply bind_ok in Hc as (cp & Hcp & Hc).
      assert (Hdim : c = Hypercube (spatial_dimension cp)).
      { destruct (spatial_dimension cp) as [|[|[|[|d]]]]; try discriminate; injection Hc as <-; reflexivity. }
      assert (Hcube : cube_cell cp) by (destruct HS as ((_ & S) & _); eapply S; [apply se_refl | exact Hcp]).
      subst c.
      assert (Hkey : exists k j, entity_or_cell (Hypercube (spatial_dimension cp)) ent = (DI k, j)).
      { destruct (entity_or_cell (Hypercube (spatial_dimension cp)) ent) as [K j]. destruct Hent as (m & Hin & _). cbn [fst] in Hin.
        apply (in_map fst) in Hin. cbn [topology fst] in Hin. apply flatten_topology_keys in Hin as (k & -> & _).
        exists k, j. reflexivity. }
      destruct Hkey as (k & j & Ekj). rewrite Ekj in Hent, Hps |- *.
      destruct (unflatten_bijective cp) as (_ & Hto & _ & Hcub).
      destruct (proj1 (Hcub Hcube k j) Hent) as [[K I] Hun].
      destruct (Hto _ _ _ _ Hun) as [Htot HentK].
      destruct (IH order pnt (Some (K, I)) n cp vs) as [Hs|He]; auto.
      { eapply checked_sub; [exact HC | intros; constructor; assumption]. }
      { eapply shaped_sub; [exact HS | intros; constructor; assumption | intros; constructor; assumption]. }
      { eapply leaves_evaluate_sub; [exact HL | intros; constructor; assumption]. }
      { cbn [entity_or_cell fst] in *. rewrite Htot. exact Hps. }
      + left. eapply sl_flattened; [exact Hcp | exact Hun | exact Hs].
      + right. cbn [point_evaluation]. unfold fbind, flift. unfold entity, tables in *. rewrite Hcp.
        destruct ent as [[k' j']|]; cbn [entity_or_cell get_dimension] in Ekj.
        * injection Ekj as -> ->. cbn [bind]. rewrite Hun. exact He.
        * injection Ekj as <- <-. cbn [bind]. rewrite Hc0. cbn [bind].
          change (unflatten_entity cp None) with (unflatten_entity cp (Some (spatial_dimension cp, 0))). rewrite Hun. exact He.
    - destruct (IH order pnt ent n c vs) as [Hs|He]; auto.
      { eapply checked_sub; [exact HC | intros; constructor; assumption]. }
      { eapply shaped_sub; [exact HS | intros; constructor; assumption | intros; constructor; assumption]. }
      { eapply leaves_evaluate_sub; [exact HL | intros; constructor; assumption]. }
      left. constructor. exact Hs.
    - destruct (HC _ (se_refl _)) as (tr & Htr).
      assert (Hem : exists slots, embeds hdiv_case e slots) by (destruct HS as (_ & _ & _ & S4 & _); apply S4, se_refl).
      destruct Hem as (slots & Hem). destruct (hdiv_select e slots tr Hem Htr) as (_ & Hws & _).
      destruct (IH order pnt ent n c (wshape_of tr)) as [Hs|He]; auto.
      { eapply checked_sub; [exact HC | intros; constructor; assumption]. }
      { eapply shaped_sub; [exact HS | intros; constructor; assumption | intros; constructor; assumption]. }
      { eapply leaves_evaluate_sub; [exact HL | intros; constructor; assumption]. }
      + left. constructor. exact Hs.
      + right. cbn [point_evaluation]. unfold fbind. unfold entity, tables in *. rewrite He. reflexivity.
    - destruct (HC _ (se_refl _)) as (tr & Htr).
      assert (Hem : exists slots, embeds hcurl_case e slots) by (destruct HS as (_ & _ & _ & _ & S5); apply S5, se_refl).
      destruct Hem as (slots & Hem). destruct (hcurl_select e slots tr Hem Htr) as (_ & Hws & _).
      destruct (IH order pnt ent n c (wshape_of tr)) as [Hs|He]; auto.
      { eapply checked_sub; [exact HC | intros; constructor; assumption]. }
      { eapply shaped_sub; [exact HS | intros; constructor; assumption | intros; constructor; assumption]. }
      { eapply leaves_evaluate_sub; [exact HL | intros; constructor; assumption]. }
      + left. constructor. exact Hs.
      + right. cbn [point_evaluation]. unfold fbind. unfold entity, tables in *. rewrite He. reflexivity.
  Qed.
End Fails.

Lemma fiat_wrong_shape : forall F (o : ops F) ofZ nan fn sym (l : leaf F) order p ent n,
  gshape p <> [dk_total (fst (entity_or_cell (lf_cell l) ent))] ->
  fiat_point_evaluation o ofZ nan fn sym l order p ent n = Err AssertionError.
Proof.
  intros F o ofZ nan fn sym l order p ent n H.
  assert (E : list_eqb Nat.eqb (gshape p) [dk_total (fst (entity_or_cell (lf_cell l) ent))] = false).
  { destruct (list_eqb_spec _ _ nat_eqb_spec (gshape p) [dk_total (fst (entity_or_cell (lf_cell l) ent))]) as [C|_]; [congruence | reflexivity]. }
  unfold fiat_point_evaluation, fbind, flift. destruct ent; cbn [entity_or_cell] in E; rewrite E; reflexivity.
Qed.

(* ------------------------------------------------------------------ *)
(** ** The same numbers as a tabulation at that point *)

Lemma point_tables_agree : forall F (o : ops F) vars (e : elt F) d order vs p en ts ts' pt,
  point_tables_ok o vars e d order vs p en ts -> tables_ok o vars e d order vs (PSingleton pt) en ts' ->
  forall alpha g g' env b v, In (alpha, g) ts -> In (alpha, g') ts' -> in_shape (index_shape e) b -> in_shape vs v ->
    coordinates o vars p env (dk_total (fst en)) = pt -> eval o vars g env (b ++ v) = eval o vars g' env (b ++ v).
Proof.
  intros F o vars e d order vs p en ts ts' pt [_ H] [_ H'] alpha g g' env b v Hg Hg' Hb Hv Ept.
  destruct (H alpha g Hg) as (_ & _ & He). destruct (H' alpha g' Hg') as (_ & He').
  specialize (He env b v Hb Hv). rewrite Ept in He.
  apply (value_unique o e _ _ _ _ _ _ _ He). apply (He' env b v); auto. intros i [].
Qed.
