(** Restriction of H(div) and H(curl) wrappers, and the main induction. *)
From Coq Require Import String List Arith ZArith Lia Bool.
From Verif Require Import Model.Prelude Model.Cell Model.Element Model.Gem Model.PointSet Model.Restricted.
From Verif Require Import Spec.Rowmajor Spec.EntityDofs Spec.Layout Spec.Tabulation Spec.Restricted.
From Verif Require Import Proofs.Lists Proofs.Cells Proofs.EntityDofs Proofs.EntityDofs2 Proofs.Layout Proofs.Flatten Proofs.DofProps Proofs.DualTree
  Proofs.Tree Proofs.TabProps Proofs.Restrict1 Proofs.Restrict2 Proofs.Restrict3 Proofs.Restrict4 Proofs.Restrict5 Proofs.Restrict6.
Import ListNotations.
Local Open Scope nat_scope.

Section Wrappers.
  Context {F : Type} (o : ops F) (fr : leaf F -> string -> bool -> result (leaf F)).
  Local Notation elt := (elt F).
  Local Notation R := (R o).
  Local Notation Q := (Q o fr).
  Local Notation restricted_to := (restricted_to o).

  Lemma stands_data : forall fs rs : list elt, Forall2 stands_for fs rs -> Forall uniform fs ->
    exists ks cs, mapM formdegree fs = Ok ks /\ mapM formdegree rs = Ok ks /\ map mapping rs = map mapping fs /\
      mapM cell_of fs = Ok cs /\ mapM cell_of rs = Ok cs.
  Proof.
    induction 1 as [|f r fs rs ((c & C1 & C2) & _ & Hk) H IH]; intros Uf; [exists [], []; auto 6|].
    inversion Uf; subst. destruct Hk as (k & K1 & K2 & K3); [assumption|].
    destruct IH as (ks & cs & I1 & I2 & I3 & I4 & I5); [assumption|].
    exists (k :: ks), (c :: cs). cbn [mapM map]. rewrite K1, K2, I1, I2, K3, I3, C1, C2, I4, I5. auto 6.
  Qed.

  Lemma pair_data : forall fs rs : list elt, Forall2 stands_for fs rs -> Forall uniform fs ->
    mapping (ETensorProduct rs) = mapping (ETensorProduct fs) /\ cell_of (ETensorProduct rs) = cell_of (ETensorProduct fs) /\
    mapM formdegree rs = mapM formdegree fs /\ (forall s, value_shape (ETensorProduct fs) = Ok s -> value_shape (ETensorProduct rs) = Ok s).
  Proof.
    intros fs rs H U. destruct (stands_data fs rs H U) as (ks & cs & A & B & C & D & E). cbn [mapping cell_of].
    rewrite C, D, E, A, B. repeat split; auto. intros s Hs. destruct (product_shape _ _ Hs) as (ss & S1 & S2).
    cbn [value_shape]. rewrite (stands_shapes _ _ _ H S1). exact S2.
  Qed.

  Lemma hdiv_same : forall fs rs : list elt, Forall2 stands_for fs rs -> Forall uniform fs ->
    mk_hdiv (ETensorProduct fs) = Ok (EHDiv (ETensorProduct fs)) -> mk_hdiv (ETensorProduct rs) = Ok (EHDiv (ETensorProduct rs)).
  Proof.
    intros fs rs H U Hm. destruct (pair_data fs rs H U) as (A & B & C & _).
    unfold mk_hdiv in *. cbn [wrapper_factors bind] in *. rewrite C, B.
    apply bind_ok in Hm as (ks & -> & Hm). cbn [bind] in *. apply bind_ok in Hm as (ns & -> & Hm). cbn [bind] in *.
    apply bind_ok in Hm as (c & -> & Hm). cbn [bind] in *. apply bind_ok in Hm as ([] & -> & Hm). cbn [bind] in *.
    apply bind_ok in Hm as (t & Hsel & _). unfold select_hdiv_transformer in *. cbn [wrapper_factors bind] in *.
    destruct fs as [|f0 [|f1 [|f2 fs]]]; try discriminate.
    inversion H as [|? r0 ? ? H0 H']; subst. inversion H' as [|? r1 ? ? H1 H'']; subst. inversion H''; subst.
    inversion U as [|? ? U0 U']; subst. inversion U' as [|? ? U1 _]; subst.
    rewrite A. clear A. destruct H0 as (_ & _ & K0), H1 as ((c1 & D1 & D2) & _ & K1).
    destruct (K0 U0) as (k0 & X1 & X2 & _), (K1 U1) as (k1 & Y1 & Y2 & _).
    rewrite D1 in Hsel. rewrite D2. cbn [bind] in *. rewrite X1, Y1 in Hsel. rewrite X2, Y2. rewrite Hsel. reflexivity.
  Qed.

  Lemma hcurl_same : forall fs rs : list elt, Forall2 stands_for fs rs -> Forall uniform fs ->
    mk_hcurl (ETensorProduct fs) = Ok (EHCurl (ETensorProduct fs)) -> mk_hcurl (ETensorProduct rs) = Ok (EHCurl (ETensorProduct rs)).
  Proof.
    intros fs rs H U Hm. destruct (pair_data fs rs H U) as (A & B & C & _).
    unfold mk_hcurl in *. cbn [wrapper_factors bind] in *. rewrite C.
    apply bind_ok in Hm as (ks & -> & Hm). cbn [bind] in *. apply bind_ok in Hm as (ns & -> & Hm). cbn [bind] in *.
    apply bind_ok in Hm as ([] & -> & Hm). cbn [bind] in *.
    apply bind_ok in Hm as (t & Hsel & _). unfold select_hcurl_transformer in *. cbn [wrapper_factors bind] in *.
    destruct fs as [|f0 [|f1 [|f2 fs]]]; try discriminate.
    inversion H as [|? r0 ? ? H0 H']; subst. inversion H' as [|? r1 ? ? H1 H'']; subst. inversion H''; subst.
    inversion U as [|? ? U0 U']; subst. inversion U' as [|? ? U1 _]; subst.
    rewrite A, B. clear A B. destruct H0 as (_ & _ & K0), H1 as ((c1 & D1 & D2) & _ & K1).
    destruct (K0 U0) as (k0 & X1 & X2 & _), (K1 U1) as (k1 & Y1 & Y2 & _).
    rewrite D1 in Hsel. rewrite D2. cbn [bind] in *. rewrite X1, Y1 in Hsel. rewrite X2, Y2. rewrite Hsel. reflexivity.
  Qed.

  Lemma embeds_same : forall case fs rs slots, Forall2 stands_for fs rs -> Forall uniform fs ->
    (exists s, value_shape (ETensorProduct fs : elt) = Ok s) ->
    (embeds case (ETensorProduct rs) slots <-> embeds case (ETensorProduct fs) slots).
  Proof.
    intros case fs rs slots H U (s & Hs). destruct (pair_data fs rs H U) as (A & B & C & D). specialize (D s Hs).
    split; intros (a & b & k0 & k1 & vs & c & E & Ha & Hb & Hvs & Hc & Hcase); injection E as ->.
    - inversion H as [|f0 ? ? ? H0 H']; subst. inversion H' as [|f1 ? ? ? H1 H'']; subst. inversion H''; subst.
      inversion U as [|? ? U0 U']; subst. inversion U' as [|? ? U1 _]; subst.
      destruct H0 as (_ & _ & K0), H1 as (_ & _ & K1).
      destruct (K0 U0) as (k & X1 & X2 & _), (K1 U1) as (k' & Y1 & Y2 & _).
      exists f0, f1, k0, k1, s, c. rewrite <- A, <- B. rewrite D in Hvs. injection Hvs as ->.
      repeat split; try assumption; try reflexivity; congruence.
    - inversion H as [|? r0 ? ? H0 H']; subst. inversion H' as [|? r1 ? ? H1 H'']; subst. inversion H''; subst.
      inversion U as [|? ? U0 U']; subst. inversion U' as [|? ? U1 _]; subst.
      destruct H0 as (_ & _ & K0), H1 as (_ & _ & K1).
      destruct (K0 U0) as (k & X1 & X2 & _), (K1 U1) as (k' & Y1 & Y2 & _).
      exists r0, r1, k0, k1, vs, c. rewrite A, B. rewrite Hs in Hvs. injection Hvs as ->.
      repeat split; try assumption; try reflexivity; congruence.
  Qed.

  (** What the two wrappers have in common. *)
  Record wrapper (W : elt -> elt) (case : nat -> nat -> option string -> list nat -> nat -> list slot -> Prop) : Prop := {
    w_good : forall c w, good c (W w) <-> good c w;
    w_dims : forall w, dims (W w) = dims w;
    w_dofs : forall w, entity_dofs (W w) = entity_dofs w;
    w_shape : forall w c, cell_of w = Ok c -> value_shape (W w) = Ok [spatial_dimension c];
    w_value : forall w alpha ent pt i v x, value_of o (W w) alpha ent pt i v x <->
      exists slots k, v = [k] /\ embeds case w slots /\
        ((nth_error slots k = Some SZero /\ x = f0 o) \/
         (exists (neg : bool) v' x', nth_error slots k = Some (SComp neg v') /\ value_of o w alpha ent pt i v' x' /\
            x = if neg then fopp o x' else x'));
    w_plain : forall w, flat1 (W w) = [W w];
    w_kind : forall w c, cell_of w = Ok c -> exists k, formdegree (W w) = Ok k /\
      forall w', cell_of w' = Ok c -> formdegree (W w') = Ok k /\ mapping (W w') = mapping (W w);
    w_shaped : forall w, shaped w -> (exists slots, embeds case w slots) -> shaped (W w);
    w_shaped_inv : forall w, shaped (W w) -> shaped w /\ exists slots, embeds case w slots
  }.

  Lemma good_wrap : forall (W : elt -> elt) c w, (forall l, leaf_of l (W w) <-> leaf_of l w) ->
    (forall s, subelt s (W w) -> s = W w \/ subelt s w) -> (forall s, subelt s w -> subelt s (W w)) ->
    (match W w with ETensorProduct _ | EFlattened _ => False | _ => True end) ->
    cell_of (W w) = cell_of w -> (good c (W w) <-> good c w).
  Proof.
    intros W c w Hl Hs Hs' Hm Hc. split; intros (A & (B1 & B2) & C).
    - split; [intros l H; apply A, Hl, H|]. split; [|congruence]. split; [intros fs H; apply B1, Hs', H | intros p c' H; apply B2, Hs', H].
    - split; [intros l H; apply A, Hl, H|]. split; [|congruence]. split.
      + intros fs H. destruct (Hs _ H) as [E|H']; [rewrite <- E in Hm; destruct Hm | apply B1, H'].
      + intros p c' H. destruct (Hs _ H) as [E|H']; [rewrite <- E in Hm; destruct Hm | apply B2, H'].
  Qed.

  Lemma wrapper_hdiv : wrapper EHDiv hdiv_case.
  Proof.
    constructor; try reflexivity.
    - intros c w. apply (good_wrap EHDiv); try reflexivity; try exact I.
      + intros l. split; intros H; [inversion H; assumption | constructor; exact H].
      + intros s H. inversion H; auto.
      + intros s H. constructor. exact H.
    - intros w c H. cbn [value_shape]. rewrite H. reflexivity.
    - intros w alpha ent pt i v x. split.
      + intros H. inversion H; subst.
        * exists slots, k. split; [reflexivity|]. split; [assumption|]. left. auto.
        * exists slots, k. split; [reflexivity|]. split; [assumption|]. right. exists neg, v0, x0. auto.
      + intros (slots & k & -> & He & [[H ->]|(neg & v' & x' & H & Hx & ->)]); [eapply vo_hdiv_zero | eapply vo_hdiv]; eassumption.
    - intros w c H. cbn [formdegree]. rewrite H. eexists. split; [reflexivity|]. intros w' ->. split; reflexivity.
    - exact shaped_hdiv.
    - intros w H. split.
      + eapply shaped_sub; [exact H | intros; constructor; assumption | intros; constructor; assumption].
      + apply H. constructor.
  Qed.

  Lemma wrapper_hcurl : wrapper EHCurl hcurl_case.
  Proof.
    constructor; try reflexivity.
    - intros c w. apply (good_wrap EHCurl); try reflexivity; try exact I.
      + intros l. split; intros H; [inversion H; assumption | constructor; exact H].
      + intros s H. inversion H; auto.
      + intros s H. constructor. exact H.
    - intros w c H. cbn [value_shape]. rewrite H. reflexivity.
    - intros w alpha ent pt i v x. split.
      + intros H. inversion H; subst.
        * exists slots, k. split; [reflexivity|]. split; [assumption|]. left. auto.
        * exists slots, k. split; [reflexivity|]. split; [assumption|]. right. exists neg, v0, x0. auto.
      + intros (slots & k & -> & He & [[H ->]|(neg & v' & x' & H & Hx & ->)]); [eapply vo_hcurl_zero | eapply vo_hcurl]; eassumption.
    - intros w c H. eexists. split; [reflexivity|]. intros w' _. split; reflexivity.
    - exact shaped_hcurl.
    - intros w H. split.
      + eapply shaped_sub; [exact H | intros; constructor; assumption | intros; constructor; assumption].
      + apply H. constructor.
  Qed.

  Section One.
    Context (W : elt -> elt) (case : nat -> nat -> option string -> list nat -> nat -> list slot -> Prop) (HW : wrapper W case).

    Lemma R_wrap : forall c (S : dimkey -> Prop) fs ts sigma, R c S (ETensorProduct fs) (EEnriched ts) sigma ->
      good c (ETensorProduct fs) -> Forall uniform fs -> (exists s, value_shape (ETensorProduct fs) = Ok s) ->
      Forall (fun t => exists rs, t = ETensorProduct rs /\ Forall2 stands_for fs rs) ts ->
      R c S (W (ETensorProduct fs)) (EEnriched (map W ts)) sigma.
    Proof.
      intros c S fs ts sigma HR Gw U Hs Hts. set (w := ETensorProduct fs) in *.
      destruct (good_enriched_inv _ _ (R_good _ _ _ _ _ _ HR)) as [Hne HG].
      assert (Hsd : forall t, space_dimension (W t) = space_dimension t) by (intros t; unfold space_dimension; rewrite (w_dims _ _ HW); reflexivity).
      assert (Hdf : forall t k i, dofs (W t) k i = dofs t k i) by (intros t k i; unfold dofs; rewrite (w_dofs _ _ HW); reflexivity).
      assert (Hne' : map W ts <> []) by (destruct ts; [congruence | discriminate]).
      assert (Gm : good c (EEnriched (map W ts))).
      { apply good_enriched; [exact Hne'|]. rewrite Forall_map. eapply Forall_impl; [|exact HG]. intros t Ht. apply (w_good _ _ HW). exact Ht. }
      assert (Hts_tot : space_dimension (EEnriched (map W ts)) = space_dimension (EEnriched ts)).
      { rewrite !enriched_dimension. unfold total. rewrite map_map. f_equal. apply map_ext. exact Hsd. }
      constructor.
      - exact Gm.
      - exists [spatial_dimension c]. split; [apply (w_shape _ _ HW); apply Gw|].
        apply enriched_shapes. split; [exact Hne'|]. rewrite Forall_map. eapply Forall_impl; [|exact HG].
        intros t Ht. apply (w_shape _ _ HW). apply Ht.
      - rewrite Hts_tot. apply HR.
      - intros k i Hki. rewrite (Hdf w). rewrite (dofs_enriched c _ k i Gm Hki), !map_map.
        rewrite (map_ext _ space_dimension) by (intros t; apply Hsd).
        rewrite (map_ext (fun x => dofs (W x) k i) (fun x => dofs x k i)) by (intros t; apply Hdf).
        rewrite <- (dofs_enriched c _ k i (R_good _ _ _ _ _ _ HR) Hki). apply (R_dofs _ _ _ _ _ _ HR k i Hki).
      - intros alpha ent pt j v x Hj Hx. apply value_enriched_inv in Hx. destruct Hx as (bf & e & af & i & E & -> & Hi & Hx).
        apply map_eq_app in E. destruct E as (b' & r' & -> & E1 & E2). apply map_eq_cons in E2. destruct E2 as (t & a' & -> & <- & E3).
        assert (Et : total bf = total b').
        { subst bf. unfold total. rewrite map_map. f_equal. apply map_ext. exact Hsd. }
        rewrite Et in *. clear Et. rewrite Hsd in Hi.
        apply (w_value _ _ HW) in Hx. destruct Hx as (slots & k & -> & He & Hv).
        apply Forall_app in Hts. destruct Hts as [_ Hts]. inversion Hts as [|? ? (rs & -> & Hrs) _]; subst.
        apply (embeds_same case fs rs slots Hrs U Hs) in He.
        apply (w_value _ _ HW). exists slots, k. split; [reflexivity|]. split; [exact He|].
        destruct Hv as [Hv|(neg & v' & x' & H1 & H2 & H3)]; [left; exact Hv|]. right. exists neg, v', x'.
        split; [exact H1|]. split; [|exact H3]. apply (R_vals _ _ _ _ _ _ HR).
        + rewrite <- Hts_tot. exact Hj.
        + apply value_enriched; assumption.
    Qed.

    Lemma Q_wrap : forall w mk domain cl c s,
      (forall fs rs, Forall2 stands_for fs rs -> Forall uniform fs -> mk (ETensorProduct fs) = Ok (W (ETensorProduct fs)) ->
         mk (ETensorProduct rs) = Ok (W (ETensorProduct rs))) ->
      (forall t, mk t = Ok (W t) -> built t -> built (W t)) ->
      (forall e, mk w = Ok e -> exists fs, w = ETensorProduct fs) ->
      Q w -> good c (W w) -> value_shape w = Ok s -> valid domain (spatial_dimension c) -> restrictable fr domain cl w ->
      uniform w -> mk w = Ok (W w) ->
      let call := (do r <- restrict fr w domain cl ;; rewrap mk r) in
      (exists r, call = Ok (RElt r) /\ exists sigma, R c (sel domain cl c) (W w) r sigma /\ built r /\
         (shaped (W w) -> shaped r) /\ same_kind (W w) r) \/
      (call = Ok RNull /\ none c (sel domain cl c) (W w)).
    Proof.
      intros w mk domain cl c s Hmk Hbuilt Hprod HQ G Hs Hv Hr U Em call. unfold call. clear call.
      destruct (Hprod _ Em) as (fs & ->). set (w := ETensorProduct fs) in *.
      assert (Gw : good c w) by (apply (w_good _ _ HW); exact G).
      assert (Uf : Forall uniform fs) by (inversion U; assumption).
      destruct (HQ domain cl c s Gw Hs Hv Hr) as [(r & E & sigma & HR & Hb & Hsh & Hk & Hps)|[E HN]]; rewrite E; cbn [bind].
      2:{ right. split; [reflexivity|]. intros k i Hki HS. unfold dofs. rewrite (w_dofs _ _ HW). apply HN; assumption. }
      left. destruct (Hps fs eq_refl) as (ts & Hne & -> & HR' & Hts). clear HR Hb Hsh Hk Hps.
      assert (Hts' : Forall (fun t => exists rs, t = ETensorProduct rs /\ Forall2 stands_for fs rs) ts).
      { eapply Forall_impl; [|exact Hts]. intros t (_ & _ & H). exact H. }
      assert (Efl : flat_map flat1 ts = ts).
      { apply flat_subs. eapply Forall_impl; [|exact Hts']. intros t (rs & -> & _). exact I. }
      assert (Emk : mapM mk ts = Ok (map W ts)).
      { apply mapM_all_ok. intros t Ht. rewrite Forall_forall in Hts'. destruct (Hts' t Ht) as (rs & -> & Hrs).
        apply (Hmk fs rs Hrs Uf Em). }
      assert (Ew : flat_map flat1 (map W ts) = map W ts).
      { clear -HW. induction ts as [|t ts IH]; [reflexivity|]. cbn [map flat_map]. rewrite (w_plain _ _ HW), IH. reflexivity. }
      assert (Erw : rewrap mk (RElt (mk_enriched ts)) = Ok (RElt (mk_enriched (map W ts)))).
      { rewrite !mk_enriched_eq, Efl, Ew. destruct ts as [|t [|t' ts']]; [congruence| |].
        - cbn [map]. rewrite Forall_forall in Hts'. destruct (Hts' t (or_introl eq_refl)) as (rs & -> & Hrs).
          cbn [rewrap]. rewrite (Hmk fs rs Hrs Uf Em). reflexivity.
        - cbn [rewrap]. rewrite Emk. cbn [bind]. rewrite mk_enriched_eq, Ew. reflexivity. }
      exists (mk_enriched (map W ts)). split; [exact Erw|]. exists sigma.
      assert (HRW := R_wrap c (sel domain cl c) fs ts sigma HR' Gw Uf (ex_intro _ s Hs) Hts').
      assert (Hne' : map W ts <> []) by (destruct ts; [congruence | discriminate]).
      split; [apply R_mk_enriched; exact HRW|]. split; [|split].
      - apply built_enriched. rewrite Forall_map. apply Forall_forall. intros t Ht.
        rewrite Forall_forall in Hts. destruct (Hts t Ht) as (B & _ & rs & -> & Hrs).
        apply Hbuilt; [apply (Hmk fs rs Hrs Uf Em) | exact B].
      - intros Sh. apply (w_shaped_inv _ _ HW) in Sh. destruct Sh as [Sw (slots & Hsl)].
        apply shaped_mk_enriched. rewrite Forall_map. apply Forall_forall. intros t Ht.
        rewrite Forall_forall in Hts. destruct (Hts t Ht) as (_ & B & rs & -> & Hrs).
        apply (w_shaped _ _ HW); [apply B; exact Sw|]. exists slots. apply (embeds_same case fs rs slots Hrs Uf (ex_intro _ s Hs)). exact Hsl.
      - intros _. destruct (w_kind _ _ HW w c (proj2 (proj2 Gw))) as (k & K1 & K2). exists k. split; [exact K1|].
        destruct (good_enriched_inv _ _ (R_good _ _ _ _ _ _ HR')) as [_ HG].
        assert (K3 : Forall (fun t => formdegree t = Ok k /\ mapping t = mapping (W w)) (map W ts)).
        { rewrite Forall_map. eapply Forall_impl; [|exact HG]. intros t Ht. apply K2. apply Ht. }
        split.
        + apply mk_enriched_formdegree; [exact Hne'|]. eapply Forall_impl; [|exact K3]. intros t [A _]. exact A.
        + apply mk_enriched_mapping; [exact Hne' | |].
          * rewrite Forall_map. apply Forall_forall. intros t _. rewrite (w_plain _ _ HW). discriminate.
          * eapply Forall_impl; [|exact K3]. intros t [_ A]. exact A.
    Qed.
  End One.

  Lemma mk_hdiv_product : forall (w : elt) e, mk_hdiv w = Ok e -> exists fs, w = ETensorProduct fs.
  Proof. intros w e H. destruct w; try discriminate. eauto. Qed.
  Lemma mk_hcurl_product : forall (w : elt) e, mk_hcurl w = Ok e -> exists fs, w = ETensorProduct fs.
  Proof. intros w e H. destruct w; try discriminate. eauto. Qed.

  Lemma Q_hdiv : forall w, Q w -> Q (EHDiv w).
  Proof.
    intros w HQ domain cl c s G Hs Hv Hr.
    inversion Hr as [| | | | | | | | |? ? ? Hw U Em (sw & Hsw)|]; subst.
    cbn [restrict].
    destruct (Q_wrap EHDiv hdiv_case wrapper_hdiv w mk_hdiv domain cl c sw hdiv_same) as [(r & E & sigma & A)|X]; auto.
    - intros t H B. eapply built_hdiv; [exact B | exact H].
    - apply mk_hdiv_product.
    - left. exists r. split; [exact E|]. exists sigma. destruct A as (A1 & A2 & A3 & A4). split; [exact A1|]. split; [exact A2|].
      split; [exact A3|]. split; [exact A4|]. apply not_product_sum. exact I.
  Qed.

  Lemma Q_hcurl : forall w, Q w -> Q (EHCurl w).
  Proof.
    intros w HQ domain cl c s G Hs Hv Hr.
    inversion Hr as [| | | | | | | | | |? ? ? Hw U Em (sw & Hsw)]; subst.
    cbn [restrict].
    destruct (Q_wrap EHCurl hcurl_case wrapper_hcurl w mk_hcurl domain cl c sw hcurl_same) as [(r & E & sigma & A)|X]; auto.
    - intros t H B. eapply built_hcurl; [exact B | exact H].
    - apply mk_hcurl_product.
    - left. exists r. split; [exact E|]. exists sigma. destruct A as (A1 & A2 & A3 & A4). split; [exact A1|]. split; [exact A2|].
      split; [exact A3|]. split; [exact A4|]. apply not_product_sum. exact I.
  Qed.

  Lemma Q_all : forall e, Q e /\ forall x sz off, e = EMixedSub x sz off -> Q x.
  Proof.
    induction e as [l | fs IH | b sh tr IH | es IH | e sz off IH | p IH | e IH | w IH | w IH] using elt_ind'.
    - split; [apply Q_leaf | discriminate].
    - split; [apply Q_product; eapply Forall_impl; [|exact IH]; intros f [H _]; exact H | discriminate].
    - split; [apply Q_tensor; apply IH | discriminate].
    - split; [apply Q_enriched; exact IH | discriminate].
    - split; [|intros x sz' off' [= -> _ _]; apply IH]. intros domain cl c s _ _ _ Hr. inversion Hr.
    - split; [apply Q_flattened; apply IH | discriminate].
    - split; [apply Q_discontinuous | discriminate].
    - split; [apply Q_hdiv; apply IH | discriminate].
    - split; [apply Q_hcurl; apply IH | discriminate].
  Qed.
End Wrappers.
