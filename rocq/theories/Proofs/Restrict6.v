(** Restriction of all element trees. *)
From Coq Require Import String List Arith ZArith Lia Bool.
From Verif Require Import Model.Prelude Model.Cell Model.Element Model.Gem Model.PointSet Model.Restricted.
From Verif Require Import Spec.Rowmajor Spec.EntityDofs Spec.Layout Spec.Tabulation Spec.Restricted.
From Verif Require Import Proofs.Lists Proofs.Cells Proofs.EntityDofs Proofs.EntityDofs2 Proofs.Layout Proofs.Flatten Proofs.DofProps Proofs.DualTree
  Proofs.Tree Proofs.TabProps Proofs.Restrict1 Proofs.Restrict2 Proofs.Restrict3 Proofs.Restrict4 Proofs.Restrict5.
Import ListNotations.
Local Open Scope nat_scope.

Section Trees2.
  Context {F : Type} (o : ops F) (fr : leaf F -> string -> bool -> result (leaf F)).
  Local Notation elt := (elt F).
  Local Notation R := (R o).
  Local Notation Q := (Q o fr).
  Local Notation restricted_to := (restricted_to o).

  (* -------------------------------------------------------------- *)
  (** ** Tensor and flattened elements *)

  Lemma Q_tensor : forall b sh tr, Q b -> Q (ETensor b sh tr).
  Proof.
    intros b sh tr HQ domain cl c s G Hs Hv Hr.
    inversion Hr as [| | | | |? ? ? ? ? Hsh Hb| | | | |]; subst.
    cbn [value_shape] in Hs. apply bind_ok in Hs as (sb & Hsb & Hs).
    apply good_tensor in G.
    cbn [restrict]. destruct (HQ domain cl c sb G Hsb Hv Hb) as [(r & E & sigma & HR & Hbu & Hshp & Hk & _)|[E HN]]; rewrite E; cbn [bind].
    - left. eexists. split; [reflexivity|]. eexists. split; [apply R_tensor; [exact G | exact Hsh | exact HR]|].
      split; [constructor; exact Hbu|]. split; [|split].
      + intros S. destruct (proj1 (proj2 S) b sh tr (se_refl _)) as [S1 S2]. apply shaped_tensor; [|exact S1 | exact S2].
        apply Hshp. eapply shaped_sub; [exact S | intros; constructor; assumption | intros; constructor; assumption].
      + intros U. inversion U; subst. cbn [formdegree mapping]. apply Hk. assumption.
      + apply not_product_sum. exact I.
    - right. split; [reflexivity|]. intros k i Hki HS. rewrite (dofs_tensor c); [|exact G | exact Hki].
      rewrite (HN k i Hki HS). unfold expand. destruct tr; [|reflexivity].
      cbn [map]. apply flat_map_nil_fun.
  Qed.

  Lemma R_cell : forall c (S : dimkey -> Prop) (e r : elt) sigma, R c S e r sigma -> cell_of r = Ok c.
  Proof. intros c S e r sigma H. apply (R_good _ _ _ _ _ _ H). Qed.

  Lemma Q_flattened : forall p, Q p -> Q (EFlattened p).
  Proof.
    intros p HQ domain cl c s G Hs Hv Hr.
    inversion Hr as [| | | | | |? ? ? Hp| | | |]; subst.
    cbn [value_shape] in Hs.
    destruct (flattened_cells p c (proj2 (proj2 G)) (proj1 (proj2 G))) as (cp & Hcp & Hcube & ->).
    assert (Gp : good cp p).
    { eapply good_sub; [exact G | intros; constructor; assumption | intros; constructor; assumption | exact Hcp]. }
    set (c := Hypercube (spatial_dimension cp)) in *.
    assert (Hsel : forall K, sel domain cl cp K <-> sel domain cl c (DI (dk_total K))) by (intros; reflexivity).
    cbn [restrict]. destruct (HQ domain cl cp s Gp Hs Hv Hp) as [(r & E & sigma & HR & Hbu & Hshp & Hk & _)|[E HN]]; rewrite E; cbn [bind].
    - assert (Em : mk_flattened r = Ok (EFlattened r)) by (unfold mk_flattened; rewrite (R_cell _ _ _ _ _ HR); reflexivity).
      rewrite Em. cbn [bind]. left. eexists. split; [reflexivity|]. eexists. split; [|split; [|split; [|split]]].
      + eapply R_flattened; [exact G | exact Hcp | exact HR].
      + eapply built_flattened; [exact Hbu | exact Em].
      + intros S. apply shaped_flattened; [apply Hshp; eapply shaped_sub; [exact S | intros; constructor; assumption | intros; constructor; assumption]|].
        intros c'. rewrite (R_cell _ _ _ _ _ HR). intros [= <-]. exact Hcube.
      + intros U. inversion U; subst. cbn [formdegree mapping]. apply Hk. assumption.
      + apply not_product_sum. exact I.
    - right. split; [reflexivity|]. intros k i Hki HS.
      destruct (hypercube_keys _ _ _ Hki) as (n & ->).
      destruct (unflatten_bijective cp) as (_ & U2 & _ & U4). apply (U4 Hcube) in Hki as ((K, I) & HKI).
      destruct (U2 _ _ _ _ HKI) as [Htot Hent].
      rewrite (dofs_flattened c cp p n i K I G Hcp HKI). apply HN; [exact Hent|].
      unfold sel. cbn [dk_total] in *. rewrite Htot. exact HS.
  Qed.

  (* -------------------------------------------------------------- *)
  (** ** Sums *)

  Lemma regroup_ok : forall (ms : list (elt * option (elt * (nat -> nat)))) rec,
    let rs := map (fun m => match snd m with Some p => RElt (fst p) | None => RNull end) ms in
    regroup rec rs =
    match map fst (pieces 0 ms) with [] => Ok RNull | es => rec (map RElt es) end.
  Proof.
    intros ms rec rs. unfold regroup.
    assert (E : filter (fun r => negb (is_null r)) rs = map RElt (map fst (pieces 0 ms))).
    { rewrite pieces_fst. unfold rs. induction ms as [|[e [p|]] ms IH]; [reflexivity| |]; cbn [map filter flat_map snd is_null negb app];
        [f_equal; exact IH | exact IH]. }
    rewrite E. destruct (map fst (pieces 0 ms)); reflexivity.
  Qed.

  Lemma existsb_bad : forall es : list elt, existsb is_bad (map RElt es) = false.
  Proof. induction es; [reflexivity | assumption]. Qed.

  Lemma elts_of_map : forall es : list elt, elts_of (map RElt es) = es.
  Proof. induction es as [|e es IH]; [reflexivity|]. cbn. f_equal. exact IH. Qed.

  Definition outcome (domain : string) (cl : bool) (c : cell) (e : elt) (m : option (elt * (nat -> nat))) : Prop :=
    match m with
    | Some p => R c (sel domain cl c) e (fst p) (snd p) /\ built (fst p) /\ (shaped e -> shaped (fst p)) /\ same_kind e (fst p)
    | None => none c (sel domain cl c) e
    end.

  Lemma Q_outcome : forall e domain cl c s, Q e -> good c e -> value_shape e = Ok s ->
    valid domain (spatial_dimension c) -> restrictable fr domain cl e ->
    exists m, restrict fr e domain cl = Ok (match m with Some p => RElt (fst p) | None => RNull end) /\
      outcome domain cl c e m.
  Proof.
    intros e domain cl c s HQ G Hs Hv Hr. destruct (HQ domain cl c s G Hs Hv Hr) as [(r & E & sigma & HR & Hbu & Hshp & Hk & _)|[E HN]].
    - exists (Some (r, sigma)). cbn. auto 6.
    - exists None. auto.
  Qed.

  Lemma members_outcome : forall es domain cl c, Forall Q es -> Forall (good c) es ->
    Forall (fun e => exists s, value_shape e = Ok s) es -> valid domain (spatial_dimension c) -> Forall (restrictable fr domain cl) es ->
    exists ms, map fst ms = es /\
      mapM (fun e => restrict fr e domain cl) es = Ok (map (fun m => match snd m with Some p => RElt (fst p) | None => RNull end) ms) /\
      Forall (fun m => outcome domain cl c (fst m) (snd m)) ms.
  Proof.
    intros es domain cl c HQ HG Hs Hv Hr.
    assert (H : Forall (fun e => exists m, restrict fr e domain cl = Ok (match m with Some p => RElt (fst p) | None => RNull end) /\
                outcome domain cl c e m) es).
    { rewrite Forall_forall in *. intros e He. destruct (Hs e He) as (s & Es). eapply Q_outcome; eauto. }
    apply choose_list in H. destruct H as (ms & E & H). exists ms. split; [exact E|]. split.
    - rewrite <- E, mapM_map. apply mapM_all_ok. rewrite Forall_forall in H. intros m Hm. apply (H m Hm).
    - eapply Forall_impl; [|exact H]. intros m [_ X]. exact X.
  Qed.

  Lemma pieces_nil : forall (ms : list (elt * option (elt * (nat -> nat)))), map fst (pieces 0 ms) = [] ->
    Forall (fun m => snd m = None) ms.
  Proof.
    intros ms. rewrite pieces_fst. induction ms as [|[e [p|]] ms IH]; cbn; intros H; [constructor | discriminate | constructor; auto].
  Qed.

  Lemma pieces_forall : forall (P : elt -> elt -> Prop) (ms : list (elt * option (elt * (nat -> nat)))),
    Forall (fun m => match snd m with Some p => P (fst m) (fst p) | None => True end) ms ->
    Forall (fun r => exists e, In e (map fst ms) /\ P e r) (map fst (pieces 0 ms)).
  Proof.
    intros P ms H. rewrite pieces_fst. apply Forall_forall. intros r Hr. apply in_flat_map in Hr.
    destruct Hr as (m & Hm & Hr). rewrite Forall_forall in H. specialize (H m Hm).
    destruct m as [e [p|]]; [|destruct Hr]. cbn [snd fst] in *. destruct Hr as [<-|[]].
    exists e. split; [apply in_map_iff; exists (e, Some p); auto | exact H].
  Qed.

  Lemma outcomes_members : forall domain cl c ms, Forall (good c) (map fst ms) ->
    Forall (fun m => outcome domain cl c (fst m) (snd m)) ms -> Forall (member_ok o c (sel domain cl c)) ms.
  Proof.
    intros domain cl c ms G H. rewrite Forall_map in G. rewrite Forall_forall in *. intros m Hm.
    split; [apply (G m Hm)|]. specialize (H m Hm). unfold outcome in H. destruct (snd m); [apply H | exact H].
  Qed.

  Lemma mixed_subs : forall offs tot (xs ys : list elt) ss subs, mapM value_shape xs = Ok ss -> mapM value_shape ys = Ok ss ->
    mapM (fun oe => mk_mixed_sub (snd oe) tot (fst oe)) (zip offs xs) = Ok subs ->
    mapM (fun oe => mk_mixed_sub (snd oe) tot (fst oe)) (zip offs ys) = Ok (map (fun oe => EMixedSub (snd oe) tot (fst oe)) (zip offs ys)).
  Proof.
    induction offs as [|off offs IH]; intros tot xs ys ss subs Hx Hy H; [reflexivity|].
    destruct xs as [|x xs].
    - injection Hx as <-. apply mapM_length in Hy. destruct ys; [reflexivity | discriminate].
    - destruct ys as [|y ys]; [injection Hy as <-; apply mapM_length in Hx; discriminate|].
      cbn [zip mapM map fst snd] in *.
      apply bind_ok in Hx as (s & X1 & Hx). apply bind_ok in Hx as (ss1 & X2 & Hx). injection Hx as <-.
      apply bind_ok in Hy as (s' & Y1 & Hy). apply bind_ok in Hy as (ss2 & Y2 & Hy). injection Hy as -> ->.
      apply bind_ok in H as (e & H1 & H). apply bind_ok in H as (es & H2 & H).
      assert (Ey : mk_mixed_sub y tot off = Ok (EMixedSub y tot off)).
      { unfold mk_mixed_sub in H1 |- *. rewrite X1 in H1. rewrite Y1.
        apply bind_ok in H1 as ([] & A & H1). rewrite A. cbn [bind] in *. apply bind_ok in H1 as ([] & B & H1). rewrite B. reflexivity. }
      rewrite Ey. cbn [bind].
      rewrite (IH tot xs ys ss1 es X2 Y2 H2). reflexivity.
  Qed.

  Lemma flat_subs : forall subs : list elt, Forall (fun e => match e with EEnriched _ => False | _ => True end) subs ->
    flat_map flat1 subs = subs.
  Proof. induction 1 as [|e es He _ IH]; [reflexivity|]. cbn [flat_map]. rewrite IH. destruct e; try reflexivity. destruct He. Qed.

  Lemma subs_are : forall (f : nat * elt -> nat * nat) (l : list (nat * elt)),
    Forall (fun e => match e with EEnriched _ => False | _ => True end) (map (fun oe => EMixedSub (snd oe) (fst (f oe)) (snd (f oe))) l).
  Proof. intros f l. rewrite Forall_map. apply Forall_forall. intros oe _. exact I. Qed.

  Lemma nth_error_combine_in : forall A B (a : list A) (b : list B) n x y, nth_error a n = Some x -> nth_error b n = Some y ->
    In (x, y) (combine a b).
  Proof.
    induction a as [|a0 a IH]; intros [|b0 b] [|n] x y Ha Hb; try discriminate; cbn in *.
    - left. congruence.
    - right. eapply IH; eassumption.
  Qed.

  Lemma map_snd_zip : forall A B (a : list A) (b : list B), length a = length b -> map snd (zip a b) = b.
  Proof. induction a as [|x a IH]; intros [|y b] H; try discriminate; [reflexivity|]. cbn. f_equal. apply IH. injection H; auto. Qed.

  Lemma zip_map_r : forall A B C (f : B -> C) (a : list A) b, zip a (map f b) = map (fun ab => (fst ab, f (snd ab))) (zip a b).
  Proof. induction a as [|x a IH]; intros [|y b]; try reflexivity. cbn. f_equal. apply IH. Qed.

  Lemma Q_enriched : forall es, Forall (fun e => Q e /\ forall x sz off, e = EMixedSub x sz off -> Q x) es -> Q (EEnriched es).
  Proof.
    intros es HQ domain cl c s G Hs Hv Hr.
    destruct (good_enriched_inv _ _ G) as [Hne HG].
    destruct (proj1 (enriched_shapes es s) Hs) as [_ Hss].
    inversion Hr as [| | | | | | |? ? ? Hnm Hre|? ? xs ? c' Hre Hmk Hc Hall| |]; subst.
    - (* an ordinary sum *)
      assert (HQ' : Forall Q es) by (eapply Forall_impl; [|exact HQ]; cbn; tauto).
      destruct (members_outcome es domain cl c HQ' HG (Forall_impl _ (fun e H => ex_intro _ s H) Hss) Hv Hre) as (ms & E & Em & Ho).
      assert (Emix : existsb is_mixed_sub es = false).
      { clear -Hnm. induction Hnm as [|e es He _ IH]; [reflexivity|]. cbn. rewrite IH. destruct e; try reflexivity. destruct He. }
      assert (Emix' : forallb is_mixed_sub es = false).
      { destruct es as [|e es]; [congruence|]. cbn in Emix |- *. apply orb_false_iff in Emix. destruct Emix as [-> _]. reflexivity. }
      cbn [restrict]. rewrite Emix'. rewrite Emix. cbn [negb]. rewrite Em. cbn [bind]. rewrite regroup_ok.
      rewrite <- E in HG. assert (Hm := outcomes_members _ _ _ _ HG Ho).
      destruct (map fst (pieces 0 ms)) as [|r0 rs] eqn:Ep.
      + right. split; [reflexivity|]. apply pieces_nil in Ep. apply none_enriched; [exact Hne | rewrite <- E; exact HG |].
        rewrite <- E, Forall_map. rewrite Forall_forall in *. intros m Hin. specialize (Ho m Hin). rewrite (Ep m Hin) in Ho. exact Ho.
      + left. unfold enriched_of. rewrite existsb_bad, elts_of_map, <- Ep. eexists. split; [reflexivity|].
        assert (HR := R_enriched o c (sel domain cl c) s ms Hm). rewrite E in HR.
        specialize (HR Hs). assert (Hp0 : pieces 0 ms <> []) by (intros X; rewrite X in Ep; discriminate). specialize (HR Hp0).
        eexists. split; [apply R_mk_enriched; exact HR|].
        assert (Hnn : map fst (pieces 0 ms) <> []) by (rewrite Ep; discriminate).
        split; [|split; [|split]].
        * apply built_enriched. assert (X : Forall (fun r => exists e, In e (map fst ms) /\ (fun _ r => built r) e r) (map fst (pieces 0 ms))).
          { apply pieces_forall. eapply Forall_impl; [|exact Ho]. intros m H. unfold outcome in H. destruct (snd m); [apply H | exact I]. }
          eapply Forall_impl; [|exact X]. cbn. intros r (_ & _ & H). exact H.
        * intros Sh. apply shaped_mk_enriched.
          assert (X : Forall (fun r => exists e, In e (map fst ms) /\ (fun e r => shaped e -> shaped r) e r) (map fst (pieces 0 ms))).
          { apply pieces_forall. eapply Forall_impl; [|exact Ho]. intros m H. unfold outcome in H. destruct (snd m); [apply H | exact I]. }
          eapply Forall_impl; [|exact X]. cbn. intros r (e & He & H). apply H. rewrite E in He.
          eapply shaped_sub; [exact Sh | intros; eapply se_enriched; eassumption | intros; eapply lo_enriched; eassumption].
        * intros U. inversion U as [| | |? Ue Uall| | | |]; subst es0.
          assert (X : Forall (fun r => exists e, In e (map fst ms) /\ (fun e r => same_kind e r /\ flat1 r <> []) e r) (map fst (pieces 0 ms))).
          { apply pieces_forall. eapply Forall_impl; [|exact Ho]. intros m H. unfold outcome in H. destruct (snd m) as [p|]; [|exact I].
            split; [apply H|]. destruct H as (HRp & _). destruct (flat1_good c (fst p) (R_good _ _ _ _ _ _ HRp)) as [H _]. exact H. }
          rewrite Ep in X. destruct (Forall_inv X) as (e0 & He0 & Hk0 & _). rewrite E in He0.
          rewrite Forall_forall in Ue. destruct (Hk0 (Ue e0 He0)) as (k & K1 & _ & K3).
          assert (Kall : forall e, In e es -> formdegree e = Ok k /\ mapping e = mapping e0).
          { intros e He. destruct (Uall e e0 He He0) as [A B]. rewrite A, B. auto. }
          exists k. rewrite Ep.
          assert (Kr : Forall (fun r => formdegree r = Ok k /\ mapping r = mapping e0 /\ flat1 r <> []) (r0 :: rs)).
          { eapply Forall_impl; [|exact X]. intros r (e & He & H1 & H2). rewrite E in He.
            destruct (H1 (Ue e He)) as (k' & A & B & C). destruct (Kall e He) as [D1 D2].
            rewrite A in D1. injection D1 as ->. rewrite C, D2. auto. }
          split; [|split].
          -- apply enriched_formdegree. exists (map (fun _ => k) es). split; [apply mapM_all_ok; intros e He; apply Kall; exact He|].
             split; [destruct es; [congruence | discriminate]|].
             destruct es as [|e es]; [congruence|]. clear. cbn [map fold_right].
             induction es as [|e' es IH]; cbn [map fold_right]; [destruct k; cbn; rewrite ?Nat.max_0_r; reflexivity|].
             rewrite <- IH. destruct k; cbn; rewrite ?Nat.max_id; reflexivity.
          -- apply mk_enriched_formdegree; [discriminate|]. eapply Forall_impl; [|exact Kr]. intros r (A & _). exact A.
          -- transitivity (mapping e0).
             ++ apply mk_enriched_mapping; [discriminate | |]; (eapply Forall_impl; [|exact Kr]); intros r (_ & A & B); assumption.
             ++ symmetry. cbn [mapping]. unfold unique_opt.
                rewrite (unique_all _ _ _ (mapping e0)); [reflexivity | exact ostring_eqb_spec | destruct es; [congruence | discriminate] |].
                rewrite Forall_map. apply Forall_forall. intros e He. symmetry. apply Kall. exact He.
        * apply not_product_sum. exact I.
    - (* a mixed element *)
      assert (c' = c) by (destruct G as (_ & _ & X); congruence). subst c'. clear Hc.
      unfold mk_mixed in Hmk. apply bind_ok in Hmk as (ss & Ess & Hmk). apply bind_ok in Hmk as (subs & Hsubs & Hmk).
      set (offs := removelast (cumsum0 (map prod ss))) in *. set (tot := last (cumsum0 (map prod ss)) 0) in *.
      set (sub := fun oe : nat * elt => EMixedSub (snd oe) tot (fst oe)).
      assert (Hoff : length offs = length xs).
      { unfold offs, cumsum0. rewrite removelast_cumsum_length, map_length. symmetry. symmetry. apply (mapM_length _ _ _ _ _ Ess). }
      assert (Esubs : subs = map sub (zip offs xs)).
      { rewrite (mixed_subs offs tot xs xs ss subs Ess Ess Hsubs) in Hsubs. injection Hsubs as <-. reflexivity. }
      assert (Ees : es = subs).
      { injection Hmk as Hmk. rewrite mk_enriched_eq in Hmk. rewrite flat_subs in Hmk by (rewrite Esubs; apply (subs_are (fun oe => (tot, fst oe)))).
        destruct subs as [|a [|b r]]; [congruence | | congruence]. exfalso. rewrite Hmk in Esubs.
        destruct (zip offs xs) as [|oe l]; [discriminate|]. unfold sub in Esubs. cbn in Esubs. discriminate. }
      subst es. clear Hmk.
      assert (Hxs : forall x, In x xs -> exists off, In (EMixedSub x tot off) subs).
      { intros x Hx. apply In_nth_error in Hx. destruct Hx as (n & Hn).
        assert (Hlt : n < length offs) by (rewrite Hoff; apply nth_error_Some; congruence).
        destruct (nth_error offs n) as [off|] eqn:Eo; [|apply nth_error_Some in Hlt; congruence].
        exists off. rewrite Esubs. apply in_map_iff. exists (off, x). split; [reflexivity|].
        rewrite zip_combine. eapply nth_error_combine_in; eassumption. }
      assert (HQx : Forall Q xs).
      { apply Forall_forall. intros x Hx. destruct (Hxs x Hx) as (off & Hin). rewrite Forall_forall in HQ.
        destruct (HQ _ Hin) as [_ H]. eapply H. reflexivity. }
      assert (HGx : Forall (good c) xs).
      { apply Forall_forall. intros x Hx. destruct (Hxs x Hx) as (off & Hin). rewrite Forall_forall in HG.
        eapply good_mixed. apply (HG _ Hin). }
      assert (Hsx : Forall (fun e => exists s, value_shape e = Ok s) xs).
      { apply mapM_ok in Ess. clear -Ess. induction Ess; constructor; eauto. }
      destruct (members_outcome xs domain cl c HQx HGx Hsx Hv Hre) as (ms & E & Em & Ho).
      assert (Hlm : length ms = length xs) by (rewrite <- E, map_length; reflexivity).
      assert (Emix : forallb is_mixed_sub subs = true).
      { rewrite Esubs. apply forallb_forall. intros e He. apply in_map_iff in He. destruct He as (oe & <- & _). reflexivity. }
      cbn [restrict]. rewrite Emix.
      assert (Emap : mapM (fun e' : elt => match e' with EMixedSub x _ _ => restrict fr x domain cl | _ => Err AttributeError end) subs
                     = mapM (fun e => restrict fr e domain cl) xs).
      { transitivity (mapM (fun e => restrict fr e domain cl) (map snd (zip offs xs))).
        - rewrite Esubs, !mapM_map. reflexivity.
        - rewrite map_snd_zip by exact Hoff. reflexivity. }
      rewrite Emap, Em. cbn [bind]. rewrite regroup_ok.
      assert (Hdec : forall k, sel domain cl c k \/ ~ sel domain cl c k).
      { intros k. destruct (selects_dec domain cl (spatial_dimension c) (dk_total k)); [left | right]; assumption. }
      assert (Dm : forall m : elt * option (elt * (nat -> nat)), {snd m <> None} + {~ snd m <> None}).
      { intros m. destruct (snd m); [left; discriminate | right; intros X; apply X; reflexivity]. }
      destruct (Forall_Exists_dec _ Dm ms) as [Hsome|Hnull].
      + (* every member has a selected dof *)
        left.
        set (ms' := map (fun om : nat * (elt * option (elt * (nat -> nat))) =>
               (EMixedSub (fst (snd om)) tot (fst om),
                option_map (fun p => (EMixedSub (fst p) tot (fst om), snd p)) (snd (snd om)))) (zip offs ms)).
        assert (E1 : map fst ms' = subs).
        { rewrite Esubs, <- E, zip_map_r. unfold ms'. rewrite !map_map. reflexivity. }
        set (rs := map fst (pieces 0 ms)).
        assert (Ers : length rs = length xs /\ map fst (pieces 0 ms') = map sub (zip offs rs)).
        { unfold rs, ms'. rewrite !pieces_fst. assert (Hl : length offs = length ms) by lia. rewrite <- Hlm. clear -Hsome Hl.
          revert ms Hl Hsome. induction offs as [|off offs IH]; intros [|[e m] ms] Hl Hsome; try discriminate; [split; reflexivity|].
          inversion Hsome as [|? ? Hm Hsome']; subst. cbn [snd] in Hm. destruct m as [p|]; [|congruence].
          destruct (IH ms) as [I1 I2]; [injection Hl; auto | exact Hsome'|].
          cbn [zip map flat_map snd fst option_map app length]. split; [f_equal; exact I1|]. f_equal. exact I2. }
        destruct Ers as [Lrs Ers].
        assert (Srs : mapM value_shape rs = Ok ss).
        { unfold rs. rewrite pieces_fst. rewrite <- E in Ess. clear -Ess Ho Hsome. revert ss Ess.
          induction ms as [|[e m] ms IH]; intros ss Ess; [exact Ess|].
          inversion Hsome as [|? ? Hm Hsome']; subst. inversion Ho as [|? ? Hm' Ho']; subst. cbn [fst snd] in *.
          destruct m as [p|]; [|congruence]. destruct Hm' as (HRp & _). destruct (R_shape _ _ _ _ _ _ HRp) as (sp & S1 & S2).
          cbn [map mapM fst snd] in Ess. apply bind_ok in Ess as (s1 & X1 & Ess). apply bind_ok in Ess as (s2 & X2 & Ess).
          rewrite S1 in X1. injection X1 as <-. cbn [flat_map snd fst app mapM]. rewrite S2. cbn [bind].
          rewrite (IH Ho' Hsome' _ X2). exact Ess. }
        assert (Emk : mk_mixed rs = Ok (mk_enriched (map sub (zip offs rs)))).
        { unfold mk_mixed. rewrite Srs. cbn [bind]. fold offs. fold tot.
          rewrite (mixed_subs offs tot xs rs ss subs Ess Srs Hsubs). reflexivity. }
        assert (Hm' : Forall (member_ok o c (sel domain cl c)) ms').
        { unfold ms'. apply Forall_forall. intros m Hin. apply in_map_iff in Hin. destruct Hin as ((off & m0) & <- & Hin).
          rewrite zip_combine in Hin. apply in_combine_r in Hin. cbn [fst snd].
          rewrite Forall_forall in Ho. specialize (Ho m0 Hin).
          assert (Hg : good c (fst m0)).
          { rewrite Forall_forall in HGx. apply HGx. rewrite <- E. apply in_map. exact Hin. }
          split; cbn [fst snd]; [apply good_mixed; exact Hg|]. destruct (snd m0) as [p|]; cbn [option_map fst snd].
          - apply R_mixed. apply Ho.
          - exact Ho. }
        assert (HR := R_enriched o c (sel domain cl c) s ms' Hm'). rewrite E1 in HR. specialize (HR Hs).
        assert (Hrs0 : rs <> []).
        { intros X. rewrite X in Lrs. cbn in Lrs. destruct xs; [|discriminate]. destruct offs; [|discriminate].
          cbn in Esubs. congruence. }
        assert (Hp0 : pieces 0 ms' <> []).
        { intros X. rewrite X in Ers. cbn in Ers. destruct offs as [|o1 offs']; [destruct xs; [|discriminate]; destruct rs; [congruence | discriminate]|].
          destruct rs; [congruence | discriminate]. }
        specialize (HR Hp0). rewrite Ers in HR.
        fold rs. destruct rs as [|r0 rs'] eqn:Er; [congruence|]. rewrite need_elts_ok. cbn [bind]. rewrite Emk. cbn [bind].
        eexists. split; [reflexivity|]. eexists. split; [apply R_mk_enriched; exact HR|].
        assert (X : Forall (fun r => exists e, In e (map fst ms) /\ (fun e r => built r /\ (shaped e -> shaped r)) e r) (r0 :: rs')).
        { rewrite <- Er. unfold rs. apply pieces_forall. eapply Forall_impl; [|exact Ho]. intros m H. unfold outcome in H.
          destruct (snd m); [|exact I]. split; apply H. }
        split; [|split; [|split]].
        * eapply built_mixed; [|exact Emk]. eapply Forall_impl; [|exact X]. intros r (e & _ & H & _). exact H.
        * intros Sh. apply shaped_mk_enriched. apply Forall_forall. intros y Hy. apply in_map_iff in Hy.
          destruct Hy as ((off & r) & <- & Hy). rewrite zip_combine in Hy. apply in_combine_r in Hy. apply shaped_mixed. cbn [snd].
          rewrite Forall_forall in X. destruct (X r Hy) as (e & He & _ & H). apply H. rewrite E in He.
          destruct (Hxs e He) as (off' & Hin).
          eapply shaped_sub; [exact Sh | |].
          -- intros; eapply se_enriched; [exact Hin | constructor; assumption].
          -- intros; eapply lo_enriched; [exact Hin | constructor; assumption].
        * intros U. exfalso. inversion U as [| | |? Ue _| | | |]; subst es.
          destruct xs as [|x xs']; [discriminate Lrs|]. destruct (Hxs x (or_introl eq_refl)) as (off & Hin).
          rewrite Forall_forall in Ue. specialize (Ue _ Hin). inversion Ue.
        * apply not_product_sum. exact I.
      + (* some member has none, so none has *)
        right. apply Exists_exists in Hnull. destruct Hnull as (m0 & Hm0 & Hnn).
        assert (Hn0 : snd m0 = None) by (destruct (snd m0); [exfalso; apply Hnn; discriminate | reflexivity]). clear Hnn.
        rewrite Forall_forall in Ho. assert (HN0 := Ho m0 Hm0). unfold outcome in HN0. rewrite Hn0 in HN0.
        assert (Hin0 : In (fst m0) xs) by (rewrite <- E; apply in_map; exact Hm0).
        rewrite Forall_forall in HGx. assert (G0 := HGx _ Hin0). destruct (good_dofs _ _ G0) as (d0 & Ed0 & _).
        assert (Hall' : forall m, In m ms -> snd m = None).
        { intros m Hm. destruct (snd m) as [p|] eqn:Ep; [|reflexivity]. exfalso.
          specialize (Ho m Hm). unfold outcome in Ho. rewrite Ep in Ho. destruct Ho as (HRp & _).
          assert (Hin : In (fst m) xs) by (rewrite <- E; apply in_map; exact Hm). assert (Gm := HGx _ Hin).
          destruct (good_dofs _ _ Gm) as (d & Ed & _).
          destruct (R_some o c _ _ _ _ d Gm Hdec Ed HRp) as (k & i & v & l & H1 & H2 & H3).
          apply (none_some c _ _ d0 G0 Ed0 HN0).
          destruct (Hall (fst m) (fst m0) d d0 Hin Hin0 Ed Ed0) as (k' & i' & v' & l' & H1' & H2' & H3').
          - exists k, i, v, l. auto.
          - exists k', i', v', l'. auto. }
        assert (Ep : map fst (pieces 0 ms) = []).
        { rewrite pieces_fst. clear -Hall'. induction ms as [|m ms IH]; [reflexivity|]. cbn [flat_map].
          rewrite (Hall' m (or_introl eq_refl)). apply IH. intros m' H. apply Hall'. now right. }
        rewrite Ep. split; [reflexivity|]. apply none_enriched; [exact Hne | exact HG|]. apply Forall_forall. intros y Hy.
        rewrite Esubs in Hy. apply in_map_iff in Hy. destruct Hy as ((off & x) & <- & Hy). rewrite zip_combine in Hy. apply in_combine_r in Hy.
        assert (Hx : none c (sel domain cl c) x).
        { rewrite <- E in Hy. apply in_map_iff in Hy. destruct Hy as (m & <- & Hm). specialize (Ho m Hm). rewrite (Hall' m Hm) in Ho. exact Ho. }
        exact Hx.
  Qed.
End Trees2.
