(** Concatenated entity permutations. *)
From Coq Require Import List Arith Lia Bool Permutation.
From Verif Require Import Model.Prelude Model.Cell Model.Element Model.EntityMaps.
From Verif Require Import Spec.Rowmajor Spec.EntityDofs Spec.Layout.
From Verif Require Import Proofs.Lists Proofs.Cells Proofs.EntityDofs Proofs.EntityDofs2 Proofs.Layout Proofs.Closure.
Import ListNotations.

Definition merge_opt {V W} (dflt : V) (upd : V -> W -> V) (a : result V) (b : result W) : result V :=
  match a, b with
  | Ok v, Ok w => Ok (upd v w)
  | Ok v, Err _ => Ok v
  | Err _, Ok w => Ok (upd dflt w)
  | Err e, Err _ => Err e
  end.

Section Merge.
  Context {K V W : Type} (eqb : K -> K -> bool).
  Hypothesis sp : forall a b, reflect (a = b) (eqb a b).
  Variable dflt : V.
  Variable upd : V -> W -> V.

  Lemma merge_get : forall items (d : list (K * V)) k, NoDup (map fst items) ->
    dict_get eqb (dict_merge eqb dflt upd d items) k = merge_opt dflt upd (dict_get eqb d k) (dict_get eqb items k).
  Proof.
    induction items as [|[x w] items IH]; intros d k ND; cbn [dict_merge fold_left dict_get].
    - destruct (dict_get eqb d k); reflexivity.
    - cbn [map fst] in ND. inversion ND as [|? ? Hn ND']; subst. cbn [fst snd].
      fold (dict_merge eqb dflt upd (dict_set eqb d x (upd (getd eqb dflt d x) w)) items).
      rewrite IH by exact ND'. rewrite (dict_set_get _ _ _ sp).
      destruct (sp k x) as [->|Hk]; [|reflexivity].
      rewrite (dict_get_none _ sp items x Hn). unfold getd. destruct (dict_get eqb d x); reflexivity.
  Qed.

  Lemma merge_NoDup : forall items (d : list (K * V)), NoDup (map fst d) ->
    NoDup (map fst (dict_merge eqb dflt upd d items)).
  Proof.
    induction items as [|[x w] items IH]; intros d ND; cbn [dict_merge fold_left]; [exact ND|].
    apply IH. rewrite (dict_set_keys _ _ _ sp). cbn [fst].
    destruct (dict_mem eqb d x) eqn:M; [exact ND|].
    apply (Permutation_NoDup (Permutation_cons_append (map fst d) _)). constructor; [|exact ND].
    intros H. apply (dict_mem_spec _ sp) in H. congruence.
  Qed.
End Merge.

Section Perm.
  Context {O : Type} (oeqb : O -> O -> bool).
  Hypothesis osp : forall a b, reflect (a = b) (oeqb a b).

  Definition pget (d : eperms (O := O)) (k : dimkey) (i : nat) (o : O) : result (list nat) :=
    do row <- dict_get dimkey_eqb d k ;; do m <- dict_get Nat.eqb row i ;; dict_get oeqb m o.

  Lemma pget_has : forall d k i o p, unique_keys d -> (pget d k i o = Ok p <-> has_perm d k i o p).
  Proof using osp.
    intros d k i o p (N1 & N2 & N3). unfold pget, has_perm. split.
    - intros H. apply bind_ok in H as (row & Hr & H). apply bind_ok in H as (m & Hm & H).
      exists m. split; [exists row; split|].
      + apply (dict_get_in _ dimkey_eqb_spec); exact Hr.
      + apply (dict_get_in _ nat_eqb_spec); exact Hm.
      + apply (dict_get_in _ osp); exact H.
    - intros (m & Hh & H). assert (N := N3 _ _ _ Hh). destruct Hh as (row & Hr & Hm).
      rewrite (dict_in_get _ dimkey_eqb_spec d k row N1 Hr). cbn [bind].
      rewrite (dict_in_get _ nat_eqb_spec row i m (N2 _ _ Hr) Hm). cbn [bind].
      apply (dict_in_get _ osp); assumption.
  Qed.

  Lemma dict_get_keyerror : forall K V (eqb : K -> K -> bool) (d : list (K * V)) k e,
    dict_get eqb d k = Err e -> e = KeyError.
  Proof using. intros K V eqb d k e H. apply dict_get_err in H. tauto. Qed.

  Lemma pget_merge : forall acc el k i o, unique_keys el ->
    pget (add_permutations oeqb acc el) k i o = merge_opt [] append_shifted (pget acc k i o) (pget el k i o).
  Proof using osp.
    intros acc el k i o (N1 & N2 & N3). unfold pget, add_permutations.
    rewrite (merge_get _ dimkey_eqb_spec) by exact N1.
    destruct (dict_get dimkey_eqb el k) as [er|e1] eqn:E1.
    2:{ destruct (dict_get dimkey_eqb acc k) as [ar|e2] eqn:A1; cbn [merge_opt bind]; [|reflexivity].
        destruct (dict_get Nat.eqb ar i) as [am|] eqn:A2; cbn [merge_opt bind]; [|reflexivity].
        destruct (dict_get oeqb am o); reflexivity. }
    apply (dict_get_in _ dimkey_eqb_spec) in E1.
    assert (G : forall ar, (do m <- dict_get Nat.eqb (dict_merge Nat.eqb [] (dict_merge oeqb [] append_shifted) ar er) i ;; dict_get oeqb m o)
       = merge_opt [] append_shifted (do m <- dict_get Nat.eqb ar i ;; dict_get oeqb m o) (do m <- dict_get Nat.eqb er i ;; dict_get oeqb m o)).
    { intros ar. rewrite (merge_get _ nat_eqb_spec) by (apply (N2 _ _ E1)).
      destruct (dict_get Nat.eqb er i) as [em|e2] eqn:E2.
      2:{ destruct (dict_get Nat.eqb ar i) as [am|] eqn:A2; cbn [merge_opt bind]; [|reflexivity].
          destruct (dict_get oeqb am o); reflexivity. }
      apply (dict_get_in _ nat_eqb_spec) in E2.
      assert (ND : NoDup (map fst em)) by (apply (N3 k i em); exists er; auto).
      destruct (dict_get Nat.eqb ar i) as [am|e3] eqn:A2; cbn [merge_opt bind]; rewrite (merge_get _ osp) by exact ND; [reflexivity|].
      cbn [dict_get merge_opt]. destruct (dict_get oeqb em o) eqn:E3; [reflexivity|].
      apply dict_get_keyerror in A2 as ->. reflexivity. }
    destruct (dict_get dimkey_eqb acc k) as [ar|e2] eqn:A1; cbn [merge_opt bind]; rewrite G; [reflexivity|].
    cbn [dict_get bind merge_opt]. apply dict_get_keyerror in A1 as ->. reflexivity.
  Qed.

  Lemma merge_unique : forall acc el, unique_keys acc -> unique_keys (add_permutations oeqb acc el).
  Proof using osp.
    intros acc el (N1 & N2 & N3). unfold add_permutations.
    assert (In_merge : forall K V W (eqb : K -> K -> bool) (sp : forall a b, reflect (a = b) (eqb a b))
              (P : K -> V -> Prop) dflt (upd : V -> W -> V) items d,
              NoDup (map fst d) ->
              (forall k, P k dflt) -> (forall k v w, P k v -> P k (upd v w)) ->
              (forall k v, In (k, v) d -> P k v) ->
              forall k v, In (k, v) (dict_merge eqb dflt upd d items) -> P k v).
    { clear. intros K V W eqb sp P dflt upd items. induction items as [|[x w] items IH]; intros d ND H0 Hu Hd k v H.
      - apply Hd; exact H.
      - cbn [dict_merge fold_left fst snd] in H.
        fold (dict_merge eqb dflt upd (dict_set eqb d x (upd (getd eqb dflt d x) w)) items) in H.
        eapply IH; [| exact H0 | exact Hu | | exact H].
        + rewrite (dict_set_keys _ _ _ sp). destruct (dict_mem eqb d x) eqn:M; [exact ND|].
          apply (Permutation_NoDup (Permutation_cons_append (map fst d) _)). constructor; [|exact ND].
          intros X. apply (dict_mem_spec _ sp) in X. congruence.
        + intros k' v' H'. apply (dict_set_in _ _ _ sp) in H' as [[-> ->]|[_ H']]; [|apply Hd; exact H' | exact ND].
          apply Hu. unfold getd. destruct (dict_get eqb d x) eqn:G; [|apply H0].
          apply Hd. apply (dict_get_in _ sp); exact G. }
    split; [|split].
    - apply (merge_NoDup _ dimkey_eqb_spec). exact N1.
    - intros k row H. revert H. apply (In_merge _ _ _ _ dimkey_eqb_spec (fun _ row => NoDup (map fst row))); auto.
      + constructor.
      + intros; apply (merge_NoDup _ nat_eqb_spec); assumption.
    - intros k i m (row & Hr & Hm).
      assert (Q : NoDup (map fst row) /\ forall i m, In (i, m) row -> NoDup (map fst m)); [|apply (proj2 Q _ _ Hm)].
      revert Hr. apply (In_merge _ _ _ _ dimkey_eqb_spec
        (fun _ row => NoDup (map fst row) /\ forall i m, In (i, m) row -> NoDup (map fst m))); auto.
      + intros _. split; [constructor | intros ? ? []].
      + intros _ v w [V1 V2]. split; [apply (merge_NoDup _ nat_eqb_spec); assumption|].
        intros i0 m0. apply (In_merge _ _ _ _ nat_eqb_spec (fun _ m => NoDup (map fst m))); auto.
        * constructor.
        * intros; apply (merge_NoDup _ osp); assumption.
      + intros k0 v H. split; [apply (N2 _ _ H)|]. intros i0 m0 H0. apply (N3 k0 i0 m0). exists v; auto.
  Qed.

  Definition blocks_of (ps : list (list nat)) : list (nat * list nat) := map (fun p => (length p, p)) ps.

  Lemma fold_append : forall ps a, fold_left append_shifted ps a = a ++ shifted_blocks (length a) (blocks_of ps).
  Proof using.
    induction ps as [|p ps IH]; intros a; cbn [fold_left blocks_of map shifted_blocks]; [rewrite app_nil_r; reflexivity|].
    rewrite IH. unfold append_shifted. rewrite <- app_assoc, app_length, map_length. reflexivity.
  Qed.

  Lemma fold_pget : forall els acc k i o, Forall unique_keys els ->
    (forall el el', In el els -> In el' els -> is_ok (pget el k i o) = is_ok (pget el' k i o)) ->
    forall p, (match pget acc k i o with
               | Ok a => exists ps, Forall2 (fun el q => pget el k i o = Ok q) els ps /\ p = fold_left append_shifted ps a
               | Err _ => els <> [] /\ exists ps, Forall2 (fun el q => pget el k i o = Ok q) els ps /\ p = fold_left append_shifted ps []
               end) -> pget (fold_left (add_permutations oeqb) els acc) k i o = Ok p.
  Proof using osp.
    induction els as [|el els IH]; intros acc k i o U Same p H; cbn [fold_left].
    - destruct (pget acc k i o) as [a|]; [|destruct H as [[] _]; reflexivity].
      destruct H as (ps & F & ->). inversion F; subst. reflexivity.
    - inversion U as [|? ? U1 U2]; subst. apply IH; [exact U2 | intros; apply Same; right; assumption |].
      rewrite pget_merge by exact U1.
      destruct (pget acc k i o) as [a|e].
      + destruct H as (ps & F & ->). inversion F as [|? q ? ps' Hq F']; subst. rewrite Hq. cbn [merge_opt].
        exists ps'. split; [exact F' | reflexivity].
      + destruct H as (_ & ps & F & ->). inversion F as [|? q ? ps' Hq F']; subst. rewrite Hq. cbn [merge_opt].
        exists ps'. split; [exact F' | reflexivity].
  Qed.

  Lemma fold_pget_inv : forall els acc k i o p, Forall unique_keys els ->
    (forall el el', In el els -> In el' els -> is_ok (pget el k i o) = is_ok (pget el' k i o)) ->
    pget acc k i o = Err KeyError ->
    pget (fold_left (add_permutations oeqb) els acc) k i o = Ok p ->
    forall el, In el els -> is_ok (pget el k i o) = true.
  Proof using osp.
    intros els acc k i o p U Same Ha H.
    destruct els as [|el els]; [intros ? []|].
    assert (is_ok (pget el k i o) = true).
    2:{ intros el' Hel. rewrite (Same el' el); [assumption | exact Hel | left; reflexivity]. }
    destruct (pget el k i o) eqn:E; [reflexivity|]. exfalso.
    assert (All : forall el', In el' (el :: els) -> is_ok (pget el' k i o) = false).
    { intros el' Hel. rewrite (Same el' el) by (auto; left; reflexivity). rewrite E; reflexivity. }
    clear E Same. revert acc Ha H U All. generalize (el :: els) as l. clear el els.
    induction l as [|el l IH]; intros acc Ha H U All; cbn [fold_left] in H; [congruence|].
    inversion U as [|? ? U1 U2]; subst. eapply IH; [| exact H | exact U2 | intros; apply All; right; assumption].
    rewrite pget_merge by exact U1. rewrite Ha.
    specialize (All el (or_introl eq_refl)). destruct (pget el k i o); [discriminate|]. reflexivity.
  Qed.

  Lemma unique_fold : forall els acc, unique_keys acc -> unique_keys (fold_left (add_permutations oeqb) els acc).
  Proof using osp. induction els as [|el els IH]; intros acc H; cbn [fold_left]; [exact H | apply IH, merge_unique, H]. Qed.

  Theorem permutations_blocks : forall els, Forall unique_keys els ->
    (forall el el' k i o p, In el els -> In el' els -> has_perm el k i o p -> exists p', has_perm el' k i o p') ->
    forall k i o p,
      has_perm (concatenate_entity_permutations oeqb els) k i o p <->
      els <> [] /\ exists ps, Forall2 (fun el q => has_perm el k i o q) els ps /\
                              p = shifted_blocks 0 (map (fun q => (length q, q)) ps).
  Proof using osp.
    intros els U Same k i o p. unfold concatenate_entity_permutations.
    assert (U0 : unique_keys (fold_left (add_permutations oeqb) els [])).
    { apply unique_fold. repeat split; [constructor | intros ? ? [] | intros ? ? ? (? & [] & _)]. }
    assert (UU : forall el, In el els -> unique_keys el) by (apply Forall_forall; exact U).
    assert (S' : forall el el', In el els -> In el' els -> is_ok (pget el k i o) = is_ok (pget el' k i o)).
    { assert (S1 : forall el el', In el els -> In el' els -> is_ok (pget el k i o) = true -> is_ok (pget el' k i o) = true).
      { intros el el' H H' E. destruct (pget el k i o) as [q|] eqn:Eq; [|discriminate].
        apply pget_has in Eq; [|auto]. destruct (Same _ _ _ _ _ _ H H' Eq) as [q' Hq'].
        apply pget_has in Hq'; [|auto]. rewrite Hq'; reflexivity. }
      intros el el' H H'. specialize (S1 el el' H H') as A. specialize (S1 el' el H' H) as B.
      destruct (is_ok (pget el k i o)), (is_ok (pget el' k i o)); try reflexivity; [symmetry; auto | auto]. }
    assert (FF : forall ps, Forall2 (fun el q => has_perm el k i o q) els ps <-> Forall2 (fun el q => pget el k i o = Ok q) els ps).
    { intros ps. split; apply Forall2_impl_in; intros el q H _; apply pget_has; auto. }
    rewrite <- pget_has by exact U0. split.
    - intros H. assert (A : forall el, In el els -> is_ok (pget el k i o) = true) by (apply (fold_pget_inv els [] k i o p); [exact U | exact S' | reflexivity | exact H]).
      assert (NE : els <> []) by (intros ->; discriminate H). split; [exact NE|].
      assert (E : exists ps, Forall2 (fun el q => pget el k i o = Ok q) els ps).
      { clear - A. induction els as [|el els IH]; [exists []; constructor|].
        destruct IH as [ps Hps]; [intros; apply A; right; assumption|].
        specialize (A el (or_introl eq_refl)). destruct (pget el k i o) as [q|] eqn:E; [|discriminate].
        exists (q :: ps). constructor; assumption. }
      destruct E as [ps Hps]. exists ps. split; [apply FF; exact Hps|].
      assert (H' : pget (fold_left (add_permutations oeqb) els []) k i o = Ok (fold_left append_shifted ps [])).
      { apply fold_pget; [exact U | exact S' |]. cbn. split; [exact NE|]. exists ps; auto. }
      rewrite H' in H. injection H as <-. apply fold_append.
    - intros (NE & ps & Hps & ->). apply FF in Hps. apply fold_pget; [exact U | exact S' |]. cbn.
      split; [exact NE|]. exists ps. split; [exact Hps|]. symmetry. apply fold_append.
  Qed.

  Lemma shifted_permutes : forall ns ps a, Forall2 permutes ns ps ->
    Permutation (shifted_blocks a (map (fun q => (length q, q)) ps)) (seq a (sum ns)).
  Proof using.
    intros ns ps a H. revert a. induction H as [|n p ns ps Hp H IH]; intros a; cbn [map shifted_blocks sum]; [constructor|].
    rewrite seq_app. apply Permutation_app.
    - rewrite <- (map_id (seq a n)). rewrite (map_seq_shift _ (fun x => x)). apply Permutation_map. exact Hp.
    - replace (length p) with n; [apply IH|]. apply Permutation_length in Hp. rewrite seq_length in Hp. auto.
  Qed.

  Lemma shifted_length : forall ns (ls : list (list nat)) a, length ns = length ls ->
    length (shifted_blocks a (combine ns ls)) = sum (map (@length nat) ls).
  Proof using.
    induction ns as [|n ns IH]; intros [|l ls] a L; cbn in *; try lia. rewrite app_length, map_length, IH by lia. reflexivity.
  Qed.

  Theorem enriched_permutations : forall F (es : list (elt F)) d ds els,
    leaves_ok (EEnriched es) -> sensible (EEnriched es) ->
    entity_dofs (EEnriched es) = Ok d -> mapM entity_dofs es = Ok ds ->
    Forall unique_keys els ->
    (forall el el' k i o p, In el els -> In el' els -> has_perm el k i o p -> exists p', has_perm el' k i o p') ->
    Forall2 (fun dj el => forall k i l o p, has_dofs dj k i l -> has_perm el k i o p -> permutes (length l) p) ds els ->
    forall k i l o p, has_dofs d k i l -> has_perm (concatenate_entity_permutations oeqb els) k i o p ->
      permutes (length l) p.
  Proof using osp.
    intros F es d ds els L S Ed Eds U Same Per k i l o p Hl Hp.
    destruct (enriched_layout F es d k i l L S Ed Hl) as (ds' & ls & Eds' & Hls & ->).
    rewrite Eds in Eds'. injection Eds' as <-.
    apply permutations_blocks in Hp as (_ & ps & Hps & ->); [|exact U | exact Same].
    assert (P : Forall2 permutes (map (@length nat) ls) ps).
    { rewrite Forall2_map_l. clear - Hls Hps Per. revert ls ps Hls Hps.
      induction Per as [|dj el ds els H Per IH]; intros ls ps Hls Hps; inversion Hls; inversion Hps; subst; constructor; [|auto].
      eapply H; eassumption. }
    unfold permutes. rewrite shifted_length.
    - apply shifted_permutes. exact P.
    - rewrite map_length. apply Forall2_length in Hls. apply mapM_length in Eds. rewrite <- Hls, <- Eds. reflexivity.
  Qed.
End Perm.
