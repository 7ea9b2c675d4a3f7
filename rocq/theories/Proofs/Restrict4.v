(** Restriction: leaves, shapes, form degrees and mappings. *)
From Coq Require Import String List Arith ZArith Lia Bool.
From Verif Require Import Model.Prelude Model.Cell Model.Element Model.Gem Model.PointSet Model.Restricted.
From Verif Require Import Spec.Rowmajor Spec.EntityDofs Spec.Layout Spec.Tabulation Spec.Restricted.
From Verif Require Import Proofs.Lists Proofs.Cells Proofs.EntityDofs Proofs.EntityDofs2 Proofs.Layout Proofs.DofProps Proofs.DualTree
  Proofs.Tree Proofs.Restrict1 Proofs.Restrict2 Proofs.Restrict3.
Import ListNotations.
Local Open Scope nat_scope.

Section Basics.
  Context {F : Type} (o : ops F).
  Local Notation elt := (elt F).
  Local Notation R := (R o).

  Definition sel (domain : string) (cl : bool) (c : cell) : dimkey -> Prop :=
    fun k => selects domain cl (spatial_dimension c) (dk_total k).

  Lemma R_ext : forall c (S S' : dimkey -> Prop) (e r : elt) sigma,
    (forall k i, entity_of (topology c) (k, i) -> (S k <-> S' k)) -> R c S e r sigma -> R c S' e r sigma.
  Proof.
    intros c S S' e r sigma H [G Sh P D V]. constructor; try assumption.
    intros k i Hk. destruct (D k i Hk) as [D1 D2]. rewrite <- (H k i Hk). auto.
  Qed.

  Lemma none_ext : forall c (S S' : dimkey -> Prop) (e : elt),
    (forall k i, entity_of (topology c) (k, i) -> S' k -> S k) -> none c S e -> none c S' e.
  Proof. intros c S S' e H N k i Hk Hs. apply N; [exact Hk | eapply H; eassumption]. Qed.

  Lemma R_id : forall c (S : dimkey -> Prop) (e : elt) s, good c e -> value_shape e = Ok s -> 0 < space_dimension e ->
    (forall k i, entity_of (topology c) (k, i) -> ~ S k -> dofs e k i = []) -> R c S e e (fun j => j).
  Proof.
    intros c S e s G Hs P H. constructor; auto.
    - exists s. auto.
    - intros k i Hk. split; [intros _; apply map_id | apply H, Hk].
  Qed.

  (** If every dof that is selected is found and nothing else is, nothing being
      selected means that there is no restriction. *)
  Lemma R_some : forall c (S : dimkey -> Prop) (e r : elt) sigma d, good c e -> (forall k, S k \/ ~ S k) ->
    entity_dofs e = Ok d -> R c S e r sigma -> exists k i v l, has_dofs d k i l /\ S k /\ In v l.
  Proof.
    intros c S e r sigma d G Sd Hd HR. destruct (dofs_cover c r 0 (R_good _ _ _ _ _ _ HR) (R_pos _ _ _ _ _ _ HR)) as (k & i & Hk & Hin).
    destruct (R_dofs _ _ _ _ _ _ HR k i Hk) as [D1 D2]. destruct (Sd k) as [HS|HS].
    - exists k, i, (sigma 0), (dofs e k i). split; [apply (dofs_has c e d k i _ G Hd); auto|]. split; [exact HS|].
      rewrite <- (D1 HS). apply in_map. exact Hin.
    - rewrite (D2 HS) in Hin. destruct Hin.
  Qed.

  Lemma none_some : forall c (S : dimkey -> Prop) (e : elt) d, good c e -> entity_dofs e = Ok d -> none c S e ->
    ~ exists k i v l, has_dofs d k i l /\ S k /\ In v l.
  Proof.
    intros c S e d G Hd N (k & i & v & l & Hl & HS & Hv). apply (dofs_has c e d k i l G Hd) in Hl.
    destruct Hl as [Hk ->]. rewrite (N k i Hk HS) in Hv. destruct Hv.
  Qed.

  (* -------------------------------------------------------------- *)
  (** ** Leaves *)

  Lemma good_leaf : forall l : leaf F, leaf_ok l -> good (lf_cell l) (ELeaf l).
  Proof.
    intros l H. split; [|split; [|reflexivity]].
    - intros l' Hl. inversion Hl; subst. exact H.
    - split; intros ? ** ; match goal with X : subelt _ _ |- _ => inversion X end.
  Qed.

  Lemma R_leaf : forall (S : nat -> Prop) (l l' : leaf F) sigma, leaf_ok l -> leaf_restricts S l l' sigma ->
    R (lf_cell l) (fun k => S (dk_total k)) (ELeaf l) (ELeaf l') sigma.
  Proof.
    intros S l l' sigma Hl (Hc & Hv & _ & _ & Hok & Hp & Hd & Ht).
    assert (G' : good (lf_cell l) (ELeaf l')) by (rewrite <- Hc; apply good_leaf; exact Hok).
    constructor.
    - exact G'.
    - exists (lf_vshape l). split; [reflexivity | cbn; now rewrite Hv].
    - exact Hp.
    - intros k i Hk.
      assert (H1 : has_dofs (lf_edofs l) k i (dofs (ELeaf l) k i)).
      { apply (dofs_has (lf_cell l) (ELeaf l)); [apply good_leaf; exact Hl | reflexivity | auto]. }
      destruct (Hd _ _ _ H1) as (lr & H2 & H3).
      apply (dofs_has (lf_cell l) (ELeaf l') _ _ _ _ G' eq_refl) in H2. destruct H2 as [_ ->]. exact H3.
    - intros alpha ent pt j v x Hj Hx. inversion Hx; subst. rewrite Ht by exact Hj. constructor.
  Qed.

  (** The trace element's closure makes no difference. *)
  Lemma R_trace : forall (l l' : leaf F) sigma domain cl, leaf_ok l ->
    leaf_restricts (selects domain true (spatial_dimension (lf_cell l))) l l' sigma ->
    (forall k i ds, has_dofs (lf_edofs l) k i ds -> ds <> [] -> S (dk_total k) = spatial_dimension (lf_cell l)) ->
    (cl = true \/ domain = "interior"%string \/ ~ selects domain true (spatial_dimension (lf_cell l)) (spatial_dimension (lf_cell l))) ->
    R (lf_cell l) (sel domain cl (lf_cell l)) (ELeaf l) (ELeaf l') sigma.
  Proof.
    intros l l' sigma domain cl Hl Hr Ht Hc. apply R_leaf in Hr; [|exact Hl].
    destruct Hr as [G Sh P D V]. constructor; try assumption. intros k i Hk. destruct (D k i Hk) as [D1 D2]. unfold sel. split.
    - intros (n & Hn & L & X). apply D1. exists n. split; [exact Hn|]. split; [exact L|].
      destruct X as [X|(_ & X)]; [left | right; split]; auto.
    - intros HS. destruct (selects_dec domain true (spatial_dimension (lf_cell l)) (dk_total k)) as [H|H]; [|auto].
      specialize (D1 H). enough (E : dofs (ELeaf l) k i = []) by (rewrite E in D1; now apply map_eq_nil in D1).
      destruct (dofs (ELeaf l) k i) as [|v vs] eqn:E; [reflexivity|]. exfalso.
      assert (Hd : S (dk_total k) = spatial_dimension (lf_cell l)).
      { apply (Ht k i (v :: vs)); [|discriminate].
        apply (dofs_has (lf_cell l) (ELeaf l)); [apply good_leaf; exact Hl | reflexivity | auto]. }
      destruct H as (n & Hn & L & [X|(_ & Hi & X)]); [apply HS; exists n; auto|].
      destruct Hc as [->|[->|Hc]].
      + apply HS. exists n. auto 6.
      + congruence.
      + apply Hc. exists n. split; [exact Hn|]. split; [lia|].
        destruct (Nat.eq_dec n (spatial_dimension (lf_cell l))) as [->|]; [now left | right; repeat split; auto; lia].
  Qed.

  (* -------------------------------------------------------------- *)
  (** ** Discontinuous elements *)

  Lemma dofs_discontinuous : forall c (e : elt) k i, good c (EDiscontinuous e) -> entity_of (topology c) (k, i) ->
    dofs (EDiscontinuous e) k i <> [] -> k = get_dimension c.
  Proof.
    intros c e k i G Hk H. destruct (good_dofs _ _ G) as (d & Hd & _).
    assert (Hh : has_dofs d k i (dofs (EDiscontinuous e) k i)) by (apply (dofs_has c _ d k i _ G Hd); auto).
    eapply discontinuous_layout in Hh; [|apply G | exact Hd]. rewrite Hh in H.
    destruct (dimkey_eqb_spec k (get_dimension c)); [assumption | cbn in H; congruence].
  Qed.

  (* -------------------------------------------------------------- *)
  (** ** Sensible shapes *)

  Lemma good_leaf_sensible : forall l : leaf F, sensible (ELeaf l).
  Proof. intros l. split; intros ? ** ; match goal with X : subelt _ _ |- _ => inversion X end. Qed.

  Lemma shaped_leaf : forall l : leaf F, Forall (lt 0) (lf_vshape l) -> shaped (ELeaf l).
  Proof.
    intros l H. split; [apply good_leaf_sensible|]. split; [intros ? ? ? X; inversion X|].
    split; [intros l' Hl; inversion Hl; subst; exact H|]. split; intros w X; inversion X.
  Qed.

  Lemma shaped_members : forall (es : list elt) e, Forall shaped es ->
    (forall s, subelt s e -> s = e \/ exists f, In f es /\ subelt s f) ->
    (forall l, leaf_of l e -> exists f, In f es /\ leaf_of l f) ->
    (match e with
     | ETensorProduct fs => fs <> []
     | EFlattened p => forall c, cell_of p = Ok c -> cube_cell c
     | ETensor _ sh _ => sh <> [] /\ Forall (lt 0) sh
     | EHDiv w => exists slots, embeds hdiv_case w slots
     | EHCurl w => exists slots, embeds hcurl_case w slots
     | _ => True end) -> shaped e.
  Proof.
    intros es e Hes Hs Hl He. rewrite Forall_forall in Hes. split; [split|split; [|split; [|split]]].
    - intros fs H. destruct (Hs _ H) as [<-|(f & Hf & H')]; [exact He|]. apply (Hes f Hf). exact H'.
    - intros p c H. destruct (Hs _ H) as [<-|(f & Hf & H')]; [apply He|]. apply (proj2 (proj1 (Hes f Hf))). exact H'.
    - intros b sh tr H. destruct (Hs _ H) as [<-|(f & Hf & H')]; [exact He|]. eapply (Hes f Hf). exact H'.
    - intros l H. destruct (Hl _ H) as (f & Hf & H'). apply (Hes f Hf). exact H'.
    - intros w H. destruct (Hs _ H) as [<-|(f & Hf & H')]; [exact He|]. apply (Hes f Hf). exact H'.
    - intros w H. destruct (Hs _ H) as [<-|(f & Hf & H')]; [exact He|]. apply (Hes f Hf). exact H'.
  Qed.

  Ltac members es := apply (shaped_members es);
    [ | let s := fresh in let H := fresh in intros s H; inversion H; subst;
        [left; reflexivity | right; eexists; split; [try (left; reflexivity); eassumption | eassumption] ]
      | let l := fresh in let H := fresh in intros l H; inversion H; subst;
        eexists; split; [try (left; reflexivity); eassumption | eassumption] | ].

  Lemma shaped_product : forall fs : list elt, fs <> [] -> Forall shaped fs -> shaped (ETensorProduct fs).
  Proof. intros fs H1 H2. members fs; assumption. Qed.

  Lemma shaped_enriched : forall es : list elt, Forall shaped es -> shaped (EEnriched es).
  Proof. intros es H. members es; [assumption | exact I]. Qed.

  Lemma shaped_tensor : forall (b : elt) sh tr, shaped b -> sh <> [] -> Forall (lt 0) sh -> shaped (ETensor b sh tr).
  Proof. intros b sh tr H1 H2 H3. members [b]; [constructor; [exact H1 | constructor] | split; assumption]. Qed.

  Lemma shaped_mixed : forall (e : elt) sz off, shaped e -> shaped (EMixedSub e sz off).
  Proof. intros e sz off H. members [e]; [constructor; [exact H | constructor] | exact I]. Qed.

  Lemma shaped_flattened : forall p : elt, shaped p -> (forall c, cell_of p = Ok c -> cube_cell c) -> shaped (EFlattened p).
  Proof. intros p H1 H2. members [p]; [constructor; [exact H1 | constructor] | exact H2]. Qed.

  Lemma shaped_hdiv : forall w : elt, shaped w -> (exists slots, embeds hdiv_case w slots) -> shaped (EHDiv w).
  Proof. intros w H1 H2. members [w]; [constructor; [exact H1 | constructor] | exact H2]. Qed.

  Lemma shaped_hcurl : forall w : elt, shaped w -> (exists slots, embeds hcurl_case w slots) -> shaped (EHCurl w).
  Proof. intros w H1 H2. members [w]; [constructor; [exact H1 | constructor] | exact H2]. Qed.

  Lemma shaped_flat : forall es : list elt, Forall shaped es -> Forall shaped (flat_map flat1 es).
  Proof.
    intros es H. apply Forall_forall. intros x Hx. apply in_flat_map in Hx. destruct Hx as (e & He & Hx).
    rewrite Forall_forall in H. specialize (H e He). destruct e; cbn in Hx;
      try (destruct Hx as [<-|[]]; exact H).
    eapply shaped_sub; [exact H | intros; eapply se_enriched; eassumption | intros; eapply lo_enriched; eassumption].
  Qed.

  Lemma shaped_mk_enriched : forall es : list elt, Forall shaped es -> shaped (mk_enriched es).
  Proof.
    intros es H. apply shaped_flat in H. rewrite mk_enriched_eq. destruct (flat_map flat1 es) as [|a [|b r]].
    - apply shaped_enriched. constructor.
    - inversion H; assumption.
    - apply shaped_enriched. exact H.
  Qed.

  (* -------------------------------------------------------------- *)
  (** ** Form degree and mapping of a sum *)

  Definition omax (k acc : option nat) : option nat :=
    match k, acc with Some a, Some b => Some (Nat.max a b) | _, _ => None end.

  Lemma omax_fold : forall ks a b, fold_right omax (omax a b) ks = omax (fold_right omax a ks) b.
  Proof.
    induction ks as [|k ks IH]; intros a b; [reflexivity|]. cbn [fold_right]. rewrite IH.
    destruct k, (fold_right omax a ks), b; cbn; try reflexivity. f_equal. lia.
  Qed.

  Lemma omax_unit : forall b, omax (Some 0) b = b.
  Proof. intros [b|]; reflexivity. Qed.

  Lemma omax_app : forall ks ks', fold_right omax (Some 0) (ks ++ ks')
    = omax (fold_right omax (Some 0) ks) (fold_right omax (Some 0) ks').
  Proof. intros. rewrite fold_right_app, <- omax_fold, omax_unit. reflexivity. Qed.

  Lemma enriched_formdegree : forall (es : list elt) k,
    formdegree (EEnriched es) = Ok k <-> exists ks, mapM formdegree es = Ok ks /\ ks <> [] /\ k = fold_right omax (Some 0) ks.
  Proof.
    intros es k. cbn [formdegree]. split.
    - intros H. apply bind_ok in H as (ks & H1 & H2). exists ks. destruct ks as [|a ks]; [discriminate|].
      split; [exact H1|]. split; [discriminate|]. injection H2 as <-. reflexivity.
    - intros (ks & H1 & H2 & ->). rewrite H1. cbn [bind]. destruct ks; [congruence | reflexivity].
  Qed.

  Lemma flat_formdegree : forall (es : list elt) ks, mapM formdegree es = Ok ks ->
    exists ks', mapM formdegree (flat_map flat1 es) = Ok ks' /\ fold_right omax (Some 0) ks' = fold_right omax (Some 0) ks.
  Proof.
    induction es as [|e es IH]; intros ks H.
    - injection H as <-. exists []. auto.
    - cbn [mapM] in H. apply bind_ok in H as (k & Hk & H). apply bind_ok in H as (ks0 & H0 & H). injection H as <-.
      destruct (IH _ H0) as (ks' & H1 & H2). cbn [flat_map].
      assert (X : exists k1, mapM formdegree (flat1 e) = Ok k1 /\ fold_right omax (Some 0) k1 = k).
      { destruct e; try (exists [k]; cbn [flat1 mapM]; rewrite Hk; split; [reflexivity|];
                         cbn [fold_right]; destruct k; cbn; rewrite ?Nat.max_0_r; reflexivity).
        apply enriched_formdegree in Hk. destruct Hk as (k1 & X1 & _ & X2). exists k1. auto. }
      destruct X as (k1 & X1 & X2). exists (k1 ++ ks').
      split; [apply mapM_app; assumption|]. rewrite omax_app, X2, H2. reflexivity.
  Qed.

  Lemma mk_enriched_formdegree : forall (es : list elt) k, es <> [] -> Forall (fun e => formdegree e = Ok k) es ->
    formdegree (mk_enriched es) = Ok k.
  Proof.
    intros es k Hn H.
    assert (Hk : mapM formdegree es = Ok (map (fun _ => k) es)).
    { apply mapM_all_ok. rewrite Forall_forall in H. exact H. }
    destruct (flat_formdegree _ _ Hk) as (ks & H1 & H2).
    assert (H3 : fold_right omax (Some 0) (map (fun _ => k) es) = k).
    { destruct es as [|e es]; [congruence|]. clear. cbn [map fold_right].
      induction es as [|e' es IH]; cbn [map fold_right]; [destruct k; cbn; rewrite ?Nat.max_0_r; reflexivity|].
      rewrite IH. destruct k; cbn; rewrite ?Nat.max_id; reflexivity. }
    rewrite H3 in H2. rewrite mk_enriched_eq. destruct (flat_map flat1 es) as [|a [|b r]] eqn:E.
    - exfalso. destruct es as [|e es]; [congruence|]. cbn [flat_map] in E. apply app_eq_nil in E. destruct E as [E _].
      inversion H; subst. destruct e; try discriminate. cbn in E. subst.
      match goal with X : formdegree (EEnriched []) = _ |- _ => discriminate X end.
    - cbn [mapM] in H1. apply bind_ok in H1 as (ka & Ha & H1). injection H1 as <-. cbn [fold_right] in H2.
      rewrite Ha. f_equal. rewrite <- H2. destruct ka; cbn; rewrite ?Nat.max_0_r; reflexivity.
    - apply enriched_formdegree. exists ks. split; [exact H1|]. split; [|congruence].
      apply mapM_length in H1. destruct ks; [discriminate | discriminate].
  Qed.

  Lemma ostring_eqb_spec : forall a b, reflect (a = b) (ostring_eqb a b).
  Proof.
    intros [a|] [b|]; cbn; try (constructor; congruence). destruct (String.eqb_spec a b); constructor; congruence.
  Qed.

  Lemma enriched_mapping : forall (es : list elt) m, es <> [] ->
    (mapping (EEnriched es) = Some m <-> Forall (fun e => mapping e = Some m) es).
  Proof.
    intros es m Hn. cbn [mapping]. unfold unique_opt. split.
    - intros H. destruct (unique ostring_eqb (map mapping es)) as [x|] eqn:E; [|discriminate]. subst x.
      apply unique_ok in E; [|exact ostring_eqb_spec]. destruct E as [_ E].
      rewrite Forall_map in E. eapply Forall_impl; [|exact E]. cbn. auto.
    - intros H. rewrite (unique_all _ _ _ (Some m)); [reflexivity | exact ostring_eqb_spec | now destruct es |].
      rewrite Forall_map. eapply Forall_impl; [|exact H]. cbn. auto.
  Qed.

  Lemma mk_enriched_mapping : forall (es : list elt) m, es <> [] -> Forall (fun e => flat1 e <> []) es ->
    Forall (fun e => mapping e = m) es -> mapping (mk_enriched es) = m.
  Proof.
    intros es m Hn Hf H.
    assert (E : mapping (mk_enriched es) = mapping (EEnriched (flat_map flat1 es))).
    { rewrite mk_enriched_eq. destruct (flat_map flat1 es) as [|a [|b r]]; reflexivity. }
    rewrite E. clear E.
    assert (Hn' : flat_map flat1 es <> []).
    { destruct es as [|e es]; [congruence|]. inversion Hf; subst. cbn [flat_map]. destruct (flat1 e); [congruence | discriminate]. }
    assert (G : forall x, Forall (fun e => mapping e = Some x) (flat_map flat1 es) <-> m = Some x).
    { intros x. split.
      - intros Hx. destruct es as [|e es]; [congruence|]. inversion H; subst. inversion Hf; subst.
        cbn [flat_map] in Hx. apply Forall_app in Hx. destruct Hx as [Hx _].
        destruct e; try (inversion Hx; assumption). apply enriched_mapping; assumption.
      - intros ->. apply Forall_forall. intros y Hy. apply in_flat_map in Hy. destruct Hy as (e & He & Hy).
        rewrite Forall_forall in H, Hf. specialize (H e He). specialize (Hf e He).
        destruct e; try (destruct Hy as [<-|[]]; assumption).
        apply enriched_mapping in H; [|assumption]. rewrite Forall_forall in H. auto. }
    destruct (mapping (EEnriched (flat_map flat1 es))) as [x|] eqn:E.
    - apply enriched_mapping in E; [|exact Hn']. apply G in E. auto.
    - destruct m as [x|]; [|reflexivity]. exfalso.
      assert (X : Some x = Some x) by reflexivity. apply G in X. apply enriched_mapping in X; [|exact Hn']. congruence.
  Qed.
End Basics.
