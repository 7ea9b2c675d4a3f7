(** Restriction of the samples: a FIAT restriction that meets its contract, and
    trees whose restriction goes wrong. *)
From Coq Require Import String List Arith ZArith Lia Bool Permutation.
From Verif Require Import Model.Prelude Model.Cell Model.Element Model.Gem Model.PointSet Model.Evaluation Model.Restricted.
From Verif Require Import Spec.Rowmajor Spec.EntityDofs Spec.Layout Spec.Tabulation Spec.Restricted Spec.Samples Spec.ZSamples Spec.RSamples.
From Verif Require Import Proofs.Lists Proofs.Cells Proofs.EntityDofs Proofs.EntityDofs2 Proofs.Layout Proofs.Closure Proofs.SampleFacts Proofs.Tree
  Proofs.TabProps Proofs.TabFacts Proofs.Restrict1 Proofs.Restrict2 Proofs.Restrict3 Proofs.Restrict4 Proofs.RestrictProps.
Import ListNotations.
Local Open Scope nat_scope.

Lemma selectsb_spec : forall domain cl D d, selectsb domain cl D d = true <-> selects domain cl D d.
Proof.
  intros domain cl D d. unfold selectsb, selects.
  repeat match goal with |- context [String.eqb domain ?x] => destruct (String.eqb_spec domain x) as [->|?]; [|] end.
  - rewrite Nat.eqb_eq. split.
    + intros ->. exists D. split; [constructor|]. split; auto.
    + intros (q & Hn & L & [->|(_ & Hx & _)]); [inversion Hn; reflexivity | congruence].
  - destruct D as [|D].
    + split; [discriminate|]. intros (q & Hn & _). inversion Hn.
    + rewrite andb_true_iff, Nat.leb_le. destruct cl.
      * rewrite Nat.leb_le. split.
        -- intros (A & B). exists D. split; [constructor|]. split; [exact A|]. destruct (Nat.eq_dec d D); [now left | right].
           split; [reflexivity|]. split; [discriminate | lia].
        -- intros (q & Hn & L & H). inversion Hn; subst. lia.
      * rewrite Nat.eqb_eq. split.
        -- intros (A & B). exists D. split; [constructor|]. auto.
        -- intros (q & Hn & L & [->|(H & _)]); [inversion Hn; subst; lia | discriminate].
  - rewrite andb_true_iff, Nat.leb_le. destruct cl.
    + rewrite Nat.leb_le. split.
      * intros (A & B). exists 2. split; [constructor|]. split; [exact A|]. destruct (Nat.eq_dec d 2); [now left | right].
        split; [reflexivity|]. split; [discriminate | lia].
      * intros (q & Hn & L & H). inversion Hn; subst. lia.
    + rewrite Nat.eqb_eq. split.
      * intros (A & B). exists 2. split; [constructor|]. auto.
      * intros (q & Hn & L & [->|(H & _)]); [inversion Hn; subst; lia | discriminate].
  - rewrite andb_true_iff, Nat.leb_le. destruct cl.
    + rewrite Nat.leb_le. split.
      * intros (A & B). exists 1. split; [constructor|]. split; [exact A|]. destruct (Nat.eq_dec d 1); [now left | right].
        split; [reflexivity|]. split; [discriminate | lia].
      * intros (q & Hn & L & H). inversion Hn; subst. lia.
    + rewrite Nat.eqb_eq. split.
      * intros (A & B). exists 1. split; [constructor|]. auto.
      * intros (q & Hn & L & [->|(H & _)]); [inversion Hn; subst; lia | discriminate].
  - rewrite andb_true_iff, Nat.leb_le. destruct cl.
    + rewrite Nat.leb_le. split.
      * intros (A & B). exists 0. split; [constructor|]. split; [exact A|]. destruct (Nat.eq_dec d 0); [now left | right].
        split; [reflexivity|]. split; [discriminate | lia].
      * intros (q & Hn & L & H). inversion Hn; subst. lia.
    + rewrite Nat.eqb_eq. split.
      * intros (A & B). exists 0. split; [constructor|]. auto.
      * intros (q & Hn & L & [->|(H & _)]); [inversion Hn; subst; lia | discriminate].
  - split; [discriminate|]. intros (q & Hn & _). inversion Hn; subst; contradiction.
Qed.

Lemma position_nth : forall l v, In v l -> nth (position l v) l 0 = v.
Proof.
  induction l as [|x l IH]; intros v H; [destruct H|]. cbn [position].
  destruct (Nat.eqb_spec x v) as [E|E]; cbn [nth]; [exact E|]. apply IH. destruct H; [contradiction | assumption].
Qed.

Lemma position_seq : forall l, NoDup l -> map (position l) l = seq 0 (length l).
Proof.
  induction 1 as [|x l Hx H IH]; [reflexivity|]. cbn [map length seq position]. rewrite Nat.eqb_refl. f_equal.
  rewrite <- seq_shift, <- IH, map_map. apply map_ext_in. intros v Hv. cbn [position].
  destruct (Nat.eqb_spec x v) as [->|E]; [contradiction | reflexivity].
Qed.

Lemma unique_repeat : forall A (eqb : A -> A -> bool) (m : A) n, (forall x, eqb x x = true) -> unique eqb (repeat m (S n)) = Ok m.
Proof.
  intros A eqb m n H. cbn [repeat unique]. replace (forallb (eqb m) (repeat m n)) with true; [reflexivity|].
  symmetry. apply forallb_forall. intros x Hx. apply repeat_spec in Hx. subst. apply H.
Qed.

Section Renumber.
  Context {F : Type}.

  Lemma renumber_restricts : forall (l : leaf F) m, leaf_ok l -> lf_mappings l = repeat m (lf_dim l) ->
    fiat_restricts renumber l.
  Proof.
    intros l m [[km part] _] Hm domain cl _ S.
    set (D := spatial_dimension (lf_cell l)) in *.
    set (Sb := fun k => selectsb domain cl D (dk_total k)).
    set (keep := kept Sb (lf_edofs l)).
    assert (Hin : forall v, In v keep <-> exists k i ds, has_dofs (lf_edofs l) k i ds /\ S (dk_total k) /\ In v ds).
    { intros v. unfold keep, kept. rewrite in_flat_map. split.
      - intros ((k, row) & Hr & Hv). cbn [fst snd] in Hv. destruct (Sb k) eqn:E; [|destruct Hv].
        apply in_flat_map in Hv. destruct Hv as ((i, ds) & Hi & Hv). exists k, i, ds. split; [exists row; auto|].
        split; [apply selectsb_spec; exact E | exact Hv].
      - intros (k & i & ds & (row & Hr & Hi) & Hs & Hv). exists (k, row). split; [exact Hr|]. cbn [fst snd].
        apply selectsb_spec in Hs. unfold Sb. rewrite Hs. apply in_flat_map. exists (i, ds). auto. }
    assert (ND : NoDup (concat (all_lists (lf_edofs l)))) by (eapply Permutation_NoDup; [symmetry; exact part | apply seq_NoDup]).
    assert (NK : NoDup keep).
    { rewrite concat_all in ND. unfold keep, kept. clear -ND. induction (lf_edofs l) as [|[k row] d IH]; [constructor|].
      cbn [flat_map fst snd] in *. apply NoDup_app_inv in ND. destruct ND as (N1 & N2 & Dj).
      apply NoDup_app_intro; [destruct (Sb k); [exact N1 | constructor] | apply IH; exact N2|].
      intros x Hx Hx'. destruct (Sb k); [|destruct Hx]. apply (Dj x Hx). apply in_flat_map in Hx'.
      destruct Hx' as ([k' row'] & Hr & Hv). cbn [fst snd] in Hv. apply in_flat_map. exists (k', row').
      split; [exact Hr|]. cbn [snd]. destruct (Sb k'); [exact Hv | destruct Hv]. }
    assert (Hlt : forall v, In v keep -> v < lf_dim l).
    { intros v Hv. apply Hin in Hv. destruct Hv as (k & i & ds & (row & Hr & Hi) & _ & Hv).
      assert (Hs : In v (seq 0 (lf_dim l))); [|apply in_seq in Hs; lia].
      eapply Permutation_in; [exact part|]. rewrite concat_all. apply in_flat_map. exists (k, row). split; [exact Hr|].
      cbn [snd]. apply in_flat_map. exists (i, ds). auto. }
    unfold renumber. cbv zeta. fold D. fold Sb. fold keep.
    split.
    - intros (k0 & i0 & v0 & l0 & H0 & S0 & V0).
      assert (Hk0 : In v0 keep) by (apply Hin; exists k0, i0, l0; auto).
      destruct keep as [|x keep'] eqn:Ek; [destruct Hk0|]. rewrite <- Ek in *. clear Ek.
      eexists _, (fun j => nth j keep 0). split; [reflexivity|]. unfold leaf_restricts, renumbered. cbn [lf_cell lf_vshape lf_formdegree lf_dim lf_edofs lf_tab].
      split; [reflexivity|]. split; [reflexivity|]. split; [reflexivity|]. split; [|split; [|split; [|split]]].
      + cbn [mapping lf_mappings]. rewrite Hm.
        assert (Hd : 0 < lf_dim l) by (specialize (Hlt v0 Hk0); lia).
        replace (map (fun i => nth i (repeat m (lf_dim l)) ""%string) keep) with (repeat m (length keep)).
        * unfold unique_opt. destruct (lf_dim l) as [|n]; [lia|]. destruct keep as [|y ks]; [destruct Hk0|].
          cbn [length]. rewrite !unique_repeat; [reflexivity | intros; apply String.eqb_refl | intros; apply String.eqb_refl].
        * replace (repeat m (length keep)) with (map (fun _ => m) keep) by (clear; induction keep; [reflexivity | cbn [map length repeat]; now f_equal]). apply map_ext_in. intros v Hv. symmetry. rewrite nth_indep with (d' := m) by (rewrite repeat_length; auto).
          apply nth_repeat.
      + split; cbn [lf_cell lf_dim lf_edofs lf_ishape fold_right]; [split|lia].
        * split; [rewrite map_map; cbn [fst]; apply (proj1 km)|].
          intros k row Hr. apply in_map_iff in Hr. destruct Hr as ([k' row'] & E & Hr). cbn [fst snd] in E. injection E as <- <-.
          destruct (proj2 km _ _ Hr) as (c & Hc & P). exists c. split; [exact Hc|]. rewrite map_map. cbn [fst]. exact P.
        * unfold partitions. rewrite concat_all, <- (position_seq keep NK). match goal with |- Permutation ?a ?b => replace a with b; [reflexivity|] end.
          change keep with (kept Sb (lf_edofs l)) at 2. unfold kept. rewrite flat_map_concat_map, flat_map_concat_map, concat_map, !map_map. f_equal. apply map_ext.
          intros [k row]. cbn [fst snd]. destruct (Sb k).
          -- rewrite !flat_map_concat_map, concat_map, !map_map. reflexivity.
          -- cbn [map]. induction row as [|[i ds] row IH]; [reflexivity|]. exact IH.
      + destruct keep; [destruct Hk0 | cbn [length]; lia].
      + intros k i le (row & Hr & Hi). exists (if Sb k then map (position keep) le else []). split; [|split].
        * exists (map (fun il => (fst il, if Sb k then map (position keep) (snd il) else [])) row). split.
          -- apply in_map_iff. exists (k, row). split; [reflexivity | exact Hr].
          -- apply in_map_iff. exists (i, le). split; [reflexivity | exact Hi].
        * intros Hs. pose proof Hs as Hs'. apply selectsb_spec in Hs. unfold Sb. rewrite Hs, map_map. rewrite <- (map_id le) at 2.
          apply map_ext_in. intros v Hv. apply position_nth. apply Hin. exists k, i, le. split; [exists row; auto | auto].
        * intros Hs. destruct (Sb k) eqn:E; [|reflexivity]. exfalso. apply Hs, selectsb_spec. exact E.
      + reflexivity.
    - intros N. destruct keep as [|x keep'] eqn:Ek; [reflexivity|]. exfalso. apply N.
      destruct (proj1 (Hin x) (or_introl eq_refl)) as (k & i & ds & A & B & C). exists k, i, x, ds. auto.
  Qed.
End Renumber.

Lemma Forall2_in_r : forall A B (P : A -> B -> Prop) l r y, Forall2 P l r -> In y r -> exists x, In x l /\ P x y.
Proof. induction 1 as [|a b l r H HH IH]; [intros []|]. intros [->|Hy]; [exists a; cbn; auto|]. destruct (IH Hy) as (x & ? & ?). exists x. cbn. auto. Qed.

Lemma leaf_of_all : forall F (e : elt F) l, In l (all_leaves e) -> leaf_of l e.
Proof.
  intros F e. induction e as [l0|fs IH|b sh tr IH|es IH|x sz off IH|p IH|x IH|w IH|w IH] using elt_ind'; intros l H; cbn [all_leaves] in H.
  - destruct H as [<-|[]]. constructor.
  - apply in_flat_map in H. destruct H as (f & Hf & H). rewrite Forall_forall in IH. econstructor; eauto.
  - constructor; auto.
  - apply in_flat_map in H. destruct H as (f & Hf & H). rewrite Forall_forall in IH. econstructor; eauto.
  - constructor; auto.
  - constructor; auto.
  - constructor; auto.
  - constructor; auto.
  - constructor; auto.
Qed.

(** ** Only elements come back *)
Section Only.
  Context {F : Type} (fr : leaf F -> string -> bool -> result (leaf F)).
  Local Notation elt := (elt F).

  Lemma restrict_elements : forall e : elt, (forall l, leaf_of l e -> lf_kind l <> KOther) ->
    forall domain cl, restrict fr e domain cl <> Ok RBad.
  Proof.
    assert (H : forall e : elt, ((forall l, leaf_of l e -> lf_kind l <> KOther) -> forall domain cl, restrict fr e domain cl <> Ok RBad) /\
      forall x sz off, e = EMixedSub x sz off -> (forall l, leaf_of l x -> lf_kind l <> KOther) -> forall domain cl, restrict fr x domain cl <> Ok RBad);
      [|intros e; exact (proj1 (H e))].
    apply (elt_ind' (fun e => ((forall l, leaf_of l e -> lf_kind l <> KOther) -> forall domain cl, restrict fr e domain cl <> Ok RBad) /\
      forall x sz off, e = EMixedSub x sz off -> (forall l, leaf_of l x -> lf_kind l <> KOther) -> forall domain cl, restrict fr x domain cl <> Ok RBad)).
    - intros l. split; [|discriminate]. intros H domain cl. cbn [restrict]. specialize (H l (lo_leaf l)).
      destruct (lf_kind l); try contradiction; try (destruct (String.eqb domain "interior"); discriminate); try discriminate;
        (unfold or_null; destruct (fr _ _ _) as [l'|[]]; discriminate).
    - intros fs _. split; [|discriminate]. intros _ domain cl. cbn [restrict].
      destruct (cell_of (ETensorProduct fs)) as [c|]; [cbn [bind] | discriminate].
      destruct (mapM cell_of fs) as [cs|]; [cbn [bind] | discriminate].
      destruct (decompositions _ _ _ _) as [decs|]; [cbn [bind] | discriminate].
      destruct (mapM _ decs) as [els|]; [cbn [bind] | discriminate].
      destruct (concat els); discriminate.
    - intros b sh tr [IH _]. split; [|discriminate]. intros H domain cl. cbn [restrict].
      specialize (IH (fun l Hl => H l (lo_tensor l b sh tr Hl)) domain cl).
      destruct (restrict fr b domain cl) as [[| |r]|]; try discriminate. exfalso. apply IH. reflexivity.
    - intros es IH. split; [|discriminate]. intros H domain cl. cbn [restrict].
      destruct (forallb is_mixed_sub es).
      + destruct (mapM _ es) as [rs|]; [cbn [bind] | discriminate]. unfold regroup.
        destruct (filter _ rs) as [|a rs']; [discriminate|].
        destruct (need_elts _) as [xs|]; [cbn [bind] | discriminate]. destruct (mk_mixed xs); discriminate.
      + destruct (negb (existsb is_mixed_sub es)); [|discriminate].
        destruct (mapM (fun e' => restrict fr e' domain cl) es) as [rs|] eqn:E; [cbn [bind] | discriminate]. unfold regroup.
        destruct (filter _ rs) as [|a rs'] eqn:Ef; [discriminate|]. unfold enriched_of.
        destruct (existsb is_bad (a :: rs')) eqn:Eb; [|discriminate]. exfalso.
        apply existsb_exists in Eb. destruct Eb as (x & Hx & Bx). rewrite <- Ef in Hx. apply filter_In in Hx. destruct Hx as [Hx _].
        destruct x; try discriminate Bx.
        apply mapM_ok in E. destruct (Forall2_in_r _ _ _ _ _ _ E Hx) as (e & He & Ee).
        rewrite Forall_forall in IH. apply (proj1 (IH e He) (fun l Hl => H l (lo_enriched l e es He Hl)) domain cl Ee).
    - intros x sz off [IH _]. split; [intros; discriminate|]. intros x' sz' off' E H. injection E as <- _ _. exact (IH H).
    - intros p [IH _]. split; [|discriminate]. intros H domain cl. cbn [restrict].
      destruct (restrict fr p domain cl) as [[| |r]|]; try discriminate. cbn [bind]. destruct (mk_flattened r); discriminate.
    - intros e _. split; [|discriminate]. intros _ domain cl. cbn [restrict]. destruct (String.eqb domain "interior"); discriminate.
    - intros w [IH _]. split; [|discriminate]. intros H domain cl. cbn [restrict].
      destruct (restrict fr w domain cl) as [r|]; [cbn [bind] | discriminate]. unfold rewrap.
      destruct r as [| |e]; try discriminate. destruct e; try (destruct (mapM _ _); discriminate); destruct (mk_hdiv _); discriminate.
    - intros w [IH _]. split; [|discriminate]. intros H domain cl. cbn [restrict].
      destruct (restrict fr w domain cl) as [r|]; [cbn [bind] | discriminate]. unfold rewrap.
      destruct r as [| |e]; try discriminate. destruct e; try (destruct (mapM _ _); discriminate); destruct (mk_hcurl _); discriminate.
  Qed.

  Lemma restricted_elements : forall (e : elt) domain, (forall l, leaf_of l e -> lf_kind l <> KOther) ->
    forall i, RestrictedElement fr e domain i <> Ok RBad /\ RestrictedElement fr e domain i <> Ok RNull.
  Proof.
    intros e domain H i. unfold RestrictedElement. destruct i; [split; discriminate|]. cbn [negb guard bind].
    destruct domain as [d|]; [|split; discriminate]. pose proof (restrict_elements e H d true) as N.
    destruct (restrict fr e d true) as [[| |r]|]; cbn [bind]; split; try discriminate; congruence.
  Qed.

  Lemma restricted_bad : forall (e : elt) domain i, RestrictedElement fr e domain i = Ok RBad ->
    exists l, leaf_of l e /\ lf_kind l = KOther.
  Proof.
    intros e domain i H.
    assert (D : (exists l, In l (all_leaves e) /\ lf_kind l = KOther) \/ forall l, In l (all_leaves e) -> lf_kind l <> KOther).
    { induction (all_leaves e) as [|l ls IH]; [right; intros l []|]. destruct (lf_kind l) eqn:E.
      5: left; exists l; split; [left; reflexivity | exact E].
      all: destruct IH as [(l' & Hl & Ek)|IH]; [left; exists l'; split; [right; exact Hl | exact Ek] |
        right; intros l' [<-|Hl]; [congruence | apply IH; exact Hl]]. }
    destruct D as [(l & Hl & Ek)|D].
    - exists l. split; [apply leaf_of_all; exact Hl | exact Ek].
    - exfalso. apply (proj1 (restricted_elements e domain (fun l Hl => D l (all_leaves_of _ _ _ Hl)) i) H).
  Qed.
End Only.

(** ** The samples *)
Lemma zcg_restrictable : forall l, In l [cg1 ztab1; cg2 ztab2] -> fiat_restricts renumber l.
Proof.
  intros l [<-|[<-|[]]]; apply (renumber_restricts _ "affine"%string); try reflexivity; apply leaf_okb_ok; reflexivity.
Qed.

Lemma zdg1_restrictable : forall domain cl, domain = "interior"%string \/ ~ selects domain cl 1 1 ->
  restrictable renumber domain cl zdg1.
Proof.
  intros domain cl H. apply rs_discontinuous_leaf; [reflexivity | cbn; lia | | exact H].
  intros k i ds (row & Hr & Hi) N. cbn in Hr. destruct Hr as [E|[E|[]]]; injection E as <- <-; [|reflexivity].
  cbn in Hi. destruct Hi as [E|[E|[]]]; injection E as <- <-; contradiction.
Qed.

Lemma zfactor : forall l, In l [cg1 ztab1; cg2 ztab2] ->
  exists c n, cell_of (ELeaf l) = Ok c /\ get_dimension c = DI n /\ n <= 4 /\
    forall d m, names d n m -> m <= n -> d = "interior"%string \/ m < n -> restrictable renumber d false (ELeaf l).
Proof.
  intros l H. exists I1, 1. split; [destruct H as [<-|[<-|[]]]; reflexivity|]. split; [reflexivity|]. split; [lia|].
  intros d m _ _ _. apply rs_fiat; [destruct H as [<-|[<-|[]]]; reflexivity | apply zcg_restrictable; exact H].
Qed.

Lemma zdg1_factor : exists c n, cell_of zdg1 = Ok c /\ get_dimension c = DI n /\ n <= 4 /\
  forall d m, names d n m -> m <= n -> d = "interior"%string \/ m < n -> restrictable renumber d false zdg1.
Proof.
  exists I1, 1. split; [reflexivity|]. split; [reflexivity|]. split; [lia|].
  intros d m Hn Hm [->|L]; apply zdg1_restrictable; [now left | right]. intros (n & Hn' & _ & [X|(X & _)]); [|discriminate].
  pose proof (names_fun _ _ _ _ Hn Hn'). subst; lia.
Qed.

Lemma zrt_restrictable : forall domain cl, restrictable renumber domain cl zrt.
Proof.
  intros domain cl. unfold zrt. apply rs_enriched; [repeat constructor|].
  constructor; [|constructor; [|constructor]]; (apply rs_hdiv; [apply rs_product | repeat constructor | reflexivity | exists []; reflexivity]).
  - constructor; [apply zfactor; right; left; reflexivity | constructor; [exact zdg1_factor | constructor]].
  - constructor; [exact zdg1_factor | constructor; [apply zfactor; right; left; reflexivity | constructor]].
Qed.

Lemma zq21_restrictable : restrictable renumber "facet" true zq21.
Proof.
  unfold zq21.
  apply (rs_mixed _ "facet"%string true [EFlattened (ETensorProduct [zcg2; zcg2]); ETensor (EFlattened (ETensorProduct [zcg1; zcg1])) [2] false] _ (Hypercube 2)).
  - constructor; [|constructor; [|constructor]].
    + apply rs_flattened, rs_product. constructor; [|constructor; [|constructor]]; apply zfactor; right; left; reflexivity.
    + apply rs_tensor; [repeat constructor|]. apply rs_flattened, rs_product.
      constructor; [|constructor; [|constructor]]; apply zfactor; left; reflexivity.
  - reflexivity.
  - reflexivity.
  - assert (X : selects "facet" true 2 0).
    { exists 1. split; [constructor | split; [lia | right; split; [reflexivity | split; [discriminate | lia]]]]. }
    intros a b da db _ [<-|[<-|[]]] _ Hb _; vm_compute in Hb; injection Hb as <-.
    + exists (DI 0), 0, 0, [0]. split; [eexists; split; [left; reflexivity | left; reflexivity] | split; [exact X | left; reflexivity]].
    + exists (DI 0), 0, 0, [0; 1]. split; [eexists; split; [left; reflexivity | left; reflexivity] | split; [exact X | left; reflexivity]].
Qed.

Lemma sel_named : forall s D n, names s D n -> n <= D -> selects s true D n.
Proof. intros s D n H L. exists n. auto. Qed.
Lemma sel_below : forall s D n d, names s D n -> d < n -> d <= D -> s <> "interior"%string -> selects s true D d.
Proof. intros s D n d H L L' N. exists n. auto 6. Qed.

Lemma no_dofs : forall (S : nat -> Prop) (Sb : nat -> bool) d, (forall n, S n -> Sb n = true) ->
  forallb (fun kr => negb (Sb (dk_total (fst kr))) || forallb (fun il => match snd il with [] => true | _ => false end) (snd kr)) d = true ->
  ~ some_dof S d.
Proof.
  intros S Sb d HS H (k & i & v & l & (row & Hr & Hi) & Hs & Hv). rewrite forallb_forall in H. specialize (H _ Hr). cbn [fst snd] in H.
  rewrite (HS _ Hs) in H. cbn [negb orb] in H. rewrite forallb_forall in H. specialize (H _ Hi). cbn [snd] in H. destruct l; [destruct Hv | discriminate].
Qed.

Lemma a_dof : forall (S : nat -> Prop) (d : edofs) k i v,
  S (dk_total k) -> existsb (fun kr => dimkey_eqb (fst kr) k && existsb (fun il => Nat.eqb (fst il) i && existsb (Nat.eqb v) (snd il)) (snd kr)) d = true ->
  some_dof S d.
Proof.
  intros S d k i v HS H. apply existsb_exists in H. destruct H as ([k' row] & Hr & H). apply andb_prop in H. destruct H as [Ek H]. cbn [fst snd] in *.
  destruct (dimkey_eqb_spec k' k); [subst|discriminate]. apply existsb_exists in H. destruct H as ([i' l] & Hi & H). apply andb_prop in H. destruct H as [Ei H].
  cbn [fst snd] in *. apply Nat.eqb_eq in Ei. subst. apply existsb_exists in H. destruct H as (w & Hw & Ew). apply Nat.eqb_eq in Ew. subst.
  exists k, i, w, l. split; [exists row; auto | auto].
Qed.

Lemma zrt_facets : exists d,
  (forall l, leaf_of l zrt -> leaf_ok l) /\ sensible zrt /\ cell_of zrt = Ok (TPCell [I1; I1]) /\ value_shape zrt = Ok [2] /\
  entity_dofs zrt = Ok d /\ valid "facet" 2 /\ restrictable renumber "facet" true zrt /\
  some_dof (selects "facet" true 2) d /\ some_dof (selects "interior" true 2) d /\ ~ some_dof (selects "vertex" true 2) d /\
  match RestrictedElement renumber zrt (Some "facet"%string) false with Ok (RElt r) => space_dimension r | _ => 0 end = 8 /\
  match RestrictedElement renumber zrt (Some "interior"%string) false with Ok (RElt r) => space_dimension r | _ => 0 end = 4 /\
  RestrictedElement renumber zrt (Some "vertex"%string) false = Err ValueError.
Proof.
  eexists. split; [apply leaves_okb; reflexivity|]. split; [exact (proj1 zrt_shaped)|]. split; [reflexivity|]. split; [reflexivity|].
  split; [vm_compute; reflexivity|]. split; [exists 1; split; [constructor | lia]|]. split; [apply zrt_restrictable|].
  split; [apply (a_dof _ _ (DT [DI 0; DI 1]) 0 0); [apply sel_named; [constructor | cbn; lia] | reflexivity]|].
  split; [apply (a_dof _ _ (DT [DI 1; DI 1]) 0 4); [apply sel_named; [constructor | cbn; lia] | reflexivity]|].
  split; [apply (no_dofs _ (selectsb "vertex" true 2)); [intros n; apply selectsb_spec | reflexivity]|].
  split; [vm_compute; reflexivity|]. split; vm_compute; reflexivity.
Qed.

Lemma zq21_facets :
  (forall l, leaf_of l zq21 -> leaf_ok l) /\ sensible zq21 /\ cell_of zq21 = Ok (Hypercube 2) /\ value_shape zq21 = Ok [3] /\
  valid "facet" 2 /\ restrictable renumber "facet" true zq21 /\
  exists r dr, RestrictedElement renumber zq21 (Some "facet"%string) false = Ok (RElt r) /\ entity_dofs r = Ok dr /\
    space_dimension zq21 = 17 /\ space_dimension r = 16 /\ value_shape r = Ok [3] /\
    has_dofs dr (DI 0) 3 [7; 14; 15] /\ has_dofs dr (DI 1) 0 [0] /\ has_dofs dr (DI 2) 0 [].
Proof.
  split; [apply leaves_okb; reflexivity|]. split; [is_sensible|]. split; [reflexivity|]. split; [reflexivity|].
  split; [exists 1; split; [constructor | lia]|]. split; [exact zq21_restrictable|].
  eexists _, _. split; [vm_compute; reflexivity|]. split; [vm_compute; reflexivity|]. split; [reflexivity|]. split; [reflexivity|]. split; [reflexivity|].
  split; [|split]; (eexists; split; [cbn [In]; eauto|]); cbn [In]; eauto.
Qed.

Lemma zdg1_leaves : forall l, leaf_of l zdg1 -> leaf_ok l.
Proof. apply leaves_okb. reflexivity. Qed.

Lemma cell_by_name : exists (e : elt Z) d, built e /\ (forall l, leaf_of l e -> leaf_ok l) /\ sensible e /\
  cell_of e = Ok (Simplex 1) /\ entity_dofs e = Ok d /\ names "edge" 1 1 /\ some_dof (selects "edge" true 1) d /\
  RestrictedElement renumber e (Some "edge"%string) false = Err ValueError.
Proof.
  exists zdg1. eexists. split; [constructor|]. split; [exact zdg1_leaves|]. split; [is_sensible|]. split; [reflexivity|].
  split; [reflexivity|]. split; [constructor|]. split; [|reflexivity].
  apply (a_dof _ _ (DI 1) 0 0); [apply sel_named; [constructor | cbn; lia] | reflexivity].
Qed.

Lemma one_member : exists (e : elt Z) d, mk_mixed [zcg2] = Ok e /\ entity_dofs e = Ok d /\
  (forall l, leaf_of l e -> leaf_ok l) /\ sensible e /\ cell_of e = Ok (Simplex 1) /\ some_dof (selects "vertex" true 1) d /\
  RestrictedElement renumber e (Some "vertex"%string) false = Err AssertionError.
Proof.
  eexists _, _. split; [reflexivity|]. split; [reflexivity|]. split; [apply leaves_okb; reflexivity|]. split; [is_sensible|].
  split; [reflexivity|]. split; [|reflexivity].
  apply (a_dof _ _ (DI 0) 0 0); [apply sel_named; [constructor | cbn; lia] | reflexivity].
Qed.

Lemma nested_product : exists (e : elt Z) d, built e /\ entity_dofs e = Ok d /\
  (forall l, leaf_of l e -> leaf_ok l) /\ sensible e /\ cell_of e = Ok (TPCell [TPCell [I1; I1]; I1]) /\
  some_dof (selects "facet" true 3) d /\
  RestrictedElement renumber e (Some "facet"%string) false = Err TypeError.
Proof.
  exists (ETensorProduct [ETensorProduct [zcg2; zcg2]; zcg2]). eexists. split.
  { apply (built_tensor_product [ETensorProduct [zcg2; zcg2]; zcg2]); [|reflexivity]. constructor; [|repeat constructor].
    apply (built_tensor_product [zcg2; zcg2]); [repeat constructor | reflexivity]. }
  split; [vm_compute; reflexivity|]. split; [apply leaves_okb; reflexivity|]. split; [is_sensible|].
  split; [reflexivity|]. split; [|reflexivity].
  apply (a_dof _ _ (DT [DT [DI 0; DI 0]; DI 0]) 0 0); [apply (sel_below _ _ 2); [constructor | cbn; lia | cbn; lia | discriminate] | reflexivity].
Qed.

Lemma zrt_interior : exists r ts n' g,
  RestrictedElement renumber zrt (Some "interior"%string) false = Ok (RElt r) /\
  basis_evaluation zops (zleaf unit) r 1 zgrid None None 2 = Ok (ts, n') /\ In ([1; 0], g) ts /\
  eval zops (fun _ _ => 0%Z) g (fun i => match i with 0 => 2 | _ => 1 end) [0; 0] = 24%Z.
Proof.
  eexists _, _, _, _. split; [vm_compute; reflexivity|]. split; [vm_compute; reflexivity|]. split; [right; left; reflexivity|].
  vm_compute. reflexivity.
Qed.

Lemma mixed_shape : exists (e : elt Z) r d, mk_mixed [zcg2; zdg1] = Ok e /\ entity_dofs e = Ok d /\
  (forall l, leaf_of l e -> leaf_ok l) /\ sensible e /\ cell_of e = Ok (Simplex 1) /\ some_dof (selects "vertex" true 1) d /\
  RestrictedElement renumber e (Some "vertex"%string) false = Ok (RElt r) /\
  value_shape e = Ok [2] /\ value_shape r = Ok [1].
Proof.
  eexists _, _, _. split; [reflexivity|]. split; [vm_compute; reflexivity|]. split; [apply leaves_okb; reflexivity|]. split; [is_sensible|].
  split; [reflexivity|]. split; [|split; [vm_compute; reflexivity|]].
  - apply (a_dof _ _ (DI 0) 0 0); [apply sel_named; [constructor | cbn; lia] | reflexivity].
  - split; reflexivity.
Qed.

Lemma restricted_mapped : forall F fr (l : leaf F) domain, lf_kind l = KPhysicallyMapped ->
  RestrictedElement fr (ELeaf l) (Some domain) false = Err NotImplementedError.
Proof. intros F fr l domain H. unfold RestrictedElement. cbn [negb guard bind restrict]. rewrite H. reflexivity. Qed.

Lemma restricted_other : forall F fr (l : leaf F) domain, lf_kind l = KOther ->
  RestrictedElement fr (ELeaf l) (Some domain) false = Ok RBad.
Proof. intros F fr l domain H. unfold RestrictedElement. cbn [negb guard bind restrict]. rewrite H. reflexivity. Qed.

Lemma sum_other : exists e : elt Z, built e /\ (forall l, leaf_of l e -> leaf_ok l) /\ sensible e /\
  RestrictedElement renumber e (Some "vertex"%string) false = Ok RBad.
Proof.
  exists (EEnriched [zcg2; ELeaf (other_leaf ztab1)]). split; [|split; [|split]].
  - apply (built_enriched [zcg2; ELeaf (other_leaf ztab1)]). repeat constructor.
  - apply leaves_okb. reflexivity.
  - is_sensible.
  - reflexivity.
Qed.

Lemma kinds : (forall l, leaf_of l zrt -> lf_kind l <> KOther) /\ lf_kind (mapped_leaf ztab1) = KPhysicallyMapped /\
  leaf_ok (mapped_leaf ztab1) /\ leaf_ok (other_leaf ztab1).
Proof.
  split; [|split; [reflexivity | split; apply leaf_okb_ok; reflexivity]].
  intros l H. apply all_leaves_of in H. assert (A : forallb (fun l => match lf_kind l with KOther => false | _ => true end) (all_leaves zrt) = true) by reflexivity.
  rewrite forallb_forall in A. specialize (A l H). destruct (lf_kind l); discriminate.
Qed.
