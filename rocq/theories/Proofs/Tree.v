(** Tabulation of element trees. *)
From Coq Require Import String List Arith Lia Bool.
From Verif Require Import Model.Prelude Model.Cell Model.Element Model.EntityMaps Model.Gem Model.PointSet Model.Evaluation.
From Verif Require Import Spec.Rowmajor Spec.EntityDofs Spec.Layout Spec.Tabulation.
From Verif Require Import Proofs.Lists Proofs.Cells Proofs.Cubes Proofs.EntityDofs Proofs.EntityDofs2 Proofs.Flatten
  Proofs.GemEval Proofs.Tables Proofs.Tables2 Proofs.Tables3 Proofs.Leaf Proofs.Factor.
Import ListNotations.
Open Scope fresh_scope.

(* ------------------------------------------------------------------ *)
(** ** What the constructors guarantee *)

Section Guarantees.
  Context {F : Type}.
  Local Notation elt := (elt F).

  Definition checked (s : elt) : Prop :=
    match s with
    | EMixedSub e sz off => exists sh, value_shape e = Ok sh /\ off + prod sh <= sz
    | EHDiv w => exists tr, select_hdiv_transformer w = Ok tr
    | EHCurl w => exists tr, select_hcurl_transformer w = Ok tr
    | _ => True
    end.
  Definition all_checked (e : elt) : Prop := forall s, subelt s e -> checked s.

  Lemma subelt_flat : forall s (es : list elt), subelt s (mk_enriched es) ->
    (exists fs, s = EEnriched fs) \/ exists e', In e' es /\ subelt s e'.
  Proof.
    intros s es H. unfold mk_enriched in H.
    set (L := flat_map (fun e => match e with EEnriched es' => es' | _ => [e] end) es) in *.
    assert (HL : forall x, In x L -> subelt s x -> exists e', In e' es /\ subelt s e').
    { intros x Hx Hs. unfold L in Hx. apply in_flat_map in Hx as (e' & He' & Hx). exists e'. split; [exact He'|].
      destruct e'; try (destruct Hx as [<-|[]]; exact Hs). eapply se_enriched; eassumption. }
    assert (HE : subelt s (EEnriched L) -> (exists fs, s = EEnriched fs) \/ exists e', In e' es /\ subelt s e').
    { intros Hs. inversion Hs; subst; [left; eexists; reflexivity|]. right. eapply HL; eassumption. }
    destruct L as [|x [|y L']]; [exact (HE H) | | exact (HE H)].
    right. apply (HL x); [left; reflexivity | exact H].
  Qed.

  Lemma mk_enriched_checked : forall es : list elt, Forall all_checked es -> all_checked (mk_enriched es).
  Proof.
    intros es H s Hs. apply subelt_flat in Hs as [(fs & ->)|(e' & He' & Hs)]; [exact I|].
    rewrite Forall_forall in H. exact (H e' He' s Hs).
  Qed.

  Lemma built_checked : forall e : elt, built e -> all_checked e.
  Proof.
    fix IH 2. intros e H. destruct H as [l|fs e FB E|b s tr B|es FB|es e FB E|p e B E|e B|w e B E|w e B E].
    - intros s Hs. inversion Hs; subst. exact I.
    - unfold mk_tensor_product in E. apply bind_ok in E as (ss & _ & E). apply bind_ok in E as (v & _ & E). injection E as <-.
      assert (G : Forall all_checked fs) by (clear - IH FB; induction FB; constructor; auto).
      clear IH FB. intros s Hs. inversion Hs; subst; [exact I|]. rewrite Forall_forall in G. eapply G; eassumption.
    - specialize (IH b B). intros s' Hs. inversion Hs; subst; [exact I | apply IH; assumption].
    - apply mk_enriched_checked. clear - IH FB; induction FB; constructor; auto.
    - assert (G : Forall all_checked es) by (clear - IH FB; induction FB; constructor; auto). clear IH FB.
      unfold mk_mixed in E. apply bind_ok in E as (ss & _ & E). apply bind_ok in E as (subs & Hs & E). injection E as <-.
      apply mk_enriched_checked. apply mapM_ok in Hs.
      assert (Hz : forall oe, In oe (zip (removelast (cumsum0 (map prod ss))) es) -> all_checked (snd oe)).
      { intros [o e'] Hin. rewrite zip_combine in Hin. apply in_combine_r in Hin. rewrite Forall_forall in G. apply G. exact Hin. }
      revert Hz. induction Hs as [|[o e'] y l l' Hxy Hs IHs]; intros Hz; constructor; [|apply IHs; intros oe Hoe; apply Hz; right; exact Hoe].
      specialize (Hz (o, e') (or_introl eq_refl)). cbn [snd fst] in *.
      unfold mk_mixed_sub in Hxy. apply bind_ok in Hxy as (? & _ & Hxy). apply bind_ok in Hxy as (sh & Hsh & Hxy).
      apply bind_ok in Hxy as ([] & Hg & Hxy). injection Hxy as <-. apply guard_ok in Hg. apply Nat.leb_le in Hg.
      intros s Hss. inversion Hss; subst; [exists sh; split; assumption | apply Hz; assumption].
    - specialize (IH p B). unfold mk_flattened in E. apply bind_ok in E as (? & _ & E). injection E as <-.
      intros s Hs. inversion Hs; subst; [exact I | apply IH; assumption].
    - specialize (IH e B). intros s Hs. inversion Hs; subst; [exact I | apply IH; assumption].
    - specialize (IH w B). unfold mk_hdiv in E. do 5 (apply bind_ok in E as (? & _ & E)). apply bind_ok in E as (tr & Htr & E). injection E as <-.
      intros s Hs. inversion Hs; subst; [exists tr; exact Htr | apply IH; assumption].
    - specialize (IH w B). unfold mk_hcurl in E. do 4 (apply bind_ok in E as (? & _ & E)). apply bind_ok in E as (tr & Htr & E). injection E as <-.
      intros s Hs. inversion Hs; subst; [exists tr; exact Htr | apply IH; assumption].
  Qed.

  (* ---------------------------------------------------------------- *)
  (** ** Shapes *)

  Lemma shaped_sub : forall e e' : elt, shaped e -> (forall s, subelt s e' -> subelt s e) ->
    (forall l, leaf_of l e' -> leaf_of l e) -> shaped e'.
  Proof.
    intros e e' (S1 & S2 & S3 & S4 & S5) Hs Hl. split; [eapply sensible_sub; eassumption|].
    split; [intros b sh tr H; eapply S2; apply Hs; exact H|]. split; [intros l H; apply S3, Hl, H|].
    split; intros w H; [apply S4 | apply S5]; apply Hs; exact H.
  Qed.

  Lemma product_value_shape_concat : forall ss s, product_value_shape ss = Ok s -> s = concat ss.
  Proof.
    intros ss s H. unfold product_value_shape in H.
    assert (E : concat ss = concat (filter (fun s => negb (list_eqb Nat.eqb s [])) ss)).
    { clear H. induction ss as [|x ss IH]; [reflexivity|]. cbn [concat filter].
      destruct x as [|a x]; cbn [list_eqb negb]; [exact IH|]. cbn [concat]. rewrite IH. reflexivity. }
    rewrite E. destruct (filter _ ss) as [|x [|y r]]; [injection H as <-; reflexivity| |discriminate].
    injection H as <-. simpl. rewrite app_nil_r. reflexivity.
  Qed.

  Lemma Forall_concat : forall A (P : A -> Prop) ls, Forall (Forall P) ls -> Forall P (concat ls).
  Proof. induction 1 as [|l ls Hl H IH]; [constructor|]. cbn [concat]. apply Forall_app. split; assumption. Qed.

  Lemma value_shape_pos : forall (e : elt) s, shaped e -> all_checked e -> value_shape e = Ok s -> Forall (lt 0) s.
  Proof.
    intros e. induction e as [l|fs IH|b sh t IH|es IH|e sz off IH|e IH|e IH|e IH|e IH] using elt_ind'; intros s S C E; cbn [value_shape] in E.
    - injection E as <-. apply S. constructor.
    - apply bind_ok in E as (ss & Hss & E). apply product_value_shape_concat in E as ->. apply Forall_concat.
      apply mapM_ok in Hss.
      assert (Hin : forall f, In f fs -> forall s, value_shape f = Ok s -> Forall (lt 0) s).
      { intros f Hf. rewrite Forall_forall in IH. intros s. apply (IH f Hf).
        - eapply shaped_sub; [exact S | intros; econstructor; eassumption | intros; econstructor; eassumption].
        - intros x Hx. apply C. econstructor; eassumption. }
      clear - Hss Hin. induction Hss as [|f x fs ss Hx Hss IHs]; constructor; [eapply Hin; [left; reflexivity | exact Hx]|].
      apply IHs. intros f' Hf'. apply Hin. right. exact Hf'.
    - apply bind_ok in E as (sb & Hsb & E). injection E as <-. apply Forall_app. split.
      + destruct S as (_ & S2 & _). eapply S2. apply se_refl.
      + eapply IH; [| |exact Hsb].
        * eapply shaped_sub; [exact S | intros; constructor; assumption | intros; constructor; assumption].
        * intros x Hx. apply C. constructor; assumption.
    - apply bind_ok in E as (ss & Hss & E). destruct (unique_ok _ _ _ _ (list_eqb_spec _ _ nat_eqb_spec) E) as [Hne Hall].
      destruct es as [|e es]; [injection Hss as <-; congruence|]. apply mapM_ok in Hss. inversion Hss as [|? x ? ss' Hx Hss']; subst.
      inversion Hall; subst. inversion IH as [|? ? IH1 IH2]; subst. eapply IH1; [| |exact Hx].
      * eapply shaped_sub; [exact S | intros; econstructor; [left; reflexivity | assumption] | intros; econstructor; [left; reflexivity | assumption]].
      * intros y Hy. apply C. econstructor; [left; reflexivity | assumption].
    - injection E as <-. destruct (C _ (se_refl _)) as (sh & Hsh & Hle). constructor; [|constructor].
      assert (Hp : Forall (lt 0) sh).
      { eapply IH; [| |exact Hsh].
        - eapply shaped_sub; [exact S | intros; constructor; assumption | intros; constructor; assumption].
        - intros x Hx. apply C. constructor; assumption. }
      apply prod_pos in Hp. lia.
    - eapply IH; [| |exact E].
      + eapply shaped_sub; [exact S | intros; constructor; assumption | intros; constructor; assumption].
      + intros x Hx. apply C. constructor; assumption.
    - eapply IH; [| |exact E].
      + eapply shaped_sub; [exact S | intros; constructor; assumption | intros; constructor; assumption].
      + intros x Hx. apply C. constructor; assumption.
    - apply bind_ok in E as (c & Hc & E). injection E as <-. constructor; [|constructor].
      destruct S as (_ & _ & _ & S4 & _). destruct (S4 _ (se_refl _)) as (slots & a & b & k0 & k1 & vs & c' & _ & _ & _ & _ & Hc' & Hcase).
      rewrite Hc in Hc'. injection Hc' as <-. inversion Hcase; subst; lia.
    - apply bind_ok in E as (c & Hc & E). injection E as <-. constructor; [|constructor].
      destruct S as (_ & _ & _ & _ & S5). destruct (S5 _ (se_refl _)) as (slots & a & b & k0 & k1 & vs & c' & _ & _ & _ & _ & Hc' & Hcase).
      rewrite Hc in Hc'. injection Hc' as <-. inversion Hcase; subst; lia.
  Qed.

  (* ---------------------------------------------------------------- *)
  (** ** Transformations of the wrappers *)

  Lemma hdiv_select : forall (w : elt) slots tr, embeds hdiv_case w slots -> select_hdiv_transformer w = Ok tr ->
    slots_of tr = slots /\ value_shape w = Ok (wshape_of tr) /\
    exists c, cell_of w = Ok c /\ length slots = spatial_dimension c.
  Proof.
    intros w slots tr (a & b & k0 & k1 & vs & c & -> & Ha & Hb & Hvs & Hc & Hcase) Hs.
    unfold select_hdiv_transformer in Hs. generalize dependent (mapping (ETensorProduct [a; b])). intros mp Hcase Hs. cbn [wrapper_factors bind] in Hs.
    apply bind_ok in Hs as (c1 & _ & Hs). apply bind_ok in Hs as (? & _ & Hs).
    rewrite Ha in Hs. cbn [bind] in Hs. rewrite Hb in Hs. cbn [bind] in Hs.
    rewrite Hvs. inversion Hcase as [m E0 E1 Em Ev Ed|m E0 E1 Em Ev Ed|m E0 E1 Em Ev Ed|E0 E1 Em Ev Ed|E0 E1 Em Ev Ed]; subst.
    - injection Hs as <-. split; [reflexivity|]. split; [reflexivity|]. exists c. split; [assumption | simpl; congruence].
    - injection Hs as <-. split; [reflexivity|]. split; [reflexivity|]. exists c. split; [assumption | simpl; congruence].
    - injection Hs as <-. split; [reflexivity|]. split; [reflexivity|]. exists c. split; [assumption | simpl; congruence].
    - cbn in Hs. injection Hs as <-. split; [reflexivity|]. split; [reflexivity|]. exists c. split; [assumption | simpl; congruence].
    - cbn in Hs. injection Hs as <-. split; [reflexivity|]. split; [reflexivity|]. exists c. split; [assumption | simpl; congruence].
  Qed.

  Lemma hcurl_select : forall (w : elt) slots tr, embeds hcurl_case w slots -> select_hcurl_transformer w = Ok tr ->
    slots_of tr = slots /\ value_shape w = Ok (wshape_of tr) /\
    exists c, cell_of w = Ok c /\ length slots = spatial_dimension c.
  Proof.
    intros w slots tr (a & b & k0 & k1 & vs & c & -> & Ha & Hb & Hvs & Hc & Hcase) Hs.
    unfold select_hcurl_transformer in Hs. generalize dependent (mapping (ETensorProduct [a; b])). intros mp Hcase Hs. cbn [wrapper_factors bind] in Hs.
    apply bind_ok in Hs as (c1 & _ & Hs). apply bind_ok in Hs as (? & _ & Hs).
    rewrite Hc in Hs. cbn [bind] in Hs. rewrite Ha in Hs. cbn [bind] in Hs. rewrite Hb in Hs. cbn [bind] in Hs.
    rewrite Hvs. inversion Hcase as [E0 E1 Em Ev Ed|d E0 E1 Em Ev Ed|? ? E0 E1 Em Ev Ed|? ? E0 E1 Em Ev Ed]; subst; cbn in Hs.
    - injection Hs as <-. split; [reflexivity|]. split; [reflexivity|]. exists c. split; [assumption | simpl; congruence].
    - rewrite <- Ed in Hs. injection Hs as <-. cbn [slots_of wshape_of]. split; [|split; [reflexivity|]].
      + rewrite Nat.sub_0_r. replace (S d - d - 1) with 0 by lia. reflexivity.
      + exists c. split; [assumption|]. rewrite app_length, repeat_length. simpl. lia.
    - injection Hs as <-. split; [reflexivity|]. split; [reflexivity|]. exists c. split; [assumption | simpl; congruence].
    - injection Hs as <-. split; [reflexivity|]. split; [reflexivity|]. exists c. split; [assumption | simpl; congruence].
  Qed.

  Lemma slots_of_comp : forall tr neg v, In (SComp neg v) (slots_of tr) -> in_shape (wshape_of tr) v.
  Proof.
    intros [ng pos n| | |] neg v H; cbn [slots_of wshape_of] in *.
    - apply in_app_or in H as [H|H]; [apply repeat_spec in H; discriminate|].
      apply in_app_or in H as [[E|[]]|H]; [injection E as _ <-; constructor | apply repeat_spec in H; discriminate].
    - destruct H as [E|[E|[E|[]]]]; try discriminate; injection E as _ <-; repeat constructor.
    - destruct H as [E|[E|[E|[]]]]; try discriminate; injection E as _ <-; repeat constructor.
    - destruct H as [E|[E|[E|[]]]]; try discriminate; injection E as _ <-; repeat constructor.
  Qed.

  Lemma slots_of_some : forall tr, exists s, In s (slots_of tr) /\ s <> SZero.
  Proof.
    intros [ng pos n| | |]; cbn [slots_of].
    - exists (SComp ng []). split; [apply in_or_app; right; left; reflexivity | discriminate].
    - eexists. split; [left; reflexivity | discriminate].
    - eexists. split; [left; reflexivity | discriminate].
    - eexists. split; [left; reflexivity | discriminate].
  Qed.
End Guarantees.

(* ------------------------------------------------------------------ *)
(** ** Blocks *)

Lemma find_block : forall A (f : A -> nat) (l : list A) k, k < sum (map f l) ->
  exists pre x post j, l = pre ++ x :: post /\ k = sum (map f pre) + j /\ j < f x.
Proof.
  induction l as [|y l IH]; intros k H; cbn [map sum] in H; [lia|].
  destruct (lt_dec k (f y)) as [Hk|Hk].
  - exists [], y, l, k. split; [reflexivity|]. split; [reflexivity | exact Hk].
  - destruct (IH (k - f y)) as (pre & x & post & j & -> & E & Hj); [lia|].
    exists (y :: pre), x, post, j. split; [reflexivity|]. split; [cbn [map sum]; lia | exact Hj].
Qed.

Lemma ravel_onto : forall s n, n < prod s -> exists b, in_shape s b /\ ravel s b = n.
Proof. intros s n H. exists (unravel_digits s n). split; [apply unravel_in_shape | apply ravel_unravel]; exact H. Qed.

Lemma map_fst_combine : forall A B (a : list A) (b : list B), length a = length b -> map fst (combine a b) = a.
Proof. induction a as [|x a IH]; intros [|y b] H; try discriminate; [reflexivity|]. cbn [combine map fst]. rewrite IH by (simpl in H; lia). reflexivity. Qed.
Lemma map_snd_combine : forall A B (a : list A) (b : list B), length a = length b -> map snd (combine a b) = b.
Proof. induction a as [|x a IH]; intros [|y b] H; try discriminate; [reflexivity|]. cbn [combine map snd]. rewrite IH by (simpl in H; lia). reflexivity. Qed.

Lemma in_shape_concat : forall shs idx, in_shape (concat shs) idx -> exists idxs, idx = concat idxs /\ Forall2 in_shape shs idxs.
Proof.
  induction shs as [|s shs IH]; intros idx H; cbn [concat] in H.
  - inversion H; subst. exists []. split; [reflexivity | constructor].
  - apply in_shape_app_inv in H as (i1 & i2 & -> & H1 & H2). destruct (IH i2 H2) as (idxs & -> & H3).
    exists (i1 :: idxs). split; [reflexivity | constructor; assumption].
Qed.

(* ------------------------------------------------------------------ *)
(** ** Trees *)

Section Trees.
  Context {F : Type} (o : ops F) {G : Type}.
  Context (R : ring_theory (f0 o) (f1 o) (fadd o) (fmul o) (fsub o) (fopp o) eq).
  Context (leaf_eval : leaf F -> nat -> pset F -> option (dimkey * nat) -> option G -> fresh (list (list nat * gem F))).
  Context (vars : string -> list nat -> F).
  (** A property of point sets that factoring preserves. *)
  Context (Q : pset F -> Prop)
    (HQf : forall dims ps pss, Q ps -> factor_point_set dims ps = Ok pss -> Forall Q pss).
  Local Notation gem := (gem F).
  Local Notation elt := (elt F).
  Local Notation eval := (eval o vars).
  Local Notation ids ps := (map ix_id (ps_indices ps)).

  Definition leaves_fine (e : elt) : Prop :=
    forall l, leaf_of l e -> prod (lf_ishape l) = lf_dim l /\ leaf_tabulates_on o Q leaf_eval l.

  Definition tabulates (e : elt) : Prop :=
    forall order ps ent cm n c vs,
      all_checked e -> shaped e -> leaves_fine e ->
      cell_of e = Ok c -> value_shape e = Ok vs ->
      ps_ok ps -> Q ps -> (forall i, In i (ps_indices ps) -> ix_id i < n) ->
      entity_of (topology c) (entity_or_cell c ent) -> fits e (entity_or_cell c ent) ps ->
      exists ts n', basis_evaluation o leaf_eval e order ps ent cm n = Ok (ts, n') /\ n <= n' /\
        tables_ok o vars e (spatial_dimension c) order vs ps (entity_or_cell c ent) ts.

  Lemma ids_lt : forall (ps : pset F) n, (forall i, In i (ps_indices ps) -> ix_id i < n) -> forall x, In x (ids ps) -> x < n.
  Proof. intros ps n H x Hx. apply in_map_iff in Hx as (i & <- & Hi). auto. Qed.

  (** What is known of one factor's tables. *)
  Record fdata := mkFdata { d_e : elt; d_c : cell; d_vs : list nat; d_q : pset F; d_ent : dimkey * nat; d_ts : list (list nat * gem) }.
  Definition fdata_ok (order : nat) (d : fdata) : Prop :=
    cell_of (d_e d) = Ok (d_c d) /\ value_shape (d_e d) = Ok (d_vs d) /\ ps_ok (d_q d) /\
    psdim (d_q d) = dk_total (fst (d_ent d)) /\
    prod (index_shape (d_e d)) = space_dimension (d_e d) /\
    tables_ok o vars (d_e d) (spatial_dimension (d_c d)) order (d_vs d) (d_q d) (d_ent d) (d_ts d).
  Definition fpart (d : fdata) : part F :=
    mkPart (spatial_dimension (d_c d)) (index_shape (d_e d)) (d_vs d) (d_ts d).

  Lemma factors_tabulate : forall order fs cs vss (pss : list (pset F)) (ents : list (dimkey * nat)) n,
    Forall tabulates fs -> Forall all_checked fs -> Forall shaped fs -> Forall leaves_fine fs ->
    Forall2 (fun f c => cell_of f = Ok c) fs cs -> Forall2 (fun f v => value_shape f = Ok v) fs vss ->
    Forall ps_ok pss -> Forall Q pss -> length pss = length fs ->
    Forall2 (fun c x => entity_of (topology c) x) cs ents ->
    Forall2 (fun f x => fits f (snd x) (fst x)) fs (combine pss ents) ->
    (forall q i, In q pss -> In i (ps_indices q) -> ix_id i < n) ->
    exists ds n', map2F (fun fe pe => basis_evaluation o leaf_eval fe order (fst pe) (Some (snd pe)) None) fs (zip pss ents) n
        = Ok (map d_ts ds, n') /\ n <= n' /\
      map d_e ds = fs /\ map d_c ds = cs /\ map d_vs ds = vss /\ map d_q ds = pss /\ map d_ent ds = ents /\
      Forall (fdata_ok order) ds.
  Proof.
    intros order fs. induction fs as [|f fs IH]; intros cs vss pss ents n HT HC HS HL Hcs Hvs Hps HQs Hlen Hent Hfit Hids.
    - inversion Hcs; subst. inversion Hvs; subst. destruct pss; [|discriminate]. inversion Hent; subst.
      exists [], n. repeat split; auto.
    - destruct pss as [|q pss]; [discriminate|].
      inversion Hcs as [|? c ? cs' Hc Hcs']; subst. inversion Hvs as [|? v ? vss' Hv Hvs']; subst.
      inversion Hent as [|? x ? ents' Hx Hent']; subst. cbn [combine] in Hfit. inversion Hfit as [|? ? ? ? Hf Hfit']; subst.
      inversion HT as [|? ? T1 T2]; subst. inversion HC as [|? ? C1 C2]; subst. inversion HS as [|? ? S1 S2]; subst.
      inversion HL as [|? ? L1 L2]; subst. inversion Hps as [|? ? P1 P2]; subst. inversion HQs as [|? ? Q1 Q2]; subst. cbn [fst snd] in Hf.
      destruct (T1 order q (Some x) None n c v C1 S1 L1 Hc Hv P1 Q1) as (ts & n1 & E & Hle & Hok).
      { intros i Hi. apply (Hids q); [left; reflexivity | exact Hi]. }
      { exact Hx. }
      { exact Hf. }
      destruct (IH cs' vss' pss ents' n1 T2 C2 S2 L2 Hcs' Hvs' P2 Q2) as (ds & n2 & E2 & Hle2 & M1 & M2 & M3 & M4 & M5 & Hds).
      { simpl in Hlen. lia. }
      { exact Hent'. }
      { exact Hfit'. }
      { intros q' i Hq Hi. specialize (Hids q' i (or_intror Hq) Hi). lia. }
      exists (mkFdata f c v q x ts :: ds), n2. cbn [zip map2F fst snd]. unfold fbind; cbn beta iota. unfold entity, tables in *.
      rewrite E, E2. split; [reflexivity|]. split; [lia|]. cbn [map d_e d_c d_vs d_q d_ent].
      rewrite M1, M2, M3, M4, M5. repeat (split; [reflexivity|]). constructor; [|exact Hds].
      split; [exact Hc|]. split; [exact Hv|]. split; [exact P1|]. split; [eapply fits_dim; [exact Hc | exact Hf]|].
      split; [apply dims_prod; intros l Hl; apply L1; exact Hl | exact Hok].
  Qed.

  (** One entry of the product's tables. *)
  Lemma product_value : forall order env ds alphas bs vs,
    Forall (fdata_ok order) ds -> Forall (fun d => env_ok (d_q d) env) ds ->
    Forall2 (fun d a => length a = spatial_dimension (d_c d)) ds alphas -> sum (concat alphas) <= order ->
    Forall2 (fun d b => in_shape (index_shape (d_e d)) b) ds bs ->
    Forall2 (fun d v => in_shape (d_vs d) v) ds vs ->
    exists xs : list (share F), Forall2 share_ok (map fpart ds) xs /\ map x_alpha xs = alphas /\ map x_b xs = bs /\ map x_v xs = vs /\
      values_of o (map d_e ds) alphas (map d_ent ds) (map (fun d => pt_at (d_q d) env) ds)
        (map2 (fun d b => ravel (index_shape (d_e d)) b) ds bs) vs
        (map (fun x => eval (x_g x) env (x_b x ++ x_v x)) xs).
  Proof.
    intros order env ds. induction ds as [|d ds IH]; intros alphas bs vs Hok Hen Ha Hsum Hb Hv.
    - inversion Ha; subst. inversion Hb; subst. inversion Hv; subst. exists []. repeat split; constructor.
    - inversion Ha as [|? a ? alphas' Ha1 Ha2]; subst. inversion Hb as [|? b ? bs' Hb1 Hb2]; subst.
      inversion Hv as [|? v ? vs' Hv1 Hv2]; subst. inversion Hok as [|? ? O1 O2]; subst. inversion Hen as [|? ? E1 E2]; subst.
      cbn [concat] in Hsum. rewrite sum_app in Hsum.
      destruct (IH alphas' bs' vs' O2 E2 Ha2 ltac:(lia) Hb2 Hv2) as (xs & Hsh & M1 & M2 & M3 & Hvals).
      destruct O1 as (Hc & Hvs & Hps & Hpd & Hdp & [[_ Hk] Htab]).
      assert (Hin : In a (map fst (d_ts d))) by (apply Hk; split; [exact Ha1 | rewrite sum_fold; lia]).
      apply in_map_iff in Hin as ([a' g] & Ea & Hin). cbn [fst] in Ea. subst a'.
      destruct (Htab a g Hin) as [[Hgs Hgf] Hval].
      exists (mkShare a b v g :: xs). split.
      + constructor; [|exact Hsh]. split; [exact Ha1|]. split; [exact Hin|]. cbn [x_b x_v fpart p_ish p_vsh].
        split; symmetry; apply in_shape_length; assumption.
      + cbn [map x_alpha x_b x_v x_g map2]. rewrite M1, M2, M3. repeat (split; [reflexivity|]).
        econstructor; [exact Hc | exact Ha1 | | | exact Hvs | exact Hv1 | | exact Hvals].
        * rewrite pt_at_length by assumption. exact Hpd.
        * rewrite <- Hdp. apply ravel_lt. exact Hb1.
        * rewrite <- rowmajor_ravel by (apply in_shape_length; exact Hb1). apply Hval; assumption.
  Qed.

  Lemma product_tabulates : forall fs, Forall tabulates fs -> tabulates (ETensorProduct fs).
  Proof using R HQf.
    intros fs IH order ps ent cm n c vs HC HS HL Hc Hvs Hps HQ Hids Hent Hfit.
    cbn [cell_of] in Hc. apply bind_ok in Hc as (cs & Hcs & Hc). injection Hc as <-.
    cbn [value_shape] in Hvs. apply bind_ok in Hvs as (ss & Hss & Hvs). apply product_value_shape_concat in Hvs as ->.
    destruct (factor_entity_ok cs ent Hent) as (ks & ns & es & Een & Htop & Hl & Hin & Hfe).
    rewrite Een in *.
    destruct (factor_point_set_ok fs cs ks ns es ps Hcs Htop Hl Hin Hps Hfit) as (pss & Epss & Lpss & (Sok & Sdim & Sincl & Spt) & Hfits).
    assert (Le : length ks = length es) by (rewrite Hl; apply in_shape_length; exact Hin).
    assert (Hents : map (fun x : dimkey * nat => dk_total (fst x)) (combine ks es) = map dk_total ks).
    { clear -Le. revert es Le. induction ks as [|k ks IH]; intros [|i es] L; try discriminate; [reflexivity|].
      cbn [combine map fst]. rewrite IH by (simpl in L; lia). reflexivity. }
    assert (Hne : fs <> []) by (destruct HS as ((NE & _) & _); apply (NE fs), se_refl).
    destruct (factors_tabulate order fs cs ss pss (combine ks es) n) as (ds & n1 & E & Hle & M1 & M2 & M3 & M4 & M5 & Hds); auto.
    { apply Forall_forall. intros f Hf x Hx. apply HC. econstructor; eassumption. }
    { apply Forall_forall. intros f Hf. eapply shaped_sub; [exact HS | intros; econstructor; eassumption | intros; econstructor; eassumption]. }
    { apply Forall_forall. intros f Hf l Hll. apply HL. econstructor; eassumption. }
    { apply mapM_ok. exact Hcs. }
    { apply mapM_ok. exact Hss. }
    { eapply HQf; eassumption. }
    { clear -Htop Hin Hl. revert ks ns es Htop Hin Hl. induction cs as [|c cs IH]; intros [|k ks] [|m ns] es Htop Hin Hl; try discriminate; simpl in Htop; inversion Htop; subst.
      - constructor.
      - inversion Hin as [|? i ? es' Hi Hin']; subst. cbn [combine]. constructor; [exists m; split; assumption|].
        eapply IH; [eassumption | exact Hin' | simpl in Hl; lia]. }
    { intros q i Hq Hi. apply Hids. eapply Sincl; eassumption. }
    destruct (merge_ok o vars R (map fpart ds) order (ids ps) n1) as (ts & n2 & Em & Hle2 & Hk & Hts).
    { intros Ed. apply map_eq_nil in Ed. subst ds. cbn [map] in M1. congruence. }
    { intros r Hr. apply in_map_iff in Hr as (d & <- & Hd).
      rewrite Forall_forall in Hds. destruct (Hds d Hd) as (_ & _ & _ & _ & _ & Hk & Htab).
      split; [exact Hk|]. intros a g Hag. destruct (Htab a g Hag) as [[Hgs Hgf] _]. split; [exact Hgs|].
      intros x Hx. apply Hgf in Hx. apply in_map_iff in Hx as (i & <- & Hi). apply in_map.
      apply (Sincl (d_q d)); [rewrite <- M4; apply in_map; exact Hd | exact Hi]. }
    { intros x Hx. apply (ids_lt ps n Hids) in Hx. lia. }
    exists ts, n2. split.
    { cbn [basis_evaluation]. unfold fbind at 1. unfold flift at 1. rewrite Hcs. cbn [bind].
      unfold fbind at 1. unfold flift at 1. rewrite Hfe. cbn [bind].
      assert (Hz : Nat.eqb (length (combine ks es)) 0 = false).
      { rewrite combine_length, <- Le, Nat.min_id. apply Nat.eqb_neq.
        rewrite <- (Forall2_combine_l _ _ _ _ _ _ _ Htop Hl). rewrite (mapM_length _ _ _ _ _ Hcs). destruct fs; [congruence | discriminate]. }
      unfold fbind at 1. unfold flift at 1. rewrite Hz. cbn [negb guard bind].
      unfold fbind at 1. unfold flift at 1. rewrite Hents, Epss. cbn [bind].
      unfold fbind at 1. unfold entity, tables in *. rewrite E. unfold fbind. unfold flift. rewrite Hss. cbn [bind].
      rewrite !map_map in Em. cbn [fpart p_dim p_ish p_vsh p_tab] in Em.
      change (map (fun x => d_vs x) ds) with (map d_vs ds) in Em.
      rewrite <- (map_map d_c spatial_dimension), <- (map_map d_e index_shape), M1, M2, M3 in Em. exact Em. }
    split; [lia|]. rewrite map_map in Hk. cbn [fpart p_dim] in Hk. rewrite <- (map_map d_c spatial_dimension), M2 in Hk.
    split; [exact Hk|]. intros Delta g Hg. destruct (Hts Delta g Hg) as (Hgs & Hgf & Hev).
    rewrite !map_map in Hgs. cbn [fpart p_ish p_vsh] in Hgs. change (map (fun x => d_vs x) ds) with (map d_vs ds) in Hgs. rewrite <- (map_map d_e index_shape), M1, M3 in Hgs.
    split; [split; [exact Hgs | exact Hgf]|].
    intros env b v He Hb Hv. change (index_shape (ETensorProduct fs)) with (concat (map index_shape fs)) in *.
    apply in_shape_concat in Hb as (bs & -> & Hbs). apply in_shape_concat in Hv as (vs & -> & Hvs).
    assert (Hlen : length Delta = sum (map spatial_dimension cs) /\ sum Delta <= order).
    { apply Hk. apply in_map_iff. exists (Delta, g). split; [reflexivity | exact Hg]. }
    destruct Hlen as [Hlen Hord].
    destruct (split_slices_spec nat (map spatial_dimension cs) Delta Hlen) as [Econ Hsl].
    set (alphas := split_slices (map spatial_dimension cs) Delta) in *.
    destruct (product_value order env ds alphas bs vs) as (xs & Hsh & X1 & X2 & X3 & Hvals); auto.
    { apply Forall_forall. intros d Hd. eapply env_ok_sub; [|exact He]. apply Sincl. rewrite <- M4. apply in_map. exact Hd. }
    { rewrite <- M2, map_map in Hsl. rewrite Forall2_map_l in Hsl. exact Hsl. }
    { rewrite Econ. exact Hord. }
    { rewrite <- M1, map_map in Hbs. rewrite Forall2_map_l in Hbs. exact Hbs. }
    { rewrite <- M3 in Hvs. rewrite Forall2_map_l in Hvs. exact Hvs. }
    specialize (Hev xs env Hsh). rewrite X1, X2, X3 in Hev. rewrite Hev by exact Econ.
    rewrite M1, M5 in Hvals. rewrite <- (map_map d_q (fun q => pt_at q env)), M4 in Hvals.
    rewrite <- Econ. rewrite <- (Spt env He).
    assert (Hnum : rowmajor (concat (map index_shape fs)) (concat bs)
                   = rowmajor (map space_dimension fs) (map2 (fun d b => ravel (index_shape (d_e d)) b) ds bs)).
    { assert (HF : Forall2 (fun s i => length s = length i) (map index_shape fs) bs).
      { clear -Hbs. induction Hbs; constructor; auto. apply in_shape_length. assumption. }
      rewrite rowmajor_ravel by (clear -HF; induction HF; [reflexivity | cbn [concat]; rewrite !app_length; lia]).
      rewrite ravel_concat by exact HF. rewrite rowmajor_ravel.
      - rewrite map_map. f_equal.
        + apply map_ext_in. intros f Hf. apply dims_prod. intros l Hll. apply HL. econstructor; eassumption.
        + rewrite <- M1. clear. revert bs. induction ds as [|d ds IH]; intros [|b bs]; try reflexivity. cbn [map map2]. rewrite IH. reflexivity.
      - rewrite map_length, map2_length.
        + rewrite <- M1, map_length. reflexivity.
        + rewrite <- (Forall2_length _ _ _ _ _ HF), map_length, <- M1, map_length. reflexivity. }
    rewrite Hnum.
    replace (ravel ns es) with (rowmajor ns es) by (apply rowmajor_ravel, in_shape_length; exact Hin).
    apply vo_product with (ns := ns); [exact Hvals | | exact Hl | exact Hin].
    apply mapM_ok in Hcs. clear -Hcs Htop. revert Htop. generalize (combine ks ns). induction Hcs as [|f c fs cs Hc Hcs IH]; intros L H; inversion H; subst; constructor; [exists c; split; assumption | apply IH; assumption].
  Qed.

  Lemma leaves_fine_sub : forall e e' : elt, leaves_fine e -> (forall l, leaf_of l e' -> leaf_of l e) -> leaves_fine e'.
  Proof. intros e e' H Hl l Hll. apply H, Hl, Hll. Qed.

  Lemma checked_sub : forall e e' : elt, all_checked e -> (forall s, subelt s e' -> subelt s e) -> all_checked e'.
  Proof. intros e e' H Hs s Hss. apply H, Hs, Hss. Qed.

  Lemma tensor_tabulates : forall b sh tr, tabulates b -> tabulates (ETensor b sh tr).
  Proof using R HQf.
    intros b sh tr IH order ps ent cm n c vs HC HS HL Hc Hvs Hps HQ Hids Hent Hfit.
    cbn [cell_of] in Hc. cbn [value_shape] in Hvs. apply bind_ok in Hvs as (vb & Hvb & Hvs). injection Hvs as <-.
    destruct (IH order ps ent cm n c vb) as (ts & n1 & E & Hle & [Hk Htab]); auto.
    { eapply checked_sub; [exact HC | intros; constructor; assumption]. }
    { eapply shaped_sub; [exact HS | intros; constructor; assumption | intros; constructor; assumption]. }
    { eapply leaves_fine_sub; [exact HL | intros; constructor; assumption]. }
    { eapply fits_tensor; exact Hfit. }
    assert (Hsh : sh <> [] /\ Forall (lt 0) sh) by (destruct HS as (_ & S2 & _); eapply S2; apply se_refl).
    destruct Hsh as [Hne Hpos].
    destruct (tensorise_ok o vars R (index_shape b) vb sh tr ts (ids ps) n1 Hne) as (ts' & n2 & E2 & Hle2 & Ek & Hts).
    { intros a g Hin. apply (Htab a g Hin). }
    { intros x Hx. apply (ids_lt ps n Hids) in Hx. lia. }
    exists ts', n2. split.
    { cbn [basis_evaluation]. unfold fbind, flift. unfold entity, tables in *. rewrite E, Hvb. exact E2. }
    split; [lia|]. split; [rewrite Ek; exact Hk|]. intros a g Hin. destruct (Hts a g Hin) as (g0 & Hin0 & Hgs & Hgf & Hev).
    destruct (Htab a g0 Hin0) as [_ Hval].
    split; [split; [|exact Hgf]|].
    { rewrite Hgs. destruct tr; reflexivity. }
    intros env bi v He Hb Hv. apply in_shape_app_inv in Hv as (t & v' & -> & Ht & Hv').
    assert (Hdp : prod (index_shape b) = space_dimension b).
    { apply dims_prod. intros l Hl. apply HL. constructor. exact Hl. }
    assert (Hsplit : exists i s, in_shape (index_shape b) i /\ in_shape sh s /\ bi = (if tr then s ++ i else i ++ s) /\
        rowmajor (index_shape (ETensor b sh tr)) bi =
          if tr then rowmajor sh s * space_dimension b + rowmajor (index_shape b) i
          else rowmajor (index_shape b) i * fold_right Nat.mul 1 sh + rowmajor sh s).
    { change (index_shape (ETensor b sh tr)) with (if tr then sh ++ index_shape b else index_shape b ++ sh) in *.
      destruct tr; apply in_shape_app_inv in Hb as (x & y & -> & Hx & Hy).
      - exists y, x. repeat (split; [assumption || reflexivity|]).
        rewrite !rowmajor_ravel by (rewrite ?app_length, ?(in_shape_length _ _ Hx), ?(in_shape_length _ _ Hy); reflexivity).
        rewrite ravel_app by (apply in_shape_length; exact Hx). rewrite Hdp. reflexivity.
      - exists x, y. repeat (split; [assumption || reflexivity|]).
        rewrite !rowmajor_ravel by (rewrite ?app_length, ?(in_shape_length _ _ Hx), ?(in_shape_length _ _ Hy); reflexivity).
        rewrite ravel_app by (apply in_shape_length; exact Hx). reflexivity. }
    destruct Hsplit as (i & s & Hi & Hs & -> & ->).
    rewrite Hev by (symmetry; apply in_shape_length; assumption).
    assert (Hlt : rowmajor (index_shape b) i < space_dimension b).
    { rewrite rowmajor_ravel by (apply in_shape_length; exact Hi). rewrite <- Hdp. apply ravel_lt. exact Hi. }
    apply vo_tensor; [apply Hval; assumption | exact Hlt | exact Hs | exact Ht].
  Qed.

  Lemma mixed_tabulates : forall e sz off, tabulates e -> tabulates (EMixedSub e sz off).
  Proof using R HQf.
    intros e sz off IH order ps ent cm n c vs HC HS HL Hc Hvs Hps HQ Hids Hent Hfit.
    cbn [cell_of] in Hc. cbn [value_shape] in Hvs. injection Hvs as <-.
    destruct (HC _ (se_refl _)) as (sh & Hsh & Hle0).
    assert (HC' : all_checked e) by (eapply checked_sub; [exact HC | intros; constructor; assumption]).
    assert (HS' : shaped e) by (eapply shaped_sub; [exact HS | intros; constructor; assumption | intros; constructor; assumption]).
    destruct (IH order ps ent cm n c sh) as (ts & n1 & E & Hle & [Hk Htab]); auto.
    { eapply leaves_fine_sub; [exact HL | intros; constructor; assumption]. }
    { eapply fits_mixed; exact Hfit. }
    pose proof (mixed_slots_length sh sz off Hle0) as Hlen.
    assert (Hpos : 0 < prod sh) by (apply prod_pos; eapply value_shape_pos; eassumption).
    destruct (transform_ok o vars R (index_shape e) sh (mixed_slots sh sz off) (mixed_transform sh sz off) ts (ids ps) n1)
      as (ts' & n2 & E2 & Hle2 & Ek & Hts).
    { apply mixed_slots_ok; assumption. }
    { destruct (mixed_slots_inv sh sz off off) as [(v & Hv & _ & Hn)|[[Hlt|Hge] _]]; try lia.
      exists (SComp false v). split; [eapply nth_error_In; exact Hn | discriminate]. }
    { intros neg v Hin. apply In_nth_error in Hin as [k Hk']. assert (Hkl : k < sz).
      { rewrite <- Hlen. apply nth_error_Some. congruence. }
      destruct (mixed_slots_inv sh sz off k Hkl Hle0) as [(v' & Hv' & _ & Hn)|[_ Hn]]; rewrite Hk' in Hn; [|discriminate].
      injection Hn as -> ->. symmetry. apply in_shape_length. exact Hv'. }
    { intros a g Hin. apply (Htab a g Hin). }
    { intros x Hx. apply (ids_lt ps n Hids) in Hx. lia. }
    rewrite Hlen in *. exists ts', n2. split.
    { cbn [basis_evaluation]. unfold fbind, flift. unfold entity, tables in *. rewrite E, Hsh. exact E2. }
    split; [lia|]. split; [rewrite Ek; exact Hk|]. intros a g Hin. destruct (Hts a g Hin) as (g0 & Hin0 & Hgs & Hgf & Hev).
    destruct (Htab a g0 Hin0) as [_ Hval].
    change (index_shape (EMixedSub e sz off)) with (index_shape e).
    split; [split; [exact Hgs | exact Hgf]|].
    intros env b v He Hb Hv. inversion Hv as [|? k ? v0 Hkv Hv0]; subst. inversion Hv0; subst.
    destruct (mixed_slots_inv sh sz off k Hkv Hle0) as [(v & Hin1 & -> & Hn)|[Hout Hn]];
      rewrite (Hev env b _ _ (eq_sym (in_shape_length _ _ Hb)) Hn); cbn [slot_val].
    - rewrite <- rowmajor_ravel by (apply in_shape_length; exact Hin1).
      eapply vo_mixed_own; [apply Hval; assumption | exact Hsh | exact Hin1].
    - eapply vo_mixed_other; [exact Hsh | exact Hout].
  Qed.

  Lemma wrapper_tables : forall w order ps ent n n1 c vs ts tr wr,
    value_shape wr = Ok vs -> cell_of w = Ok c -> vs = [spatial_dimension c] ->
    index_shape wr = index_shape w ->
    value_shape w = Ok (wshape_of tr) -> length (slots_of tr) = spatial_dimension c ->
    (forall i, In i (ps_indices ps) -> ix_id i < n) -> n <= n1 ->
    tables_ok o vars w (spatial_dimension c) order (wshape_of tr) ps ent ts ->
    (forall alpha pt i k, nth_error (slots_of tr) k = Some SZero -> value_of o wr alpha ent pt i [k] (f0 o)) ->
    (forall alpha pt i k (neg : bool) v x, nth_error (slots_of tr) k = Some (SComp neg v) ->
       value_of o w alpha ent pt i v x -> value_of o wr alpha ent pt i [k] (if neg then fopp o x else x)) ->
    exists ts' n', transform_evaluation (index_shape w) vs (apply_transform o tr) ts n1 = Ok (ts', n') /\ n <= n' /\
      tables_ok o vars wr (spatial_dimension c) order vs ps ent ts'.
  Proof using R HQf.
    intros w order ps ent n n1 c vs ts tr wr Hvs Hc Evs Eis Hws Hlen Hids Hle [Hk Htab] Hz Hcomp. subst vs.
    destruct (transform_ok o vars R (index_shape w) (wshape_of tr) (slots_of tr) (apply_transform o tr) ts (ids ps) n1)
      as (ts' & n2 & E2 & Hle2 & Ek & Hts).
    { apply apply_transform_ok. exact R. }
    { apply slots_of_some. }
    { intros neg v Hin. symmetry. apply in_shape_length. eapply slots_of_comp; exact Hin. }
    { intros a g Hin. apply (Htab a g Hin). }
    { intros x Hx. apply (ids_lt ps n Hids) in Hx. lia. }
    rewrite Hlen in *. exists ts', n2. split; [exact E2|]. split; [lia|].
    split; [rewrite Ek; exact Hk|]. intros a g Hin. destruct (Hts a g Hin) as (g0 & Hin0 & Hgs & Hgf & Hev).
    destruct (Htab a g0 Hin0) as [_ Hval]. rewrite Eis.
    split; [split; [exact Hgs | exact Hgf]|].
    intros env b v He Hb Hv. inversion Hv as [|? k ? v0 Hkv Hv0]; subst. inversion Hv0; subst.
    destruct (nth_error (slots_of tr) k) as [s|] eqn:Es.
    - rewrite (Hev env b k s (eq_sym (in_shape_length _ _ Hb)) Es). destruct s as [|neg v].
      + apply Hz. exact Es.
      + cbn [slot_val]. apply (Hcomp _ _ _ _ _ _ _ Es). apply Hval; [exact He | exact Hb|].
        eapply slots_of_comp. eapply nth_error_In. exact Es.
    - apply nth_error_None in Es. rewrite Hlen in Es. lia.
  Qed.

  Lemma hdiv_tabulates : forall w, tabulates w -> tabulates (EHDiv w).
  Proof using R HQf.
    intros w IH order ps ent cm n c vs HC HS HL Hc Hvs Hps HQ Hids Hent Hfit.
    cbn [cell_of] in Hc. assert (Evs : vs = [spatial_dimension c]).
    { cbn [value_shape] in Hvs. rewrite Hc in Hvs. injection Hvs as <-. reflexivity. }
    destruct (HC _ (se_refl _)) as (tr & Htr).
    assert (Hem : exists slots, embeds hdiv_case w slots) by (destruct HS as (_ & _ & _ & S4 & _); apply S4, se_refl).
    destruct Hem as (slots & Hem). destruct (hdiv_select w slots tr Hem Htr) as (Es & Hws & c' & Hc' & Hl).
    rewrite Hc in Hc'. injection Hc' as <-.
    destruct (IH order ps ent None n c (wshape_of tr)) as (ts & n1 & E & Hle & Htab); auto.
    { eapply checked_sub; [exact HC | intros; constructor; assumption]. }
    { eapply shaped_sub; [exact HS | intros; constructor; assumption | intros; constructor; assumption]. }
    { eapply leaves_fine_sub; [exact HL | intros; constructor; assumption]. }
    { eapply fits_hdiv; exact Hfit. }
    destruct (wrapper_tables w order ps (entity_or_cell c ent) n n1 c vs ts tr (EHDiv w)) as (ts' & n2 & E2 & Hle2 & Hok); auto.
    { rewrite Es. exact Hl. }
    { intros alpha pt i k Hn. eapply vo_hdiv_zero; [exact Hem | rewrite <- Es; exact Hn]. }
    { intros alpha pt i k neg v x Hn Hx. eapply vo_hdiv; [exact Hem | rewrite <- Es; exact Hn | exact Hx]. }
    exists ts', n2. split; [|split; [exact Hle2 | exact Hok]].
    cbn [basis_evaluation]. unfold fbind, flift. unfold entity, tables in *. rewrite E, Hvs, Htr. exact E2.
  Qed.

  Lemma hcurl_tabulates : forall w, tabulates w -> tabulates (EHCurl w).
  Proof using R HQf.
    intros w IH order ps ent cm n c vs HC HS HL Hc Hvs Hps HQ Hids Hent Hfit.
    cbn [cell_of] in Hc. assert (Evs : vs = [spatial_dimension c]).
    { cbn [value_shape] in Hvs. rewrite Hc in Hvs. injection Hvs as <-. reflexivity. }
    destruct (HC _ (se_refl _)) as (tr & Htr).
    assert (Hem : exists slots, embeds hcurl_case w slots) by (destruct HS as (_ & _ & _ & _ & S5); apply S5, se_refl).
    destruct Hem as (slots & Hem). destruct (hcurl_select w slots tr Hem Htr) as (Es & Hws & c' & Hc' & Hl).
    rewrite Hc in Hc'. injection Hc' as <-.
    destruct (IH order ps ent None n c (wshape_of tr)) as (ts & n1 & E & Hle & Htab); auto.
    { eapply checked_sub; [exact HC | intros; constructor; assumption]. }
    { eapply shaped_sub; [exact HS | intros; constructor; assumption | intros; constructor; assumption]. }
    { eapply leaves_fine_sub; [exact HL | intros; constructor; assumption]. }
    { eapply fits_hcurl; exact Hfit. }
    destruct (wrapper_tables w order ps (entity_or_cell c ent) n n1 c vs ts tr (EHCurl w)) as (ts' & n2 & E2 & Hle2 & Hok); auto.
    { rewrite Es. exact Hl. }
    { intros alpha pt i k Hn. eapply vo_hcurl_zero; [exact Hem | rewrite <- Es; exact Hn]. }
    { intros alpha pt i k neg v x Hn Hx. eapply vo_hcurl; [exact Hem | rewrite <- Es; exact Hn | exact Hx]. }
    exists ts', n2. split; [|split; [exact Hle2 | exact Hok]].
    cbn [basis_evaluation]. unfold fbind, flift. unfold entity, tables in *. rewrite E, Hvs, Htr. exact E2.
  Qed.

  Lemma discontinuous_tabulates : forall e, tabulates e -> tabulates (EDiscontinuous e).
  Proof using Type.
    intros e IH order ps ent cm n c vs HC HS HL Hc Hvs Hps HQ Hids Hent Hfit.
    cbn [cell_of] in Hc. cbn [value_shape] in Hvs.
    destruct (IH order ps ent cm n c vs) as (ts & n1 & E & Hle & [Hk Htab]); auto.
    { eapply checked_sub; [exact HC | intros; constructor; assumption]. }
    { eapply shaped_sub; [exact HS | intros; constructor; assumption | intros; constructor; assumption]. }
    { eapply leaves_fine_sub; [exact HL | intros; constructor; assumption]. }
    { eapply fits_discontinuous; exact Hfit. }
    exists ts, n1. split; [exact E|]. split; [exact Hle|]. split; [exact Hk|].
    intros a g Hin. destruct (Htab a g Hin) as [Ha Hval]. split; [exact Ha|].
    intros env b v He Hb Hv. constructor. apply Hval; assumption.
  Qed.

  Lemma flattened_tabulates : forall p, tabulates p -> tabulates (EFlattened p).
  Proof using Type.
    intros p IH order ps ent cm n c vs HC HS HL Hc Hvs Hps HQ Hids Hent Hfit.
    cbn [value_shape] in Hvs. pose proof Hc as Hc0. cbn [cell_of] in Hc. apply bind_ok in Hc as (cp & Hcp & Hc).
    assert (Hdim : c = Hypercube (spatial_dimension cp)).
    { destruct (spatial_dimension cp) as [|[|[|[|d]]]]; try discriminate; injection Hc as <-; reflexivity. }
    assert (Hcube : cube_cell cp) by (destruct HS as ((_ & S) & _); eapply S; [apply se_refl | exact Hcp]).
    subst c.
    assert (Hkey : exists k j, entity_or_cell (Hypercube (spatial_dimension cp)) ent = (DI k, j)).
    { destruct (entity_or_cell (Hypercube (spatial_dimension cp)) ent) as [K j]. destruct Hent as (m & Hin & _). cbn [fst] in Hin.
      apply (in_map fst) in Hin. cbn [topology fst] in Hin. apply flatten_topology_keys in Hin as (k & -> & _).
      exists k, j. reflexivity. }
    destruct Hkey as (k & j & Ekj). rewrite Ekj in Hent, Hfit |- *.
    destruct (unflatten_bijective cp) as (_ & Hto & _ & Hcub).
    destruct (proj1 (Hcub Hcube k j) Hent) as [[K I] Hun].
    destruct (Hto _ _ _ _ Hun) as [Htot HentK].
    destruct (IH order ps (Some (K, I)) None n cp vs) as (ts & n1 & E & Hle & [Hk Htab]); auto.
    { eapply checked_sub; [exact HC | intros; constructor; assumption]. }
    { eapply shaped_sub; [exact HS | intros; constructor; assumption | intros; constructor; assumption]. }
    { eapply leaves_fine_sub; [exact HL | intros; constructor; assumption]. }
    { eapply fits_flattened; eassumption. }
    exists ts, n1. split.
    { cbn [basis_evaluation]. unfold fbind, flift. unfold entity, tables in *. rewrite Hcp.
      destruct ent as [[k' j']|]; cbn [entity_or_cell get_dimension] in Ekj.
      - injection Ekj as -> ->. cbn [bind]. rewrite Hun. exact E.
      - injection Ekj as <- <-. cbn [bind]. rewrite Hc0. cbn [bind].
        change (unflatten_entity cp None) with (unflatten_entity cp (Some (spatial_dimension cp, 0))). rewrite Hun. exact E. }
    split; [exact Hle|]. split; [exact Hk|].
    intros a g Hin. destruct (Htab a g Hin) as [Ha Hval]. split; [exact Ha|].
    intros env b v He Hb Hv. eapply vo_flattened; [exact Hcp | exact Hun | apply Hval; assumption].
  Qed.

  Lemma summands_tabulate : forall order ps ent cm c vs es n,
    Forall tabulates es -> (forall e, In e es -> all_checked e /\ shaped e /\ leaves_fine e /\ cell_of e = Ok c /\
      value_shape e = Ok vs /\ fits e (entity_or_cell c ent) ps) ->
    ps_ok ps -> Q ps -> (forall i, In i (ps_indices ps) -> ix_id i < n) ->
    entity_of (topology c) (entity_or_cell c ent) ->
    exists tss n', mapF (fun x => basis_evaluation o leaf_eval x order ps ent cm) es n = Ok (tss, n') /\ n <= n' /\
      Forall2 (fun e ts => tables_ok o vars e (spatial_dimension c) order vs ps (entity_or_cell c ent) ts) es tss.
  Proof using Type.
    intros order ps ent cm c vs es. induction es as [|e es IH]; intros n HT H Hps HQ Hids Hent.
    - exists [], n. split; [reflexivity|]. split; [lia | constructor].
    - inversion HT as [|? ? T1 T2]; subst. destruct (H e (or_introl eq_refl)) as (C & S & L & Hc & Hv & Hf).
      destruct (T1 order ps ent cm n c vs C S L Hc Hv Hps HQ Hids Hent Hf) as (ts & n1 & E & Hle & Hok).
      destruct (IH n1 T2) as (tss & n2 & E2 & Hle2 & Hoks); auto.
      { intros e' He'. apply H. right. exact He'. }
      { intros i Hi. specialize (Hids i Hi). lia. }
      exists (ts :: tss), n2. cbn [mapF]. unfold fbind; cbn beta iota. unfold entity, tables in *. rewrite E, E2.
      split; [reflexivity|]. split; [lia | constructor; assumption].
  Qed.

  Lemma enriched_tabulates : forall es, Forall tabulates es -> tabulates (EEnriched es).
  Proof using Type.
    intros es IH order ps ent cm n c vs HC HS HL Hc Hvs Hps HQ Hids Hent Hfit.
    pose proof Hvs as Hvs0. cbn [cell_of] in Hc. apply bind_ok in Hc as (cs & Hcs & Hc).
    destruct (unique_ok _ _ _ _ cell_eqb_spec Hc) as [Hne Hallc].
    cbn [value_shape] in Hvs. apply bind_ok in Hvs as (ss & Hss & Hvs).
    destruct (unique_ok _ _ _ _ (list_eqb_spec _ _ nat_eqb_spec) Hvs) as [_ Halls].
    assert (Hone : forall A (g : elt -> result A) l ys y, mapM g l = Ok ys -> Forall (eq y) ys -> forall e, In e l -> g e = Ok y).
    { intros A g l ys y E Ha e Hin. apply mapM_ok in E. clear -E Ha Hin. induction E as [|x z l ys Hx E IHE]; [destruct Hin|].
      inversion Ha; subst. destruct Hin as [<-|Hin]; [exact Hx | apply IHE; assumption]. }
    destruct (summands_tabulate order ps ent cm c vs es n IH) as (tss & n1 & E & Hle & Hoks); auto.
    { intros e He. split; [eapply checked_sub; [exact HC | intros; econstructor; eassumption]|].
      split; [eapply shaped_sub; [exact HS | intros; econstructor; eassumption | intros; econstructor; eassumption]|].
      split; [eapply leaves_fine_sub; [exact HL | intros; econstructor; eassumption]|].
      split; [eapply Hone; eassumption|]. split; [eapply Hone; eassumption | eapply fits_enriched; eassumption]. }
    unfold entity, tables in *.
    set (mk := fun et : elt * list (list nat * gem) => mkPart (spatial_dimension c) (index_shape (fst et)) vs (snd et)).
    assert (Hlen : length es = length tss) by (apply Forall2_length in Hoks; exact Hoks).
    assert (Hpair : forall e ts, In (e, ts) (combine es tss) ->
        In e es /\ tables_ok o vars e (spatial_dimension c) order vs ps (entity_or_cell c ent) ts).
    { clear -Hoks. induction Hoks as [|e ts es tss H1 H IHo]; intros e' ts' Hin; [destruct Hin|].
      destruct Hin as [Ee|Hin]; [injection Ee as <- <-; split; [left; reflexivity | exact H1]|].
      destruct (IHo e' ts' Hin) as [A B]. split; [right; exact A | exact B]. }
    assert (M1 : map fst (combine es tss) = es) by (apply map_fst_combine; exact Hlen).
    assert (M2 : map snd (combine es tss) = tss) by (apply map_snd_combine; exact Hlen).
    assert (Hdp : forall e, In e es -> prod (index_shape e) = space_dimension e).
    { intros e He. apply dims_prod. intros l Hl. apply HL. econstructor; eassumption. }
    assert (Hsum : forall L, incl (map fst L) es -> sum (map (fun r : part F => prod (p_ish r)) (map mk L)) = sum (map space_dimension (map fst L))).
    { intros L HL'. rewrite !map_map. f_equal. apply map_ext_in. intros [e ts] Hin. cbn. apply Hdp. apply HL'. apply in_map_iff. exists (e, ts); auto. }
    destruct (compose_ok o vars (map mk (combine es tss)) (spatial_dimension c) order vs (ids ps) (space_dimension (EEnriched es)) n1)
      as (ts & n2 & E2 & Hle2 & Hk & Hts).
    { intros Em. apply map_eq_nil in Em. apply Hne. apply mapM_length in Hcs. rewrite Em in M1. cbn in M1. subst es.
      destruct cs; [reflexivity | discriminate]. }
    { intros r Hr. apply in_map_iff in Hr as ([e ts] & <- & Hin). destruct (Hpair e ts Hin) as [_ [Hk Htab]].
      split; [|split; reflexivity]. split; [exact Hk|]. intros a g Hag. apply (Htab a g Hag). }
    { rewrite Hsum by (rewrite M1; apply incl_refl). rewrite M1. reflexivity. }
    { intros x Hx. apply (ids_lt ps n Hids) in Hx. lia. }
    exists ts, n2. split.
    { cbn [basis_evaluation]. unfold fbind, flift. unfold entity, tables in *. rewrite E, Hvs0.
      rewrite !map_map in E2. cbn [mk p_ish p_tab] in E2. rewrite <- (map_map fst index_shape), M1 in E2.
      change (map (fun x => snd x) (combine es tss)) with (map snd (combine es tss)) in E2. rewrite M2 in E2. exact E2. }
    split; [lia|]. split; [exact Hk|]. intros a g Hin. destruct (Hts a g Hin) as (Hgs & Hgf & Hev).
    change (index_shape (EEnriched es)) with [space_dimension (EEnriched es)].
    split; [split; [exact Hgs | exact Hgf]|].
    intros env b v He Hb Hv. inversion Hb as [|? k ? b0 Hkb Hb0]; subst. inversion Hb0; subst.
    assert (Hkb' : k < sum (map (fun et => space_dimension (fst et)) (combine es tss))).
    { rewrite <- (map_map fst space_dimension), M1. exact Hkb. }
    destruct (find_block _ _ _ _ Hkb') as (pre & [e t] & post & j & Eco & -> & Hj). cbn [fst] in Hj.
    destruct (Hpair e t) as [Hein [_ Htab]]; [rewrite Eco; apply in_or_app; right; left; reflexivity|].
    rewrite <- Hdp in Hj by exact Hein. destruct (ravel_onto (index_shape e) j Hj) as (bj & Hbj & <-).
    destruct (Hev env (map mk pre) (mk (e, t)) (map mk post) bj v) as (t0 & Ht0 & Eev).
    { rewrite Eco, map_app. reflexivity. }
    { exact Hbj. }
    { symmetry. apply in_shape_length. exact Hv. }
    cbn [mk p_tab p_ish fst snd] in Ht0, Eev.
    assert (Epre : incl (map fst pre) es) by (rewrite <- M1, Eco, map_app; apply incl_appl, incl_refl).
    rewrite Hsum in Eev by exact Epre. rewrite map_map in Eev.
    cbn [app] in Eev |- *. rewrite Eev.
    destruct (Htab a t0 Ht0) as [_ Hval].
    replace es with (map fst pre ++ e :: map fst post) by (rewrite <- M1, Eco, map_app; reflexivity).
    replace (rowmajor [space_dimension (EEnriched (map fst pre ++ e :: map fst post))]
               [sum (map (fun et => space_dimension (fst et)) pre) + ravel (index_shape e) bj])
      with (fold_right Nat.add 0 (map space_dimension (map fst pre)) + rowmajor (index_shape e) bj).
    - apply vo_enriched; [apply Hval; assumption|].
      rewrite rowmajor_ravel by (apply in_shape_length; exact Hbj). rewrite <- Hdp by exact Hein. exact Hj.
    - rewrite rowmajor_ravel by (apply in_shape_length; exact Hbj). rewrite map_map, sum_fold. cbn [rowmajor fold_right]. set (q := sum _). unfold rowmajor; simpl; lia.
  Qed.

  Theorem tree_tabulates_on : forall e, tabulates e.
  Proof using R HQf.
    induction e as [l|fs IH|b sh t IH|es IH|e sz off IH|e IH|e IH|e IH|e IH] using elt_ind'.
    - intros order ps ent cm n c vs HC HS HL Hc Hvs Hps HQ Hids Hent Hfit. injection Hc as <-. injection Hvs as <-.
      destruct (HL l) as [_ Ht]; [constructor|]. apply (Ht vars order ps ent cm n); auto.
      exact (fits_dim (ELeaf l) (lf_cell l) _ _ eq_refl Hfit).
    - apply product_tabulates; exact IH.
    - apply tensor_tabulates; exact IH.
    - apply enriched_tabulates; exact IH.
    - apply mixed_tabulates; exact IH.
    - apply flattened_tabulates; exact IH.
    - apply discontinuous_tabulates; exact IH.
    - apply hdiv_tabulates; exact IH.
    - apply hcurl_tabulates; exact IH.
  Qed.
End Trees.

Theorem tree_tabulates : forall F (o : ops F) G
  (R : ring_theory (f0 o) (f1 o) (fadd o) (fmul o) (fsub o) (fopp o) eq)
  (leaf_eval : leaf F -> nat -> pset F -> option (dimkey * nat) -> option G -> fresh (list (list nat * gem F)))
  vars (e : elt F) order ps ent cm n c vs,
  all_checked e -> shaped e ->
  (forall l, leaf_of l e -> prod (lf_ishape l) = lf_dim l /\ leaf_tabulates o leaf_eval l) ->
  cell_of e = Ok c -> value_shape e = Ok vs ->
  ps_ok ps -> (forall i, In i (ps_indices ps) -> ix_id i < n) ->
  entity_of (topology c) (entity_or_cell c ent) -> fits e (entity_or_cell c ent) ps ->
  exists ts n', basis_evaluation o leaf_eval e order ps ent cm n = Ok (ts, n') /\ n <= n' /\
    tables_ok o vars e (spatial_dimension c) order vs ps (entity_or_cell c ent) ts.
Proof.
  intros F o G R leaf_eval vars e order ps ent cm n c vs HC HS HL Hc Hvs Hps Hids Hent Hfit.
  apply (tree_tabulates_on o R leaf_eval vars (fun _ => True)); auto.
  - intros dims q qs _ _. apply Forall_forall. auto.
  - intros l Hl. destruct (HL l Hl) as [H1 H2]. split; [exact H1|].
    intros vars' order' ps' ent' cm' n' Hps' _. apply H2. exact Hps'.
Qed.
Arguments tree_tabulates {F} o {G} R leaf_eval vars.
