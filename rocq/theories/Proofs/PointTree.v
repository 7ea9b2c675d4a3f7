(** Evaluation of element trees at symbolic points. *)
From Coq Require Import String List Arith Lia Bool.
From Verif Require Import Model.Prelude Model.Cell Model.Element Model.EntityMaps Model.Gem Model.PointSet Model.Evaluation Model.Sympy2Gem Model.PointEvaluation.
From Verif Require Import Spec.Rowmajor Spec.EntityDofs Spec.Layout Spec.Sympy Spec.Tabulation Spec.PointEvaluation.
From Verif Require Import Proofs.Lists Proofs.Cells Proofs.Cubes Proofs.EntityDofs Proofs.EntityDofs2 Proofs.Flatten
  Proofs.GemEval Proofs.Tables Proofs.Tables2 Proofs.Tables3 Proofs.Leaf Proofs.Factor Proofs.Tree.
Import ListNotations.
Open Scope fresh_scope.

(* ------------------------------------------------------------------ *)
(** ** Cutting the point *)

Section Split.
  Context {F : Type}.
  Local Notation gem := (gem F).

  Definition slice (p : gem) (s : list nat) : gem := GListTensor [length s] (map (fun i => GIndexed p [IFixed i]) s).

  Lemma mk_fixed_ok : forall (p : gem) d i, gshape p = [d] -> i < d -> mk_indexed p [IFixed i] = Ok (GIndexed p [IFixed i]).
  Proof.
    intros p d i H Hi. unfold mk_indexed. rewrite H. cbn [length Nat.eqb guard bind check_indices].
    apply Nat.ltb_lt in Hi. rewrite Hi. reflexivity.
  Qed.

  Lemma slice_items : forall (p : gem) d s, gshape p = [d] -> (forall i, In i s -> i < d) ->
    mapM (fun i => mk_indexed p [IFixed i]) s = Ok (map (fun i => GIndexed p [IFixed i]) s).
  Proof. intros p d s H Hs. apply mapM_all_ok. intros i Hi. eapply mk_fixed_ok; [exact H | apply Hs; exact Hi]. Qed.

  Lemma slice_ok : forall (p : gem) d s, gshape p = [d] -> (forall i, In i s -> i < d) -> s <> [] ->
    (do xs <- mapM (fun i => mk_indexed p [IFixed i]) s ;; mk_list_tensor [length xs] xs) = Ok (slice p s).
  Proof.
    intros p d s H Hs Hne. rewrite (slice_items p d s H Hs). cbn [bind]. rewrite map_length. unfold slice.
    apply mk_list_tensor_ok.
    - destruct s; [congruence|]. cbn [length prod]. lia.
    - rewrite map_length. cbn [prod]. lia.
    - apply Forall_forall. intros g Hg. apply in_map_iff in Hg as (i & <- & _). reflexivity.
  Qed.

  Lemma slice_free : forall p s, incl (gfree (slice p s)) (gfree p).
  Proof.
    intros p s x Hx. cbn [slice gfree] in Hx. apply in_flat_map in Hx as (g & Hg & Hx).
    apply in_map_iff in Hg as (i & <- & _). cbn [gfree mi_ids flat_map] in Hx. rewrite app_nil_r in Hx. exact Hx.
  Qed.

  Lemma slice_coordinates : forall o vars (p : gem) s env, coordinates o vars (slice p s) env (length s) = map (fun k => eval o vars p env [k]) s.
  Proof.
    intros o vars p s env. unfold coordinates. apply nth_ext with (d := f0 o) (d' := f0 o); rewrite !map_length, seq_length; [reflexivity|].
    intros k Hk. rewrite nth_map_seq by exact Hk. cbn [slice eval].
    rewrite (ravel_strides_ok [length s] [k]) by (constructor; [exact Hk | constructor]). cbn [ravel prod].
    rewrite map_map. cbn [eval map gidx_val]. replace (k * 1 + 0) with k by lia. reflexivity.
  Qed.

  Lemma split_point_ok : forall dims (p : gem), gshape p = [sum dims] -> Forall (lt 0) dims ->
    exists qs, split_point dims p = Ok qs /\ Forall2 (fun d q => gshape q = [d]) dims qs /\
      Forall (fun q => incl (gfree q) (gfree p)) qs /\
      forall o vars env, concat (map2 (fun d q => coordinates o vars q env d) dims qs) = coordinates o vars p env (sum dims).
  Proof.
    intros dims p Hs Hpos. unfold split_point. rewrite Hs.
    destruct (list_eqb_spec _ _ nat_eqb_spec [sum dims] [sum dims]) as [_|C]; [|congruence]. cbn [guard bind].
    destruct (split_slices_spec nat dims (seq 0 (sum dims)) (seq_length _ _)) as [Econ Hsl].
    set (ss := split_slices dims (seq 0 (sum dims))) in *.
    exists (map (slice p) ss). split; [|split; [|split]].
    - assert (Hin : forall s i, In s ss -> In i s -> i < sum dims).
      { intros s i Hi1 Hi2. assert (Hi : In i (seq 0 (sum dims))) by (rewrite <- Econ; apply in_concat; exists s; split; assumption).
        apply in_seq in Hi. lia. }
      assert (Hne : forall s, In s ss -> s <> []).
      { clear -Hsl Hpos. clearbody ss. induction Hsl as [|d s dims ss Hd H IH]; intros s' Hs'; [destruct Hs'|].
        inversion Hpos; subst. destruct Hs' as [<-|Hs']; [destruct s; [simpl in *; lia | discriminate] | apply IH; assumption]. }
      apply mapM_all_ok. intros s Hs'. eapply slice_ok; [exact Hs | intros i Hi; eapply Hin; eassumption | apply Hne; exact Hs'].
    - rewrite Forall2_map_r. clear -Hsl. induction Hsl as [|d s dims ss Hd H IH]; constructor; [cbn [slice gshape]; congruence | exact IH].
    - apply Forall_forall. intros q Hq. apply in_map_iff in Hq as (s & <- & _). apply slice_free.
    - intros o vars env. unfold coordinates at 2. rewrite <- Econ, concat_map. f_equal. clear -Hsl.
      clearbody ss. induction Hsl as [|d s dims ss Hd H IH]; [reflexivity|]. cbn [map map2]. rewrite IH. f_equal.
      subst d. apply slice_coordinates.
  Qed.

  (** A factor without coordinates stops the evaluation. *)
  Lemma empty_slice : forall (p : gem) d ss, gshape p = [d] -> (forall s i, In s ss -> In i s -> i < d) -> In [] ss ->
    mapM (fun s => do xs <- mapM (fun i => mk_indexed p [IFixed i]) s ;; mk_list_tensor [length xs] xs) ss = Err AssertionError.
  Proof.
    intros p d ss Hs. induction ss as [|s ss IH]; intros Hin Hz; [destruct Hz|]. cbn [mapM].
    destruct s as [|i s]; [reflexivity|]. rewrite (slice_ok p d (i :: s) Hs); [|intros j Hj; eapply Hin; [left; reflexivity | exact Hj] | discriminate].
    cbn [bind]. rewrite IH; [reflexivity | intros s' j Hs' Hj; eapply Hin; [right; exact Hs' | exact Hj]|].
    destruct Hz as [Hz|Hz]; [discriminate | exact Hz].
  Qed.

  Lemma split_point_empty : forall dims (p : gem), gshape p = [sum dims] -> In 0 dims -> split_point dims p = Err AssertionError.
  Proof.
    intros dims p Hs Hz. unfold split_point. rewrite Hs.
    destruct (list_eqb_spec _ _ nat_eqb_spec [sum dims] [sum dims]) as [_|C]; [|congruence]. cbn [guard bind].
    destruct (split_slices_spec nat dims (seq 0 (sum dims)) (seq_length _ _)) as [Econ Hsl].
    set (ss := split_slices dims (seq 0 (sum dims))) in *. apply (empty_slice p (sum dims)); [exact Hs | |].
    - intros s i Hi1 Hi2. assert (Hi : In i (seq 0 (sum dims))) by (rewrite <- Econ; apply in_concat; exists s; split; assumption).
      apply in_seq in Hi. lia.
    - clear -Hsl Hz. clearbody ss. induction Hsl as [|d s dims ss Hd H IH]; [destruct Hz|].
      destruct Hz as [->|Hz]; [left; destruct s; [reflexivity | discriminate] | right; apply IH; exact Hz].
  Qed.

  Lemma split_point_shape : forall dims (p : gem), gshape p <> [sum dims] -> split_point dims p = Err AssertionError.
  Proof.
    intros dims p H. unfold split_point. destruct (list_eqb_spec _ _ nat_eqb_spec (gshape p) [sum dims]) as [C|_]; [congruence | reflexivity].
  Qed.
End Split.

(* ------------------------------------------------------------------ *)
(** ** Entities without points as factors *)

Section Sliceable.
  Context {F : Type}.
  Local Notation elt := (elt F).

  Lemma sliceable_tensor : forall b sh tr ent, sliceable (ETensor b sh tr : elt) ent -> sliceable b ent.
  Proof. intros b sh tr ent H. inversion H; subst; assumption. Qed.
  Lemma sliceable_enriched : forall es ent (e : elt), sliceable (EEnriched es) ent -> In e es -> sliceable e ent.
  Proof. intros es ent e H Hin. inversion H; subst; auto. Qed.
  Lemma sliceable_mixed : forall e sz off ent, sliceable (EMixedSub e sz off : elt) ent -> sliceable e ent.
  Proof. intros e sz off ent H. inversion H; subst; assumption. Qed.
  Lemma sliceable_discontinuous : forall e ent, sliceable (EDiscontinuous e : elt) ent -> sliceable e ent.
  Proof. intros e ent H. inversion H; subst; assumption. Qed.
  Lemma sliceable_hdiv : forall e ent, sliceable (EHDiv e : elt) ent -> sliceable e ent.
  Proof. intros e ent H. inversion H; subst; assumption. Qed.
  Lemma sliceable_hcurl : forall e ent, sliceable (EHCurl e : elt) ent -> sliceable e ent.
  Proof. intros e ent H. inversion H; subst; assumption. Qed.
  Lemma sliceable_flattened : forall p c k j ent, cell_of p = Ok c -> unflatten_entity c (Some (k, j)) = Ok ent ->
    sliceable (EFlattened p : elt) (DI k, j) -> sliceable p ent.
  Proof.
    intros p c k j ent Hc Hu H. inversion H as [ | | | | |? c' ? ? ent' Hc' Hu' Hf| | | ]; subst.
    rewrite Hc in Hc'. injection Hc' as <-. rewrite Hu in Hu'. injection Hu' as <-. exact Hf.
  Qed.
  Lemma sliceable_each_Forall2 : forall (fs : list elt) ents, sliceable_each fs ents <-> Forall2 sliceable fs ents.
  Proof.
    intros fs ents. split; [induction 1; constructor; assumption|]. induction 1; constructor; assumption.
  Qed.
  Lemma sliceable_product : forall (fs : list elt) cs ks ns es,
    mapM cell_of fs = Ok cs -> Forall2 (fun c kn => In kn (topology c)) cs (combine ks ns) ->
    length ks = length ns -> in_shape ns es -> sliceable (ETensorProduct fs) (DT ks, ravel ns es) ->
    Forall (fun k => 0 < dk_total k) ks /\ Forall2 sliceable fs (combine ks es).
  Proof.
    intros fs cs ks ns es Hcs Htop Hl Hin H. inversion H as [|? ks' es' ns' Ht' Hl' Hi' Hpos He| | | | | | | ]; subst.
    match goal with H : rowmajor _ _ = ravel _ _ |- _ => rename H into Hrm end.
    rewrite rowmajor_ravel in Hrm by (apply in_shape_length; exact Hi').
    assert (Htop' : Forall2 (fun c kn => In kn (topology c)) cs (combine ks ns')).
    { apply mapM_ok in Hcs. clear -Hcs Ht'. revert Ht'. generalize (combine ks ns'). induction Hcs as [|f c fs cs Hc Hcs IH]; intros L H; inversion H; subst; constructor.
      - destruct H2 as (c' & Hc' & Hi). congruence.
      - apply IH. assumption. }
    assert (ns' = ns) as -> by (eapply topologies_unique with (ks := ks); eauto).
    assert (es' = es) as -> by (eapply ravel_inj; eassumption).
    split; [exact Hpos | apply sliceable_each_Forall2; exact He].
  Qed.

  Lemma product_sliceable : forall (fs : list elt) cs ks ns es,
    mapM cell_of fs = Ok cs -> Forall2 (fun c kn => In kn (topology c)) cs (combine ks ns) ->
    length ks = length ns -> in_shape ns es -> Forall (fun k => 0 < dk_total k) ks -> Forall2 sliceable fs (combine ks es) ->
    sliceable (ETensorProduct fs) (DT ks, ravel ns es).
  Proof.
    intros fs cs ks ns es Hcs Htop Hl Hin Hpos Hs.
    replace (ravel ns es) with (rowmajor ns es) by (apply rowmajor_ravel, in_shape_length; exact Hin).
    apply sl_product with (ns := ns); [|exact Hl | exact Hin | exact Hpos | apply sliceable_each_Forall2; exact Hs].
    apply mapM_ok in Hcs. clear -Hcs Htop. revert Htop. generalize (combine ks ns). induction Hcs as [|f c fs cs Hc Hcs IH]; intros L H; inversion H; subst; constructor; [exists c; split; assumption | apply IH; assumption].
  Qed.
End Sliceable.

(* ------------------------------------------------------------------ *)
(** ** Trees *)

Section Trees.
  Context {F : Type} (o : ops F).
  Context (R : ring_theory (f0 o) (f1 o) (fadd o) (fmul o) (fsub o) (fopp o) eq).
  Context (leaf_point : leaf F -> nat -> gem F -> option (dimkey * nat) -> fresh (list (list nat * gem F))).
  Context (vars : string -> list nat -> F).
  Local Notation gem := (gem F).
  Local Notation elt := (elt F).
  Local Notation eval := (eval o vars).
  Local Notation at_env pnt ent env := (coordinates o vars pnt env (dk_total (fst ent))).

  Definition leaves_evaluate (e : elt) : Prop :=
    forall l, leaf_of l e -> prod (lf_ishape l) = lf_dim l /\ leaf_evaluates o leaf_point l.

  Definition evaluates (e : elt) : Prop :=
    forall order pnt ent n c vs,
      all_checked e -> shaped e -> leaves_evaluate e ->
      cell_of e = Ok c -> value_shape e = Ok vs ->
      gshape pnt = [dk_total (fst (entity_or_cell c ent))] -> (forall x, In x (gfree pnt) -> x < n) ->
      entity_of (topology c) (entity_or_cell c ent) -> sliceable e (entity_or_cell c ent) ->
      exists ts n', point_evaluation o leaf_point e order pnt ent n = Ok (ts, n') /\ n <= n' /\
        point_tables_ok o vars e (spatial_dimension c) order vs pnt (entity_or_cell c ent) ts.

  (** What is known of one factor's tables. *)
  Record fdata := mkFdata { d_e : elt; d_c : cell; d_vs : list nat; d_q : gem; d_ent : dimkey * nat; d_ts : list (list nat * gem) }.
  Definition fdata_ok (order : nat) (d : fdata) : Prop :=
    cell_of (d_e d) = Ok (d_c d) /\ value_shape (d_e d) = Ok (d_vs d) /\ gshape (d_q d) = [dk_total (fst (d_ent d))] /\
    prod (index_shape (d_e d)) = space_dimension (d_e d) /\
    point_tables_ok o vars (d_e d) (spatial_dimension (d_c d)) order (d_vs d) (d_q d) (d_ent d) (d_ts d).
  Definition fpart (d : fdata) : part F :=
    mkPart (spatial_dimension (d_c d)) (index_shape (d_e d)) (d_vs d) (d_ts d).

  Lemma factors_evaluate : forall order fs cs vss (pss : list gem) (ents : list (dimkey * nat)) n,
    Forall evaluates fs -> Forall all_checked fs -> Forall shaped fs -> Forall leaves_evaluate fs ->
    Forall2 (fun f c => cell_of f = Ok c) fs cs -> Forall2 (fun f v => value_shape f = Ok v) fs vss ->
    Forall2 (fun x q => gshape q = [dk_total (fst x)]) ents pss ->
    Forall2 (fun c x => entity_of (topology c) x) cs ents ->
    Forall2 sliceable fs ents ->
    (forall q x, In q pss -> In x (gfree q) -> x < n) ->
    exists ds n', map2F (fun fe pe => point_evaluation o leaf_point fe order (fst pe) (Some (snd pe))) fs (zip pss ents) n
        = Ok (map d_ts ds, n') /\ n <= n' /\
      map d_e ds = fs /\ map d_c ds = cs /\ map d_vs ds = vss /\ map d_q ds = pss /\ map d_ent ds = ents /\
      Forall (fdata_ok order) ds.
  Proof.
    intros order fs. induction fs as [|f fs IH]; intros cs vss pss ents n HT HC HS HL Hcs Hvs Hps Hent Hfit Hids.
    - inversion Hcs; subst. inversion Hvs; subst. inversion Hent; subst. inversion Hps; subst.
      exists [], n. repeat split; auto.
    - inversion Hcs as [|? c ? cs' Hc Hcs']; subst. inversion Hvs as [|? v ? vss' Hv Hvs']; subst.
      inversion Hent as [|? x ? ents' Hx Hent']; subst. inversion Hfit as [|? ? ? ? Hf Hfit']; subst.
      inversion Hps as [|? q ? pss' P1 P2]; subst.
      inversion HT as [|? ? T1 T2]; subst. inversion HC as [|? ? C1 C2]; subst. inversion HS as [|? ? S1 S2]; subst.
      inversion HL as [|? ? L1 L2]; subst.
      destruct (T1 order q (Some x) n c v C1 S1 L1 Hc Hv P1) as (ts & n1 & E & Hle & Hok).
      { intros i Hi. apply (Hids q); [left; reflexivity | exact Hi]. }
      { exact Hx. }
      { exact Hf. }
      destruct (IH cs' vss' pss' ents' n1 T2 C2 S2 L2 Hcs' Hvs' P2) as (ds & n2 & E2 & Hle2 & M1 & M2 & M3 & M4 & M5 & Hds).
      { exact Hent'. }
      { exact Hfit'. }
      { intros q' i Hq Hi. specialize (Hids q' i (or_intror Hq) Hi). lia. }
      exists (mkFdata f c v q x ts :: ds), n2. cbn [zip map2F fst snd]. unfold fbind; cbn beta iota. unfold entity, tables in *.
      rewrite E, E2. split; [reflexivity|]. split; [lia|]. cbn [map d_e d_c d_vs d_q d_ent].
      rewrite M1, M2, M3, M4, M5. repeat (split; [reflexivity|]). constructor; [|exact Hds].
      split; [exact Hc|]. split; [exact Hv|]. split; [exact P1|].
      split; [apply dims_prod; intros l Hl; apply L1; exact Hl | exact Hok].
  Qed.

  (** One entry of the product's tables. *)
  Lemma product_value : forall order env ds alphas bs vs,
    Forall (fdata_ok order) ds ->
    Forall2 (fun d a => length a = spatial_dimension (d_c d)) ds alphas -> sum (concat alphas) <= order ->
    Forall2 (fun d b => in_shape (index_shape (d_e d)) b) ds bs ->
    Forall2 (fun d v => in_shape (d_vs d) v) ds vs ->
    exists xs : list (share F), Forall2 share_ok (map fpart ds) xs /\ map x_alpha xs = alphas /\ map x_b xs = bs /\ map x_v xs = vs /\
      values_of o (map d_e ds) alphas (map d_ent ds) (map (fun d => at_env (d_q d) (d_ent d) env) ds)
        (map2 (fun d b => ravel (index_shape (d_e d)) b) ds bs) vs
        (map (fun x => eval (x_g x) env (x_b x ++ x_v x)) xs).
  Proof.
    intros order env ds. induction ds as [|d ds IH]; intros alphas bs vs Hok Ha Hsum Hb Hv.
    - inversion Ha; subst. inversion Hb; subst. inversion Hv; subst. exists []. repeat split; constructor.
    - inversion Ha as [|? a ? alphas' Ha1 Ha2]; subst. inversion Hb as [|? b ? bs' Hb1 Hb2]; subst.
      inversion Hv as [|? v ? vs' Hv1 Hv2]; subst. inversion Hok as [|? ? O1 O2]; subst.
      cbn [concat] in Hsum. rewrite sum_app in Hsum.
      destruct (IH alphas' bs' vs' O2 Ha2 ltac:(lia) Hb2 Hv2) as (xs & Hsh & M1 & M2 & M3 & Hvals).
      destruct O1 as (Hc & Hvs & Hpd & Hdp & [[_ Hk] Htab]).
      assert (Hin : In a (map fst (d_ts d))) by (apply Hk; split; [exact Ha1 | rewrite sum_fold; lia]).
      apply in_map_iff in Hin as ([a' g] & Ea & Hin). cbn [fst] in Ea. subst a'.
      destruct (Htab a g Hin) as (Hgs & Hgf & Hval).
      exists (mkShare a b v g :: xs). split.
      + constructor; [|exact Hsh]. split; [exact Ha1|]. split; [exact Hin|]. cbn [x_b x_v fpart p_ish p_vsh].
        split; symmetry; apply in_shape_length; assumption.
      + cbn [map x_alpha x_b x_v x_g map2]. rewrite M1, M2, M3. repeat (split; [reflexivity|]).
        econstructor; [exact Hc | exact Ha1 | | | exact Hvs | exact Hv1 | | exact Hvals].
        * unfold coordinates. rewrite map_length, seq_length. reflexivity.
        * rewrite <- Hdp. apply ravel_lt. exact Hb1.
        * rewrite <- rowmajor_ravel by (apply in_shape_length; exact Hb1). apply Hval; assumption.
  Qed.

  Lemma product_evaluates : forall fs, Forall evaluates fs -> evaluates (ETensorProduct fs).
  Proof using R.
    intros fs IH order pnt ent n c vs HC HS HL Hc Hvs Hps Hids Hent Hfit.
    cbn [cell_of] in Hc. apply bind_ok in Hc as (cs & Hcs & Hc). injection Hc as <-.
    cbn [value_shape] in Hvs. apply bind_ok in Hvs as (ss & Hss & Hvs). apply product_value_shape_concat in Hvs as ->.
    destruct (factor_entity_ok cs ent Hent) as (ks & ns & es & Een & Htop & Hl & Hin & Hfe).
    rewrite Een in *.
    destruct (sliceable_product fs cs ks ns es Hcs Htop Hl Hin Hfit) as [Hpos Hfits].
    cbn [fst] in Hps. rewrite dk_total_DT in Hps.
    destruct (split_point_ok (map dk_total ks) pnt Hps) as (pss & Epss & Spos & Sincl & Spt).
    { rewrite Forall_map. exact Hpos. }
    assert (Le : length ks = length es) by (rewrite Hl; apply in_shape_length; exact Hin).
    assert (Hents : map (fun x : dimkey * nat => dk_total (fst x)) (combine ks es) = map dk_total ks).
    { clear -Le. revert es Le. induction ks as [|k ks IH]; intros [|i es] L; try discriminate; [reflexivity|].
      cbn [combine map fst]. rewrite IH by (simpl in L; lia). reflexivity. }
    assert (Hne : fs <> []) by (destruct HS as ((NE & _) & _); apply (NE fs), se_refl).
    destruct (factors_evaluate order fs cs ss pss (combine ks es) n) as (ds & n1 & E & Hle & M1 & M2 & M3 & M4 & M5 & Hds); auto.
    { apply Forall_forall. intros f Hf x Hx. apply HC. econstructor; eassumption. }
    { apply Forall_forall. intros f Hf. eapply shaped_sub; [exact HS | intros; econstructor; eassumption | intros; econstructor; eassumption]. }
    { apply Forall_forall. intros f Hf l Hll. apply HL. econstructor; eassumption. }
    { apply mapM_ok. exact Hcs. }
    { apply mapM_ok. exact Hss. }
    { rewrite <- Hents in Spos. rewrite Forall2_map_l in Spos. exact Spos. }
    { clear -Htop Hin Hl. revert ks ns es Htop Hin Hl. induction cs as [|c cs IH]; intros [|k ks] [|m ns] es Htop Hin Hl; try discriminate; simpl in Htop; inversion Htop; subst.
      - constructor.
      - inversion Hin as [|? i ? es' Hi Hin']; subst. cbn [combine]. constructor; [exists m; split; assumption|].
        eapply IH; [eassumption | exact Hin' | simpl in Hl; lia]. }
    { intros q i Hq Hi. apply Hids. rewrite Forall_forall in Sincl. eapply Sincl; eassumption. }
    destruct (merge_ok o vars R (map fpart ds) order (gfree pnt) n1) as (ts & n2 & Em & Hle2 & Hk & Hts).
    { intros Ed. apply map_eq_nil in Ed. subst ds. cbn [map] in M1. congruence. }
    { intros r Hr. apply in_map_iff in Hr as (d & <- & Hd).
      rewrite Forall_forall in Hds. destruct (Hds d Hd) as (_ & _ & _ & _ & Hk & Htab).
      split; [exact Hk|]. intros a g Hag. destruct (Htab a g Hag) as (Hgs & Hgf & _). split; [exact Hgs|].
      intros x Hx. apply Hgf in Hx. rewrite Forall_forall in Sincl.
      apply (Sincl (d_q d)); [rewrite <- M4; apply in_map; exact Hd | exact Hx]. }
    { intros x Hx. apply Hids in Hx. lia. }
    exists ts, n2. split.
    { cbn [point_evaluation]. unfold fbind at 1. unfold flift at 1. rewrite Hcs. cbn [bind].
      unfold fbind at 1. unfold flift at 1. rewrite Hfe. cbn [bind].
      assert (Hz : Nat.eqb (length (combine ks es)) 0 = false).
      { rewrite combine_length, <- Le, Nat.min_id. apply Nat.eqb_neq.
        rewrite <- (Forall2_combine_l _ _ _ _ _ _ _ Htop Hl). rewrite (mapM_length _ _ _ _ _ Hcs). destruct fs; [congruence | discriminate]. }
      unfold fbind at 1. unfold flift at 1. rewrite Hz. cbn [negb guard bind].
      unfold fbind at 1. unfold flift at 1. rewrite Hents, Epss. cbn [bind].
      unfold fbind at 1. unfold entity, tables in *. rewrite E. unfold fbind. unfold flift. rewrite Hss. cbn [bind].
      rewrite !map_map in Em. cbn [fpart p_dim p_ish p_vsh p_tab] in Em.
      change (map (fun x => d_vs x) ds) with (map d_vs ds) in Em.
      rewrite <- (map_map d_c spatial_dimension), <- (map_map d_e index_shape), M1, M2, M3 in Em. exact Em. }
    split; [lia|]. rewrite map_map in Hk. cbn [fpart p_dim] in Hk. rewrite <- (map_map d_c spatial_dimension), M2 in Hk.
    split; [exact Hk|]. intros Delta g Hg. destruct (Hts Delta g Hg) as (Hgs & Hgf & Hev).
    rewrite !map_map in Hgs. cbn [fpart p_ish p_vsh] in Hgs. change (map (fun x => d_vs x) ds) with (map d_vs ds) in Hgs. rewrite <- (map_map d_e index_shape), M1, M3 in Hgs.
    split; [exact Hgs|]. split; [exact Hgf|].
    intros env b v Hb Hv. change (index_shape (ETensorProduct fs)) with (concat (map index_shape fs)) in *.
    apply in_shape_concat in Hb as (bs & -> & Hbs). apply in_shape_concat in Hv as (vs & -> & Hvs).
    assert (Hlen : length Delta = sum (map spatial_dimension cs) /\ sum Delta <= order).
    { apply Hk. apply in_map_iff. exists (Delta, g). split; [reflexivity | exact Hg]. }
    destruct Hlen as [Hlen Hord].
    destruct (split_slices_spec nat (map spatial_dimension cs) Delta Hlen) as [Econ Hsl].
    set (alphas := split_slices (map spatial_dimension cs) Delta) in *.
    destruct (product_value order env ds alphas bs vs) as (xs & Hsh & X1 & X2 & X3 & Hvals); auto.
    { rewrite <- M2, map_map in Hsl. rewrite Forall2_map_l in Hsl. exact Hsl. }
    { rewrite Econ. exact Hord. }
    { rewrite <- M1, map_map in Hbs. rewrite Forall2_map_l in Hbs. exact Hbs. }
    { rewrite <- M3 in Hvs. rewrite Forall2_map_l in Hvs. exact Hvs. }
    specialize (Hev xs env Hsh). rewrite X1, X2, X3 in Hev. rewrite Hev by exact Econ.
    rewrite M1, M5 in Hvals. rewrite <- Econ. cbn [fst]. rewrite dk_total_DT, <- (Spt o vars env).
    replace (map2 (fun d q => coordinates o vars q env d) (map dk_total ks) pss)
      with (map (fun d => at_env (d_q d) (d_ent d) env) ds).
    2:{ rewrite <- Hents, <- M4, <- M5. clear. induction ds as [|d ds IH]; [reflexivity|]. cbn [map map2]. rewrite IH. reflexivity. }
    assert (Hnum : rowmajor (concat (map index_shape fs)) (concat bs)
                   = rowmajor (map space_dimension fs) (map2 (fun d b => ravel (index_shape (d_e d)) b) ds bs)).
    { assert (HF : Forall2 (fun s i => length s = length i) (map index_shape fs) bs).
      { clear -Hbs. induction Hbs; constructor; auto. apply in_shape_length. assumption. }
      rewrite rowmajor_ravel by (clear -HF; induction HF; [reflexivity | cbn [concat]; rewrite !app_length; lia]).
      rewrite ravel_concat by exact HF. rewrite rowmajor_ravel.
      - rewrite map_map. f_equal.
        + apply map_ext_in. intros f Hf. apply dims_prod. intros l Hll. apply HL. econstructor; eassumption.
        + rewrite <- M1. clear. revert bs. induction ds as [|d ds IH]; intros [|b bs]; try reflexivity. cbn [map map2]. rewrite IH. reflexivity.
      - rewrite map_length, map2_length.
        + rewrite <- M1, map_length. reflexivity.
        + rewrite <- (Forall2_length _ _ _ _ _ HF), map_length, <- M1, map_length. reflexivity. }
    rewrite Hnum.
    replace (ravel ns es) with (rowmajor ns es) by (apply rowmajor_ravel, in_shape_length; exact Hin).
    apply vo_product with (ns := ns); [exact Hvals | | exact Hl | exact Hin].
    apply mapM_ok in Hcs. clear -Hcs Htop. revert Htop. generalize (combine ks ns). induction Hcs as [|f c fs cs Hc Hcs IH]; intros L H; inversion H; subst; constructor; [exists c; split; assumption | apply IH; assumption].
  Qed.

  Lemma leaves_evaluate_sub : forall e e' : elt, leaves_evaluate e -> (forall l, leaf_of l e' -> leaf_of l e) -> leaves_evaluate e'.
  Proof. intros e e' H Hl l Hll. apply H, Hl, Hll. Qed.

  Lemma checked_sub : forall e e' : elt, all_checked e -> (forall s, subelt s e' -> subelt s e) -> all_checked e'.
  Proof. intros e e' H Hs s Hss. apply H, Hs, Hss. Qed.

  Lemma tensor_evaluates : forall b sh tr, evaluates b -> evaluates (ETensor b sh tr).
  Proof using R.
    intros b sh tr IH order pnt ent n c vs HC HS HL Hc Hvs Hps Hids Hent Hfit.
    cbn [cell_of] in Hc. cbn [value_shape] in Hvs. apply bind_ok in Hvs as (vb & Hvb & Hvs). injection Hvs as <-.
    destruct (IH order pnt ent n c vb) as (ts & n1 & E & Hle & [Hk Htab]); auto.
    { eapply checked_sub; [exact HC | intros; constructor; assumption]. }
    { eapply shaped_sub; [exact HS | intros; constructor; assumption | intros; constructor; assumption]. }
    { eapply leaves_evaluate_sub; [exact HL | intros; constructor; assumption]. }
    { eapply sliceable_tensor; exact Hfit. }
    assert (Hsh : sh <> [] /\ Forall (lt 0) sh) by (destruct HS as (_ & S2 & _); eapply S2; apply se_refl).
    destruct Hsh as [Hne Hpos].
    destruct (tensorise_ok o vars R (index_shape b) vb sh tr ts (gfree pnt) n1 Hne) as (ts' & n2 & E2 & Hle2 & Ek & Hts).
    { intros a g Hin. destruct (Htab a g Hin) as (A & B & _). split; assumption. }
    { intros x Hx. apply Hids in Hx. lia. }
    exists ts', n2. split.
    { cbn [point_evaluation]. unfold fbind, flift. unfold entity, tables in *. rewrite E, Hvb. exact E2. }
    split; [lia|]. split; [rewrite Ek; exact Hk|]. intros a g Hin. destruct (Hts a g Hin) as (g0 & Hin0 & Hgs & Hgf & Hev).
    destruct (Htab a g0 Hin0) as (_ & _ & Hval).
    split; [rewrite Hgs; destruct tr; reflexivity|]. split; [exact Hgf|].
    intros env bi v Hb Hv. apply in_shape_app_inv in Hv as (t & v' & -> & Ht & Hv').
    assert (Hdp : prod (index_shape b) = space_dimension b).
    { apply dims_prod. intros l Hl. apply HL. constructor. exact Hl. }
    assert (Hsplit : exists i s, in_shape (index_shape b) i /\ in_shape sh s /\ bi = (if tr then s ++ i else i ++ s) /\
        rowmajor (index_shape (ETensor b sh tr)) bi =
          if tr then rowmajor sh s * space_dimension b + rowmajor (index_shape b) i
          else rowmajor (index_shape b) i * fold_right Nat.mul 1 sh + rowmajor sh s).
    { change (index_shape (ETensor b sh tr)) with (if tr then sh ++ index_shape b else index_shape b ++ sh) in *.
      destruct tr; apply in_shape_app_inv in Hb as (x & y & -> & Hx & Hy).
      - exists y, x. repeat (split; [assumption || reflexivity|]).
        rewrite !rowmajor_ravel by (rewrite ?app_length, ?(in_shape_length _ _ Hx), ?(in_shape_length _ _ Hy); reflexivity).
        rewrite ravel_app by (apply in_shape_length; exact Hx). rewrite Hdp. reflexivity.
      - exists x, y. repeat (split; [assumption || reflexivity|]).
        rewrite !rowmajor_ravel by (rewrite ?app_length, ?(in_shape_length _ _ Hx), ?(in_shape_length _ _ Hy); reflexivity).
        rewrite ravel_app by (apply in_shape_length; exact Hx). reflexivity. }
    destruct Hsplit as (i & s & Hi & Hs & -> & ->).
    rewrite Hev by (symmetry; apply in_shape_length; assumption).
    assert (Hlt : rowmajor (index_shape b) i < space_dimension b).
    { rewrite rowmajor_ravel by (apply in_shape_length; exact Hi). rewrite <- Hdp. apply ravel_lt. exact Hi. }
    apply vo_tensor; [apply Hval; assumption | exact Hlt | exact Hs | exact Ht].
  Qed.

  Lemma mixed_evaluates : forall e sz off, evaluates e -> evaluates (EMixedSub e sz off).
  Proof using R.
    intros e sz off IH order pnt ent n c vs HC HS HL Hc Hvs Hps Hids Hent Hfit.
    cbn [cell_of] in Hc. cbn [value_shape] in Hvs. injection Hvs as <-.
    destruct (HC _ (se_refl _)) as (sh & Hsh & Hle0).
    assert (HC' : all_checked e) by (eapply checked_sub; [exact HC | intros; constructor; assumption]).
    assert (HS' : shaped e) by (eapply shaped_sub; [exact HS | intros; constructor; assumption | intros; constructor; assumption]).
    destruct (IH order pnt ent n c sh) as (ts & n1 & E & Hle & [Hk Htab]); auto.
    { eapply leaves_evaluate_sub; [exact HL | intros; constructor; assumption]. }
    { eapply sliceable_mixed; exact Hfit. }
    pose proof (mixed_slots_length sh sz off Hle0) as Hlen.
    assert (Hpos : 0 < prod sh) by (apply prod_pos; eapply value_shape_pos; eassumption).
    destruct (transform_ok o vars R (index_shape e) sh (mixed_slots sh sz off) (mixed_transform sh sz off) ts (gfree pnt) n1)
      as (ts' & n2 & E2 & Hle2 & Ek & Hts).
    { apply mixed_slots_ok; assumption. }
    { destruct (mixed_slots_inv sh sz off off) as [(v & Hv & _ & Hn)|[[Hlt|Hge] _]]; try lia.
      exists (SComp false v). split; [eapply nth_error_In; exact Hn | discriminate]. }
    { intros neg v Hin. apply In_nth_error in Hin as [k Hk']. assert (Hkl : k < sz).
      { rewrite <- Hlen. apply nth_error_Some. congruence. }
      destruct (mixed_slots_inv sh sz off k Hkl Hle0) as [(v' & Hv' & _ & Hn)|[_ Hn]]; rewrite Hk' in Hn; [|discriminate].
      injection Hn as -> ->. symmetry. apply in_shape_length. exact Hv'. }
    { intros a g Hin. destruct (Htab a g Hin) as (A & B & _). split; assumption. }
    { intros x Hx. apply Hids in Hx. lia. }
    rewrite Hlen in *. exists ts', n2. split.
    { cbn [point_evaluation]. unfold fbind, flift. unfold entity, tables in *. rewrite E, Hsh. exact E2. }
    split; [lia|]. split; [rewrite Ek; exact Hk|]. intros a g Hin. destruct (Hts a g Hin) as (g0 & Hin0 & Hgs & Hgf & Hev).
    destruct (Htab a g0 Hin0) as (_ & _ & Hval).
    change (index_shape (EMixedSub e sz off)) with (index_shape e).
    split; [exact Hgs|]. split; [exact Hgf|].
    intros env b v Hb Hv. inversion Hv as [|? k ? v0 Hkv Hv0]; subst. inversion Hv0; subst.
    destruct (mixed_slots_inv sh sz off k Hkv Hle0) as [(v & Hin1 & -> & Hn)|[Hout Hn]];
      rewrite (Hev env b _ _ (eq_sym (in_shape_length _ _ Hb)) Hn); cbn [slot_val].
    - rewrite <- rowmajor_ravel by (apply in_shape_length; exact Hin1).
      eapply vo_mixed_own; [apply Hval; assumption | exact Hsh | exact Hin1].
    - eapply vo_mixed_other; [exact Hsh | exact Hout].
  Qed.

  Lemma wrapper_tables : forall w order pnt ent n n1 c vs ts tr wr,
    value_shape wr = Ok vs -> cell_of w = Ok c -> vs = [spatial_dimension c] ->
    index_shape wr = index_shape w ->
    value_shape w = Ok (wshape_of tr) -> length (slots_of tr) = spatial_dimension c ->
    (forall x, In x (gfree pnt) -> x < n) -> n <= n1 ->
    point_tables_ok o vars w (spatial_dimension c) order (wshape_of tr) pnt ent ts ->
    (forall alpha pt i k, nth_error (slots_of tr) k = Some SZero -> value_of o wr alpha ent pt i [k] (f0 o)) ->
    (forall alpha pt i k (neg : bool) v x, nth_error (slots_of tr) k = Some (SComp neg v) ->
       value_of o w alpha ent pt i v x -> value_of o wr alpha ent pt i [k] (if neg then fopp o x else x)) ->
    exists ts' n', transform_evaluation (index_shape w) vs (apply_transform o tr) ts n1 = Ok (ts', n') /\ n <= n' /\
      point_tables_ok o vars wr (spatial_dimension c) order vs pnt ent ts'.
  Proof using R.
    intros w order pnt ent n n1 c vs ts tr wr Hvs Hc Evs Eis Hws Hlen Hids Hle [Hk Htab] Hz Hcomp. subst vs.
    destruct (transform_ok o vars R (index_shape w) (wshape_of tr) (slots_of tr) (apply_transform o tr) ts (gfree pnt) n1)
      as (ts' & n2 & E2 & Hle2 & Ek & Hts).
    { apply apply_transform_ok. exact R. }
    { apply slots_of_some. }
    { intros neg v Hin. symmetry. apply in_shape_length. eapply slots_of_comp; exact Hin. }
    { intros a g Hin. destruct (Htab a g Hin) as (A & B & _). split; assumption. }
    { intros x Hx. apply Hids in Hx. lia. }
    rewrite Hlen in *. exists ts', n2. split; [exact E2|]. split; [lia|].
    split; [rewrite Ek; exact Hk|]. intros a g Hin. destruct (Hts a g Hin) as (g0 & Hin0 & Hgs & Hgf & Hev).
    destruct (Htab a g0 Hin0) as (_ & _ & Hval). rewrite Eis.
    split; [exact Hgs|]. split; [exact Hgf|].
    intros env b v Hb Hv. inversion Hv as [|? k ? v0 Hkv Hv0]; subst. inversion Hv0; subst.
    destruct (nth_error (slots_of tr) k) as [s|] eqn:Es.
    - rewrite (Hev env b k s (eq_sym (in_shape_length _ _ Hb)) Es). destruct s as [|neg v].
      + apply Hz. exact Es.
      + cbn [slot_val]. apply (Hcomp _ _ _ _ _ _ _ Es). apply Hval; [exact Hb|].
        eapply slots_of_comp. eapply nth_error_In. exact Es.
    - apply nth_error_None in Es. rewrite Hlen in Es. lia.
  Qed.

  Lemma hdiv_evaluates : forall w, evaluates w -> evaluates (EHDiv w).
  Proof using R.
    intros w IH order pnt ent n c vs HC HS HL Hc Hvs Hps Hids Hent Hfit.
    cbn [cell_of] in Hc. assert (Evs : vs = [spatial_dimension c]).
    { cbn [value_shape] in Hvs. rewrite Hc in Hvs. injection Hvs as <-. reflexivity. }
    destruct (HC _ (se_refl _)) as (tr & Htr).
    assert (Hem : exists slots, embeds hdiv_case w slots) by (destruct HS as (_ & _ & _ & S4 & _); apply S4, se_refl).
    destruct Hem as (slots & Hem). destruct (hdiv_select w slots tr Hem Htr) as (Es & Hws & c' & Hc' & Hl).
    rewrite Hc in Hc'. injection Hc' as <-.
    destruct (IH order pnt ent n c (wshape_of tr)) as (ts & n1 & E & Hle & Htab); auto.
    { eapply checked_sub; [exact HC | intros; constructor; assumption]. }
    { eapply shaped_sub; [exact HS | intros; constructor; assumption | intros; constructor; assumption]. }
    { eapply leaves_evaluate_sub; [exact HL | intros; constructor; assumption]. }
    { eapply sliceable_hdiv; exact Hfit. }
    destruct (wrapper_tables w order pnt (entity_or_cell c ent) n n1 c vs ts tr (EHDiv w)) as (ts' & n2 & E2 & Hle2 & Hok); auto.
    { rewrite Es. exact Hl. }
    { intros alpha pt i k Hn. eapply vo_hdiv_zero; [exact Hem | rewrite <- Es; exact Hn]. }
    { intros alpha pt i k neg v x Hn Hx. eapply vo_hdiv; [exact Hem | rewrite <- Es; exact Hn | exact Hx]. }
    exists ts', n2. split; [|split; [exact Hle2 | exact Hok]].
    cbn [point_evaluation]. unfold fbind, flift. unfold entity, tables in *. rewrite E, Hvs, Htr. exact E2.
  Qed.

  Lemma hcurl_evaluates : forall w, evaluates w -> evaluates (EHCurl w).
  Proof using R.
    intros w IH order pnt ent n c vs HC HS HL Hc Hvs Hps Hids Hent Hfit.
    cbn [cell_of] in Hc. assert (Evs : vs = [spatial_dimension c]).
    { cbn [value_shape] in Hvs. rewrite Hc in Hvs. injection Hvs as <-. reflexivity. }
    destruct (HC _ (se_refl _)) as (tr & Htr).
    assert (Hem : exists slots, embeds hcurl_case w slots) by (destruct HS as (_ & _ & _ & _ & S5); apply S5, se_refl).
    destruct Hem as (slots & Hem). destruct (hcurl_select w slots tr Hem Htr) as (Es & Hws & c' & Hc' & Hl).
    rewrite Hc in Hc'. injection Hc' as <-.
    destruct (IH order pnt ent n c (wshape_of tr)) as (ts & n1 & E & Hle & Htab); auto.
    { eapply checked_sub; [exact HC | intros; constructor; assumption]. }
    { eapply shaped_sub; [exact HS | intros; constructor; assumption | intros; constructor; assumption]. }
    { eapply leaves_evaluate_sub; [exact HL | intros; constructor; assumption]. }
    { eapply sliceable_hcurl; exact Hfit. }
    destruct (wrapper_tables w order pnt (entity_or_cell c ent) n n1 c vs ts tr (EHCurl w)) as (ts' & n2 & E2 & Hle2 & Hok); auto.
    { rewrite Es. exact Hl. }
    { intros alpha pt i k Hn. eapply vo_hcurl_zero; [exact Hem | rewrite <- Es; exact Hn]. }
    { intros alpha pt i k neg v x Hn Hx. eapply vo_hcurl; [exact Hem | rewrite <- Es; exact Hn | exact Hx]. }
    exists ts', n2. split; [|split; [exact Hle2 | exact Hok]].
    cbn [point_evaluation]. unfold fbind, flift. unfold entity, tables in *. rewrite E, Hvs, Htr. exact E2.
  Qed.

  Lemma discontinuous_evaluates : forall e, evaluates e -> evaluates (EDiscontinuous e).
  Proof using Type.
    intros e IH order pnt ent n c vs HC HS HL Hc Hvs Hps Hids Hent Hfit.
    cbn [cell_of] in Hc. cbn [value_shape] in Hvs.
    destruct (IH order pnt ent n c vs) as (ts & n1 & E & Hle & [Hk Htab]); auto.
    { eapply checked_sub; [exact HC | intros; constructor; assumption]. }
    { eapply shaped_sub; [exact HS | intros; constructor; assumption | intros; constructor; assumption]. }
    { eapply leaves_evaluate_sub; [exact HL | intros; constructor; assumption]. }
    { eapply sliceable_discontinuous; exact Hfit. }
    exists ts, n1. split; [exact E|]. split; [exact Hle|]. split; [exact Hk|].
    intros a g Hin. destruct (Htab a g Hin) as (Ha & Hf & Hval). split; [exact Ha|]. split; [exact Hf|].
    intros env b v Hb Hv. constructor. apply Hval; assumption.
  Qed.

  Lemma flattened_evaluates : forall p, evaluates p -> evaluates (EFlattened p).
  Proof using Type.
    intros p IH order pnt ent n c vs HC HS HL Hc Hvs Hps Hids Hent Hfit.
    cbn [value_shape] in Hvs. pose proof Hc as Hc0. cbn [cell_of] in Hc. apply bind_ok in Hc as (cp & Hcp & Hc).
    assert (Hdim : c = Hypercube (spatial_dimension cp)).
    { destruct (spatial_dimension cp) as [|[|[|[|d]]]]; try discriminate; injection Hc as <-; reflexivity. }
    assert (Hcube : cube_cell cp) by (destruct HS as ((_ & S) & _); eapply S; [apply se_refl | exact Hcp]).
    subst c.
    assert (Hkey : exists k j, entity_or_cell (Hypercube (spatial_dimension cp)) ent = (DI k, j)).
    { destruct (entity_or_cell (Hypercube (spatial_dimension cp)) ent) as [K j]. destruct Hent as (m & Hin & _). cbn [fst] in Hin.
      apply (in_map fst) in Hin. cbn [topology fst] in Hin. apply flatten_topology_keys in Hin as (k & -> & _).
      exists k, j. reflexivity. }
    destruct Hkey as (k & j & Ekj). rewrite Ekj in Hent, Hfit, Hps |- *.
    destruct (unflatten_bijective cp) as (_ & Hto & _ & Hcub).
    destruct (proj1 (Hcub Hcube k j) Hent) as [[K I] Hun].
    destruct (Hto _ _ _ _ Hun) as [Htot HentK].
    destruct (IH order pnt (Some (K, I)) n cp vs) as (ts & n1 & E & Hle & [Hk Htab]); auto.
    { eapply checked_sub; [exact HC | intros; constructor; assumption]. }
    { eapply shaped_sub; [exact HS | intros; constructor; assumption | intros; constructor; assumption]. }
    { eapply leaves_evaluate_sub; [exact HL | intros; constructor; assumption]. }
    { cbn [entity_or_cell fst] in *. rewrite Htot. exact Hps. }
    { eapply sliceable_flattened; eassumption. }
    exists ts, n1. split.
    { cbn [point_evaluation]. unfold fbind, flift. unfold entity, tables in *. rewrite Hcp.
      destruct ent as [[k' j']|]; cbn [entity_or_cell get_dimension] in Ekj.
      - injection Ekj as -> ->. cbn [bind]. rewrite Hun. exact E.
      - injection Ekj as <- <-. cbn [bind]. rewrite Hc0. cbn [bind].
        change (unflatten_entity cp None) with (unflatten_entity cp (Some (spatial_dimension cp, 0))). rewrite Hun. exact E. }
    split; [exact Hle|]. split; [exact Hk|].
    intros a g Hin. destruct (Htab a g Hin) as (Ha & Hf & Hval). split; [exact Ha|]. split; [exact Hf|].
    intros env b v Hb Hv. eapply vo_flattened; [exact Hcp | exact Hun|].
    cbn [fst dk_total]. rewrite <- Htot. apply (Hval env); assumption.
  Qed.

  Lemma summands_evaluate : forall order pnt ent c vs es n,
    Forall evaluates es -> (forall e, In e es -> all_checked e /\ shaped e /\ leaves_evaluate e /\ cell_of e = Ok c /\
      value_shape e = Ok vs /\ sliceable e (entity_or_cell c ent)) ->
    gshape pnt = [dk_total (fst (entity_or_cell c ent))] -> (forall x, In x (gfree pnt) -> x < n) ->
    entity_of (topology c) (entity_or_cell c ent) ->
    exists tss n', mapF (fun x => point_evaluation o leaf_point x order pnt ent) es n = Ok (tss, n') /\ n <= n' /\
      Forall2 (fun e ts => point_tables_ok o vars e (spatial_dimension c) order vs pnt (entity_or_cell c ent) ts) es tss.
  Proof using Type.
    intros order pnt ent c vs es. induction es as [|e es IH]; intros n HT H Hps Hids Hent.
    - exists [], n. split; [reflexivity|]. split; [lia | constructor].
    - inversion HT as [|? ? T1 T2]; subst. destruct (H e (or_introl eq_refl)) as (C & S & L & Hc & Hv & Hf).
      destruct (T1 order pnt ent n c vs C S L Hc Hv Hps Hids Hent Hf) as (ts & n1 & E & Hle & Hok).
      destruct (IH n1 T2) as (tss & n2 & E2 & Hle2 & Hoks); auto.
      { intros e' He'. apply H. right. exact He'. }
      { intros i Hi. specialize (Hids i Hi). lia. }
      exists (ts :: tss), n2. cbn [mapF]. unfold fbind; cbn beta iota. unfold entity, tables in *. rewrite E, E2.
      split; [reflexivity|]. split; [lia | constructor; assumption].
  Qed.

  Lemma enriched_evaluates : forall es, Forall evaluates es -> evaluates (EEnriched es).
  Proof using Type.
    intros es IH order pnt ent n c vs HC HS HL Hc Hvs Hps Hids Hent Hfit.
    pose proof Hvs as Hvs0. cbn [cell_of] in Hc. apply bind_ok in Hc as (cs & Hcs & Hc).
    destruct (unique_ok _ _ _ _ cell_eqb_spec Hc) as [Hne Hallc].
    cbn [value_shape] in Hvs. apply bind_ok in Hvs as (ss & Hss & Hvs).
    destruct (unique_ok _ _ _ _ (list_eqb_spec _ _ nat_eqb_spec) Hvs) as [_ Halls].
    assert (Hone : forall A (g : elt -> result A) l ys y, mapM g l = Ok ys -> Forall (eq y) ys -> forall e, In e l -> g e = Ok y).
    { intros A g l ys y E Ha e Hin. apply mapM_ok in E. clear -E Ha Hin. induction E as [|x z l ys Hx E IHE]; [destruct Hin|].
      inversion Ha; subst. destruct Hin as [<-|Hin]; [exact Hx | apply IHE; assumption]. }
    destruct (summands_evaluate order pnt ent c vs es n IH) as (tss & n1 & E & Hle & Hoks); auto.
    { intros e He. split; [eapply checked_sub; [exact HC | intros; econstructor; eassumption]|].
      split; [eapply shaped_sub; [exact HS | intros; econstructor; eassumption | intros; econstructor; eassumption]|].
      split; [eapply leaves_evaluate_sub; [exact HL | intros; econstructor; eassumption]|].
      split; [eapply Hone; eassumption|]. split; [eapply Hone; eassumption | eapply sliceable_enriched; eassumption]. }
    unfold entity, tables in *.
    set (mk := fun et : elt * list (list nat * gem) => mkPart (spatial_dimension c) (index_shape (fst et)) vs (snd et)).
    assert (Hlen : length es = length tss) by (apply Forall2_length in Hoks; exact Hoks).
    assert (Hpair : forall e ts, In (e, ts) (combine es tss) ->
        In e es /\ point_tables_ok o vars e (spatial_dimension c) order vs pnt (entity_or_cell c ent) ts).
    { clear -Hoks. induction Hoks as [|e ts es tss H1 H IHo]; intros e' ts' Hin; [destruct Hin|].
      destruct Hin as [Ee|Hin]; [injection Ee as <- <-; split; [left; reflexivity | exact H1]|].
      destruct (IHo e' ts' Hin) as [A B]. split; [right; exact A | exact B]. }
    assert (M1 : map fst (combine es tss) = es) by (apply map_fst_combine; exact Hlen).
    assert (M2 : map snd (combine es tss) = tss) by (apply map_snd_combine; exact Hlen).
    assert (Hdp : forall e, In e es -> prod (index_shape e) = space_dimension e).
    { intros e He. apply dims_prod. intros l Hl. apply HL. econstructor; eassumption. }
    assert (Hsum : forall L, incl (map fst L) es -> sum (map (fun r : part F => prod (p_ish r)) (map mk L)) = sum (map space_dimension (map fst L))).
    { intros L HL'. rewrite !map_map. f_equal. apply map_ext_in. intros [e ts] Hin. cbn. apply Hdp. apply HL'. apply in_map_iff. exists (e, ts); auto. }
    destruct (compose_ok o vars (map mk (combine es tss)) (spatial_dimension c) order vs (gfree pnt) (space_dimension (EEnriched es)) n1)
      as (ts & n2 & E2 & Hle2 & Hk & Hts).
    { intros Em. apply map_eq_nil in Em. apply Hne. apply mapM_length in Hcs. rewrite Em in M1. cbn in M1. subst es.
      destruct cs; [reflexivity | discriminate]. }
    { intros r Hr. apply in_map_iff in Hr as ([e ts] & <- & Hin). destruct (Hpair e ts Hin) as [_ [Hk Htab]].
      split; [|split; reflexivity]. split; [exact Hk|]. intros a g Hag. destruct (Htab a g Hag) as (A & B & _). split; assumption. }
    { rewrite Hsum by (rewrite M1; apply incl_refl). rewrite M1. reflexivity. }
    { intros x Hx. apply Hids in Hx. lia. }
    exists ts, n2. split.
    { cbn [point_evaluation]. unfold fbind, flift. unfold entity, tables in *. rewrite E, Hvs0.
      rewrite !map_map in E2. cbn [mk p_ish p_tab] in E2. rewrite <- (map_map fst index_shape), M1 in E2.
      change (map (fun x => snd x) (combine es tss)) with (map snd (combine es tss)) in E2. rewrite M2 in E2. exact E2. }
    split; [lia|]. split; [exact Hk|]. intros a g Hin. destruct (Hts a g Hin) as (Hgs & Hgf & Hev).
    change (index_shape (EEnriched es)) with [space_dimension (EEnriched es)].
    split; [exact Hgs|]. split; [exact Hgf|].
    intros env b v Hb Hv. inversion Hb as [|? k ? b0 Hkb Hb0]; subst. inversion Hb0; subst.
    assert (Hkb' : k < sum (map (fun et => space_dimension (fst et)) (combine es tss))).
    { rewrite <- (map_map fst space_dimension), M1. exact Hkb. }
    destruct (find_block _ _ _ _ Hkb') as (pre & [e t] & post & j & Eco & -> & Hj). cbn [fst] in Hj.
    destruct (Hpair e t) as [Hein [_ Htab]]; [rewrite Eco; apply in_or_app; right; left; reflexivity|].
    rewrite <- Hdp in Hj by exact Hein. destruct (ravel_onto (index_shape e) j Hj) as (bj & Hbj & <-).
    destruct (Hev env (map mk pre) (mk (e, t)) (map mk post) bj v) as (t0 & Ht0 & Eev).
    { rewrite Eco, map_app. reflexivity. }
    { exact Hbj. }
    { symmetry. apply in_shape_length. exact Hv. }
    cbn [mk p_tab p_ish fst snd] in Ht0, Eev.
    assert (Epre : incl (map fst pre) es) by (rewrite <- M1, Eco, map_app; apply incl_appl, incl_refl).
    rewrite Hsum in Eev by exact Epre. rewrite map_map in Eev.
    cbn [app] in Eev |- *. rewrite Eev.
    destruct (Htab a t0 Ht0) as (_ & _ & Hval).
    replace es with (map fst pre ++ e :: map fst post) by (rewrite <- M1, Eco, map_app; reflexivity).
    replace (rowmajor [space_dimension (EEnriched (map fst pre ++ e :: map fst post))]
               [sum (map (fun et => space_dimension (fst et)) pre) + ravel (index_shape e) bj])
      with (fold_right Nat.add 0 (map space_dimension (map fst pre)) + rowmajor (index_shape e) bj).
    - apply vo_enriched; [apply Hval; assumption|].
      rewrite rowmajor_ravel by (apply in_shape_length; exact Hbj). rewrite <- Hdp by exact Hein. exact Hj.
    - rewrite rowmajor_ravel by (apply in_shape_length; exact Hbj). rewrite map_map, sum_fold. cbn [rowmajor fold_right]. set (q := sum _). unfold rowmajor; simpl; lia.
  Qed.

  Theorem tree_evaluates : forall e, evaluates e.
  Proof using R.
    induction e as [l|fs IH|b sh t IH|es IH|e sz off IH|e IH|e IH|e IH|e IH] using elt_ind'.
    - intros order pnt ent n c vs HC HS HL Hc Hvs Hps Hids Hent Hfit. injection Hc as <-. injection Hvs as <-.
      destruct (HL l) as [_ Ht]; [constructor|]. apply (Ht vars order pnt ent n); auto.
    - apply product_evaluates; exact IH.
    - apply tensor_evaluates; exact IH.
    - apply enriched_evaluates; exact IH.
    - apply mixed_evaluates; exact IH.
    - apply flattened_evaluates; exact IH.
    - apply discontinuous_evaluates; exact IH.
    - apply hdiv_evaluates; exact IH.
    - apply hcurl_evaluates; exact IH.
  Qed.
End Trees.
