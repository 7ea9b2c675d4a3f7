(** Tabulation of spectral elements. *)
From Coq Require Import String List Arith Lia Bool.
From Verif Require Import Model.Prelude Model.Cell Model.Element Model.EntityMaps Model.Gem Model.PointSet Model.Evaluation Model.Spectral.
From Verif Require Import Spec.Rowmajor Spec.EntityDofs Spec.Layout Spec.Tabulation Spec.Spectral.
From Verif Require Import Proofs.Lists Proofs.Cells Proofs.EntityDofs Proofs.EntityDofs2 Proofs.GemEval Proofs.Tables Proofs.Tables2
  Proofs.Leaf Proofs.Factor Proofs.Tree Proofs.Single Proofs.TabProps.
Import ListNotations.
Open Scope fresh_scope.

Lemma pkind_eqb_ok : forall a b, pkind_eqb a b = true <-> a = b.
Proof. intros [] []; split; intros H; try reflexivity; discriminate H. Qed.

Section Spectral.
  Context {F : Type} (o : ops F).
  Local Notation zero_of l := (repeat 0 (spatial_dimension (lf_cell l))).

  (** The table of values at the points of its own class. *)
  Definition identity_table (q : ix) (n N : nat) : gem F :=
    GComponentTensor (GDelta (IFree q) (IFree (n, N))) [(n, N)].

  Lemma spectral_other : forall own (l : leaf F) order ps ent n,
    on_cell l ent && own_points own l ps = false ->
    spectral_evaluation o own l order ps ent n = fiat_basis_evaluation o l order ps ent n.
  Proof.
    intros own l order ps ent n H. unfold spectral_evaluation, fbind.
    destruct (fiat_basis_evaluation o l order ps ent n) as [[ts n1]|x]; [|reflexivity].
    destruct (on_cell l ent), (own_points own l ps); try discriminate H; reflexivity.
  Qed.

  Lemma spectral_own : forall own (l : leaf F) order ps ent n ts n1 q,
    on_cell l ent = true -> own_points own l ps = true -> ps_indices ps = [q] -> lf_ishape l = [lf_dim l] ->
    fiat_basis_evaluation o l order ps ent n = Ok (ts, n1) ->
    spectral_evaluation o own l order ps ent n
    = Ok (dict_set (list_eqb Nat.eqb) ts (zero_of l) (identity_table q n1 (lf_dim l)), n1 + 1).
  Proof.
    intros own l order ps ent n ts n1 q H1 H2 Hq Hish E. unfold spectral_evaluation.
    rewrite (fbind_eq _ _ _ _ _ _ _ E), H1, H2, Hq, Hish.
    rewrite (fbind_eq _ _ _ _ _ _ _ (flift_eq _ _ _ _ eq_refl)), (fbind_eq _ _ _ _ _ _ _ (new_indices_eq _ _)).
    change (ixs n1 [lf_dim l]) with [(n1, lf_dim l)]. cbn beta iota.
    rewrite (fbind_eq _ _ _ _ _ _ _ (flift_eq _ _ _ _ eq_refl)).
    unfold fbind, flift. rewrite mk_component_tensor_ok; [reflexivity | reflexivity|].
    intros x [<-|[]]. cbn [gfree mi_ids]. right. left. reflexivity.
  Qed.

  Lemma spectral_failed : forall own (l : leaf F) order ps ent n x,
    fiat_basis_evaluation o l order ps ent n = Err x ->
    spectral_evaluation o own l order ps ent n = Err x.
  Proof. intros own l order ps ent n x E. unfold spectral_evaluation, fbind. rewrite E. reflexivity. Qed.

  Lemma spectral_indices : forall own (l : leaf F) order ps ent n ts n1,
    on_cell l ent = true -> own_points own l ps = true -> (forall q, ps_indices ps <> [q]) ->
    fiat_basis_evaluation o l order ps ent n = Ok (ts, n1) ->
    spectral_evaluation o own l order ps ent n = Err ValueError.
  Proof.
    intros own l order ps ent n ts n1 H1 H2 Hq E. unfold spectral_evaluation.
    rewrite (fbind_eq _ _ _ _ _ _ _ E), H1, H2. destruct (ps_indices ps) as [|q [|q' r]]; try reflexivity.
    destruct (Hq q eq_refl).
  Qed.

  Lemma on_cell_ok : forall (l : leaf F) ent, on_cell l ent = true <-> entity_or_cell (lf_cell l) ent = (get_dimension (lf_cell l), 0).
  Proof.
    intros l [[k i]|]; cbn [on_cell entity_or_cell]; [|split; reflexivity].
    rewrite andb_true_iff, Nat.eqb_eq. destruct (dimkey_eqb_spec k (get_dimension (lf_cell l))) as [->|Hn].
    - split; [intros [_ ->]; reflexivity | intros [= ->]; split; reflexivity].
    - split; [intros [H _]; discriminate H | intros [= Hk _]; congruence].
  Qed.

  Lemma own_points_ok : forall own (l : leaf F) ps, own_points own l ps = true <->
    exists D pts ixs, ps = PPoints own D pts ixs /\ length pts = lf_dim l.
  Proof.
    intros own l ps. split.
    - destruct ps as [pt|nm N D i|kd D pts ixs|fs]; cbn [own_points]; intros H; try discriminate H.
      apply andb_true_iff in H as [H1 H2]. apply pkind_eqb_ok in H1 as ->. apply Nat.eqb_eq in H2.
      exists D, pts, ixs. split; [reflexivity | exact H2].
    - intros (D & pts & ixs & -> & H). cbn [own_points]. rewrite H, Nat.eqb_refl, andb_true_r. apply pkind_eqb_ok. reflexivity.
  Qed.

  (** Keys, and the tables of derivatives, are those of the FIAT element. *)
  Lemma zero_key : forall (l : leaf F) order (ts : list (list nat * gem F)),
    derivative_keys (spatial_dimension (lf_cell l)) order (map fst ts) -> In (zero_of l) (map fst ts).
  Proof.
    intros l order ts [_ H]. apply H. split; [apply repeat_length|].
    replace (fold_right Nat.add 0 (zero_of l)) with 0; [lia|]. clear. induction (spatial_dimension (lf_cell l)); [reflexivity | assumption].
  Qed.

  Lemma spectral_tables : forall own (l : leaf F),
    fclose0 o (f0 o) = true -> scalar_leaf l -> fiat_polynomial o l ->
    forall vars order ps ent n,
    ps_ok ps -> (forall i, In i (ps_indices ps) -> ix_id i < n) ->
    entity_of (topology (lf_cell l)) (entity_or_cell (lf_cell l) ent) ->
    psdim ps = dk_total (fst (entity_or_cell (lf_cell l) ent)) ->
    collocated o own l ps ->
    exists ts n', spectral_evaluation o own l order ps ent n = Ok (ts, n') /\ n <= n' /\
      tables_ok o vars (ELeaf l) (spatial_dimension (lf_cell l)) order (lf_vshape l) ps (entity_or_cell (lf_cell l) ent) ts.
  Proof.
    intros own l Hcl [Hish Hvs] Hpoly vars order ps ent n Hps Hn Hent Hdim Hcol.
    assert (Hvp : Forall (lt 0) (lf_vshape l)) by (rewrite Hvs; constructor).
    destruct (fiat_leaf_tabulates F o unit l Hcl Hish Hvp Hpoly vars order ps ent None n Hps Hn Hent Hdim) as (ts & n1 & E & Hle & Hk & Hts).
    cbn beta in E.
    destruct (on_cell l ent && own_points own l ps) eqn:B.
    2:{ exists ts, n1. rewrite spectral_other by exact B. split; [exact E|]. split; [exact Hle|]. split; assumption. }
    apply andb_true_iff in B as [B1 B2]. pose proof (proj1 (on_cell_ok _ _) B1) as Een.
    destruct (proj1 (own_points_ok _ _ _) B2) as (D & pts & ixl & -> & Hlen).
    rewrite Een in *. cbn [psdim fst] in Hdim.
    destruct (Hcol D pts ixl (wi_self _) Hlen Hdim) as [[q ->] Hnod].
    rewrite (spectral_own own l order _ ent n ts n1 q B1 B2 eq_refl Hish E).
    eexists _, (n1 + 1). split; [reflexivity|]. split; [lia|].
    pose proof (zero_key l order ts Hk) as Hz.
    split; [rewrite (dict_set_mem_keys _ _ _ (list_eqb_spec _ _ nat_eqb_spec)) by exact Hz; exact Hk|].
    intros alpha g Hin. apply (dict_set_in _ _ _ (list_eqb_spec _ _ nat_eqb_spec)) in Hin as [[-> ->]|[_ Hin]]; [| |exact (proj1 Hk)].
    2:{ exact (Hts alpha g Hin). }
    change (index_shape (ELeaf l)) with (lf_ishape l). rewrite Hish, Hvs.
    assert (Hq : ix_id q < n) by (apply Hn; left; reflexivity).
    split.
    - split; [reflexivity|]. intros x Hx. cbn in Hx.
      destruct (Nat.eqb_spec (ix_id q) n1) as [Eq|_]; [lia|]. cbn in Hx. rewrite Nat.eqb_refl in Hx. cbn in Hx.
      exact Hx.
    - intros env b v He Hb Hv. inversion Hv; subst. inversion Hb as [|? i ? ? Hi Hb']; subst. inversion Hb'; subst.
      assert (Hqe : env (ix_id q) < ix_extent q) by (apply He; left; reflexivity).
      inversion Hps as [|? ? ? ? Hne Hext Hds|]; subst. cbn [map fold_right] in Hext. rewrite Nat.mul_1_r in Hext.
      assert (Hnth : exists p, nth_error pts (env (ix_id q)) = Some p).
      { destruct (nth_error pts (env (ix_id q))) as [p|] eqn:En; [exists p; reflexivity|]. apply nth_error_None in En. lia. }
      destruct Hnth as [p Hp]. destruct (Hnod _ p i Hp Hi) as [N1 N2].
      replace (rowmajor [lf_dim l] [i]) with i by (unfold rowmajor; simpl; lia).
      assert (Ept : pt_at (PPoints own (dk_total (get_dimension (lf_cell l))) pts [q]) env = p).
      { cbn [pt_at map]. replace (rowmajor [ix_extent q] [env (ix_id q)]) with (env (ix_id q)) by (unfold rowmajor; simpl; lia).
        apply nth_error_nth. exact Hp. }
      rewrite Ept. unfold identity_table. cbn [eval gidx_val app upds hd tl]. unfold upd. cbn [ix_id fst].
      rewrite Nat.eqb_refl. replace (Nat.eqb (ix_id q) n1) with false by (symmetry; apply Nat.eqb_neq; lia).
      assert (EV : (if Nat.eqb (env (ix_id q)) i then f1 o else f0 o) = lf_tab l (zero_of l) (get_dimension (lf_cell l), 0) p i []).
      { destruct (Nat.eqb_spec (env (ix_id q)) i) as [Eq|Hne']; symmetry; auto. }
      rewrite EV. constructor.
  Qed.

  (** What callers see. *)
  Lemma spectral_tabulation : forall own (l : leaf F),
    fclose0 o (f0 o) = true -> scalar_leaf l -> fiat_polynomial o l ->
    forall vars order ps ent n,
    ps_ok ps -> (forall i, In i (ps_indices ps) -> ix_id i < n) ->
    entity_of (topology (lf_cell l)) (entity_or_cell (lf_cell l) ent) ->
    psdim ps = dk_total (fst (entity_or_cell (lf_cell l) ent)) ->
    collocated o own l ps ->
    exists ts n', spectral_evaluation o own l order ps ent n = Ok (ts, n') /\ n <= n' /\
      derivative_keys (spatial_dimension (lf_cell l)) order (map fst ts) /\
      forall alpha g, In (alpha, g) ts ->
        gshape g = [lf_dim l] /\ incl (gfree g) (map ix_id (ps_indices ps)) /\
        forall env i, env_ok ps env -> i < lf_dim l ->
          eval o vars g env [i] = lf_tab l alpha (entity_or_cell (lf_cell l) ent) (pt_at ps env) i [].
  Proof.
    intros own l Hcl Hs Hpoly vars order ps ent n Hps Hn Hent Hdim Hcol.
    destruct (spectral_tables own l Hcl Hs Hpoly vars order ps ent n Hps Hn Hent Hdim Hcol) as (ts & n' & E & Hle & Hk & V).
    exists ts, n'. split; [exact E|]. split; [exact Hle|]. split; [exact Hk|]. intros alpha g Hg.
    destruct Hs as [Hish Hvs]. destruct (V alpha g Hg) as [[S Fr] Hv].
    change (index_shape (ELeaf l)) with (lf_ishape l) in *. rewrite Hish, Hvs in *. split; [exact S|]. split; [exact Fr|].
    intros env i Henv Hi. assert (Hb : in_shape [lf_dim l] [i]) by (repeat constructor; exact Hi).
    specialize (Hv env [i] [] Henv Hb (Forall2_nil _)). cbn [app] in Hv. inversion Hv; subst. unfold rowmajor.
    cbn [combine fold_left fst snd]. reflexivity.
  Qed.

  (** The value tables are replaced exactly when the class and the number of
      points match on the cell; all other tables are FIAT's. *)
  Lemma spectral_differs : forall own (l : leaf F) order ps ent n ts n1,
    lf_ishape l = [lf_dim l] ->
    fiat_basis_evaluation o l order ps ent n = Ok (ts, n1) ->
    derivative_keys (spatial_dimension (lf_cell l)) order (map fst ts) ->
    ((entity_or_cell (lf_cell l) ent = (get_dimension (lf_cell l), 0) /\
      exists D pts ixs, ps = PPoints own D pts ixs /\ length pts = lf_dim l) ->
     forall q, ps_indices ps = [q] ->
       exists ts' n', spectral_evaluation o own l order ps ent n = Ok (ts', n') /\ map fst ts' = map fst ts /\
         forall alpha g, In (alpha, g) ts' <->
           (alpha = repeat 0 (spatial_dimension (lf_cell l)) /\ exists r, ix_id r = n1 /\ ix_extent r = lf_dim l /\
              g = GComponentTensor (GDelta (IFree q) (IFree r)) [r]) \/
           (alpha <> repeat 0 (spatial_dimension (lf_cell l)) /\ In (alpha, g) ts)) /\
    (~ (entity_or_cell (lf_cell l) ent = (get_dimension (lf_cell l), 0) /\
        exists D pts ixs, ps = PPoints own D pts ixs /\ length pts = lf_dim l) ->
     spectral_evaluation o own l order ps ent n = Ok (ts, n1)).
  Proof.
    intros own l order ps ent n ts n1 Hish E Hk. split.
    - intros [He Hp] q Hq. apply on_cell_ok in He. apply own_points_ok in Hp.
      rewrite (spectral_own own l order ps ent n ts n1 q He Hp Hq Hish E).
      eexists _, _. split; [reflexivity|].
      pose proof (zero_key l order ts Hk) as Hz. pose proof (list_eqb_spec _ _ nat_eqb_spec) as sp.
      split; [apply (dict_set_mem_keys _ _ _ sp); exact Hz|].
      intros alpha g. split.
      + intros Hin. apply (dict_set_in _ _ _ sp) in Hin; [|exact (proj1 Hk)].
        destruct Hin as [[-> ->]|Hin]; [left | right; exact Hin]. split; [reflexivity|].
        exists (n1, lf_dim l). repeat split.
      + assert (Hset : forall d : list (list nat * gem F), forall k v, In k (map fst d) ->
            In (k, v) (dict_set (list_eqb Nat.eqb) d k v) /\
            forall k' v', k' <> k -> In (k', v') d -> In (k', v') (dict_set (list_eqb Nat.eqb) d k v)).
        { induction d as [|[a b] d IH]; intros k v Hkin; [destruct Hkin|]. cbn [dict_set].
          destruct (sp k a) as [->|Hne].
          - split; [left; reflexivity|]. intros k' v' Hk' [Eq|Hin]; [injection Eq as -> ->; congruence | right; exact Hin].
          - destruct Hkin as [Eq|Hkin]; [cbn in Eq; congruence|]. destruct (IH k v Hkin) as [I1 I2].
            split; [right; exact I1|]. intros k' v' Hk' [Eq|Hin]; [left; exact Eq | right; apply I2; assumption]. }
        destruct (Hset ts _ (identity_table q n1 (lf_dim l)) Hz) as [I1 I2].
        intros [[-> ([r1 r2] & Hr1 & Hr2 & ->)]|[Hne Hin]]; [|apply I2; assumption].
        cbn in Hr1, Hr2. subst. exact I1.
    - intros Hno. rewrite spectral_other; [exact E|]. destruct (on_cell l ent) eqn:B1; [|reflexivity].
      destruct (own_points own l ps) eqn:B2; [|reflexivity]. exfalso. apply Hno.
      split; [apply on_cell_ok; exact B1 | apply own_points_ok; exact B2].
  Qed.

  (* ---------------------------------------------------------------- *)
  (** ** Trees with spectral leaves *)

  Lemma within_generic : forall kd own D pts ixs D' pts' ixs', kd <> own ->
    ~ within (PPoints own D' pts' ixs') (PPoints kd D pts ixs : pset F).
  Proof. intros kd own D pts ixs D' pts' ixs' Hn H. inversion H; subst. congruence. Qed.

  Lemma collocated_factor : forall own (l : leaf F) dims ps pss, own <> PGeneric ->
    collocated o own l ps -> factor_point_set dims ps = Ok pss -> Forall (collocated o own l) pss.
  Proof.
    intros own l dims ps pss Hown H E. apply Forall_forall. intros p Hp D pts ixs Hw.
    assert (Hs1 : forall pt, within (PPoints own D pts ixs) (PSingleton pt) -> False) by (intros pt X; inversion X).
    assert (Hg1 : forall D0 pts0 ixs0, within (PPoints own D pts ixs) (PPoints PGeneric D0 pts0 ixs0) -> False).
    { intros D0 pts0 ixs0 X. inversion X; subst. congruence. }
    destruct ps as [pt|nm N D0 i|kd D0 pts0 ixs0|fs]; unfold factor_point_set in E.
    - apply bind_ok in E as (d & _ & E). apply bind_ok in E as (? & _ & E). injection E as <-.
      apply in_map_iff in Hp as (x0 & <- & _). destruct (Hs1 _ Hw).
    - apply bind_ok in E as (d & _ & E). apply bind_ok in E as (? & _ & E). discriminate E.
    - apply bind_ok in E as (d & _ & E). apply bind_ok in E as (? & _ & E). apply bind_ok in E as (ps & _ & E). injection E as <-.
      apply in_map_iff in Hp as (x0 & <- & _). destruct (Hg1 _ _ _ Hw).
    - destruct (Nat.eqb (length dims) (length fs)).
      + apply bind_ok in E as (ds & _ & E). apply bind_ok in E as (? & _ & E). injection E as <-.
        intros Hl. apply (H D pts ixs). eapply wi_factor; eassumption. exact Hl.
      + apply bind_ok in E as (d & _ & E). apply bind_ok in E as (? & _ & E). apply bind_ok in E as (ps & _ & E). injection E as <-.
        apply in_map_iff in Hp as (x0 & <- & _). destruct (Hg1 _ _ _ Hw).
  Qed.

  Context (R : ring_theory (f0 o) (f1 o) (fadd o) (fmul o) (fsub o) (fopp o) eq).

  Lemma spectral_tree : forall G (cls : leaf F -> option pkind) (e : elt F) vars order ps ent (cm : option G) n c vs,
    fclose0 o (f0 o) = true ->
    built e -> shaped e ->
    (forall l, leaf_of l e -> lf_ishape l = [lf_dim l] /\ fiat_polynomial o l /\
       forall own, cls l = Some own -> lf_vshape l = [] /\ own <> PGeneric /\ collocated o own l ps) ->
    cell_of e = Ok c -> value_shape e = Ok vs ->
    ps_ok ps -> (forall i, In i (ps_indices ps) -> ix_id i < n) ->
    entity_of (topology c) (entity_or_cell c ent) -> fits e (entity_or_cell c ent) ps ->
    exists ts n', basis_evaluation o (leaf_basis_evaluation o cls) e order ps ent cm n = Ok (ts, n') /\ n <= n' /\
      derivative_keys (spatial_dimension c) order (map fst ts) /\
      forall alpha g, In (alpha, g) ts ->
        gshape g = index_shape e ++ vs /\ incl (gfree g) (map ix_id (ps_indices ps)) /\
        forall env b v, env_ok ps env -> in_shape (index_shape e) b -> in_shape vs v ->
          forall x, value_of o e alpha (entity_or_cell c ent) (pt_at ps env) (rowmajor (index_shape e) b) v x <->
            eval o vars g env (b ++ v) = x.
  Proof using R.
    intros G cls e vars order ps ent cm n c vs Hcl Hb Hs Hl Hc Hvs Hps Hn He Hf.
    set (Q := fun q : pset F => forall l own, leaf_of l e -> cls l = Some own -> collocated o own l q).
    assert (HQf : forall dims q qs, Q q -> factor_point_set dims q = Ok qs -> Forall Q qs).
    { intros dims q qs HQ E. apply Forall_forall. intros p Hp l own Hll Ho.
      destruct (Hl l Hll) as (_ & _ & H). destruct (H own Ho) as (_ & Hown & _).
      pose proof (collocated_factor own l dims q qs Hown (HQ l own Hll Ho) E) as HF. rewrite Forall_forall in HF. exact (HF p Hp). }
    assert (HQ : Q ps) by (intros l own Hll Ho; apply (proj2 (proj2 (Hl l Hll))); exact Ho).
    assert (Hlf : leaves_fine o (leaf_basis_evaluation (G := G) o cls) Q e).
    { intros l Hll. destruct (Hl l Hll) as (Hish & Hpoly & Hcls). split; [rewrite Hish; simpl; lia|].
      intros vars' order' ps' ent' cm' n' Hps' HQ' Hn' He' Hd'. unfold leaf_basis_evaluation. destruct (cls l) as [own|] eqn:Ecls.
      - destruct (Hcls own eq_refl) as (Hv & _ & _). apply spectral_tables; auto. split; assumption.
      - apply (fiat_leaf_tabulates F o G l Hcl Hish); auto. apply Hs. exact Hll. }
    destruct (tree_tabulates_on o R (leaf_basis_evaluation o cls) vars Q HQf e order ps ent cm n c vs (built_checked _ Hb) Hs Hlf Hc Hvs Hps HQ Hn He Hf)
      as (ts & n' & E & L & K & V).
    exists ts, n'. split; [exact E|]. split; [exact L|]. split; [exact K|].
    intros alpha g Hg. destruct (V alpha g Hg) as [[S Fr] Ve]. split; [exact S|]. split; [exact Fr|].
    intros env b v H1 H2 H3 x. specialize (Ve env b v H1 H2 H3). split.
    - intros Hx. eapply value_unique; eassumption.
    - intros <-. exact Ve.
  Qed.
End Spectral.
