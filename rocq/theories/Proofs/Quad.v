(** Quadrature rules. *)
From Coq Require Import String List Arith Lia Bool ZArith Ring.
From Verif Require Import Model.Prelude Model.Cell Model.Element Model.Gem Model.PointSet Model.Quadrature.
From Verif Require Import Spec.Rowmajor Spec.Tabulation Spec.Quadrature.
From Verif Require Import Proofs.Lists Proofs.Closure Proofs.GemEval Proofs.Leaf Proofs.Factor Proofs.Sums.
Import ListNotations.
Open Scope fresh_scope.

Lemma fold_left_upds : forall ixs vs env x, length vs = length ixs ->
  fold_left (fun acc iv => if Nat.eqb x (ix_id (fst iv)) then snd iv else acc) (combine ixs vs) (env x)
  = upds env ixs vs x.
Proof.
  induction ixs as [|i ixs IH]; intros [|v vs] env x H; try discriminate; [reflexivity|].
  cbn [combine fold_left fst snd upds hd tl].
  rewrite <- (IH vs (upd env i v) x) by (simpl in H; lia). reflexivity.
Qed.

Section Quad.
  Context {F : Type} (o : ops F) (vars : string -> list nat -> F).
  Context (R : ring_theory (f0 o) (f1 o) (fadd o) (fmul o) (fsub o) (fopp o) eq).
  Local Notation pset := (pset F). Local Notation gem := (gem F). Local Notation qrule := (qrule F).
  Local Notation eval := (eval o vars).
  Local Notation fsum := (fsum o).
  Local Notation quad := (quad o vars).

  Definition qexts (m : list ix) : list (list nat) := map (fun i => seq 0 (ix_extent i)) m.

  Lemma in_cart_length : forall (m : list ix) vs, In vs (cart (qexts m)) -> length vs = length m.
  Proof using Type.
    intros m vs H. apply in_cart in H. apply Forall2_length in H. unfold qexts in H. rewrite map_length in H. exact H.
  Qed.

  Lemma pt_at_ext : forall (ps : pset) env env', (forall i, In i (ps_indices ps) -> env (ix_id i) = env' (ix_id i)) ->
    pt_at ps env = pt_at ps env'.
  Proof using Type.
    fix IH 1. intros [pt|name N D i|kd D pts ixs|qs] env env' H; cbn [pt_at].
    - reflexivity.
    - reflexivity.
    - f_equal. f_equal. apply map_ext_in. exact H.
    - f_equal. cbn [ps_indices] in H. induction qs as [|q qs IHq]; [reflexivity|]. cbn [map]. f_equal.
      + apply IH. intros i Hi. apply H. cbn [flat_map]. apply in_or_app. left. exact Hi.
      + apply IHq. intros i Hi. apply H. cbn [flat_map]. apply in_or_app. right. exact Hi.
  Qed.

  Lemma quad_upds : forall (ps : pset) w f env,
    quad ps w f env
    = fsum (map (fun vs => fmul o (eval w (upds env (ps_indices ps) vs) []) (f (pt_at ps (upds env (ps_indices ps) vs))))
                (cart (qexts (ps_indices ps)))).
  Proof using Type.
    intros ps w f env. unfold Quadrature.quad, assignments. fold (qexts (ps_indices ps)). rewrite map_map.
    change (fold_right (fadd o) (f0 o)) with fsum. apply fsum_ext. intros vs Hvs. apply in_cart_length in Hvs.
    f_equal; [apply eval_ext; intros x _; apply fold_left_upds; exact Hvs|].
    f_equal. apply pt_at_ext. intros i _. apply fold_left_upds. exact Hvs.
  Qed.

  (** Sums over disjoint blocks of indices factorise. *)
  Definition local (m : list ix) (h : (nat -> nat) -> F) : Prop :=
    forall env env', (forall i, In i m -> env (ix_id i) = env' (ix_id i)) -> h env = h env'.

  Lemma local_all : forall (ms : list (list ix)) (hs : list ((nat -> nat) -> F)) e1 e2, Forall2 local ms hs ->
    (forall i, In i (concat ms) -> e1 (ix_id i) = e2 (ix_id i)) -> map (fun h => h e1) hs = map (fun h => h e2) hs.
  Proof using Type.
    intros ms hs e1 e2 H. induction H as [|m h ms hs Hl H IH]; intros He; [reflexivity|]. cbn [map concat] in *. f_equal.
    - apply Hl. intros i Hi. apply He, in_or_app. left. exact Hi.
    - apply IH. intros i Hi. apply He, in_or_app. right. exact Hi.
  Qed.

  Lemma sum_blocks : forall (ms : list (list ix)) (hs : list ((nat -> nat) -> F)) env,
    Forall2 local ms hs -> NoDup (map ix_id (concat ms)) ->
    fsum (map (fun vs => fold_right (fmul o) (f1 o) (map (fun h => h (upds env (concat ms) vs)) hs)) (cart (qexts (concat ms))))
    = fold_right (fmul o) (f1 o) (map (fun mh => fsum (map (fun vs => snd mh (upds env (fst mh) vs)) (cart (qexts (fst mh))))) (combine ms hs)).
  Proof using R.
    intros ms hs env H. revert env. induction H as [|m h ms hs Hl H IH]; intros env Hnd.
    - cbn. clear -R. destruct R. rewrite Radd_comm. apply Radd_0_l.
    - cbn [concat] in *. rewrite map_app in Hnd. apply NoDup_app_inv in Hnd as (N1 & N2 & D).
      cbn [combine map fold_right fst snd]. rewrite <- IH by exact N2. clear IH.
      rewrite <- (fsum_product o R). unfold qexts. rewrite map_app, cart_app.
      fold (qexts m). fold (qexts (concat ms)). rewrite map_flat_map. f_equal.
      apply flat_map_ext_in. intros v1 H1. rewrite map_map. apply map_ext_in. intros v2 H2.
      apply in_cart_length in H1. rewrite upds_app by exact H1. f_equal.
      + apply Hl. intros i Hi. rewrite upds_notin; [reflexivity|]. intros Hin. eapply D; [|exact Hin]. apply in_map. exact Hi.
      + f_equal. eapply local_all; [exact H|]. intros i Hi. apply upds_in. apply in_map. exact Hi.
  Qed.

  (** The weights of a rule, as a function of the index values. *)
  Lemma rule_weight : forall r : qrule, rule_ok r -> exists w, q_weight r = Ok w /\ gshape w = [] /\
    incl (gfree w) (map ix_id (ps_indices (q_point_set r))).
  Proof using Type.
    fix IH 2. intros r H. destruct H as [kd D pts i w Hne Hi Hd Hw|qs Hne Hq].
    - cbn [q_weight q_point_set ps_indices map]. unfold mk_indexed. cbn [gshape a_shape length Nat.eqb guard bind check_indices].
      rewrite Hi, Hw, Nat.eqb_refl. cbn [guard bind]. eexists. split; [reflexivity|]. split; [reflexivity|].
      intros x Hx. exact Hx.
    - assert (G : exists ws, mapM q_weight qs = Ok ws /\ Forall (fun w => gshape w = []) ws /\
                   incl (flat_map gfree ws) (map ix_id (ps_indices (q_point_set (QTensor qs)))) /\ length ws = length qs).
      { clear Hne. cbn [q_point_set ps_indices]. induction Hq as [|q qs Hq0 Hq IHq].
        - exists []. repeat split; [constructor | intros x []].
        - destruct (IH q Hq0) as (w & E & S & Fr). destruct IHq as (ws & E' & S' & Fr' & L').
          exists (w :: ws). cbn [mapM]. rewrite E. cbn [bind]. rewrite E'. split; [reflexivity|].
          split; [constructor; assumption|]. split; [|simpl; congruence].
          cbn [map flat_map]. rewrite map_app. apply incl_app; intros x Hx; apply in_or_app; [left; apply Fr; exact Hx | right; apply Fr'; exact Hx]. }
      destruct G as (ws & E & S & Fr & L). cbn [q_weight]. rewrite E. cbn [bind].
      destruct (reduce_product_ok ws) as (g & Eg & Sg & Fg & _); [intros ->; destruct qs; [congruence | discriminate] | exact S|].
      exists g. split; [exact Eg|]. split; [exact Sg|]. intros x Hx. apply Fr, Fg, Hx.
  Qed.

  Definition rps (r : qrule) : pset := q_point_set r.

  Lemma rule_ps_ok : forall r : qrule, rule_ok r -> ps_ok (rps r).
  Proof using Type.
    fix IH 2. intros r H. destruct H as [kd D pts i w Hne Hi Hd Hw|qs Hne Hq].
    - cbn. apply po_points; [exact Hne | cbn; lia | exact Hd].
    - unfold rps. cbn [q_point_set]. apply po_tensor. clear Hne. induction Hq as [|q qs H Hq IHq]; constructor; [apply IH; exact H | exact IHq].
  Qed.

  Lemma upds_env_ok : forall (ps : pset) env vs, In vs (cart (qexts (ps_indices ps))) ->
    distinct_indices ps -> env_ok ps (upds env (ps_indices ps) vs).
  Proof using Type.
    intros ps env vs H Hd i Hi. unfold distinct_indices in Hd.
    pose proof (in_cart_length _ _ H) as L. apply in_cart in H. unfold qexts in H. rewrite Forall2_map_r in H.
    rewrite <- (upds_vals _ env vs Hd L) in H. apply Forall2_map_l in H.
    clear - H Hi. remember (upds env (ps_indices ps) vs) as e. clear Heqe. revert H Hi.
    generalize (ps_indices ps) as m. intros m H Hi.
    assert (G : Forall (fun i => In (e (ix_id i)) (seq 0 (ix_extent i))) m).
    { clear Hi. induction m as [|j m IH]; constructor; inversion H; subst; auto. }
    rewrite Forall_forall in G. specialize (G i Hi). apply in_seq in G. lia.
  Qed.

  Lemma prod_mul : forall (A : Type) (f g : A -> F) l,
    fold_right (fmul o) (f1 o) (map (fun x => fmul o (f x) (g x)) l)
    = fmul o (fold_right (fmul o) (f1 o) (map f l)) (fold_right (fmul o) (f1 o) (map g l)).
  Proof using R.
    Add Ring FR2 : R.
    intros A f g l. induction l as [|x l IH]; cbn [map fold_right]; [clear -R; ring | rewrite IH; clear -R; ring].
  Qed.

  Lemma tensor_quad : forall (qs : list qrule) (fs : list (list F -> F)) g,
    qs <> [] -> Forall rule_ok qs -> distinct_indices (rps (QTensor qs)) ->
    separates o (map (fun q => psdim (rps q)) qs) fs g ->
    exists ws w, Forall2 (fun q w => q_weight q = Ok w) qs ws /\ q_weight (QTensor qs) = Ok w /\
      forall env, quad (rps (QTensor qs)) w g env
        = fold_right (fmul o) (f1 o) (map (fun x => quad (rps (fst (fst x))) (snd (fst x)) (snd x) env) (combine (combine qs ws) fs)).
  Proof using R.
    intros qs fs g Hne Hok Hd [Hlen Hsep].
    assert (G : exists ws, mapM q_weight qs = Ok ws /\ Forall2 (fun q w => q_weight q = Ok w /\ gshape w = [] /\
                   incl (gfree w) (map ix_id (ps_indices (rps q)))) qs ws).
    { clear - Hok. induction Hok as [|q qs Hq Hok IH]; [exists []; split; [reflexivity | constructor]|].
      destruct (rule_weight q Hq) as (w & E & S & Fr). destruct IH as (ws & E' & H'). exists (w :: ws).
      cbn [mapM]. rewrite E. cbn [bind]. rewrite E'. split; [reflexivity|]. constructor; auto. }
    destruct G as (ws & Ews & Hws).
    destruct (reduce_product_ok ws) as (w & Ew & _ & _ & Vw).
    { intros ->. inversion Hws; subst. congruence. }
    { clear - Hws. induction Hws as [|q w qs ws (_ & S & _) H IH]; constructor; assumption. }
    exists ws, w. split; [eapply Forall2_impl_in; [|exact Hws]; intros ? ? _ _ (E & _); exact E|].
    split; [cbn [q_weight]; rewrite Ews; exact Ew|].
    intros env. rewrite quad_upds.
    set (ms := map (fun q => ps_indices (rps q)) qs).
    assert (Ems : ps_indices (rps (QTensor qs)) = concat ms).
    { unfold rps, ms. cbn [q_point_set ps_indices]. rewrite flat_map_map, flat_map_concat_map. reflexivity. }
    set (hs := map (fun x : qrule * gem * (list F -> F) => fun e => fmul o (eval (snd (fst x)) e []) (snd x (pt_at (rps (fst (fst x))) e)))
                   (combine (combine qs ws) fs)).
    rewrite map_length in Hlen.
    assert (Lw : length ws = length qs) by (symmetry; eapply Forall2_length; exact Hws).
    assert (Hloc : Forall2 local ms hs).
    { unfold ms, hs. clear - Hws Hlen. revert fs Hlen. induction Hws as [|q w qs ws (E & S & Fr) H IH]; intros [|f fs] Hlen; try discriminate; [constructor|].
      cbn [map combine]. constructor; [|apply IH; simpl in Hlen; lia].
      intros e e' He. cbn [fst snd]. f_equal.
      - apply eval_ext. intros x Hx. apply Fr in Hx. apply in_map_iff in Hx as (i & <- & Hi). apply He. exact Hi.
      - f_equal. apply pt_at_ext. exact He. }
    transitivity (fsum (map (fun vs => fold_right (fmul o) (f1 o) (map (fun h => h (upds env (concat ms) vs)) hs)) (cart (qexts (concat ms))))).
    - rewrite Ems. apply fsum_ext. intros vs Hvs.
      assert (Henv : env_ok (rps (QTensor qs)) (upds env (concat ms) vs)).
      { rewrite <- Ems. apply upds_env_ok; [rewrite Ems; exact Hvs | exact Hd]. }
      revert Henv. generalize (upds env (concat ms) vs) as e. intros e Henv.
      rewrite Vw by exact R. unfold rps at 1. cbn [q_point_set pt_at]. rewrite map_map. rewrite Hsep.
      + unfold hs. rewrite map_map. cbn [fst snd]. rewrite prod_mul. f_equal; f_equal.
        * clear - Lw Hlen. revert ws fs Lw Hlen. induction qs as [|q qs IH]; intros [|w ws] [|f fs] Lw Hlen; try discriminate; [reflexivity|].
          cbn [combine map fst snd]. f_equal. apply IH; simpl in *; lia.
        * clear - Lw Hlen. revert ws fs Lw Hlen. induction qs as [|q qs IH]; intros [|w ws] [|f fs] Lw Hlen; try discriminate; [reflexivity|].
          cbn [combine map fst snd]. f_equal. apply IH; simpl in *; lia.
      + rewrite Forall2_map_l, Forall2_map_r. assert (Hin : forall q, In q qs -> length (pt_at (rps q) e) = psdim (rps q)).
        { intros q Hq. apply pt_at_length; [apply rule_ps_ok; rewrite Forall_forall in Hok; apply Hok; exact Hq|].
          intros i Hi. apply Henv. rewrite Ems. unfold ms. apply in_concat. exists (ps_indices (rps q)).
          split; [apply in_map_iff; exists q; split; [reflexivity | exact Hq] | exact Hi]. }
        clear - Hin. induction qs as [|q qs IH]; constructor; [apply Hin; left; reflexivity | apply IH; intros; apply Hin; right; assumption].
    - rewrite sum_blocks; [|exact Hloc|].
      + f_equal. unfold ms, hs. clear - Lw Hlen. revert ws fs Lw Hlen.
        induction qs as [|q qs IH]; intros [|w ws] [|f fs] Lw Hlen; try discriminate; [reflexivity|].
        cbn [combine map fst snd]. f_equal; [rewrite quad_upds; reflexivity|]. apply IH; simpl in *; lia.
      + unfold distinct_indices in Hd. rewrite Ems in Hd. exact Hd.
  Qed.

  (** One array of points. *)
  Lemma simple_quad : forall kd D pts i w f env, ix_extent i = length pts -> length w = length pts ->
    exists g, q_weight (QRule (PPoints kd D pts [i]) w) = Ok g /\
      quad (PPoints kd D pts [i]) g f env
      = fold_right (fadd o) (f0 o) (map (fun pw => fmul o (snd pw) (f (fst pw))) (combine pts w)).
  Proof using Type.
    intros kd D pts i w f env Hi Hw. cbn [q_weight q_point_set ps_indices map]. unfold mk_indexed.
    cbn [gshape a_shape length Nat.eqb guard bind check_indices].
    rewrite Hi, Hw, Nat.eqb_refl. cbn [guard bind]. eexists. split; [reflexivity|].
    rewrite quad_upds. cbn [ps_indices]. unfold qexts. cbn [map cart]. rewrite Hi.
    change (fold_right (fadd o) (f0 o)) with fsum. f_equal. rewrite map_flat_map. cbn [map].
    rewrite <- (map_id (combine pts w)) at 1. clear Hi.
    assert (E : forall k, k < length pts ->
      fmul o (eval (GIndexed (GLiteral (mkArr [length w] w)) [IFree i]) (upds env [i] [k]) []) (f (pt_at (PPoints kd D pts [i]) (upds env [i] [k])))
      = fmul o (nth k w (f0 o)) (f (nth k pts []))).
    { intros k Hk. cbn [Gem.eval map gidx_val upds upd hd tl]. unfold upd. rewrite Nat.eqb_refl.
      unfold arr_at. cbn [a_shape a_data ravel_strides]. rewrite Hw. apply Nat.ltb_lt in Hk. rewrite Hk. cbn [bind prod].
      rewrite Nat.mul_1_r, Nat.add_0_r. f_equal. f_equal. cbn [pt_at map]. unfold rowmajor. cbn [combine fold_left fst snd]. rewrite Nat.eqb_refl. reflexivity. }
    rewrite flat_map_concat_map.
    rewrite (map_ext_in _ (fun k => [fmul o (nth k w (f0 o)) (f (nth k pts []))])).
    - rewrite <- flat_map_concat_map. clear E. revert w Hw. induction pts as [|p pts IH]; intros [|x w] Hw; try discriminate; [reflexivity|].
      cbn [length seq flat_map combine map fst snd nth app]. f_equal. rewrite <- seq_shift, flat_map_map. rewrite <- IH by (simpl in Hw; lia).
      reflexivity.
    - intros k Hk. apply in_seq in Hk. cbn [map]. rewrite Hw in E. f_equal. apply E. lia.
  Qed.
End Quad.
