(** make_quadrature builds usable rules that integrate exactly. *)
From Coq Require Import String List Arith Lia Bool ZArith Ring_theory.
From Verif Require Import Model.Prelude Model.Cell Model.Element Model.Gem Model.PointSet Model.Evaluation Model.Quadrature.
From Verif Require Import Spec.Rowmajor Spec.Tabulation Spec.Quadrature.
From Verif Require Import Proofs.Lists Proofs.Cells Proofs.Closure Proofs.GemEval Proofs.Leaf Proofs.Factor Proofs.Sums Proofs.Quad.
Import ListNotations.
Open Scope fresh_scope.

Scheme integrates_mut := Minimality for integrates Sort Prop
  with integrates_each_mut := Minimality for integrates_each Sort Prop.

Section Quad2.
  Context {F : Type} (o : ops F) (vars : string -> list nat -> F).
  Context (R : ring_theory (f0 o) (f1 o) (fadd o) (fmul o) (fsub o) (fopp o) eq).
  Context (poly : cell -> nat -> (list F -> F) -> F -> Prop).
  Context (gl : cell -> nat -> list (list F) * list F).
  Context (sch : cell -> nat -> string -> result (list (list F) * list F)).
  Context (macro : cell -> bool).
  Context (Hgl : gauss_legendre_ok o poly gl) (Hsch : fiat_scheme_ok o poly sch).
  Local Notation quad := (Quadrature.quad o vars).
  Local Notation fsum := (fold_right (fadd o) (f0 o)).
  Local Notation make := (make_quadrature gl sch macro).
  Local Notation simple := (simple_quadrature gl sch macro).

  (** What is needed of a rule built with indices n, ..., n'-1. *)
  Definition fresh_rule (c : cell) (r : qrule F) (n n' : nat) : Prop :=
    n <= n' /\ rule_ok r /\ psdim (q_point_set r) = spatial_dimension c /\ distinct_indices (q_point_set r) /\
    forall i, In i (ps_indices (q_point_set r)) -> n <= ix_id i < n'.

  Lemma simple_rule : forall c pts w kd n r n',
    fiat_rule_ok c (pts, w) ->
    fbind (new_indices [length pts]) (fun i => flift (mk_qrule (PPoints kd (spatial_dimension c) pts i) w)) n = Ok (r, n') ->
    fresh_rule c r n n' /\ forall f env, exists g, q_weight r = Ok g /\
      quad (q_point_set r) g f env = fsum (map (fun pw => fmul o (snd pw) (f (fst pw))) (combine pts w)).
  Proof using Type.
    intros c pts w kd n r n' (Hne & Hw & Hd) H. cbn [fst snd] in *. apply fbind_ok in H as (i & n1 & E & H).
    rewrite new_indices_eq in E. injection E as <- <-. cbn [ixs combine seq length] in H.
    unfold flift, mk_qrule, ps_len in H. cbn [ps_points bind] in H. rewrite Hw, Nat.eqb_refl in H. cbn [guard bind] in H.
    injection H as <- <-. split.
    - split; [lia|]. split; [constructor; auto|]. split; [reflexivity|]. split.
      + unfold distinct_indices. cbn. constructor; [intros []|constructor].
      + intros j [<-|[]]. cbn. lia.
    - intros f env. apply simple_quad; [reflexivity | exact Hw].
  Qed.

  Lemma simple_wf : forall c deg s n r n', simple c deg s n = Ok (r, n') ->
    fresh_rule c r n n' /\ exists d, deg = QInt (Z.of_nat d) /\
      forall f I, poly c d f I -> forall env, exists g, q_weight r = Ok g /\ quad (q_point_set r) g f env = I.
  Proof using vars Hgl Hsch.
    intros c [d|ds] s n r n' H; [|discriminate]. unfold simple_quadrature in H.
    destruct (d <? 0)%Z eqn:Hd; [discriminate|]. apply Z.ltb_ge in Hd.
    destruct (is_line c && negb (macro c)) eqn:Hl.
    - apply andb_prop in Hl as [Hl _].
      set (m := Z.to_nat ((d + 1 + 1) / 2)) in *.
      assert (Hm : 1 <= m /\ Z.to_nat d + 1 <= 2 * m).
      { unfold m. pose proof (Z.div_mod (d + 1 + 1) 2 ltac:(lia)). pose proof (Z.mod_pos_bound (d + 1 + 1) 2 ltac:(lia)). lia. }
      destruct (Hgl c m Hl (proj1 Hm)) as (Hr & _ & He). destruct (gl c m) as [pts w] eqn:E.
      apply (simple_rule c) in H; [|exact Hr]. destruct H as [Hf Hq]. split; [exact Hf|].
      exists (Z.to_nat d). split; [rewrite Z2Nat.id by exact Hd; reflexivity|].
      intros f I Hp env. destruct (Hq f env) as (g & Eg & Vg). exists g. split; [exact Eg|]. rewrite Vg. apply (He _ (proj2 Hm)). exact Hp.
    - apply fbind_ok in H as ([pts w] & n1 & E & H). unfold flift in E.
      destruct (sch c (Z.to_nat d) s) as [rl|] eqn:Es; [|discriminate]. cbn in E. injection E as -> <-.
      apply Hsch in Es as [Hr He]. cbn [fst snd] in H.
      apply (simple_rule c) in H; [|exact Hr]. destruct H as [Hf Hq]. split; [exact Hf|].
      exists (Z.to_nat d). split; [rewrite Z2Nat.id by exact Hd; reflexivity|].
      intros f I Hp env. destruct (Hq f env) as (g & Eg & Vg). exists g. split; [exact Eg|]. rewrite Vg. apply He. exact Hp.
  Qed.

  Lemma make_quadrilateral : forall deg s, make (Hypercube 2) deg s = make (TPCell [Simplex 1; Simplex 1]) deg s.
  Proof using Type. reflexivity. Qed.

  Lemma split_degree_ok : forall k deg ds, split_degree k deg = Ok ds ->
    length ds = k /\ (deg = QTuple ds \/ exists d, deg = QInt d /\ ds = repeat (QInt d) k).
  Proof using Type.
    intros k deg ds H. unfold split_degree in H. apply bind_ok in H as ([] & Hg & H). apply guard_ok in Hg.
    injection H as <-. apply Nat.eqb_eq in Hg. split; [symmetry; exact Hg|].
    destruct deg as [d|l]; [right; exists d; auto | left; reflexivity].
  Qed.

  (** Rules built one after the other. *)
  Inductive chain : list cell -> list (qrule F) -> nat -> nat -> Prop :=
  | ch_nil : forall n, chain [] [] n n
  | ch_cons : forall c cs r rs n n1 n', fresh_rule c r n n1 -> chain cs rs n1 n' -> chain (c :: cs) (r :: rs) n n'.

  Lemma chain_facts : forall cs rs n n', chain cs rs n n' ->
    n <= n' /\ Forall rule_ok rs /\ map (fun q => psdim (q_point_set q)) rs = map spatial_dimension cs /\ length rs = length cs /\
    NoDup (map ix_id (flat_map (fun q => ps_indices (q_point_set q)) rs)) /\
    forall i, In i (flat_map (fun q => ps_indices (q_point_set q)) rs) -> n <= ix_id i < n'.
  Proof using Type.
    intros cs rs n n' H. induction H as [n|c cs r rs n n1 n' (H1 & H2 & H3 & H4 & H5) H (I1 & I2 & I3 & I4 & I5 & I6)].
    - repeat split; try constructor; try lia; destruct H.
    - split; [lia|]. split; [constructor; assumption|]. split; [cbn [map]; rewrite H3, I3; reflexivity|].
      split; [simpl; lia|]. cbn [flat_map]. split.
      + rewrite map_app. apply NoDup_app_intro; [exact H4 | exact I5|].
        intros x Hx Hy. apply in_map_iff in Hx as (i & <- & Hi). apply in_map_iff in Hy as (j & Ej & Hj).
        apply H5 in Hi. apply I6 in Hj. lia.
      + intros i Hi. apply in_app_iff in Hi as [Hi|Hi]; [apply H5 in Hi | apply I6 in Hi]; lia.
  Qed.

  Lemma map2F_cons : forall A B C (f : A -> B -> fresh C) x xs y ys n z n',
    map2F f (x :: xs) (y :: ys) n = Ok (z, n') ->
    exists c n1 cs, f x y n = Ok (c, n1) /\ map2F f xs ys n1 = Ok (cs, n') /\ z = c :: cs.
  Proof using Type.
    intros A B C f x xs y ys n z n' H. cbn [map2F] in H. apply fbind_ok in H as (c & n1 & E1 & H).
    apply fbind_ok in H as (cs & n2 & E2 & H). injection H as <- <-. exists c, n1, cs. auto.
  Qed.

  Lemma tensor_wf : forall cs rs n n', cs <> [] -> chain cs rs n n' -> fresh_rule (TPCell cs) (QTensor rs) n n'.
  Proof using Type.
    intros cs rs n n' Hne H. apply chain_facts in H as (H1 & H2 & H3 & H4 & H5 & H6).
    split; [exact H1|]. split; [constructor; [destruct rs; [destruct cs; [congruence|discriminate]|discriminate] | exact H2]|].
    split; [cbn [q_point_set]; cbn [psdim]; rewrite map_map, H3; cbn [spatial_dimension]; reflexivity|].
    unfold distinct_indices. cbn [q_point_set ps_indices]. rewrite flat_map_map. split; assumption.
  Qed.

  Lemma make_wf : forall c deg s n r n', no_empty_product c -> make c deg s n = Ok (r, n') -> fresh_rule c r n n'.
  Proof using vars Hgl Hsch.
    induction c as [d|cs IH|d] using cell_ind'; intros deg s n r n' Hne H.
    - apply simple_wf in H as [H _]. exact H.
    - cbn [make_quadrature] in H. apply fbind_ok in H as (ds & n1 & E1 & H). unfold flift in E1.
      destruct (split_degree (length cs) deg) as [ds'|] eqn:Es; [|discriminate]. cbn in E1. injection E1 as -> <-.
      apply split_degree_ok in Es as [Ls _]. apply fbind_ok in H as (rs & n2 & E2 & H). injection H as <- <-.
      inversion Hne as [| |? Hcs HF]; subst. apply tensor_wf; [exact Hcs|]. clear Hcs Hne.
      revert ds Ls n rs n2 E2. induction IH as [|c cs Hc IH IHcs]; intros [|d ds] Ls n rs n2 E2; try discriminate.
      + injection E2 as <- <-. constructor.
      + apply map2F_cons in E2 as (r & n1 & rs' & Er & E2 & ->). inversion HF; subst.
        econstructor; [eapply Hc; [assumption | exact Er]|]. eapply IHcs; [assumption | | exact E2]. simpl in Ls. lia.
    - destruct d as [|[|[|d]]].
      + apply simple_wf in H as [H _]. exact H.
      + apply simple_wf in H as [H _]. exact H.
      + cbn [make_quadrature] in H. apply fbind_ok in H as (ds & n1 & E1 & H). unfold flift in E1.
        destruct (split_degree 2 deg) as [ds'|] eqn:Es; [|discriminate]. cbn in E1. injection E1 as -> <-.
        apply split_degree_ok in Es as [Ls _]. apply fbind_ok in H as (rs & n2 & E2 & H). injection H as <- <-.
        destruct ds as [|d1 [|d2 [|]]]; try discriminate.
        apply map2F_cons in E2 as (r1 & n3 & rs' & Er & E2 & ->). apply map2F_cons in E2 as (r2 & n4 & rs'' & Er2 & E2 & ->).
        injection E2 as <- <-.
        assert (G : fresh_rule (TPCell [Simplex 1; Simplex 1]) (QTensor [r1; r2]) n n4).
        { apply tensor_wf; [discriminate|]. apply simple_wf in Er as [Er _]. apply simple_wf in Er2 as [Er2 _].
          econstructor; [exact Er|]. econstructor; [exact Er2|]. constructor. }
        exact G.
      + apply simple_wf in H as [H _]. exact H.
  Qed.

  Lemma quad_ext : forall r w f g, rule_ok r -> distinct_indices (q_point_set r) ->
    (forall p, length p = psdim (q_point_set r) -> f p = g p) -> forall env, quad (q_point_set r) w f env = quad (q_point_set r) w g env.
  Proof using Type.
    intros r w f g Hr Hd H env. rewrite !quad_upds. apply fsum_ext. intros vs Hvs. f_equal. apply H.
    apply pt_at_length; [apply (rule_ps_ok r Hr) | apply upds_env_ok; assumption].
  Qed.

  Lemma quad_add : forall ps w f g env, quad ps w (fun p => fadd o (f p) (g p)) env = fadd o (quad ps w f env) (quad ps w g env).
  Proof using R.
    Add Ring FR3 : R.
    intros ps w f g env. rewrite !quad_upds. rewrite <- fsum_add by exact R. apply fsum_ext. intros vs _. clear -R. ring.
  Qed.

  Lemma quad_zero : forall ps w env, quad ps w (fun _ => f0 o) env = f0 o.
  Proof using R.
    intros ps w env. rewrite quad_upds. etransitivity; [|apply (fsum_0 o R _ (cart (qexts (ps_indices ps))))]. apply fsum_ext. intros vs _. clear -R. ring.
  Qed.

  Definition exact_on (c : cell) (deg : qdeg) (g : list F -> F) (I : F) : Prop :=
    no_empty_product c -> forall s n r n', make c deg s n = Ok (r, n') ->
    exists w, q_weight r = Ok w /\ forall env, quad (q_point_set r) w g env = I.

  Lemma exactness : forall c deg g I, integrates o poly c deg g I -> exact_on c deg g I.
  Proof using R Hgl Hsch.
    apply (integrates_mut _ o poly exact_on
      (fun cs ds fs Is => Forall no_empty_product cs -> length ds = length cs /\ length fs = length cs /\ length Is = length cs /\
         forall s n rs n', map2F (fun c d => make c d s) cs ds n = Ok (rs, n') ->
         forall ws, Forall2 (fun q w => q_weight q = Ok w) rs ws -> forall env,
           map (fun x => quad (q_point_set (fst (fst x))) (snd (fst x)) (snd x) env) (combine (combine rs ws) fs) = Is)).
    - intros c d f I Hc Hq Hp _ s n r n' H.
      assert (E : make c (QInt (Z.of_nat d)) s n = simple c (QInt (Z.of_nat d)) s n).
      { destruct c as [k|cs|[|[|[|k]]]]; try reflexivity; [destruct (Hc cs eq_refl) | congruence]. }
      rewrite E in H. apply simple_wf in H as [(_ & Hr & _) (d' & Ed & Hx)]. injection Ed as Ed. apply Nat2Z.inj in Ed as <-.
      destruct (rule_weight r Hr) as (w & Ew & _). exists w. split; [exact Ew|]. intros env.
      destruct (Hx f I Hp env) as (w' & Ew' & V). congruence.
    - intros cs deg ds fs Is g Hdeg _ IH Hsep Hne s n r n' H. pose proof (make_wf _ _ _ _ _ _ Hne H) as (_ & Hr & _ & Hd & _).
      inversion Hne as [| |? Hcs HF]; subst.
      cbn [make_quadrature] in H. apply fbind_ok in H as (ds' & n1 & E1 & H). unfold flift in E1.
      destruct (split_degree (length cs) deg) as [ds''|] eqn:Es; [|discriminate]. cbn in E1. injection E1 as -> <-.
      apply split_degree_ok in Es as [Ls Es]. apply fbind_ok in H as (rs & n2 & E2 & H). injection H as <- <-.
      assert (ds' = ds) as ->.
      { destruct Hdeg as [->|(d & -> & ->)], Es as [Es|(d' & Ed & ->)]; try congruence. }
      destruct (IH HF) as (L1 & L2 & L3 & Hq). clear IH.
      assert (Hch : map (fun q => psdim (q_point_set q)) rs = map spatial_dimension cs /\ length rs = length cs).
      { clear - vars E2 HF L1 Hgl Hsch. revert ds L1 n rs n2 E2. induction HF as [|c cs Hc HF IH]; intros [|d ds] L1 n rs n2 E2; try discriminate.
        - injection E2 as <- <-. auto.
        - apply map2F_cons in E2 as (r & n1 & rs' & Er & E2 & ->). apply IH in E2 as [E3 E4]; [|simpl in L1; lia].
          apply make_wf in Er as (_ & _ & Er & _); [|exact Hc]. cbn [map length]. rewrite Er, E3, E4. auto. }
      destruct Hch as [Hdim Lr]. inversion Hr as [|? Hrs HFr]; subst.
      destruct (tensor_quad o vars R rs fs g) as (ws & w & Hws & Ew & V); [exact Hrs | exact HFr | exact Hd | unfold rps; rewrite Hdim; exact Hsep|].
      exists w. split; [exact Ew|]. intros env. unfold rps in V. rewrite V. f_equal. eapply Hq; [exact E2 | exact Hws].
    - intros deg g I _ IH _ s n r n' H. rewrite make_quadrilateral in H.
      refine (IH _ s n r n' H). apply ne_product; [discriminate | repeat constructor].
    - intros c deg g Hg Hne s n r n' H. apply make_wf in H as (_ & Hr & Hdim & Hd & _); [|exact Hne].
      destruct (rule_weight r Hr) as (w & Ew & _). exists w. split; [exact Ew|]. intros env.
      rewrite (quad_ext r w g (fun _ => f0 o)); [apply quad_zero | exact Hr | exact Hd | rewrite Hdim; exact Hg].
    - intros c deg f g h I J _ IHf _ IHg Hh Hne s n r n' H. 
      destruct (IHf Hne s n r n' H) as (w & Ew & V1). destruct (IHg Hne s n r n' H) as (w' & Ew' & V2).
      assert (w' = w) as -> by congruence. apply make_wf in H as (_ & Hr & Hdim & Hd & _); [|exact Hne].
      exists w. split; [exact Ew|]. intros env.
      rewrite (quad_ext r w h (fun p => fadd o (f p) (g p))); [|exact Hr | exact Hd | rewrite Hdim; exact Hh].
      rewrite quad_add, V1, V2. reflexivity.
    - intros _. repeat split. intros s n rs n' H ws Hws env. injection H as <- <-. reflexivity.
    - intros c cs d ds f fs I Is _ IH _ IHs HF. inversion HF as [|? ? Hc HF']; subst. destruct (IHs HF') as (L1 & L2 & L3 & Hq).
      split; [simpl; lia|]. split; [simpl; lia|]. split; [simpl; lia|].
      intros s n rs n' E ws Hws env. apply map2F_cons in E as (r & n1 & rs' & Er & E & ->).
      inversion Hws as [|? w ? ws' Hw Hws']; subst. cbn [combine map fst snd]. f_equal.
      + destruct (IH Hc s n r n1 Er) as (w' & Ew & V). assert (w' = w) as -> by congruence. apply V.
      + eapply Hq; [exact E | exact Hws'].
  Qed.


  Lemma line_points : forall c d s n, is_line c = true -> macro c = false -> (0 <= d)%Z ->
    exists m i w, make c (QInt d) s n = Ok (QRule (PPoints PGaussLegendre (spatial_dimension c) (fst (gl c m)) [i]) w, S n) /\
      w = snd (gl c m) /\ length (fst (gl c m)) = m /\ ix_extent i = m /\
      (d <= 2 * Z.of_nat m - 1)%Z /\ forall k, (d <= 2 * Z.of_nat k - 1)%Z -> m <= k.
  Proof using Hgl.
    intros c d s n Hl Hm Hd. assert (exists k, c = Simplex k) as (k & ->) by (destruct c as [k|?|?]; [exists k; reflexivity | discriminate | discriminate]).
    cbn [make_quadrature]. unfold simple_quadrature. rewrite (proj2 (Z.ltb_ge d 0) Hd), Hl, Hm. cbn [negb andb].
    set (m := Z.to_nat ((d + 1 + 1) / 2)).
    assert (Hm' : 1 <= m /\ (d <= 2 * Z.of_nat m - 1)%Z /\ forall k, (d <= 2 * Z.of_nat k - 1)%Z -> m <= k).
    { unfold m. pose proof (Z.div_mod (d + 1 + 1) 2 ltac:(lia)). pose proof (Z.mod_pos_bound (d + 1 + 1) 2 ltac:(lia)). repeat split; intros; lia. }
    destruct (Hgl (Simplex k) m Hl (proj1 Hm')) as (Hr & Lm & _). destruct Hr as (Hne & Hw & _).
    exists m, (n, m), (snd (gl (Simplex k) m)).
    split; [|repeat split; auto; apply Hm'].
    unfold fbind. rewrite new_indices_eq. unfold flift, mk_qrule, ps_len. cbn [ps_points bind]. rewrite Hw, Nat.eqb_refl. cbn [guard bind].
    cbn [ixs combine seq length]. rewrite Lm. rewrite Nat.add_1_r. reflexivity.
  Qed.

  Lemma negative_degree : forall c d s n, (d < 0)%Z -> no_empty_product c -> make c (QInt d) s n = Err ValueError.
  Proof using Type.
    intros c d s n Hd. revert n. assert (S : forall c n, simple c (QInt d) s n = Err ValueError).
    { intros c' n. unfold simple_quadrature. rewrite (proj2 (Z.ltb_lt d 0) Hd). reflexivity. }
    induction c as [k|cs IH|k] using cell_ind'; intros n Hne; [apply S| |].
    - inversion Hne as [| |? Hcs HF]; subst. cbn [make_quadrature]. unfold split_degree. rewrite repeat_length, Nat.eqb_refl. cbn [guard bind].
      rewrite (fbind_eq _ _ _ _ _ _ n eq_refl). destruct cs as [|c cs]; [congruence|]. cbn [length repeat map2F]. unfold fbind.
      inversion IH; inversion HF; subst. rewrite H1 by assumption. reflexivity.
    - destruct k as [|[|[|k]]]; try apply S. cbn [make_quadrature]. unfold fbind, flift, split_degree. cbn [repeat length Nat.eqb guard bind map2F].
      unfold fbind. rewrite S. reflexivity.
  Qed.

  Lemma tuple_degree_error : forall c ds s n, (forall cs, c <> TPCell cs) -> c <> Hypercube 2 ->
    make c (QTuple ds) s n = Err TypeError.
  Proof using Type. intros c ds s n H1 H2. destruct c as [k|cs|[|[|[|k]]]]; try reflexivity; [destruct (H1 cs eq_refl) | congruence]. Qed.

  Lemma tuple_length_error : forall cs ds s n, length ds <> length cs -> make (TPCell cs) (QTuple ds) s n = Err AssertionError.
  Proof using Type.
    intros cs ds s n H. cbn [make_quadrature]. unfold fbind, flift, split_degree.
    destruct (Nat.eqb_spec (length cs) (length ds)) as [E|]; [congruence | reflexivity].
  Qed.

  Lemma distribution : forall cs deg s n r n', make (TPCell cs) deg s n = Ok (r, n') ->
    exists ds rs, r = QTensor rs /\ length rs = length cs /\ length ds = length cs /\
      (deg = QTuple ds \/ exists d, deg = QInt d /\ ds = repeat (QInt d) (length cs)) /\
      forall k c d q, nth_error cs k = Some c -> nth_error ds k = Some d -> nth_error rs k = Some q ->
        exists m m', make c d s m = Ok (q, m').
  Proof using Type.
    intros cs deg s n r n' H. cbn [make_quadrature] in H. apply fbind_ok in H as (ds & n1 & E1 & H). unfold flift in E1.
    destruct (split_degree (length cs) deg) as [ds'|] eqn:Es; [|discriminate]. cbn in E1. injection E1 as -> <-.
    apply split_degree_ok in Es as [Ls Es]. apply fbind_ok in H as (rs & n2 & E2 & H). injection H as <- <-.
    exists ds, rs. split; [reflexivity|].
    enough (G : length rs = length cs /\ forall k c d q, nth_error cs k = Some c -> nth_error ds k = Some d -> nth_error rs k = Some q ->
        exists m m', make c d s m = Ok (q, m')) by (destruct G; auto). clear Es.
    revert ds Ls n rs n2 E2. induction cs as [|c cs IH]; intros [|d ds] Ls n rs n2 E2; try discriminate.
    - injection E2 as <- <-. split; [reflexivity|]. intros [|k] ? ? ? H; discriminate.
    - apply map2F_cons in E2 as (r & n1 & rs' & Er & E2 & ->). apply IH in E2 as [L H]; [|simpl in Ls; lia].
      split; [simpl; lia|]. intros [|k] c' d' q Hc Hd Hq; cbn [nth_error] in *; [|eapply H; eassumption].
      injection Hc as <-. injection Hd as <-. injection Hq as <-. eauto.
  Qed.

  Lemma simple_total : forall c d s n, (forall d', exists r, sch c d' s = Ok r) ->
    exists r n', simple c (QInt (Z.of_nat d)) s n = Ok (r, n').
  Proof using Hgl Hsch.
    intros c d s n Ht. unfold simple_quadrature. destruct (Z.ltb_spec (Z.of_nat d) 0) as [|_]; [lia|].
    destruct (is_line c && negb (macro c)) eqn:Hl.
    - apply andb_prop in Hl as [Hl _]. set (m := Z.to_nat ((Z.of_nat d + 1 + 1) / 2)).
      assert (Hm : 1 <= m). { unfold m. pose proof (Z.div_mod (Z.of_nat d + 1 + 1) 2 ltac:(lia)). pose proof (Z.mod_pos_bound (Z.of_nat d + 1 + 1) 2 ltac:(lia)). lia. }
      destruct (Hgl c m Hl Hm) as ((_ & Hw & _) & _). unfold fbind. rewrite new_indices_eq. unfold flift, mk_qrule, ps_len. cbn [ps_points bind].
      rewrite Hw, Nat.eqb_refl. cbn [guard bind]. eauto.
    - destruct (Ht (Z.to_nat (Z.of_nat d))) as (r & Er). destruct (Hsch _ _ _ _ Er) as ((_ & Hw & _) & _).
      rewrite (fbind_eq _ _ _ _ _ _ _ (flift_eq _ _ _ n Er)). unfold fbind. rewrite new_indices_eq. unfold flift, mk_qrule, ps_len. cbn [ps_points bind].
      rewrite Hw, Nat.eqb_refl. cbn [guard bind]. eauto.
  Qed.

  Lemma make_total : forall s, (forall c d, exists r, sch c d s = Ok r) ->
    forall c deg, degree_fits c deg -> forall n, exists r n', make c deg s n = Ok (r, n').
  Proof using Hgl Hsch.
    intros s Ht.
    assert (MF : forall cs ds, Forall2 (fun c d => forall n, exists r n', make c d s n = Ok (r, n')) cs ds ->
       forall n, exists rs n', map2F (fun c d => make c d s) cs ds n = Ok (rs, n')).
    { intros cs ds H. induction H as [|c d cs ds Hc H IH]; intros n; [cbn; unfold fret; eauto|]. cbn [map2F].
      destruct (Hc n) as (r & n1 & E). rewrite (fbind_eq _ _ _ _ _ _ _ E). destruct (IH n1) as (rs & n2 & E'). rewrite (fbind_eq _ _ _ _ _ _ _ E').
      unfold fret. eauto. }
    fix IH 3. intros c deg H. destruct H as [c d H1 H2|cs ds H|cs d H|ds H]; intros n.
    - assert (E : make c (QInt (Z.of_nat d)) s n = simple c (QInt (Z.of_nat d)) s n).
      { destruct c as [k|cs|[|[|[|k]]]]; try reflexivity; [destruct (H1 cs eq_refl) | congruence]. }
      rewrite E. apply simple_total. intros d'. apply Ht.
    - assert (L : length cs = length ds) by (eapply Forall2_length; exact H).
      assert (G : Forall2 (fun c d => forall n, exists r n', make c d s n = Ok (r, n')) cs ds)
        by (clear L; induction H as [|c d cs ds Hc H IHH]; constructor; [apply IH; exact Hc | exact IHH]).
      cbn [make_quadrature]. unfold split_degree. rewrite L, Nat.eqb_refl. cbn [guard bind]. rewrite (fbind_eq _ _ _ _ _ ds n eq_refl).
      destruct (MF cs ds G n) as (rs & n' & E). rewrite (fbind_eq _ _ _ _ _ _ _ E). unfold fret. eauto.
    - assert (G : Forall2 (fun c d => forall n, exists r n', make c d s n = Ok (r, n')) cs (repeat (QInt d) (length cs)))
        by (induction H as [|c cs Hc H IHH]; cbn [length repeat]; constructor; [apply IH; exact Hc | exact IHH]).
      cbn [make_quadrature]. unfold split_degree. rewrite repeat_length, Nat.eqb_refl. cbn [guard bind]. rewrite (fbind_eq _ _ _ _ _ (repeat (QInt d) (length cs)) n eq_refl).
      destruct (MF cs _ G n) as (rs & n' & E). rewrite (fbind_eq _ _ _ _ _ _ _ E). unfold fret. eauto.
    - apply (IH _ _ H n).
  Qed.

  Lemma quad_sum : forall ps w (gs : list (list F -> F)) env,
    quad ps w (fun p => fsum (map (fun g => g p) gs)) env = fsum (map (fun g => quad ps w g env) gs).
  Proof using R.
    intros ps w gs env. induction gs as [|g gs IH]; cbn [map fold_right]; [apply quad_zero|].
    rewrite quad_add, IH. reflexivity.
  Qed.
End Quad2.
