(** Dual evaluation, and nodality of the computed tables. *)
From Coq Require Import String List Arith Lia Bool Ring_theory Ring Permutation.
From Verif Require Import Model.Prelude Model.Cell Model.Element Model.EntityMaps Model.Gem Model.PointSet Model.Evaluation Model.Dual.
From Verif Require Import Spec.Rowmajor Spec.EntityDofs Spec.Layout Spec.Tabulation Spec.Quadrature Spec.Dual.
From Verif Require Import Proofs.Lists Proofs.Cells Proofs.Closure Proofs.EntityDofs Proofs.EntityDofs2 Proofs.GemEval Proofs.Tables Proofs.Tables2 Proofs.Tables3.
From Verif Require Import Proofs.Factor Proofs.Tree Proofs.Single Proofs.Sums Proofs.Quad Proofs.DualLeaf Proofs.DualStep Proofs.DualTree Proofs.Nodal.
Import ListNotations.
Open Scope fresh_scope.

Lemma exts_ixs : forall n sh, map (fun i => seq 0 (ix_extent i)) (ixs n sh) = map (seq 0) sh.
Proof. intros n sh. rewrite <- (ixs_extents n sh) at 2. rewrite map_map. reflexivity. Qed.

Lemma vals_ext : forall (l : list ix) (env env' : nat -> nat), (forall x, In x (map ix_id l) -> env x = env' x) ->
  map (fun i => env (ix_id i)) l = map (fun i => env' (ix_id i)) l.
Proof. intros l env env' H. apply map_ext_in. intros i Hi. apply H. apply in_map. exact Hi. Qed.

Lemma shape_eqb_refl : forall s, list_eqb Nat.eqb s s = true.
Proof. induction s as [|d s IH]; [reflexivity|]. cbn. rewrite Nat.eqb_refl. exact IH. Qed.

Section Evaluation.
  Context {F : Type} (o : ops F) (vars : string -> list nat -> F).
  Context (R : ring_theory (f0 o) (f1 o) (fadd o) (fmul o) (fsub o) (fopp o) eq).
  Add Ring FRE : R.
  Local Notation eval := (eval o vars).
  Local Notation fsum := (fsum o).
  Local Notation "x * y" := (fmul o x y).

  Lemma base_evaluation_ok : forall spec ish vsh (db : fresh (gem F * pset F)) fn args f Q ps n n1,
    db n = Ok ((Q, ps), n1) -> dual_right o vars spec ish vsh Q ps n n1 ->
    evaluates o vars db n fn vsh args f -> (forall x, In x args -> x < n) ->
    exists g is n', base_dual_evaluation db fn n = Ok ((g, is), n') /\ evaluation_right o vars spec ish args f g is n n'.
  Proof using R.
    intros spec ish vsh db fn args f Q ps n n1 E (Hle & Hsh & Hfr & Hok & Hnd & Hids & Hcon) [Hf Hfn] Hargs.
    destruct (Hfn _ _ _ E) as (x & n2 & Ex & Hle2 & Hxs & Hxf & Hxe).
    unfold base_dual_evaluation. rewrite (fbind_eq _ _ _ _ _ _ _ E). cbn [fst snd]. rewrite (fbind_eq _ _ _ _ _ _ _ Ex). cbv zeta.
    rewrite Hsh, Hxs, app_length. replace (length ish + length vsh - length vsh) with (length ish) by lia.
    rewrite (skipn_pre _ (length ish) ish vsh eq_refl), (firstn_pre _ (length ish) ish vsh eq_refl).
    rewrite (shape_eqb_refl vsh).
    rewrite (fbind_eq _ _ (flift (guard true AssertionError)) _ _ tt _ eq_refl).
    rewrite (fbind_eq _ _ _ _ _ _ _ (new_indices_eq vsh n2)). set (n3 := n2 + length vsh).
    rewrite (fbind_eq _ _ _ _ _ _ _ (new_indices_eq ish n3)). set (n4 := n3 + length ish).
    unfold flift. rewrite mk_indexed_free by (rewrite map_app, !ixs_extents; symmetry; exact Hsh). cbn [bind].
    rewrite mk_indexed_free by (rewrite ixs_extents; symmetry; exact Hxs). cbn [bind].
    rewrite mk_product_ok by reflexivity. cbn [bind].
    rewrite mk_index_sum_ok; [|reflexivity|].
    2:{ intros y Hy. rewrite map_app in Hy. cbn [gfree]. rewrite !mi_ids_free, map_app, !in_app_iff.
        apply in_app_or in Hy as [Hy|Hy]; [left; left; apply Hfr; exact Hy | right; right; exact Hy]. }
    cbn [bind]. eexists _, _, _. split; [reflexivity|].
    split; [unfold n4, n3; lia|]. split; [reflexivity|]. split; [apply ixs_extents|]. split; [apply ixs_NoDup|].
    split. { intros i Hi. apply (in_map ix_id) in Hi. apply in_ixs_id in Hi. unfold n4, n3 in *. lia. }
    split.
    { intros y. cbn [gfree]. rewrite in_remove_ids, !mi_ids_free, !map_app, !in_app_iff. intros [Hy Hn].
      destruct Hy as [[Hy|[Hy|Hy]]|[Hy|Hy]].
      - exfalso. apply Hn. left. apply Hfr. exact Hy.
      - left. exact Hy.
      - exfalso. apply Hn. right. exact Hy.
      - apply Hxf in Hy as [Hy|Hy]; [exfalso; apply Hn; left; exact Hy | right; exact Hy].
      - exfalso. apply Hn. right. exact Hy. }
    intros env b Hb Hbs. destruct (Hcon b Hbs) as (ts & Hts & Hct). exists ts. split; [exact Hts|].
    rewrite <- (Hct (f env) env), contract_upds. cbn [Gem.eval].
    set (I1 := ps_indices ps) in *.
    assert (Eq : cart (map (fun i => seq 0 (ix_extent i)) (I1 ++ ixs n2 vsh))
        = flat_map (fun a => map (app a) (cart (map (seq 0) vsh))) (cart (qexts I1))).
    { rewrite map_app, cart_app, exts_ixs. reflexivity. }
    rewrite Eq, map_flat_map, (fsum_flat_map o R). apply fsum_ext. intros a Ha. pose proof (in_cart_length _ _ Ha) as La. rewrite map_map.
    apply fsum_ext. intros v Hv. apply in_cart_seq in Hv. rewrite upds_app by exact La.
    set (e1 := upds env I1 a). set (e := upds e1 (ixs n2 vsh) v).
    assert (He1 : env_ok ps e1) by (apply upds_env_ok; [exact Ha | exact Hnd]).
    assert (Hag : forall y, In y (map ix_id I1) -> e y = e1 y).
    { intros y Hy. unfold e. apply upds_notin. rewrite in_ixs_id. apply in_map_iff in Hy as (i & <- & Hi). apply Hids in Hi. lia. }
    assert (Hold : forall y, y < n \/ n3 <= y -> e y = env y).
    { intros y Hy. unfold e, e1. rewrite !upds_notin; [reflexivity | | rewrite in_ixs_id; unfold n3 in Hy; lia].
      intros Hin. apply in_map_iff in Hin as (i & <- & Hi). apply Hids in Hi. unfold n3 in Hy. lia. }
    assert (Hvv : map (fun i => e (ix_id i)) (ixs n2 vsh) = v).
    { apply upds_vals; [apply ixs_NoDup|]. rewrite ixs_length. symmetry. apply in_shape_length. exact Hv. }
    rewrite !map_map, !map_app. cbn [gidx_val]. rewrite Hvv.
    assert (Hbb : map (fun i => e (ix_id i)) (ixs n3 ish) = b).
    { rewrite <- Hb. apply vals_ext. intros y Hy. apply in_ixs_id in Hy. apply Hold. lia. }
    rewrite Hbb. f_equal.
    - apply eval_ext. intros y Hy. apply Hag. apply Hfr. exact Hy.
    - rewrite Hxe; [|intros i Hi; rewrite Hag by (apply in_map; exact Hi); apply He1; exact Hi | exact Hv].
      rewrite (pt_at_ext ps e e1) by (intros i Hi; apply Hag, in_map, Hi).
      apply Hf. intros y Hy. apply Hold. left. apply Hargs. exact Hy.
  Qed.

  Lemma tensor_evaluation_ok : forall spec ish vsh shape (tr : bool) (db : fresh (gem F * pset F)) fn args f Q tQ ps n n0 n1, 
    n <= n0 -> n0 <= n1 -> db n = Ok ((tQ, ps), n1) -> dual_right o vars spec ish vsh Q ps n n0 ->
    gshape tQ = (if tr then shape ++ ish else ish ++ shape) ++ shape ++ vsh ->
    (forall x, In x (gfree tQ) <-> In x (gfree Q)) ->
    (forall env b s t v, length b = length ish -> length s = length shape -> length t = length shape -> length v = length vsh ->
        eval tQ env ((if tr then s ++ b else b ++ s) ++ t ++ v)
        = if list_eq_dec Nat.eq_dec s t then eval Q env (b ++ v) else f0 o) ->
    evaluates o vars db n fn (shape ++ vsh) args f -> (forall x, In x args -> x < n) ->
    exists g is n', tensor_dual_evaluation ish vsh shape tr db fn n = Ok ((g, is), n') /\
      evaluation_right o vars (fun b ts => exists i s ts0, b = i ++ s /\ in_shape ish i /\ in_shape shape s /\ spec i ts0 /\
          ts = map (fun t => mkTerm (t_w t) (t_pt t) (s ++ t_cmp t)) ts0)
        (ish ++ shape) args f g is n n'.
  Proof using R.
    intros spec ish vsh shape tr db fn args f Q tQ ps n n0 n1 Hn0 Hn1 E (Hle & Hsh & Hfr & Hok & Hnd & Hids & Hcon) Htsh Htfr Htev [Hf Hfn] Hargs.
    destruct (Hfn _ _ _ E) as (x & n2 & Ex & Hle2 & Hxs & Hxf & Hxe).
    unfold tensor_dual_evaluation. rewrite (fbind_eq _ _ _ _ _ _ _ E). cbn [fst snd]. rewrite (fbind_eq _ _ _ _ _ _ _ Ex).
    rewrite Hxs, (shape_eqb_refl (shape ++ vsh)).
    rewrite (fbind_eq _ _ (flift (guard true AssertionError)) _ _ tt _ eq_refl).
    rewrite (fbind_eq _ _ _ _ _ _ _ (new_indices_eq ish n2)). set (m1 := n2 + length ish).
    rewrite (fbind_eq _ _ _ _ _ _ _ (new_indices_eq vsh m1)). set (m2 := m1 + length vsh).
    rewrite (fbind_eq _ _ _ _ _ _ _ (new_indices_eq shape m2)). set (m3 := m2 + length shape).
    rewrite (fbind_eq _ _ _ _ _ _ _ (new_indices_eq shape m3)). set (m4 := m3 + length shape). cbv zeta.
    set (ordering := if tr then ixs m2 shape ++ ixs n2 ish ++ ixs m3 shape ++ ixs m1 vsh
                     else ixs n2 ish ++ ixs m2 shape ++ ixs m3 shape ++ ixs m1 vsh).
    unfold flift. rewrite mk_indexed_free.
    2:{ rewrite Htsh. unfold ordering. destruct tr; rewrite !map_app, !ixs_extents, <- ?app_assoc; reflexivity. }
    cbn [bind]. rewrite mk_indexed_free by (rewrite map_app, !ixs_extents; symmetry; exact Hxs). cbn [bind].
    rewrite mk_product_ok by reflexivity. cbn [bind].
    assert (Hord : forall y, In y (map ix_id ordering) <-> n2 <= y < m4).
    { intros y. unfold ordering. destruct tr; rewrite !map_app, !in_app_iff, !in_ixs_id; unfold m4, m3, m2, m1; lia. }
    rewrite mk_index_sum_ok; [|reflexivity|].
    2:{ intros y Hy. rewrite !map_app in Hy. cbn [gfree]. rewrite !mi_ids_free, map_app, !in_app_iff, Hord, !in_ixs_id.
        rewrite !in_app_iff, !in_ixs_id in Hy. destruct Hy as [Hy|Hy]; [left; left; apply Htfr, Hfr; exact Hy | left; right; unfold m4, m3, m2, m1 in *; lia]. }
    cbn [bind]. eexists _, _, _. split; [reflexivity|].
    split; [unfold m4, m3, m2, m1; lia|]. split; [reflexivity|]. split; [rewrite map_app, !ixs_extents; reflexivity|].
    split.
    { rewrite map_app. apply NoDup_app_intro; [apply ixs_NoDup | apply ixs_NoDup|]. intros y. rewrite !in_ixs_id. unfold m3, m2, m1. lia. }
    split. { intros i Hi. apply (in_map ix_id) in Hi. rewrite map_app, in_app_iff, !in_ixs_id in Hi. unfold m4, m3, m2, m1 in *. lia. }
    split.
    { intros y. cbn [gfree]. rewrite in_remove_ids, !mi_ids_free, !map_app, !in_app_iff, Hord, !in_ixs_id. intros [Hy Hn].
      destruct Hy as [[Hy|Hy]|[Hy|Hy]].
      - exfalso. apply Hn. left. apply Hfr, Htfr. exact Hy.
      - left. unfold m4, m3, m2, m1 in *. lia.
      - apply Hxf in Hy as [Hy|Hy]; [exfalso; apply Hn; left; exact Hy | right; exact Hy].
      - exfalso. apply Hn. right. lia. }
    intros env b Hb Hbs. apply in_shape_app_inv in Hbs as (i & t & -> & Hi & Ht).
    destruct (Hcon i Hi) as (ts & Hts & Hct).
    eexists. split; [exists i, t, ts; split; [reflexivity|]; split; [exact Hi|]; split; [exact Ht|]; split; [exact Hts | reflexivity]|].
    rewrite map_app in Hb. apply app_inj_len in Hb as [Hbi Hbt]; [|rewrite map_length, ixs_length; apply in_shape_length; exact Hi].
    transitivity (apply_terms o ts (fun p v => f env p (t ++ v))).
    2:{ unfold apply_terms. rewrite map_map. reflexivity. }
    set (G := fun p v => f env p (t ++ v)). rewrite <- (Hct G env), contract_upds. unfold G. clear G. cbn [Gem.eval].
    set (I1 := ps_indices ps) in *.
    assert (Eq : cart (map (fun i => seq 0 (ix_extent i)) (I1 ++ ixs m1 vsh ++ ixs m2 shape))
        = flat_map (fun a => map (app a) (flat_map (fun v => map (app v) (cart (map (seq 0) shape))) (cart (map (seq 0) vsh)))) (cart (qexts I1))).
    { rewrite map_app, cart_app. f_equal. rewrite map_app, cart_app, !exts_ixs. reflexivity. }
    rewrite Eq, map_flat_map, (fsum_flat_map o R). apply fsum_ext. intros a Ha. pose proof (in_cart_length _ _ Ha) as La. rewrite map_map.
    rewrite map_flat_map, (fsum_flat_map o R). apply fsum_ext. intros v Hv. apply in_cart_seq in Hv. rewrite map_map.
    pose proof (in_shape_length _ _ Hv) as Lv.
    set (e1 := upds env I1 a).
    assert (He1 : env_ok ps e1) by (apply upds_env_ok; [exact Ha | exact Hnd]).
    rewrite <- (fsum_single o R _ (list_eq_dec Nat.eq_dec) (fun s => eval Q e1 (i ++ v) * f env (pt_at ps e1) (s ++ v)) (cart (map (seq 0) shape)) t);
      [|apply cart_seq_NoDup | apply in_cart_seq; exact Ht].
    apply fsum_ext. intros s Hs. apply in_cart_seq in Hs. pose proof (in_shape_length _ _ Hs) as Ls.
    rewrite upds_app by exact La. fold e1. rewrite upds_app by (rewrite ixs_length; symmetry; exact Lv).
    set (e2 := upds e1 (ixs m1 vsh) v). set (e := upds e2 (ixs m2 shape) s).
    assert (Hag : forall y, In y (map ix_id I1) -> e y = e1 y).
    { intros y Hy. apply in_map_iff in Hy as (j & <- & Hj). apply Hids in Hj. unfold e, e2. rewrite !upds_notin; [reflexivity | | ];
        rewrite in_ixs_id; unfold m2, m1; lia. }
    assert (Hold : forall y, y < n \/ n2 <= y < m1 \/ m3 <= y -> e y = env y).
    { intros y Hy. unfold e, e2, e1. rewrite !upds_notin; [reflexivity | | |].
      - intros Hin. apply in_map_iff in Hin as (j & <- & Hj). apply Hids in Hj. unfold m3, m2, m1 in Hy. lia.
      - rewrite in_ixs_id. unfold m3, m2, m1 in *. lia.
      - rewrite in_ixs_id. unfold m3, m2, m1 in *. lia. }
    assert (Hvs : map (fun i => e (ix_id i)) (ixs m2 shape) = s).
    { apply upds_vals; [apply ixs_NoDup|]. rewrite ixs_length. symmetry. exact Ls. }
    assert (Hvv : map (fun i => e (ix_id i)) (ixs m1 vsh) = v).
    { transitivity (map (fun i => e2 (ix_id i)) (ixs m1 vsh)).
      - apply vals_ext. intros y Hy. apply in_ixs_id in Hy. unfold e. apply upds_notin. rewrite in_ixs_id. unfold m2. lia.
      - apply upds_vals; [apply ixs_NoDup|]. rewrite ixs_length. symmetry. exact Lv. }
    assert (Hvi : map (fun i => e (ix_id i)) (ixs n2 ish) = i).
    { rewrite <- Hbi. apply vals_ext. intros y Hy. apply in_ixs_id in Hy. apply Hold. unfold m1. lia. }
    assert (Hvt : map (fun i => e (ix_id i)) (ixs m3 shape) = t).
    { rewrite <- Hbt. apply vals_ext. intros y Hy. apply in_ixs_id in Hy. apply Hold. lia. }
    assert (Eo : map (gidx_val e) (map IFree ordering) = (if tr then s ++ i else i ++ s) ++ t ++ v).
    { rewrite map_map. cbn [gidx_val]. unfold ordering. destruct tr; rewrite !map_app, Hvs, Hvi, Hvt, Hvv, <- !app_assoc; reflexivity. }
    rewrite Eo, Htev by (symmetry; apply in_shape_length; assumption).
    destruct (list_eq_dec Nat.eq_dec s t) as [->|]; [|clear -R; ring]. f_equal.
    - apply eval_ext. intros y Hy. apply Hag, Hfr, Hy.
    - rewrite map_map, map_app. cbn [gidx_val]. rewrite Hvs, Hvv.
      rewrite Hxe; [|intros j Hj; rewrite Hag by (apply in_map; exact Hj); apply He1; exact Hj | apply in_shape_app; assumption].
      rewrite (pt_at_ext ps e e1) by (intros j Hj; apply Hag, in_map, Hj).
      apply Hf. intros y Hy. apply Hold. left. apply Hargs. exact Hy.
  Qed.

  (* ---------------------------------------------------------------- *)
  Context (leaf_dual : leaf F -> fresh (gem F * pset F)).
  Context (leaf_terms : leaf F -> list nat -> list (term F)).
  Local Notation dual_of := (dual_of o leaf_terms).

  Definition plain (e : elt F) : Prop := forall b sh tr, e <> ETensor b sh tr.

  Theorem dual_evaluation_ok : forall e c vs fn args f n, built e -> shaped e -> sumless e ->
    (forall l, leaf_of l e -> leaf_dualises o vars leaf_terms leaf_dual l) ->
    cell_of e = Ok c -> value_shape e = Ok vs -> plain e ->
    evaluates o vars (dual_basis o leaf_dual e) n fn vs args f -> (forall x, In x args -> x < n) ->
    exists g is n', dual_evaluation o leaf_dual e fn n = Ok ((g, is), n') /\
      evaluation_right o vars (dual_of e) (index_shape e) args f g is n n'.
  Proof using R.
    intros e c vs fn args f n HB HS HM HL Hc Hvs Hp Hfn Hargs.
    destruct (tree_dualises o vars R leaf_dual leaf_terms e n c vs (built_checked e HB) HS HM HL Hc Hvs) as (Q & ps & n1 & E & _ & _ & Hr).
    destruct (base_evaluation_ok _ _ _ _ _ _ _ _ _ _ _ E Hr Hfn Hargs) as (g & is & n' & Eg & Hg).
    exists g, is, n'. split; [|exact Hg]. destruct e; try exact Eg. destruct (Hp e shape transpose eq_refl).
  Qed.

  Theorem tensor_dual_evaluation_ok : forall b sh tr c vs fn args f n, let e := ETensor b sh tr in
    built e -> shaped e -> sumless e ->
    (forall l, leaf_of l e -> leaf_dualises o vars leaf_terms leaf_dual l) ->
    cell_of e = Ok c -> value_shape e = Ok vs ->
    evaluates o vars (dual_basis o leaf_dual e) n fn vs args f -> (forall x, In x args -> x < n) ->
    exists g is n', dual_evaluation o leaf_dual e fn n = Ok ((g, is), n') /\
      evaluation_right o vars
        (fun j ts => exists i s, j = i ++ s /\ in_shape (index_shape b) i /\ in_shape sh s /\
           dual_of e (if tr then s ++ i else i ++ s) ts)
        (index_shape b ++ sh) args f g is n n'.
  Proof using R.
    intros b sh tr c vs fn args f n e HB HS HM HL Hc Hvs Hfn Hargs.
    pose proof (built_checked e HB) as HC.
    unfold e in Hc, Hvs. cbn [cell_of] in Hc. cbn [value_shape] in Hvs. apply bind_ok in Hvs as (vb & Hvb & Hvs). injection Hvs as <-.
    destruct (tree_dualises o vars R leaf_dual leaf_terms b n c vb) as (Q & ps & n1 & E & Hfit & Hpd & Hr).
    { eapply checked_sub; [exact HC | intros; constructor; assumption]. }
    { eapply shaped_sub; [exact HS | intros; constructor; assumption | intros; constructor; assumption]. }
    { eapply sumless_sub; [exact HM | intros; constructor; assumption]. }
    { eapply duals_fine_sub; [exact HL | intros; constructor; assumption]. }
    { exact Hc. } { exact Hvb. }
    assert (Hne : sh <> []) by (destruct HS as (_ & S2 & _); eapply S2; apply se_refl).
    pose proof Hr as (Hle & Hsh & Hfr & _ & _ & Hids & _).
    destruct (tensor_dual_ok o vars R (index_shape b) vb sh tr Q n1 Hne Hsh) as (tQ & n2 & E2 & Hle2 & Hsh2 & Hfr2 & Hev).
    { intros x Hx. apply Hfr in Hx. apply in_map_iff in Hx as (i & <- & Hi). apply Hids in Hi. lia. }
    assert (Edb : dual_basis o leaf_dual e n = Ok ((tQ, ps), n2)).
    { unfold e. cbn [Dual.dual_basis]. rewrite (fbind_eq _ _ _ _ _ _ _ E), (fbind_eq _ _ _ _ _ _ _ (flift_eq _ _ _ _ Hvb)). cbn [fst snd].
      rewrite (fbind_eq _ _ _ _ _ _ _ E2). reflexivity. }
    destruct (tensor_evaluation_ok _ _ _ sh tr _ fn args f Q tQ ps n n1 n2 Hle Hle2 Edb Hr Hsh2 Hfr2 Hev Hfn Hargs) as (g & is & n' & Eg & Hg).
    exists g, is, n'. split. { unfold dual_evaluation, e. rewrite Hvb. exact Eg. }
    destruct Hg as (G1 & G2 & G3 & G4 & G5 & G6 & G7). repeat (split; [assumption|]).
    intros env j Hj Hjs. destruct (G7 env j Hj Hjs) as (ts & (i & s & ts0 & -> & Hi & Hs & Hts0 & ->) & Hval).
    eexists. split; [|exact Hval]. exists i, s. split; [reflexivity|]. split; [exact Hi|]. split; [exact Hs|]. unfold e. apply du_tensor; assumption.
  Qed.

  (* ---------------------------------------------------------------- *)
  (** ** Nodality *)

  Lemma contract_ext : forall (ps : pset F) vsh Q f g env b, distinct_indices ps ->
    (forall e v, env_ok ps e -> in_shape vsh v -> f e v = g e v) ->
    contract o vars ps vsh Q f env b = contract o vars ps vsh Q g env b.
  Proof using Type.
    intros ps vsh Q f g env b Hd H. unfold contract. change (fold_right (fadd o) (f0 o)) with fsum.
    apply fsum_ext. intros e He. apply fsum_ext. intros v Hv. f_equal. apply in_cart_seq in Hv. apply H; [|exact Hv].
    unfold assignments in He. apply in_map_iff in He as (vs & <- & Hvs). fold (qexts (ps_indices ps)) in Hvs.
    intros i Hi. rewrite fold_left_upds by (apply in_cart_length; exact Hvs). apply (upds_env_ok ps env vs Hvs Hd i Hi).
  Qed.

  Context {G : Type} (leaf_eval : leaf F -> nat -> pset F -> option (dimkey * nat) -> option G -> fresh (list (list nat * gem F))).

  Theorem tree_nodality : forall e c vs cm n, built e -> shaped e -> sumless e ->
    (forall l, leaf_of l e -> prod (lf_ishape l) = lf_dim l /\ leaf_tabulates o leaf_eval l /\
       leaf_dualises o vars leaf_terms leaf_dual l /\ leaf_nodal o leaf_terms l) ->
    cell_of e = Ok c -> value_shape e = Ok vs ->
    exists Q ps n1 ts n2 T, dual_basis o leaf_dual e n = Ok ((Q, ps), n1) /\
      basis_evaluation o leaf_eval e 0 ps None cm n1 = Ok (ts, n2) /\
      ts = [(repeat 0 (spatial_dimension c), T)] /\
      gshape Q = index_shape e ++ vs /\ gshape T = index_shape e ++ vs /\
      forall env b b', in_shape (index_shape e) b -> in_shape (index_shape e) b' ->
        contract o vars ps vs Q (fun e' v => eval T e' (b' ++ v)) env b
        = if list_eq_dec Nat.eq_dec b b' then f1 o else f0 o.
  Proof using R.
    intros e c vs cm n HB HS HM HL Hc Hvs. pose proof (built_checked e HB) as HC.
    destruct (tree_dualises o vars R leaf_dual leaf_terms e n c vs HC HS HM) as (Q & ps & n1 & E & Hfit & Hpd & Hle & Hsh & Hfr & Hok & Hnd & Hids & Hcon);
      [intros l Hl; apply (HL l Hl) | exact Hc | exact Hvs|].
    destruct (tree_tabulates o R leaf_eval vars e 0 ps None cm n1 c vs HC HS) as (ts & n2 & Et & _ & [[Hkn Hk] Htab]).
    { intros l Hl. split; apply (HL l Hl). }
    { exact Hc. } { exact Hvs. } { exact Hok. }
    { intros i Hi. apply Hids in Hi. lia. }
    { exists 1. split; [apply cell_in_topology | simpl; lia]. }
    { exact Hfit. }
    assert (Hkeys : map fst ts = [repeat 0 (spatial_dimension c)]).
    { assert (Hall : forall a, In a (map fst ts) -> a = repeat 0 (spatial_dimension c)).
      { intros a Ha. apply Hk in Ha as [<- Hs]. clear -Hs. induction a as [|x a IH]; [reflexivity|]. cbn in *. f_equal; [lia|]. apply IH. lia. }
      assert (Hin : In (repeat 0 (spatial_dimension c)) (map fst ts)).
      { apply Hk. split; [apply repeat_length|]. clear. induction (spatial_dimension c); [simpl; lia | exact IHn]. }
      destruct (map fst ts) as [|a [|a' r]]; [destruct Hin | rewrite (Hall a (or_introl eq_refl)); reflexivity|].
      inversion Hkn as [|? ? Hx _]; subst. exfalso. apply Hx. left. rewrite (Hall a'), (Hall a); [reflexivity | left; reflexivity | right; left; reflexivity]. }
    destruct ts as [|[a T] [|? ?]]; try discriminate. cbn [map fst] in Hkeys. injection Hkeys as ->.
    destruct (Htab _ T (or_introl eq_refl)) as [[HTs _] Hval].
    exists Q, ps, n1, [(repeat 0 (spatial_dimension c), T)], n2, T. split; [exact E|]. split; [exact Et|]. split; [reflexivity|]. split; [exact Hsh|]. split; [exact HTs|].
    intros env b b' Hb Hb'.
    assert (HN : leaves_nodal o leaf_terms e).
    { intros l Hl. destruct (HL l Hl) as (H1 & _ & [_ H2] & H3). split; [exact H1|]. split; [exact H2 | exact H3]. }
    destruct (tree_nodal o R leaf_terms e c vs b' HC HS HM HN Hc Hvs Hb') as (f & Hf & Hdf).
    destruct (Hcon b Hb) as (fts & Hfts & Hct).
    transitivity (contract o vars ps vs Q (fun e' v => f (pt_at ps e') v) env b); [|rewrite Hct; apply Hdf; assumption].
    apply contract_ext; [exact Hnd|]. intros e' v He Hv.
    eapply value_unique; [apply (Hval e' b' v He Hb' Hv)|]. apply Hf; [|exact Hv]. rewrite pt_at_length by assumption. exact Hpd.
  Qed.
End Evaluation.
