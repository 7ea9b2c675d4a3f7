(** Dual bases of composite elements in terms of those of their parts. *)
From Coq Require Import String List Arith Lia Bool Ring_theory Ring Permutation.
From Verif Require Import Model.Prelude Model.Cell Model.Element Model.Gem Model.PointSet Model.Evaluation Model.Dual.
From Verif Require Import Spec.Rowmajor Spec.Tabulation Spec.Quadrature Spec.Dual.
From Verif Require Import Proofs.Lists Proofs.Closure Proofs.GemEval Proofs.Tables Proofs.Tables2 Proofs.Sums Proofs.Quad Proofs.DualLeaf.
Import ListNotations.
Open Scope fresh_scope.

(** Shapes, tensor and points of one factor. *)
Record dpart (F : Type) := mkDpart { d_ish : list nat; d_vsh : list nat; d_Q : gem F; d_ps : pset F }.
Arguments mkDpart {F}. Arguments d_ish {F}. Arguments d_vsh {F}. Arguments d_Q {F}. Arguments d_ps {F}.

Section Steps.
  Context {F : Type} (o : ops F) (vars : string -> list nat -> F).
  Context (R : ring_theory (f0 o) (f1 o) (fadd o) (fmul o) (fsub o) (fopp o) eq).
  Add Ring FRD : R.
  Local Notation fsum := (Gem.fsum o).
  Local Notation gem := (gem F).
  Local Notation eval := (eval o vars).
  Local Notation dpart := (dpart F).
  Local Notation "x * y" := (fmul o x y).

  (* ---------------------------------------------------------------- *)
  (** ** Products *)

  Definition as_part (r : dpart) : part F := mkPart 0 (d_ish r) (d_vsh r) [].

  Lemma product_scalars : forall (rs : list dpart) n m, (forall r, In r rs -> gshape (d_Q r) = d_ish r ++ d_vsh r) ->
    mapM (fun x : gem * (list ix * list ix) => mk_indexed (fst x) (map IFree (fst (snd x) ++ snd (snd x))))
      (zip (map d_Q rs) (zip (blocks n (map d_ish rs)) (blocks m (map d_vsh rs))))
    = Ok (scal (map as_part rs) (map d_Q rs) n m).
  Proof using Type.
    induction rs as [|r rs IH]; intros n m H; [reflexivity|]. cbn [map blocks zip mapM scal fst snd as_part p_ish p_vsh].
    rewrite mk_indexed_free by (rewrite map_app, !ixs_extents; symmetry; apply H; left; reflexivity). cbn [bind].
    rewrite IH by (intros r' Hr'; apply H; right; exact Hr'). reflexivity.
  Qed.

  Lemma product_dual_ok : forall (rs : list dpart) n, rs <> [] ->
    (forall r, In r rs -> gshape (d_Q r) = d_ish r ++ d_vsh r /\ forall x, In x (gfree (d_Q r)) -> x < n) ->
    exists Q n', product_dual (map d_ish rs) (map d_vsh rs) (map (fun r => (d_Q r, d_ps r)) rs) n
        = Ok ((Q, PTensor (map d_ps rs)), n') /\
      n <= n' /\ gshape Q = concat (map d_ish rs) ++ concat (map d_vsh rs) /\
      (forall x, In x (gfree Q) <-> exists r, In r rs /\ In x (gfree (d_Q r))) /\
      forall bs vs env, Forall2 (fun r b => length b = length (d_ish r)) rs bs -> Forall2 (fun r v => length v = length (d_vsh r)) rs vs ->
        eval Q env (concat bs ++ concat vs)
        = fold_right (fmul o) (f1 o) (map (fun x => eval (d_Q (fst x)) env (fst (snd x) ++ snd (snd x))) (combine rs (combine bs vs))).
  Proof using R.
    intros rs n Hne Hrs. unfold product_dual. rewrite map_length.
    replace (length rs =? 0) with false by (destruct rs; [congruence | reflexivity]). cbn [negb].
    rewrite (fbind_eq _ _ (flift (guard true ValueError)) _ _ tt _ eq_refl).
    rewrite (fbind_eq _ _ _ _ _ _ _ (mapF_new_indices (map d_ish rs) n)).
    set (LA := length (concat (map d_ish rs))). set (LV := length (concat (map d_vsh rs))).
    rewrite (fbind_eq _ _ _ _ _ _ _ (mapF_new_indices (map d_vsh rs) (n + LA))).
    rewrite !map_map. cbn [fst snd]. change (map (fun x : dpart => d_Q x) rs) with (map d_Q rs).
    rewrite product_scalars by (intros r Hr; apply Hrs; exact Hr). cbn [bind].
    set (sc := scal (map as_part rs) (map d_Q rs) n (n + LA)).
    assert (Eish : map p_ish (map as_part rs) = map d_ish rs) by (rewrite map_map; reflexivity).
    assert (Evsh : map p_vsh (map as_part rs) = map d_vsh rs) by (rewrite map_map; reflexivity).
    assert (Hlen : length (map as_part rs) = length (map d_Q rs)) by (rewrite !map_length; reflexivity).
    assert (Hnes : sc <> []) by (unfold sc; destruct rs; [congruence | discriminate]).
    destruct (reduce_product_ok sc Hnes (scal_shape _ _ _ _)) as (p & Ep & Hsh & Hfr & Hev).
    rewrite Ep. cbn [bind]. rewrite concat_app, !concat_blocks.
    set (bound := ixs n (concat (map d_ish rs)) ++ ixs (n + LA) (concat (map d_vsh rs))).
    assert (Hbound : bound = ixs n (concat (map d_ish rs) ++ concat (map d_vsh rs))) by (unfold bound; rewrite ixs_app; reflexivity).
    assert (Hscf : forall x, In x (gfree p) <-> (exists r, In r rs /\ In x (gfree (d_Q r))) \/ n <= x < n + LA + LV).
    { intros x. rewrite Hfr. unfold sc. rewrite scal_free by exact Hlen. rewrite Eish, Evsh. fold LA LV.
      rewrite in_flat_map. split.
      - intros [(g & Hg & Hx)|H]; [|right; lia]. apply in_map_iff in Hg as (r & <- & Hr). left. exists r. split; assumption.
      - intros [(r & Hr & Hx)|H]; [|right; lia]. left. exists (d_Q r). split; [apply in_map; exact Hr | exact Hx]. }
    rewrite mk_component_tensor_ok; [|exact Hsh|].
    2:{ intros x Hx. apply Hscf. right. rewrite Hbound, in_ixs_id, app_length in Hx. fold LA LV in Hx. lia. }
    cbn [bind]. eexists _, _. split; [reflexivity|]. split; [lia|].
    split; [cbn [gshape]; rewrite Hbound, ixs_extents; reflexivity|]. split.
    { intros x. cbn [gfree]. rewrite in_remove_ids, Hscf, Hbound, in_ixs_id, app_length. fold LA LV. split.
      - intros [[H|H] Hn]; [exact H | lia].
      - intros (r & Hr & Hx). split; [left; exists r; split; assumption|]. apply Hrs in Hx; [lia | exact Hr]. }
    intros bs vs env Hb Hv. cbn [Gem.eval]. rewrite (Hev o vars _ R).
    set (xs := map (fun x => mkShare [] (fst (snd x)) (snd (snd x)) (d_Q (fst x))) (combine rs (combine bs vs))).
    assert (Ex : Forall2 (fun r x => length (x_b x) = length (p_ish r) /\ length (x_v x) = length (p_vsh r)) (map as_part rs) xs /\
                 concat bs = concat (map x_b xs) /\ concat vs = concat (map x_v xs)).
    { unfold xs. clear -Hb Hv. revert vs Hv. induction Hb as [|r b rs bs Lb Hb IH]; intros vs Hv; inversion Hv as [|? v ? vs' Lv Hv']; subst.
      - repeat split; constructor.
      - destruct (IH vs' Hv') as (H1 & H2 & H3). cbn [combine map concat fst snd x_b x_v]. rewrite <- H2, <- H3. repeat split.
        constructor; [split; assumption | exact H1]. }
    destruct Ex as (Hx & Ebs & Evs).
    assert (Lb : length (concat bs) = LA).
    { unfold LA. clear -Hb. induction Hb as [|r b rs bs H Hb IH]; [reflexivity|]. cbn [map concat]. rewrite !app_length, IH, H. reflexivity. }
    assert (Lv : length (concat vs) = LV).
    { unfold LV. clear -Hv. induction Hv as [|r b rs bs H Hb IH]; [reflexivity|]. cbn [map concat]. rewrite !app_length, IH, H. reflexivity. }
    set (env' := upds env bound (concat bs ++ concat vs)).
    assert (Hvals : map env' (seq n LA ++ seq (n + LA) LV) = concat bs ++ concat vs).
    { rewrite <- seq_app. transitivity (map (fun i => env' (ix_id i)) bound).
      - rewrite <- (map_map ix_id env'). rewrite Hbound, ixs_ids, app_length. reflexivity.
      - apply upds_vals; [rewrite Hbound; apply ixs_NoDup|]. rewrite app_length, Lb, Lv, Hbound, ixs_length, app_length. reflexivity. }
    rewrite map_app in Hvals. apply app_inj_len in Hvals as [Hv1 Hv2]; [|rewrite map_length, seq_length; auto].
    unfold sc. rewrite (scal_eval o vars (map as_part rs) (map d_Q rs) xs n (n + LA) env'); trivial.
    2:{ symmetry. exact Hlen. }
    2:{ rewrite Eish. fold LA. congruence. }
    2:{ rewrite Evsh. fold LV. congruence. }
    f_equal. unfold xs.
    assert (Henv : forall r x, In r rs -> In x (gfree (d_Q r)) -> env' x = env x).
    { intros r x Hr Hin. unfold env'. apply upds_notin. rewrite Hbound, in_ixs_id. apply Hrs in Hin; [lia | exact Hr]. }
    clearbody env'. clear -Hb Hv Henv. revert vs Hv. induction Hb as [|r b rs bs Lb Hb IH]; intros vs Hv; inversion Hv as [|? v ? vs' Lv Hv']; subst; [reflexivity|].
    cbn [combine map fst snd x_b x_v]. f_equal; [|apply IH; [intros r' x Hr'; apply Henv; right; exact Hr' | exact Hv']].
    apply eval_ext. intros x Hx. apply (Henv r); [left; reflexivity | exact Hx].
  Qed.

  (** The factors' tensors at one component, sliced. *)
  Fixpoint prodq (rs : list dpart) (bs : list (list nat)) (env : nat -> nat) (v : list nat) : F :=
    match rs, bs with
    | r :: rs', b :: bs' => eval (d_Q r) env (b ++ firstn (length (d_vsh r)) v) * prodq rs' bs' env (skipn (length (d_vsh r)) v)
    | _, _ => f1 o
    end.

  Lemma prodq_slices : forall rs bs vs env, Forall2 (fun r b => length b = length (d_ish r)) rs bs ->
    Forall2 (fun r v => length v = length (d_vsh r)) rs vs ->
    fold_right (fmul o) (f1 o) (map (fun x => eval (d_Q (fst x)) env (fst (snd x) ++ snd (snd x))) (combine rs (combine bs vs)))
    = prodq rs bs env (concat vs).
  Proof using Type.
    intros rs bs vs env Hb. revert vs. induction Hb as [|r b rs bs Lb Hb IH]; intros vs Hv; inversion Hv as [|? v ? vs' Lv Hv']; subst; [reflexivity|].
    cbn [combine map fold_right fst snd prodq concat]. rewrite firstn_app, skipn_app, Lv, Nat.sub_diag, firstn_all2, skipn_all2 by lia.
    cbn [firstn skipn app]. rewrite app_nil_r, IH by exact Hv'. reflexivity.
  Qed.

  Lemma prodq_ext : forall rs bs env env' v, (forall r x, In r rs -> In x (gfree (d_Q r)) -> env x = env' x) -> prodq rs bs env v = prodq rs bs env' v.
  Proof using Type.
    induction rs as [|r rs IH]; intros [|b bs] env env' v H; try reflexivity. cbn [prodq]. f_equal.
    - apply eval_ext. intros x Hx. apply (H r); [left; reflexivity | exact Hx].
    - apply IH. intros r' x Hr'. apply H. right. exact Hr'.
  Qed.

  Lemma apply_merge : forall ts1 tss f,
    apply_terms o (map (merge_terms o) (cart (ts1 :: tss))) f
    = apply_terms o ts1 (fun p v => apply_terms o (map (merge_terms o) (cart tss)) (fun p' v' => f (p ++ p') (v ++ v'))).
  Proof using R.
    intros ts1 tss f. unfold apply_terms. change (fold_right (fadd o) (f0 o)) with fsum. cbn [cart].
    rewrite !map_flat_map, (fsum_flat_map o R). apply fsum_ext. intros t Ht. rewrite !map_map.
    rewrite <- (fsum_mul_l o R). f_equal. apply map_ext. intros ts. unfold merge_terms. cbn [map t_w t_pt t_cmp fold_right concat]. clear -R. ring.
  Qed.

  Definition contracts (r : dpart) (b : list nat) (ts : list (term F)) : Prop :=
    (forall x, In x (gfree (d_Q r)) -> In x (map ix_id (ps_indices (d_ps r)))) /\
    forall f env, contract o vars (d_ps r) (d_vsh r) (d_Q r) (fun e v => f (pt_at (d_ps r) e) v) env b = apply_terms o ts f.

  Lemma product_contract : forall rs bs tss, Forall2 (fun rb ts => contracts (fst rb) (snd rb) ts) (combine rs bs) tss ->
    length bs = length rs ->
    NoDup (map ix_id (flat_map (fun r => ps_indices (d_ps r)) rs)) ->
    forall f env,
    fsum (map (fun a => fsum (map (fun v =>
        prodq rs bs (upds env (flat_map (fun r => ps_indices (d_ps r)) rs) a) v
        * f (concat (map (fun r => pt_at (d_ps r) (upds env (flat_map (fun r => ps_indices (d_ps r)) rs) a)) rs)) v)
      (cart (map (seq 0) (concat (map d_vsh rs)))))) (cart (qexts (flat_map (fun r => ps_indices (d_ps r)) rs))))
    = apply_terms o (map (merge_terms o) (cart tss)) f.
  Proof using R.
    induction rs as [|r rs IH]; intros bs tss H Hl Hnd f env.
    - destruct bs; [|discriminate]. inversion H; subst. cbn. clear -R. ring.
    - destruct bs as [|b bs]; [discriminate|]. cbn [combine] in H. inversion H as [|? ts ? tss' [Hfr Hc] H']; subst. cbn [fst snd] in *.
      simpl in Hl. injection Hl as Hl. cbn [flat_map map concat] in *. rewrite map_app in Hnd. apply NoDup_app_inv in Hnd as (Hnd1 & Hnd2 & Hdis).
      set (I1 := ps_indices (d_ps r)) in *. set (I2 := flat_map (fun r => ps_indices (d_ps r)) rs) in *.
      rewrite apply_merge.
      set (G := fun p v => apply_terms o (map (merge_terms o) (cart tss')) (fun p' v' => f (p ++ p') (v ++ v'))).
      rewrite <- (Hc G env), contract_upds. fold I1. unfold G. clear G.
      assert (Eq : cart (qexts (I1 ++ I2)) = flat_map (fun x => map (app x) (cart (qexts I2))) (cart (qexts I1)))
        by (unfold qexts; rewrite map_app, cart_app; reflexivity).
      rewrite Eq, map_flat_map, (fsum_flat_map o R). clear Eq.
      apply fsum_ext. intros a Ha. apply in_cart_length in Ha. rewrite map_map.
      assert (La : length a = length I1) by exact Ha.
      rewrite map_app, cart_app.
      transitivity (fsum (map (fun v1 => fsum (map (fun a' => fsum (map (fun v' =>
          (eval (d_Q r) (upds env I1 a) (b ++ v1) * prodq rs bs (upds (upds env I1 a) I2 a') v') *
          f (pt_at (d_ps r) (upds env I1 a) ++ concat (map (fun r0 => pt_at (d_ps r0) (upds (upds env I1 a) I2 a')) rs)) (v1 ++ v'))
          (cart (map (seq 0) (concat (map d_vsh rs)))))) (cart (qexts I2)))) (cart (map (seq 0) (d_vsh r))))).
      + symmetry. etransitivity; [apply (fsum_swap o R)|]. apply fsum_ext. intros a' Ha'. symmetry. rewrite map_flat_map, (fsum_flat_map o R).
        apply fsum_ext. intros v1 Hv1. rewrite map_map. apply fsum_ext. intros v' Hv'.
        rewrite upds_app by exact La. set (e1 := upds env I1 a). cbn [prodq].
        apply in_cart_seq, in_shape_length in Hv1. symmetry in Hv1.
        rewrite firstn_app, skipn_app, Hv1, Nat.sub_diag, firstn_all2, skipn_all2 by lia. cbn [firstn skipn app]. rewrite app_nil_r.
        assert (Hag : forall x, In x (map ix_id I1) -> upds e1 I2 a' x = e1 x).
        { intros x Hx. apply upds_notin. intros Hx2. exact (Hdis x Hx Hx2). }
        f_equal; [f_equal|].
        * apply eval_ext. intros x Hx. apply Hag, Hfr, Hx.
        * f_equal. f_equal. apply pt_at_ext. intros i Hi. apply Hag. apply in_map. exact Hi.
      + apply fsum_ext. intros v1 Hv1.
        rewrite <- (IH bs tss' H' Hl Hnd2 (fun p' v' => f (pt_at (d_ps r) (upds env I1 a) ++ p') (v1 ++ v')) (upds env I1 a)).
        rewrite <- (fsum_mul_l o R). f_equal. apply map_ext. intros a'. rewrite <- (fsum_mul_l o R). f_equal. apply map_ext. intros v'. clear -R. ring.
  Qed.

  (* ---------------------------------------------------------------- *)
  (** ** Vector elements *)

  Lemma tensor_dual_ok : forall ish vsh shape (tr : bool) Q n, shape <> [] ->
    gshape Q = ish ++ vsh -> (forall x, In x (gfree Q) -> x < n) ->
    exists tQ n', tensor_dual ish vsh shape tr Q n = Ok (tQ, n') /\ n <= n' /\
      gshape tQ = (if tr then shape ++ ish else ish ++ shape) ++ shape ++ vsh /\
      (forall x, In x (gfree tQ) <-> In x (gfree Q)) /\
      forall env b s t v, length b = length ish -> length s = length shape -> length t = length shape -> length v = length vsh ->
        eval tQ env ((if tr then s ++ b else b ++ s) ++ t ++ v)
        = if list_eq_dec Nat.eq_dec s t then eval Q env (b ++ v) else f0 o.
  Proof using R.
    intros ish vsh shape tr g n Hne Hsh Hids. unfold tensor_dual, fbind. rewrite !new_indices_eq.
    set (n1 := n + length ish). set (n2 := n1 + length vsh). set (n3 := n2 + length shape). set (n4 := n3 + length shape).
    unfold flift.
    destruct (deltas_ok o vars R shape n2 n3 Hne) as (dl & Ed & Hdsh & Hdfr & Hdev). rewrite Ed. cbn [bind].
    set (ordering := if tr then ixs n2 shape ++ ixs n ish ++ ixs n3 shape ++ ixs n1 vsh
                     else ixs n ish ++ ixs n2 shape ++ ixs n3 shape ++ ixs n1 vsh).
    assert (Hids_o : forall x, In x (map ix_id ordering) <-> n <= x < n4).
    { intros x. unfold ordering. destruct tr; rewrite !map_app, !in_app_iff, !in_ixs_id; unfold n4, n3, n2, n1; lia. }
    assert (Hnd : NoDup (map ix_id ordering)).
    { apply (Permutation_NoDup (l := seq n (length ish + length vsh + length shape + length shape))); [|apply seq_NoDup].
      rewrite !seq_app. unfold ordering.
      destruct tr; rewrite !map_app, !ixs_ids; unfold n3, n2, n1; rewrite ?Nat.add_assoc.
      - rewrite <- !app_assoc.
        etransitivity; [apply Permutation_app_comm|]. rewrite <- !app_assoc.
        etransitivity; [apply Permutation_app_comm|]. rewrite <- !app_assoc.
        apply Permutation_app_head.
        etransitivity; [apply Permutation_app_comm|]. rewrite <- !app_assoc.
        apply Permutation_app_head. apply Permutation_app_comm.
      - rewrite <- !app_assoc. apply Permutation_app_head.
        etransitivity; [apply Permutation_app_comm|]. rewrite <- !app_assoc. reflexivity. }
    rewrite mk_indexed_free by (rewrite map_app, !ixs_extents; symmetry; exact Hsh). cbn [bind].
    rewrite mk_product_ok by (exact Hdsh || reflexivity). cbn [bind]. fold ordering.
    rewrite mk_component_tensor_ok; [|reflexivity|].
    2:{ intros x Hx. apply Hids_o in Hx.
        cbn [gfree]. rewrite in_app_iff, Hdfr, mi_ids_free, map_app, !in_app_iff, !in_ixs_id. unfold n4, n3, n2, n1 in *. lia. }
    eexists _, _. split; [reflexivity|]. split; [unfold n4, n3, n2, n1; lia|].
    split; [cbn [gshape]; unfold ordering; destruct tr; rewrite !map_app, !ixs_extents, <- ?app_assoc; reflexivity|].
    split.
    { intros x. cbn [gfree]. rewrite in_remove_ids, Hids_o.
      rewrite in_app_iff, Hdfr, mi_ids_free, map_app, !in_app_iff, !in_ixs_id. split.
      - intros [Hx Hn]. destruct Hx as [[Hx|Hx]|Hx]; [exact Hx| |]; unfold n4, n3, n2, n1 in *; lia.
      - intros Hx. split; [left; left; exact Hx|]. apply Hids in Hx. lia. }
    intros env b s t v Lb Ls Lt Lv. cbn [Gem.eval].
    set (idx := (if tr then s ++ b else b ++ s) ++ t ++ v).
    set (env' := upds env ordering idx).
    assert (Hv : map (fun i => env' (ix_id i)) ordering = idx).
    { apply upds_vals; [exact Hnd|]. unfold idx, ordering. destruct tr; rewrite !app_length, !ixs_length; lia. }
    assert (Hparts : map (fun i => env' (ix_id i)) (ixs n ish) = b /\ map (fun i => env' (ix_id i)) (ixs n2 shape) = s /\
                     map (fun i => env' (ix_id i)) (ixs n3 shape) = t /\ map (fun i => env' (ix_id i)) (ixs n1 vsh) = v).
    { unfold ordering, idx in Hv. destruct tr; rewrite !map_app, <- ?app_assoc in Hv;
        (apply app_inj_len in Hv as [Ha Hv]; [|rewrite map_length, ixs_length; auto]);
        (apply app_inj_len in Hv as [Hb Hv]; [|rewrite map_length, ixs_length; auto]);
        (apply app_inj_len in Hv as [Hc Hv]; [|rewrite map_length, ixs_length; auto]); auto. }
    destruct Hparts as (Pb & Ps & Pt & Pv). rewrite (Hdev env' s t Ps Pt).
    rewrite map_map, map_app. cbn [gidx_val]. rewrite Pb, Pv.
    rewrite (eval_ext o vars g env' env).
    - destruct (list_eq_dec Nat.eq_dec s t); clear -R; ring.
    - intros x Hx. unfold env'. apply upds_notin. rewrite Hids_o. specialize (Hids x Hx). lia.
  Qed.

  Lemma tensor_contract : forall (ps : pset F) vsh shape Q tQ i b s ts,
    in_shape shape s ->
    (forall env t v, in_shape shape t -> in_shape vsh v ->
       eval tQ env (b ++ t ++ v) = if list_eq_dec Nat.eq_dec s t then eval Q env (i ++ v) else f0 o) ->
    (forall f env, contract o vars ps vsh Q (fun e v => f (pt_at ps e) v) env i = apply_terms o ts f) ->
    forall f env, contract o vars ps (shape ++ vsh) tQ (fun e v => f (pt_at ps e) v) env b
      = apply_terms o (map (fun t => mkTerm (t_w t) (t_pt t) (s ++ t_cmp t)) ts) f.
  Proof using R.
    intros ps vsh shape Q tQ i b s ts Hs HQ Hc f env.
    transitivity (apply_terms o ts (fun p v => f p (s ++ v))).
    2:{ unfold apply_terms. rewrite map_map. reflexivity. }
    rewrite <- (Hc (fun p v => f p (s ++ v)) env), (contract_upds o vars _ _ _ (fun p v => f p (s ++ v))), contract_upds.
    apply fsum_ext. intros a _. rewrite map_app, cart_app, map_flat_map, (fsum_flat_map o R).
    set (e := upds env (ps_indices ps) a).
    rewrite <- (fsum_single o R _ (list_eq_dec Nat.eq_dec)
      (fun t => fsum (map (fun v => eval Q e (i ++ v) * f (pt_at ps e) (t ++ v)) (cart (map (seq 0) vsh)))) (cart (map (seq 0) shape)) s);
      [|apply cart_seq_NoDup | apply in_cart_seq; exact Hs].
    apply fsum_ext. intros t Ht. apply in_cart_seq in Ht. rewrite map_map.
    destruct (list_eq_dec Nat.eq_dec t s) as [->|Hn].
    - apply fsum_ext. intros v Hv. apply in_cart_seq in Hv. rewrite HQ by assumption. destruct (list_eq_dec Nat.eq_dec s s); [reflexivity | congruence].
    - apply (fsum_none o R). intros v Hv. apply in_cart_seq in Hv. rewrite HQ by assumption.
      destruct (list_eq_dec Nat.eq_dec s t); [congruence|]. clear -R. ring.
  Qed.

  (* ---------------------------------------------------------------- *)
  (** ** Embeddings into vectors *)

  Local Notation slot_val := (Tabulation.slot_val o).

  Lemma wrapper_dual_ok : forall ish wsh slots tr Q n,
    tr_slots o vars tr wsh slots -> (exists s, In s slots /\ s <> SZero) ->
    (forall neg v, In (SComp neg v) slots -> length v = length wsh) ->
    gshape Q = ish ++ wsh -> (forall x, In x (gfree Q) -> x < n) ->
    exists Q' n', wrapper_dual ish [length slots] tr Q n = Ok (Q', n') /\ n <= n' /\
      gshape Q' = ish ++ [length slots] /\ (forall x, In x (gfree Q') <-> In x (gfree Q)) /\
      forall env b c s, length b = length ish -> nth_error slots c = Some s ->
        eval Q' env (b ++ [c]) = slot_val (fun w => eval Q env (b ++ w)) s.
  Proof using R.
    intros ish wsh slots tr g n Htr (s0 & Hs0 & Hs0n) Hcomp Hsh Hids.
    unfold wrapper_dual. unfold fbind at 1. rewrite new_indices_eq. unfold fbind at 1. rewrite new_indices_eq.
    set (n1 := n + length ish). set (z := (n1, length slots) : ix).
    change (ixs n1 [length slots]) with [z]. change (n1 + length [length slots]) with (n1 + 1).
    assert (Hsl : 0 < length slots) by (destruct slots; [destruct Hs0 | simpl; lia]).
    destruct (partial_indexed_ok F g (ixs n ish) wsh (n1 + 1)) as (v & m' & Ev & Hm' & Hvsh & Hvfr & Hvev).
    { rewrite ixs_extents. exact Hsh. }
    { intros x Hx. specialize (Hids x Hx). unfold n1. lia. }
    { intros i Hi. apply (in_map ix_id) in Hi. apply in_ixs_id in Hi. unfold n1. lia. }
    unfold fbind. rewrite Ev. destruct (Htr v Hvsh) as (us & Eus & Hus). rewrite Eus. cbn [bind].
    assert (Hlu : length us = length slots) by (symmetry; apply (Forall2_length _ _ _ _ _ Hus)).
    assert (Hsc : Forall (fun u : gem => gshape u = []) us).
    { clear -Hus. induction Hus as [|s u slots us (H & _) Hus IH]; constructor; assumption. }
    rewrite mk_list_tensor_ok; [|simpl; lia|simpl; lia|exact Hsc]. cbn [bind].
    rewrite mk_indexed_free by (cbn [map gshape ix_extent snd z]; rewrite Hlu; reflexivity). cbn [bind].
    assert (Hfus : forall x, In x (flat_map gfree us) <-> In x (gfree v)).
    { intros x. rewrite in_flat_map. split.
      - intros (u & Hu & Hx). clear -Hus Hu Hx. induction Hus as [|s u' slots us (_ & Hi & _) Hus IH]; [destruct Hu|].
        destruct Hu as [->|Hu]; [apply Hi; exact Hx | apply IH; exact Hu].
      - intros Hx. clear -Hus Hs0 Hs0n Hx. induction Hus as [|s u' slots us (_ & _ & Hi & _) Hus IH]; [destruct Hs0|].
        destruct Hs0 as [->|Hs0].
        + exists u'. split; [left; reflexivity | apply Hi; assumption].
        + destruct (IH Hs0) as (u & Hu & Hxu). exists u. split; [right; exact Hu | exact Hxu]. }
    rewrite mk_component_tensor_ok; [|reflexivity|].
    2:{ intros x Hx. cbn [gfree]. rewrite mi_ids_free. rewrite map_app in Hx. rewrite in_app_iff in *.
        destruct Hx as [Hx|Hx]; [left|right; exact Hx]. apply Hfus, Hvfr. right. exact Hx. }
    unfold flift. cbn [bind]. eexists _, m'. split; [reflexivity|]. split; [unfold n1 in Hm'; lia|].
    split; [cbn [gshape]; rewrite map_app, ixs_extents; reflexivity|].
    assert (Hall : ixs n ish ++ [z] = ixs n (ish ++ [length slots])) by (rewrite ixs_app; reflexivity).
    split.
    { intros x. cbn [gfree]. rewrite in_remove_ids, mi_ids_free, in_app_iff, Hfus, Hvfr. split.
      - intros [Hx Hn]. rewrite map_app, in_app_iff in Hn. destruct Hx as [[Hx|Hx]|Hx]; [exact Hx | tauto | tauto].
      - intros Hx. split; [left; left; exact Hx|]. rewrite Hall, in_ixs_id. apply Hids in Hx. lia. }
    intros env b c s Hb Hc. cbn [Gem.eval]. set (env' := upds env (ixs n ish ++ [z]) (b ++ [c])).
    assert (Hv : map (fun i => env' (ix_id i)) (ixs n ish ++ [z]) = b ++ [c]).
    { apply upds_vals; [rewrite Hall; apply ixs_NoDup|]. rewrite !app_length, ixs_length. simpl. lia. }
    rewrite map_app in Hv. apply app_inj_len in Hv as [Hvb Hvc]; [|rewrite map_length, ixs_length; auto].
    cbn [map] in Hvc. injection Hvc as Hvc.
    assert (Hvc' : env' (ix_id z) = c) by exact Hvc.
    cbn [map gidx_val]. rewrite Hvc'. cbn [ravel_strides prod].
    assert (Hclt : c < length us) by (rewrite Hlu; apply nth_error_Some; congruence).
    apply Nat.ltb_lt in Hclt as Hclt'. rewrite Hclt'. cbn [bind]. rewrite Nat.mul_1_r, Nat.add_0_r.
    assert (Hu : exists u, nth_error us c = Some u /\ gshape u = [] /\ forall env, eval u env [] = slot_val (eval v env) s).
    { clear -Hus Hc. revert c Hc. induction Hus as [|s' u slots us (Hsh & _ & _ & He) Hus IH]; intros [|c] Hc; try discriminate.
      - injection Hc as ->. exists u. repeat split; assumption.
      - apply IH. exact Hc. }
    destruct Hu as (u & Enu & Husc & Hue).
    assert (En : nth c (map (fun c0 => eval c0 env' []) us) (f0 o) = eval u env' []).
    { rewrite (nth_indep _ _ (eval u env' [])) by (rewrite map_length; exact Hclt).
      rewrite (map_nth (fun c0 => eval c0 env' [])). f_equal. apply nth_error_nth. exact Enu. }
    rewrite En, Hue. assert (Hs_in : In s slots) by (apply (nth_error_In _ _ Hc)).
    destruct s as [|neg w]; [reflexivity|]. cbn [Tabulation.slot_val].
    assert (Hw : eval v env' w = eval g env (b ++ w)).
    { rewrite Hvev by (apply (Hcomp neg); exact Hs_in). rewrite Hvb. apply eval_ext. intros x Hx. unfold env'.
      apply upds_notin. rewrite Hall, in_ixs_id. specialize (Hids x Hx). lia. }
    rewrite Hw. reflexivity.
  Qed.

  (** The component functional seen from the embedded vector. *)
  Definition pull (k0 : nat) (slots : list slot) (h : list nat -> F) (v : list nat) : F :=
    fsum (map (fun ks => match snd ks with
                         | SZero => f0 o
                         | SComp neg w => if list_eq_dec Nat.eq_dec w v then (if neg then fopp o (h [fst ks]) else h [fst ks]) else f0 o
                         end) (combine (seq k0 (length slots)) slots)).

  Lemma embed_pull : forall slots t f k0,
    apply_terms o (embed_from o k0 slots t) f = t_w t * pull k0 slots (f (t_pt t)) (t_cmp t).
  Proof using R.
    induction slots as [|s slots IH]; intros t f k0.
    - cbn. clear -R. ring.
    - unfold pull. cbn [embed_from length seq combine map]. unfold apply_terms in *. change (fold_right (fadd o) (f0 o)) with fsum in *.
      change (fsum (?x :: ?l)) with (fadd o x (fsum l)). specialize (IH t f (S k0)). unfold pull in IH.
      destruct s as [|neg w]; cbn [fst snd].
      + rewrite IH. clear -R. ring.
      + rewrite map_app, (fsum_app o R), IH. destruct (list_eq_dec Nat.eq_dec w (t_cmp t)) as [->|_].
        * cbn. destruct neg; clear -R; ring.
        * cbn. clear -R. ring.
  Qed.

  Lemma pull_sum : forall wsh slots k0 (q h : list nat -> F), (forall neg v, In (SComp neg v) slots -> in_shape wsh v) ->
    fsum (map (fun v => q v * pull k0 slots h v) (cart (map (seq 0) wsh)))
    = fsum (map (fun ks => slot_val q (snd ks) * h [fst ks]) (combine (seq k0 (length slots)) slots)).
  Proof using R.
    intros wsh slots. induction slots as [|s slots IH]; intros k0 q h Hin.
    - cbn. apply (fsum_none o R). intros v _. clear -R. ring.
    - unfold pull. cbn [length seq combine map].
      change (fsum (?x :: ?l)) with (fadd o x (fsum l)). rewrite <- (IH (S k0) q h) by (intros neg v Hv; apply (Hin neg); right; exact Hv).
      cbn [fst snd].
      transitivity (fadd o (fsum (map (fun v => q v * match s with SZero => f0 o
          | SComp neg w => if list_eq_dec Nat.eq_dec w v then (if neg then fopp o (h [k0]) else h [k0]) else f0 o end) (cart (map (seq 0) wsh))))
        (fsum (map (fun v => q v * pull (S k0) slots h v) (cart (map (seq 0) wsh))))).
      { rewrite <- (fsum_add o R). f_equal. apply map_ext. intros v. unfold pull. clear -R. ring. }
      f_equal. destruct s as [|neg w]; cbn [Tabulation.slot_val].
      + rewrite (fsum_none o R); [|intros v _]; clear -R; ring.
      + assert (Hw : in_shape wsh w) by (apply (Hin neg); left; reflexivity).
        transitivity ((if neg then fopp o (q w) else q w) * h [k0]); [|reflexivity].
        rewrite <- (fsum_single o R _ (list_eq_dec Nat.eq_dec) (fun v => (if neg then fopp o (q v) else q v) * h [k0]) (cart (map (seq 0) wsh)) w);
          [|apply cart_seq_NoDup | apply in_cart_seq; exact Hw].
        apply fsum_ext. intros v _. destruct (list_eq_dec Nat.eq_dec w v) as [E|E], (list_eq_dec Nat.eq_dec v w) as [E'|E']; try congruence;
          destruct neg; clear -R; ring.
  Qed.

  Lemma wrapper_contract : forall (ps : pset F) wsh slots Q Q' b ts,
    (forall neg v, In (SComp neg v) slots -> in_shape wsh v) ->
    (forall env c s, nth_error slots c = Some s -> eval Q' env (b ++ [c]) = slot_val (fun w => eval Q env (b ++ w)) s) ->
    (forall f env, contract o vars ps wsh Q (fun e v => f (pt_at ps e) v) env b = apply_terms o ts f) ->
    forall f env, contract o vars ps [length slots] Q' (fun e v => f (pt_at ps e) v) env b
      = apply_terms o (flat_map (embed_term o slots) ts) f.
  Proof using R.
    intros ps wsh slots Q Q' b ts Hin HQ Hc f env.
    set (G := fun p v => pull 0 slots (f p) v).
    transitivity (apply_terms o ts G).
    2:{ unfold apply_terms. change (fold_right (fadd o) (f0 o)) with fsum. rewrite map_flat_map, (fsum_flat_map o R).
        f_equal. apply map_ext. intros t. symmetry. apply (embed_pull slots t f 0). }
    rewrite <- (Hc G env), !contract_upds. apply fsum_ext. intros a _. set (e := upds env (ps_indices ps) a).
    unfold G. rewrite (pull_sum wsh slots 0 (fun v => eval Q e (b ++ v)) (f (pt_at ps e)) Hin).
    cbn [map cart]. rewrite map_flat_map, (fsum_flat_map o R). 
    transitivity (fsum (map (fun k => eval Q' e (b ++ [k]) * f (pt_at ps e) [k]) (seq 0 (length slots)))).
    { apply fsum_ext. intros k _. cbn [map]. unfold Gem.fsum. cbn [fold_right]. clear -R. ring. }
    assert (G1 : forall l k0 pre, slots = pre ++ l -> length pre = k0 ->
      map (fun k => eval Q' e (b ++ [k]) * f (pt_at ps e) [k]) (seq k0 (length l))
      = map (fun ks => slot_val (fun w => eval Q e (b ++ w)) (snd ks) * f (pt_at ps e) [fst ks]) (combine (seq k0 (length l)) l)).
    { induction l as [|s l IH]; intros k0 pre E L; [reflexivity|]. cbn [length seq combine map fst snd]. f_equal.
      - rewrite (HQ e k0 s); [reflexivity|]. rewrite E, nth_error_app2 by lia. rewrite L, Nat.sub_diag. reflexivity.
      - apply (IH (S k0) (pre ++ [s])); [rewrite <- app_assoc; exact E | rewrite app_length; simpl; lia]. }
    rewrite (G1 slots 0 [] eq_refl eq_refl). reflexivity.
  Qed.
End Steps.
