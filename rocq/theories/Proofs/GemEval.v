(** Evaluation of GEM expressions. *)
From Coq Require Import String List Arith Lia Bool.
From Verif Require Import Model.Prelude Model.Gem Spec.Rowmajor Proofs.Lists.
Import ListNotations.
Open Scope fresh_scope.

(* ------------------------------------------------------------------ *)
(** ** Bookkeeping *)

Lemma fbind_ok : forall A B (m : fresh A) (k : A -> fresh B) n r,
  fbind m k n = Ok r <-> exists a n', m n = Ok (a, n') /\ k a n' = Ok r.
Proof.
  intros A B m k n r. unfold fbind. destruct (m n) as [[a n']|e]; split.
  - intros H. exists a, n'. split; [reflexivity | exact H].
  - intros (a' & n'' & E & H). injection E as <- <-. exact H.
  - discriminate.
  - intros (a' & n'' & E & H). discriminate.
Qed.

Lemma fbind_eq : forall A B (m : fresh A) (k : A -> fresh B) n a n',
  m n = Ok (a, n') -> fbind m k n = k a n'.
Proof. intros A B m k n a n' H. unfold fbind. rewrite H. reflexivity. Qed.

Lemma flift_eq : forall A (r : result A) a n, r = Ok a -> flift r n = Ok (a, n).
Proof. intros A r a n ->. reflexivity. Qed.

Lemma in_remove_ids : forall l ids x, In x (remove_ids l ids) <-> In x l /\ ~ In x ids.
Proof.
  intros l ids x. unfold remove_ids. rewrite filter_In, negb_true_iff. split; intros [H1 H2]; split; trivial.
  - intros Hin. assert (existsb (Nat.eqb x) ids = true)
      by (apply existsb_exists; exists x; rewrite Nat.eqb_refl; auto). congruence.
  - destruct (existsb (Nat.eqb x) ids) eqn:E; [|reflexivity].
    apply existsb_exists in E as (y & Hy & E). apply Nat.eqb_eq in E as ->. contradiction.
Qed.

Lemma in_mi_ids : forall mi x, In x (mi_ids mi) <-> exists i, In (IFree i) mi /\ ix_id i = x.
Proof.
  intros mi x. unfold mi_ids. rewrite in_flat_map. split.
  - intros ([i|k] & H & Hx); [|destruct Hx]. destruct Hx as [<-|[]]. eauto.
  - intros (i & H & <-). exists (IFree i). split; [exact H | left; reflexivity].
Qed.

Lemma mi_ids_free : forall l, mi_ids (map IFree l) = map ix_id l.
Proof. unfold mi_ids. induction l as [|i l IH]; simpl; [reflexivity | rewrite IH; reflexivity]. Qed.

Lemma subset_ids_spec : forall a b, subset_ids a b = true <-> incl a b.
Proof.
  intros a b. unfold subset_ids. rewrite forallb_forall. split; intros H x Hx; specialize (H x Hx).
  - apply existsb_exists in H as (y & Hy & E). apply Nat.eqb_eq in E as ->. exact Hy.
  - apply existsb_exists. exists x. rewrite Nat.eqb_refl. auto.
Qed.

(* ------------------------------------------------------------------ *)
(** ** Environments *)

Lemma upds_notin : forall mi env vs x, ~ In x (map ix_id mi) -> upds env mi vs x = env x.
Proof.
  induction mi as [|i mi IH]; intros env vs x H; [reflexivity|]. cbn [upds].
  rewrite IH by (intros Hin; apply H; right; exact Hin). unfold upd.
  destruct (Nat.eqb_spec x (ix_id i)) as [->|]; [exfalso; apply H; left; reflexivity | reflexivity].
Qed.

(** The value of a bound index does not depend on the outer environment. *)
Lemma upds_in : forall mi env env' vs x, In x (map ix_id mi) -> upds env mi vs x = upds env' mi vs x.
Proof.
  induction mi as [|i mi IH]; intros env env' vs x H; [destruct H|]. cbn [upds].
  destruct (in_dec Nat.eq_dec x (map ix_id mi)) as [Hin|Hn]; [apply IH; exact Hin|].
  rewrite !upds_notin by exact Hn. destruct H as [E|H]; [|contradiction].
  unfold upd. rewrite <- E, Nat.eqb_refl. reflexivity.
Qed.

Lemma upds_vals : forall mi env vs, NoDup (map ix_id mi) -> length vs = length mi ->
  map (fun i => upds env mi vs (ix_id i)) mi = vs.
Proof.
  induction mi as [|i mi IH]; intros env [|v vs] Hnd Hl; try discriminate; [reflexivity|].
  cbn [map upds hd tl]. inversion Hnd as [|? ? Hi Hnd']; subst. f_equal.
  - rewrite upds_notin by exact Hi. unfold upd. rewrite Nat.eqb_refl. reflexivity.
  - apply IH; [exact Hnd' | simpl in Hl; lia].
Qed.

Lemma upds_app : forall m1 m2 env v1 v2, length v1 = length m1 ->
  upds env (m1 ++ m2) (v1 ++ v2) = upds (upds env m1 v1) m2 v2.
Proof.
  induction m1 as [|i m1 IH]; intros m2 env [|v v1] v2 H; try discriminate; [reflexivity|].
  cbn [app upds hd tl]. apply IH. simpl in H; lia.
Qed.

(* ------------------------------------------------------------------ *)
(** ** Evaluation depends only on free indices *)

Section Eval.
  Context {F : Type} (o : ops F) (vars : string -> list nat -> F).
  Local Notation gem := (gem F).
  Local Notation eval := (eval o vars).

  Lemma gem_ind' (P : gem -> Prop) :
    (forall sh, P (GZero sh)) -> (forall a, P (GLiteral a)) -> (forall s sh, P (GVariable s sh)) ->
    (forall a b, P a -> P b -> P (GSum a b)) -> (forall a b, P a -> P b -> P (GProduct a b)) ->
    (forall a b, P a -> P b -> P (GDivision a b)) ->
    (forall a mi, P a -> P (GIndexed a mi)) -> (forall a mi, P a -> P (GComponentTensor a mi)) ->
    (forall a mi, P a -> P (GIndexSum a mi)) ->
    (forall sh l, Forall P l -> P (GListTensor sh l)) ->
    (forall i j, P (GDelta i j)) -> (forall l, Forall P l -> P (GConcatenate l)) ->
    (forall f l, Forall P l -> P (GFunction f l)) ->
    forall g, P g.
  Proof.
    intros H1 H2 H3 H4 H5 H6 H7 H8 H9 H10 H11 H12 H13.
    fix IH 1. intros [sh|a|s sh|a b|a b|a b|a mi|a mi|a mi|sh l|i j|l|f l].
    - apply H1.
    - apply H2.
    - apply H3.
    - apply H4; apply IH.
    - apply H5; apply IH.
    - apply H6; apply IH.
    - apply H7; apply IH.
    - apply H8; apply IH.
    - apply H9; apply IH.
    - apply H10. induction l as [|x l IHl]; constructor; [apply IH | exact IHl].
    - apply H11.
    - apply H12. induction l as [|x l IHl]; constructor; [apply IH | exact IHl].
    - apply H13. induction l as [|x l IHl]; constructor; [apply IH | exact IHl].
  Qed.

  Lemma gidx_val_ext : forall env env' i, (forall x, In x (mi_ids [i]) -> env x = env' x) ->
    gidx_val env i = gidx_val env' i.
  Proof. intros env env' [i|k] H; [apply H; left; reflexivity | reflexivity]. Qed.

  Lemma gidx_vals_ext : forall env env' mi, (forall x, In x (mi_ids mi) -> env x = env' x) ->
    map (gidx_val env) mi = map (gidx_val env') mi.
  Proof.
    intros env env' mi H. apply map_ext_in. intros i Hi. apply gidx_val_ext. intros x Hx.
    apply H. apply in_mi_ids in Hx as (j & Hj & <-). destruct Hj as [->|[]].
    apply in_mi_ids. eauto.
  Qed.

  Lemma upds_ext : forall fr mi env env' vs,
    (forall x, In x (remove_ids fr (map ix_id mi)) -> env x = env' x) ->
    forall x, In x fr -> upds env mi vs x = upds env' mi vs x.
  Proof.
    intros fr mi env env' vs H x Hx.
    destruct (in_dec Nat.eq_dec x (map ix_id mi)) as [Hin|Hn]; [apply upds_in; exact Hin|].
    rewrite !upds_notin by exact Hn. apply H. apply in_remove_ids. split; assumption.
  Qed.

  Lemma eval_ext : forall g env env' idx,
    (forall x, In x (gfree g) -> env x = env' x) -> eval g env idx = eval g env' idx.
  Proof.
    induction g as [sh|a|s sh|a b IHa IHb|a b IHa IHb|a b IHa IHb|a mi IHa|a mi IHa|a mi IHa|sh l IHl|i j|l IHl|f l IHl]
      using gem_ind'; intros env env' idx H; cbn [Gem.eval]; cbn [gfree] in H.
    - reflexivity.
    - reflexivity.
    - reflexivity.
    - rewrite (IHa env env'), (IHb env env'); [reflexivity| |]; intros x Hx; apply H; apply in_or_app; auto.
    - rewrite (IHa env env'), (IHb env env'); [reflexivity| |]; intros x Hx; apply H; apply in_or_app; auto.
    - rewrite (IHa env env'), (IHb env env'); [reflexivity| |]; intros x Hx; apply H; apply in_or_app; auto.
    - rewrite (gidx_vals_ext env env') by (intros x Hx; apply H; apply in_or_app; auto).
      apply IHa. intros x Hx. apply H, in_or_app. auto.
    - apply IHa. apply upds_ext. exact H.
    - f_equal. apply map_ext. intros vs. apply IHa. apply upds_ext. exact H.
    - f_equal. apply map_ext_in. intros c Hc. rewrite Forall_forall in IHl. apply IHl; [exact Hc|].
      intros x Hx. apply H. apply in_flat_map. eauto.
    - rewrite (gidx_val_ext env env' i), (gidx_val_ext env env' j); [reflexivity| |];
        intros x Hx; apply H; apply in_mi_ids in Hx as (q & [->|[]] & <-); apply in_mi_ids;
        exists q; split; auto; [right; left | left]; reflexivity.
    - generalize (hd 0 idx) as k. induction IHl as [|c l IHc _ IHl]; intros k; [reflexivity|].
      cbn [Gem.eval] in *. destruct (k <? prod (gshape c)).
      + apply IHc. intros x Hx. apply H. cbn [flat_map]. apply in_or_app. auto.
      + apply IHl. intros x Hx. apply H. cbn [flat_map]. apply in_or_app. auto.
    - f_equal. apply map_ext_in. intros c Hc. rewrite Forall_forall in IHl. apply IHl; [exact Hc|].
      intros x Hx. apply H. apply in_flat_map. eauto.
  Qed.
End Eval.

(* ------------------------------------------------------------------ *)
(** ** Fresh indices *)

Definition ixs (n : nat) (sh : list nat) : list ix := combine (seq n (length sh)) sh.

Lemma new_indices_eq : forall sh n, new_indices sh n = Ok (ixs n sh, n + length sh).
Proof. reflexivity. Qed.

Lemma ixs_length : forall n sh, length (ixs n sh) = length sh.
Proof.
  intros n sh. unfold ixs. revert n.
  induction sh as [|d sh IH]; intros n; simpl; [reflexivity | rewrite IH; reflexivity].
Qed.

Lemma ixs_ids : forall n sh, map ix_id (ixs n sh) = seq n (length sh).
Proof.
  intros n sh. unfold ixs. revert n.
  induction sh as [|d sh IH]; intros n; simpl; [reflexivity | rewrite IH; reflexivity].
Qed.

Lemma ixs_extents : forall n sh, map ix_extent (ixs n sh) = sh.
Proof.
  intros n sh. unfold ixs. revert n.
  induction sh as [|d sh IH]; intros n; simpl; [reflexivity | rewrite IH; reflexivity].
Qed.

Lemma ixs_NoDup : forall n sh, NoDup (map ix_id (ixs n sh)).
Proof. intros n sh. rewrite ixs_ids. apply seq_NoDup. Qed.

Lemma ixs_app : forall n s1 s2, ixs n (s1 ++ s2) = ixs n s1 ++ ixs (n + length s1) s2.
Proof.
  intros n s1. unfold ixs. revert n. induction s1 as [|d s1 IH]; intros n s2; simpl.
  - rewrite Nat.add_0_r. reflexivity.
  - rewrite IH. do 3 f_equal. rewrite Nat.add_succ_r. reflexivity.
Qed.

Lemma in_ixs_id : forall n sh x, In x (map ix_id (ixs n sh)) <-> n <= x < n + length sh.
Proof. intros n sh x. rewrite ixs_ids. apply in_seq. Qed.

Fixpoint blocks (n : nat) (shs : list (list nat)) : list (list ix) :=
  match shs with
  | [] => []
  | s :: r => ixs n s :: blocks (n + length s) r
  end.

Lemma mapF_new_indices : forall shs n,
  mapF new_indices shs n = Ok (blocks n shs, n + length (concat shs)).
Proof.
  induction shs as [|s shs IH]; intros n; cbn [mapF concat].
  - unfold fret. rewrite Nat.add_0_r. reflexivity.
  - unfold fbind. rewrite new_indices_eq, IH. unfold fret. cbn [blocks].
    rewrite app_length, Nat.add_assoc. reflexivity.
Qed.

Lemma concat_blocks : forall shs n, concat (blocks n shs) = ixs n (concat shs).
Proof.
  induction shs as [|s shs IH]; intros n; [reflexivity|]. cbn [blocks concat].
  rewrite IH, ixs_app. reflexivity.
Qed.

Lemma blocks_length : forall shs n, length (blocks n shs) = length shs.
Proof. induction shs as [|s shs IH]; intros n; simpl; [reflexivity | rewrite IH; reflexivity]. Qed.

Lemma blocks_shape : forall shs n, Forall2 (fun s b => length b = length s /\ map ix_extent b = s) shs (blocks n shs).
Proof.
  induction shs as [|s shs IH]; intros n; constructor; [|apply IH].
  split; [apply ixs_length | apply ixs_extents].
Qed.

(* ------------------------------------------------------------------ *)
(** ** Constructors succeed on well-shaped arguments *)

Section Make.
  Context {F : Type}.
  Local Notation gem := (gem F).

  Lemma check_indices_free : forall sh l, map ix_extent l = sh -> check_indices sh (map IFree l) = Ok tt.
  Proof.
    intros sh l <-. induction l as [|i l IH]; [reflexivity|]. cbn [map check_indices].
    rewrite Nat.eqb_refl. exact IH.
  Qed.

  Lemma mk_indexed_free : forall (g : gem) l, map ix_extent l = gshape g ->
    mk_indexed g (map IFree l) = Ok (GIndexed g (map IFree l)).
  Proof.
    intros g l H. unfold mk_indexed. rewrite map_length.
    assert (E : length (gshape g) = length l) by (rewrite <- H, map_length; reflexivity).
    rewrite E, Nat.eqb_refl. cbn [guard bind]. rewrite (check_indices_free _ _ H). reflexivity.
  Qed.

  Lemma check_indices_fixed : forall sh ks, in_shape sh ks -> check_indices sh (map IFixed ks) = Ok tt.
  Proof.
    induction 1 as [|d k sh ks Hk H IH]; [reflexivity|]. cbn [map check_indices].
    apply Nat.ltb_lt in Hk. rewrite Hk. exact IH.
  Qed.

  Lemma mk_indexed_fixed : forall (g : gem) ks, in_shape (gshape g) ks ->
    mk_indexed g (map IFixed ks) = Ok (GIndexed g (map IFixed ks)).
  Proof.
    intros g ks H. unfold mk_indexed. rewrite map_length.
    rewrite (in_shape_length _ _ H), Nat.eqb_refl. cbn [guard bind].
    rewrite (check_indices_fixed _ _ H). reflexivity.
  Qed.

  Lemma scalarb_ok : forall g : gem, gshape g = [] -> scalarb g = true.
  Proof. intros g H. unfold scalarb. rewrite H. reflexivity. Qed.

  Lemma mk_product_ok : forall a b : gem, gshape a = [] -> gshape b = [] -> mk_product a b = Ok (GProduct a b).
  Proof. intros a b Ha Hb. unfold mk_product. rewrite !scalarb_ok by assumption. reflexivity. Qed.

  Lemma mk_component_tensor_ok : forall (g : gem) mi, gshape g = [] -> incl (map ix_id mi) (gfree g) ->
    mk_component_tensor g mi = Ok (GComponentTensor g mi).
  Proof.
    intros g mi Hs Hi. unfold mk_component_tensor. rewrite scalarb_ok by exact Hs. cbn [guard bind].
    apply subset_ids_spec in Hi. rewrite Hi. reflexivity.
  Qed.

  Lemma mk_index_sum_ok : forall (g : gem) mi, gshape g = [] -> incl (map ix_id mi) (gfree g) ->
    mk_index_sum g mi = Ok (GIndexSum g mi).
  Proof.
    intros g mi Hs Hi. unfold mk_index_sum. rewrite scalarb_ok by exact Hs. cbn [guard bind].
    apply subset_ids_spec in Hi. rewrite Hi. reflexivity.
  Qed.

  Lemma mk_list_tensor_ok : forall sh (l : list gem), 0 < prod sh -> length l = prod sh ->
    Forall (fun g => gshape g = []) l -> mk_list_tensor sh l = Ok (GListTensor sh l).
  Proof.
    intros sh l Hp Hl Hs. unfold mk_list_tensor. rewrite Hl, Nat.eqb_refl.
    destruct (Nat.eqb_spec (prod sh) 0); [lia|]. cbn [negb guard bind].
    replace (forallb scalarb l) with true; [reflexivity|]. symmetry. apply forallb_forall.
    rewrite Forall_forall in Hs. intros g Hg. apply scalarb_ok, Hs, Hg.
  Qed.

  Lemma reduce_from_ok : forall (l : list gem) acc, gshape acc = [] -> Forall (fun g => gshape g = []) l ->
    reduce_from acc l = Ok (fold_left GProduct l acc).
  Proof.
    induction l as [|x l IH]; intros acc Ha Hl; [reflexivity|]. inversion Hl as [|? ? Hx Hl']; subst.
    cbn [reduce_from]. rewrite mk_product_ok by assumption. cbn [bind fold_left]. apply IH; [reflexivity | exact Hl'].
  Qed.

  Lemma reduce_product_ok : forall l : list gem, l <> [] -> Forall (fun g => gshape g = []) l ->
    exists g, reduce_product l = Ok g /\ gshape g = [] /\ (forall x, In x (gfree g) <-> In x (flat_map gfree l)) /\
      forall o vars env, ring_theory (f0 o) (f1 o) (fadd o) (fmul o) (fsub o) (fopp o) eq ->
        eval o vars g env [] = fold_right (fmul o) (f1 o) (map (fun c => eval o vars c env []) l).
  Proof.
    intros [|x l] Hne Hs; [congruence|]. inversion Hs as [|? ? Hx Hl]; subst. clear Hne Hs.
    cbn [reduce_product]. rewrite reduce_from_ok by assumption. eexists. split; [reflexivity|].
    revert x Hx. induction l as [|y l IH]; intros x Hx; cbn [fold_left].
    - split; [exact Hx|]. split; [intros z; cbn [flat_map]; rewrite app_nil_r; reflexivity|].
      intros o vars env R. cbn. rewrite (Ring_theory.Rmul_comm R), (Ring_theory.Rmul_1_l R). reflexivity.
    - inversion Hl as [|? ? Hy Hl']; subst.
      destruct (IH Hl' (GProduct x y) eq_refl) as (Hsh & Hf & He). split; [exact Hsh|]. split.
      + intros z. rewrite Hf. cbn [flat_map gfree]. rewrite !in_app_iff. tauto.
      + intros o vars env R. rewrite (He o vars env R). cbn [map fold_right Gem.eval].
        rewrite (Ring_theory.Rmul_assoc R). reflexivity.
  Qed.
End Make.

(** [partial_indexed] on fresh-enough arguments. *)
Lemma partial_indexed_ok : forall F (t : gem F) l s n,
  gshape t = map ix_extent l ++ s ->
  (forall x, In x (gfree t) -> x < n) -> (forall i, In i l -> ix_id i < n) ->
  exists v n', partial_indexed t l n = Ok (v, n') /\ n <= n' /\ gshape v = s /\
    (forall x, In x (gfree v) <-> In x (gfree t) \/ In x (map ix_id l)) /\
    forall o vars env idx, length idx = length s ->
      eval o vars v env idx = eval o vars t env (map (fun i => env (ix_id i)) l ++ idx).
Proof.
  intros F t l s n Hsh Hft Hfl. unfold partial_indexed.
  assert (Er : length (gshape t) = length l + length s) by (rewrite Hsh, app_length, map_length; reflexivity).
  rewrite Er. destruct (Nat.eqb_spec (length l) 0) as [E0|E0].
  { destruct l; [|discriminate]. exists t, n. unfold fret. split; [reflexivity|]. split; [lia|].
    split; [exact Hsh|]. split; [simpl; tauto | reflexivity]. }
  destruct (Nat.ltb_spec (length l + length s) (length l)) as [Hlt|_]; [lia|].
  destruct (Nat.eqb_spec (length l + length s) (length l)) as [E1|E1].
  { destruct s; [|simpl in E1; lia]. rewrite app_nil_r in Hsh.
    rewrite mk_indexed_free by (symmetry; exact Hsh). unfold flift, bind.
    eexists _, n. split; [reflexivity|]. split; [lia|]. split; [reflexivity|].
    split; [intros x; cbn [gfree]; rewrite mi_ids_free, in_app_iff; tauto|].
    intros o vars env [|? ?] Hl; [|discriminate]. cbn [Gem.eval]. rewrite app_nil_r, map_map. reflexivity. }
  unfold fbind. rewrite new_indices_eq. rewrite Hsh, skipn_app.
  rewrite (skipn_all2 (map ix_extent l)) by (rewrite map_length; lia).
  rewrite map_length, Nat.sub_diag. cbn [skipn app].
  rewrite mk_indexed_free by (rewrite map_app, ixs_extents; symmetry; exact Hsh). unfold flift. cbn [bind].
  rewrite mk_component_tensor_ok; [|reflexivity|].
  2:{ cbn [gfree]. rewrite mi_ids_free, map_app. intros x Hx. rewrite !in_app_iff. auto. }
  cbn [bind]. eexists _, _. split; [reflexivity|]. split; [lia|]. split; [cbn [gshape]; apply ixs_extents|].
  split.
  - intros x. cbn [gfree]. rewrite in_remove_ids, mi_ids_free, map_app, !in_app_iff, in_ixs_id.
    split; [intros [[H|[H|H]] Hn]; tauto|].
    intros [H|H]; (split; [auto|]).
    + specialize (Hft x H). lia.
    + apply in_map_iff in H as (i & <- & H). specialize (Hfl i H). lia.
  - intros o vars env idx Hl. cbn [Gem.eval]. rewrite map_map, map_app.
    rewrite <- (eval_ext o vars t env).
    + do 2 f_equal.
      * apply map_ext_in. intros i Hi. cbn [gidx_val]. rewrite upds_notin; [reflexivity|].
        rewrite in_ixs_id. specialize (Hfl i Hi). lia.
      * cbn [gidx_val]. apply upds_vals; [apply ixs_NoDup | rewrite ixs_length; exact Hl].
    + intros x Hx. rewrite upds_notin; [reflexivity|]. rewrite in_ixs_id. specialize (Hft x Hx). lia.
Qed.
