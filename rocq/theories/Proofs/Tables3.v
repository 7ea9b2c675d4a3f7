(** Embeddings into blocks of components, sums, and FIAT leaves. *)
From Coq Require Import String List Arith Lia Bool.
From Verif Require Import Model.Prelude Model.Cell Model.Element Model.Gem Model.PointSet Model.Evaluation.
From Verif Require Import Spec.Rowmajor Spec.Tabulation Proofs.Lists Proofs.GemEval Proofs.Tables Proofs.Tables2.
Import ListNotations.
Open Scope fresh_scope.

Section Embeddings.
  Context {F : Type} (o : ops F) (vars : string -> list nat -> F).
  Context (R : ring_theory (f0 o) (f1 o) (fadd o) (fmul o) (fsub o) (fopp o) eq).
  Local Notation gem := (gem F).
  Local Notation eval := (eval o vars).
  Local Notation tr_slots := (tr_slots o vars).

  (* ---------------------------------------------------------------- *)
  (** ** Mixed sub-elements *)

  Lemma list_set_app : forall A (pre : list A) y r x, list_set (pre ++ y :: r) (length pre) x = Ok (pre ++ x :: r).
  Proof.
    induction pre as [|p pre IH]; intros y r x; [reflexivity|]. cbn [app length list_set]. rewrite IH. reflexivity.
  Qed.

  Lemma mixed_fold : forall (v : gem) L pre done m,
    (forall z, In z L -> in_shape (gshape v) z) ->
    fold_res (fun u jz => do x <- mk_indexed v (map IFixed (snd jz)) ;; list_set u (length pre + fst jz) x)
      (enumerate_from (length done) L) (pre ++ done ++ repeat (GZero []) (length L + m))
    = Ok (pre ++ done ++ map (fun z => GIndexed v (map IFixed z)) L ++ repeat (GZero []) m).
  Proof.
    induction L as [|z L IH]; intros pre done m H; [reflexivity|].
    cbn [enumerate_from fold_res fst snd]. rewrite mk_indexed_fixed by (apply H; left; reflexivity). cbn [bind].
    cbn [length Nat.add repeat].
    replace (pre ++ done ++ GZero [] :: repeat (GZero []) (length L + m))
      with ((pre ++ done) ++ GZero [] :: repeat (GZero []) (length L + m)) by (rewrite <- app_assoc; reflexivity).
    rewrite <- app_length, list_set_app. cbn [bind].
    specialize (IH pre (done ++ [GIndexed v (map IFixed z)]) m (fun z' Hz' => H z' (or_intror Hz'))).
    rewrite app_length in IH. cbn [length] in IH. rewrite Nat.add_1_r in IH.
    rewrite <- !app_assoc in IH |- *. cbn [app] in IH |- *. rewrite IH. cbn [map]. rewrite <- app_assoc. reflexivity.
  Qed.

  Definition mixed_slots (s : list nat) (size offset : nat) : list slot :=
    repeat SZero offset ++ map (SComp false) (cart (map (seq 0) s)) ++ repeat SZero (size - offset - prod s).

  Lemma mixed_transform_eq : forall (v : gem) s size offset, gshape v = s -> offset + prod s <= size ->
    mixed_transform s size offset v
    = Ok (repeat (GZero []) offset ++ map (fun z => GIndexed v (map IFixed z)) (cart (map (seq 0) s))
          ++ repeat (GZero []) (size - offset - prod s)).
  Proof.
    intros v s size offset Hs Hle. unfold mixed_transform, enumerate.
    pose proof (mixed_fold v (cart (map (seq 0) s)) (repeat (GZero []) offset) [] (size - offset - prod s)) as H.
    cbn [length app] in H. rewrite <- H.
    - rewrite repeat_length. f_equal. rewrite <- repeat_app. f_equal.
      rewrite cart_length, map_map. erewrite map_ext; [|intros d; apply seq_length]. rewrite map_id. lia.
    - intros z Hz. rewrite Hs. apply in_cart_seq. exact Hz.
  Qed.

  Lemma mixed_slots_ok : forall s size offset, offset + prod s <= size ->
    tr_slots (mixed_transform s size offset) s (mixed_slots s size offset).
  Proof.
    intros s size offset Hle v Hv. eexists. split; [apply mixed_transform_eq; assumption|].
    unfold mixed_slots. apply Forall2_app; [|apply Forall2_app].
    - clear. induction offset as [|k IH]; [constructor|]. constructor; [|exact IH].
      repeat split; try (intros x []); congruence.
    - rewrite Forall2_map_l, Forall2_map_r. generalize (cart (map (seq 0) s)). clear.
      induction l as [|z l IH]; constructor; [|exact IH].
      split; [reflexivity|].
      assert (E : mi_ids (map IFixed z) = []) by (unfold mi_ids; induction z; simpl; auto).
      split; [cbn [gfree]; rewrite E, app_nil_r; intros x Hx; exact Hx|].
      split; [cbn [gfree]; rewrite E, app_nil_r; intros _ x Hx; exact Hx|].
      intros env. cbn [Gem.eval slot_val]. rewrite map_map. cbn [gidx_val]. rewrite map_id. reflexivity.
    - clear. induction (size - offset - prod s) as [|k IH]; [constructor|]. constructor; [|exact IH].
      repeat split; try (intros x []); congruence.
  Qed.

  Lemma mixed_slots_length : forall s size offset, offset + prod s <= size -> length (mixed_slots s size offset) = size.
  Proof.
    intros s size offset H. unfold mixed_slots. rewrite !app_length, !repeat_length, map_length, cart_length, map_map.
    erewrite map_ext; [|intros d; apply seq_length]. rewrite map_id. lia.
  Qed.

  Lemma mixed_slots_own : forall s size offset v, in_shape s v ->
    nth_error (mixed_slots s size offset) (offset + ravel s v) = Some (SComp false v).
  Proof.
    intros s size offset v Hv. unfold mixed_slots.
    rewrite nth_error_app2, repeat_length by (rewrite repeat_length; lia).
    replace (offset + ravel s v - offset) with (ravel s v) by lia.
    pose proof (ravel_lt s v Hv) as Hlt.
    rewrite nth_error_app1.
    - rewrite cart_seq, map_map. rewrite nth_error_map. 
      assert (E : nth_error (seq 0 (prod s)) (ravel s v) = Some (ravel s v)).
      { rewrite (nth_error_nth' _ 0) by (rewrite seq_length; exact Hlt). rewrite seq_nth by exact Hlt. reflexivity. }
      rewrite E. cbn [option_map]. rewrite unravel_ravel by exact Hv. reflexivity.
    - rewrite map_length, cart_length, map_map. erewrite map_ext; [|intros d; apply seq_length]. rewrite map_id. exact Hlt.
  Qed.

  Lemma nth_error_repeat_some : forall A (x y : A) n k, nth_error (repeat x n) k = Some y -> y = x.
  Proof. intros A x y n k H. apply nth_error_In in H. apply repeat_spec in H. exact H. Qed.

  Lemma mixed_slots_inv : forall s size offset c, c < size -> offset + prod s <= size ->
    (exists v, in_shape s v /\ c = offset + ravel s v /\ nth_error (mixed_slots s size offset) c = Some (SComp false v)) \/
    ((c < offset \/ offset + prod s <= c) /\ nth_error (mixed_slots s size offset) c = Some SZero).
  Proof.
    intros s size offset c Hc Hle. destruct (le_lt_dec offset c) as [H1|H1].
    - destruct (le_lt_dec (offset + prod s) c) as [H2|H2].
      + right. split; [right; exact H2|]. unfold mixed_slots.
        rewrite nth_error_app2, repeat_length by (rewrite repeat_length; lia).
        assert (El : length (map (SComp false) (cart (map (seq 0) s))) = prod s).
        { rewrite map_length, cart_length, map_map. erewrite map_ext; [|intros d; apply seq_length]. rewrite map_id. reflexivity. }
        rewrite nth_error_app2, El by lia.
        destruct (nth_error (repeat SZero (size - offset - prod s)) (c - offset - prod s)) as [y|] eqn:E.
        * apply nth_error_repeat_some in E. congruence.
        * apply nth_error_None in E. rewrite repeat_length in E. lia.
      + left. exists (unravel_digits s (c - offset)).
        assert (Hi : in_shape s (unravel_digits s (c - offset))) by (apply unravel_in_shape; lia).
        assert (Er : ravel s (unravel_digits s (c - offset)) = c - offset) by (apply ravel_unravel; lia).
        split; [exact Hi|]. split; [lia|]. rewrite <- (mixed_slots_own s size offset _ Hi). f_equal. lia.
    - right. split; [left; exact H1|]. unfold mixed_slots. rewrite nth_error_app1 by (rewrite repeat_length; exact H1).
      destruct (nth_error (repeat SZero offset) c) as [y|] eqn:E.
      + apply nth_error_repeat_some in E. congruence.
      + apply nth_error_None in E. rewrite repeat_length in E. lia.
  Qed.

  (* ---------------------------------------------------------------- *)
  (** ** H(div) and H(curl) transformations *)

  Definition slots_of (t : transform) : list slot :=
    match t with
    | TScalar neg pos n => repeat SZero pos ++ [SComp neg []] ++ repeat SZero (n - pos - 1)
    | TPad => [SComp false [0]; SComp false [1]; SZero]
    | TRotHDiv => [SComp false [1]; SComp true [0]; SZero]
    | TRotHCurl => [SComp true [1]; SComp false [0]; SZero]
    end.
  Definition wshape_of (t : transform) : list nat := match t with TScalar _ _ _ => [] | _ => [2] end.

  Lemma minus_ok : forall v : gem, gshape v = [] ->
    exists u, minus o v = Ok u /\ gshape u = [] /\ (forall x, In x (gfree u) <-> In x (gfree v)) /\
      forall env, eval u env [] = fopp o (eval v env []).
  Proof using R.
    intros v Hv. unfold minus. rewrite mk_product_ok by (reflexivity || exact Hv). eexists. split; [reflexivity|].
    split; [reflexivity|]. split; [intros x; cbn [gfree app]; reflexivity|].
    intros env. cbn [Gem.eval]. symmetry. rewrite <- (mulm1 o R). reflexivity.
  Qed.

  Lemma zero_slot : forall v : gem, gshape (GZero [] : gem) = [] /\ incl (gfree (GZero [] : gem)) (gfree v) /\
     (SZero <> SZero -> incl (gfree v) (gfree (GZero [] : gem))) /\
     forall env, eval (GZero []) env [] = slot_val o (eval v env) SZero.
  Proof. intros v. repeat split; [intros x [] | congruence]. Qed.

  Lemma comp_slot : forall (v u : gem) neg w, gshape u = [] -> (forall x, In x (gfree u) <-> In x (gfree v)) ->
    (forall env, eval u env [] = if neg : bool then fopp o (eval v env w) else eval v env w) ->
    gshape u = [] /\ incl (gfree u) (gfree v) /\ (SComp neg w <> SZero -> incl (gfree v) (gfree u)) /\
     forall env, eval u env [] = slot_val o (eval v env) (SComp neg w).
  Proof.
    intros v u neg w Hs Hf He. split; [exact Hs|]. split; [intros x Hx; apply Hf; exact Hx|].
    split; [intros _ x Hx; apply Hf; exact Hx|]. intros env. rewrite He. destruct neg; reflexivity.
  Qed.

  Lemma indexed_fixed1 : forall (v : gem) k, gshape v = [2] -> k < 2 ->
    mk_indexed v [IFixed k] = Ok (GIndexed v [IFixed k]) /\
    (forall x, In x (gfree (GIndexed v [IFixed k])) <-> In x (gfree v)) /\
    forall env, eval (GIndexed v [IFixed k]) env [] = eval v env [k].
  Proof.
    intros v k Hv Hk. split; [apply (mk_indexed_fixed v [k]); rewrite Hv; constructor; [exact Hk | constructor]|].
    split; [intros x; cbn; rewrite app_nil_r; reflexivity | reflexivity].
  Qed.

  Lemma apply_transform_ok : forall t, tr_slots (apply_transform o t) (wshape_of t) (slots_of t).
  Proof using R.
    intros [neg pos n| | |] v Hv; cbn [wshape_of] in Hv; cbn [apply_transform slots_of].
    - assert (Hx : exists x, (if neg then minus o v else Ok v) = Ok x /\ gshape x = [] /\
          (forall y, In y (gfree x) <-> In y (gfree v)) /\
          forall env, eval x env [] = if neg then fopp o (eval v env []) else eval v env []).
      { destruct neg; [apply minus_ok; exact Hv|]. exists v. repeat split; auto. }
      destruct Hx as (x & Ex & Hsx & Hfx & Hex). rewrite Ex. cbn [bind]. eexists. split; [reflexivity|].
      apply Forall2_app; [|constructor].
      + clear. induction pos as [|k IH]; [constructor|]. constructor; [apply zero_slot | exact IH].
      + apply comp_slot; assumption.
      + clear. induction (n - pos - 1) as [|k IH]; [constructor|]. constructor; [apply zero_slot | exact IH].
    - destruct (indexed_fixed1 v 0 Hv ltac:(lia)) as (E0 & F0 & V0).
      destruct (indexed_fixed1 v 1 Hv ltac:(lia)) as (E1 & F1 & V1).
      rewrite E0. cbn [bind]. rewrite E1. cbn [bind]. eexists. split; [reflexivity|].
      repeat (apply Forall2_cons; [first [apply zero_slot | apply comp_slot; [reflexivity | assumption | assumption]]|]).
      constructor.
    - destruct (indexed_fixed1 v 0 Hv ltac:(lia)) as (E0 & F0 & V0).
      destruct (indexed_fixed1 v 1 Hv ltac:(lia)) as (E1 & F1 & V1).
      rewrite E1. cbn [bind]. rewrite E0. cbn [bind].
      destruct (minus_ok (GIndexed v [IFixed 0]) eq_refl) as (m & Em & Hm & Hfm & Hem). rewrite Em. cbn [bind].
      eexists. split; [reflexivity|].
      apply Forall2_cons; [apply comp_slot; [reflexivity | assumption | assumption]|].
      apply Forall2_cons; [apply comp_slot; [exact Hm | intros x; rewrite Hfm; apply F0 | intros env; rewrite Hem, V0; reflexivity]|].
      apply Forall2_cons; [apply zero_slot | constructor].
    - destruct (indexed_fixed1 v 0 Hv ltac:(lia)) as (E0 & F0 & V0).
      destruct (indexed_fixed1 v 1 Hv ltac:(lia)) as (E1 & F1 & V1).
      rewrite E1. cbn [bind].
      destruct (minus_ok (GIndexed v [IFixed 1]) eq_refl) as (m & Em & Hm & Hfm & Hem). rewrite Em. cbn [bind].
      rewrite E0. cbn [bind].
      eexists. split; [reflexivity|].
      apply Forall2_cons; [apply comp_slot; [exact Hm | intros x; rewrite Hfm; apply F1 | intros env; rewrite Hem, V1; reflexivity]|].
      apply Forall2_cons; [apply comp_slot; [reflexivity | assumption | assumption]|].
      apply Forall2_cons; [apply zero_slot | constructor].
  Qed.

  (* ---------------------------------------------------------------- *)
  (** ** Sums *)

  (** The tensors under Concatenate: table k with its own indices. *)
  Definition slice_of (zeta : list ix) (ish : list nat) (t c : gem) : Prop :=
    exists m, c = GComponentTensor (GIndexed t (map IFree (ixs m ish ++ zeta))) (ixs m ish) /\
      (forall i, In i zeta -> ix_id i < m) /\ (forall x, In x (gfree t) -> x < m).

  Lemma slices_ok : forall vsh z ids ishs ts n,
    Forall2 (fun ish t => gshape t = ish ++ vsh /\ incl (gfree t) ids) ishs ts ->
    (forall x, In x ids -> x < z) -> z + length vsh <= n ->
    exists cs n', map2F (fun ishape table =>
        beta_i <~ new_indices ishape ;;
        flift (do x <- mk_indexed table (map IFree (beta_i ++ ixs z vsh)) ;; mk_component_tensor x beta_i)) ishs ts n
      = Ok (cs, n') /\ n <= n' /\ length cs = length ts /\
      Forall2 (fun it c => slice_of (ixs z vsh) (fst it) (snd it) c) (combine ishs ts) cs.
  Proof.
    intros vsh z ids ishs ts n H. revert n. induction H as [|ish t ishs ts [Hsh Hfr] H IH]; intros n Hids Hz.
    - exists [], n. split; [reflexivity|]. split; [lia|]. split; [reflexivity | constructor].
    - destruct (IH (n + length ish) Hids ltac:(lia)) as (cs & n' & E & Hle & Hl & Hcs).
      cbn [map2F]. unfold fbind in E |- *. rewrite new_indices_eq.
      rewrite mk_indexed_free by (rewrite map_app, !ixs_extents; symmetry; exact Hsh). unfold flift at 1. cbn [bind].
      rewrite mk_component_tensor_ok; [|reflexivity|].
      2:{ cbn [gfree]. rewrite mi_ids_free, map_app. intros x Hx. rewrite !in_app_iff. auto. }
      cbn [bind]. rewrite E. unfold fret. eexists _, n'. split; [reflexivity|]. split; [lia|].
      split; [simpl; rewrite Hl; reflexivity|]. cbn [combine]. constructor; [|exact Hcs].
      cbn [fst snd]. exists n. split; [reflexivity|]. split.
      + intros i Hi. apply (in_map ix_id) in Hi. apply in_ixs_id in Hi. lia.
      + intros x Hx. specialize (Hids x (Hfr x Hx)). lia.
  Qed.

  Lemma eval_concat : forall cs env k,
    eval (GConcatenate cs) env [k] =
    (fix go (l : list gem) (n : nat) : F :=
       match l with
       | [] => f0 o
       | c :: r => let s := prod (gshape c) in
                   if n <? s then eval c env (unravel_digits (gshape c) n) else go r (n - s)
       end) cs k.
  Proof. reflexivity. Qed.

  Lemma eval_concat_at : forall pre c post env k, k < prod (gshape c) ->
    eval (GConcatenate (pre ++ c :: post)) env [sum (map (fun c => prod (gshape c)) pre) + k]
    = eval c env (unravel_digits (gshape c) k).
  Proof.
    intros pre c post env k Hk. rewrite eval_concat. induction pre as [|p pre IH]; cbn [app map sum].
    - rewrite Nat.add_0_l. apply Nat.ltb_lt in Hk. rewrite Hk. reflexivity.
    - destruct (Nat.ltb_spec (prod (gshape p) + sum (map (fun c => prod (gshape c)) pre) + k) (prod (gshape p))) as [Hlt|_]; [lia|].
      replace (prod (gshape p) + sum (map (fun c => prod (gshape c)) pre) + k - prod (gshape p))
        with (sum (map (fun c => prod (gshape c)) pre) + k) by lia. exact IH.
  Qed.

  Lemma merge_tables_ok : forall ishs ts vsh N ids n,
    ts <> [] -> Forall2 (fun ish t => gshape t = ish ++ vsh /\ incl (gfree t) ids) ishs ts ->
    N = sum (map prod ishs) -> (forall x, In x ids -> x < n) ->
    exists g n', merge_tables ishs N vsh ts n = Ok (g, n') /\ n <= n' /\
      gshape g = [N] ++ vsh /\ incl (gfree g) ids /\
      forall env pre ish post t b v,
        ishs = pre ++ ish :: post -> nth_error ts (length pre) = Some t ->
        in_shape ish b -> length v = length vsh ->
        eval g env ([sum (map prod pre) + ravel ish b] ++ v) = eval t env (b ++ v).
  Proof.
    intros ishs ts vsh N ids n Hne Hts HN Hids. unfold merge_tables. unfold fbind at 1. rewrite new_indices_eq.
    destruct (slices_ok vsh n ids ishs ts (n + length vsh) Hts Hids ltac:(lia)) as (cs & m & Ecs & Hm & Hlcs & Hcs).
    unfold fbind at 1. unfold fbind in Ecs. unfold fbind at 1. rewrite Ecs. unfold fbind. rewrite new_indices_eq.
    set (be := (m, N) : ix). change (ixs m [N]) with [be].
    assert (Hshapes : map (fun c => prod (gshape c)) cs = map prod ishs).
    { clear -Hcs Hts. revert cs Hcs. induction Hts as [|ish t ishs ts _ Hts IH]; intros cs Hcs.
      - inversion Hcs; reflexivity.
      - cbn [combine] in Hcs. inversion Hcs as [|? c ? cs' (k & -> & _) Hcs']; subst. cbn [fst snd map gshape].
        rewrite ixs_extents, (IH cs' Hcs'). reflexivity. }
    assert (Hfree : forall x, In x (flat_map gfree cs) <-> In x (flat_map gfree ts) \/ In x (map ix_id (ixs n vsh))).
    { assert (Hne' : ts <> []) by exact Hne. clear -Hcs Hts Hne'.
      revert cs Hcs. induction Hts as [|ish t ishs ts _ Hts IH]; intros cs Hcs x; [congruence|].
      cbn [combine] in Hcs. inversion Hcs as [|? c ? cs' (k & -> & Hz & Hft) Hcs']; subst. cbn [fst snd] in *.
      cbn [flat_map]. rewrite !in_app_iff.
      assert (Hc : In x (gfree (GComponentTensor (GIndexed t (map IFree (ixs k ish ++ ixs n vsh))) (ixs k ish)))
                   <-> In x (gfree t) \/ In x (map ix_id (ixs n vsh))).
      { cbn [gfree]. rewrite in_remove_ids, mi_ids_free, map_app, !in_app_iff. split; [tauto|].
        intros [H|H]; (split; [auto|]); rewrite in_ixs_id.
        - specialize (Hft x H). lia.
        - apply in_map_iff in H as (i & <- & Hi). specialize (Hz i Hi). lia. }
      rewrite Hc. destruct ts as [|t' ts'].
      - inversion Hts; subst. inversion Hcs'; subst. simpl. tauto.
      - rewrite (IH ltac:(discriminate) cs' Hcs'). tauto. }
    rewrite mk_indexed_free by (cbn [map gshape be ix_extent snd]; rewrite Hshapes, HN; reflexivity). cbn [bind].
    unfold flift. cbn [bind].
    rewrite mk_component_tensor_ok; [|reflexivity|].
    2:{ intros x Hx. cbn [gfree]. rewrite mi_ids_free. rewrite map_app in Hx. rewrite in_app_iff in *. rewrite Hfree. tauto. }
    cbn [bind]. eexists _, _. split; [reflexivity|]. split; [lia|].
    split; [cbn [gshape]; rewrite map_app, ixs_extents; reflexivity|]. split.
    { intros x Hx. cbn [gfree] in Hx. apply in_remove_ids in Hx as [Hx Hn].
      rewrite mi_ids_free in Hx. rewrite map_app in Hn. rewrite in_app_iff in Hx, Hn. rewrite Hfree in Hx.
      destruct Hx as [[Hx|Hx]|Hx]; [|tauto|tauto]. apply in_flat_map in Hx as (t & Ht & Hx).
      clear -Hts Ht Hx. induction Hts as [|ish t' ishs ts [_ Hi] Hts IH]; [destruct Ht|].
      destruct Ht as [->|Ht]; [apply Hi; exact Hx | apply IH; exact Ht]. }
    intros env pre ish post t b v Hish Ht Hb Hv. cbn [Gem.eval].
    set (p := sum (map prod pre) + ravel ish b).
    set (env' := upds env ([be] ++ ixs n vsh) ([p] ++ v)).
    assert (Hvals : map (fun i => env' (ix_id i)) ([be] ++ ixs n vsh) = [p] ++ v).
    { apply upds_vals.
      - cbn [app map]. constructor; [|apply ixs_NoDup]. rewrite in_ixs_id. cbn [be ix_id fst]. lia.
      - simpl. rewrite ixs_length. lia. }
    cbn [app map] in Hvals. injection Hvals as Hp Hvs.
    assert (Hp' : env' (ix_id be) = p) by exact Hp.
    cbn [map gidx_val]. rewrite Hp'.
    change (eval (GConcatenate cs) env' [p] = eval t env (b ++ v)).
    (* locate the slice *)
    assert (Hsplit : exists cpre c cpost, cs = cpre ++ c :: cpost /\
              map (fun c => prod (gshape c)) cpre = map prod pre /\ slice_of (ixs n vsh) ish t c).
    { clear -Hcs Hish Ht. revert ishs ts cs Hcs Hish Ht.
      induction pre as [|i pre IH]; intros ishs ts cs Hcs Hish Ht; subst ishs; destruct ts as [|t0 ts]; try discriminate Ht.
      - cbn [length nth_error] in Ht. injection Ht as ->. cbn [app combine] in Hcs. inversion Hcs as [|? c ? cs' Hc Hcs']; subst.
        exists [], c, cs'. repeat split. exact Hc.
      - cbn [length nth_error] in Ht. cbn [app combine] in Hcs. inversion Hcs as [|? c ? cs' Hc Hcs']; subst.
        destruct (IH _ ts cs' Hcs' eq_refl Ht) as (cpre & c' & cpost & -> & Hm & Hs).
        exists (c :: cpre), c', cpost. split; [reflexivity|]. split; [|exact Hs]. cbn [map]. rewrite Hm. f_equal.
        destruct Hc as (k & -> & _). cbn [gshape fst]. rewrite ixs_extents. reflexivity. }
    destruct Hsplit as (cpre & c & cpost & -> & Hpre & (k & -> & Hzk & Hftk)).
    unfold p. rewrite <- Hpre.
    assert (Hshc : gshape (GComponentTensor (GIndexed t (map IFree (ixs k ish ++ ixs n vsh))) (ixs k ish)) = ish)
      by (cbn [gshape]; apply ixs_extents).
    rewrite eval_concat_at by (rewrite Hshc; apply ravel_lt; exact Hb).
    rewrite Hshc, unravel_ravel by exact Hb. cbn [Gem.eval].
    rewrite map_map, map_app. cbn [gidx_val].
    rewrite upds_vals by (apply ixs_NoDup || (rewrite ixs_length; symmetry; apply in_shape_length; exact Hb)).
    replace (map (fun x => upds env' (ixs k ish) b (ix_id x)) (ixs n vsh)) with v.
    2:{ rewrite <- Hvs at 1. apply map_ext_in. intros i Hi. rewrite upds_notin; [reflexivity|].
        rewrite in_ixs_id. specialize (Hzk i Hi). lia. }
    apply eval_ext. intros x Hx. rewrite upds_notin by (rewrite in_ixs_id; specialize (Hftk x Hx); lia).
    unfold env'. apply upds_notin. cbn [app map]. intros [E|E].
    - cbn [be ix_id fst] in E. subst x.
      assert (Hxi : In m ids). { clear -Hts Ht Hx. apply nth_error_In in Ht.
        induction Hts as [|ish' t' ishs ts [_ Hi] Hts IH]; [destruct Ht|]. destruct Ht as [->|Ht]; [apply Hi; exact Hx | apply IH; exact Ht]. }
      specialize (Hids m Hxi). lia.
    - assert (Hxi : In x ids). { clear -Hts Ht Hx. apply nth_error_In in Ht.
        induction Hts as [|ish' t' ishs ts [_ Hi] Hts IH]; [destruct Ht|]. destruct Ht as [->|Ht]; [apply Hi; exact Hx | apply IH; exact Ht]. }
      specialize (Hids x Hxi). apply in_ixs_id in E. lia.
  Qed.

  Lemma compose_ok : forall (rs : list (part F)) d order vsh ids N n,
    rs <> [] -> (forall r, In r rs -> part_ok order ids r /\ p_dim r = d /\ p_vsh r = vsh) ->
    N = sum (map (fun r => prod (p_ish r)) rs) -> (forall x, In x ids -> x < n) ->
    exists ts n', compose_evaluations (map p_ish rs) N vsh (map p_tab rs) n = Ok (ts, n') /\ n <= n' /\
      derivative_keys d order (map fst ts) /\
      forall a g, In (a, g) ts ->
        gshape g = [N] ++ vsh /\ incl (gfree g) ids /\
        forall env pre r post b v, rs = pre ++ r :: post -> in_shape (p_ish r) b -> length v = length vsh ->
          exists t, In (a, t) (p_tab r) /\
            eval g env ([sum (map (fun r => prod (p_ish r)) pre) + ravel (p_ish r) b] ++ v) = eval t env (b ++ v).
  Proof.
    intros rs d order vsh ids N n Hne Hrs HN Hids.
    assert (Hdk : forall r, In r rs -> derivative_keys d order (map fst (p_tab r))).
    { intros r Hr. destruct (Hrs r Hr) as ((Hk & _) & <- & _). exact Hk. }
    assert (Hsame : forall r r', In r rs -> In r' rs -> same_keys (p_tab r) (p_tab r') = true).
    { intros r r' Hr Hr'. unfold same_keys. destruct (Hdk r Hr) as [_ H1]. destruct (Hdk r' Hr') as [_ H2].
      rewrite andb_true_iff, !forallb_forall. split; intros [a g] Hin; cbn [fst];
        apply (dict_mem_spec keq keq_spec); apply (in_map fst) in Hin; cbn [fst] in Hin;
        [apply H2, H1, Hin | apply H1, H2, Hin]. }
    destruct rs as [|r0 rest] eqn:Ers; [congruence|]. rewrite <- Ers in *.
    assert (Hr0 : In r0 rs) by (rewrite Ers; left; reflexivity).
    assert (Hone : forall a g m, In (a, g) (p_tab r0) -> n <= m ->
      exists g' m', (ts <~ flift (mapM (fun r => dict_get (list_eqb Nat.eqb) r a) (map p_tab rs)) ;;
                     merge_tables (map p_ish rs) N vsh ts) m = Ok (g', m') /\ m <= m' /\
        (gshape g' = [N] ++ vsh /\ incl (gfree g') ids /\
        forall env pre r post b v, rs = pre ++ r :: post -> in_shape (p_ish r) b -> length v = length vsh ->
          exists t, In (a, t) (p_tab r) /\
            eval g' env ([sum (map (fun r => prod (p_ish r)) pre) + ravel (p_ish r) b] ++ v) = eval t env (b ++ v))).
    { intros a g m Hin Hm.
      assert (Ha : forall r, In r rs -> exists t, dict_get keq (p_tab r) a = Ok t).
      { intros r Hr. apply (dict_get_some keq keq_spec). apply (Hdk r Hr). apply (Hdk r0 Hr0).
        apply (in_map fst) in Hin. exact Hin. }
      assert (Hts : exists ts, Forall2 (fun r t => dict_get keq (p_tab r) a = Ok t) rs ts).
      { clear -Ha. induction rs as [|r rs IH]; [exists []; constructor|].
        destruct IH as (ts & Hts); [intros r' Hr'; apply Ha; right; exact Hr'|].
        destruct (Ha r (or_introl eq_refl)) as (t & Et). exists (t :: ts). constructor; assumption. }
      destruct Hts as (ts & Hts).
      destruct (merge_tables_ok (map p_ish rs) ts vsh N ids m) as (g' & m' & E & Hle & Hsh & Hfr & Hev).
      { rewrite Ers in Hts. inversion Hts; subst; discriminate. }
      { rewrite Forall2_map_l. eapply Forall2_impl_in; [|exact Hts]. intros r t Hr _ Et.
        destruct (Hrs r Hr) as ((_ & Hg) & _ & <-). apply (Hg a). apply (dict_get_in keq keq_spec). exact Et. }
      { rewrite map_map. exact HN. }
      { intros x Hx. specialize (Hids x Hx). lia. }
      exists g', m'. split.
      - unfold fbind, flift. rewrite mapM_map.
        assert (Em : mapM (fun x => dict_get (list_eqb Nat.eqb) (p_tab x) a) rs = Ok ts) by (apply mapM_ok; exact Hts).
        rewrite Em. exact E.
      - split; [exact Hle|]. split; [exact Hsh|]. split; [exact Hfr|].
        intros env pre r post b v Hsplit Hb Hv.
        assert (Ht : exists t, nth_error ts (length pre) = Some t /\ In (a, t) (p_tab r)).
        { rewrite Hsplit in Hts. clear -Hts. revert ts Hts. induction pre as [|p pre IH]; intros ts Hts.
          - inversion Hts as [|? t ? ts' Et Hts']; subst. exists t. split; [reflexivity|].
            apply (dict_get_in keq keq_spec). exact Et.
          - inversion Hts as [|? t ? ts' Et Hts']; subst. destruct (IH ts' Hts') as (t' & H1 & H2). exists t'. split; assumption. }
        destruct Ht as (t & Hnt & Hint). exists t. split; [exact Hint|].
        rewrite <- (map_map p_ish prod). apply (Hev env (map p_ish pre) (p_ish r) (map p_ish post)); trivial.
        + rewrite Hsplit, map_app. reflexivity.
        + rewrite map_length. exact Hnt. }
    assert (Hrest : forall r, In r rest -> In r rs) by (intros r Hr; rewrite Ers; right; exact Hr).
    assert (Hmf : exists ts n', mapF (fun kv =>
          ts <~ flift (mapM (fun r => dict_get (list_eqb Nat.eqb) r (fst kv)) (map p_tab rs)) ;;
          m <~ merge_tables (map p_ish rs) N vsh ts ;; fret (fst kv, m)) (p_tab r0) n = Ok (ts, n') /\ n <= n' /\
        map fst ts = map fst (p_tab r0) /\
        forall a g', In (a, g') ts -> gshape g' = [N] ++ vsh /\ incl (gfree g') ids /\
        forall env pre r post b v, rs = pre ++ r :: post -> in_shape (p_ish r) b -> length v = length vsh ->
          exists t, In (a, t) (p_tab r) /\
            eval g' env ([sum (map (fun r => prod (p_ish r)) pre) + ravel (p_ish r) b] ++ v) = eval t env (b ++ v)).
    { revert Hone. generalize (p_tab r0) as T. intros T Hone.
      assert (Hgen : forall m, n <= m -> exists ts n', mapF (fun kv =>
          ts <~ flift (mapM (fun r => dict_get (list_eqb Nat.eqb) r (fst kv)) (map p_tab rs)) ;;
          m <~ merge_tables (map p_ish rs) N vsh ts ;; fret (fst kv, m)) T m = Ok (ts, n') /\ m <= n' /\
        map fst ts = map fst T /\
        forall a g', In (a, g') ts -> gshape g' = [N] ++ vsh /\ incl (gfree g') ids /\
        forall env pre r post b v, rs = pre ++ r :: post -> in_shape (p_ish r) b -> length v = length vsh ->
          exists t, In (a, t) (p_tab r) /\
            eval g' env ([sum (map (fun r => prod (p_ish r)) pre) + ravel (p_ish r) b] ++ v) = eval t env (b ++ v)).
      2:{ apply Hgen. lia. }
      induction T as [|[a g] T IH]; intros m Hm.
      - exists [], m. split; [reflexivity|]. split; [lia|]. split; [reflexivity|]. intros a g' [].
      - destruct (Hone a g m (or_introl eq_refl) Hm) as (g' & m1 & E1 & Hle1 & HP).
        destruct (IH (fun a' g0 k Hin => Hone a' g0 k (or_intror Hin)) m1 ltac:(lia)) as (ts & n' & E2 & Hle2 & Ek & Hts).
        exists ((a, g') :: ts), n'. cbn [mapF fst]. unfold fbind, flift in E1, E2 |- *.
        destruct (mapM (fun r => dict_get (list_eqb Nat.eqb) r a) (map p_tab rs)) as [tt'|]; [|discriminate E1].
        cbn [bind] in E1 |- *. rewrite E1. unfold fret at 1. rewrite E2. split; [reflexivity|]. split; [lia|].
        split; [simpl; rewrite Ek; reflexivity|]. intros a0 g0 [Eq|Hin]; [|apply Hts; exact Hin].
        injection Eq as <- <-. exact HP. }
    destruct Hmf as (ts & n' & E & Hle & Ek & Hts). exists ts, n'.
    split.
    - assert (Em : map p_tab rs = p_tab r0 :: map p_tab rest) by (rewrite Ers; reflexivity).
      unfold compose_evaluations. rewrite Em in E |- *. unfold fbind at 1.
      replace (forallb (same_keys (p_tab r0)) (map p_tab rest)) with true.
      2:{ symmetry. apply forallb_forall. intros t Ht. apply in_map_iff in Ht as (r & <- & Hr). apply Hsame; [exact Hr0 | apply Hrest; exact Hr]. }
      unfold flift at 1. cbn [guard bind]. exact E.
    - split; [exact Hle|]. split; [rewrite Ek; apply Hdk; exact Hr0 | exact Hts].
  Qed.
End Embeddings.
