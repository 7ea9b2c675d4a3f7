(** Tables of vector elements, sums and wrappers. *)
From Coq Require Import String List Arith Lia Bool.
From Verif Require Import Model.Prelude Model.Cell Model.Element Model.Gem Model.PointSet Model.Evaluation.
From Verif Require Import Spec.Rowmajor Spec.Tabulation Proofs.Lists Proofs.GemEval Proofs.Tables.
Import ListNotations.
Open Scope fresh_scope.

Section Composite.
  Context {F : Type} (o : ops F) (vars : string -> list nat -> F).
  Context (R : ring_theory (f0 o) (f1 o) (fadd o) (fmul o) (fsub o) (fopp o) eq).
  Local Notation gem := (gem F).
  Local Notation eval := (eval o vars).

  Lemma mul1l : forall x, fmul o (f1 o) x = x.
  Proof using R. apply (Ring_theory.Rmul_1_l R). Qed.
  Lemma mul0l : forall x, fmul o (f0 o) x = f0 o.
  Proof using R.
    intros x. pose proof (Ring_theory.Rdistr_l R (f0 o) (f0 o) x) as H.
    rewrite (Ring_theory.Radd_0_l R) in H.
    assert (K : fadd o (fmul o (f0 o) x) (fopp o (fmul o (f0 o) x))
                = fadd o (fadd o (fmul o (f0 o) x) (fmul o (f0 o) x)) (fopp o (fmul o (f0 o) x)))
      by (rewrite <- H; reflexivity).
    rewrite <- (Ring_theory.Radd_assoc R) in K. rewrite (Ring_theory.Ropp_def R) in K.
    rewrite (Ring_theory.Radd_comm R), (Ring_theory.Radd_0_l R) in K. symmetry. exact K.
  Qed.
  Lemma mulm1 : forall x, fmul o (fopp o (f1 o)) x = fopp o x.
  Proof using R.
    intros x. assert (H : fadd o (fmul o (fopp o (f1 o)) x) x = f0 o).
    { rewrite <- (mul1l x) at 2. rewrite <- (Ring_theory.Rdistr_l R).
      rewrite (Ring_theory.Radd_comm R (fopp o (f1 o))), (Ring_theory.Ropp_def R). apply mul0l. }
    assert (K : fadd o (fadd o (fmul o (fopp o (f1 o)) x) x) (fopp o x) = fadd o (f0 o) (fopp o x)) by (rewrite H; reflexivity).
    rewrite <- (Ring_theory.Radd_assoc R), (Ring_theory.Ropp_def R) in K.
    rewrite (Ring_theory.Radd_comm R), !(Ring_theory.Radd_0_l R) in K. exact K.
  Qed.

  (* ---------------------------------------------------------------- *)
  (** ** Vector elements *)

  Lemma delta_prod : forall s t : list nat, length s = length t ->
    fold_right (fmul o) (f1 o) (map2 (fun a b => if a =? b then f1 o else f0 o) s t)
    = if list_eq_dec Nat.eq_dec s t then f1 o else f0 o.
  Proof using R.
    induction s as [|a s IH]; intros [|b t] H; try discriminate; [reflexivity|].
    cbn [map2 fold_right]. rewrite IH by (simpl in H; lia).
    destruct (list_eq_dec Nat.eq_dec s t) as [->|Ne].
    - destruct (Nat.eqb_spec a b) as [->|Nab].
      + destruct (list_eq_dec Nat.eq_dec (b :: t) (b :: t)); [apply mul1l | congruence].
      + destruct (list_eq_dec Nat.eq_dec (a :: t) (b :: t)); [congruence | apply mul0l].
    - destruct (list_eq_dec Nat.eq_dec (a :: s) (b :: t)); [congruence|].
      rewrite (Ring_theory.Rmul_comm R). apply mul0l.
  Qed.

  Lemma map2_length_eq : forall A B C (f : A -> B -> C) a b, length a = length b -> length (map2 f a b) = length a.
  Proof. induction a as [|x a IH]; intros [|y b] H; try discriminate; [reflexivity|]. simpl. rewrite IH; simpl in H; lia. Qed.

  Lemma deltas_ok : forall shape n m, shape <> [] ->
    exists g, reduce_product (map2 (fun j k => GDelta (IFree j) (IFree k)) (ixs n shape) (ixs m shape)) = Ok g /\
      gshape g = [] /\
      (forall x, In x (gfree g) <-> n <= x < n + length shape \/ m <= x < m + length shape) /\
      forall env s t, map (fun i => env (ix_id i)) (ixs n shape) = s -> map (fun i => env (ix_id i)) (ixs m shape) = t ->
        eval g env [] = if list_eq_dec Nat.eq_dec s t then f1 o else f0 o.
  Proof using R.
    intros shape n m Hne.
    set (l := map2 (fun j k => GDelta (IFree j) (IFree k)) (ixs n shape) (ixs m shape) : list gem).
    assert (Hl : l <> []).
    { destruct shape; [congruence|]. discriminate. }
    assert (Hs : Forall (fun g : gem => gshape g = []) l).
    { unfold l. generalize (ixs n shape), (ixs m shape). induction l0 as [|x l0 IH]; intros [|y l1]; constructor; [reflexivity | apply IH]. }
    destruct (reduce_product_ok l Hl Hs) as (g & Eg & Hsh & Hfr & Hev). exists g. split; [exact Eg|]. split; [exact Hsh|].
    split.
    - intros x. rewrite Hfr, <- (in_ixs_id n shape), <- (in_ixs_id m shape). unfold l.
      assert (He : length (ixs n shape) = length (ixs m shape)) by (rewrite !ixs_length; reflexivity).
      revert He. generalize (ixs n shape), (ixs m shape). clear. induction l as [|i l IH]; intros [|j l'] He; try discriminate; [simpl; tauto|].
      cbn [map2 flat_map map]. rewrite in_app_iff, IH by (simpl in He; lia). simpl. tauto.
    - intros env s t Hs1 Ht1. rewrite (Hev o vars env R). rewrite <- delta_prod.
      2:{ rewrite <- Hs1, <- Ht1, !map_length, !ixs_length. reflexivity. }
      f_equal. unfold l. rewrite <- Hs1, <- Ht1. generalize (ixs n shape), (ixs m shape). clear.
      induction l as [|i l IH]; intros [|j l']; try reflexivity. cbn [map2 map Gem.eval gidx_val]. rewrite IH. reflexivity.
  Qed.

  Lemma mapM_tables : forall (f : gem -> result gem) (P : list nat -> gem -> gem -> Prop) (ts : list (list nat * gem)),
    (forall a g, In (a, g) ts -> exists g', f g = Ok g' /\ P a g g') ->
    exists ts', mapM (fun ae => do x <- f (snd ae) ;; Ok (fst ae, x)) ts = Ok ts' /\
      map fst ts' = map fst ts /\ forall a g', In (a, g') ts' -> exists g, In (a, g) ts /\ P a g g'.
  Proof.
    induction ts as [|[a g] ts IH]; intros H.
    - exists []. repeat split. intros a g' [].
    - destruct IH as (ts' & E & Ek & Hts); [intros a' g0 Hin; apply (H a' g0); right; exact Hin|].
      destruct (H a g (or_introl eq_refl)) as (g' & Eg & HP).
      exists ((a, g') :: ts'). cbn [mapM fst snd]. rewrite Eg. cbn [bind]. rewrite E. cbn [bind].
      split; [reflexivity|]. split; [simpl; rewrite Ek; reflexivity|].
      intros a0 g0 [Eq|Hin].
      + injection Eq as <- <-. exists g. split; [left; reflexivity | exact HP].
      + destruct (Hts a0 g0 Hin) as (g1 & Hin1 & HP1). exists g1. split; [right; exact Hin1 | exact HP1].
  Qed.

  Lemma tensorise_ok : forall ish vsh shape (tr : bool) ts ids n,
    shape <> [] ->
    (forall a g, In (a, g) ts -> gshape g = ish ++ vsh /\ incl (gfree g) ids) ->
    (forall x, In x ids -> x < n) ->
    exists ts' n', tensorise ish vsh shape tr ts n = Ok (ts', n') /\ n <= n' /\ map fst ts' = map fst ts /\
      forall a g', In (a, g') ts' -> exists g, In (a, g) ts /\
        gshape g' = (if tr then shape ++ ish else ish ++ shape) ++ shape ++ vsh /\ incl (gfree g') ids /\
        forall env b s t v, length b = length ish -> length s = length shape -> length t = length shape ->
          length v = length vsh ->
          eval g' env ((if tr then s ++ b else b ++ s) ++ t ++ v)
          = if list_eq_dec Nat.eq_dec s t then eval g env (b ++ v) else f0 o.
  Proof using R.
    intros ish vsh shape tr ts ids n Hne Hts Hids. unfold tensorise, fbind. rewrite !new_indices_eq.
    set (n1 := n + length ish). set (n2 := n1 + length vsh). set (n3 := n2 + length shape). set (n4 := n3 + length shape).
    unfold flift.
    destruct (deltas_ok shape n2 n3 Hne) as (dl & Ed & Hdsh & Hdfr & Hdev). rewrite Ed. cbn [bind].
    set (ordering := if tr then ixs n2 shape ++ ixs n ish ++ ixs n3 shape ++ ixs n1 vsh
                     else ixs n ish ++ ixs n2 shape ++ ixs n3 shape ++ ixs n1 vsh).
    assert (Hids_o : forall x, In x (map ix_id ordering) <-> n <= x < n4).
    { intros x. unfold ordering. destruct tr; rewrite !map_app, !in_app_iff, !in_ixs_id; unfold n4, n3, n2, n1; lia. }
    assert (Hnd : NoDup (map ix_id ordering)).
    { apply (Permutation.Permutation_NoDup (l := seq n (length ish + length vsh + length shape + length shape)));
        [|apply seq_NoDup].
      rewrite !seq_app. unfold ordering.
      destruct tr; rewrite !map_app, !ixs_ids; unfold n3, n2, n1; rewrite ?Nat.add_assoc.
      - rewrite <- !app_assoc.
        etransitivity; [apply Permutation.Permutation_app_comm|]. rewrite <- !app_assoc.
        etransitivity; [apply Permutation.Permutation_app_comm|]. rewrite <- !app_assoc.
        apply Permutation.Permutation_app_head.
        etransitivity; [apply Permutation.Permutation_app_comm|]. rewrite <- !app_assoc.
        apply Permutation.Permutation_app_head. apply Permutation.Permutation_app_comm.
      - rewrite <- !app_assoc. apply Permutation.Permutation_app_head.
        etransitivity; [apply Permutation.Permutation_app_comm|]. rewrite <- !app_assoc. reflexivity. }
    edestruct (mapM_tables (fun e =>
        do x <- mk_indexed e (map IFree (ixs n ish ++ ixs n1 vsh)) ;;
        do p <- mk_product dl x ;; mk_component_tensor p ordering)
      (fun a g g' => gshape g' = (if tr then shape ++ ish else ish ++ shape) ++ shape ++ vsh /\ incl (gfree g') ids /\
        forall env b s t v, length b = length ish -> length s = length shape -> length t = length shape ->
          length v = length vsh ->
          eval g' env ((if tr then s ++ b else b ++ s) ++ t ++ v)
          = if list_eq_dec Nat.eq_dec s t then eval g env (b ++ v) else f0 o) ts)
      as (ts' & E & Ek & H').
    { intros a g Hin. destruct (Hts a g Hin) as [Hsh Hfr].
      rewrite mk_indexed_free by (rewrite map_app, !ixs_extents; symmetry; exact Hsh). cbn [bind].
      rewrite mk_product_ok by (exact Hdsh || reflexivity). cbn [bind].
      eexists. split.
      { apply mk_component_tensor_ok; [reflexivity|]. intros x Hx. apply Hids_o in Hx.
        cbn [gfree]. rewrite in_app_iff, Hdfr, mi_ids_free, map_app, !in_app_iff, !in_ixs_id. unfold n4, n3, n2, n1 in *. lia. }
      split; [cbn [gshape]; unfold ordering; destruct tr; rewrite !map_app, !ixs_extents, <- ?app_assoc; reflexivity|].
      split.
      { intros x Hx. cbn [gfree] in Hx. apply in_remove_ids in Hx as [Hx Hn]. rewrite Hids_o in Hn.
        rewrite in_app_iff, Hdfr, mi_ids_free, map_app, !in_app_iff, !in_ixs_id in Hx.
        destruct Hx as [Hx|[Hx|Hx]]; [|apply Hfr; exact Hx|]; unfold n4, n3, n2, n1 in *; lia. }
      intros env b s t v Lb Ls Lt Lv. cbn [Gem.eval].
      set (idx := (if tr then s ++ b else b ++ s) ++ t ++ v).
      set (env' := upds env ordering idx).
      assert (Hv : map (fun i => env' (ix_id i)) ordering = idx).
      { apply upds_vals; [exact Hnd|]. unfold idx, ordering. destruct tr; rewrite !app_length, !ixs_length; lia. }
      assert (Hparts : map (fun i => env' (ix_id i)) (ixs n ish) = b /\ map (fun i => env' (ix_id i)) (ixs n2 shape) = s /\
                       map (fun i => env' (ix_id i)) (ixs n3 shape) = t /\ map (fun i => env' (ix_id i)) (ixs n1 vsh) = v).
      { unfold ordering, idx in Hv. destruct tr; rewrite !map_app, <- ?app_assoc in Hv;
          (apply app_inj_len in Hv as [Ha Hv]; [|rewrite map_length, ixs_length; auto]);
          (apply app_inj_len in Hv as [Hb Hv]; [|rewrite map_length, ixs_length; auto]);
          (apply app_inj_len in Hv as [Hc Hv]; [|rewrite map_length, ixs_length; auto]); auto. }
      destruct Hparts as (Pb & Ps & Pt & Pv). rewrite (Hdev env' s t Ps Pt).
      rewrite map_map, map_app. cbn [gidx_val]. rewrite Pb, Pv.
      rewrite (eval_ext o vars g env' env).
      - destruct (list_eq_dec Nat.eq_dec s t); [apply mul1l | apply mul0l].
      - intros x Hx. unfold env'. apply upds_notin. rewrite Hids_o. specialize (Hids x (Hfr x Hx)). lia. }
    exists ts', n4.
    assert (Eq : forall l, mapM (fun ae : list nat * gem =>
        do x <- mk_indexed (snd ae) (map IFree (ixs n ish ++ ixs n1 vsh)) ;;
        do p <- mk_product dl x ;; do ct <- mk_component_tensor p ordering ;; Ok (fst ae, ct)) l
      = mapM (fun ae => do x <- (do x <- mk_indexed (snd ae) (map IFree (ixs n ish ++ ixs n1 vsh)) ;;
        do p <- mk_product dl x ;; mk_component_tensor p ordering) ;; Ok (fst ae, x)) l).
    { intros l. apply mapM_ext_in. intros [a g] _. cbn [fst snd].
      destruct (mk_indexed g (map IFree (ixs n ish ++ ixs n1 vsh))) as [x|]; [|reflexivity]. cbn [bind].
      destruct (mk_product dl x) as [p|]; [|reflexivity]. cbn [bind]. destruct (mk_component_tensor p ordering); reflexivity. }
    unfold tables in *. fold ordering. rewrite Eq, E. cbn [bind]. split; [reflexivity|]. split; [unfold n4, n3, n2, n1; lia|].
    split; [exact Ek | exact H'].
  Qed.

  (* ---------------------------------------------------------------- *)
  (** ** Componentwise transformations *)

  Local Notation slot_val := (Tabulation.slot_val o).
  Definition tr_slots (tr : gem -> result (list gem)) (wsh : list nat) (slots : list slot) : Prop :=
    forall v, gshape v = wsh ->
      exists us, tr v = Ok us /\
        Forall2 (fun s u => gshape u = [] /\ incl (gfree u) (gfree v) /\
                   (s <> SZero -> incl (gfree v) (gfree u)) /\
                   forall env, eval u env [] = slot_val (eval v env) s) slots us.

  Lemma mapF_tables : forall (f : gem -> fresh gem) (P : list nat -> gem -> gem -> Prop) (ts : list (list nat * gem)) n0,
    (forall a g n, In (a, g) ts -> n0 <= n -> exists g' n', f g n = Ok (g', n') /\ n <= n' /\ P a g g') ->
    forall n, n0 <= n ->
    exists ts' n', mapF (fun ae => x <~ f (snd ae) ;; fret (fst ae, x)) ts n = Ok (ts', n') /\ n <= n' /\
      map fst ts' = map fst ts /\ forall a g', In (a, g') ts' -> exists g, In (a, g) ts /\ P a g g'.
  Proof.
    induction ts as [|[a g] ts IH]; intros n0 H n Hn.
    - exists [], n. split; [reflexivity|]. repeat split; [lia|]. intros a g' [].
    - destruct (H a g n (or_introl eq_refl) Hn) as (g' & n1 & Eg & Hle & HP).
      destruct (IH n0 (fun a' g0 m Hin => H a' g0 m (or_intror Hin)) n1 ltac:(lia)) as (ts' & n2 & E & Hle2 & Ek & Hts).
      exists ((a, g') :: ts'), n2. cbn [mapF fst snd]. unfold fbind in E |- *. rewrite Eg. unfold fret at 1.
      rewrite E. split; [reflexivity|]. split; [lia|]. split; [simpl; rewrite Ek; reflexivity|].
      intros a0 g0 [Eq|Hin].
      + injection Eq as <- <-. exists g. split; [left; reflexivity | exact HP].
      + destruct (Hts a0 g0 Hin) as (g1 & Hin1 & HP1). exists g1. split; [right; exact Hin1 | exact HP1].
  Qed.

  Lemma mapF_ext : forall A B (f g : A -> fresh B) l, (forall x n, f x n = g x n) ->
    forall n, mapF f l n = mapF g l n.
  Proof.
    induction l as [|x l IH]; intros H n; [reflexivity|]. cbn [mapF]. unfold fbind. rewrite H.
    destruct (g x n) as [[y n']|e]; [|reflexivity]. rewrite IH by exact H. reflexivity.
  Qed.

  Lemma transform_ok : forall ish wsh slots tr ts ids n,
    tr_slots tr wsh slots -> (exists s, In s slots /\ s <> SZero) ->
    (forall neg v, In (SComp neg v) slots -> length v = length wsh) ->
    (forall a g, In (a, g) ts -> gshape g = ish ++ wsh /\ incl (gfree g) ids) ->
    (forall x, In x ids -> x < n) ->
    exists ts' n', transform_evaluation ish [length slots] tr ts n = Ok (ts', n') /\ n <= n' /\
      map fst ts' = map fst ts /\
      forall a g', In (a, g') ts' -> exists g, In (a, g) ts /\
        gshape g' = ish ++ [length slots] /\ incl (gfree g') ids /\
        forall env b c s, length b = length ish -> nth_error slots c = Some s ->
          eval g' env (b ++ [c]) = slot_val (fun w => eval g env (b ++ w)) s.
  Proof using R.
    intros ish wsh slots tr ts ids n Htr (s0 & Hs0 & Hs0n) Hcomp Hts Hids.
    unfold transform_evaluation. unfold fbind at 1. rewrite new_indices_eq. unfold fbind at 1. rewrite new_indices_eq.
    set (n1 := n + length ish). set (z := (n1, length slots) : ix).
    change (ixs n1 [length slots]) with [z]. change (n1 + length [length slots]) with (n1 + 1).
    assert (Hsl : 0 < length slots) by (destruct slots; [destruct Hs0 | simpl; lia]).
    edestruct (mapF_tables (fun t => v <~ partial_indexed t (ixs n ish) ;;
        flift (do us <- tr v ;; do u <- mk_list_tensor [length us] us ;;
             do x <- mk_indexed u (map IFree [z]) ;; mk_component_tensor x (ixs n ish ++ [z])))
       (fun a g g' => gshape g' = ish ++ [length slots] /\ incl (gfree g') ids /\
        forall env b c s, length b = length ish -> nth_error slots c = Some s ->
          eval g' env (b ++ [c]) = slot_val (fun w => eval g env (b ++ w)) s) ts (n1 + 1)) with (n := n1 + 1)
      as (ts' & n' & E & Hle & Ek & H').
    { intros a g m Hin Hm. destruct (Hts a g Hin) as [Hsh Hfr].
      destruct (partial_indexed_ok F g (ixs n ish) wsh m) as (v & m' & Ev & Hm' & Hvsh & Hvfr & Hvev).
      { rewrite ixs_extents. exact Hsh. }
      { intros x Hx. specialize (Hids x (Hfr x Hx)). unfold n1 in Hm. lia. }
      { intros i Hi. apply (in_map ix_id) in Hi. apply in_ixs_id in Hi. unfold n1 in Hm. lia. }
      unfold fbind. rewrite Ev. destruct (Htr v Hvsh) as (us & Eus & Hus). rewrite Eus. cbn [bind].
      assert (Hlu : length us = length slots) by (symmetry; apply (Forall2_length _ _ _ _ _ Hus)).
      assert (Hsc : Forall (fun u : gem => gshape u = []) us).
      { clear -Hus. induction Hus as [|s u slots us (H & _) Hus IH]; constructor; assumption. }
      rewrite mk_list_tensor_ok; [|simpl; lia|simpl; lia|exact Hsc]. cbn [bind].
      rewrite mk_indexed_free by (cbn [map gshape ix_extent snd z]; rewrite Hlu; reflexivity). cbn [bind].
      assert (Hfus : forall x, In x (flat_map gfree us) <-> In x (gfree v)).
      { intros x. rewrite in_flat_map. split.
        - intros (u & Hu & Hx). clear -Hus Hu Hx. induction Hus as [|s u' slots us (_ & Hi & _) Hus IH]; [destruct Hu|].
          destruct Hu as [->|Hu]; [apply Hi; exact Hx | apply IH; exact Hu].
        - intros Hx. clear -Hus Hs0 Hs0n Hx. induction Hus as [|s u' slots us (_ & _ & Hi & _) Hus IH]; [destruct Hs0|].
          destruct Hs0 as [->|Hs0].
          + exists u'. split; [left; reflexivity | apply Hi; assumption].
          + destruct (IH Hs0) as (u & Hu & Hxu). exists u. split; [right; exact Hu | exact Hxu]. }
      rewrite mk_component_tensor_ok; [|reflexivity|].
      2:{ intros x Hx. cbn [gfree]. rewrite mi_ids_free. rewrite map_app in Hx. rewrite in_app_iff in *.
          destruct Hx as [Hx|Hx]; [left|right; exact Hx]. apply Hfus, Hvfr. right. exact Hx. }
      unfold flift. cbn [bind]. eexists _, m'. split; [reflexivity|]. split; [exact Hm'|].
      split; [cbn [gshape]; rewrite map_app, ixs_extents; reflexivity|]. split.
      { intros x Hx. cbn [gfree] in Hx. apply in_remove_ids in Hx as [Hx Hn].
        rewrite mi_ids_free in Hx. rewrite map_app in Hn. rewrite in_app_iff in Hx, Hn.
        destruct Hx as [Hx|Hx]; [|tauto]. apply Hfus, Hvfr in Hx. destruct Hx as [Hx|Hx]; [apply Hfr; exact Hx | tauto]. }
      intros env b c s Hb Hc. cbn [Gem.eval]. set (env' := upds env (ixs n ish ++ [z]) (b ++ [c])).
      assert (Hn' : ix_id z = n + length ish) by reflexivity.
      assert (Hall : ixs n ish ++ [z] = ixs n (ish ++ [length slots])) by (rewrite ixs_app; reflexivity).
      assert (Hv : map (fun i => env' (ix_id i)) (ixs n ish ++ [z]) = b ++ [c]).
      { apply upds_vals; [rewrite Hall; apply ixs_NoDup|]. rewrite !app_length, ixs_length. simpl. lia. }
      rewrite map_app in Hv. apply app_inj_len in Hv as [Hvb Hvc]; [|rewrite map_length, ixs_length; auto].
      cbn [map] in Hvc. injection Hvc as Hvc.
      assert (Hvc' : env' (ix_id z) = c) by exact Hvc.
      cbn [map gidx_val]. rewrite Hvc'. cbn [ravel_strides prod].
      assert (Hclt : c < length us) by (rewrite Hlu; apply nth_error_Some; congruence).
      apply Nat.ltb_lt in Hclt as Hclt'. rewrite Hclt'. cbn [bind]. rewrite Nat.mul_1_r, Nat.add_0_r.
      assert (Hu : exists u, nth_error us c = Some u /\ gshape u = [] /\ forall env, eval u env [] = slot_val (eval v env) s).
      { clear -Hus Hc. revert c Hc. induction Hus as [|s' u slots us (Hsh & _ & _ & He) Hus IH]; intros [|c] Hc; try discriminate.
        - injection Hc as ->. exists u. repeat split; assumption.
        - apply IH. exact Hc. }
      destruct Hu as (u & Enu & Husc & Hue).
      assert (En : nth c (map (fun c0 => eval c0 env' []) us) (f0 o) = eval u env' []).
      { rewrite (nth_indep _ _ (eval u env' [])) by (rewrite map_length; exact Hclt).
        rewrite (map_nth (fun c0 => eval c0 env' [])). f_equal. apply nth_error_nth. exact Enu. }
      rewrite En, Hue. assert (Hs_in : In s slots) by (apply (nth_error_In _ _ Hc)).
      destruct s as [|neg w]; [reflexivity|]. cbn [slot_val].
      assert (Hw : eval v env' w = eval g env (b ++ w)).
      { rewrite Hvev by (apply (Hcomp neg); exact Hs_in). rewrite Hvb. apply eval_ext. intros x Hx. unfold env'.
        apply upds_notin. rewrite Hall, in_ixs_id. specialize (Hids x (Hfr x Hx)). lia. }
      rewrite Hw. reflexivity. }
    { lia. }
    exists ts', n'.
    erewrite mapF_ext; [|intros [a g] m; cbn [fst snd]].
    2:{ instantiate (1 := fun ae => x <~ (v <~ partial_indexed (snd ae) (ixs n ish) ;;
        flift (do us <- tr v ;; do u <- mk_list_tensor [length us] us ;;
             do x <- mk_indexed u (map IFree [z]) ;; mk_component_tensor x (ixs n ish ++ [z]))) ;; fret (fst ae, x)).
        cbn [fst snd]. unfold fbind, flift, fret. destruct (partial_indexed g (ixs n ish) m) as [[v m']|]; [|reflexivity].
        destruct (tr v) as [us|]; [|reflexivity]. cbn [bind]. destruct (mk_list_tensor [length us] us) as [u|]; [|reflexivity].
        cbn [bind]. destruct (mk_indexed u (map IFree [z])) as [x|]; [|reflexivity]. cbn [bind].
        destruct (mk_component_tensor x (ixs n ish ++ [z])); reflexivity. }
    cbn beta in E. unfold tables in *. rewrite E. split; [reflexivity|]. split; [unfold n1 in Hle; lia|]. split; [exact Ek | exact H'].
  Qed.
End Composite.
