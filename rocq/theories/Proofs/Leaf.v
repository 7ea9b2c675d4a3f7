(** Tabulation of FIAT leaves. *)
From Coq Require Import String List Arith Lia Bool.
From Verif Require Import Model.Prelude Model.Cell Model.Element Model.Gem Model.PointSet Model.Evaluation.
From Verif Require Import Spec.Rowmajor Spec.EntityDofs Spec.Layout Spec.Tabulation.
From Verif Require Import Proofs.Lists Proofs.GemEval Proofs.Tables Proofs.Tables2.
Import ListNotations.
Open Scope fresh_scope.

(* ------------------------------------------------------------------ *)
(** ** Points *)

Lemma nth_error_cart : forall A (ls : list (list A)) js xs,
  Forall2 (fun lj x => nth_error (fst lj) (snd lj) = Some x) (combine ls js) xs -> length js = length ls ->
  nth_error (cart ls) (ravel (map (@length A) ls) js) = Some xs.
Proof.
  induction ls as [|l ls IH]; intros [|j js] xs H Hl; try discriminate.
  - inversion H; subst. reflexivity.
  - cbn [combine] in H. inversion H as [|? x ? xs' Hx H']; subst. cbn [fst snd] in Hx.
    specialize (IH js xs' H' ltac:(simpl in Hl; lia)). cbn [cart map ravel].
    assert (Hc : length (cart ls) = prod (map (@length A) ls)) by apply cart_length.
    rewrite <- Hc. clear H H' Hl.
    assert (Hlt : ravel (map (@length A) ls) js < length (cart ls)) by (apply nth_error_Some; congruence).
    revert j Hx. induction l as [|y l IHl]; intros [|j] Hx; try discriminate.
    + injection Hx as ->. cbn [flat_map Nat.mul Nat.add].
      rewrite nth_error_app1 by (rewrite map_length; exact Hlt).
      rewrite nth_error_map, IH. reflexivity.
    + cbn [flat_map]. rewrite nth_error_app2 by (rewrite map_length; lia). rewrite map_length.
      replace (S j * length (cart ls) + ravel (map (@length A) ls) js - length (cart ls))
        with (j * length (cart ls) + ravel (map (@length A) ls) js) by lia.
      apply IHl. exact Hx.
Qed.

Lemma ravel_concat : forall shs idxs, Forall2 (fun s i => length s = length i) shs idxs ->
  ravel (concat shs) (concat idxs) = ravel (map prod shs) (map2 ravel shs idxs).
Proof.
  induction 1 as [|s i shs idxs Hl H IH]; [reflexivity|]. cbn [concat map map2 ravel].
  rewrite ravel_app by exact Hl. rewrite IH, prod_concat. reflexivity.
Qed.

Section Points.
  Context {F : Type}.

  Lemma pset_ind' (P : pset F -> Prop) :
    (forall pt, P (PSingleton pt)) -> (forall s N D i, P (PUnknown s N D i)) ->
    (forall k D pts ixs, P (PPoints k D pts ixs)) ->
    (forall qs, Forall P qs -> P (PTensor qs)) -> forall ps, P ps.
  Proof.
    intros H1 H2 H3 H4. fix IH 1. intros [pt|s N D i|k D pts ixs|qs].
    - apply H1.
    - apply H2.
    - apply H3.
    - apply H4. induction qs as [|q qs IHq]; constructor; [apply IH | exact IHq].
  Qed.

  Definition extents (ps : pset F) : list nat := map ix_extent (ps_indices ps).
  Definition values (ps : pset F) (env : nat -> nat) : list nat := map (fun i => env (ix_id i)) (ps_indices ps).

  Lemma env_ok_in_shape : forall ps env, env_ok ps env -> in_shape (extents ps) (values ps env).
  Proof.
    intros ps env H. unfold extents, values, env_ok in *. revert H. generalize (ps_indices ps).
    induction l as [|i l IH]; intros H; constructor; [apply H; left; reflexivity|].
    apply IH. intros j Hj. apply H. right. exact Hj.
  Qed.

  Lemma ps_points_ok : forall ps : pset F, ps_ok ps ->
    exists pts, ps_points ps = Ok pts /\ length pts = prod (extents ps) /\ pts <> [] /\
      (forall p, In p pts -> length p = psdim ps) /\
      forall env, env_ok ps env -> nth_error pts (ravel (extents ps) (values ps env)) = Some (pt_at ps env).
  Proof.
    induction ps as [pt|s N D i|k D pts ixs|qs IH] using pset_ind'; intros Hok.
    - exists [pt]. split; [reflexivity|]. split; [reflexivity|]. split; [discriminate|].
      split; [intros p [<-|[]]; reflexivity | reflexivity].
    - inversion Hok.
    - inversion Hok as [|? ? ? ? Hne Hlen Hdim|]; subst. exists pts. split; [reflexivity|].
      assert (Hp : length pts = prod (extents (PPoints k D pts ixs))) by (rewrite <- Hlen; apply prod_fold).
      split; [exact Hp|]. split; [exact Hne|]. split; [exact Hdim|].
      intros env He. apply env_ok_in_shape in He. pose proof (ravel_lt _ _ He) as Hlt. rewrite <- Hp in Hlt.
      cbn [pt_at]. rewrite rowmajor_ravel by (rewrite !map_length; reflexivity).
      apply nth_error_nth'. exact Hlt.
    - inversion Hok as [| |? Hqs]; subst. cbn [ps_points].
      assert (Hex : exists ls, mapM ps_points qs = Ok ls /\
        map (@length (list F)) ls = map (fun q => prod (extents q)) qs /\
        Forall (fun l => l <> []) ls /\
        Forall2 (fun q l => (forall p, In p l -> length p = psdim q) /\
           forall env, env_ok q env -> nth_error l (ravel (extents q) (values q env)) = Some (pt_at q env)) qs ls).
      { clear Hok. induction Hqs as [|q qs Hq Hqs IHq]; [exists []; repeat split; constructor|].
        inversion IH as [|? ? H1 H2]; subst. destruct (H1 Hq) as (pts & E & Hl & Hne & Hd & Hn).
        destruct (IHq H2) as (ls & E' & Hl' & Hne' & Hf). exists (pts :: ls). cbn [mapM]. rewrite E. cbn [bind]. rewrite E'. cbn [bind].
        split; [reflexivity|]. split; [cbn [map]; rewrite Hl, Hl'; reflexivity|].
        split; [constructor; assumption|]. constructor; [split; assumption | exact Hf]. }
      destruct Hex as (ls & E & Hl & Hne & Hf). rewrite E. cbn [bind]. eexists. split; [reflexivity|].
      assert (Hext : extents (PTensor qs) = concat (map extents qs)).
      { unfold extents. cbn [ps_indices]. rewrite flat_map_concat_map, concat_map, map_map. reflexivity. }
      assert (Hval : forall env, values (PTensor qs) env = concat (map (fun q => values q env) qs)).
      { intros env. unfold values. cbn [ps_indices]. rewrite flat_map_concat_map, concat_map, map_map. reflexivity. }
      rewrite map_length, cart_length, Hl, Hext, prod_concat, map_map. split; [reflexivity|].
      split.
      { intros Hn. apply map_eq_nil in Hn. clear -Hne Hn.
        assert (Hz : prod (map (@length (list F)) ls) = 0) by (rewrite <- cart_length, Hn; reflexivity).
        induction Hne as [|l ls Hx Hne IH]; [discriminate|]. cbn [map prod] in Hz.
        destruct l; [congruence|]. simpl in Hz. assert (Hz' : prod (map (@length (list F)) ls) = 0) by lia.
        apply IH; [|exact Hz']. destruct (cart ls) eqn:Ec; [reflexivity|].
        pose proof (cart_length _ ls) as Hc. rewrite Ec in Hc. simpl in Hc. lia. }
      split.
      { intros p Hp. apply in_map_iff in Hp as (t & <- & Ht). apply in_cart in Ht. cbn [psdim].
        clear -Ht Hf. revert t Ht. induction Hf as [|q l qs ls [Hd _] Hf IH]; intros t Ht.
        - inversion Ht; subst. reflexivity.
        - inversion Ht as [|x ? t' ? Hx Ht']; subst. cbn [concat map fold_right]. rewrite app_length, (Hd x Hx), (IH t' Ht'). reflexivity. }
      intros env He. rewrite Hval, ravel_concat.
      2:{ apply Forall2_same_map. intros q _. unfold extents, values. rewrite !map_length. reflexivity. }
      rewrite map_map.
      assert (Hcart : nth_error (cart ls) (ravel (map (@length (list F)) ls) (map2 ravel (map extents qs) (map (fun q => values q env) qs)))
                      = Some (map (fun q => pt_at q env) qs)).
      { apply nth_error_cart.
        - assert (He' : Forall (fun q => env_ok q env) qs).
          { apply Forall_forall. intros q Hq i Hi. apply He. cbn [ps_indices]. apply in_flat_map. exists q. split; assumption. }
          clear -Hf He'. induction Hf as [|q l qs ls [_ Hn] Hf IH]; [constructor|].
          inversion He'; subst. cbn [map map2 combine]. constructor; [apply Hn; assumption | apply IH; assumption].
        - rewrite map2_length by (rewrite !map_length; reflexivity). rewrite map_length. apply (Forall2_length _ _ _ _ _ Hf). }
      rewrite Hl in Hcart. rewrite nth_error_map, Hcart. reflexivity.
  Qed.
End Points.

(* ------------------------------------------------------------------ *)
(** ** Arrays *)

Section ArrayFacts.
  Context {F : Type} (o : ops F).
  Local Notation arr := (arr F).

  Definition arr_wf (a : arr) : Prop := length (a_data a) = prod (a_shape a).

  Lemma arr_at_in : forall (a : arr) idx, in_shape (a_shape a) idx -> arr_at o a idx = nth (ravel (a_shape a) idx) (a_data a) (f0 o).
  Proof. intros a idx H. unfold arr_at. rewrite (ravel_strides_ok _ _ H). reflexivity. Qed.

  Lemma array_of_wf : forall sh (f : list nat -> F), arr_wf (array_of sh f).
  Proof.
    intros sh f. unfold arr_wf, array_of. cbn [a_data a_shape]. rewrite map_length, cart_length, map_map.
    erewrite map_ext; [|intros d; apply seq_length]. rewrite map_id. reflexivity.
  Qed.

  Lemma array_of_at : forall sh (f : list nat -> F) idx, in_shape sh idx -> arr_at o (array_of sh f) idx = f idx.
  Proof.
    intros sh f idx H. rewrite arr_at_in by exact H. cbn [array_of a_shape a_data]. rewrite cart_seq, map_map.
    pose proof (ravel_lt _ _ H) as Hlt.
    rewrite nth_map_seq by exact Hlt. rewrite unravel_ravel by exact H. reflexivity.
  Qed.

  Lemma reshape_ok : forall (a : arr) sh, prod (a_shape a) = prod sh -> reshape a sh = Ok (mkArr sh (a_data a)).
  Proof. intros a sh H. unfold reshape. rewrite H, Nat.eqb_refl. reflexivity. Qed.

  Lemma arr_rows_length : forall (a : arr) d s, a_shape a = d :: s -> length (arr_rows a) = d.
  Proof. intros a d s H. unfold arr_rows. rewrite H, map_length, seq_length. reflexivity. Qed.

  Lemma nth_firstn_skipn : forall A (l : list A) k m j d, j < m -> nth j (firstn m (skipn k l)) d = nth (k + j) l d.
  Proof.
    intros A l k m j d H. revert l m j H. induction k as [|k IH]; intros l m j H; cbn [skipn Nat.add].
    - revert m j H. induction l as [|x l IHl]; intros [|m] [|j] H; try lia; try reflexivity; cbn [firstn nth].
      apply IHl. lia.
    - destruct l as [|x l]; [rewrite firstn_nil; destruct j; reflexivity|]. cbn [nth]. apply IH. exact H.
  Qed.

  Lemma arr_rows_nth : forall (a : arr) d s i, a_shape a = d :: s -> arr_wf a -> i < d ->
    exists r, nth_error (arr_rows a) i = Some r /\ a_shape r = s /\ arr_wf r /\
      forall idx, in_shape s idx -> arr_at o r idx = arr_at o a (i :: idx).
  Proof.
    intros a d s i Hs Hw Hi. unfold arr_rows. rewrite Hs. unfold arr_wf in Hw. rewrite Hs in Hw. cbn [prod] in Hw.
    exists (mkArr s (firstn (prod s) (skipn (i * prod s) (a_data a)))). split.
    { rewrite nth_error_map. replace (nth_error (seq 0 d) i) with (Some i); [reflexivity|].
      rewrite (nth_error_nth' _ 0) by (rewrite seq_length; exact Hi). rewrite seq_nth by exact Hi. reflexivity. }
    split; [reflexivity|]. split.
    { unfold arr_wf. cbn [a_data a_shape]. rewrite firstn_length, skipn_length, Hw. nia. }
    intros idx Hx. rewrite arr_at_in by exact Hx. rewrite arr_at_in by (rewrite Hs; constructor; assumption).
    cbn [a_shape a_data]. rewrite Hs. cbn [ravel]. apply nth_firstn_skipn. apply ravel_lt. exact Hx.
  Qed.

  Lemma arr_data_at : forall (a : arr) x, arr_wf a -> In x (a_data a) ->
    exists idx, in_shape (a_shape a) idx /\ arr_at o a idx = x.
  Proof.
    intros a x Hw Hx. apply In_nth with (d := f0 o) in Hx as (k & Hk & E). rewrite Hw in Hk.
    exists (unravel_digits (a_shape a) k). split; [apply unravel_in_shape; exact Hk|].
    rewrite arr_at_in by (apply unravel_in_shape; exact Hk). rewrite ravel_unravel by exact Hk. exact E.
  Qed.

  Lemma transpose_ok : forall (a : arr) d0 d1 d2, a_shape a = [d0; d1; d2] ->
    exists t, transpose120 o a = Ok t /\ a_shape t = [d1; d2; d0] /\ arr_wf t /\
      forall i j k, i < d0 -> j < d1 -> k < d2 -> arr_at o t [j; k; i] = arr_at o a [i; j; k].
  Proof.
    intros a d0 d1 d2 H. unfold transpose120. rewrite H. eexists. split; [reflexivity|]. split; [reflexivity|].
    split; [apply array_of_wf|]. intros i j k Hi Hj Hk. rewrite array_of_at; [reflexivity|].
    constructor; [exact Hj|]. constructor; [exact Hk|]. constructor; [exact Hi | constructor].
  Qed.
End ArrayFacts.

(* ------------------------------------------------------------------ *)
(** ** fiat_basis_evaluation *)

Section Fiat.
  Context {F : Type} (o : ops F) (vars : string -> list nat -> F) (l : leaf F).
  Context (Hclose : fclose0 o (f0 o) = true) (Hish : lf_ishape l = [lf_dim l])
          (Hvpos : Forall (lt 0) (lf_vshape l)).
  Local Notation gem := (gem F).
  Local Notation eval := (eval o vars).

  (** What one row of a table must satisfy. *)
  Definition row_ok (ps : pset F) (pts : list (list F)) (alpha : list nat) (ent : dimkey * nat) (v : list nat) (r : arr F) : Prop :=
    a_shape r = [length pts; lf_dim l] /\ arr_wf r /\
    forall p i, p < length pts -> i < lf_dim l -> arr_at o r [p; i] = lf_tab l alpha ent (nth p pts []) i v.

  Definition expr_ok (ps : pset F) (alpha : list nat) (ent : dimkey * nat) (v : list nat) (g : gem) : Prop :=
    gshape g = [lf_dim l] /\ incl (gfree g) (map ix_id (ps_indices ps)) /\
    forall env i, env_ok ps env -> i < lf_dim l -> eval g env [i] = lf_tab l alpha ent (pt_at ps env) i v.

  Lemma fiat_expr_ok : forall ps pts alpha ent v r n,
    fiat_polynomial o l -> ps_ok ps -> ps_points ps = Ok pts -> row_ok ps pts alpha ent v r ->
    (forall i, In i (ps_indices ps) -> ix_id i < n) ->
    exists g n', fiat_expr o l (sum alpha) ps r n = Ok (g, n') /\ n <= n' /\ expr_ok ps alpha ent v g.
  Proof using Hclose Hish.
    intros ps pts alpha ent v r n (d & Hd & Hconst & Hzero) Hps Hpts (Hsh & Hw & Hat) Hn.
    destruct (ps_points_ok ps Hps) as (pts' & Hpts' & Hlen & Hne & _ & Hnth). rewrite Hpts in Hpts'. injection Hpts' as <-.
    assert (Hpt : forall env, env_ok ps env -> exists p, p = ravel (extents ps) (values ps env) /\ p < length pts /\ nth p pts [] = pt_at ps env).
    { intros env He. exists (ravel (extents ps) (values ps env)). split; [reflexivity|]. split.
      - rewrite Hlen. apply ravel_lt, env_ok_in_shape, He.
      - apply nth_error_nth. apply Hnth. exact He. }
    unfold fiat_expr. rewrite Hd.
    destruct ((sum alpha =? d) && negb (lf_macro l)) eqn:E1.
    - apply andb_prop in E1 as [E1 E2]. apply Nat.eqb_eq in E1. apply negb_true_iff in E2.
      assert (Hpos : 0 < length pts) by (destruct pts; [congruence | simpl; lia]).
      destruct (arr_rows_nth o r (length pts) [lf_dim l] 0 Hsh Hw Hpos) as (t0 & Et0 & Hsh0 & Hw0 & Hat0).
      destruct (arr_rows r) as [|t rows]; [discriminate|]. injection Et0 as ->.
      unfold flift. cbn [bind]. exists (GLiteral t0), n. split; [reflexivity|]. split; [lia|].
      split; [exact Hsh0|]. split; [intros x []|]. intros env i He Hi. cbn [Gem.eval].
      rewrite Hat0 by (constructor; [exact Hi | constructor]). rewrite Hat by assumption.
      apply Hconst; assumption.
    - destruct (d <? sum alpha) eqn:E2.
      + apply Nat.ltb_lt in E2.
        assert (Hz : forallb (fclose0 o) (a_data r) = true).
        { apply forallb_forall. intros x Hx. destruct (arr_data_at o r x Hw Hx) as (idx & Hin & <-).
          rewrite Hsh in Hin. inversion Hin as [|? p ? idx' Hp Hin']; subst. inversion Hin' as [|? i ? idx'' Hi Hin'']; subst.
          inversion Hin''; subst. rewrite Hat by assumption. rewrite Hzero by exact E2. exact Hclose. }
        rewrite Hz. cbn [guard bind flift]. unfold flift. cbn [bind]. eexists _, n. split; [reflexivity|]. split; [lia|].
        rewrite Hish. split; [reflexivity|]. split; [intros x []|]. intros env i He Hi. cbn [Gem.eval]. unfold zeros.
        rewrite array_of_at by (constructor; [exact Hi | constructor]). symmetry. apply Hzero. exact E2.
      + fold (extents ps). unfold fbind. unfold flift at 1.
        rewrite reshape_ok by (rewrite Hsh, prod_app; cbn [prod]; rewrite Hlen; lia). cbn [bind].
        destruct (partial_indexed_ok F (GLiteral (mkArr (extents ps ++ [lf_dim l]) (a_data r))) (ps_indices ps) [lf_dim l] n)
          as (g & n' & Eg & Hle & Hgs & Hgf & Hge); [reflexivity | intros x [] | exact Hn|].
        rewrite Eg. exists g, n'. split; [reflexivity|]. split; [exact Hle|]. split; [exact Hgs|].
        split; [intros x Hx; apply Hgf in Hx as [[]|Hx]; exact Hx|].
        intros env i He Hi. rewrite Hge by reflexivity. cbn [Gem.eval]. fold (values ps env).
        pose proof (env_ok_in_shape ps env He) as Hin.
        rewrite arr_at_in by (cbn [a_shape]; apply in_shape_app; [exact Hin | constructor; [exact Hi | constructor]]).
        destruct (Hpt env He) as (p & Ep & Hp & Hnp). rewrite <- Hnp. rewrite <- Hat by assumption.
        rewrite arr_at_in by (rewrite Hsh; constructor; [exact Hp | constructor; [exact Hi | constructor]]).
        cbn [a_shape a_data]. rewrite ravel_app by (apply in_shape_length; exact Hin). rewrite Hsh, <- Ep.
        f_equal; cbn [ravel prod]; lia.
  Qed.

  Lemma fiat_exprs_ok : forall ps pts alpha ent rows vs n,
    fiat_polynomial o l -> ps_ok ps -> ps_points ps = Ok pts ->
    Forall2 (fun v r => row_ok ps pts alpha ent v r) vs rows ->
    (forall i, In i (ps_indices ps) -> ix_id i < n) ->
    exists gs n', mapF (fiat_expr o l (sum alpha) ps) rows n = Ok (gs, n') /\ n <= n' /\
      Forall2 (fun v g => expr_ok ps alpha ent v g) vs gs.
  Proof using Hclose Hish.
    intros ps pts alpha ent rows vs n Hpoly Hps Hpts H. revert n.
    induction H as [|v r vs rows Hr H IH]; intros n Hn.
    - exists [], n. split; [reflexivity|]. split; [lia | constructor].
    - destruct (fiat_expr_ok ps pts alpha ent v r n Hpoly Hps Hpts Hr Hn) as (g & n1 & E1 & Hle1 & Hg).
      destruct (IH n1) as (gs & n2 & E2 & Hle2 & Hgs); [intros i Hi; specialize (Hn i Hi); lia|].
      exists (g :: gs), n2. cbn [mapF]. unfold fbind. rewrite E1, E2. split; [reflexivity|]. split; [lia|].
      constructor; assumption.
  Qed.

  Lemma fiat_alpha_ok : forall ps pts alpha ent n,
    fiat_polynomial o l -> ps_ok ps -> ps_points ps = Ok pts ->
    (forall i, In i (ps_indices ps) -> ix_id i < n) ->
    exists g n', fiat_alpha o l ps (length pts) alpha
        (array_of (lf_dim l :: lf_vshape l ++ [length pts])
           (fun idx => match idx with [] => f0 o
                       | i :: r => lf_tab l alpha ent (nth (last r 0) pts []) i (removelast r) end)) n = Ok (g, n') /\
      n <= n' /\ advertised ps (lf_ishape l) (lf_vshape l) g /\
      forall env i v, env_ok ps env -> i < lf_dim l -> in_shape (lf_vshape l) v ->
        eval g env ([i] ++ v) = lf_tab l alpha ent (pt_at ps env) i v.
  Proof using Hclose Hish Hvpos.
    intros ps pts alpha ent n Hpoly Hps Hpts Hn. unfold fiat_alpha. rewrite Hish.
    set (T := array_of (lf_dim l :: lf_vshape l ++ [length pts]) _).
    set (np := length pts). set (pv := prod (lf_vshape l)).
    assert (HTs : a_shape T = lf_dim l :: lf_vshape l ++ [np]) by reflexivity.
    assert (HT : forall i v p, i < lf_dim l -> in_shape (lf_vshape l) v -> p < np ->
              arr_at o T (i :: v ++ [p]) = lf_tab l alpha ent (nth p pts []) i v).
    { intros i v p Hi Hv Hp. unfold T. rewrite array_of_at.
      - rewrite last_last, removelast_last. reflexivity.
      - constructor; [exact Hi|]. apply in_shape_app; [exact Hv | constructor; [exact Hp | constructor]]. }
    clearbody T.
    assert (Hpos : 0 < pv) by (apply prod_pos; exact Hvpos).
    unfold fbind at 1. unfold flift at 1.
    rewrite reshape_ok by (rewrite HTs; cbn [prod]; rewrite prod_app; cbn [prod]; fold pv; nia). cbn [bind].
    set (A := mkArr [lf_dim l; pv; np] (a_data T)).
    destruct (transpose_ok o A (lf_dim l) pv np eq_refl) as (TR & ETR & HTRs & HTRw & HTRat).
    unfold fbind at 1. unfold flift at 1. rewrite ETR. cbn [bind].
    assert (HA : forall i v p, i < lf_dim l -> in_shape (lf_vshape l) v -> p < np ->
              arr_at o A [i; ravel (lf_vshape l) v; p] = lf_tab l alpha ent (nth p pts []) i v).
    { intros i v p Hi Hv Hp. rewrite <- HT by assumption.
      pose proof (ravel_lt _ _ Hv) as Hr. fold pv in Hr.
      rewrite arr_at_in by (constructor; [exact Hi|]; constructor; [exact Hr|]; constructor; [exact Hp | constructor]).
      rewrite arr_at_in by (rewrite HTs; constructor; [exact Hi|]; apply in_shape_app; [exact Hv | constructor; [exact Hp | constructor]]).
      rewrite HTs. cbn [A a_shape a_data ravel prod]. f_equal.
      rewrite ravel_app by (apply in_shape_length; exact Hv). rewrite prod_app. cbn [ravel prod]. fold pv. nia. }
    assert (Hrows : Forall2 (fun v r => row_ok ps pts alpha ent v r) (map (unravel_digits (lf_vshape l)) (seq 0 pv)) (arr_rows TR)).
    { rewrite Forall2_map_l. unfold arr_rows. rewrite HTRs. rewrite Forall2_map_r.
      assert (Hid : forall L, (forall j, In j L -> j < pv) -> Forall2 (fun x y => row_ok ps pts alpha ent (unravel_digits (lf_vshape l) x)
              (mkArr [np; lf_dim l] (firstn (prod [np; lf_dim l]) (skipn (y * prod [np; lf_dim l]) (a_data TR))))) L L).
      { induction L as [|j L IH]; intros HL; constructor; [|apply IH; intros k Hk; apply HL; right; exact Hk].
        assert (Hj : j < pv) by (apply HL; left; reflexivity).
        destruct (arr_rows_nth o TR pv [np; lf_dim l] j HTRs HTRw Hj) as (r & Er & Hs & Hw & Hr).
        unfold arr_rows in Er. rewrite HTRs, nth_error_map in Er.
        replace (nth_error (seq 0 pv) j) with (Some j) in Er
          by (symmetry; rewrite (nth_error_nth' _ 0) by (rewrite seq_length; exact Hj); rewrite seq_nth by exact Hj; reflexivity).
        cbn [option_map] in Er. injection Er as <-.
        split; [exact Hs|]. split; [exact Hw|]. intros p i Hp Hi.
        rewrite Hr by (constructor; [exact Hp|]; constructor; [exact Hi | constructor]).
        rewrite HTRat by assumption. rewrite <- HA by (trivial; apply unravel_in_shape; exact Hj).
        rewrite ravel_unravel by exact Hj. reflexivity. }
      apply Hid. intros j Hj. apply in_seq in Hj. lia. }
    destruct (fiat_exprs_ok ps pts alpha ent (arr_rows TR) _ n Hpoly Hps Hpts Hrows Hn) as (gs & n1 & Egs & Hle1 & Hgs).
    unfold fbind at 1. rewrite Egs.
    assert (Hlg : length gs = pv) by (rewrite <- (Forall2_length _ _ _ _ _ Hgs), map_length, seq_length; reflexivity).
    assert (Hge : forall v, in_shape (lf_vshape l) v -> exists g, nth_error gs (ravel (lf_vshape l) v) = Some g /\ expr_ok ps alpha ent v g).
    { intros v Hv. pose proof (ravel_lt _ _ Hv) as Hr. fold pv in Hr.
      destruct (nth_error gs (ravel (lf_vshape l) v)) as [g|] eqn:Eg; [|apply nth_error_None in Eg; lia].
      exists g. split; [reflexivity|].
      pose proof (Forall2_nth _ _ _ _ _ (ravel (lf_vshape l) v) [] g Hgs) as Hx.
      rewrite map_length, seq_length in Hx. specialize (Hx Hr).
      rewrite (nth_error_nth _ _ _ Eg), nth_map_seq, unravel_ravel in Hx by assumption. exact Hx. }
    assert (Hpv : pv = prod (lf_vshape l)) by reflexivity. clearbody pv.
    destruct (lf_vshape l) as [|v0 vs] eqn:Evs.
    - (* scalar-valued *)
      cbn [prod] in Hpv. subst pv. destruct gs as [|g [|g' gs]]; try discriminate Hpv. exists g, n1. split; [reflexivity|]. split; [exact Hle1|].
      destruct (Hge []) as (g' & Eg' & Hg'); [constructor|]. injection Eg' as <-. destruct Hg' as (Hs & Hf & He).
      split; [split; [exact Hs | exact Hf]|]. intros env i v Hen Hi Hv. inversion Hv; subst. apply He; assumption.
    - rewrite <- Evs in *. subst pv. rename Hpv into Hlg. rewrite Hlg in Hpos. assert (Hvne : lf_vshape l <> []) by congruence. clear Evs v0 vs.
      unfold fbind. rewrite !new_indices_eq.
      change (length (ixs n1 [lf_dim l])) with 1. change (length (ixs (n1 + length [lf_dim l]) [lf_dim l])) with 1.
      unfold flift at 1. cbn [Nat.eqb guard bind]. rewrite new_indices_eq.
      set (m := n1 + length [lf_dim l] + length [lf_dim l]). set (be := (n1, lf_dim l) : ix).
      change (ixs n1 [lf_dim l]) with [be]. cbn [length] in m.
      assert (Hshapes : Forall (fun g => gshape g = [lf_dim l]) gs).
      { clear -Hgs. induction Hgs as [|v g vs gs (H & _) Hgs IH]; constructor; assumption. }
      assert (Hfrees : forall g, In g gs -> incl (gfree g) (map ix_id (ps_indices ps))).
      { clear -Hgs. induction Hgs as [|v g vs gs (_ & H & _) Hgs IH]; [intros ? []|]. intros g' [<-|Hin]; [exact H | apply IH; exact Hin]. }
      assert (Hitems : mapM (fun expr => mk_indexed expr (map IFree [be])) gs = Ok (map (fun g => GIndexed g (map IFree [be])) gs)).
      { apply mapM_all_ok. intros g Hg. rewrite Forall_forall in Hshapes. apply mk_indexed_free. rewrite (Hshapes g Hg). reflexivity. }
      unfold flift. rewrite Hitems. cbn [bind].
      rewrite mk_list_tensor_ok; [|exact Hpos|rewrite map_length; exact Hlg|].
      2:{ apply Forall_forall. intros g Hg. apply in_map_iff in Hg as (g' & <- & _). reflexivity. }
      cbn [bind]. rewrite mk_indexed_free by (cbn [gshape]; apply ixs_extents). cbn [bind].
      assert (Hgne : gs <> []) by (destruct gs; [simpl in Hlg; lia | discriminate]).
      rewrite mk_component_tensor_ok; [|reflexivity|].
      2:{ intros x Hx. cbn [gfree]. rewrite mi_ids_free. rewrite map_app in Hx. rewrite in_app_iff in *.
          destruct Hx as [Hx|Hx]; [left | right; exact Hx]. destruct Hx as [<-|[]].
          destruct gs as [|g gs']; [congruence|]. cbn [map flat_map gfree]. rewrite !in_app_iff. left. right. left. reflexivity. }
      cbn [bind]. eexists _, _. split; [reflexivity|]. split; [unfold m; lia|].
      split; [split|].
      + cbn [gshape]. rewrite map_app, ixs_extents. reflexivity.
      + intros x Hx. cbn [gfree] in Hx. apply in_remove_ids in Hx as [Hx Hnx]. rewrite mi_ids_free in Hx.
        rewrite map_app in Hnx. rewrite in_app_iff in Hx, Hnx. destruct Hx as [Hx|Hx]; [|tauto].
        apply in_flat_map in Hx as (g' & Hg' & Hx). apply in_map_iff in Hg' as (g & <- & Hg).
        cbn [gfree] in Hx. rewrite in_app_iff in Hx. destruct Hx as [Hx|Hx]; [apply (Hfrees g Hg); exact Hx|].
        exfalso. apply Hnx. left. exact Hx.
      + intros env i v He Hi Hv. cbn [Gem.eval].
        set (env' := upds env ([be] ++ ixs m (lf_vshape l)) ([i] ++ v)).
        assert (Hnd : NoDup (map ix_id ([be] ++ ixs m (lf_vshape l)))).
        { cbn [app map]. constructor; [|apply ixs_NoDup]. rewrite in_ixs_id. cbn [be ix_id fst]. unfold m. lia. }
        assert (Hvals : map (fun i => env' (ix_id i)) ([be] ++ ixs m (lf_vshape l)) = [i] ++ v).
        { apply upds_vals; [exact Hnd|]. rewrite !app_length, ixs_length. cbn [length]. rewrite (in_shape_length _ _ Hv). reflexivity. }
        cbn [app map] in Hvals. injection Hvals as Hb Hvv. assert (Hb' : env' (ix_id be) = i) by exact Hb.
        rewrite map_map. cbn [gidx_val]. rewrite Hvv.
        rewrite (ravel_strides_ok _ _ Hv). rewrite map_map.
        destruct (Hge v Hv) as (g & Eg & Hgs' & Hgf & Hgev).
        rewrite (nth_indep _ _ (eval (GIndexed g (map IFree [be])) env' []))
          by (rewrite map_length, Hlg; apply ravel_lt; exact Hv).
        rewrite (map_nth (fun x => eval (GIndexed x (map IFree [be])) env' [])).
        rewrite (nth_error_nth _ _ _ Eg). cbn [Gem.eval map gidx_val]. rewrite Hb'.
        rewrite <- (Hgev env i He Hi). apply eval_ext. intros x Hx. unfold env'. apply upds_notin.
        apply Hgf in Hx. apply in_map_iff in Hx as (q & <- & Hq). specialize (Hn q Hq).
        cbn [app map]. intros [E|E]; [cbn [be ix_id fst] in E; unfold ix_id in *; lia|].
        apply in_ixs_id in E. unfold m in E. lia.
  Qed.
End Fiat.

Lemma fiat_leaf_tabulates : forall F (o : ops F) G (l : leaf F),
  fclose0 o (f0 o) = true -> lf_ishape l = [lf_dim l] -> Forall (lt 0) (lf_vshape l) -> fiat_polynomial o l ->
  leaf_tabulates o (fun l order ps ent (_ : option G) => fiat_basis_evaluation o l order ps ent) l.
Proof.
  intros F o G l Hclose Hish Hvpos Hpoly vars order ps ent cm n Hps Hn Hent Hdim.
  unfold fiat_basis_evaluation. destruct (ps_points_ok ps Hps) as (pts & Hpts & _).
  unfold fbind at 1. unfold flift. rewrite Hpts. cbn [bind].
  fold (entity_or_cell (lf_cell l) ent). set (en := entity_or_cell (lf_cell l) ent).
  unfold fiat_tabulate. set (keys := flat_map (mis (spatial_dimension (lf_cell l))) (seq 0 (S order))).
  assert (Hgen : forall K m, n <= m -> exists ts m', mapF (fun at_ => x <~ fiat_alpha o l ps (length pts) (fst at_) (snd at_) ;; fret (fst at_, x))
      (map (fun alpha => (alpha, array_of (lf_dim l :: lf_vshape l ++ [length pts])
                (fun idx => match idx with [] => f0 o
                  | i :: r => lf_tab l alpha en (nth (last r 0) pts []) i (removelast r) end))) K) m = Ok (ts, m') /\ m <= m' /\
      map fst ts = K /\ forall alpha g, In (alpha, g) ts -> advertised ps (lf_ishape l) (lf_vshape l) g /\
        forall env i v, env_ok ps env -> i < lf_dim l -> in_shape (lf_vshape l) v ->
        eval o vars g env ([i] ++ v) = lf_tab l alpha en (pt_at ps env) i v).
  { induction K as [|a K IH]; intros m Hm.
    - exists [], m. split; [reflexivity|]. split; [lia|]. split; [reflexivity|]. intros ? ? [].
    - destruct (fiat_alpha_ok o vars l Hclose Hish Hvpos ps pts a en m Hpoly Hps Hpts) as (g & m1 & E & Hle & Hadv & Hev).
      { intros i Hi. specialize (Hn i Hi). lia. }
      destruct (IH m1 ltac:(lia)) as (ts & m2 & E2 & Hle2 & Ek & Hts).
      exists ((a, g) :: ts), m2. cbn [map mapF fst snd]. unfold fbind in E2 |- *. rewrite E. unfold fret at 1. rewrite E2.
      split; [reflexivity|]. split; [lia|]. split; [simpl; rewrite Ek; reflexivity|].
      intros alpha g' [Eq|Hin]; [|apply Hts; exact Hin]. injection Eq as <- <-. split; assumption. }
  destruct (Hgen keys n ltac:(lia)) as (ts & n' & E & Hle & Ek & Hts). exists ts, n'.
  split; [exact E|]. split; [exact Hle|]. split; [rewrite Ek; apply mis_keys|].
  intros alpha g Hin. destruct (Hts alpha g Hin) as [Hadv Hev]. split; [exact Hadv|].
  intros env b v He Hb Hv. change (index_shape (ELeaf l)) with (lf_ishape l) in *. rewrite Hish in *.
  inversion Hb as [|? i ? ? Hi Hb']; subst. inversion Hb'; subst.
  rewrite (Hev env i v He Hi Hv).
  replace (rowmajor [lf_dim l] [i]) with i by (unfold rowmajor; simpl; lia). constructor.
Qed.
