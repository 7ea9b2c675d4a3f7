(** Dual bases of FIAT elements. *)
From Coq Require Import String List Arith Lia Bool Ring_theory Permutation.
From Verif Require Import Model.Prelude Model.Cell Model.Element Model.Gem Model.PointSet Model.Evaluation Model.Dual.
From Verif Require Import Spec.Rowmajor Spec.Tabulation Spec.Quadrature Spec.Dual.
From Verif Require Import Proofs.Lists Proofs.Cells Proofs.Closure Proofs.Flatten Proofs.GemEval Proofs.Tables Proofs.Tables2 Proofs.Sums Proofs.Quad Proofs.QuadElt.
Import ListNotations.
Open Scope fresh_scope.

Lemma nonempty_length : forall A (l : list A), l <> [] -> 0 < length l.
Proof. intros A [|x l] H; [congruence | simpl; lia]. Qed.

Lemma eqb_reflect : forall A (eqb : A -> A -> bool), (forall x y, eqb x y = true <-> x = y) -> forall x y, reflect (x = y) (eqb x y).
Proof. intros A eqb H x y. apply iff_reflect. symmetry. apply H. Qed.

Lemma fold_dict_set : forall K V (eqb : K -> K -> bool) (sp : forall a b, reflect (a = b) (eqb a b)) (L Q : list (K * V)),
  NoDup (map fst (Q ++ L)) -> fold_left (fun Q kw => dict_set eqb Q (fst kw) (snd kw)) L Q = Q ++ L.
Proof.
  intros K V eqb sp L. induction L as [|[k v] L IH]; intros Q H; cbn [fold_left fst snd]; [rewrite app_nil_r; reflexivity|].
  assert (E : dict_set eqb Q k v = Q ++ [(k, v)]).
  { assert (Hk : ~ In k (map fst Q)).
    { rewrite map_app in H. cbn [map fst] in H. apply NoDup_remove_2 in H. intros Hi. apply H, in_or_app. left. exact Hi. }
    clear -sp Hk. induction Q as [|[a b] Q IHQ]; [reflexivity|]. cbn [dict_set app]. destruct (sp k a) as [->|_]; [exfalso; apply Hk; left; reflexivity|].
    rewrite IHQ; [reflexivity|]. intros Hi. apply Hk. right. exact Hi. }
  rewrite E, IH; rewrite <- app_assoc; [reflexivity | exact H].
Qed.

Lemma NoDup_flat_map_fst : forall A B (f : A -> list B) l (sel : B -> A -> Prop),
  NoDup l -> (forall x, In x l -> NoDup (f x)) ->
  (forall x b, In x l -> In b (f x) -> sel b x) -> (forall b x y, sel b x -> sel b y -> x = y) -> NoDup (flat_map f l).
Proof. intros A B f l sel Hl Hf Hs Hu. apply NoDup_flat_map; [exact Hl | exact Hf|]. intros x y b Hx Hy Hbx Hby. eapply Hu; eapply Hs; eassumption. Qed.

(* ------------------------------------------------------------------ *)
(** ** Largest entries per column *)

Lemma column_max_spec : forall r keys, keys <> [] -> (forall k, In k keys -> length k = r) ->
  length (column_max keys) = r /\
  forall j, j < r -> (forall k, In k keys -> nth j k 0 <= nth j (column_max keys) 0) /\
    exists k, In k keys /\ nth j k 0 = nth j (column_max keys) 0.
Proof.
  intros r keys. induction keys as [|k keys IH]; intros Hne Hl; [congruence|].
  destruct keys as [|k' keys].
  - cbn [column_max]. split; [apply Hl; left; reflexivity|]. intros j Hj. split.
    + intros x [<-|[]]. lia.
    + exists k. split; [left; reflexivity | reflexivity].
  - destruct IH as [L IH]; [discriminate | intros x Hx; apply Hl; right; exact Hx|].
    change (column_max (k :: k' :: keys)) with (map2 Nat.max k (column_max (k' :: keys))).
    remember (column_max (k' :: keys)) as m. assert (Hk : length k = r) by (apply Hl; left; reflexivity).
    assert (G : forall (a b : list nat) j, length a = length b -> j < length a -> nth j (map2 Nat.max a b) 0 = Nat.max (nth j a 0) (nth j b 0)).
    { clear. induction a as [|x a IHa]; intros [|y b] j L Hj; try (simpl in *; lia). destruct j; [reflexivity|]. cbn. apply IHa; simpl in *; lia. }
    split; [rewrite map2_length_eq; [exact Hk | congruence]|]. intros j Hj. rewrite G by (try congruence; lia).
    destruct (IH j Hj) as [H1 (x & Hx & Ex)]. split.
    + intros y [<-|Hy]; [lia|]. specialize (H1 y Hy). lia.
    + destruct (Nat.max_spec (nth j k 0) (nth j m 0)) as [[_ ->]|[_ ->]].
      * exists x. split; [right; exact Hx | exact Ex].
      * exists k. split; [left; reflexivity | reflexivity].
Qed.

Lemma in_shape_nth : forall sh idx j, in_shape sh idx -> j < length sh -> nth j idx 0 < nth j sh 0.
Proof.
  intros sh idx j H. revert j. induction H as [|d i sh idx Hd H IH]; intros j Hj; [simpl in Hj; lia|].
  destruct j; [exact Hd|]. cbn. apply IH. simpl in Hj. lia.
Qed.

Lemma column_max_shape : forall sh keys, keys <> [] -> (forall k, In k keys -> in_shape sh k) ->
  (forall j k, nth_error sh j = Some (S k) -> exists key, In key keys /\ nth_error key j = Some k) ->
  map S (column_max keys) = sh.
Proof.
  intros sh keys Hne Hin Hre.
  destruct (column_max_spec (length sh) keys Hne) as [L H].
  { intros k Hk. symmetry. apply in_shape_length, Hin, Hk. }
  apply nth_ext with (d := 1) (d' := 0); [rewrite map_length; exact L|].
  intros j Hj. rewrite map_length, L in Hj. change 1 with (S 0). rewrite map_nth.
  destruct (H j Hj) as [Hle (k & Hk & Ek)].
  pose proof (in_shape_nth sh k j (Hin k Hk) Hj) as Hlt. rewrite Ek in Hlt.
  destruct (nth j sh 0) as [|m] eqn:En; [lia|].
  destruct (Hre j m) as (key & Hkey & Hn).
  { rewrite <- En. apply nth_error_nth'. exact Hj. }
  specialize (Hle key Hkey). apply nth_error_nth with (d := 0) in Hn. rewrite Hn in Hle. lia.
Qed.

(* ------------------------------------------------------------------ *)
(** ** Sums of looked-up weights *)

Section Lookup.
  Context {F : Type} (o : ops F).
  Context (R : ring_theory (f0 o) (f1 o) (fadd o) (fmul o) (fsub o) (fopp o) eq).
  Add Ring FRL : R.
  Local Notation fsum := (Gem.fsum o).
  Local Notation "x + y" := (fadd o x y). Local Notation "x * y" := (fmul o x y). Local Notation "0" := (f0 o).

  Lemma key_spec : forall a b, reflect (a = b) (key_eqb a b).
  Proof. apply list_eqb_spec, nat_eqb_spec. Qed.

  Definition lookup (L : list (list nat * F)) (k : list nat) : F :=
    match dict_get key_eqb L k with Ok w => w | Err _ => 0 end.

  Lemma lookup_in : forall L k w, NoDup (map fst L) -> In (k, w) L -> lookup L k = w.
  Proof using Type. intros L k w Hn Hi. unfold lookup. rewrite (dict_in_get _ key_spec _ _ _ Hn Hi). reflexivity. Qed.
  Lemma lookup_out : forall L k, ~ In k (map fst L) -> lookup L k = 0.
  Proof using Type. intros L k H. unfold lookup. rewrite (dict_get_none _ key_spec _ _ H). reflexivity. Qed.

  Lemma sum_lookup : forall (L : list (list nat * F)) K (g : list nat -> F),
    NoDup K -> NoDup (map fst L) -> incl (map fst L) K ->
    fsum (map (fun k => lookup L k * g k) K) = fsum (map (fun kw => snd kw * g (fst kw)) L).
  Proof using R.
    induction L as [|[k0 w0] L IH]; intros K g HK HL Hi.
    - cbn [map]. unfold lookup. cbn [dict_get]. rewrite (fsum_none o R); [reflexivity|]. intros x _. clear -R. ring.
    - cbn [map fst snd] in *. inversion HL as [|? ? Hk HL']; subst.
      change (fsum (?a :: ?b)) with (a + fsum b). rewrite <- (IH K g HK HL') by (intros x Hx; apply Hi; right; exact Hx).
      rewrite <- (fsum_single o R _ (list_eq_dec Nat.eq_dec) (fun k => w0 * g k) K k0 HK) by (apply Hi; left; reflexivity).
      rewrite <- (fsum_add o R). apply fsum_ext. intros x Hx. unfold lookup at 1. cbn [dict_get].
      destruct (key_spec x k0) as [->|Hn]; destruct (list_eq_dec Nat.eq_dec _ _) as [E|E]; try congruence.
      + rewrite lookup_out by exact Hk. clear -R. ring.
      + fold (lookup L x). clear -R. ring.
  Qed.
End Lookup.

(* ------------------------------------------------------------------ *)
(** ** Points and weights *)

Section FiatDual.
  Context {F : Type} (o : ops F) (vars : string -> list nat -> F).
  Context (R : ring_theory (f0 o) (f1 o) (fadd o) (fmul o) (fsub o) (fopp o) eq).
  Context (leb eqb : list F -> list F -> bool) (isone : F -> bool).
  Context (eqb_ok : forall x y, eqb x y = true <-> x = y).
  Local Notation functional := (functional F).
  Local Notation dual_pts := (dual_pts leb).
  Local Notation pts_eqb := (pts_eqb eqb).
  Local Notation seen_t := (list (list (list F) * (nat * nat))).
  Local Notation fsum := (Gem.fsum o).
  Local Notation eval := (eval o vars).

  Lemma peq : forall x y, reflect (x = y) (eqb x y).
  Proof using eqb_ok. apply eqb_reflect. exact eqb_ok. Qed.
  Lemma pseq : forall x y, reflect (x = y) (pts_eqb x y).
  Proof using eqb_ok. apply list_eqb_spec. exact peq. Qed.

  Lemma contract_upds : forall (ps : pset F) vsh Q f env b,
    contract o vars ps vsh Q (fun e v => f (pt_at ps e) v) env b
    = fsum (map (fun vs => fsum (map (fun v => fmul o (eval Q (upds env (ps_indices ps) vs) (b ++ v))
                                                     (f (pt_at ps (upds env (ps_indices ps) vs)) v)) (cart (map (seq 0) vsh))))
                (cart (qexts (ps_indices ps)))).
  Proof using Type.
    intros ps vsh Q f env b. unfold contract, assignments. fold (qexts (ps_indices ps)). rewrite map_map.
    change (fold_right (fadd o) (f0 o)) with fsum. apply fsum_ext. intros vs Hvs. apply in_cart_length in Hvs.
    apply fsum_ext. intros v _.
    f_equal; [apply eval_ext; intros x _; apply fold_left_upds; exact Hvs|].
    f_equal. apply pt_at_ext. intros i _. apply fold_left_upds. exact Hvs.
  Qed.

  (** Every recorded range holds its points. *)
  Definition ranges (seen : seen_t) (all : list (list F)) : Prop :=
    forall pts a b, dict_get pts_eqb seen pts = Ok (a, b) ->
      b = a + length pts /\ exists pre post, all = pre ++ pts ++ post /\ length pre = a.

  Lemma collect_ok : forall ds seen all,
    (forall d, In d ds -> fn_derivs d = false) -> ranges seen all ->
    exists seen' all', collect_points leb eqb ds seen all = Ok (seen', all') /\ ranges seen' all' /\
      (exists rest, all' = all ++ rest /\ forall p, In p rest -> exists d, In d ds /\ In p (dual_pts d)) /\
      (forall pts ab, dict_get pts_eqb seen pts = Ok ab -> dict_get pts_eqb seen' pts = Ok ab) /\
      (forall d, In d ds -> dict_mem pts_eqb seen' (dual_pts d) = true) /\
      (forall k, length all <= k < length all' -> exists d a b, In d ds /\ dict_get pts_eqb seen' (dual_pts d) = Ok (a, b) /\ a <= k < b).
  Proof using eqb_ok.
    induction ds as [|d ds IH]; intros seen all Hd Hr.
    - exists seen, all. split; [reflexivity|]. split; [exact Hr|]. split; [exists []; split; [rewrite app_nil_r; reflexivity | intros p []]|].
      split; [auto|]. split; [intros d []|]. intros k Hk. lia.
    - cbn [collect_points]. rewrite (Hd d) by (left; reflexivity). cbn [negb guard bind].
      destruct (dict_mem pts_eqb seen (dual_pts d)) eqn:Em.
      + destruct (IH seen all) as (seen' & all' & E & Hr' & (rest & Ea & Hrest) & Hmono & Hmem & Hcov); [intros; apply Hd; right; assumption | exact Hr|].
        exists seen', all'. split; [exact E|]. split; [exact Hr'|]. split; [exists rest; split; [exact Ea|]; intros p Hp; destruct (Hrest p Hp) as (d' & Hd' & Hp'); exists d'; split; [right; exact Hd' | exact Hp']|].
        split; [exact Hmono|]. split.
        * intros d' [<-|Hd']; [|apply Hmem; exact Hd']. apply (dict_mem_spec _ pseq) in Em. destruct (dict_get_some _ pseq _ _ Em) as [v Ev].
          eapply dict_get_mem. apply Hmono. exact Ev.
        * intros k Hk. destruct (Hcov k Hk) as (d' & a & b & Hd' & H). exists d', a, b. split; [right; exact Hd' | exact H].
      + set (seen1 := dict_set pts_eqb seen (dual_pts d) (length all, length all + length (dual_pts d))).
        destruct (IH seen1 (all ++ dual_pts d)) as (seen' & all' & E & Hr' & (rest & Ea & Hrest) & Hmono & Hmem & Hcov).
        { intros; apply Hd; right; assumption. }
        { intros pts a b G. unfold seen1 in G. rewrite (dict_set_get _ _ _ pseq) in G. destruct (pseq pts (dual_pts d)) as [->|Hn].
          - injection G as <- <-. split; [reflexivity|]. exists all, []. rewrite app_nil_r. split; reflexivity.
          - destruct (Hr pts a b G) as [Eb (pre & post & Ep & Lp)]. split; [exact Eb|]. exists pre, (post ++ dual_pts d).
            split; [rewrite Ep, <- !app_assoc; reflexivity | exact Lp]. }
        assert (Hget1 : dict_get pts_eqb seen' (dual_pts d) = Ok (length all, length all + length (dual_pts d))).
        { apply Hmono. unfold seen1. rewrite (dict_set_get _ _ _ pseq). destruct (pseq (dual_pts d) (dual_pts d)); congruence. }
        exists seen', all'. split; [exact E|]. split; [exact Hr'|]. split.
        { exists (dual_pts d ++ rest). split; [rewrite Ea, <- app_assoc; reflexivity|]. intros p Hp. apply in_app_or in Hp as [Hp|Hp].
          - exists d. split; [left; reflexivity | exact Hp].
          - destruct (Hrest p Hp) as (d' & Hd' & Hp'). exists d'. split; [right; exact Hd' | exact Hp']. }
        split.
        { intros pts ab G. apply Hmono. unfold seen1. rewrite (dict_set_get _ _ _ pseq). destruct (pseq pts (dual_pts d)) as [->|]; [|exact G].
          apply dict_get_mem in G. congruence. }
        split.
        { intros d' [<-|Hd']; [eapply dict_get_mem; exact Hget1 | apply Hmem; exact Hd']. }
        intros k Hk. rewrite app_length in Hcov. destruct (Nat.lt_ge_cases k (length all + length (dual_pts d))) as [Hlt|Hge].
        * exists d, (length all), (length all + length (dual_pts d)). split; [left; reflexivity|]. split; [exact Hget1 | lia].
        * destruct (Hcov k) as (d' & a & b & Hd' & H); [lia|]. exists d', a, b. split; [right; exact Hd' | exact H].
  Qed.

  (** The weights of one functional. *)
  Definition ws_of (d : functional) (p : list F) : list (F * list nat) :=
    match dict_get eqb (fn_points d) p with Ok ws => ws | Err _ => [] end.
  Definition entries (i : nat) (d : functional) (a : nat) : list (list nat * F) :=
    flat_map (fun pk => map (fun wc => (i :: snd pk :: snd wc, fst wc)) (ws_of d (fst pk)))
      (combine (dual_pts d) (seq a (length (dual_pts d)))).

  Lemma add_functional_eq : forall seen Q i d a,
    dict_get pts_eqb seen (dual_pts d) = Ok (a, a + length (dual_pts d)) ->
    add_functional leb eqb seen Q (i, d) = Ok (fold_left (fun Q kw => dict_set key_eqb Q (fst kw) (snd kw)) (entries i d a) Q).
  Proof using eqb_ok.
    intros seen Q i d a H. unfold add_functional. cbn [fst snd]. rewrite H. cbn [bind fst snd].
    replace (a + length (dual_pts d) - a) with (length (dual_pts d)) by lia. unfold entries. rewrite zip_combine.
    assert (Hin : forall pk, In pk (combine (dual_pts d) (seq a (length (dual_pts d)))) -> In (fst pk) (map fst (fn_points d))).
    { intros [p k] Hpk. apply in_combine_l in Hpk. unfold Dual.dual_pts in Hpk. apply sorted_in in Hpk. exact Hpk. }
    revert Q Hin. generalize (combine (dual_pts d) (seq a (length (dual_pts d)))) as l.
    induction l as [|[p k] l IH]; intros Q Hin; [reflexivity|]. cbn [fold_res flat_map fst snd].
    destruct (dict_get_some _ peq (fn_points d) p) as [ws Ews]; [apply (Hin (p, k)); left; reflexivity|].
    rewrite Ews. cbn [bind]. rewrite IH by (intros pk Hpk; apply Hin; right; exact Hpk).
    f_equal. rewrite fold_left_app. f_equal. unfold ws_of. rewrite Ews. unfold add_weights. clear.
    revert Q. induction ws as [|[w c] ws IH]; intros Q; [reflexivity|]. cbn. apply IH.
  Qed.

  Definition kof (seen : seen_t) (d : functional) : nat :=
    match dict_get pts_eqb seen (dual_pts d) with Ok ab => fst ab | Err _ => 0 end.
  Definition all_entries (seen : seen_t) (k : nat) (ds : list functional) : list (list nat * F) :=
    flat_map (fun id => entries (fst id) (snd id) (kof seen (snd id))) (enumerate_from k ds).

  Lemma build_eq : forall seen all ds, ranges seen all -> (forall d, In d ds -> dict_mem pts_eqb seen (dual_pts d) = true) ->
    NoDup (map fst (all_entries seen 0 ds)) ->
    build_weights leb eqb seen ds = Ok (all_entries seen 0 ds).
  Proof using eqb_ok.
    intros seen all ds Hr Hm Hn. unfold build_weights, enumerate.
    enough (G : forall k Q, fold_res (add_functional leb eqb seen) (enumerate_from k ds) Q
      = Ok (fold_left (fun Q kw => dict_set key_eqb Q (fst kw) (snd kw)) (all_entries seen k ds) Q)).
    { rewrite G. f_equal. rewrite (fold_dict_set _ _ _ key_spec); [reflexivity | exact Hn]. }
    clear Hn. induction ds as [|d ds IH]; intros k Q; [reflexivity|]. cbn [enumerate_from fold_res].
    specialize (Hm d (or_introl eq_refl)) as Hd. apply (dict_mem_spec _ pseq) in Hd. destruct (dict_get_some _ pseq _ _ Hd) as [[a b] G].
    destruct (Hr _ _ _ G) as [-> _]. rewrite (add_functional_eq seen Q k d a G). cbn [bind].
    rewrite IH by (intros d' Hd'; apply Hm; right; exact Hd'). f_equal. unfold all_entries. cbn [enumerate_from flat_map fst snd].
    rewrite fold_left_app.
    assert (Ek : kof seen d = a) by (unfold kof; rewrite G; reflexivity). rewrite Ek. reflexivity.
  Qed.

  Section Functionals.
    Context (D : nat) (vsh : list nat) (ds : list functional).
    Context (Hok : functionals_ok D vsh ds).
    Context (isone_ok : forall w, isone w = true -> w = f1 o).

    Lemma pts_nodup : forall d, In d ds -> NoDup (dual_pts d).
    Proof using Hok. intros d Hd. eapply Permutation_NoDup; [symmetry; apply sorted_perm|]. apply (fo_points _ _ _ Hok d Hd). Qed.
    Lemma pts_some : forall d, In d ds -> dual_pts d <> [].
    Proof using Hok.
      intros d Hd E. pose proof (sorted_perm leb (map fst (fn_points d))) as P. fold (dual_pts d) in P. rewrite E in P.
      apply Permutation_nil in P. destruct (fo_points _ _ _ Hok d Hd) as [Hne _]. destruct (fn_points d); [congruence | discriminate].
    Qed.
    Lemma pts_ws : forall d p, In d ds -> In p (dual_pts d) -> In (p, ws_of d p) (fn_points d).
    Proof using eqb_ok.
      intros d p Hd Hp. unfold Dual.dual_pts in Hp. apply sorted_in in Hp. destruct (dict_get_some _ peq _ _ Hp) as [ws E].
      unfold ws_of. rewrite E. apply (dict_get_in _ peq _ _ _ E).
    Qed.

    Lemma in_entries : forall i d a key w, In (key, w) (entries i d a) <->
      exists j p c, nth_error (dual_pts d) j = Some p /\ In (w, c) (ws_of d p) /\ key = i :: a + j :: c.
    Proof using Type.
      intros i d a key w. unfold entries. rewrite in_flat_map. split.
      - intros ([p k] & Hpk & Hin). cbn [fst snd] in Hin. apply in_map_iff in Hin as ([w' c] & E & Hw). injection E as <- <-.
        apply In_nth_error in Hpk as [j Hj]. pose proof Hj as Hj'. rewrite <- zip_combine in Hj'.
        exists j, p, c. assert (G : forall (l : list (list F)) m j p k, nth_error (combine l (seq m (length l))) j = Some (p, k) -> nth_error l j = Some p /\ k = m + j).
        { clear. induction l as [|x l IH]; intros m j p k H; [destruct j; discriminate|]. cbn [length seq combine] in H. destruct j as [|j].
          - cbn in H. injection H as <- <-. split; [reflexivity | lia].
          - cbn in H. apply IH in H as [H ->]. split; [exact H | lia]. }
        apply G in Hj as [Hj ->]. repeat split; assumption.
      - intros (j & p & c & Hj & Hw & ->). exists (p, a + j). split.
        + assert (G : forall (l : list (list F)) m j p, nth_error l j = Some p -> In (p, m + j) (combine l (seq m (length l)))).
          { clear. induction l as [|x l IH]; intros m j p H; [destruct j; discriminate|]. cbn [length seq combine]. destruct j as [|j].
            - cbn in H. injection H as ->. left. f_equal. lia.
            - right. replace (m + S j) with (S m + j) by lia. apply IH. exact H. }
          apply G. exact Hj.
        + cbn [fst snd]. apply in_map_iff. exists (w, c). split; [reflexivity | exact Hw].
    Qed.

    Lemma entries_nodup : forall i d a, In d ds -> NoDup (map fst (entries i d a)).
    Proof using Hok eqb_ok.
      intros i d a Hd. unfold entries. rewrite map_flat_map.
      apply (NoDup_flat_map_fst _ _ _ _ (fun key pk => exists r, key = i :: snd pk :: r /\ nth_error (dual_pts d) (snd pk - a) = Some (fst pk))).
      - generalize (pts_nodup d Hd). generalize (dual_pts d) as l. intros l Hl. clear -Hl. revert a. induction Hl as [|x l Hx Hl IH]; intros a; [constructor|].
        cbn [length seq combine]. constructor; [|apply IH]. intros Hi. apply in_combine_l in Hi. contradiction.
      - intros [p k] Hpk. rewrite map_map. cbn [fst snd]. apply in_combine_l in Hpk. pose proof (pts_ws d p Hd Hpk) as Hw.
        destruct (fo_weights _ _ _ Hok d p _ Hd Hw) as (_ & Hn & _).
        rewrite <- (map_map snd (fun c => i :: k :: c)). apply FinFun.Injective_map_NoDup; [intros x y E; congruence | exact Hn].
      - intros [p k] key Hpk Hk. rewrite map_map in Hk. cbn [fst snd] in *. apply in_map_iff in Hk as ([w c] & <- & _).
        exists c. split; [reflexivity|].
        assert (G : forall (l : list (list F)) m, In (p, k) (combine l (seq m (length l))) -> nth_error l (k - m) = Some p /\ m <= k).
        { clear. induction l as [|x l IH]; intros m H; [destruct H|]. cbn [length seq combine] in H. destruct H as [E|H].
          - injection E as -> ->. rewrite Nat.sub_diag. split; [reflexivity | lia].
          - apply IH in H as [H Hm]. replace (k - m) with (S (k - S m)) by lia. split; [exact H | lia]. }
        apply G. exact Hpk.
      - intros key [p k] [q l] (r & E & Hp) (r' & E' & Hq). cbn [fst snd] in *. rewrite E in E'. injection E' as -> ->. f_equal. congruence.
    Qed.

    Lemma in_all : forall seen k key w, In (key, w) (all_entries seen k ds) <->
      exists i d, nth_error ds i = Some d /\ In (key, w) (entries (k + i) d (kof seen d)).
    Proof using Type.
      intros seen. generalize ds as l. induction l as [|d l IH]; intros k key w; unfold all_entries; cbn [enumerate_from flat_map fst snd].
      - split; [intros [] | intros (i & d & H & _); destruct i; discriminate].
      - rewrite in_app_iff. fold (all_entries seen (S k) l). rewrite IH. split.
        + intros [H|(i & d' & Hn & H)].
          * exists 0, d. rewrite Nat.add_0_r. split; [reflexivity | exact H].
          * exists (S i), d'. replace (k + S i) with (S k + i) by lia. split; assumption.
        + intros ([|i] & d' & Hn & H).
          * injection Hn as <-. rewrite Nat.add_0_r in H. left. exact H.
          * right. exists i, d'. replace (S k + i) with (k + S i) by lia. split; assumption.
    Qed.

    Lemma all_nodup : forall seen, NoDup (map fst (all_entries seen 0 ds)).
    Proof using Hok eqb_ok.
      intros seen. unfold all_entries. rewrite map_flat_map.
      apply (NoDup_flat_map_fst _ _ _ _ (fun key id => exists r, key = fst id :: r /\ nth_error ds (fst id) = Some (snd id))).
      - assert (G : forall A (l : list A) m, NoDup (enumerate_from m l)).
        { intros A l m. apply NoDup_map_inv with (f := fst). rewrite map_fst_enumerate_from. apply seq_NoDup. }
        apply G.
      - intros [i d] Hid. cbn [fst snd]. apply entries_nodup. apply (in_map snd) in Hid. rewrite map_snd_enumerate_from in Hid. exact Hid.
      - intros [i d] key Hid Hk. cbn [fst snd] in *. apply in_map_iff in Hk as ([key' w] & <- & Hk). apply in_entries in Hk as (j & p & c & _ & _ & ->).
        exists (kof seen d + j :: c). split; [reflexivity|]. apply nth_error_enumerate. exact Hid.
      - intros key [i d] [j d'] (r & E & H) (r' & E' & H'). cbn [fst snd] in *. rewrite E in E'. injection E' as -> _. f_equal. congruence.
    Qed.

    (** What the two loops deliver. *)
    Lemma fiat_numbers : exists seen all,
      collect_points leb eqb ds [] [] = Ok (seen, all) /\ build_weights leb eqb seen ds = Ok (all_entries seen 0 ds) /\
      all <> [] /\ (forall p, In p all -> length p = D) /\
      (forall d, In d ds -> exists pre post, all = pre ++ dual_pts d ++ post /\ length pre = kof seen d) /\
      (forall key w, In (key, w) (all_entries seen 0 ds) -> in_shape (length ds :: length all :: vsh) key) /\
      (forall i, i < length ds -> exists k c w, In (i :: k :: c, w) (all_entries seen 0 ds)) /\
      map S (column_max (map fst (all_entries seen 0 ds))) = length ds :: length all :: vsh.
    Proof using Hok eqb_ok.
      destruct (collect_ok ds [] [] (fo_derivs _ _ _ Hok)) as (seen & all & E & Hr & (rest & Ea & Hrest) & _ & Hmem & Hcov).
      { intros pts a b H. discriminate. }
      cbn [app] in Ea. subst rest. exists seen, all.
      assert (Hd0' : exists d0, nth_error ds 0 = Some d0).
      { pose proof (fo_some _ _ _ Hok) as Hs. clear -Hs. destruct ds as [|d0 r]; [congruence | exists d0; reflexivity]. }
      destruct Hd0' as (d0 & Hd0).
      assert (Hblk : forall d, In d ds -> exists pre post, all = pre ++ dual_pts d ++ post /\ length pre = kof seen d).
      { intros d Hd. specialize (Hmem d Hd). apply (dict_mem_spec _ pseq) in Hmem. destruct (dict_get_some _ pseq _ _ Hmem) as [[a b] G].
        destruct (Hr _ _ _ G) as [_ H]. unfold kof. rewrite G. exact H. }
      assert (Hsh : forall key w, In (key, w) (all_entries seen 0 ds) -> in_shape (length ds :: length all :: vsh) key).
      { intros key w H. apply in_all in H as (i & d & Hi & H). change (0 + i) with i in H. apply in_entries in H as (j & p & c & Hj & Hw & ->).
        pose proof (nth_error_In _ _ Hi) as Hd. destruct (Hblk d Hd) as (pre & post & Ea & Lp).
        constructor; [apply nth_error_Some; congruence|]. constructor.
        - rewrite Ea, !app_length. rewrite Lp. assert (j < length (dual_pts d)) by (apply nth_error_Some; congruence). lia.
        - eapply (fo_weights _ _ _ Hok d p _ Hd); [apply pts_ws; [exact Hd | eapply nth_error_In; exact Hj] | exact Hw]. }
      assert (Hne : all <> []).
      { pose proof (nth_error_In _ _ Hd0) as Hd. destruct (Hblk d0 Hd) as (pre & post & -> & _).
        pose proof (pts_some d0 Hd) as Hs. destruct (dual_pts d0); [congruence|]. intros H. apply app_eq_nil in H as [_ H]. discriminate. }
      split; [exact E|]. split; [apply (build_eq seen all ds Hr Hmem (all_nodup seen))|]. split; [exact Hne|]. split.
      { intros p Hp. destruct (Hrest p Hp) as (d & Hd & Hpd). eapply (fo_weights _ _ _ Hok d p _ Hd). apply pts_ws; assumption. }
      split; [exact Hblk|]. split; [exact Hsh|].
      assert (Hrow : forall d i j p, nth_error ds i = Some d -> nth_error (dual_pts d) j = Some p ->
        exists c w, In (w, c) (ws_of d p) /\ In (i :: kof seen d + j :: c, w) (all_entries seen 0 ds)).
      { intros d i j p Hi Hj. pose proof (nth_error_In _ _ Hi) as Hd. pose proof (nth_error_In _ _ Hj) as Hp.
        destruct (fo_weights _ _ _ Hok d p _ Hd (pts_ws d p Hd Hp)) as (Hws & _). destruct (ws_of d p) as [|[w c] r] eqn:Ew; [congruence|].
        exists c, w. split; [left; reflexivity|]. apply in_all. exists i, d. split; [exact Hi|]. apply in_entries. exists j, p, c.
        split; [exact Hj|]. split; [rewrite Ew; left; reflexivity | reflexivity]. }
      split.
      { intros i Hi. destruct (nth_error ds i) as [d|] eqn:Ed; [|apply nth_error_None in Ed; lia].
        pose proof (pts_some d (nth_error_In _ _ Ed)) as Hs. destruct (dual_pts d) as [|p0 r0] eqn:Ep; [congruence|].
        destruct (Hrow d i 0 p0 Ed ltac:(rewrite Ep; reflexivity)) as (c & w & _ & Hin). eexists _, c, w. exact Hin. }
      apply column_max_shape.
      - pose proof (pts_some d0 (nth_error_In _ _ Hd0)) as Hs. destruct (dual_pts d0) as [|p0 r0] eqn:Ep; [congruence|].
        destruct (Hrow d0 0 0 p0 Hd0 ltac:(rewrite Ep; reflexivity)) as (c & w & _ & Hin). intros Hnil. apply map_eq_nil in Hnil. rewrite Hnil in Hin. destruct Hin.
      - intros key Hk. apply in_map_iff in Hk as ([key' w] & <- & Hk). apply Hsh in Hk. exact Hk.
      - intros [|[|j]] k Hj; cbn in Hj.
        + injection Hj as Hj. destruct (nth_error ds k) as [d|] eqn:Ed; [|apply nth_error_None in Ed; lia].
          pose proof (pts_some d (nth_error_In _ _ Ed)) as Hs. destruct (dual_pts d) as [|p0 r0] eqn:Ep; [congruence|].
          destruct (Hrow d k 0 p0 Ed ltac:(rewrite Ep; reflexivity)) as (c & w & _ & Hin). eexists. split; [apply in_map; exact Hin | reflexivity].
        + injection Hj as Hj. destruct (Hcov k) as (d & a & b & Hd & Hg & Hk); [simpl; lia|]. destruct (Hr _ _ _ Hg) as [-> _].
          destruct (nth_error (dual_pts d) (k - a)) as [p|] eqn:Ep; [|apply nth_error_None in Ep; lia].
          apply In_nth_error in Hd as [i Hi]. destruct (Hrow d i (k - a) p Hi Ep) as (c & w & _ & Hin).
          exists (i :: k :: c). split; [|reflexivity]. replace k with (kof seen d + (k - a)); [apply (in_map fst) in Hin; exact Hin|].
          unfold kof. rewrite Hg. cbn [fst]. lia.
        + destruct (fo_extents _ _ _ Hok j k Hj) as (d & p & ws & w & c & Hd & Hp & Hw & Hc).
          assert (Hpt : In p (dual_pts d)) by (unfold Dual.dual_pts; apply sorted_in; apply (in_map fst) in Hp; exact Hp).
          assert (Ews : ws_of d p = ws). { unfold ws_of. rewrite (dict_in_get _ peq _ _ _ (proj2 (fo_points _ _ _ Hok d Hd)) Hp). reflexivity. }
          apply In_nth_error in Hd as [i Hi]. apply In_nth_error in Hpt as [jp Hjp].
          exists (i :: kof seen d + jp :: c). split; [|exact Hc]. apply in_map_iff. exists (i :: kof seen d + jp :: c, w). split; [reflexivity|].
          apply in_all. exists i, d. split; [exact Hi|]. apply in_entries. exists jp, p, c. split; [exact Hjp|]. split; [rewrite Ews; exact Hw | reflexivity].
    Qed.

    (** The tensor of weights. *)
    Lemma weights_ok : forall (L : list (list nat * F)) N M n,
      NoDup (map fst L) -> (forall key w, In (key, w) L -> in_shape (N :: M :: vsh) key) ->
      (forall i, i < N -> exists k c w, In (i :: k :: c, w) L) -> 0 < N ->
      map S (column_max (map fst L)) = N :: M :: vsh ->
      exists t n', weights_tensor o isone L n = Ok (t, n') /\ n <= n' /\ (forall x, ~ In x (gfree t)) /\
        gshape t = N :: M :: vsh /\ forall env key, in_shape (N :: M :: vsh) key -> eval t env key = lookup o L key.
    Proof using All.
      intros L N M n Hnd Hsh Hrow HN Hcm. unfold weights_tensor. rewrite Hcm.
      destruct (forallb (diagonal_one isone) L) eqn:Ed.
      - rewrite forallb_forall in Ed.
        destruct (Hrow 0 HN) as (k0 & c0 & w0 & H0).
        assert (Ev : vsh = []).
        { specialize (Hsh _ _ H0). specialize (Ed _ H0). cbn in Ed. destruct c0; [|discriminate].
          inversion Hsh as [|? ? ? ? _ H1]; subst. inversion H1 as [|? ? ? ? _ H2]; subst. inversion H2. reflexivity. }
        rewrite Ev in *. unfold fbind. rewrite new_indices_eq. change (ixs n [N; M]) with [(n, N); (S n, M)]. cbn beta iota.
        unfold flift. rewrite mk_component_tensor_ok; [|reflexivity|intros x Hx; exact Hx]. cbn [bind]. eexists _, _. split; [reflexivity|]. split; [lia|]. split.
        { intros x Hx. cbn [gfree] in Hx. apply in_remove_ids in Hx as [Hx Hn]. apply Hn. exact Hx. }
        split; [reflexivity|]. intros env key Hk. inversion Hk as [|? i ? ? Hi Hk1]; subst. inversion Hk1 as [|? k ? ? Hkk Hk2]; subst. inversion Hk2; subst.
        cbn [Gem.eval upds upd gidx_val hd tl ix_id fst]. unfold upd. cbn [ix_id fst]. rewrite !Nat.eqb_refl.
        replace (Nat.eqb n (S n)) with false by (symmetry; apply Nat.eqb_neq; lia).
        destruct (Nat.eqb_spec i k) as [->|Hik].
        + destruct (Hrow k Hi) as (k1 & c1 & w1 & H1). pose proof (Ed _ H1) as E1. cbn in E1. destruct c1; [|discriminate].
          apply andb_true_iff in E1 as [E1 E2]. apply Nat.eqb_eq in E1. subst k1. apply isone_ok in E2. cbn in E2. subst w1.
          symmetry. apply lookup_in; assumption.
        + symmetry. apply lookup_out. intros Hin. apply in_map_iff in Hin as ([key w] & E & Hin). cbn in E. subst key.
          specialize (Ed _ Hin). cbn in Ed. apply andb_true_iff in Ed as [Ed _]. apply Nat.eqb_eq in Ed. contradiction.
      - unfold flift.
        replace (forallb _ L) with true.
        2:{ symmetry. apply forallb_forall. intros [key w] Hin. cbn [fst]. apply Nat.eqb_eq. symmetry. apply in_shape_length. apply (Hsh key w Hin). }
        cbn [guard bind]. eexists _, _. split; [reflexivity|]. split; [lia|]. split; [intros x []|]. split; [reflexivity|].
        intros env key Hk. cbn [Gem.eval]. unfold arr_at, dense. cbn [a_shape a_data]. rewrite (ravel_strides_ok _ _ Hk).
        set (g := fun idx => match dict_get key_eqb L idx with Ok w => w | Err _ => f0 o end).
        rewrite (nth_indep _ (f0 o) (g [])) by (rewrite map_length, cart_length, map_map; erewrite map_ext; [|intros a; apply seq_length]; rewrite map_id; apply ravel_lt; exact Hk).
        rewrite map_nth. unfold lookup, g. f_equal. f_equal.
        pose proof (cart_seq (N :: M :: vsh)) as Ec. rewrite Ec.
        pose proof (ravel_lt _ _ Hk) as Hlt.
        rewrite (nth_indep _ [] (unravel_digits (N :: M :: vsh) 0)) by (rewrite map_length, seq_length; exact Hlt).
        rewrite map_nth, seq_nth by exact Hlt. change (Nat.add 0 ?x) with x. rewrite unravel_ravel by exact Hk. reflexivity.
    Qed.

    Lemma entries_sum : forall i d a pre post (f : list F -> list nat -> F), In d ds -> length pre = a ->
      fsum (map (fun kw => fmul o (snd kw) (match fst kw with _ :: k :: v => f (nth k (pre ++ dual_pts d ++ post) []) v | _ => f0 o end)) (entries i d a))
      = apply_terms o (functional_terms d) f.
    Proof using Hok R eqb_ok.
      intros i d a pre post f Hd Lp. unfold entries, apply_terms, functional_terms. rewrite !map_flat_map.
      change (fold_right (fadd o) (f0 o)) with fsum. rewrite !(fsum_flat_map o R).
      transitivity (fsum (map (fun p => fsum (map (fun wc => fmul o (fst wc) (f p (snd wc))) (ws_of d p))) (dual_pts d))).
      - assert (G : forall l pre0, pre ++ dual_pts d ++ post = pre0 ++ l ++ post ->
          fsum (map (fun x => fsum (map (fun kw => fmul o (snd kw) (match fst kw with _ :: k :: v => f (nth k (pre ++ dual_pts d ++ post) []) v | _ => f0 o end))
             (map (fun wc => (i :: snd x :: snd wc, fst wc)) (ws_of d (fst x))))) (combine l (seq (length pre0) (length l))))
          = fsum (map (fun p => fsum (map (fun wc => fmul o (fst wc) (f p (snd wc))) (ws_of d p))) l)).
        { intros l. induction l as [|p l IH]; intros pre0 E; [reflexivity|]. cbn [length seq combine map fst snd].
          change (fsum (?u :: ?v)) with (fadd o u (fsum v)). f_equal.
          - rewrite map_map. cbn [fst snd]. rewrite E. rewrite app_nth2, Nat.sub_diag by lia. reflexivity.
          - specialize (IH (pre0 ++ [p])). rewrite app_length in IH. cbn [length] in IH. rewrite Nat.add_1_r in IH. apply IH.
            rewrite E, <- app_assoc. reflexivity. }
        rewrite <- Lp. apply G. reflexivity.
      - transitivity (fsum (map (fun p => fsum (map (fun wc => fmul o (fst wc) (f p (snd wc))) (ws_of d p))) (map fst (fn_points d)))).
        + apply (fsum_perm o R). apply Permutation_map. apply sorted_perm.
        + rewrite map_map. apply fsum_ext. intros [p ws] Hp. cbn [fst snd].
          assert (Ews : ws_of d p = ws) by (unfold ws_of; rewrite (dict_in_get _ peq _ _ _ (proj2 (fo_points _ _ _ Hok d Hd)) Hp); reflexivity).
          rewrite Ews, map_map. reflexivity.
    Qed.

    Lemma entries_keys : forall i d a all pre post, In d ds -> all = pre ++ dual_pts d ++ post -> length pre = a ->
      incl (map fst (entries i d a)) (map (cons i) (cart (map (seq 0) (length all :: vsh)))).
    Proof using Hok eqb_ok.
      intros i d a all pre post Hd Ea Lp key Hk. apply in_map_iff in Hk as ([key' w] & <- & Hk). cbn [fst].
      apply in_entries in Hk as (j & p & c & Hj & Hw & ->). apply in_map. apply in_cart_seq. constructor.
      - rewrite Ea, !app_length. assert (j < length (dual_pts d)) by (apply nth_error_Some; congruence). lia.
      - eapply (fo_weights _ _ _ Hok d p _ Hd); [apply pts_ws; [exact Hd | eapply nth_error_In; exact Hj] | exact Hw].
    Qed.

    Lemma fiat_dual_ok : forall n, exists Q ps n',
      fiat_dual_basis o leb eqb isone ds n = Ok ((Q, ps), n') /\ psdim ps = D /\
      dual_right o vars (fun b ts => exists i d, b = [i] /\ nth_error ds i = Some d /\ ts = functional_terms d)
        [length ds] vsh Q ps n n'.
    Proof using All.
      intros n. destruct fiat_numbers as (seen & all & E1 & E2 & Hne & HD & Hblk & Hsh & Hrow & Hcm).
      set (L := all_entries seen 0 ds) in *.
      assert (HN : 0 < length ds) by (apply nonempty_length; exact (fo_some _ _ _ Hok)).
      destruct (weights_ok L (length ds) (length all) n (all_nodup seen) Hsh Hrow HN Hcm) as (t & n1 & E3 & Hn1 & Ht & Hts & Hte).
      assert (E4 : fiat_dual_numbers o leb eqb isone ds n = Ok ((t, all), n1)).
      { unfold fiat_dual_numbers. rewrite (fbind_eq _ _ _ _ _ _ _ (flift_eq _ _ _ n E1)). cbn [fst snd].
        rewrite (fbind_eq _ _ _ _ _ _ _ (flift_eq _ _ _ n E2)). rewrite (fbind_eq _ _ _ _ _ _ _ E3). reflexivity. }
      assert (Ep : new_point_set all n1 = Ok (PPoints PGeneric D all [(n1, length all)], n1 + 1)).
      { unfold new_point_set. clear - HD Hne. destruct all as [|p0 all0]; [congruence|].
        assert (Hp0 : length p0 = D) by (apply HD; left; reflexivity). rewrite Hp0.
        replace (forallb _ (p0 :: all0)) with true; [reflexivity|].
        symmetry. apply forallb_forall. intros q Hq. apply Nat.eqb_eq. apply HD. exact Hq. }
      unfold fiat_dual_basis. rewrite (fbind_eq _ _ _ _ _ _ _ E4). cbn [fst snd]. rewrite (fbind_eq _ _ _ _ _ _ _ Ep).
      cbn [ps_indices]. rewrite Hts. cbn [ix_extent snd]. rewrite Nat.eqb_refl.
      rewrite (fbind_eq _ _ (flift (guard true AssertionError)) _ _ tt _ eq_refl).
      set (n2 := n1 + 1). rewrite (fbind_eq _ _ _ _ _ _ _ (new_indices_eq _ n2)).
      change (ixs n2 (length ds :: vsh)) with ((n2, length ds) :: ixs (S n2) vsh). cbv beta iota.
      set (i0 := (n2, length ds) : ix). set (js := ixs (S n2) vsh). set (k0 := (n1, length all) : ix).
      rewrite (mk_indexed_free t (i0 :: k0 :: js)).
      2:{ cbn [map]. rewrite Hts. unfold js. rewrite ixs_extents. reflexivity. }
      cbn [bind]. rewrite mk_component_tensor_ok; [|reflexivity|].
      2:{ intros x Hx. cbn [gfree]. rewrite mi_ids_free. apply in_or_app. right. cbn [map] in *. destruct Hx as [<-|Hx]; [left; reflexivity | right; right; exact Hx]. }
      cbn [bind]. unfold flift. eexists _, _, _. split; [reflexivity|]. split; [reflexivity|].
      assert (Hfr : forall x, In x (map ix_id (i0 :: js)) <-> n2 <= x < n2 + S (length vsh)).
      { intros x. change (i0 :: js) with (ixs n2 (length ds :: vsh)). rewrite in_ixs_id. reflexivity. }
      split; [unfold n2; lia|]. split; [cbn [gshape map]; unfold js; rewrite ixs_extents; reflexivity|].
      split.
      { intros x. cbn [gfree]. rewrite in_remove_ids, mi_ids_free, Hfr, in_app_iff. cbn [map ps_indices].
        assert (Hj : In x (map ix_id js) -> n2 <= x) by (intros H; specialize (proj1 (Hfr x) (or_intror H)); lia).
        assert (Hj2 : In x (map ix_id js) \/ ix_id i0 = x -> n2 <= x < n2 + S (length vsh)).
        { intros [H|H]; apply Hfr; [right; exact H | left; exact H]. }
        split.
        - intros [[H|[H|[H|H]]] Hn]; [destruct (Ht x H) | destruct Hn; apply Hj2; right; exact H | left; exact H | destruct Hn; apply Hj2; left; exact H].
        - intros [H|[]]. split; [right; right; left; exact H|]. cbn in H. unfold n2. lia. }
      split; [constructor; [exact Hne | cbn; lia | exact HD]|].
      split; [unfold distinct_indices; cbn; repeat constructor; auto|].
      split; [intros i [<-|[]]; cbn; unfold n2; lia|].
      intros b Hb. inversion Hb as [|? i ? ? Hi Hb1]; subst. inversion Hb1; subst. clear Hb Hb1.
      destruct (nth_error ds i) as [d|] eqn:Ed; [|apply nth_error_None in Ed; lia].
      exists (functional_terms d). split; [exists i, d; repeat split; assumption|]. intros f env.
      pose proof (nth_error_In _ _ Ed) as Hd. destruct (Hblk d Hd) as (pre & post & Ea & Lp).
      rewrite <- (entries_sum i d _ pre post f Hd Lp). rewrite <- Ea.
      rewrite <- (sum_lookup o R (entries i d (kof seen d)) (map (cons i) (cart (map (seq 0) (length all :: vsh))))
         (fun key => match key with _ :: k :: v => f (nth k all []) v | _ => f0 o end)).
      2:{ apply FinFun.Injective_map_NoDup; [intros x y Exy; congruence | apply cart_seq_NoDup]. }
      2:{ apply entries_nodup. exact Hd. }
      2:{ eapply entries_keys; eassumption. }
      rewrite contract_upds. unfold qexts. cbn [ps_indices map ix_extent snd]. rewrite map_map.
      change (seq 0 (length all) :: map (seq 0) vsh) with ([seq 0 (length all)] ++ map (seq 0) vsh). rewrite (cart_app _ [seq 0 (length all)] (map (seq 0) vsh)).
      rewrite !map_flat_map, !(fsum_flat_map o R).
      cbn [cart]. 
      apply fsum_ext. intros ks Hks. rewrite map_map. apply fsum_ext. intros v Hv.
      apply in_flat_map in Hks as (k & Hk & [<-|[]]). apply in_seq in Hk.
      apply in_cart_seq in Hv. cbn [app upds hd tl].
      f_equal.
      - cbn [Gem.eval]. 
        assert (Eenv : map (gidx_val (upds (upd env k0 k) (i0 :: js) (i :: v))) (map IFree (i0 :: k0 :: js)) = i :: k :: v).
        { rewrite map_map. cbn [map gidx_val].
          assert (Hnd : NoDup (map ix_id (i0 :: js))) by (change (i0 :: js) with (ixs n2 (length ds :: vsh)); apply ixs_NoDup).
          pose proof (upds_vals (i0 :: js) (upd env k0 k) (i :: v) Hnd) as Hv2. cbn [length] in Hv2. unfold js in Hv2 at 1. rewrite ixs_length in Hv2.
          rewrite <- (in_shape_length _ _ Hv) in Hv2. specialize (Hv2 eq_refl). cbn [map] in Hv2. injection Hv2 as Hi2 Hj2.
          f_equal; [exact Hi2|]. f_equal; [|exact Hj2]. cbn [upds hd tl].
          rewrite upds_notin. 
          - unfold upd. cbn [i0 k0 ix_id fst]. replace (n1 =? n2) with false by (symmetry; apply Nat.eqb_neq; unfold n2; lia). rewrite Nat.eqb_refl. reflexivity.
          - intros Hin. assert (Hin2 : In (ix_id k0) (map ix_id (i0 :: js))) by (right; exact Hin). apply Hfr in Hin2. cbn in Hin2. unfold n2 in Hin2. lia. }
        transitivity (eval t (upds (upd env k0 k) (i0 :: js) (i :: v)) (i :: k :: v)).
        { rewrite <- Eenv. reflexivity. }
        rewrite Hte by (constructor; [exact Hi | constructor; [lia | exact Hv]]).
        destruct (in_dec (list_eq_dec Nat.eq_dec) (i :: k :: v) (map fst (entries i d (kof seen d)))) as [Hin|Hn].
        + apply in_map_iff in Hin as ([key w] & Ekey & Hin). cbn [fst] in Ekey. subst key.
          rewrite (lookup_in o _ _ w (entries_nodup i d _ Hd) Hin). apply lookup_in; [apply all_nodup|].
          apply in_all. exists i, d. split; [exact Ed | exact Hin].
        + rewrite (lookup_out o _ _ Hn). apply lookup_out. intros Hin. apply Hn.
          apply in_map_iff in Hin as ([key w] & Ekey & Hin). cbn [fst] in Ekey. subst key.
          apply in_all in Hin as (i' & d' & Hi' & Hin). pose proof Hin as Hin'.
          apply in_entries in Hin' as (j & p & c & _ & _ & Ekey). injection Ekey as Ei _ _. change (0 + i') with i' in *. subst i'.
          rewrite Ed in Hi'. injection Hi' as <-. apply (in_map fst) in Hin. exact Hin.
      - f_equal. cbn [pt_at map upds hd tl ix_extent ix_id fst snd]. unfold upd. cbn [k0 ix_id fst]. rewrite Nat.eqb_refl.
        cbn. replace (k * 1 + 0) with k by lia. reflexivity.
    Qed.
  End Functionals.
End FiatDual.
