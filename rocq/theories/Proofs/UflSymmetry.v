(** Symmetries of mixed elements. *)
From Coq Require Import String List Arith ZArith Bool Lia.
From Verif Require Import Model.Prelude Model.UflElement Model.UflSymmetry Spec.Rowmajor Spec.UflSymmetry Proofs.Lists Proofs.Closure.
Import ListNotations.
Open Scope list_scope.

Lemma flatten_row sh c : in_shape sh c -> flatten_multiindex c (shape_to_strides sh) = Ok (rowmajor sh c).
Proof.
  intros H. rewrite rowmajor_ravel by (apply in_shape_length; exact H).
  induction H as [|d i sh c Hi H IH]; [reflexivity|]. cbn [shape_to_strides flatten_multiindex]. rewrite IH. cbn [bind]. f_equal. cbn [ravel]. lia.
Qed.
Lemma row_lt sh c : in_shape sh c -> rowmajor sh c < prod sh.
Proof. intros H. rewrite rowmajor_ravel by (apply in_shape_length; exact H). exact (ravel_lt sh c H). Qed.
Lemma row_inj sh c d : in_shape sh c -> in_shape sh d -> rowmajor sh c = rowmajor sh d -> c = d.
Proof. intros Hi Hj E. rewrite !rowmajor_ravel in E by (apply in_shape_length; assumption). eapply ravel_inj; eassumption. Qed.

Lemma dict_set_new (d : symmetry) k v : ~ In k (map fst d) -> dict_set (list_eqb Nat.eqb) d k v = d ++ [(k, v)].
Proof.
  induction d as [|[k' v'] d IH]; cbn [map fst In dict_set app]; intros N; [reflexivity|].
  destruct (list_eqb_spec _ Nat.eqb Nat.eqb_spec k k') as [E|_]; [exfalso; apply N; left; congruence|]. rewrite IH; auto.
Qed.

(** The entries of one part. *)
Definition entries (j : nat) (p : list nat * symmetry) : symmetry :=
  map (fun cd => ([rowmajor (fst p) (fst cd) + j], [rowmajor (fst p) (snd cd) + j])) (snd p).
Lemma add_entries sh j sym : (forall c d, In (c, d) sym -> in_shape sh c /\ in_shape sh d) -> NoDup (map fst sym) ->
  forall sm, (forall c d, In (c, d) sym -> ~ In [rowmajor sh c + j] (map fst sm)) ->
  add_symmetries (shape_to_strides sh) j sym sm = Ok (sm ++ entries j (sh, sym)).
Proof.
  unfold entries. cbn [fst snd]. induction sym as [|[c d] sym IH]; intros S N sm H; cbn [add_symmetries map]; [rewrite app_nil_r; reflexivity|].
  destruct (S c d (or_introl eq_refl)) as [Sc Sd]. rewrite (flatten_row sh c Sc), (flatten_row sh d Sd). cbn [bind].
  cbn [map fst] in N. inversion N as [|? ? Nc Ns]; subst.
  rewrite dict_set_new by (exact (H c d (or_introl eq_refl))). rewrite IH.
  - rewrite <- app_assoc. reflexivity.
  - intros c' d' I. apply S. right. exact I.
  - exact Ns.
  - intros c' d' I. rewrite map_app, in_app_iff. intros [K|[K|[]]]; [exact (H c' d' (or_intror I) K)|]. cbn in K.
    apply Nc. destruct (S c' d' (or_intror I)) as [Sc' _]. assert (E : c = c') by (apply (row_inj sh); auto; injection K as K; lia).
    subst c'. exact (in_map fst _ _ I).
Qed.

Fixpoint all_entries (j : nat) (parts : list (list nat * symmetry)) : symmetry :=
  match parts with [] => [] | p :: r => entries j p ++ all_entries (j + prod (fst p)) r end.
Lemma entries_bounds j p a b : proper p -> In (a, b) (entries j p) -> exists n, a = [n] /\ j <= n < j + prod (fst p).
Proof.
  intros [_ P] H. apply in_map_iff in H as ([c d] & E & I). cbn in E. injection E as <- <-. eexists. split; [reflexivity|].
  destruct (P c d I) as [Pc _]. pose proof (row_lt _ _ Pc). lia.
Qed.
Definition fits (vshape : uel -> result (list nat)) (e : uel) (p : list nat * symmetry) : Prop := vshape e = Ok (fst p) /\ u_symmetry e = Ok (snd p).
Lemma all_symmetries_app vshape before pre : Forall2 (fits vshape) before pre -> Forall proper pre ->
  forall j sm after, (forall a b, In (a, b) sm -> exists n, a = [n] /\ n < j) ->
  all_symmetries vshape (before ++ after) j sm = all_symmetries vshape after (j + sizes pre) (sm ++ all_entries j pre).
Proof.
  induction 1 as [|e p before pre [V S] H IH]; intros P j sm after B; [cbn; rewrite app_nil_r, Nat.add_0_r; reflexivity|].
  inversion P as [|? ? Pp Pr]; subst. cbn [app all_symmetries all_entries sizes fold_right]. rewrite V, S. cbn [bind].
  destruct Pp as [Nd Pi]. rewrite add_entries; auto.
  - cbn [bind]. rewrite IH; auto.
    + replace (fst p, snd p) with p by (destruct p; reflexivity). rewrite <- app_assoc. f_equal. unfold sizes. lia.
    + intros a b I. apply in_app_iff in I as [I|I].
      * destruct (B a b I) as (n & -> & L). exists n. split; auto. lia.
      * destruct (entries_bounds j (fst p, snd p) a b) as (n & -> & L); [split; assumption|exact I|]. exists n. cbn in L. split; auto. lia.
  - intros c d I K. apply in_map_iff in K as ([a b] & E & K). cbn in E. subst a. destruct (B _ _ K) as (n & E & L). injection E as E. lia.
Qed.
Lemma all_entries_in parts : forall j a b, In (a, b) (all_entries j parts) <->
  exists m n, a = [j + m] /\ b = [j + n] /\ represented parts m n.
Proof.
  induction parts as [|p parts IH]; intros j a b; cbn [all_entries].
  - split; [intros []|]. intros (m & n & _ & _ & (before & p & after & c & d & E & _)). destruct before; discriminate.
  - rewrite in_app_iff, IH. split.
    + intros [I|(m & n & -> & -> & (before & q & after & c & d & E & I & -> & ->))].
      * apply in_map_iff in I as ([c d] & E & I). cbn in E. injection E as <- <-. exists (rowmajor (fst p) c), (rowmajor (fst p) d).
        split; [f_equal; lia|]. split; [f_equal; lia|]. exists [], p, parts, c, d. auto.
      * exists (prod (fst p) + sizes before + rowmajor (fst q) c), (prod (fst p) + sizes before + rowmajor (fst q) d).
        split; [f_equal; lia|]. split; [f_equal; lia|]. exists (p :: before), q, after, c, d. rewrite E. cbn. repeat split; auto; lia.
    + intros (m & n & -> & -> & ([|p' before] & q & after & c & d & E & I & -> & ->)).
      * cbn in E. injection E as <- <-. left. apply in_map_iff. exists (c, d). cbn. split; [|exact I]. f_equal; f_equal; lia.
      * cbn in E. injection E as <- ->. right. exists (sizes before + rowmajor (fst q) c), (sizes before + rowmajor (fst q) d). unfold sizes. cbn.
        split; [f_equal; lia|]. split; [f_equal; lia|]. exists before, q, after, c, d. auto.
Qed.
Lemma all_entries_nodup parts : Forall proper parts -> forall j, NoDup (map fst (all_entries j parts)).
Proof.
  induction 1 as [|p parts Pp Pr IH]; intros j; cbn [all_entries]; [constructor|]. rewrite map_app. apply NoDup_app_intro.
  - destruct Pp as [Nd Pi]. unfold entries. rewrite map_map. cbn.
    assert (K : forall sym, (forall c d, In (c, d) sym -> in_shape (fst p) c) -> NoDup (map fst sym) ->
      NoDup (map (fun x : list nat * list nat => [rowmajor (fst p) (fst x) + j]) sym)).
    { induction sym as [|[c d] sym IHs]; intros Q N; [constructor|]. cbn [map fst] in N |- *. inversion N as [|? ? Nc Ns]; subst. constructor.
      - intros I. apply in_map_iff in I as ([c' d'] & E & I). cbn in E. injection E as E. apply Nc.
        assert (c = c') by (apply (row_inj (fst p)); [exact (Q c d (or_introl eq_refl))|exact (Q c' d' (or_intror I))|lia]). subst c'. exact (in_map fst _ _ I).
      - apply IHs; [|exact Ns]. intros c' d' I. exact (Q c' d' (or_intror I)). }
    apply K; [|exact Nd]. intros c d I. exact (proj1 (Pi c d I)).
  - apply IH.
  - intros a I1 I2. apply in_map_iff in I1 as ([a1 b1] & <- & I1). cbn in I2. destruct (entries_bounds j p a1 b1 Pp I1) as (n & -> & L).
    apply in_map_iff in I2 as ([a2 b2] & E & I2). cbn in E. subst a2. apply all_entries_in in I2 as (m & k & E & _). injection E as E. lia.
Qed.

Theorem mixed_symmetries vshape e parts sh :
  match e with UMixed _ _ | UVector _ _ _ => True | _ => False end ->
  Forall2 (fun s p => vshape s = Ok (fst p) /\ u_symmetry s = Ok (snd p)) (u_subs e) parts -> Forall proper parts -> vshape e = Ok sh ->
  (prod sh = sizes parts -> exists sm, mixed_symmetry vshape e = Ok sm /\ NoDup (map fst sm) /\
     forall a b, In (a, b) sm <-> exists m n, a = [m] /\ b = [n] /\ represented parts m n) /\
  (prod sh <> sizes parts -> mixed_symmetry vshape e = Err ValueError).
Proof.
  intros M F P V.
  assert (E : mixed_symmetry vshape e = (do! guard (Nat.eqb (sizes parts) (prod sh)) ValueError ;; Ok (all_entries 0 parts))).
  { assert (A : all_symmetries vshape (u_subs e) 0 [] = Ok (all_entries 0 parts, sizes parts)).
    { pose proof (all_symmetries_app vshape (u_subs e) parts F P 0 [] []) as A. rewrite app_nil_r in A. rewrite A by (intros a b []). reflexivity. }
    unfold mixed_symmetry. destruct e; try destruct M; rewrite A; cbn [bind]; rewrite V; reflexivity. }
  rewrite E. split; intros S.
  - rewrite S, Nat.eqb_refl. cbn [guard bind]. eexists. split; [reflexivity|]. split; [apply all_entries_nodup; exact P|]. intros a b. rewrite all_entries_in. reflexivity.
  - destruct (Nat.eqb_spec (sizes parts) (prod sh)) as [K|_]; [congruence|reflexivity].
Qed.
Theorem mixed_symmetry_fails vshape e before s after parts sh x :
  match e with UMixed _ _ | UVector _ _ _ => True | _ => False end -> u_subs e = before ++ s :: after ->
  Forall2 (fun s p => vshape s = Ok (fst p) /\ u_symmetry s = Ok (snd p)) before parts -> Forall proper parts ->
  vshape s = Ok sh -> u_symmetry s = Err x -> mixed_symmetry vshape e = Err x.
Proof.
  intros M U F P V S.
  assert (A : all_symmetries vshape (u_subs e) 0 [] = Err x).
  { rewrite U, (all_symmetries_app vshape before parts F P) by (intros a b []). cbn [all_symmetries]. rewrite V. cbn [bind]. rewrite S. reflexivity. }
  unfold mixed_symmetry. destruct e; try destruct M; rewrite A; reflexivity.
Qed.
Theorem own_symmetry e : u_symmetry e =
  match unrestricted e with UMixed _ _ | UVector _ _ _ => Err TypeError | UTensor _ _ _ sym _ _ => Ok sym | _ => Ok [] end.
Proof. induction e; try reflexivity. cbn [u_symmetry unrestricted]. assumption. Qed.
Theorem components_missing e c : is_mixed e -> component_degree e (Some c) = Err TypeError /\ component_constant e c = Err TypeError.
Proof. destruct e; intros H; try destruct H; split; reflexivity. Qed.
