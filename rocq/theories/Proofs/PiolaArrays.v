(** The arrays that the basis transformations of Piola-mapped elements fill in. *)
From Coq Require Import String List Arith Bool Lia.
From Verif Require Import Model.Prelude Model.Cell Model.Element Model.Gem Model.Piola Model.Zany Model.PiolaElements.
Import ListNotations.
Open Scope result_scope.

Lemma foldM_app {A B} (f : A -> B -> result A) l1 l2 a :
  foldM f (l1 ++ l2) a = do a' <- foldM f l1 a ;; foldM f l2 a'.
Proof.
  revert a; induction l1 as [|x l1 IH]; intros a; [reflexivity|].
  cbn [app foldM]. destruct (f a x) as [a'|e]; [apply IH|reflexivity].
Qed.

Lemma foldM_seq {A} (f : A -> nat -> result A) (Inv : nat -> A -> Prop) N a0 :
  Inv 0 a0 -> (forall k a, k < N -> Inv k a -> exists a', f a k = Ok a' /\ Inv (S k) a') ->
  exists a, foldM f (seq 0 N) a0 = Ok a /\ Inv N a.
Proof.
  intros h0 hs. induction N as [|N IH].
  - exists a0. split; [reflexivity|assumption].
  - destruct IH as [a [e i]]; [intros k a hk hi; apply hs; [lia|assumption]|].
    destruct (hs N a (Nat.lt_succ_diag_r N) i) as [a' [e' i']].
    exists a'. split; [|assumption].
    rewrite seq_S, foldM_app, e. cbn [bind foldM Nat.add]. rewrite e'. reflexivity.
Qed.

Section Arrays.
  Context {F : Type} (o : ops F).
  Implicit Types (V W B : array (F := F)).

  Lemma set_slice_ok V r0 r1 c0 c1 B :
    r0 <= r1 -> r1 <= n_rows V -> c0 <= c1 -> c1 <= n_cols V -> n_rows B = r1 - r0 -> n_cols B = c1 - c0 ->
    set_slice V r0 r1 c0 c1 B = Ok (mkArray (n_rows V) (n_cols V) (fun i j =>
      if (r0 <=? i) && (i <? r1) && (c0 <=? j) && (j <? c1) then n_at B (i - r0) (j - c0) else n_at V i j)).
  Proof.
    intros h1 h2 h3 h4 hr hc. unfold set_slice.
    rewrite (Nat.min_l r1), (Nat.min_l r0), (Nat.min_l c1), (Nat.min_l c0) by lia.
    rewrite hr, hc, !Nat.eqb_refl. reflexivity.
  Qed.

  Lemma set_slice_extent V r0 r1 c0 c1 B V' : set_slice V r0 r1 c0 c1 B = Ok V' ->
    n_rows V' = n_rows V /\ n_cols V' = n_cols V.
  Proof.
    unfold set_slice. destruct (guard _ _); cbn [bind]; intros H; inversion H; split; reflexivity.
  Qed.

  Definition between (a b i : nat) : bool := (a <=? i) && (i <? b).
  Lemma betweenP a b i : between a b i = true <-> a <= i < b.
  Proof. unfold between. rewrite andb_true_iff, Nat.leb_le, Nat.ltb_lt. tauto. Qed.
  Lemma between_false a b i : between a b i = false <-> ~ a <= i < b.
  Proof. rewrite <- betweenP. destruct (between a b i); intuition congruence. Qed.

  (** ** Facets *)

  (** Row [i] of the array of a facet transform: [n] is the dimension, [R b]
      are the rows for the block number [b]. *)
  Definition facet_entry (n : nat) (R : nat -> nat -> nat -> F) (i j : nat) : F :=
    let c := i mod n in let s := n * (i / n) in
    if (negb (c =? 0)) && between s (s + n) j then R (i / n) (c - 1) (j - s) else identity o i j.

  Lemma facet_transform_ok c g k n K (R : nat -> array (F := F)) :
    sc_dim c = n -> 0 < n -> polynomial_dimension (n - 1) k = K ->
    (forall f, f < length (sc_facets c) ->
       facet_rows o c (jacobian_at g (centre o c)) (detJ_at g (centre o c)) f = Ok (R f) /\
       n_rows (R f) = n - 1 /\ n_cols (R f) = n) ->
    exists V, facet_transform o c k g = Ok V /\
      n_rows V = length (sc_facets c) * (n * K) /\ n_cols V = length (sc_facets c) * (n * K) /\
      forall i j, i < length (sc_facets c) * (n * K) -> n_at V i j = facet_entry n (fun b => n_at (R (b / K))) i j.
  Proof.
    intros hd hn hK hR. unfold facet_transform. rewrite hd, hK.
    set (nf := length (sc_facets c)) in *. set (N := nf * (n * K)).
    assert (HN : forall b, N = n * b -> b = nf * K) by (unfold N; intros; nia).
    pose (T := facet_entry n (fun b => n_at (R (b / K)))).
    pose (G := fun (lim : nat) V => n_rows V = N /\ n_cols V = N /\
      forall i j, n_at V i j = if i <? lim then T i j else identity o i j).
    assert (Hin : forall f kk V, f < nf -> kk < K -> G (n * (f * K + kk)) V ->
      exists V', set_slice V (n * K * f + kk * n + 1) (n * K * f + kk * n + n) (n * K * f + kk * n)
        (n * K * f + kk * n + n) (R f) = Ok V' /\ G (n * (f * K + S kk)) V').
    { intros f kk V hf hk [hr [hc hv]].
      destruct (hR f hf) as [_ [hr1 hc1]].
      replace (n * K * f + kk * n) with (n * (f * K + kk)) by lia.
      set (b := f * K + kk) in *. set (s := n * b) in *.
      assert (hb : b < nf * K) by (unfold b; nia).
      assert (hs : s + n <= N) by (unfold s, N; nia).
      assert (hbK : b / K = f).
      { unfold b. rewrite Nat.add_comm, Nat.div_add by lia. rewrite Nat.div_small by lia. reflexivity. }
      rewrite set_slice_ok by lia. eexists. split; [reflexivity|].
      replace (n * (f * K + S kk)) with (s + n) by (unfold s, b; lia).
      split; [assumption|]. split; [assumption|]. intros i j. cbn [n_at]. rewrite hv.
      destruct (Nat.ltb_spec i (s + n)) as [hi|hi].
      2:{ rewrite andb_false_r. cbn [andb]. destruct (Nat.ltb_spec i s); [lia|reflexivity]. }
      destruct (Nat.ltb_spec i s) as [hi'|hi'].
      { replace (s + 1 <=? i) with false by (symmetry; apply Nat.leb_gt; lia). reflexivity. }
      assert (hdiv : i / n = b) by (symmetry; apply (Nat.div_unique i n b (i - s)); unfold s in *; lia).
      assert (hmod : i mod n = i - s) by (symmetry; apply (Nat.mod_unique i n b (i - s)); unfold s in *; lia).
      unfold T, facet_entry. rewrite hdiv, hmod, hbK. fold s.
      unfold between.
      destruct (Nat.eqb_spec (i - s) 0) as [h0|h0].
      - replace (s + 1 <=? i) with false by (symmetry; apply Nat.leb_gt; lia). reflexivity.
      - replace (s + 1 <=? i) with true by (symmetry; apply Nat.leb_le; lia).
        cbn [andb negb]. destruct ((s <=? j) && (j <? s + n)) eqn:e; [|reflexivity].
        replace (i - (s + 1)) with (i - s - 1) by lia. reflexivity. }
    assert (Hout : exists V, foldM (fun V f =>
        do rows <- facet_rows o c (jacobian_at g (centre o c)) (detJ_at g (centre o c)) f ;;
        foldM (fun V i => set_slice V (n * K * f + i * n + 1) (n * K * f + i * n + n) (n * K * f + i * n)
                            (n * K * f + i * n + n) rows) (seq 0 K) V) (seq 0 nf) (eye o N N) = Ok V /\ G (n * (nf * K)) V).
    { apply (foldM_seq _ (fun f V => G (n * (f * K)) V)).
      - split; [reflexivity|]. split; [reflexivity|]. intros i j. cbn [Nat.mul]. rewrite Nat.mul_0_r. reflexivity.
      - intros f V hf hG. destruct (hR f hf) as [e _]. rewrite e. cbn [bind].
        destruct (foldM_seq (fun V i => set_slice V (n * K * f + i * n + 1) (n * K * f + i * n + n) (n * K * f + i * n)
                            (n * K * f + i * n + n) (R f)) (fun kk V => G (n * (f * K + kk)) V) K V) as [V' [e' h']].
        + rewrite Nat.add_0_r. exact hG.
        + intros kk V1 hk h1. apply Hin; assumption.
        + exists V'. split; [exact e'|]. replace (S f * K) with (f * K + K) by lia. exact h'. }
    destruct Hout as [V [e [hr [hc hv]]]].
    exists V. split; [exact e|]. split; [exact hr|]. split; [exact hc|].
    intros i j hi. rewrite hv. replace (i <? n * (nf * K)) with true; [reflexivity|].
    symmetry. apply Nat.ltb_lt. unfold N in *. lia.
  Qed.

  (** ** Vertices *)
  Definition vertex_entry (W : nat -> nat -> F) (i j : nat) : F :=
    if i / 3 =? j / 3 then W (i mod 3) (j mod 3) else f0 o.

  Lemma set_vertices_ok V W : 9 <= n_rows V -> 9 <= n_cols V -> n_rows W = 3 -> n_cols W = 3 ->
    exists V', set_vertices V W = Ok V' /\ n_rows V' = n_rows V /\ n_cols V' = n_cols V /\
      forall i j, n_at V' i j = if (i <? 9) && (j <? 9) && (i / 3 =? j / 3) then n_at W (i mod 3) (j mod 3) else n_at V i j.
  Proof.
    intros h1 h2 hr hc. unfold set_vertices. cbn [foldM Nat.add].
    rewrite set_slice_ok by lia. cbn [bind]. rewrite set_slice_ok by (cbn [n_rows n_cols]; lia).
    cbn [bind n_rows n_cols n_at]. rewrite set_slice_ok by (cbn [n_rows n_cols]; lia).
    cbn [bind n_rows n_cols n_at].
    eexists. split; [reflexivity|]. split; [reflexivity|]. split; [reflexivity|].
    intros i j. cbn [n_at].
    assert (hs : forall s, (if (s * 3 <=? i) && (i <? s * 3 + 3) && (s * 3 <=? j) && (j <? s * 3 + 3) then true else false) =
      (i / 3 =? s) && (j / 3 =? s)).
    { intros s.
      assert (hx : forall x, (s * 3 <=? x) && (x <? s * 3 + 3) = (x / 3 =? s)).
      { intros x. pose proof (Nat.div_mod x 3). pose proof (Nat.mod_upper_bound x 3).
        destruct (Nat.eqb_spec (x / 3) s), (Nat.leb_spec (s * 3) x), (Nat.ltb_spec x (s * 3 + 3)); cbn; try reflexivity; lia. }
      rewrite <- (hx i), <- (hx j).
      destruct (s * 3 <=? i), (i <? s * 3 + 3), (s * 3 <=? j), (j <? s * 3 + 3); reflexivity. }
    pose proof (hs 0) as s0. pose proof (hs 1) as s1. pose proof (hs 2) as s2. cbn [Nat.mul Nat.add] in s0, s1, s2.
    pose proof (Nat.div_mod i 3) as di. pose proof (Nat.mod_upper_bound i 3) as mi.
    pose proof (Nat.div_mod j 3) as dj. pose proof (Nat.mod_upper_bound j 3) as mj.
    destruct ((6 <=? i) && (i <? 9) && (6 <=? j) && (j <? 9)) eqn:E2.
    { symmetry in s2. apply andb_true_iff in s2. destruct s2 as [a b]. apply Nat.eqb_eq in a. apply Nat.eqb_eq in b.
      rewrite !andb_true_iff, !Nat.leb_le, !Nat.ltb_lt in E2.
      replace (i <? 9) with true by (symmetry; apply Nat.ltb_lt; lia).
      replace (j <? 9) with true by (symmetry; apply Nat.ltb_lt; lia).
      rewrite a, b. cbn [andb Nat.eqb]. f_equal; lia. }
    destruct ((3 <=? i) && (i <? 6) && (3 <=? j) && (j <? 6)) eqn:E1.
    { symmetry in s1. apply andb_true_iff in s1. destruct s1 as [a b]. apply Nat.eqb_eq in a. apply Nat.eqb_eq in b.
      rewrite !andb_true_iff, !Nat.leb_le, !Nat.ltb_lt in E1.
      replace (i <? 9) with true by (symmetry; apply Nat.ltb_lt; lia).
      replace (j <? 9) with true by (symmetry; apply Nat.ltb_lt; lia).
      rewrite a, b. cbn [andb Nat.eqb]. f_equal; lia. }
    destruct ((0 <=? i) && (i <? 3) && (0 <=? j) && (j <? 3)) eqn:E0.
    { symmetry in s0. apply andb_true_iff in s0. destruct s0 as [a b]. apply Nat.eqb_eq in a. apply Nat.eqb_eq in b.
      rewrite !andb_true_iff, !Nat.leb_le, !Nat.ltb_lt in E0.
      replace (i <? 9) with true by (symmetry; apply Nat.ltb_lt; lia).
      replace (j <? 9) with true by (symmetry; apply Nat.ltb_lt; lia).
      rewrite a, b. cbn [andb Nat.eqb]. f_equal; lia. }
    destruct (Nat.ltb_spec i 9) as [hi|]; [|reflexivity]. destruct (Nat.ltb_spec j 9) as [hj|]; [|reflexivity].
    cbn [andb]. destruct (Nat.eqb_spec (i / 3) (j / 3)) as [e|]; [|reflexivity]. exfalso.
    symmetry in s0, s1, s2. rewrite <- e in s0, s1, s2. rewrite !andb_diag in *.
    apply Nat.eqb_neq in s0. apply Nat.eqb_neq in s1. apply Nat.eqb_neq in s2. lia.
  Qed.

  Lemma rescale_extent V nv ncomp h : n_rows (rescale o V nv ncomp h) = n_rows V /\ n_cols (rescale o V nv ncomp h) = n_cols V.
  Proof.
    unfold rescale. generalize (seq 0 nv). intros l. revert V. induction l as [|x l IH]; intros V; [split; reflexivity|].
    cbn [fold_left]. destruct (IH (scale_columns o V (ncomp * x) (ncomp * (x + 1)) (fdiv o (f1 o) (fmul o (h x) (h x))))) as [a b].
    rewrite a, b. split; reflexivity.
  Qed.
  Lemma rescale_at V nv ncomp h i j : 0 < ncomp -> n_at (rescale o V nv ncomp h) i j =
    if j <? ncomp * nv then fmul o (n_at V i j) (fdiv o (f1 o) (fmul o (h (j / ncomp)) (h (j / ncomp)))) else n_at V i j.
  Proof.
    intros hn. unfold rescale. induction nv as [|nv IH].
    - rewrite Nat.mul_0_r. reflexivity.
    - rewrite seq_S, fold_left_app. cbn [fold_left Nat.add scale_columns n_at scale].
      unfold scale. rewrite IH. clear IH.
      pose proof (Nat.div_mod j ncomp) as d. pose proof (Nat.mod_upper_bound j ncomp) as mm.
      destruct (Nat.ltb_spec j (ncomp * S nv)) as [h1|h1].
      + destruct (Nat.ltb_spec j (ncomp * nv)) as [h2|h2].
        * replace (ncomp * nv <=? j) with false by (symmetry; apply Nat.leb_gt; lia). reflexivity.
        * replace (ncomp * nv <=? j) with true by (symmetry; apply Nat.leb_le; lia).
          replace (j <? ncomp * (nv + 1)) with true by (symmetry; apply Nat.ltb_lt; nia).
          cbn [andb]. replace (j / ncomp) with nv; [reflexivity|].
          apply (Nat.div_unique j ncomp nv (j - ncomp * nv)); nia.
      + replace (j <? ncomp * (nv + 1)) with false by (symmetry; apply Nat.ltb_ge; nia).
        rewrite andb_false_r. replace (j <? ncomp * nv) with false by (symmetry; apply Nat.ltb_ge; nia). reflexivity.
  Qed.

  (** ** Interior points of Hu-Zhang elements *)
  Lemma hz_interior_ok W ndofs : n_rows W = 3 -> n_cols W = 3 -> forall k fuel V cur,
    cur + 3 * k = ndofs -> k <= fuel -> n_rows V = ndofs -> n_cols V = ndofs ->
    exists V', hz_interior fuel V W 3 cur ndofs = Ok V' /\ n_rows V' = ndofs /\ n_cols V' = ndofs /\
      forall i j, n_at V' i j = if between cur ndofs i && between cur ndofs j && ((i - cur) / 3 =? (j - cur) / 3)
        then n_at W ((i - cur) mod 3) ((j - cur) mod 3) else n_at V i j.
  Proof.
    intros hr hc k. induction k as [|k IH]; intros fuel V cur hk hf hv1 hv2.
    - exists V. split.
      + destruct fuel as [|fuel]; [reflexivity|]. cbn [hz_interior].
        replace (cur <? ndofs) with false by (symmetry; apply Nat.ltb_ge; lia). reflexivity.
      + split; [assumption|]. split; [assumption|]. intros i j.
        replace (between cur ndofs i) with false by (symmetry; apply between_false; lia). reflexivity.
    - destruct fuel as [|fuel]; [lia|]. cbn [hz_interior].
      replace (cur <? ndofs) with true by (symmetry; apply Nat.ltb_lt; lia).
      rewrite set_slice_ok by lia. cbn [bind].
      match goal with |- context [hz_interior fuel ?U _ _ _ _] =>
        destruct (IH fuel U (cur + 3)) as [V' [e [h1 [h2 h3]]]]; [lia|lia|exact hv1|exact hv2|] end.
      { exists V'. split; [exact e|]. split; [assumption|]. split; [assumption|]. intros i j. rewrite h3. clear h3 e. cbn [n_at].
          assert (hshift : forall x, cur + 3 <= x -> (x - cur) / 3 = S ((x - (cur + 3)) / 3) /\ (x - cur) mod 3 = (x - (cur + 3)) mod 3).
          { intros x hx. replace (x - cur) with ((x - (cur + 3)) + 1 * 3) by lia.
            rewrite Nat.div_add, Nat.mod_add by lia. split; lia. }
          assert (hsmall : forall x, cur <= x < cur + 3 -> (x - cur) / 3 = 0 /\ (x - cur) mod 3 = x - cur).
          { intros x hx. split; [apply Nat.div_small; lia|apply Nat.mod_small; lia]. }
          destruct (between cur ndofs i) eqn:ei.
          2:{ apply between_false in ei. replace (between (cur + 3) ndofs i) with false by (symmetry; apply between_false; lia).
              cbn [andb]. replace ((cur <=? i) && (i <? cur + 3)) with false; [reflexivity|].
              symmetry. apply (between_false cur (cur + 3) i). lia. }
          destruct (between cur ndofs j) eqn:ej.
          2:{ apply between_false in ej. replace (between (cur + 3) ndofs j) with false by (symmetry; apply between_false; lia).
              rewrite !andb_false_r. cbn [andb]. rewrite <- andb_assoc.
              replace ((cur <=? j) && (j <? cur + 3)) with false; [rewrite andb_false_r; reflexivity|].
              symmetry. apply (between_false cur (cur + 3) j). lia. }
          apply betweenP in ei. apply betweenP in ej. cbn [andb].
          destruct (Nat.lt_ge_cases i (cur + 3)) as [hi|hi].
          - replace (between (cur + 3) ndofs i) with false by (symmetry; apply between_false; lia). cbn [andb].
            replace (cur <=? i) with true by (symmetry; apply Nat.leb_le; lia).
            replace (i <? cur + 3) with true by (symmetry; apply Nat.ltb_lt; lia).
            destruct (hsmall i) as [a b]; [lia|]. rewrite a, b.
            replace (cur <=? j) with true by (symmetry; apply Nat.leb_le; lia). cbn [andb].
            destruct (Nat.ltb_spec j (cur + 3)) as [hj|hj].
            + destruct (hsmall j) as [a' b']; [lia|]. rewrite a', b'. reflexivity.
            + destruct (hshift j) as [a' b']; [lia|]. rewrite a'. reflexivity.
          - replace (between (cur + 3) ndofs i) with true by (symmetry; apply betweenP; lia). cbn [andb].
            replace (i <? cur + 3) with false by (symmetry; apply Nat.ltb_ge; lia). rewrite andb_false_r. cbn [andb].
            destruct (hshift i hi) as [a b]. rewrite a, b.
            destruct (Nat.lt_ge_cases j (cur + 3)) as [hj|hj].
            + replace (between (cur + 3) ndofs j) with false by (symmetry; apply between_false; lia). cbn [andb].
              destruct (hsmall j) as [a' b']; [lia|]. rewrite a'. reflexivity.
            + replace (between (cur + 3) ndofs j) with true by (symmetry; apply betweenP; lia). cbn [andb].
              destruct (hshift j hj) as [a' b']. rewrite a', b'. cbn [Nat.eqb]. reflexivity. }
  Qed.

  (** ** Whole arrays *)
  Lemma identity_shift s i j : s <= i -> s <= j -> identity o (i - s) (j - s) = identity o i j.
  Proof.
    intros hi hj. unfold identity. destruct (Nat.eqb_spec i j), (Nat.eqb_spec (i - s) (j - s)); try reflexivity; lia.
  Qed.
  Lemma identity_ne i j : i <> j -> identity o i j = f0 o.
  Proof. intros h. unfold identity. destruct (Nat.eqb_spec i j); [contradiction|reflexivity]. Qed.

  (** Blocks do not reach across a multiple of their length. *)
  Lemma facet_entry_outside n R i j L : 0 < n -> i < n * L -> n * L <= j -> facet_entry n R i j = identity o i j.
  Proof.
    intros hn hi hj. unfold facet_entry.
    replace (between _ _ j) with false; [rewrite andb_false_r; reflexivity|].
    symmetry. apply between_false. pose proof (Nat.div_lt_upper_bound i n L). nia.
  Qed.

  Definition first_entry n R L i j : F := if i <? L then facet_entry n R i j else identity o i j.
  Lemma put_facets_ok n R nb V Vsub : 0 < n -> n * nb <= n_rows V -> n * nb <= n_cols V ->
    n_rows Vsub = n * nb -> n_cols Vsub = n * nb -> (forall i j, n_at V i j = identity o i j) ->
    (forall i j, i < n * nb -> n_at Vsub i j = facet_entry n R i j) ->
    exists V', set_slice V 0 (n * nb) 0 (n * nb) Vsub = Ok V' /\ n_rows V' = n_rows V /\ n_cols V' = n_cols V /\
      forall i j, n_at V' i j = first_entry n R (n * nb) i j.
  Proof.
    intros hn h1 h2 hr hc hid hs. rewrite set_slice_ok by lia. eexists. split; [reflexivity|].
    split; [reflexivity|]. split; [reflexivity|]. intros i j. cbn [n_at]. unfold first_entry.
    rewrite hid, !Nat.sub_0_r. cbn [Nat.leb andb].
    destruct (Nat.ltb_spec i (n * nb)) as [hi|]; cbn [andb]; [|reflexivity].
    destruct (Nat.ltb_spec j (n * nb)) as [hj|hj]; cbn [andb]; [apply hs; assumption|].
    symmetry. apply facet_entry_outside with (L := nb); assumption.
  Qed.

  Definition zany_entry (W : nat -> nat -> F) (h : nat -> F) R L (rest : nat -> nat -> F) i j : F :=
    if i <? 9 then
      if i / 3 =? j / 3 then fmul o (W (i mod 3) (j mod 3)) (fdiv o (f1 o) (fmul o (h (i / 3)) (h (i / 3)))) else f0 o
    else if j <? 9 then f0 o
    else if i <? 9 + L then facet_entry 2 R (i - 9) (j - 9)
    else rest i j.

  Lemma put_both_ok (W : nat -> nat -> F) R nb V V1 Vsub : n_rows V = n_rows V1 -> n_cols V = n_cols V1 ->
    9 + 2 * nb <= n_rows V -> 9 + 2 * nb <= n_cols V ->
    n_rows Vsub = 2 * nb -> n_cols Vsub = 2 * nb -> (forall i j, n_at V i j = identity o i j) ->
    (forall i j, n_at V1 i j = if (i <? 9) && (j <? 9) && (i / 3 =? j / 3) then W (i mod 3) (j mod 3) else n_at V i j) ->
    (forall i j, i < 2 * nb -> n_at Vsub i j = facet_entry 2 R i j) ->
    exists V', set_slice V1 9 (9 + 2 * nb) 9 (9 + 2 * nb) Vsub = Ok V' /\ n_rows V' = n_rows V /\ n_cols V' = n_cols V /\
      forall i j, n_at V' i j =
        if i <? 9 then if i / 3 =? j / 3 then W (i mod 3) (j mod 3) else f0 o
        else if j <? 9 then f0 o
        else if i <? 9 + 2 * nb then facet_entry 2 R (i - 9) (j - 9) else identity o i j.
  Proof.
    intros er ec h1 h2 hr hc hid hv hs. rewrite set_slice_ok by lia. eexists. split; [reflexivity|].
    split; [cbn; congruence|]. split; [cbn; congruence|]. intros i j. cbn [n_at]. rewrite hv, hid.
    destruct (Nat.ltb_spec i 9) as [hi|hi].
    - replace (9 <=? i) with false by (symmetry; apply Nat.leb_gt; lia). cbn [andb].
      destruct (Nat.eqb_spec (i / 3) (j / 3)) as [e|e].
      + assert (hj : j < 9) by (pose proof (Nat.div_mod j 3); pose proof (Nat.mod_upper_bound j 3); pose proof (Nat.div_lt_upper_bound i 3 3); lia).
        replace (j <? 9) with true by (symmetry; apply Nat.ltb_lt; exact hj). reflexivity.
      + rewrite andb_false_r. apply identity_ne. intros E. apply e. rewrite E. reflexivity.
    - replace (9 <=? i) with true by (symmetry; apply Nat.leb_le; lia). cbn [andb].
      destruct (Nat.ltb_spec j 9) as [hj|hj].
      + replace (9 <=? j) with false by (symmetry; apply Nat.leb_gt; lia). rewrite andb_false_r. cbn [andb].
        apply identity_ne. lia.
      + replace (9 <=? j) with true by (symmetry; apply Nat.leb_le; lia). rewrite andb_true_r.
        destruct (Nat.ltb_spec i (9 + 2 * nb)) as [hi2|hi2]; cbn [andb]; [|reflexivity].
        destruct (Nat.ltb_spec j (9 + 2 * nb)) as [hj2|hj2]; [apply hs; lia|].
        rewrite facet_entry_outside with (L := nb) by lia. symmetry. apply identity_shift; lia.
  Qed.

  (** ** The elements *)
  Context (zero_times : forall x, fmul o (f0 o) x = f0 o).

  Definition good_facets c g (R : nat -> array (F := F)) : Prop := forall f, f < length (sc_facets c) ->
    facet_rows o c (jacobian_at g (centre o c)) (detJ_at g (centre o c)) f = Ok (R f) /\
    n_rows (R f) = sc_dim c - 1 /\ n_cols (R f) = sc_dim c.

  Lemma awnc_ok c g R numbf ndof : sc_dim c = 2 -> length (sc_facets c) = 3 -> good_facets c g R ->
    12 <= ndof -> 12 <= numbf ->
    exists M, awnc_transformation o numbf ndof c g = Ok M /\ n_rows M = ndof /\ n_cols M = numbf /\
      forall i j, n_at M j i = first_entry 2 (fun b => n_at (R (b / 2))) 12 i j.
  Proof.
    intros hd hl hR h1 h2. unfold awnc_transformation.
    destruct (facet_transform_ok c g 1 2 2 R hd) as [V [e [hr [hc hv]]]]; [lia|reflexivity| |].
    { intros f hf. rewrite <- hd. apply hR. exact hf. }
    rewrite hl in *. cbn [Nat.mul Nat.add] in hr, hc, hv. rewrite e. cbn [bind].
    destruct (put_facets_ok 2 (fun b => n_at (R (b / 2))) 6 (eye o numbf ndof) V) as [V' [e' [h3 [h4 h5]]]];
      [lia|cbn; lia|cbn; lia|exact hr|exact hc|reflexivity|intros i j hi; apply hv; exact hi|].
    cbn [Nat.mul Nat.add] in e'. rewrite e'. cbn [bind]. eexists. split; [reflexivity|].
    cbn [list_tensor_of n_rows n_cols n_at transpose]. split; [exact h4|]. split; [exact h3|].
    intros i j. apply h5.
  Qed.

  Lemma jm_ok c g R n K numbf ndof : sc_dim c = n -> 0 < n -> polynomial_dimension (n - 1) 1 = K -> good_facets c g R ->
    length (sc_facets c) * (n * K) <= ndof -> length (sc_facets c) * (n * K) <= numbf ->
    exists M, jm_transformation o numbf ndof c g = Ok M /\ n_rows M = ndof /\ n_cols M = numbf /\
      forall i j, n_at M j i = first_entry n (fun b => n_at (R (b / K))) (length (sc_facets c) * (n * K)) i j.
  Proof.
    intros hd hn hK hR h1 h2. unfold jm_transformation.
    destruct (facet_transform_ok c g 1 n K R hd hn hK) as [V [e [hr [hc hv]]]].
    { intros f hf. rewrite <- hd. apply hR. exact hf. }
    rewrite e. cbn [bind]. rewrite hr, hc.
    assert (hL : length (sc_facets c) * (n * K) = n * (length (sc_facets c) * K)) by lia.
    rewrite hL in *.
    destruct (put_facets_ok n (fun b => n_at (R (b / K))) (length (sc_facets c) * K) (eye o numbf ndof) V) as [V' [e' [h3 [h4 h5]]]];
      [lia|cbn; lia|cbn; lia|exact hr|exact hc|reflexivity|intros i j hi; apply hv; exact hi|].
    rewrite e'. cbn [bind]. eexists. split; [reflexivity|].
    cbn [list_tensor_of n_rows n_cols n_at transpose]. split; [exact h4|]. split; [exact h3|].
    intros i j. apply h5.
  Qed.

  Lemma evaluation_extents c g : sc_dim c = 2 -> n_rows (evaluation_transform o c g) = 3 /\ n_cols (evaluation_transform o c g) = 3.
  Proof. intros hd. unfold evaluation_transform. rewrite hd. split; reflexivity. Qed.

  (** Scaling of the columns of the vertices. *)
  Lemma rescaled_at V (W : nat -> nat -> F) h R L rest i j :
    (forall i j, n_at V i j =
        if i <? 9 then if i / 3 =? j / 3 then W (i mod 3) (j mod 3) else f0 o
        else if j <? 9 then f0 o
        else if i <? 9 + L then facet_entry 2 R (i - 9) (j - 9) else rest i j) ->
    n_at (rescale o V 3 3 h) i j = zany_entry W h R L rest i j.
  Proof.
    intros hv. rewrite rescale_at by lia. rewrite hv. unfold zany_entry. cbn [Nat.mul Nat.add].
    destruct (Nat.ltb_spec i 9) as [hi|hi].
    - destruct (Nat.eqb_spec (i / 3) (j / 3)) as [e|e].
      + assert (hj : j < 9) by (pose proof (Nat.div_mod j 3); pose proof (Nat.mod_upper_bound j 3); pose proof (Nat.div_lt_upper_bound i 3 3); lia).
        replace (j <? 9) with true by (symmetry; apply Nat.ltb_lt; exact hj). rewrite e. reflexivity.
      + rewrite zero_times. destruct (j <? 9); reflexivity.
    - destruct (Nat.ltb_spec j 9) as [hj|hj]; [apply zero_times|reflexivity].
  Qed.

  Lemma aw_ok c g R numbf ndof : sc_dim c = 2 -> length (sc_facets c) = 3 -> good_facets c g R ->
    21 <= ndof -> 21 <= numbf ->
    exists M, aw_transformation o numbf ndof c g = Ok M /\ n_rows M = ndof /\ n_cols M = numbf /\
      forall i j, n_at M j i = zany_entry (n_at (evaluation_transform o c g)) (cell_size g) (fun b => n_at (R (b / 2))) 12
        (identity o) i j.
  Proof.
    intros hd hl hR h1 h2. unfold aw_transformation.
    destruct (evaluation_extents c g hd) as [wr wc].
    destruct (set_vertices_ok (eye o numbf ndof) (evaluation_transform o c g)) as [V1 [e1 [r1 [c1 v1]]]];
      [cbn; lia|cbn; lia|exact wr|exact wc|].
    rewrite e1. cbn [bind]. rewrite wr, hd. cbn [Nat.add Nat.mul].
    destruct (facet_transform_ok c g 1 2 2 R hd) as [V [e [hr [hc hv]]]]; [lia|reflexivity| |].
    { intros f hf. rewrite <- hd. apply hR. exact hf. }
    rewrite hl in *. cbn [Nat.mul Nat.add] in hr, hc, hv. rewrite e. cbn [bind]. rewrite hr. cbn [Nat.add].
    destruct (put_both_ok (n_at (evaluation_transform o c g)) (fun b => n_at (R (b / 2))) 6 (eye o numbf ndof) V1 V)
      as [V' [e' [h3 [h4 h5]]]];
      [symmetry; exact r1|symmetry; exact c1|cbn; lia|cbn; lia|exact hr|exact hc|reflexivity|exact v1|intros i j hi; apply hv; exact hi|].
    cbn [Nat.mul Nat.add] in e'. rewrite e'. cbn [bind]. eexists. split; [reflexivity|].
    cbn [list_tensor_of n_rows n_cols n_at transpose].
    destruct (rescale_extent V' 3 3 (cell_size g)) as [x1 x2]. rewrite x1, x2.
    split; [exact h4|]. split; [exact h3|].
    intros i j. unfold transpose. apply rescaled_at. exact h5.
  Qed.

  Definition hz_rest (point : bool) (W : nat -> nat -> F) L i j : F :=
    if point then if j <? 9 + L then f0 o else vertex_entry W (i - (9 + L)) (j - (9 + L)) else identity o i j.

  Definition is_point (variant : option string) : bool :=
    match variant with Some v => String.eqb v "point" | None => false end.

  Lemma hz_ok c g R ndofs degree variant K k : sc_dim c = 2 -> length (sc_facets c) = 3 -> good_facets c g R ->
    polynomial_dimension 1 (degree - 2) = K -> 9 + 3 * (2 * K) <= ndofs ->
    (is_point variant = true -> ndofs = 9 + 3 * (2 * K) + 3 * k) ->
    exists M, hz_transformation o ndofs degree variant c g = Ok M /\ n_rows M = ndofs /\ n_cols M = ndofs /\
      forall i j, i < ndofs -> j < ndofs ->
        n_at M j i = zany_entry (n_at (evaluation_transform o c g)) (cell_size g) (fun b => n_at (R (b / K))) (3 * (2 * K))
        (hz_rest (is_point variant) (n_at (evaluation_transform o c g)) (3 * (2 * K))) i j.
  Proof.
    intros hd hl hR hK h1 hk. unfold hz_transformation.
    destruct (evaluation_extents c g hd) as [wr wc].
    destruct (set_vertices_ok (eye o ndofs ndofs) (evaluation_transform o c g)) as [V1 [e1 [r1 [c1 v1]]]];
      [cbn; lia|cbn; lia|exact wr|exact wc|].
    rewrite e1. cbn [bind]. rewrite wr, hd. change ((2 + 1) * 3) with 9.
    destruct (facet_transform_ok c g (degree - 2) 2 K R hd) as [V [e [hr [hc hv]]]]; [lia|exact hK| |].
    { intros f hf. rewrite <- hd. apply hR. exact hf. }
    rewrite hl in *. rewrite e. cbn [bind]. rewrite hr.
    assert (hL : 3 * (2 * K) = 2 * (3 * K)) by lia. rewrite hL in *.
    destruct (put_both_ok (n_at (evaluation_transform o c g)) (fun b => n_at (R (b / K))) (3 * K) (eye o ndofs ndofs) V1 V)
      as [V' [e' [h3 [h4 h5]]]];
      [symmetry; exact r1|symmetry; exact c1|cbn; lia|cbn; lia|exact hr|exact hc|reflexivity|exact v1|intros i j hi; apply hv; exact hi|].
    rewrite e'. cbn [bind].
    assert (Hint : exists V2, match variant with
            | Some v => if String.eqb v "point" then hz_interior ndofs V' (evaluation_transform o c g) 3 (9 + 2 * (3 * K)) ndofs else Ok V'
            | None => Ok V'
            end = Ok V2 /\ n_rows V2 = ndofs /\ n_cols V2 = ndofs /\ forall i j, i < ndofs -> j < ndofs -> n_at V2 i j =
        if i <? 9 then if i / 3 =? j / 3 then n_at (evaluation_transform o c g) (i mod 3) (j mod 3) else f0 o
        else if j <? 9 then f0 o
        else if i <? 9 + 2 * (3 * K) then facet_entry 2 (fun b => n_at (R (b / K))) (i - 9) (j - 9)
        else hz_rest (is_point variant) (n_at (evaluation_transform o c g)) (2 * (3 * K)) i j).
    { assert (plain : is_point variant = false -> forall i j, n_at V' i j =
        if i <? 9 then if i / 3 =? j / 3 then n_at (evaluation_transform o c g) (i mod 3) (j mod 3) else f0 o
        else if j <? 9 then f0 o
        else if i <? 9 + 2 * (3 * K) then facet_entry 2 (fun b => n_at (R (b / K))) (i - 9) (j - 9)
        else hz_rest (is_point variant) (n_at (evaluation_transform o c g)) (2 * (3 * K)) i j).
      { intros ev i j. rewrite h5, ev. unfold hz_rest. reflexivity. }
      destruct variant as [v|].
      - cbn [is_point] in *. destruct (String.eqb v "point").
        + destruct (hz_interior_ok (evaluation_transform o c g) ndofs wr wc k ndofs V' (9 + 2 * (3 * K))) as [V2 [e2 [g1 [g2 g3]]]];
            [specialize (hk eq_refl); lia|specialize (hk eq_refl); lia|exact h3|exact h4|].
          exists V2. split; [exact e2|]. split; [exact g1|]. split; [exact g2|]. intros i j hi hj. rewrite g3. clear g3 e2 plain.
          destruct (between (9 + 2 * (3 * K)) ndofs i) eqn:ei.
          * apply betweenP in ei. unfold hz_rest.
            replace (i <? 9) with false by (symmetry; apply Nat.ltb_ge; lia).
            replace (i <? 9 + 2 * (3 * K)) with false by (symmetry; apply Nat.ltb_ge; lia).
            destruct (between (9 + 2 * (3 * K)) ndofs j) eqn:ej; cbn [andb].
            -- apply betweenP in ej. replace (j <? 9) with false by (symmetry; apply Nat.ltb_ge; lia).
               replace (j <? 9 + 2 * (3 * K)) with false by (symmetry; apply Nat.ltb_ge; lia).
               unfold vertex_entry. destruct (Nat.eqb _ _) eqn:eq; [reflexivity|].
               rewrite h5. replace (i <? 9) with false by (symmetry; apply Nat.ltb_ge; lia).
               replace (j <? 9) with false by (symmetry; apply Nat.ltb_ge; lia).
               replace (i <? 9 + 2 * (3 * K)) with false by (symmetry; apply Nat.ltb_ge; lia).
               apply identity_ne. intros E. rewrite E, Nat.eqb_refl in eq. discriminate.
            -- apply between_false in ej.
               replace (j <? 9 + 2 * (3 * K)) with true by (symmetry; apply Nat.ltb_lt; lia).
               rewrite h5. replace (i <? 9) with false by (symmetry; apply Nat.ltb_ge; lia).
               replace (i <? 9 + 2 * (3 * K)) with false by (symmetry; apply Nat.ltb_ge; lia).
               destruct (j <? 9); [reflexivity|]. apply identity_ne. lia.
          * apply between_false in ei. cbn [andb]. rewrite h5.
            replace (i <? 9 + 2 * (3 * K)) with true by (symmetry; apply Nat.ltb_lt; lia). reflexivity.
        + exists V'. split; [reflexivity|]. split; [exact h3|]. split; [exact h4|]. intros i j _ _. apply plain. reflexivity.
      - exists V'. split; [reflexivity|]. split; [exact h3|]. split; [exact h4|]. intros i j _ _. apply plain. reflexivity. }
    destruct Hint as [V2 [e2 [g1 [g2 g3]]]]. rewrite e2. cbn [bind]. eexists. split; [reflexivity|].
    cbn [list_tensor_of n_rows n_cols n_at transpose].
    destruct (rescale_extent V2 (2 + 1) 3 (cell_size g)) as [x1 x2]. rewrite x1, x2.
    split; [exact g2|]. split; [exact g1|].
    intros i j hi hj. unfold transpose. change (2 + 1) with 3.
    set (V3 := mkArray ndofs ndofs (fun i j =>
        if i <? 9 then if i / 3 =? j / 3 then n_at (evaluation_transform o c g) (i mod 3) (j mod 3) else f0 o
        else if j <? 9 then f0 o
        else if i <? 9 + 2 * (3 * K) then facet_entry 2 (fun b => n_at (R (b / K))) (i - 9) (j - 9)
        else hz_rest (is_point variant) (n_at (evaluation_transform o c g)) (2 * (3 * K)) i j)).
    transitivity (n_at (rescale o V3 3 3 (cell_size g)) i j); [|apply rescaled_at; reflexivity].
    rewrite !rescale_at by lia. rewrite g3 by assumption. reflexivity.
  Qed.
End Arrays.
