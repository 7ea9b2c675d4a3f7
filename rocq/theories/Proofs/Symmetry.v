(** Numbering of the components of tensor elements. *)
From Coq Require Import String List ZArith Arith Bool Lia Sorted.
From Verif Require Import Model.Prelude Model.Registry Model.UflElement Spec.UflElement Spec.Rowmajor.
From Verif Require Import Proofs.Lists Proofs.Cells Proofs.Repr Proofs.Rebuild.
Import ListNotations.
Open Scope list_scope.

Lemma indices_all shape : compute_indices shape = all_indices shape.
Proof. unfold compute_indices. induction shape as [|n r IH]; [reflexivity|]. cbn [map cart all_indices]. now rewrite IH. Qed.
Lemma in_all shape i : In i (all_indices shape) <-> in_shape shape i.
Proof. rewrite <- indices_all. apply in_cart_seq. Qed.
Lemma length_all shape : length (all_indices shape) = prod shape.
Proof.
  rewrite <- indices_all. unfold compute_indices. rewrite cart_length, map_map. f_equal. rewrite <- (map_id shape) at 2.
  apply map_ext. intros n. apply seq_length.
Qed.
Lemma before_irrefl i : ~ before i i.
Proof. intros H. remember i as j in H at 2. induction H as [x y l m L|x l m B IH]; [injection Heqj; lia|]. injection Heqj. auto. Qed.
Lemma before_irrefl' i j : before i j -> i <> j.
Proof. intros H ->. now apply before_irrefl in H. Qed.
Lemma sorted_all shape : StronglySorted before (all_indices shape).
Proof.
  induction shape as [|n r IH]; [repeat constructor|]. cbn [all_indices].
  assert (M : forall x, StronglySorted before (map (cons x) (all_indices r))).
  { intros x. induction IH as [|i l S IH' F]; cbn [map]; [constructor|]. constructor; [exact IH'|].
    apply Forall_map. eapply Forall_impl; [|exact F]. intros j B. now apply before_there. }
  generalize 0 as s. induction n as [|n IHn]; intros s; cbn [seq flat_map]; [constructor|].
  assert (A : forall i j, In i (map (cons s) (all_indices r)) -> In j (flat_map (fun x => map (cons x) (all_indices r)) (seq (S s) n)) -> before i j).
  { intros i j I J. apply in_map_iff in I as (i' & <- & _). apply in_flat_map in J as (x & X & J). apply in_seq in X.
    apply in_map_iff in J as (j' & <- & _). apply before_here. lia. }
  specialize (IHn (S s)). specialize (M s). revert A IHn. generalize (flat_map (fun x => map (cons x) (all_indices r)) (seq (S s) n)) as t.
  intros t A T. induction M as [|i l S IH' F]; [exact T|]. cbn [app]. constructor.
  - apply IH'. intros a b I J. apply A; [now right|exact J].
  - apply Forall_app. split; [exact F|]. apply Forall_forall. intros j J. apply A; [now left|exact J].
Qed.
Lemma sorted_nodup l : StronglySorted before l -> NoDup l.
Proof.
  induction 1 as [|i l S IH F]; constructor; [|exact IH]. intros I. rewrite Forall_forall in F. apply F in I. now apply before_irrefl in I.
Qed.
Lemma nodup_all shape : NoDup (all_indices shape).
Proof. apply sorted_nodup, sorted_all. Qed.

(** ** The free indices *)
Section Sym.
  Variables (sy : symmetry).
  Definition is_free (i : list nat) : bool := negb (dict_mem index_eqb sy i).
  Definition free (l : list (list nat)) : list (list nat) := filter is_free l.

  Lemma number_free_fold : forall l d n, NoDup (keys d ++ l) ->
    fold_left (fun acc i => let (d, n) := (acc : list (list nat * nat) * nat) in
               if dict_mem index_eqb sy i then (d, n) else (dict_set index_eqb d i n, S n)) l (d, n)
    = (d ++ combine (free l) (seq n (length (free l))), n + length (free l)).
  Proof.
    induction l as [|i l IH]; intros d n N; cbn [fold_left free filter length combine seq app].
    - now rewrite app_nil_r, Nat.add_0_r.
    - change (filter is_free l) with (free l). unfold is_free. pose proof (NoDup_remove_2 _ _ _ N) as N2.
      destruct (dict_mem index_eqb sy i); cbn [negb].
      + apply IH. now apply NoDup_remove_1 in N.
      + rewrite dict_set_new by (intros I; apply N2, in_app_iff; now left). rewrite IH.
        * cbn [length seq combine]. rewrite <- app_assoc. cbn [app]. f_equal. lia.
        * unfold keys in *. rewrite map_app. cbn [map fst]. now rewrite <- app_assoc.
  Qed.
  Lemma number_free_eq l : NoDup l -> number_free sy l = (combine (free l) (seq 0 (length (free l))), length (free l)).
  Proof. intros N. unfold number_free. now rewrite number_free_fold. Qed.

  Lemma get_combine l : NoDup l -> forall s i k, dict_get index_eqb (combine l (seq s (length l))) i = Ok k <-> s <= k /\ nth_error l (k - s) = Some i.
  Proof.
    induction 1 as [|x l X N IH]; intros s i k; cbn [length seq combine dict_get].
    - split; [discriminate|]. intros [_ H]. destruct (k - s); discriminate H.
    - destruct (index_spec i x) as [->|D].
      + split.
        * intros H. injection H as ->. rewrite Nat.sub_diag. now split.
        * intros [L H]. destruct (k - s) as [|m] eqn:E; [f_equal; lia|]. exfalso. apply X. cbn [nth_error] in H. now apply nth_error_In in H.
      + rewrite IH. split.
        * intros [L H]. split; [lia|]. replace (k - s) with (S (k - S s)) by lia. exact H.
        * intros [L H]. destruct (k - s) as [|m] eqn:E; [injection H as ->; now destruct D|]. cbn [nth_error] in H. split; [lia|].
          now replace (k - S s) with m by lia.
  Qed.
  Lemma in_free l i : In i (free l) <-> In i l /\ ~ In i (keys sy).
  Proof.
    unfold free. rewrite filter_In. unfold is_free. rewrite negb_true_iff. pose proof (dict_mem_spec index_eqb index_spec sy i) as M.
    unfold keys. destruct (dict_mem index_eqb sy i).
    - split; [intros [_ H]; discriminate H|]. intros [_ H]. destruct H. now apply M.
    - split; intros [I _]; (split; [exact I|auto]). intros K. apply M in K. discriminate K.
  Qed.
End Sym.

Lemma free_spec shape sy : filter (fun i => negb (existsb (list_eqb Nat.eqb i) (map fst sy))) (all_indices shape) = free sy (all_indices shape).
Proof.
  apply filter_ext. intros i. unfold is_free. f_equal. induction sy as [|[k v] sy IH]; [reflexivity|]. cbn [map fst existsb dict_mem]. now rewrite IH.
Qed.

(** ** Numbering *)
Section Numbering.
  Variables (shape : list nat) (sy : symmetry).
  Hypothesis KN : NoDup (keys sy).
  Hypothesis KI : forall i, In i (keys sy) -> In i (all_indices shape).
  Hypothesis TI : forall i j, In (i, j) sy -> In j (all_indices shape).
  Hypothesis TB : forall i j, In (i, j) sy -> before j i.
  Notation L := (all_indices shape).
  Notation num := (numbered shape sy).

  Lemma sy_get i j : dict_get index_eqb sy i = Ok j <-> In (i, j) sy.
  Proof using KN. split; [apply (dict_get_in _ index_spec)|apply (dict_in_get _ index_spec); exact KN]. Qed.
  Lemma sy_none i : ~ In i (keys sy) -> exists x, dict_get index_eqb sy i = Err x.
  Proof. intros N. exists KeyError. now apply (dict_get_none _ index_spec). Qed.
  Lemma num_free i k : nth_error (free sy L) k = Some i -> num i k.
  Proof. intros H. apply numbered_free. now rewrite free_spec. Qed.
  Lemma num_unique i k : num i k -> forall k', num i k' -> k = k'.
  Proof using KN.
    induction 1 as [i k H|i j k I N IH]; intros k' H'.
    - rewrite free_spec in H. destruct H' as [i k' H'|i j k' I' N'].
      + rewrite free_spec in H'. assert (ND : NoDup (free sy L)) by (apply NoDup_filter, nodup_all).
        rewrite (NoDup_nth_error (free sy L)) in ND. apply ND; [apply nth_error_Some; congruence|congruence].
      + exfalso. apply nth_error_In, in_free in H as [_ H]. apply H. unfold keys. apply in_map_iff. now exists (i, j).
    - destruct H' as [i k' H'|i j' k' I' N'].
      + exfalso. rewrite free_spec in H'. apply nth_error_In, in_free in H' as [_ H']. apply H'. unfold keys. apply in_map_iff. now exists (i, j).
      + apply IH. apply sy_get in I, I'. assert (j = j') as -> by congruence. exact N'.
  Qed.
  Lemma num_bound i k : num i k -> k < length (free sy L).
  Proof. induction 1 as [i k H|i j k I N IH]; [|exact IH]. rewrite free_spec in H. apply nth_error_Some. congruence. Qed.

  (** The second pass. *)
  Definition agrees (d : list (list nat * nat)) (i : list nat) : Prop := exists k, num i k /\ dict_get index_eqb d i = Ok k.
  Lemma before_in P i Q j : L = P ++ i :: Q -> In j L -> before j i -> In j P.
  Proof.
    intros E I B. rewrite E in I. apply in_app_iff in I as [I|[<-|I]]; [exact I|now apply before_irrefl in B|].
    pose proof (sorted_all shape) as S. rewrite E in S. clear E. induction P as [|p P IH]; cbn [app] in S.
    - inversion S as [|? ? S' F]; subst. rewrite Forall_forall in F. apply F in I.
      exfalso. clear -B I. revert i I B. 
      assert (T : forall a b, before a b -> forall c, before b c -> before a c).
      { induction 1 as [x y l m Lt|x l m H IH]; intros c H'; inversion H'; subst; [apply before_here; lia|now apply before_here|now apply before_here|].
        apply before_there. now apply IH. }
      intros i I B. pose proof (T _ _ I _ B) as H. now apply before_irrefl in H.
    - right. apply IH. now inversion S.
  Qed.
  Lemma symmetric_fold : forall Q P d, L = P ++ Q -> (forall i, In i L -> ~ In i (keys sy) -> agrees d i) -> (forall i, In i P -> agrees d i) ->
    exists d', fold_left (fun acc i => do d <- acc ;;
               match dict_get index_eqb sy i with
               | Err _ => Ok d
               | Ok j => do n <- dict_get index_eqb d j ;; Ok (dict_set index_eqb d i n)
               end) Q (Ok d) = Ok d' /\ (forall i, In i L -> agrees d' i).
  Proof using KN KI TI TB.
    induction Q as [|i Q IH]; intros P d E F A; cbn [fold_left].
    - exists d. split; [reflexivity|]. rewrite app_nil_r in E. now rewrite E.
    - assert (E' : L = (P ++ [i]) ++ Q) by (now rewrite <- app_assoc). cbn [bind].
      destruct (dict_get index_eqb sy i) as [j|] eqn:G.
      + apply sy_get in G. assert (Ij : In j P) by (apply (before_in P i Q); [exact E|now apply (TI i)|now apply TB]).
        destruct (A j Ij) as (k & Nk & Gk). rewrite Gk. cbn [bind].
        assert (B : forall x, agrees d x \/ x = i -> agrees (dict_set index_eqb d i k) x).
        { intros x C. unfold agrees. rewrite (dict_set_get _ _ _ index_spec). destruct (index_spec x i) as [->|D].
          - exists k. split; [now apply (numbered_equal _ _ i j)|reflexivity].
          - destruct C as [C|C]; [exact C|now destruct D]. }
        apply (IH (P ++ [i])); [exact E'| |].
        * intros x X N. apply B. left. now apply F.
        * intros x X. apply B. apply in_app_iff in X as [X|[->|[]]]; auto.
      + apply (IH (P ++ [i])); [exact E'|exact F|]. intros x X. apply in_app_iff in X as [X|[->|[]]]; [now apply A|].
        apply F; [rewrite E; apply in_app_iff; right; now left|]. intros K. apply (dict_get_some _ index_spec) in K as [v K]. congruence.
  Qed.
  Lemma symmetric_ok : exists t, number_symmetric sy L (fst (number_free sy L)) = Ok t /\ forall i, In i L -> agrees t i.
  Proof using KN KI TI TB.
    unfold number_symmetric. apply (symmetric_fold L []); [reflexivity| |intros i []].
    intros i I N. rewrite number_free_eq by apply nodup_all. cbn [fst].
    assert (Fi : In i (free sy L)) by (now apply in_free). apply In_nth_error in Fi as [k K]. exists k. split; [now apply num_free|].
    apply get_combine; [apply NoDup_filter, nodup_all|]. split; [lia|]. now rewrite Nat.sub_0_r.
  Qed.

  (** The numbering of the pullback. *)
  Lemma pullback_fold : forall Q P d, L = P ++ Q -> (forall i, In i P -> agrees d i) -> (forall i, ~ In i P -> exists x, dict_get index_eqb d i = Err x) ->
    forall i, In i L -> agrees (fst (fold_left (fun acc i =>
         let (d, n) := (acc : list (list nat * nat) * nat) in
         match dict_get index_eqb sy i with
         | Ok j => match dict_get index_eqb d j with
                   | Ok k => (dict_set index_eqb d i k, n)
                   | Err _ => (dict_set index_eqb d i n, S n)
                   end
         | Err _ => (dict_set index_eqb d i n, S n)
         end) Q (d, length (free sy P)))) i.
  Proof using KN KI TI TB.
    induction Q as [|i Q IH]; intros P d E A N; cbn [fold_left].
    - rewrite app_nil_r in E. now rewrite E.
    - assert (E' : L = (P ++ [i]) ++ Q) by (now rewrite <- app_assoc).
      assert (SetN : forall k x, ~ In x (P ++ [i]) -> exists y, dict_get index_eqb (dict_set index_eqb d i k) x = Err y).
      { intros k x X. rewrite (dict_set_get _ _ _ index_spec). destruct (index_spec x i) as [->|D]; [destruct X; apply in_app_iff; right; now left|].
        apply N. intros I. apply X, in_app_iff. now left. }
      assert (SetA : forall k, num i k -> forall x, In x (P ++ [i]) -> agrees (dict_set index_eqb d i k) x).
      { intros k K x X. unfold agrees. rewrite (dict_set_get _ _ _ index_spec). destruct (index_spec x i) as [->|D]; [eauto|].
        apply in_app_iff in X as [X|[<-|[]]]; [now apply A|now destruct D]. }
      destruct (dict_get index_eqb sy i) as [j|] eqn:G.
      + pose proof G as G'. apply sy_get in G. assert (Ij : In j P) by (apply (before_in P i Q); [exact E|now apply (TI i)|now apply TB]).
        destruct (A j Ij) as (k & Nk & Gk). rewrite Gk.
        replace (length (free sy P)) with (length (free sy (P ++ [i]))).
        * apply IH; [exact E'| |apply SetN]. apply SetA. now apply (numbered_equal _ _ i j).
        * unfold free. rewrite filter_app. cbn [filter]. unfold is_free at 2. rewrite (dict_get_mem _ _ _ _ _ _ G'). cbn [negb]. now rewrite app_nil_r.
      + assert (Fi : is_free sy i = true) by (unfold is_free; now rewrite (proj2 (dict_get_err _ _ _ _ _ _ G))).
        assert (Ei : free sy (P ++ [i]) = free sy P ++ [i]) by (unfold free; rewrite filter_app; cbn [filter]; now rewrite Fi).
        replace (S (length (free sy P))) with (length (free sy (P ++ [i]))) by (rewrite Ei, app_length; cbn [length]; lia).
        apply IH; [exact E'| |apply SetN]. apply SetA. apply num_free. rewrite E'. unfold free. rewrite filter_app.
        change (filter (is_free sy) (P ++ [i])) with (free sy (P ++ [i])). rewrite Ei, <- app_assoc. unfold free. rewrite nth_error_app2 by apply le_n. rewrite Nat.sub_diag. reflexivity.
  Qed.
  Lemma pullback_ok i : In i L -> agrees (pullback_numbers shape sy) i.
  Proof using KN KI TI TB.
    unfold pullback_numbers. rewrite indices_all. apply (pullback_fold L [] []); [reflexivity|intros x []|]. intros x _. now exists KeyError.
  Qed.

  (** How many. *)
  Lemma free_count : length (free sy L) + length sy = prod shape.
  Proof using KN KI.
    rewrite <- length_all. rewrite <- (map_length fst sy). fold (keys sy).
    assert (P : Permutation.Permutation L (free sy L ++ keys sy)).
    { apply Permutation.NoDup_Permutation; [apply nodup_all| |].
      - apply nodup_app; [apply NoDup_filter, nodup_all|exact KN|]. intros i I J. apply in_free in I as [_ I]. now apply I.
      - intros i. rewrite in_app_iff, in_free. split.
        + intros I. destruct (in_dec (list_eq_dec Nat.eq_dec) i (keys sy)); auto.
        + intros [[I _]|I]; auto. }
    apply Permutation.Permutation_length in P. now rewrite app_length in P.
  Qed.
End Numbering.

(** ** Tensor elements *)
Lemma symmetry_keys sh s sy : symmetry_of sh s = Ok sy -> NoDup (keys sy).
Proof.
  intros H. destruct s as [| |l]; cbn [symmetry_of] in H.
  - injection H as <-. constructor.
  - destruct sh as [|m [|n [|]]]; try discriminate H. binds H. apply guard_true, Nat.eqb_eq in E as ->. injection H as <-. apply auto_keys.
  - injection H as <-. apply dict_fold_nodup. constructor.
Qed.
Lemma entries_in : forall i j sh, length i = length sh -> length i = length j -> check_entries i j sh = Ok tt -> in_shape sh i /\ in_shape sh j.
Proof.
  unfold in_shape. induction i as [|x i IH]; intros [|y j] [|n sh] L1 L2 H; try discriminate; [split; constructor|].
  cbn [check_entries] in H. binds H. apply guard_true, andb_true_iff in E as [E1 E2]. apply Nat.ltb_lt in E1, E2.
  destruct (IH j sh) as [A B]; auto.
Qed.
Lemma checked sh sy : check_symmetry sh sy = Ok tt -> full_keys sh sy -> forall i j, In (i, j) sy -> In i (all_indices sh) /\ In j (all_indices sh).
Proof.
  intros C K i j I. rewrite !in_all. unfold check_symmetry in C. binds C. clear C.
  assert (M : forall l v, mapM (fun ij => do! guard (Nat.eqb (length (fst ij)) (length (snd ij))) ValueError ;; check_entries (fst ij) (snd ij) sh) l = Ok v ->
    forall i j, In (i, j) l -> length i = length j /\ check_entries i j sh = Ok tt).
  { clear. induction l as [|[a b] l IH]; intros v H i j I; [destruct I|]. cbn [mapM fst snd] in H. binds H. destruct I as [I|I].
    - injection I as -> ->. binds E. apply guard_true, Nat.eqb_eq in E1. destruct v0. auto.
    - exact (IH _ eq_refl i j I). }
  destruct (M sy v E i j I) as [Q R]. apply entries_in; auto. exact (K i j I).
Qed.

Lemma tensor_numbers sub shape s a sub' sh sy t n : mk_tensor sub shape s = Ok (UTensor a sub' sh sy t n) -> full_keys sh sy ->
  n + length sy = prod sh /\ at_shape a = (match sy with [] => sh | _ => [n] end ++ u_shape sub) /\
  ((forall i j, In (i, j) sy -> before j i) -> forall i, In i (all_indices sh) -> exists k, k < n /\ numbered sh sy i k /\
     (forall k', numbered sh sy i k' -> k' = k) /\ dict_get index_eqb t i = Ok k /\ dict_get index_eqb (pullback_numbers sh sy) i = Ok k).
Proof.
  intros H FK. apply mk_tensor_inv in H as (a0 & sh0 & sy0 & t0 & n0 & E & S & C & Hn & Ht & _ & a' & _ & Ha).
  injection E as <- <- <- <- <- <-. rewrite indices_all in *.
  pose proof (symmetry_keys _ _ _ S) as KN. pose proof (checked _ _ C FK) as IN.
  assert (KI : forall i, In i (keys sy) -> In i (all_indices sh)).
  { intros i I. unfold keys in I. apply in_map_iff in I as ([i' j] & <- & I). exact (proj1 (IN _ _ I)). }
  pose proof (free_count sh sy KN KI) as FC. rewrite number_free_eq in Hn by apply nodup_all. cbn [snd] in Hn. rewrite <- Hn in FC.
  split; [exact FC|]. split.
  { rewrite Ha. cbn [at_shape]. destruct sy as [|p sy]; [reflexivity|]. do 2 f_equal. lia. }
  intros TB i I. destruct (symmetric_ok sh sy KN KI (fun i j J => proj2 (IN i j J)) TB) as (t1 & E1 & A1).
  assert (t1 = t) as -> by congruence. destruct (A1 i I) as (k & Nk & Gk).
  destruct (pullback_ok sh sy KN KI (fun i j J => proj2 (IN i j J)) TB i I) as (k' & Nk' & Gk').
  assert (k' = k) as -> by exact (num_unique sh sy KN _ _ Nk' _ Nk).
  exists k. repeat split; auto.
  - rewrite Hn. now apply (num_bound sh sy i).
  - intros k' K. exact (num_unique sh sy KN _ _ K _ Nk).
Qed.
Lemma tensor_onto shape sy k : k < length (free sy (all_indices shape)) -> exists i, In i (all_indices shape) /\ numbered shape sy i k.
Proof.
  intros H. apply nth_error_Some in H. destruct (nth_error (free sy (all_indices shape)) k) as [i|] eqn:E; [|now destruct H].
  exists i. split; [|now apply num_free]. apply nth_error_In in E. now apply in_free in E.
Qed.

(** ** Symmetric matrices *)
Definition auto (n : nat) : symmetry :=
  flat_map (fun i => flat_map (fun j => if Nat.ltb j i then [([i; j], [j; i])] else []) (seq 0 n)) (seq 0 n).
Lemma in_auto n i j : In (i, j) (auto n) <-> exists x y, i = [x; y] /\ j = [y; x] /\ y < x /\ x < n.
Proof.
  unfold auto. rewrite in_flat_map. split.
  - intros (x & X & H). apply in_flat_map in H as (y & Y & H). apply in_seq in X, Y. destruct (Nat.ltb_spec y x) as [L|L]; [|destruct H].
    destruct H as [H|[]]. injection H as <- <-. exists x, y. repeat split; lia.
  - intros (x & y & -> & -> & L & M). exists x. split; [apply in_seq; lia|]. apply in_flat_map. exists y. split; [apply in_seq; lia|].
    destruct (Nat.ltb_spec y x); [now left|lia].
Qed.
Lemma auto_length n : 2 * length (auto n) + n = n * n.
Proof.
  unfold auto. assert (R : forall i m s, length (flat_map (fun j => if Nat.ltb j i then [([i; j], [j; i])] else []) (seq s m)) = Nat.min m (i - s)).
  { intros i. induction m as [|m IH]; intros s; [reflexivity|]. cbn [seq flat_map]. rewrite app_length, IH.
    destruct (Nat.ltb_spec s i); cbn [length]; lia. }
  assert (G : forall k, k <= n -> 2 * length (flat_map (fun i => flat_map (fun j => if Nat.ltb j i then [([i; j], [j; i])] else []) (seq 0 n)) (seq 0 k)) + k = k * k).
  { induction k as [|k IH]; intros K; [reflexivity|]. rewrite seq_S, flat_map_app, app_length. cbn [flat_map Nat.add].
    rewrite app_nil_r, R. replace (Nat.min n (k - 0)) with k by lia. assert (K' : k <= n) by lia. specialize (IH K'). lia. }
  now apply G.
Qed.
Lemma ucell_eqb_refl c : ucell_eqb c c = true.
Proof.
  induction c as [k|cs IH] using ucell_ind'; cbn [ucell_eqb]; [apply String.eqb_refl|].
  induction IH as [|c cs H F IHF]; [reflexivity|]. now rewrite H, IHF.
Qed.
Lemma mixed_repeat sub m s z : u_degree sub = DInt z -> exists a, mixed_attrs (repeat sub m) (Some s) = Ok a.
Proof.
  intros D. destruct m as [|m]; [eexists; reflexivity|].
  assert (Fl : forall (x : list ucell) k, flat_map (fun e => match u_cell e with None => [] | Some c => [c] end) (repeat sub k) = match u_cell sub with None => [] | Some c => repeat c k end).
  { intros _ k. induction k as [|k IH]; cbn [repeat flat_map]; [now destruct (u_cell sub)|]. rewrite IH. now destruct (u_cell sub). }
  assert (Al : forall {A} (p : A -> bool) x k, p x = true -> forallb p (repeat x k) = true).
  { intros A p x k P. induction k as [|k IH]; [reflexivity|]. cbn [repeat forallb]. now rewrite P, IH. }
  unfold mixed_attrs. rewrite (Fl []), repeat_map, D.
  assert (C : exists c, match match u_cell sub with None => [] | Some c => repeat c (S m) end with
             | [] => Ok None
             | c :: r => do! guard (forallb (ucell_eqb c) r) ValueError ;; Ok (Some c) end = Ok c).
  { destruct (u_cell sub) as [c|]; [|eauto]. cbn [repeat]. rewrite Al by apply ucell_eqb_refl. cbn. eauto. }
  destruct C as [c ->]. cbn [bind].
  assert (S1 : exists q, match repeat sub (S m) with [] => Ok None | e :: _ =>
      do! guard (forallb (fun e' => opt_eqb String.eqb (u_scheme e') (u_scheme e)) (repeat sub (S m))) ValueError ;; Ok (u_scheme e) end = Ok q).
  { cbn [repeat]. change (sub :: repeat sub m) with (repeat sub (S m)). rewrite Al; [eexists; reflexivity|].
    destruct (u_scheme sub); [apply String.eqb_refl|reflexivity]. }
  destruct S1 as [q ->]. cbn [bind].
  assert (Fi : filter (fun d => negb (deg_eqb d DNone)) (repeat (DInt z) (S m)) = repeat (DInt z) (S m)).
  { generalize (S m). intros k. induction k as [|k IH]; [reflexivity|]. cbn [repeat filter deg_eqb negb]. now rewrite IH. }
  rewrite Fi. cbn [repeat]. change (DInt z :: repeat (DInt z) m) with (repeat (DInt z) (S m)).
  assert (Ma : forall k, mapM as_array (repeat (DInt z) k) = Ok (repeat (inl z) k)).
  { intros k. induction k as [|k IH]; [reflexivity|]. cbn [repeat mapM as_array bind]. now rewrite IH. }
  assert (Mx : forall k, fold_left (fun acc y => do a <- acc ;; maximum a y) (repeat (inl z) k) (Ok (inl z)) = Ok (inl z)).
  { intros k. induction k as [|k IH]; [reflexivity|]. cbn [repeat fold_left bind maximum]. now rewrite Z.max_id. }
  unfold max_degree. rewrite Ma. cbn [repeat bind]. rewrite Mx. cbn [bind]. eauto.
Qed.
Lemma auto_tensor sub n z : u_degree sub = DInt z -> exists a t m,
  mk_tensor sub (Some [n; n]) AutoSym = Ok (UTensor a sub [n; n] (auto n) t m).
Proof.
  intros D. unfold mk_tensor. cbn [bind symmetry_of]. rewrite Nat.eqb_refl. cbn [guard bind]. fold (auto n).
  assert (C : check_symmetry [n; n] (auto n) = Ok tt).
  { unfold check_symmetry. assert (M : forall l, (forall i j, In (i, j) l -> In (i, j) (auto n)) -> exists v,
      mapM (fun ij => do! guard (Nat.eqb (length (fst ij)) (length (snd ij))) ValueError ;; check_entries (fst ij) (snd ij) [n; n]) l = Ok v).
    { induction l as [|[i j] l IH]; intros I; [eexists; reflexivity|]. destruct IH as [v V]. { intros a b J. apply I. now right. }
      destruct (proj1 (in_auto n i j) (I i j (or_introl eq_refl))) as (x & y & -> & -> & L1 & L2).
      cbn [mapM fst snd length Nat.eqb guard bind check_entries].
      assert (E1 : Nat.ltb x n = true) by (apply Nat.ltb_lt; lia). assert (E2 : Nat.ltb y n = true) by (apply Nat.ltb_lt; lia).
      rewrite E1, E2. cbn [andb guard bind]. rewrite V. eexists. reflexivity. }
    destruct (M (auto n)) as [v ->]; [auto|reflexivity]. }
  rewrite C. cbn [bind]. destruct (number_free (auto n) (compute_indices [n; n])) as [d m] eqn:N.
  destruct (symmetric_ok [n; n] (auto n)) as (t & T & _).
  - apply auto_keys.
  - intros i I. unfold keys in I. apply in_map_iff in I as ([i' j] & <- & I). apply in_auto in I as (x & y & -> & -> & L1 & L2).
    apply in_all. repeat constructor; lia.
  - intros i j I. apply in_auto in I as (x & y & -> & -> & L1 & L2). apply in_all. repeat constructor; lia.
  - intros i j I. apply in_auto in I as (x & y & -> & -> & L1 & L2). now apply before_here.
  - rewrite indices_all in *. rewrite N in T. cbn [fst] in T. rewrite T. cbn [bind].
    match goal with |- context [mixed_attrs (repeat sub m) (Some ?s)] => destruct (mixed_repeat sub m s z D) as [a ->] end. cbn [bind]. eauto.
Qed.
Lemma two_indices m n x : In x (all_indices [m; n]) -> exists i j, x = [i; j] /\ i < m /\ j < n.
Proof.
  intros H. cbn [all_indices] in H. apply in_flat_map in H as (i & I & H). apply in_map_iff in H as (r & <- & H).
  apply in_flat_map in H as (j & J & H). apply in_map_iff in H as (r' & <- & [<-|[]]). apply in_seq in I, J. exists i, j. repeat split; lia.
Qed.
Lemma auto_full n : full_keys [n; n] (auto n).
Proof. intros i j I. apply in_auto in I as (x & y & -> & _). reflexivity. Qed.
Lemma auto_numbers sub n z : u_degree sub = DInt z -> exists a t m,
  mk_tensor sub (Some [n; n]) AutoSym = Ok (UTensor a sub [n; n] (auto n) t m) /\
  2 * m = n * (n + 1) /\ prod (at_shape a) = m * prod (u_shape sub) /\
  (forall i j, i < n -> j < n -> exists k, k < m /\ dict_get index_eqb t [i; j] = Ok k /\ dict_get index_eqb t [j; i] = Ok k /\
     dict_get index_eqb (pullback_numbers [n; n] (auto n)) [i; j] = Ok k) /\
  (forall k, k < m -> exists i j, i <= j /\ j < n /\ dict_get index_eqb t [i; j] = Ok k /\
     forall i' j', i' <= j' -> j' < n -> dict_get index_eqb t [i'; j'] = Ok k -> i' = i /\ j' = j).
Proof.
  intros D. destruct (auto_tensor sub n z D) as (a & t & m & H). exists a, t, m. split; [exact H|].
  destruct (tensor_numbers _ _ _ _ _ _ _ _ _ H (auto_full n)) as (C & S & G).
  assert (G' := G ltac:(intros i j I; apply in_auto in I as (x & y & -> & -> & L1 & L2); now apply before_here)). clear G.
  pose proof (auto_length n) as AL. cbn [prod] in C. split; [lia|]. split.
  { rewrite S. assert (P : prod (match auto n with [] => [n; n] | _ => [m] end) = m).
    { destruct (auto n) as [|p l]; cbn [prod length] in *; lia. }
    transitivity (prod (match auto n with [] => [n; n] | _ => [m] end) * prod (u_shape sub)); [|now rewrite P].
    clear. generalize (match auto n with [] => [n; n] | _ => [m] end). intros l. induction l as [|x l IH]; cbn [app prod]; lia. }
  assert (In2 : forall i j, i < n -> j < n -> In [i; j] (all_indices [n; n])).
  { intros i j Hi Hj. apply in_all. repeat constructor; lia. }
  assert (Fr : forall i j, i <= j -> ~ In [i; j] (keys (auto n))).
  { intros i j L I. unfold keys in I. apply in_map_iff in I as ([i' j'] & E & I). cbn [fst] in E. subst i'.
    apply in_auto in I as (x & y & E & -> & L1 & L2). injection E as <- <-. lia. }
  assert (Eq : forall i j, i < n -> j < n -> j <= i -> exists k, k < m /\ dict_get index_eqb t [i; j] = Ok k /\ dict_get index_eqb t [j; i] = Ok k /\
     dict_get index_eqb (pullback_numbers [n; n] (auto n)) [i; j] = Ok k /\ dict_get index_eqb (pullback_numbers [n; n] (auto n)) [j; i] = Ok k).
  { intros i j Hi Hj L. destruct (G' [j; i] (In2 j i Hj Hi)) as (k & K1 & K2 & K3 & K4 & K5).
    destruct (G' [i; j] (In2 i j Hi Hj)) as (k' & K1' & K2' & K3' & K4' & K5'). exists k.
    assert (k = k') as <-.
    { destruct (Nat.eq_dec i j) as [->|N]; [congruence|]. apply K3'. apply (numbered_equal _ _ _ [j; i]); [|exact K2].
      apply in_auto. exists i, j. repeat split; lia. }
    auto. }
  split.
  - intros i j Hi Hj. destruct (le_lt_dec j i) as [L|L].
    + destruct (Eq i j Hi Hj L) as (k & A1 & A2 & A3 & A4 & A5). eauto 6.
    + destruct (Eq j i Hj Hi ltac:(lia)) as (k & A1 & A2 & A3 & A4 & A5). eauto 6.
  - intros k K. destruct (tensor_onto [n; n] (auto n) k) as (x & X & N).
    { assert (FC := free_count [n; n] (auto n) (auto_keys n)). cbn [prod] in FC.
      assert (KI : forall i, In i (keys (auto n)) -> In i (all_indices [n; n])).
      { intros i I. unfold keys in I. apply in_map_iff in I as ([i' j] & <- & I). apply in_auto in I as (x & y & -> & -> & L1 & L2).
        apply In2; lia. }
      specialize (FC KI). lia. }
    destruct (two_indices n n x X) as (i & j & -> & Hi & Hj).
    assert (U : forall i j, i <= j -> j < n -> forall k', dict_get index_eqb t [i; j] = Ok k' -> nth_error (free (auto n) (all_indices [n; n])) k' = Some [i; j]).
    { intros i0 j0 L0 J0 k' T. destruct (G' [i0; j0]) as (k0 & _ & N0 & U0 & T0 & _); [apply In2; lia|]. assert (k' = k0) as -> by congruence.
      inversion N0 as [? ? F|? j1 ? I1 _]; subst; [now rewrite free_spec in F|]. exfalso. apply (Fr i0 j0 L0). unfold keys. apply in_map_iff. now exists ([i0; j0], j1). }
    assert (W : exists i j, i <= j /\ j < n /\ dict_get index_eqb t [i; j] = Ok k).
    { destruct (le_lt_dec i j) as [L|L].
      - exists i, j. repeat split; auto. destruct (G' [i; j] X) as (k0 & _ & _ & U0 & T0 & _). now rewrite (U0 k N).
      - exists j, i. repeat split; [lia|exact Hi|]. destruct (Eq i j Hi Hj ltac:(lia)) as (k0 & _ & A2 & A3 & _).
        destruct (G' [i; j] X) as (k1 & _ & _ & U0 & T0 & _). rewrite A3, <- A2, T0. now rewrite (U0 k N). }
    destruct W as (i1 & j1 & L1 & J1 & T1). exists i1, j1. split; [exact L1|]. split; [exact J1|]. split; [exact T1|].
    intros i' j' L' J' T'. pose proof (U _ _ L1 J1 _ T1) as E1. pose proof (U _ _ L' J' _ T') as E2. rewrite E1 in E2. injection E2 as <- <-. now split.
Qed.

(** ** Symmetries given as dictionaries *)
Lemma fold_same (sy : symmetry) : NoDup (keys sy) -> fold_left (fun d ij => dict_set index_eqb d (fst ij) (snd ij)) sy [] = sy.
Proof. exact (dict_fold_self sy []). Qed.
Lemma check_ok sh sy : (forall i j, In (i, j) sy -> In i (all_indices sh) /\ In j (all_indices sh)) -> check_symmetry sh sy = Ok tt.
Proof.
  intros H. unfold check_symmetry. assert (E : forall i j s, in_shape s i -> in_shape s j -> check_entries i j s = Ok tt).
  { unfold in_shape. intros i j s A. revert j. induction A as [|x n i s X A IH]; intros j B; [destruct j; [reflexivity|inversion B]|].
    destruct j as [|y j]; [reflexivity|]. inversion B as [|? ? ? ? Y B']; subst. cbn [check_entries].
    apply Nat.ltb_lt in X, Y. rewrite X, Y. cbn [andb guard bind]. now apply IH. }
  assert (M : forall l, (forall i j, In (i, j) l -> In (i, j) sy) -> exists v,
    mapM (fun ij => do! guard (Nat.eqb (length (fst ij)) (length (snd ij))) ValueError ;; check_entries (fst ij) (snd ij) sh) l = Ok v).
  { induction l as [|[i j] l IH]; intros I; [eexists; reflexivity|]. destruct IH as [v V]. { intros a b J. apply I. now right. }
    destruct (H i j (I i j (or_introl eq_refl))) as [A B]. rewrite in_all in A, B. assert (LA : length sh = length i) by (unfold in_shape in A; clear -A; induction A; cbn; congruence). assert (LB : length sh = length j) by (unfold in_shape in B; clear -B; induction B; cbn; congruence).
    cbn [mapM fst snd]. assert (L : Nat.eqb (length i) (length j) = true) by (apply Nat.eqb_eq; congruence). rewrite L. cbn [guard bind].
    rewrite (E i j sh A B). cbn [bind]. rewrite V. eexists. reflexivity. }
  destruct (M sy) as [v ->]; [auto|reflexivity].
Qed.
Lemma tensor_accepts sub sh sy z : u_degree sub = DInt z -> NoDup (map fst sy) ->
  (forall i j, In (i, j) sy -> In i (all_indices sh) /\ In j (all_indices sh) /\ before j i) ->
  exists a t n, mk_tensor sub (Some sh) (SymDict sy) = Ok (UTensor a sub sh sy t n).
Proof.
  intros D KN H. unfold mk_tensor. cbn [bind symmetry_of]. rewrite (fold_same sy KN). cbn [bind].
  rewrite check_ok by (intros i j I; destruct (H i j I) as (A & B & _); auto). cbn [bind].
  destruct (number_free sy (compute_indices sh)) as [d m] eqn:N.
  destruct (symmetric_ok sh sy KN) as (t & T & _).
  - intros i I. unfold keys in I. apply in_map_iff in I as ([i' j] & <- & I). exact (proj1 (H _ _ I)).
  - intros i j I. exact (proj1 (proj2 (H _ _ I))).
  - intros i j I. exact (proj2 (proj2 (H _ _ I))).
  - rewrite indices_all in *. rewrite N in T. cbn [fst] in T. rewrite T. cbn [bind].
    match goal with |- context [mixed_attrs (repeat sub m) (Some ?s)] => destruct (mixed_repeat sub m s z D) as [a ->] end. cbn [bind]. eauto.
Qed.
Lemma tensor_refuses sub sh sy i j : NoDup (map fst sy) -> full_keys sh sy -> In (i, j) sy -> ~ (In i (all_indices sh) /\ In j (all_indices sh)) ->
  mk_tensor sub (Some sh) (SymDict sy) = Err ValueError.
Proof.
  intros KN F I N. unfold mk_tensor. cbn [bind symmetry_of]. rewrite (fold_same sy KN). cbn [bind].
  destruct (check_symmetry sh sy) as [[]|x] eqn:C; [destruct (N (checked sh sy C F i j I))|]. cbn [bind]. f_equal.
  unfold check_symmetry in C. destruct (mapM _ sy) as [v|y] eqn:M; [discriminate C|]. injection C as <-. clear I N KN. revert y M F.
  induction sy as [|[a b] l IH]; intros y M F; [discriminate M|]. cbn [mapM fst snd] in M.
  assert (FK : full_keys sh l) by (intros p q Q; apply (F p q); now right).
  assert (La : length a = length sh) by (apply (F a b); now left).
  destruct (Nat.eqb (length a) (length b)); cbn [guard bind] in M; [|now injection M].
  assert (E : check_entries a b sh = Ok tt \/ check_entries a b sh = Err ValueError).
  { clear -La. revert b sh La. induction a as [|x a IHa]; intros [|w b] [|n sh] La; try discriminate; cbn [check_entries]; auto.
    destruct (Nat.ltb x n && Nat.ltb w n); cbn [guard bind]; auto. }
  destruct E as [E|E]; rewrite E in M; cbn [bind] in M; [|now injection M].
  destruct (mapM _ l) as [v|w] eqn:R; [discriminate M|]. cbn [bind] in M. injection M as <-. exact (IH w eq_refl FK).
Qed.
Lemma tensor_reached sub shape s a sub' sh sy t n : mk_tensor sub shape s = Ok (UTensor a sub' sh sy t n) -> full_keys sh sy ->
  (forall i j, In (i, j) sy -> before j i) -> forall k, k < n -> exists i, In i (all_indices sh) /\ dict_get index_eqb t i = Ok k.
Proof.
  intros H FK B k K. pose proof (tensor_numbers _ _ _ _ _ _ _ _ _ H FK) as (Cn & _ & A).
  apply mk_tensor_inv in H as (a0 & sh0 & sy0 & t0 & n0 & E & S & C & Hn & Ht & _ & a' & _ & Ha). injection E as <- <- <- <- <- <-.
  rewrite indices_all, number_free_eq in Hn by apply nodup_all. cbn [snd] in Hn. rewrite Hn in K.
  destruct (tensor_onto sh sy k K) as (i & I & N). exists i. split; [exact I|]. destruct (A B i I) as (k' & _ & _ & U & G & _). rewrite G. f_equal. symmetry. now apply U.
Qed.
