(** Restriction of tensor, flattened, mixed and product elements and of sums. *)
From Coq Require Import String List Arith Lia Bool Permutation.
From Verif Require Import Model.Prelude Model.Cell Model.Element Model.EntityMaps Model.Gem Model.PointSet Model.Restricted.
From Verif Require Import Spec.Rowmajor Spec.EntityDofs Spec.Layout Spec.Tabulation Spec.Restricted.
From Verif Require Import Proofs.Lists Proofs.Cells Proofs.EntityDofs Proofs.EntityDofs2 Proofs.Layout Proofs.Flatten
  Proofs.Tree Proofs.Restrict1.
Import ListNotations.

Section Cases.
  Context {F : Type} (o : ops F).
  Local Notation elt := (elt F).
  Local Notation R := (R o).

  Definition none (c : cell) (S : dimkey -> Prop) (e : elt) : Prop :=
    forall k i, entity_of (topology c) (k, i) -> S k -> dofs e k i = [].

  (* -------------------------------------------------------------- *)
  (** ** Tensor elements *)

  Lemma good_tensor : forall c (b : elt) sh tr, good c (ETensor b sh tr) <-> good c b.
  Proof.
    intros c b sh tr. split; intros G.
    - eapply good_sub; [exact G | intros; constructor; assumption.. | apply G].
    - destruct G as (L & S & E). split; [|split; [|exact E]].
      + intros l Hl. inversion Hl; subst. apply L. assumption.
      + split; intros ? **; match goal with Hs : subelt _ _ |- _ => inversion Hs; subst end;
          [eapply S; eassumption | eapply S; eassumption].
  Qed.

  Lemma tensor_dimension : forall (b : elt) sh tr, leaves_ok b ->
    space_dimension (ETensor b sh tr) = space_dimension b * prod sh.
  Proof.
    intros b sh tr L. rewrite <- (dims_prod F b); [|intros; eapply leaves_ok_prod; eassumption].
    unfold space_dimension at 1. cbn [dims fst snd]. fold (index_shape b). destruct tr; rewrite prod_app; lia.
  Qed.

  Lemma dofs_tensor : forall c (b : elt) sh tr k i, good c b -> entity_of (topology c) (k, i) ->
    dofs (ETensor b sh tr) k i = expand tr (space_dimension b) (prod sh) (dofs b k i).
  Proof.
    intros c b sh tr k i G He. destruct (good_dofs c b G) as (d & Ed & [km _]). unfold dofs. cbn [entity_dofs].
    rewrite (proj2 (proj2 G)), Ed. cbn [bind]. rewrite tensor_entity_dofs_ok by exact km.
    apply tensor_dof_at; [apply topology_NoDup | exact km|]. apply (entity_cnt c d k i km) in He. apply He.
  Qed.

  Definition tensor_sigma (tr : bool) (n sr se : nat) (sigma : nat -> nat) (j : nat) : nat :=
    if tr then (j / sr) * se + sigma (j mod sr) else sigma (j / n) * n + j mod n.

  Lemma tensor_sigma_at : forall tr n sr se sigma i s, i < sr -> s < n ->
    tensor_sigma tr n sr se sigma (if tr then s * sr + i else i * n + s)
    = if tr then s * se + sigma i else sigma i * n + s.
  Proof.
    intros tr n sr se sigma i s Hi Hs. unfold tensor_sigma.
    assert (D : forall a b m, b < m -> (a * m + b) / m = a /\ (a * m + b) mod m = b).
    { intros a b m Hb. split; [rewrite Nat.add_comm, Nat.div_add, Nat.div_small by lia; reflexivity|].
      rewrite Nat.add_comm, Nat.mod_add, Nat.mod_small by lia. reflexivity. }
    destruct tr.
    - destruct (D s i sr Hi) as [-> ->]. reflexivity.
    - destruct (D i s n Hs) as [-> ->]. reflexivity.
  Qed.

  Lemma tensor_sigma_expand : forall tr n sr se sigma l, (forall v, In v l -> v < sr) ->
    map (tensor_sigma tr n sr se sigma) (expand tr sr n l) = expand tr se n (map sigma l).
  Proof.
    intros tr n sr se sigma l Hl. destruct tr; unfold expand.
    - rewrite (flat_map_concat_map _ (seq 0 n)), concat_map, map_map.
      rewrite (flat_map_concat_map _ (seq 0 n)). f_equal. apply map_ext_in. intros s Hs. apply in_seq in Hs.
      rewrite !map_map. apply map_ext_in. intros v Hv. rewrite (Nat.add_comm v), (Nat.add_comm (sigma v)).
      apply (tensor_sigma_at true); [apply Hl, Hv | lia].
    - rewrite (flat_map_concat_map _ l), concat_map, map_map, (flat_map_concat_map _ (map sigma l)), map_map. f_equal.
      apply map_ext_in. intros v Hv. replace ((v + 1) * n - v * n) with n by nia.
      replace ((sigma v + 1) * n - sigma v * n) with n by nia.
      rewrite <- (map_id (seq (sigma v * n) n)), <- (map_id (seq (v * n) n)).
      rewrite !(map_seq_shift _ (fun x => x)), map_map. apply map_ext_in. intros s Hs. apply in_seq in Hs.
      apply (tensor_sigma_at false); [apply Hl, Hv | lia].
  Qed.

  Lemma R_tensor : forall c (S : dimkey -> Prop) (b r : elt) sigma sh tr, good c b -> Forall (lt 0) sh -> R c S b r sigma ->
    R c S (ETensor b sh tr) (ETensor r sh tr)
      (tensor_sigma tr (prod sh) (space_dimension r) (space_dimension b) sigma).
  Proof.
    intros c S b r sigma sh tr Gb Hsh HR. assert (Gr := R_good _ _ _ _ _ _ HR). split.
    - apply good_tensor. exact Gr.
    - destruct (R_shape _ _ _ _ _ _ HR) as (s & Hs & Hr). exists (sh ++ s). cbn [value_shape]. rewrite Hs, Hr. auto.
    - rewrite tensor_dimension by apply Gr. assert (0 < prod sh) by (clear - Hsh; induction Hsh; cbn; nia).
      pose proof (R_pos _ _ _ _ _ _ HR). nia.
    - intros k i He. rewrite !(dofs_tensor c) by assumption. destruct (R_dofs _ _ _ _ _ _ HR k i He) as [H1 H2]. split; intros HS.
      + rewrite tensor_sigma_expand by (intros v Hv; eapply dofs_lt; [exact Gr | exact He | exact Hv]). rewrite H1 by exact HS. reflexivity.
      + rewrite H2 by exact HS. apply expand_nil.
    - intros alpha ent pt j v x Hj Hx. inversion Hx as [| | ? ? ? ? ? ? i s t v' x' Hb Hi Hs Ht | | | | | | | | |]; subst.
      assert (Hls : rowmajor sh s < prod sh).
      { rewrite rowmajor_ravel by (apply in_shape_length; exact Hs). apply ravel_lt. exact Hs. }
      change (fold_right Nat.mul 1 sh) with (prod sh). rewrite tensor_sigma_at by assumption.
      apply vo_tensor; [apply (R_vals _ _ _ _ _ _ HR); assumption | | exact Hs | exact Ht].
      eapply R_lt; eassumption.
  Qed.

  (* -------------------------------------------------------------- *)
  (** ** Members of mixed elements *)

  Lemma good_mixed : forall c (e : elt) sz off, good c (EMixedSub e sz off) <-> good c e.
  Proof.
    intros c b sh tr. split; intros G.
    - eapply good_sub; [exact G | intros; constructor; assumption.. | apply G].
    - destruct G as (L & S & E). split; [|split; [|exact E]].
      + intros l Hl. inversion Hl; subst. apply L. assumption.
      + split; intros ? **; match goal with Hs : subelt _ _ |- _ => inversion Hs; subst end;
          [eapply S; eassumption | eapply S; eassumption].
  Qed.

  Lemma R_mixed : forall c (S : dimkey -> Prop) (e r : elt) sigma sz off, R c S e r sigma ->
    R c S (EMixedSub e sz off) (EMixedSub r sz off) sigma.
  Proof.
    intros c S e r sigma sz off HR. destruct (R_shape _ _ _ _ _ _ HR) as (s0 & Hs & Hr). split.
    - apply good_mixed. apply HR.
    - exists [sz]. split; reflexivity.
    - apply HR.
    - apply HR.
    - intros alpha ent pt j v x Hj Hx. inversion Hx; subst.
      + match goal with H : value_shape r = Ok _ |- _ => rewrite Hr in H; injection H as <- end.
        eapply vo_mixed_own; [|exact Hs | assumption]. eapply R_vals; [exact HR | exact Hj | assumption].
      + match goal with H : value_shape r = Ok _ |- _ => rewrite Hr in H; injection H as <- end.
        eapply vo_mixed_other; [exact Hs | assumption].
  Qed.

  (* -------------------------------------------------------------- *)
  (** ** Flattened elements *)

  Lemma hypercube_keys : forall d k i, entity_of (topology (Hypercube d)) (k, i) -> exists n, k = DI n.
  Proof.
    intros d k i (n & Hn & _). cbn [fst topology] in Hn.
    assert (Hk : In k (map fst (flatten_topology (product_topology (repeat (simplex_topology 1) d))))).
    { apply in_map_iff. exists (k, n). auto. }
    apply flatten_topology_keys in Hk as (m & -> & _). exists m. reflexivity.
  Qed.

  Lemma flattened_cells : forall (p : elt) c, cell_of (EFlattened p) = Ok c -> sensible (EFlattened p) ->
    exists cp, cell_of p = Ok cp /\ cube_cell cp /\ c = Hypercube (spatial_dimension cp).
  Proof.
    intros p c E S. cbn [cell_of] in E. apply bind_ok in E as (cp & Ep & E). exists cp. split; [exact Ep|].
    split; [eapply S; [apply se_refl | exact Ep]|].
    destruct (spatial_dimension cp) as [|[|[|[|n]]]]; try discriminate; congruence.
  Qed.

  Lemma dofs_flattened : forall c cp (p : elt) k i K I, good c (EFlattened p) -> cell_of p = Ok cp ->
    unflatten_entity cp (Some (k, i)) = Ok (K, I) -> dofs (EFlattened p) (DI k) i = dofs p K I.
  Proof.
    intros c cp p k i K I G Ep HU.
    assert (Gp : good cp p) by (eapply good_sub; [exact G | intros; constructor; assumption.. | exact Ep]).
    destruct (good_dofs cp p Gp) as (d & Ed & _).
    destruct (flattened_layout F p cp d (proj1 Gp) (proj1 (proj2 G)) Ep Ed) as (d' & Ed' & _ & H2).
    destruct (unflatten_bijective cp) as (_ & U2 & _). destruct (U2 _ _ _ _ HU) as [_ HE].
    pose proof (proj2 (dofs_has cp p d K I _ Gp Ed) (conj HE eq_refl)) as Hh.
    specialize (H2 _ _ _ _ _ HU Hh). apply (dofs_has c _ d' _ _ _ G Ed') in H2. symmetry. apply H2.
  Qed.

  Lemma R_flattened : forall c cp (S : dimkey -> Prop) (p r : elt) sigma, good c (EFlattened p) -> cell_of p = Ok cp ->
    R cp (fun K => S (DI (dk_total K))) p r sigma -> R c S (EFlattened p) (EFlattened r) sigma.
  Proof.
    intros c cp S p r sigma G Ep HR. assert (Gr := R_good _ _ _ _ _ _ HR).
    destruct (flattened_cells p c (proj2 (proj2 G)) (proj1 (proj2 G))) as (cp' & Ep' & CC & Ec).
    rewrite Ep in Ep'. injection Ep' as <-.
    assert (Gf : good c (EFlattened r)).
    { destruct Gr as (L & Sr & E). split; [|split].
      - intros l Hl. inversion Hl; subst. apply L. assumption.
      - split; intros ? **; match goal with Hs : subelt _ _ |- _ => inversion Hs; subst end;
          try (eapply Sr; eassumption).
        match goal with H : cell_of r = Ok ?x |- _ => rewrite E in H; injection H as <- end. exact CC.
      - cbn [cell_of]. rewrite E. cbn [bind]. destruct G as (_ & _ & Ef). cbn [cell_of] in Ef. rewrite Ep in Ef. exact Ef. }
    split.
    - exact Gf.
    - destruct (R_shape _ _ _ _ _ _ HR) as (s & Hs & Hr). exists s. split; assumption.
    - apply HR.
    - intros k i He. rewrite Ec in He. destruct (hypercube_keys _ _ _ He) as (n & ->).
      destruct (unflatten_bijective cp) as (_ & U2 & _ & U4). apply (U4 CC) in He as ((K, I) & HU).
      destruct (U2 _ _ _ _ HU) as [HT HE].
      rewrite (dofs_flattened c cp p n i K I G Ep HU), (dofs_flattened c cp r n i K I Gf (proj2 (proj2 Gr)) HU).
      pose proof (R_dofs _ _ _ _ _ _ HR K I HE) as [H1 H2]. cbv beta in H1, H2. rewrite HT in H1, H2. split; assumption.
    - intros alpha ent pt j v x Hj Hx. inversion Hx; subst.
      match goal with H : cell_of r = Ok ?x |- _ => rewrite (proj2 (proj2 Gr)) in H; injection H as <- end.
      eapply vo_flattened; [exact Ep | eassumption|]. eapply R_vals; [exact HR | exact Hj | assumption].
  Qed.

  (* -------------------------------------------------------------- *)
  (** ** Sums of restricted summands *)

  Fixpoint pieces (off : nat) (ms : list (elt * option (elt * (nat -> nat)))) : list (elt * (nat -> nat)) :=
    match ms with
    | [] => []
    | (e, Some (r, sigma)) :: t => (r, fun j => off + sigma j) :: pieces (off + space_dimension e) t
    | (e, None) :: t => pieces (off + space_dimension e) t
    end.

  Lemma pieces_fst : forall ms off, map fst (pieces off ms) = flat_map (fun m => match snd m with Some p => [fst p] | None => [] end) ms.
  Proof.
    induction ms as [|[e [[r sigma]|]] ms IH]; intros off; cbn [pieces map flat_map fst snd app]; [reflexivity| |apply IH].
    rewrite IH. reflexivity.
  Qed.

  Lemma pieces_in : forall ms off p, In p (pieces off ms) ->
    exists m1 e r sigma m2, ms = m1 ++ (e, Some (r, sigma)) :: m2 /\ fst p = r /\
      forall j, snd p j = off + total (map fst m1) + sigma j.
  Proof.
    induction ms as [|[e [[r sigma]|]] ms IH]; intros off p H; cbn [pieces] in H; [destruct H | |].
    - destruct H as [<-|H].
      + exists [], e, r, sigma, ms. split; [reflexivity|]. split; [reflexivity|]. intros j. cbn. lia.
      + destruct (IH _ _ H) as (m1 & e' & r' & s' & m2 & -> & H1 & H2). exists ((e, Some (r, sigma)) :: m1), e', r', s', m2.
        split; [reflexivity|]. split; [exact H1|]. intros j. rewrite H2. cbn [map fst]. rewrite total_cons. lia.
    - destruct (IH _ _ H) as (m1 & e' & r' & s' & m2 & -> & H1 & H2). exists ((e, None) :: m1), e', r', s', m2.
      split; [reflexivity|]. split; [exact H1|]. intros j. rewrite H2. cbn [map fst]. rewrite total_cons. lia.
  Qed.

  Definition member_ok (c : cell) (S : dimkey -> Prop) (m : elt * option (elt * (nat -> nat))) : Prop :=
    good c (fst m) /\ match snd m with Some p => R c S (fst m) (fst p) (snd p) | None => none c S (fst m) end.

  Lemma R_enriched : forall c (S : dimkey -> Prop) s ms, Forall (member_ok c S) ms ->
    value_shape (EEnriched (map fst ms)) = Ok s -> pieces 0 ms <> [] ->
    R c S (EEnriched (map fst ms)) (EEnriched (map fst (pieces 0 ms)))
      (blockf (map (fun p => (space_dimension (fst p), snd p)) (pieces 0 ms))).
  Proof.
    intros c S s ms H Hs Hne.
    assert (Hms : ms <> []) by (intros ->; apply Hne; reflexivity).
    assert (G : good c (EEnriched (map fst ms))).
    { apply good_enriched; [destruct ms; [congruence | discriminate]|]. rewrite Forall_map. eapply Forall_impl; [|exact H].
      intros m Hm. apply Hm. }
    apply sum_of_pieces with (s := s); [exact Hne | | exact Hs |].
    - apply Forall_forall. intros p Hp. apply pieces_in in Hp as (m1 & e & r & sigma & m2 & -> & <- & Hsig).
      apply Forall_app in H as [_ H]. inversion H as [|? ? (Ge & HR) _]; subst. cbn [fst snd] in *.
      split; [apply HR|]. split; [|split; [apply HR|]].
      + destruct (R_shape _ _ _ _ _ _ HR) as (s' & Hse & Hsr). apply enriched_shapes in Hs as [_ Hs]. rewrite map_app in Hs.
        apply Forall_app in Hs as [_ Hs]. inversion Hs as [|? ? Hse' _]; subst. cbn [fst] in Hse'. congruence.
      + intros alpha ent pt j v x Hj Hx. rewrite Hsig. cbn [Nat.add]. rewrite map_app. cbn [map fst].
        apply value_enriched; [eapply R_vals; eassumption | eapply R_lt; eassumption].
    - intros k i He. rewrite (dofs_enriched c) by assumption. split; intros HS.
      + clear - H He HS. generalize 0. induction H as [|[e [[r sigma]|]] ms [Ge Hm] H IH]; intros off; [reflexivity| |];
          cbn [pieces map fst snd concat combine shifted_blocks] in *; rewrite IH.
        * f_equal. rewrite <- (proj1 (R_dofs _ _ _ _ _ _ Hm k i He) HS), map_map. reflexivity.
        * rewrite (Hm k i He HS). reflexivity.
      + apply Forall_forall. intros p Hp. apply pieces_in in Hp as (m1 & e & r & sigma & m2 & -> & <- & _).
        apply Forall_app in H as [_ H]. inversion H as [|? ? (Ge & HR) _]; subst. cbn [fst snd] in *.
        apply (R_dofs _ _ _ _ _ _ HR k i He). exact HS.
  Qed.

  Lemma none_enriched : forall c (S : dimkey -> Prop) es, es <> [] -> Forall (good c) es -> Forall (none c S) es ->
    none c S (EEnriched es).
  Proof.
    intros c S es Hne G H k i He HS. rewrite (dofs_enriched c) by (try apply good_enriched; assumption).
    clear - H He HS. generalize 0. induction H as [|e es Hn H IH]; intros a; [reflexivity|].
    cbn [map combine shifted_blocks]. rewrite (Hn k i He HS). apply IH.
  Qed.

  (* -------------------------------------------------------------- *)
  (** ** Sums of restrictions of one element *)

  Lemma R_disjoint : forall A c (S : dimkey -> Prop) (T : A -> dimkey -> Prop) (e : elt) s ms,
    good c e -> value_shape e = Ok s ->
    Forall (fun m : A * option (elt * (nat -> nat)) =>
      match snd m with Some p => R c (T (fst m)) e (fst p) (snd p) | None => none c (T (fst m)) e end) ms ->
    (forall k i, entity_of (topology c) (k, i) ->
       (S k -> exists m1 m m2, ms = m1 ++ m :: m2 /\ T (fst m) k /\ Forall (fun x => ~ T (fst x) k) (m1 ++ m2)) /\
       (~ S k -> Forall (fun x => ~ T (fst x) k) ms)) ->
    let ps := flat_map (fun m => match snd m with Some p => [p] | None => [] end) ms in
    (ps = [] -> none c S e) /\
    (ps <> [] -> R c S e (EEnriched (map fst ps)) (blockf (map (fun p => (space_dimension (fst p), snd p)) ps))).
  Proof.
    intros A c S T e s ms G Hs H HT ps.
    assert (D : forall k i, entity_of (topology c) (k, i) ->
       (S k -> concat (map (fun p => map (snd p) (dofs (fst p) k i)) ps) = dofs e k i) /\
       (~ S k -> Forall (fun p => dofs (fst p) k i = []) ps)).
    { intros k i He. destruct (HT k i He) as [T1 T2].
      assert (Z : forall l, Forall (fun m : A * option (elt * (nat -> nat)) =>
          match snd m with Some p => R c (T (fst m)) e (fst p) (snd p) | None => none c (T (fst m)) e end) l ->
          Forall (fun x => ~ T (fst x) k) l ->
          Forall (fun p => dofs (fst p) k i = []) (flat_map (fun m => match snd m with Some p => [p] | None => [] end) l)).
      { intros l Hl. induction Hl as [|[a [p|]] l Hp Hl IH]; intros Hn; inversion Hn as [|? ? N1 N2]; subst; cbn [flat_map snd fst app] in *.
        - constructor.
        - constructor; [|apply IH; exact N2]. apply (R_dofs _ _ _ _ _ _ Hp k i He). exact N1.
        - apply IH. exact N2. }
      split; intros HS.
      - destruct (T1 HS) as (m1 & m & m2 & -> & Tm & Hn). apply Forall_app in H as [H1 H2]. inversion H2 as [|? ? Hm H3]; subst.
        apply Forall_app in Hn as [N1 N2]. pose proof (Z m1 H1 N1) as Z1. pose proof (Z m2 H3 N2) as Z2.
        assert (E0 : forall l, Forall (fun p : elt * (nat -> nat) => dofs (fst p) k i = []) l -> concat (map (fun p => map (snd p) (dofs (fst p) k i)) l) = []).
        { intros l Hl. induction Hl as [|p l Hp Hl IH]; [reflexivity|]. cbn [map concat]. rewrite Hp, IH. reflexivity. }
        unfold ps. rewrite flat_map_app. cbn [flat_map]. rewrite map_app, concat_app, E0, app_nil_l by exact Z1.
        rewrite map_app, concat_app, (E0 _ Z2), app_nil_r. destruct m as [a [p|]]; cbn [fst snd] in *.
        + cbn [map concat]. rewrite app_nil_r. apply (R_dofs _ _ _ _ _ _ Hm k i He). exact Tm.
        + cbn [map concat]. symmetry. apply Hm; assumption.
      - apply Z; [exact H | apply T2, HS]. }
    split; intros Hps.
    - intros k i He HS. destruct (D k i He) as [D1 _]. rewrite <- (D1 HS), Hps. reflexivity.
    - apply sum_of_pieces with (s := s); [exact Hps | | exact Hs | exact D].
      apply Forall_forall. intros p Hp. unfold ps in Hp. apply in_flat_map in Hp as ([a [q|]] & Hm & Hp); cbn [snd] in Hp; [|destruct Hp].
      destruct Hp as [<-|[]]. rewrite Forall_forall in H. specialize (H _ Hm). cbn [fst snd] in H.
      split; [apply H|]. split; [|split; [apply H | apply H]].
      destruct (R_shape _ _ _ _ _ _ H) as (s' & H1 & H2). congruence.
  Qed.

  (* -------------------------------------------------------------- *)
  (** ** Products *)

  Lemma cart_map2 : forall (fs : list (nat -> nat)) ls, length fs = length ls ->
    cart (map2 (fun f l => map f l) fs ls) = map (map2 (fun f x => f x) fs) (cart ls).
  Proof.
    induction fs as [|f fs IH]; intros [|l ls] H; try discriminate H; [reflexivity|].
    cbn [map2 cart]. rewrite IH by (injection H; auto). clear H IH.
    induction l as [|a l IHl]; [reflexivity|]. cbn [map flat_map]. rewrite IHl, map_app, !map_map. reflexivity.
  Qed.

  Lemma product_entity : forall cs k i, entity_of (topology (TPCell cs)) (k, i) ->
    exists ks ns is, k = DT ks /\ i = ravel ns is /\ in_shape ns is /\ length ks = length ns /\
      Forall2 (fun c kn => In kn (topology c)) cs (combine ks ns).
  Proof.
    intros cs k i (n & Hn & Hi). cbn [fst snd topology] in *. unfold product_topology in Hn.
    apply in_map_iff in Hn as (kns & E & Hin). injection E as <- <-. apply in_cart, Forall2_flip in Hin.
    rewrite Forall2_map_l in Hin.
    exists (map fst kns), (map snd kns), (unravel_digits (map snd kns) i). split; [reflexivity|].
    split; [symmetry; apply ravel_unravel; exact Hi|]. split; [apply unravel_in_shape; exact Hi|].
    split; [rewrite !map_length; reflexivity|].
    replace (combine (map fst kns) (map snd kns)) with kns; [exact Hin|].
    clear. induction kns as [|[a b] l IH]; [reflexivity|]. cbn [map combine fst snd]. rewrite <- IH. reflexivity.
  Qed.

  Lemma dofs_product : forall (fs : list elt) cs ks ns is, good (TPCell cs) (ETensorProduct fs) -> mapM cell_of fs = Ok cs ->
    Forall2 (fun c kn => In kn (topology c)) cs (combine ks ns) -> length ks = length ns -> in_shape ns is ->
    dofs (ETensorProduct fs) (DT ks) (ravel ns is)
    = map (ravel (map space_dimension fs)) (cart (map2 (fun f ki => dofs f (fst ki) (snd ki)) fs (combine ks is))).
  Proof.
    intros fs cs ks ns is (L & S & E) Ecs Hk Hl Hin.
    assert (IH : Forall dofs_good fs) by (apply Forall_forall; intros; apply entity_dofs_main).
    destruct (tensor_product_ok F fs cs IH L S Ecs) as (xs & FO & Et & En & Ems & Ed).
    unfold dofs at 1. rewrite Ed.
    assert (Hk' : Forall2 (fun x kn => In kn (ft x)) xs (combine ks ns)).
    { clear - Hk Et. revert xs Et Hk. generalize (combine ks ns). intros l xs Et Hk. revert xs Et.
      induction Hk as [|c kn cs l H1 Hk IHk]; intros [|x xs] Et; try discriminate Et; [constructor|].
      cbn [map] in Et. injection Et as Ex Et. constructor; [rewrite Ex; exact H1 | apply IHk; exact Et]. }
    assert (Hkeys : Forall2 (fun x k => In k (map fst (ft x))) xs ks /\ counts xs ks = ns).
    { clear - FO Hk' Hl. revert ks ns Hl Hk'. induction FO as [|x xs [tn [km _]] FO IH]; intros ks ns Hl Hk'.
      - destruct ks as [|k ks], ns as [|n ns]; try discriminate Hl; [split; [constructor | reflexivity] | inversion Hk'].
      - destruct ks as [|k ks], ns as [|n ns]; try discriminate Hl; inversion Hk' as [|? ? ? ? H1 H2]; subst.
        destruct (IH ks ns) as [I1 I2]; [injection Hl; auto | exact H2|]. split.
        + constructor; [apply in_map_iff; exists (k, n); auto | exact I1].
        + unfold counts in *. cbn [map2]. rewrite I2, (km_count_eq _ _ tn km k n H1). reflexivity. }
    destruct Hkeys as [Hkeys Hcnt].
    rewrite product_dof_at; [|exact FO | exact Hkeys | rewrite Hcnt; apply ravel_lt; exact Hin].
    rewrite Hcnt, unravel_ravel by exact Hin. rewrite En. f_equal. f_equal.
    assert (Lx : length xs = length ks) by (eapply Forall2_length; exact Hkeys).
    assert (Li : length ks = length is) by (rewrite Hl; apply in_shape_length; exact Hin).
    apply mapM_ok in Ems. unfold at_tuple. clear - Ems Lx Li. revert ks is Lx Li.
    remember (map fd xs) as ds eqn:Eds. revert xs Eds.
    induction Ems as [|f d fs ds Ef Ems IH]; intros [|x xs] Eds ks is Lx Li; try discriminate Eds; [reflexivity|].
    cbn [map] in Eds. injection Eds as Ex Eds. destruct ks as [|k ks], is as [|i is]; try discriminate Lx; try discriminate Li.
    cbn [zip map2 combine fst snd]. rewrite (IH xs Eds ks is) by (cbn [length] in *; lia). f_equal.
    unfold dofs. rewrite Ef, Ex. reflexivity.
  Qed.

  Record slice := mkSlice { sl_c : cell; sl_S : dimkey -> Prop; sl_e : elt; sl_r : elt; sl_s : nat -> nat }.

  Lemma good_product : forall cs (fs : list elt), fs <> [] -> Forall2 good cs fs -> good (TPCell cs) (ETensorProduct fs).
  Proof.
    intros cs fs Hne H. split; [|split].
    - intros l Hl. inversion Hl as [|? f ? Hf Hl'| | | | | | |]; subst. clear - H Hf Hl'.
      induction H as [|c g cs fs Hg H IH]; [destruct Hf|]. destruct Hf as [->|Hf]; [apply Hg; exact Hl' | apply IH, Hf].
    - assert (Sf : forall f, In f fs -> sensible f).
      { intros f Hf. clear - H Hf. induction H as [|c g cs fs Hg H IH]; [destruct Hf|]. destruct Hf as [->|Hf]; [apply Hg | apply IH, Hf]. }
      split; intros ? **; match goal with Hs : subelt _ _ |- _ => inversion Hs; subst end.
      + exact Hne.
      + edestruct Sf as [S1 _]; eauto.
      + edestruct Sf as [_ S2]; eauto.
    - cbn [cell_of]. assert (E : mapM cell_of fs = Ok cs).
      { clear Hne. induction H as [|c f cs fs Hf H IH]; [reflexivity|]. cbn [mapM]. rewrite (proj2 (proj2 Hf)), IH. reflexivity. }
      rewrite E. reflexivity.
  Qed.

  Lemma not_not_Forall2 : forall A B (P : A -> B -> Prop) l m, Forall2 (fun a b => ~ ~ P a b) l m -> ~ ~ Forall2 P l m.
  Proof. induction 1 as [|a b l m H1 H IH]; intros N; [apply N; constructor|]. apply H1. intros P1. apply IH. intros P2. apply N. constructor; assumption. Qed.

  Definition product_sigma (xs : list slice) (j : nat) : nat :=
    ravel (map (fun x => space_dimension (sl_e x)) xs)
      (map2 (fun x i => sl_s x i) xs (unravel_digits (map (fun x => space_dimension (sl_r x)) xs) j)).

  Lemma product_sigma_at : forall xs is, in_shape (map (fun x => space_dimension (sl_r x)) xs) is ->
    product_sigma xs (ravel (map (fun x => space_dimension (sl_r x)) xs) is)
    = ravel (map (fun x => space_dimension (sl_e x)) xs) (map2 (fun x i => sl_s x i) xs is).
  Proof. intros xs is H. unfold product_sigma. rewrite unravel_ravel by exact H. reflexivity. Qed.

  Lemma product_values : forall xs,
    Forall (fun x => good (sl_c x) (sl_e x) /\ R (sl_c x) (sl_S x) (sl_e x) (sl_r x) (sl_s x)) xs ->
    forall alphas ents pts is vs ys, values_of o (map sl_r xs) alphas ents pts is vs ys ->
      values_of o (map sl_e xs) alphas ents pts (map2 (fun x i => sl_s x i) xs is) vs ys /\
      in_shape (map (fun x => space_dimension (sl_r x)) xs) is.
  Proof.
    induction 1 as [|x xs [Gx Rx] H IH]; intros alphas ents pts is vs ys Hv; inversion Hv; subst; [split; constructor|].
    match goal with H : values_of _ _ _ _ _ _ _ _ |- _ => destruct (IH _ _ _ _ _ _ H) as [I1 I2] end.
    destruct (R_shape _ _ _ _ _ _ Rx) as (s' & Hs & Hr).
    match goal with H : value_shape (sl_r x) = Ok _ |- _ => rewrite Hr in H; injection H as <- end.
    match goal with H : cell_of (sl_r x) = Ok _ |- _ => rewrite (proj2 (proj2 (R_good _ _ _ _ _ _ Rx))) in H; injection H as <- end.
    cbn [map2 map]. split; [|constructor; assumption].
    econstructor; [apply Gx | eassumption | eassumption | eapply R_lt; eassumption | exact Hs | eassumption
                  | eapply R_vals; eassumption | exact I1].
  Qed.

  Lemma R_product : forall xs s, xs <> [] ->
    Forall (fun x => good (sl_c x) (sl_e x) /\ R (sl_c x) (sl_S x) (sl_e x) (sl_r x) (sl_s x)) xs ->
    value_shape (ETensorProduct (map sl_e xs)) = Ok s ->
    R (TPCell (map sl_c xs)) (fun k => exists ks, k = DT ks /\ Forall2 sl_S xs ks)
      (ETensorProduct (map sl_e xs)) (ETensorProduct (map sl_r xs)) (product_sigma xs).
  Proof.
    intros xs s Hne H Hs.
    assert (Ge : good (TPCell (map sl_c xs)) (ETensorProduct (map sl_e xs))).
    { apply good_product; [destruct xs; [congruence | discriminate]|]. rewrite Forall2_map_l, Forall2_map_r.
      clear - H. induction H as [|x xs [Gx _] H IH]; constructor; assumption. }
    assert (Gr : good (TPCell (map sl_c xs)) (ETensorProduct (map sl_r xs))).
    { apply good_product; [destruct xs; [congruence | discriminate]|]. rewrite Forall2_map_l, Forall2_map_r.
      clear - H. induction H as [|x xs [_ Rx] H IH]; constructor; [apply Rx | assumption]. }
    assert (Ece : mapM cell_of (map sl_e xs) = Ok (map sl_c xs)).
    { clear - H. induction H as [|x xs [Gx _] H IH]; [reflexivity|]. cbn [map mapM]. rewrite (proj2 (proj2 Gx)), IH. reflexivity. }
    assert (Ecr : mapM cell_of (map sl_r xs) = Ok (map sl_c xs)).
    { clear - H. induction H as [|x xs [_ Rx] H IH]; [reflexivity|]. cbn [map mapM].
      rewrite (proj2 (proj2 (R_good _ _ _ _ _ _ Rx))), IH. reflexivity. }
    split.
    - exact Gr.
    - exists s. split; [exact Hs|]. rewrite <- Hs. cbn [value_shape]. f_equal. clear - H.
      induction H as [|x xs [_ Rx] H IH]; [reflexivity|]. cbn [map mapM]. rewrite IH.
      destruct (R_shape _ _ _ _ _ _ Rx) as (s & -> & ->). reflexivity.
    - change (space_dimension (ETensorProduct (map sl_r xs))) with (prod (map (@space_dimension F) (map sl_r xs))).
      clear - H. induction H as [|x xs [_ Rx] H IH]; [cbn; lia|]. cbn [map prod]. pose proof (R_pos _ _ _ _ _ _ Rx). nia.
    - intros k i He. apply product_entity in He as (ks & ns & is & -> & -> & Hin & Hl & Hk).
      rewrite !(dofs_product _ (map sl_c xs)) by assumption.
      assert (Li : length ks = length is) by (rewrite Hl; apply in_shape_length; exact Hin).
      assert (Lx : length xs = length ks).
      { apply Forall2_length in Hk. rewrite map_length, combine_length in Hk. lia. }
      assert (Ent : Forall2 (fun x ki => entity_of (topology (sl_c x)) ki) xs (combine ks is)).
      { rewrite Forall2_map_l in Hk. clear - Hk Hin Hl Li. revert ns ks is Hin Hk Hl Li.
        induction xs as [|x xs IH]; intros ns ks is Hin Hk Hl Li.
        - destruct ks as [|k ks]; [constructor|]. destruct ns; [discriminate Hl | inversion Hk].
        - destruct ks as [|k ks], ns as [|n ns]; try discriminate Hl; inversion Hk; subst.
          destruct is as [|i is]; [discriminate Li|]. inversion Hin; subst. cbn [combine]. constructor.
          + exists n. split; assumption.
          + eapply IH with (ns := ns); [eassumption.. | injection Hl; auto | injection Li; auto]. }
      set (Lr := map2 (fun f ki => dofs f (fst ki) (snd ki)) (map sl_r xs) (combine ks is)).
      set (Le := map2 (fun f ki => dofs f (fst ki) (snd ki)) (map sl_e xs) (combine ks is)).
      rewrite !map_map.
      assert (Rng : forall t, In t (cart Lr) -> in_shape (map (fun x => space_dimension (sl_r x)) xs) t).
      { intros t Ht. apply in_cart in Ht. unfold Lr in Ht. clear - H Ent Ht. revert t Ht.
        induction Ent as [|x [k i] xs l E1 Ent IH]; intros t Ht; cbn [map map2] in Ht; inversion Ht as [|v ? t' ? H1 H2]; subst; constructor.
        - inversion H as [|? ? [_ Rx] _]; subst. eapply dofs_lt; [apply Rx | exact E1 | exact H1].
        - inversion H; subst. apply IH; assumption. }
      split; intros HS.
      + destruct HS as (ks' & Ek & HS). injection Ek as <-.
        assert (EL : Le = map2 (fun (f : nat -> nat) l => map f l) (map sl_s xs) Lr).
        { unfold Le, Lr. clear - H Ent HS Li. revert ks is HS Ent Li. induction H as [|x xs [_ Rx] H IH]; intros ks is HS Ent Li; [reflexivity|].
          inversion HS as [|? k ? ks' S1 S2]; subst. destruct is as [|i is]; [discriminate Li|].
          cbn [combine] in *. inversion Ent as [|? ? ? ? E1 E2]; subst. cbn [map map2 fst snd].
          rewrite (IH ks' is S2 E2) by (injection Li; auto). f_equal. symmetry. apply (R_dofs _ _ _ _ _ _ Rx k i E1). exact S1. }
        rewrite EL, cart_map2.
        2:{ unfold Lr. rewrite map2_length; rewrite !map_length; [reflexivity|]. rewrite combine_length. lia. }
        rewrite map_map. apply map_ext_in. intros t Ht. rewrite product_sigma_at by (apply Rng; exact Ht).
        f_equal. clear. revert t. induction xs as [|x xs IH]; intros [|i t]; try reflexivity. cbn [map map2]. rewrite IH. reflexivity.
      + destruct (cart Lr) as [|t l] eqn:EL; [reflexivity|]. exfalso.
        assert (Ht : In t (cart Lr)) by (rewrite EL; left; reflexivity). apply in_cart in Ht.
        assert (NN : Forall2 (fun x k => ~ ~ sl_S x k) xs ks).
        { unfold Lr in Ht. clear - H Ent Ht Li Lx. revert ks is t Li Lx Ent Ht.
          induction H as [|x xs [_ Rx] H IH]; intros ks is t Li Lx Ent Ht; destruct ks as [|k ks]; try discriminate Lx; [constructor|].
          destruct is as [|i is]; [discriminate Li|]. cbn [combine map map2] in *. inversion Ent as [|? ? ? ? E1 E2]; subst.
          inversion Ht as [|v ? t' ? H1 H2]; subst. constructor; [|apply (IH ks is t'); auto].
          intros N. rewrite (proj2 (R_dofs _ _ _ _ _ _ Rx k i E1) N) in H1. exact H1. }
        apply (not_not_Forall2 _ _ _ _ _ NN). intros P. apply HS. exists ks. auto.
    - intros alpha ent pt j v x Hj Hx. inversion Hx as [|fs' alphas ks es ns pts is vs ys Hv Hf Hl Hin| | | | | | | | | |]; subst.
      destruct (product_values xs H _ _ _ _ _ _ Hv) as [Hv' Hi].
      rewrite map_map. rewrite (rowmajor_ravel (map (fun x => space_dimension (sl_r x)) xs) is) by (apply in_shape_length; exact Hi). rewrite product_sigma_at by exact Hi.
      rewrite <- (map_map sl_e space_dimension). rewrite <- rowmajor_ravel.
      2:{ rewrite !map_length. symmetry. apply map2_length. apply in_shape_length in Hi. rewrite map_length in Hi. exact Hi. }
      apply vo_product with (ns := ns); [exact Hv' | | exact Hl | exact Hin].
      clear - Hf H. rewrite Forall2_map_l in *. revert Hf. generalize (combine ks ns). induction H as [|x xs [Gx Rx] H IH]; intros l Hf;
        inversion Hf as [|? kn ? l' (c & Hc & Hk) Hf']; subst; constructor; [|apply IH; exact Hf'].
      rewrite (proj2 (proj2 (R_good _ _ _ _ _ _ Rx))) in Hc. injection Hc as <-. exists (sl_c x). split; [apply Gx | exact Hk].
  Qed.

  (** A factor without a dof on the entities it contributes. *)
  Lemma none_product : forall (fs : list elt) cs (Ss : list (dimkey -> Prop)), fs <> [] -> Forall2 good cs fs ->
    length Ss = length fs ->
    (exists f c T, In (f, (c, T)) (combine fs (combine cs Ss)) /\ none c T f) ->
    none (TPCell cs) (fun k => exists ks, k = DT ks /\ Forall2 (fun (T : dimkey -> Prop) k => T k) Ss ks) (ETensorProduct fs).
  Proof.
    intros fs cs Ss Hne HG HL (f & c & T & Hin & Hn) k i He (ks & -> & HS).
    apply product_entity in He as (ks' & ns & is & Ek & -> & Hsh & Hl & Hk). injection Ek as <-.
    assert (Ecs : mapM cell_of fs = Ok cs).
    { clear - HG. induction HG as [|c f cs fs Hf H IH]; [reflexivity|]. cbn [mapM]. rewrite (proj2 (proj2 Hf)), IH. reflexivity. }
    rewrite (dofs_product _ cs) by (try apply good_product; assumption).
    assert (Z : In [] (map2 (fun f ki => dofs f (fst ki) (snd ki)) fs (combine ks is))).
    { assert (Li : length ns = length is) by (apply in_shape_length; exact Hsh). clear - HG HL Hin Hn Hk HS Hl Hsh Li.
      revert Ss ks ns is HL Hin Hk HS Hl Hsh Li. induction HG as [|c' f' cs fs Hf HG IH]; intros Ss ks ns is HL Hin Hk HS Hl Hsh Li.
      - destruct Hin.
      - destruct Ss as [|T' Ss]; [discriminate HL|]. inversion HS as [|? k ? ks' S1 S2]; subst.
        destruct ns as [|n ns]; [discriminate Hl|]. destruct is as [|i is]; [discriminate Li|].
        inversion Hk as [|? ? ? ? K1 K2]; subst. inversion Hsh; subst. cbn [combine map2 fst snd] in *.
        destruct Hin as [E|Hin].
        + injection E as <- <- <-. left. apply Hn; [|exact S1]. exists n. split; assumption.
        + right. eapply IH with (Ss := Ss) (ns := ns); eauto. }
    clear - Z. assert (E : cart (map2 (fun (f : elt) ki => dofs f (fst ki) (snd ki)) fs (combine ks is)) = []).
    { induction (map2 (fun (f : elt) ki => dofs f (fst ki) (snd ki)) fs (combine ks is)) as [|l ls IH]; [destruct Z|].
      cbn [cart]. destruct Z as [->|Z]; [reflexivity|]. rewrite (IH Z). clear. induction l as [|a l IHl]; [reflexivity|].
      cbn [flat_map map app]. exact IHl. }
    rewrite E. reflexivity.
  Qed.
End Cases.
