(** Vector/tensor, enriched, discontinuous and flattened elements; the main
    induction over element trees. *)
From Coq Require Import List Arith Lia Bool Permutation Sorted.
From Verif Require Import Model.Prelude Model.Cell Model.Element.
From Verif Require Import Spec.Rowmajor Spec.EntityDofs.
From Verif Require Import Proofs.Lists Proofs.Cells Proofs.Cubes Proofs.EntityDofs.
Import ListNotations.

(* ------------------------------------------------------------------ *)
(** ** Vector and tensor elements *)

Definition tensor_dofs (t : list (dimkey * nat)) tr sd nd (d : edofs) : edofs :=
  map (fun k => (k, map (fun kd => (fst kd, expand tr sd nd (snd kd))) (rowof d k))) (map fst t).

Lemma tensor_entity_dofs_ok : forall c tr sd nd d, keys_match (topology c) d ->
  tensor_entity_dofs c tr sd nd d = Ok (tensor_dofs (topology c) tr sd nd d).
Proof.
  intros c tr sd nd d km. unfold tensor_entity_dofs, tensor_dofs. apply mapM_all_ok. intros k Hk.
  destruct (km_row _ _ (topology_NoDup c) km k Hk) as [-> _]. reflexivity.
Qed.

Lemma tensor_dofs_keys : forall t tr sd nd d, NoDup (map fst t) -> keys_match t d ->
  keys_match t (tensor_dofs t tr sd nd d).
Proof.
  intros t tr sd nd d tn km. split.
  - unfold tensor_dofs. rewrite map_map, map_id. reflexivity.
  - intros k row H. unfold tensor_dofs in H. apply in_map_iff in H as (k' & E & Hk). injection E as -> <-.
    destruct (km_count t d tn km k Hk) as [Hc P]. exists (cnt d k). split; [exact Hc|].
    rewrite map_map. exact P.
Qed.

Lemma expand_perm : forall tr sd nd l l', Permutation l l' ->
  Permutation (expand tr sd nd l) (expand tr sd nd l').
Proof.
  intros [] sd nd l l' P; unfold expand.
  - apply flat_map_perm_fun. intros; apply Permutation_map; exact P.
  - apply flat_map_perm; exact P.
Qed.

Lemma expand_app : forall tr sd nd l l',
  Permutation (expand tr sd nd (l ++ l')) (expand tr sd nd l ++ expand tr sd nd l').
Proof.
  intros [] sd nd l l'; unfold expand.
  - rewrite <- flat_map_app_fun. apply flat_map_perm_fun. intros; rewrite map_app; reflexivity.
  - rewrite flat_map_app; reflexivity.
Qed.

Lemma expand_nil : forall tr sd nd, expand tr sd nd [] = [].
Proof. intros [] sd nd; unfold expand; simpl; [apply flat_map_nil_fun | reflexivity]. Qed.

Lemma expand_concat : forall tr sd nd ls,
  Permutation (concat (map (expand tr sd nd) ls)) (expand tr sd nd (concat ls)).
Proof.
  induction ls as [|l ls IH]; simpl; [rewrite expand_nil; reflexivity|].
  rewrite expand_app, IH. reflexivity.
Qed.

Lemma flat_map_blocks : forall nd n, flat_map (fun v => seq (v * nd) nd) (seq 0 n) = seq 0 (n * nd).
Proof.
  intros nd n. transitivity (flat_map (fun i => map (fun j => i * nd + j) (seq 0 nd)) (seq 0 n)).
  - apply flat_map_ext_in. intros v _. rewrite <- (map_id (seq (v * nd) nd)).
    rewrite (map_seq_shift _ (fun x => x)). reflexivity.
  - rewrite flat_map_seq_blocks_gen. rewrite <- (map_id (seq 0 (n * nd))) at 2.
    apply map_ext_in. intros a Ha. apply in_seq in Ha.
    assert (nd <> 0) by nia. rewrite (Nat.mul_comm (a / nd) nd), <- Nat.div_mod by assumption. reflexivity.
Qed.

Lemma expand_seq : forall tr n nd, expand tr n nd (seq 0 n) = seq 0 (n * nd).
Proof.
  intros [] n nd; unfold expand.
  - rewrite Nat.mul_comm, <- flat_map_blocks. apply flat_map_ext_in. intros i _.
    rewrite <- (map_id (seq (i * n) n)). rewrite (map_seq_shift _ (fun x => x)).
    apply map_ext; intros; lia.
  - rewrite <- flat_map_blocks. apply flat_map_ext_in. intros v _. f_equal. nia.
Qed.

Lemma concat_flat_map : forall A B (g : A -> list (list B)) l,
  concat (flat_map g l) = flat_map (fun x => concat (g x)) l.
Proof. induction l as [|x l IH]; simpl; [reflexivity|]. rewrite concat_app, IH. reflexivity. Qed.

Lemma tensor_dofs_part : forall t tr n nd d, NoDup (map fst t) -> edofs_ok t n d ->
  partitions (n * nd) (all_lists (tensor_dofs t tr n nd d)).
Proof.
  intros t tr n nd d tn [km part]. unfold partitions.
  rewrite concat_all_lists. unfold tensor_dofs. rewrite flat_map_map. cbn [snd].
  rewrite <- (expand_seq tr n nd). unfold partitions in part. rewrite <- (expand_perm tr n nd _ _ part).
  rewrite <- expand_concat. unfold all_lists. rewrite map_flat_map, concat_flat_map.
  rewrite <- (proj1 km). rewrite flat_map_map.
  apply Permutation_refl'. apply flat_map_ext_in. intros [k row] H. cbn [fst snd].
  rewrite (km_rowof t d tn km k row H). rewrite !map_map. reflexivity.
Qed.

(* ------------------------------------------------------------------ *)
(** ** Concatenation *)

Lemma dict_get_app_ : forall (t : list (dimkey * nat)) k,
  rowof (map (fun kn => (fst kn, map (fun i => (i, @nil nat)) (seq 0 (snd kn)))) t) k
  = match dict_get dimkey_eqb t k with Ok n => map (fun i => (i, [])) (seq 0 n) | Err _ => [] end.
Proof.
  intros t k. unfold rowof.
  rewrite (dict_get_map dimkey_eqb _ (fun n => map (fun i => (i, @nil nat)) (seq 0 n)) t k).
  destruct (dict_get dimkey_eqb t k); reflexivity.
Qed.

Definition empty_of (t : list (dimkey * nat)) : edofs :=
  map (fun kn => (fst kn, map (fun i => (i, [])) (seq 0 (snd kn)))) t.

Lemma empty_keys : forall t, NoDup (map fst t) -> keys_match t (empty_of t).
Proof.
  intros t tn. unfold empty_of. split.
  - rewrite map_map. reflexivity.
  - intros k row H. apply in_map_iff in H as ([k' n] & E & H). injection E as -> <-.
    exists n; split; [exact H|]. cbn [snd]. rewrite map_map. rewrite map_id. reflexivity.
Qed.

Lemma empty_dof_at : forall t k i, dof_at (empty_of t) k i = [].
Proof.
  intros t k i. unfold dof_at, empty_of. rewrite dict_get_app_.
  destruct (dict_get dimkey_eqb t k); [|reflexivity].
  unfold inrow. destruct (dict_get Nat.eqb (map (fun i0 => (i0, [])) (seq 0 a)) i) eqn:E; [|reflexivity].
  apply (dict_get_in _ nat_eqb_spec) in E. apply in_map_iff in E as (x & E & _). congruence.
Qed.

Lemma dict_set_mem_keys : forall K V (eqb : K -> K -> bool) (sp : forall a b, reflect (a = b) (eqb a b))
  (d : list (K * V)) k v, In k (map fst d) -> map fst (dict_set eqb d k v) = map fst d.
Proof.
  intros K V eqb sp d k v H. rewrite (dict_set_keys _ _ _ sp).
  apply (dict_mem_spec _ sp) in H. rewrite H; reflexivity.
Qed.

Lemma dict_set_in : forall K V (eqb : K -> K -> bool) (sp : forall a b, reflect (a = b) (eqb a b))
  (d : list (K * V)) k v k' v', NoDup (map fst d) ->
  In (k', v') (dict_set eqb d k v) -> (k' = k /\ v' = v) \/ (k' <> k /\ In (k', v') d).
Proof.
  intros K V eqb sp d k v k' v'. induction d as [|[a b] d IH]; cbn [dict_set map fst]; intros ND H.
  - destruct H as [E|[]]. injection E as <- <-. left; auto.
  - inversion ND as [|? ? Hn ND']; subst. destruct (sp k a) as [->|Hne].
    + destruct H as [E|H]; [injection E as <- <-; left; auto|].
      right. split; [|right; exact H]. intros ->. apply Hn. apply in_map_iff; exists (a, v'); auto.
    + destruct H as [E|H].
      * injection E as <- <-. right; split; [congruence | left; reflexivity].
      * destruct (IH ND' H) as [?|[? ?]]; [left; assumption | right; split; [assumption | right; assumption]].
Qed.

Lemma extend_entity_ok : forall t acc k i new, NoDup (map fst t) -> keys_match t acc ->
  In k (map fst t) -> i < cnt acc k ->
  exists acc', extend_entity acc k i new = Ok acc' /\ keys_match t acc' /\
    (forall k', cnt acc' k' = cnt acc k') /\
    (forall k' i', dof_at acc' k' i'
       = dof_at acc k' i' ++ (if dimkey_eqb k' k && Nat.eqb i' i then new else [])).
Proof.
  intros t acc k i new tn km Hk Hi.
  destruct (km_row t acc tn km k Hk) as [Gr Ir].
  destruct (km_entry t acc tn km k i Hk Hi) as (l & Gl & Il).
  set (row' := dict_set Nat.eqb (rowof acc k) i (l ++ new)).
  exists (dict_set dimkey_eqb acc k row'). split; [|split; [|split]].
  - unfold extend_entity. rewrite Gr. cbn [bind]. rewrite Gl. reflexivity.
  - assert (Hka : In k (map fst acc)) by (eapply Permutation_in; [symmetry; apply km | exact Hk]).
    split.
    + rewrite (dict_set_mem_keys _ _ _ dimkey_eqb_spec) by exact Hka. apply km.
    + intros k' row H. apply (dict_set_in _ _ _ dimkey_eqb_spec) in H; [|eapply km_NoDup; eassumption].
      destruct H as [[-> ->]|[_ H]]; [|apply km; exact H].
      destruct (km_count t acc tn km k Hk) as [Hc P]. exists (cnt acc k); split; [exact Hc|].
      unfold row'. rewrite (dict_set_mem_keys _ _ _ nat_eqb_spec); [exact P|].
      apply in_map_iff; exists (i, l); auto.
  - intros k'. unfold cnt, rowof at 1. rewrite (dict_set_get _ _ _ dimkey_eqb_spec).
    destruct (dimkey_eqb_spec k' k) as [->|Hn]; [|reflexivity].
    unfold row'. rewrite <- (map_length fst), (dict_set_mem_keys _ _ _ nat_eqb_spec), map_length; [reflexivity|].
    apply in_map_iff; exists (i, l); auto.
  - intros k' i'. unfold dof_at at 1, rowof. rewrite (dict_set_get _ _ _ dimkey_eqb_spec).
    destruct (dimkey_eqb_spec k' k) as [->|Hn]; cbn [andb].
    + unfold inrow, row'. rewrite (dict_set_get _ _ _ nat_eqb_spec).
      destruct (Nat.eqb_spec i' i) as [->|Hn].
      * unfold dof_at, inrow. rewrite Gl. reflexivity.
      * rewrite app_nil_r. reflexivity.
    + rewrite app_nil_r. reflexivity.
Qed.

Definition entries (off : nat) (d : edofs) : list (dimkey * nat * list nat) :=
  flat_map (fun kr => map (fun il => (fst kr, fst il, map (fun v => off + v) (snd il))) (snd kr)) d.

Definition add_entry (acc : edofs) (x : dimkey * nat * list nat) : result edofs :=
  extend_entity acc (fst (fst x)) (snd (fst x)) (snd x).

Lemma fold_res_app : forall A B (f : A -> B -> result A) l l' a,
  fold_res f (l ++ l') a = do a' <- fold_res f l a ;; fold_res f l' a'.
Proof.
  induction l as [|x l IH]; intros l' a; simpl; [reflexivity|].
  destruct (f a x); simpl; [apply IH | reflexivity].
Qed.

Lemma fold_res_map : forall A B C (g : C -> B) (f : A -> B -> result A) l a,
  fold_res f (map g l) a = fold_res (fun a x => f a (g x)) l a.
Proof.
  induction l as [|x l IH]; intros a; simpl; [reflexivity|].
  destruct (f a (g x)); simpl; [apply IH | reflexivity].
Qed.

Lemma add_element_entries : forall acc off d,
  add_element_dofs acc (off, d) = fold_res add_entry (entries off d) acc.
Proof.
  intros acc off d. unfold add_element_dofs, entries. cbn [fst snd]. revert acc.
  induction d as [|[k row] d IH]; intros acc; simpl; [reflexivity|].
  rewrite fold_res_app, fold_res_map. unfold add_entry at 1. cbn [fst snd].
  destruct (fold_res _ row acc); simpl; [apply IH | reflexivity].
Qed.

Definition at_key (k : dimkey) (i : nat) (es : list (dimkey * nat * list nat)) : list nat :=
  flat_map (fun x => if dimkey_eqb k (fst (fst x)) && Nat.eqb i (snd (fst x)) then snd x else []) es.

Lemma fold_entries_ok : forall t es acc, NoDup (map fst t) -> keys_match t acc ->
  Forall (fun x => In (fst (fst x)) (map fst t) /\ snd (fst x) < cnt acc (fst (fst x))) es ->
  exists acc', fold_res add_entry es acc = Ok acc' /\ keys_match t acc' /\
    (forall k', cnt acc' k' = cnt acc k') /\
    (forall k i, dof_at acc' k i = dof_at acc k i ++ at_key k i es).
Proof.
  intros t es acc tn km H. revert acc km H.
  induction es as [|[[k i] new] es IH]; intros acc km H.
  - exists acc; repeat split; auto; [apply km | apply km |].
    intros; simpl; rewrite app_nil_r; reflexivity.
  - inversion H as [|? ? [Hk Hi] H']; subst. cbn [fst snd] in Hk, Hi.
    destruct (extend_entity_ok t acc k i new tn km Hk Hi) as (a1 & E1 & km1 & C1 & D1).
    destruct (IH a1 km1) as (a2 & E2 & km2 & C2 & D2).
    { eapply Forall_impl; [|exact H']. intros x; simpl. rewrite C1. auto. }
    exists a2. split; [|split; [exact km2 | split]].
    + cbn [fold_res]. unfold add_entry at 1. cbn [fst snd]. rewrite E1. exact E2.
    + intros; rewrite C2, C1; reflexivity.
    + intros k' i'. rewrite D2, D1. rewrite <- app_assoc. reflexivity.
Qed.

Lemma at_key_app : forall k i a b, at_key k i (a ++ b) = at_key k i a ++ at_key k i b.
Proof. intros; apply flat_map_app. Qed.

Lemma at_key_entries : forall t off d k i, NoDup (map fst t) -> keys_match t d ->
  at_key k i (entries off d) = map (fun v => off + v) (dof_at d k i).
Proof.
  intros t off d k i tn km.
  assert (ND := km_NoDup t d tn km).
  assert (RD : forall k row, In (k, row) d -> NoDup (map fst row)).
  { intros k' row Hr. rewrite <- (km_rowof t d tn km k' row Hr).
    eapply km_row_NoDup; [exact tn | exact km | eapply km_key; eassumption]. }
  clear km. unfold dof_at, rowof. induction d as [|[k0 row0] d IH]; [reflexivity|].
  cbn [entries flat_map fst snd]. fold (entries off d). rewrite at_key_app.
  inversion ND as [|? ? Hn ND']; subst. cbn [dict_get].
  assert (RD' : forall k row, In (k, row) d -> NoDup (map fst row)) by (intros; eapply RD; right; eassumption).
  specialize (IH ND' RD'). destruct (dimkey_eqb_spec k k0) as [->|Hne].
  - rewrite IH. rewrite (dict_get_none _ dimkey_eqb_spec) by exact Hn.
    replace (map (fun v => off + v) (inrow [] i)) with (@nil nat) by reflexivity. rewrite app_nil_r.
    specialize (RD k0 row0 (or_introl eq_refl)). clear - RD.
    unfold at_key, inrow. rewrite flat_map_map. cbn [fst snd].
    destruct (dimkey_eqb_spec k0 k0) as [_|]; [|congruence]. cbn [andb].
    induction row0 as [|[j l] row IH]; [reflexivity|]. cbn [flat_map fst snd dict_get].
    inversion RD as [|? ? Hn ND]; subst. destruct (Nat.eqb_spec i j) as [->|Hne].
    + rewrite IH by exact ND. rewrite (dict_get_none _ nat_eqb_spec) by exact Hn. simpl. rewrite app_nil_r. reflexivity.
    + apply IH; exact ND.
  - rewrite IH. replace (at_key k i _) with (@nil nat); [reflexivity|].
    unfold at_key. rewrite flat_map_map. cbn [fst snd].
    symmetry. transitivity (flat_map (fun _ : nat * list nat => @nil nat) row0); [|apply flat_map_nil_fun].
    apply flat_map_ext_in. intros x _. destruct (dimkey_eqb_spec k k0); [congruence | reflexivity].
Qed.

Lemma entries_valid : forall t off d (acc : edofs), NoDup (map fst t) -> keys_match t d -> keys_match t acc ->
  Forall (fun x => In (fst (fst x)) (map fst t) /\ snd (fst x) < cnt acc (fst (fst x))) (entries off d).
Proof.
  intros t off d acc tn km kma. apply Forall_forall. intros [[k i] l] H. cbn [fst snd].
  unfold entries in H. apply in_flat_map in H as ([k' row] & Hr & H).
  apply in_map_iff in H as ([i' l'] & E & Hi). cbn [fst snd] in E. injection E as -> -> _.
  assert (Hk := km_key t d tn km k row Hr). split; [exact Hk|].
  rewrite <- (km_rowof t d tn km k row Hr) in Hi.
  destruct (km_entry_inv t d tn km k i l' Hk Hi) as [Hc _].
  destruct (km_count t d tn km k Hk) as [Hin _].
  rewrite (km_count_eq t acc tn kma k _ Hin). exact Hc.
Qed.

Lemma concat_fold_ok : forall t ods acc, NoDup (map fst t) -> keys_match t acc ->
  Forall (fun od => keys_match t (snd od)) ods ->
  exists acc', fold_res add_element_dofs ods acc = Ok acc' /\ keys_match t acc' /\
    (forall k', cnt acc' k' = cnt acc k') /\
    (forall k i, dof_at acc' k i
      = dof_at acc k i ++ flat_map (fun od => map (fun v => fst od + v) (dof_at (snd od) k i)) ods).
Proof.
  intros t ods acc tn km H. revert acc km. induction H as [|[off d] ods Hd H IH]; intros acc km.
  - exists acc; split; [reflexivity|]. split; [exact km|]. split; [reflexivity|].
    intros; simpl; rewrite app_nil_r; reflexivity.
  - cbn [snd] in Hd.
    destruct (fold_entries_ok t (entries off d) acc tn km (entries_valid t off d acc tn Hd km))
      as (a1 & E1 & km1 & C1 & D1).
    destruct (IH a1 km1) as (a2 & E2 & km2 & C2 & D2).
    exists a2. split; [|split; [exact km2 | split]].
    + cbn [fold_res]. rewrite add_element_entries, E1. exact E2.
    + intros; rewrite C2, C1; reflexivity.
    + intros k i. rewrite D2, D1. rewrite (at_key_entries t off d k i tn Hd).
      cbn [flat_map fst snd]. rewrite app_assoc. reflexivity.
Qed.

Lemma cumsum_zip_blocks : forall A ns (ds : list A) a, length ns = length ds ->
  flat_map (fun on => map (fun v => fst on + v) (seq 0 (snd on))) (zip (cumsum_from a ns) ns)
  = seq a (sum ns).
Proof.
  intros A ns ds a _. revert a. induction ns as [|n ns IH]; intros a; simpl; [reflexivity|].
  rewrite IH. rewrite seq_app. f_equal. rewrite <- (map_id (seq a n)).
  symmetry. apply (map_seq_shift _ (fun x => x)).
Qed.

Lemma concatenate_ok : forall c nds,
  Forall (fun nd => edofs_ok (topology c) (fst nd) (snd nd)) nds ->
  exists d, concatenate_entity_dofs c (map fst nds) (map snd nds) = Ok d /\
    edofs_ok (topology c) (sum (map fst nds)) d /\
    forall k i, dof_at d k i
      = flat_map (fun od => map (fun v => fst od + v) (dof_at (snd od) k i))
                 (zip (cumsum0 (map fst nds)) (map snd nds)).
Proof.
  intros c nds H. set (t := topology c). assert (tn : NoDup (map fst t)) by apply topology_NoDup.
  destruct (concat_fold_ok t (zip (cumsum0 (map fst nds)) (map snd nds)) (empty_of t) tn (empty_keys t tn))
    as (d & E & km & C & D).
  { unfold cumsum0. generalize 0 as a. induction H as [|[n d] nds Hd H IH]; intros a; simpl; constructor; auto.
    apply Hd. }
  exists d. split; [exact E|].
  assert (D' : forall k i, dof_at d k i
      = flat_map (fun od => map (fun v => fst od + v) (dof_at (snd od) k i))
                 (zip (cumsum0 (map fst nds)) (map snd nds))).
  { intros k i. rewrite D, empty_dof_at. reflexivity. }
  split; [|exact D']. split; [exact km|]. unfold partitions.
  rewrite (dof_sum_all t d tn km). unfold dof_sum.
  transitivity (flat_map (fun k => flat_map (fun i =>
     flat_map (fun od => map (fun v => fst od + v) (dof_at (snd od) k i))
                 (zip (cumsum0 (map fst nds)) (map snd nds))) (seq 0 (cnt (empty_of t) k))) (map fst t)).
  { apply Permutation_refl'. apply flat_map_ext_in. intros k _. rewrite C. apply flat_map_ext_in. intros i _.
    apply D'. }
  transitivity (flat_map (fun od => map (fun v => fst od + v) (dof_sum t (snd od)))
                 (zip (cumsum0 (map fst nds)) (map snd nds))).
  { transitivity (flat_map (fun k => flat_map (fun od => flat_map (fun i => map (fun v => fst od + v) (dof_at (snd od) k i))
        (seq 0 (cnt (empty_of t) k))) (zip (cumsum0 (map fst nds)) (map snd nds))) (map fst t)).
    { apply flat_map_perm_fun. intros k _. apply flat_map_swap. }
    rewrite flat_map_swap. apply flat_map_perm_fun. intros [off dd] Hin. cbn [fst snd].
    assert (kmd : keys_match t dd).
    { clear - H Hin. unfold cumsum0 in Hin. revert Hin. generalize 0 as a.
      induction H as [|[n0 d0] nds Hd H IH]; intros a Hin; simpl in Hin; [contradiction|].
      destruct Hin as [E|Hin]; [injection E as _ <-; apply Hd | eapply IH; exact Hin]. }
    unfold dof_sum. rewrite map_flat_map. apply Permutation_refl', flat_map_ext_in. intros k Hk.
    rewrite map_flat_map. f_equal. f_equal.
    destruct (km_count t dd tn kmd k Hk) as [Hin' _].
    rewrite (km_count_eq t (empty_of t) tn (empty_keys t tn) k _ Hin'). reflexivity. }
  rewrite <- (cumsum_zip_blocks _ (map fst nds) (map fst nds) 0 eq_refl).
  unfold cumsum0.
  enough (G : forall a, Permutation
    (flat_map (fun od => map (fun v => fst od + v) (dof_sum t (snd od)))
       (zip (cumsum_from a (map fst nds)) (map snd nds)))
    (flat_map (fun on => map (fun v => fst on + v) (seq 0 (snd on)))
       (zip (cumsum_from a (map fst nds)) (map fst nds)))) by exact (G 0).
  clear - H tn.
  induction H as [|[n d] nds Hd H IH]; intros a; simpl; [constructor|].
  apply Permutation_app; [|apply IH]. apply Permutation_map.
  fold t. rewrite <- dof_sum_all; [|exact tn | apply Hd]. apply Hd.
Qed.

(* ------------------------------------------------------------------ *)
(** ** Discontinuous elements *)

Lemma f_cube_top : forall m, f_cube m m = 1 /\ forall k, m < k -> f_cube m k = 0.
Proof.
  induction m as [|m [IH1 IH2]].
  - split; [reflexivity|]. intros [|k] H; [lia | reflexivity].
  - cbn [f_cube]. split.
    + rewrite conv_int. cbn [shift]. rewrite IH1, IH2 by lia. reflexivity.
    + intros [|k] H; [lia|]. rewrite conv_int. cbn [shift]. rewrite !IH2 by lia. reflexivity.
Qed.

Lemma binom_gt : forall n k, n < k -> binom n k = 0.
Proof.
  induction n as [|n IH]; intros [|k] H; try lia; [reflexivity|]. simpl. rewrite !IH by lia. reflexivity.
Qed.

Lemma binom_diag : forall n, binom n n = 1.
Proof. induction n as [|n IH]; [reflexivity|]. simpl. rewrite IH, binom_gt by lia. reflexivity. Qed.

(** The cell itself is entity 0 of its own dimension. *)
Lemma cell_in_topology : forall c, In (get_dimension c, 1) (topology c).
Proof.
  induction c as [d|cs IH|d] using cell_ind'.
  - cbn [topology get_dimension]. unfold simplex_topology. apply in_map_iff. exists d. split.
    + rewrite binom_diag. reflexivity.
    + apply in_seq; lia.
  - cbn [topology get_dimension]. unfold product_topology. apply in_map_iff.
    exists (map (fun c => (get_dimension c, 1)) cs). split.
    + rewrite !map_map. cbn [fst snd]. f_equal. clear IH. induction cs; simpl; lia.
    + apply in_cart. rewrite Forall2_map_l, Forall2_map_r. induction IH; constructor; auto.
  - destruct (cube_topology (Hypercube d) (cc_hypercube d)) as [C T].
    cbn [spatial_dimension get_dimension] in *. cbn [topology] in *.
    apply (dict_get_in _ dimkey_eqb_spec). rewrite flatten_topology_get.
    assert (E : existsb (Nat.eqb d) (totals (product_topology (repeat (simplex_topology 1) d))) = true).
    { apply existsb_eqb. apply totals_flatten. apply T. lia. }
    rewrite E. rewrite <- tcount_flatten, C. f_equal. apply f_cube_top.
Qed.

Lemma discontinuous_ok : forall c n,
  exists d, discontinuous_entity_dofs c n = Ok d /\ edofs_ok (topology c) n d /\
    forall k i, dof_at d k i = if dimkey_eqb k (get_dimension c) && Nat.eqb i 0 then seq 0 n else [].
Proof.
  intros c n. set (t := topology c). assert (tn : NoDup (map fst t)) by apply topology_NoDup.
  assert (Hc := cell_in_topology c). fold t in Hc.
  assert (Hk : In (get_dimension c) (map fst t)) by (apply in_map_iff; exists (get_dimension c, 1); auto).
  assert (C1 := km_count_eq t (empty_of t) tn (empty_keys t tn) _ _ Hc).
  destruct (extend_entity_ok t (empty_of t) (get_dimension c) 0 (seq 0 n) tn (empty_keys t tn) Hk) as (d & E & km & C & D).
  { rewrite C1; lia. }
  exists d. split; [exact E|].
  assert (D' : forall k i, dof_at d k i = if dimkey_eqb k (get_dimension c) && Nat.eqb i 0 then seq 0 n else []).
  { intros k i. rewrite D, empty_dof_at. reflexivity. }
  split; [|exact D']. split; [exact km|]. unfold partitions. rewrite (dof_sum_all t d tn km). unfold dof_sum.
  apply in_split in Hk as (l1 & l2 & Ek). rewrite Ek in tn |- *.
  rewrite flat_map_app. cbn [flat_map].
  assert (Z : forall l, ~ In (get_dimension c) l ->
     flat_map (fun k => flat_map (dof_at d k) (seq 0 (cnt d k))) l = []).
  { intros l Hl. transitivity (flat_map (fun _ : dimkey => @nil nat) l); [|apply flat_map_nil_fun].
    apply flat_map_ext_in. intros k Hkl.
    transitivity (flat_map (fun _ : nat => @nil nat) (seq 0 (cnt d k))); [|apply flat_map_nil_fun].
    apply flat_map_ext_in. intros i _. rewrite D'.
    destruct (dimkey_eqb_spec k (get_dimension c)); [subst; contradiction | reflexivity]. }
  apply NoDup_remove_2 in tn. rewrite in_app_iff in tn.
  rewrite (Z l1), (Z l2) by tauto. rewrite app_nil_r. cbn [app].
  rewrite C, C1. cbn [seq flat_map]. rewrite app_nil_r, D'.
  destruct (dimkey_eqb_spec (get_dimension c) (get_dimension c)); [|congruence]. reflexivity.
Qed.

(* ------------------------------------------------------------------ *)
(** ** Flattened elements *)

Lemma all_lists_flatten : forall (d : edofs),
  Permutation (all_lists (flatten_entities d)) (all_lists d).
Proof.
  intros d. destruct (flatten_keys _ d) as [N I].
  assert (E : Permutation (all_lists (flatten_entities d))
     (flat_map (fun k => flat_rows (sort_rows d) k) (map dk_total (map fst (flatten_entities d))))).
  { unfold all_lists. rewrite !flat_map_map. apply flat_map_perm_fun. intros [k row] H.
    assert (Hk : In k (map fst (flatten_entities d))) by (apply in_map_iff; exists (k, row); auto).
    apply I in Hk as (n & -> & Hn). cbn [fst snd dk_total].
    assert (G := dict_in_get _ dimkey_eqb_spec _ _ _ N H). rewrite flatten_get in G.
    destruct (existsb (Nat.eqb n) (totals d)); [|discriminate]. injection G as <-.
    rewrite map_snd_enumerate. reflexivity. }
  rewrite E. rewrite flat_map_group.
  - rewrite (flat_map_perm _ _ _ _ d) by apply sorted_perm. unfold all_lists.
    apply flat_map_perm_fun. intros; apply row_values_perm.
  - assert (F : forall k, In k (map fst (flatten_entities d)) -> exists n, k = DI n)
      by (intros k Hk; apply I in Hk as (n & ? & _); eauto).
    clear E I. induction N as [|k l Hk N IH]; simpl; constructor.
    + intros H. apply in_map_iff in H as (k' & E & H).
      destruct (F k) as [a ->]; [left; reflexivity|]. destruct (F k') as [b ->]; [right; exact H|].
      cbn in E; subst b. contradiction.
    + apply IH. intros; apply F; right; assumption.
  - intros kr H. apply (Permutation_in _ (sorted_perm _ _)) in H.
    apply in_map_iff. exists (DI (dk_total (fst kr))). split; [reflexivity|].
    apply I. exists (dk_total (fst kr)). split; [reflexivity|]. apply in_map_iff. exists kr; auto.
Qed.

Lemma tcount_flat_rows : forall t (d : edofs), NoDup (map fst t) -> keys_match t d -> forall k,
  length (flat_rows d k) = tcount t k.
Proof.
  intros t d tn km k.
  assert (P : Permutation (map (fun kr => (fst kr, length (snd kr))) d) t).
  { apply NoDup_Permutation.
    - apply (NoDup_map_inv fst). rewrite map_map. cbn [fst].
      eapply km_NoDup; eassumption.
    - apply (NoDup_map_inv fst). exact tn.
    - intros [kk n]. split; intros H.
      + apply in_map_iff in H as ([k' row] & E & H). injection E as -> <-.
        destruct (proj2 km _ _ H) as (c & Hc & Pc). apply Permutation_length in Pc.
        rewrite map_length, seq_length in Pc. rewrite Pc. exact Hc.
      + apply in_map_iff. assert (Hk : In kk (map fst t)) by (apply in_map_iff; exists (kk, n); auto).
        destruct (km_row t d tn km kk Hk) as [_ Hr]. exists (kk, rowof d kk). split; [|exact Hr].
        cbn [fst snd]. f_equal. apply (km_count_eq t d tn km); exact H. }
  rewrite <- (tcount_perm _ _ k P). clear. unfold tcount, flat_rows. rewrite map_map. cbn [fst snd].
  induction d as [|[kk row] d IH]; simpl; [reflexivity|]. rewrite app_length, IH.
  destruct (dk_total kk =? k); [|reflexivity].
  rewrite (Permutation_length (row_values_perm _ row)), map_length. reflexivity.
Qed.

Lemma flatten_ok : forall c n d, cube_cell c -> edofs_ok (topology c) n d ->
  edofs_ok (topology (Hypercube (spatial_dimension c))) n (flatten_entities d).
Proof.
  intros c n d Hc [km part]. set (t := topology c) in *.
  assert (tn : NoDup (map fst t)) by apply topology_NoDup.
  destruct (flatten_cube c Hc) as [K KV]. fold t in K, KV.
  destruct (flatten_keys _ d) as [N I].
  destruct (flatten_topology_keys t) as [Nt It].
  assert (TP : Permutation (totals d) (totals t)).
  { unfold totals. rewrite <- !(map_map fst dk_total). apply Permutation_map. apply km. }
  assert (KK : forall k, In k (map fst (flatten_entities d)) <-> In k (map fst (flatten_topology t))).
  { intros k. rewrite I, It. split; intros (m & E & H); exists m; split; auto.
    - eapply Permutation_in; [exact TP | exact H].
    - eapply Permutation_in; [symmetry; exact TP | exact H]. }
  split.
  - split.
    + apply NoDup_Permutation; [exact N | apply topology_NoDup |]. intros k. rewrite KK. apply K.
    + intros k row H. assert (Hk : In k (map fst (flatten_entities d))) by (apply in_map_iff; exists (k, row); auto).
      assert (Hk' := Hk). apply I in Hk as (m & -> & Hm).
      assert (G := dict_in_get _ dimkey_eqb_spec _ _ _ N H). rewrite flatten_get in G.
      destruct (existsb (Nat.eqb m) (totals d)) eqn:Ex; [|discriminate]. injection G as <-.
      exists (tcount t m). split.
      * apply KV. apply (dict_get_in _ dimkey_eqb_spec). rewrite flatten_topology_get.
        replace (existsb (Nat.eqb m) (totals t)) with true; [reflexivity|]. symmetry. apply existsb_eqb.
        eapply Permutation_in; [exact TP | exact Hm].
      * rewrite map_fst_enumerate. rewrite <- (tcount_flat_rows t d tn km m).
        rewrite (flat_rows_perm_length _ (sort_rows d) d m) by apply sorted_perm. reflexivity.
  - unfold partitions in *. rewrite <- part. apply concat_perm, all_lists_flatten.
Qed.

(* ------------------------------------------------------------------ *)
(** ** All trees *)

Lemma fold_mul_prod : forall l, fold_right Nat.mul 1 l = prod l.
Proof. induction l as [|x l IH]; simpl; congruence. Qed.

Lemma dims_prod : forall F (e : elt F),
  (forall l, leaf_of l e -> prod (lf_ishape l) = lf_dim l) ->
  prod (index_shape e) = space_dimension e.
Proof.
  intros F e. unfold index_shape, space_dimension.
  induction e as [l|fs IH|b s t IH|es IH|e s o IH|e IH|e IH|e IH|e IH] using elt_ind'; intros H.
  - apply H; constructor.
  - cbn [dims fst snd]. rewrite prod_concat, map_map. f_equal. apply map_ext_in. intros f Hf.
    rewrite Forall_forall in IH. apply IH; [exact Hf|]. intros l Hl. apply H. econstructor; eauto.
  - reflexivity.
  - cbn [dims fst snd prod]. lia.
  - cbn [dims]. apply IH. intros; apply H; constructor; assumption.
  - cbn [dims]. apply IH. intros; apply H; constructor; assumption.
  - cbn [dims]. apply IH. intros; apply H; constructor; assumption.
  - cbn [dims]. apply IH. intros; apply H; constructor; assumption.
  - cbn [dims]. apply IH. intros; apply H; constructor; assumption.
Qed.

Definition leaves_ok {F} (e : elt F) := forall l, leaf_of l e -> leaf_ok l.

Lemma leaves_ok_prod : forall F (e : elt F), leaves_ok e ->
  forall l, leaf_of l e -> prod (lf_ishape l) = lf_dim l.
Proof. intros F e H l Hl. destruct (H l Hl) as [_ E]. rewrite <- fold_mul_prod. exact E. Qed.

Definition dofs_good {F} (e : elt F) : Prop :=
  leaves_ok e -> sensible e -> forall c, cell_of e = Ok c ->
  exists d, entity_dofs e = Ok d /\ edofs_ok (topology c) (space_dimension e) d.

Lemma sensible_sub : forall F (e e' : elt F),
  sensible e -> (forall s, subelt s e' -> subelt s e) -> sensible e'.
Proof. intros F e e' [A B] H. split; intros; [eapply A | eapply B]; eauto. Qed.

Lemma tensor_product_data : forall F (fs : list (elt F)) cs,
  Forall dofs_good fs -> leaves_ok (ETensorProduct fs) -> sensible (ETensorProduct fs) ->
  mapM cell_of fs = Ok cs ->
  exists xs, Forall fac_ok xs /\ map ft xs = map topology cs /\ map fn xs = map space_dimension fs /\
    mapM entity_dofs fs = Ok (map fd xs).
Proof.
  intros F fs cs IH L S E. apply mapM_ok in E.
  assert (L' : Forall leaves_ok fs).
  { apply Forall_forall. intros f Hf l Hl. apply L. econstructor; eassumption. }
  assert (S' : Forall sensible fs).
  { apply Forall_forall. intros f Hf. eapply sensible_sub; [exact S|]. intros; econstructor; eassumption. }
  clear L S. induction E as [|f c fs cs Ec E IHE].
  - exists []; repeat split; constructor.
  - inversion IH as [|? ? IHf IHfs]; subst. inversion L' as [|? ? Lf Lfs]; subst.
    inversion S' as [|? ? Sf Sfs]; subst.
    destruct (IHE IHfs Lfs Sfs) as (xs & FO & Et & En & Ed).
    destruct (IHf Lf Sf c Ec) as (d & Hd & ok).
    exists ((topology c, space_dimension f, d) :: xs). repeat split.
    + constructor; [|exact FO]. split; [apply topology_NoDup | exact ok].
    + cbn. rewrite Et; reflexivity.
    + cbn. rewrite En; reflexivity.
    + cbn [mapM map]. rewrite Hd, Ed. reflexivity.
Qed.

Lemma map_fac_keys : forall xs ts, map ft xs = ts -> map (fun x => map fst (ft x)) xs = map (map fst) ts.
Proof. intros xs ts <-. rewrite map_map. reflexivity. Qed.

Lemma tensor_product_ok : forall F (fs : list (elt F)) cs,
  Forall dofs_good fs -> leaves_ok (ETensorProduct fs) -> sensible (ETensorProduct fs) ->
  mapM cell_of fs = Ok cs ->
  exists xs, Forall fac_ok xs /\ map ft xs = map topology cs /\ map fn xs = map space_dimension fs /\
    mapM entity_dofs fs = Ok (map fd xs) /\ entity_dofs (ETensorProduct fs) = Ok (product_dofs xs).
Proof.
  intros F fs cs IH L S E. destruct (tensor_product_data F fs cs IH L S E) as (xs & FO & Et & En & Ed).
  exists xs. repeat split; auto. cbn [entity_dofs]. rewrite E. cbn [bind]. rewrite Ed. cbn [bind].
  rewrite <- En. rewrite <- (productise_ok xs).
  - f_equal. rewrite (map_fac_keys xs _ Et), map_map. reflexivity.
  - destruct S as [NE _]. specialize (NE fs (se_refl _)). destruct fs; [congruence|].
    intros ->. discriminate En.
  - exact FO.
Qed.

Lemma enriched_data : forall F (es : list (elt F)) c,
  Forall dofs_good es -> leaves_ok (EEnriched es) -> sensible (EEnriched es) ->
  cell_of (EEnriched es) = Ok c ->
  exists nds, Forall (fun nd => edofs_ok (topology c) (fst nd) (snd nd)) nds /\
    map fst nds = map space_dimension es /\ mapM entity_dofs es = Ok (map snd nds) /\
    entity_dofs (EEnriched es) = concatenate_entity_dofs c (map fst nds) (map snd nds).
Proof.
  intros F es c IH L S E.
  assert (L' : Forall leaves_ok es).
  { apply Forall_forall. intros f Hf l Hl. apply L. econstructor; eassumption. }
  assert (S' : Forall sensible es).
  { apply Forall_forall. intros f Hf. eapply sensible_sub; [exact S|]. intros; econstructor; eassumption. }
  assert (C : Forall (fun e => cell_of e = Ok c) es).
  { cbn [cell_of] in E. apply bind_ok in E as (cs & Ecs & U).
    destruct (unique_ok _ _ _ _ cell_eqb_spec U) as [_ U']. apply mapM_ok in Ecs. clear - Ecs U'.
    induction Ecs; inversion U'; subst; constructor; auto. }
  assert (D : exists nds, Forall (fun nd => edofs_ok (topology c) (fst nd) (snd nd)) nds /\
    map fst nds = map space_dimension es /\ mapM entity_dofs es = Ok (map snd nds)).
  { clear E L S. induction C as [|e es Ee C IHC].
    - exists []; repeat split; constructor.
    - inversion IH as [|? ? IHf IHfs]; subst. inversion L' as [|? ? Lf Lfs]; subst.
      inversion S' as [|? ? Sf Sfs]; subst.
      destruct (IHC IHfs Lfs Sfs) as (nds & FO & En & Ed).
      destruct (IHf Lf Sf c Ee) as (d & Hd & ok).
      exists ((space_dimension e, d) :: nds). repeat split.
      + constructor; [exact ok | exact FO].
      + cbn. rewrite En; reflexivity.
      + cbn [mapM map]. rewrite Hd, Ed. reflexivity. }
  destruct D as (nds & FO & En & Ed). exists nds. repeat split; auto.
  cbn [entity_dofs cell_of] in *. rewrite E. cbn [bind]. rewrite Ed. cbn [bind]. rewrite En. reflexivity.
Qed.

Theorem entity_dofs_main : forall F (e : elt F), dofs_good e.
Proof.
  intros F e.
  induction e as [l|fs IH|b s t IH|es IH|e s o IH|e IH|e IH|e IH|e IH] using elt_ind';
    intros L S c E.
  - cbn [cell_of entity_dofs] in *. injection E as <-. exists (lf_edofs l).
    split; [reflexivity|]. apply (L l); constructor.
  - cbn [cell_of] in E. apply bind_ok in E as (cs & Ecs & E). injection E as <-.
    destruct (tensor_product_ok F fs cs IH L S Ecs) as (xs & FO & Et & En & _ & Ed).
    exists (product_dofs xs). split; [exact Ed|]. cbn [topology].
    rewrite <- Et. split; [apply product_dofs_keys; exact FO|].
    assert (P := product_dofs_part xs FO). rewrite En in P. exact P.
  - cbn [cell_of] in E.
    destruct (IH (fun l Hl => L l (lo_tensor l b s t Hl))) with (c := c) as (d & Hd & ok); [|exact E|].
    { eapply sensible_sub; [exact S|]. intros; constructor; assumption. }
    exists (tensor_dofs (topology c) t (space_dimension b) (prod s) d). split.
    + cbn [entity_dofs]. rewrite E, Hd. cbn [bind]. apply tensor_entity_dofs_ok, ok.
    + assert (SD : space_dimension (ETensor b s t) = space_dimension b * prod s).
      { rewrite <- (dims_prod F b); [|intros; eapply leaves_ok_prod; [exact L | constructor; assumption]].
        unfold space_dimension at 1. cbn [dims fst snd]. fold (index_shape b). destruct t; rewrite prod_app; lia. }
      rewrite SD. split.
      * apply tensor_dofs_keys; [apply topology_NoDup | apply ok].
      * apply tensor_dofs_part; [apply topology_NoDup | exact ok].
  - destruct (enriched_data F es c IH L S E) as (nds & FO & En & _ & Ed).
    destruct (concatenate_ok c nds FO) as (d & Hd & ok & _).
    exists d. split; [rewrite Ed; exact Hd|]. rewrite En in ok. exact ok.
  - cbn [cell_of entity_dofs] in *. apply IH; auto.
    + intros l Hl; apply L; constructor; assumption.
    + eapply sensible_sub; [exact S|]. intros; constructor; assumption.
  - cbn [cell_of entity_dofs] in *. apply bind_ok in E as (cp & Ep & E).
    destruct (IH (fun l Hl => L l (lo_flattened l e Hl))) with (c := cp) as (d & Hd & ok); [|exact Ep|].
    { eapply sensible_sub; [exact S|]. intros; constructor; assumption. }
    exists (flatten_entities d). split; [rewrite Hd; reflexivity|].
    assert (CC : cube_cell cp) by (eapply S; [apply se_refl | exact Ep]).
    assert (Ec : c = Hypercube (spatial_dimension cp)).
    { destruct (spatial_dimension cp) as [|[|[|[|n]]]]; try discriminate; congruence. }
    rewrite Ec. apply flatten_ok; assumption.
  - cbn [cell_of entity_dofs] in *. rewrite E. cbn [bind].
    destruct (discontinuous_ok c (space_dimension e)) as (d & Hd & ok & _). exists d; auto.
  - cbn [cell_of entity_dofs] in *. apply IH; auto.
    + intros l Hl; apply L; constructor; assumption.
    + eapply sensible_sub; [exact S|]. intros; constructor; assumption.
  - cbn [cell_of entity_dofs] in *. apply IH; auto.
    + intros l Hl; apply L; constructor; assumption.
    + eapply sensible_sub; [exact S|]. intros; constructor; assumption.
Qed.
