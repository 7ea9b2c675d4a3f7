(** Facts about dimension keys, cells, flattening. *)
From Coq Require Import List Arith Lia Bool Permutation Sorted.
From Verif Require Import Model.Prelude Model.Cell Spec.Rowmajor Proofs.Lists.
Import ListNotations.

Section DimkeyInd.
  Variable P : dimkey -> Prop.
  Hypothesis HI : forall d, P (DI d).
  Hypothesis HT : forall ds, Forall P ds -> P (DT ds).
  Fixpoint dimkey_ind' (k : dimkey) : P k :=
    match k with
    | DI d => HI d
    | DT ds => HT ds ((fix go (l : list dimkey) : Forall P l :=
                         match l with
                         | [] => Forall_nil P
                         | x :: r => Forall_cons x (dimkey_ind' x) (go r)
                         end) ds)
    end.
End DimkeyInd.

Lemma dimkey_eqb_eq : forall a b, a = b <-> dimkey_eqb a b = true.
Proof.
  induction a as [x|xs IH] using dimkey_ind'; intros [y|ys]; simpl; try (split; congruence).
  - rewrite Nat.eqb_eq. split; congruence.
  - enough (G : forall ys, xs = ys <->
       ((fix go (xs ys : list dimkey) : bool :=
         match xs, ys with
         | [], [] => true
         | x :: xs', y :: ys' => dimkey_eqb x y && go xs' ys'
         | _, _ => false
         end) xs ys) = true).
    { rewrite <- G. split; congruence. }
    clear ys. induction IH as [|x xs Hx HF IHF]; intros [|y ys]; try (split; congruence).
    rewrite andb_true_iff, <- Hx, <- IHF. split; [intros H; injection H; auto | intros [-> ->]; auto].
Qed.

Lemma dimkey_eqb_spec : forall a b, reflect (a = b) (dimkey_eqb a b).
Proof. intros; apply iff_reflect, dimkey_eqb_eq. Qed.

Fixpoint dks_cmp (xs ys : list dimkey) : comparison :=
  match xs, ys with
  | [], [] => Eq
  | [], _ :: _ => Lt
  | _ :: _, [] => Gt
  | x :: xs', y :: ys' => match dimkey_cmp x y with Eq => dks_cmp xs' ys' | c => c end
  end.

Lemma dimkey_cmp_DT : forall xs ys, dimkey_cmp (DT xs) (DT ys) = dks_cmp xs ys.
Proof.
  intros xs ys; simpl. revert ys; induction xs as [|x xs IH]; intros [|y ys]; simpl; try rewrite <- IH; reflexivity.
Qed.

Lemma dk_total_DT : forall ds, dk_total (DT ds) = sum (map dk_total ds).
Proof. induction ds as [|x ds IH]; simpl; [reflexivity|]. simpl in IH; rewrite IH; reflexivity. Qed.

Lemma dimkey_cmp_eq : forall a b, dimkey_cmp a b = Eq <-> a = b.
Proof.
  induction a as [x|xs IH] using dimkey_ind'; intros [y|ys]; try (simpl; split; intros; congruence).
  - simpl. rewrite Nat.compare_eq_iff. split; congruence.
  - rewrite dimkey_cmp_DT. enough (G : forall ys, dks_cmp xs ys = Eq <-> xs = ys).
    { rewrite G. split; congruence. }
    clear ys. induction IH as [|x xs Hx HF IHF]; intros [|y ys]; simpl; try (split; congruence).
    destruct (dimkey_cmp x y) eqn:E.
    + apply Hx in E as ->. rewrite IHF. split; congruence.
    + split; [discriminate|]. intros H; injection H as -> ->.
      assert (dimkey_cmp y y = Eq) by (apply Hx; reflexivity). congruence.
    + split; [discriminate|]. intros H; injection H as -> ->.
      assert (dimkey_cmp y y = Eq) by (apply Hx; reflexivity). congruence.
Qed.

Lemma dimkey_cmp_opp : forall a b, dimkey_cmp b a = CompOpp (dimkey_cmp a b).
Proof.
  induction a as [x|xs IH] using dimkey_ind'; intros [y|ys]; try reflexivity.
  - simpl. apply Nat.compare_antisym.
  - rewrite !dimkey_cmp_DT. revert ys.
    induction IH as [|x xs Hx HF IHF]; intros [|y ys]; simpl; try reflexivity.
    rewrite (Hx y). destruct (dimkey_cmp x y); simpl; auto.
Qed.

Lemma dimkey_cmp_lt_trans : forall a b c,
  dimkey_cmp a b = Lt -> dimkey_cmp b c = Lt -> dimkey_cmp a c = Lt.
Proof.
  induction a as [x|xs IH] using dimkey_ind'; intros [y|ys] [z|zs]; simpl; try congruence.
  - rewrite !Nat.compare_lt_iff; lia.
  - intros H1 H2. change (dimkey_cmp (DT xs) (DT ys) = Lt) in H1.
    change (dimkey_cmp (DT ys) (DT zs) = Lt) in H2.
    change (dimkey_cmp (DT xs) (DT zs) = Lt).
    rewrite dimkey_cmp_DT in *. revert ys zs H1 H2.
    induction IH as [|x xs Hx HF IHF]; intros [|y ys] [|z zs]; simpl; try congruence.
    destruct (dimkey_cmp x y) eqn:E1; try discriminate.
    + apply dimkey_cmp_eq in E1 as ->. destruct (dimkey_cmp y z) eqn:E2; try discriminate; auto.
      intros; eauto.
    + intros _. destruct (dimkey_cmp y z) eqn:E2; try discriminate; intros H2.
      * apply dimkey_cmp_eq in E2 as ->. rewrite E1; reflexivity.
      * rewrite (Hx _ _ E1 E2); reflexivity.
Qed.

Lemma dimkey_leb_total : forall a b, dimkey_leb a b = true \/ dimkey_leb b a = true.
Proof.
  intros a b; unfold dimkey_leb. rewrite (dimkey_cmp_opp a b).
  destruct (dimkey_cmp a b); simpl; auto.
Qed.

Lemma dimkey_leb_trans : forall a b c,
  dimkey_leb a b = true -> dimkey_leb b c = true -> dimkey_leb a c = true.
Proof.
  intros a b c; unfold dimkey_leb.
  destruct (dimkey_cmp a b) eqn:E1; try discriminate;
  destruct (dimkey_cmp b c) eqn:E2; try discriminate; intros _ _.
  - apply dimkey_cmp_eq in E1 as ->. rewrite E2; reflexivity.
  - apply dimkey_cmp_eq in E1 as ->. rewrite E2; reflexivity.
  - apply dimkey_cmp_eq in E2 as ->. rewrite E1; reflexivity.
  - rewrite (dimkey_cmp_lt_trans _ _ _ E1 E2); reflexivity.
Qed.

Lemma dimkey_leb_antisym : forall a b, dimkey_leb a b = true -> dimkey_leb b a = true -> a = b.
Proof.
  intros a b; unfold dimkey_leb. rewrite (dimkey_cmp_opp a b).
  destruct (dimkey_cmp a b) eqn:E; simpl; try discriminate. intros _ _; apply dimkey_cmp_eq; exact E.
Qed.

(* ------------------------------------------------------------------ *)
Section CellInd.
  Variable P : cell -> Prop.
  Hypothesis HS : forall d, P (Simplex d).
  Hypothesis HT : forall cs, Forall P cs -> P (TPCell cs).
  Hypothesis HC : forall d, P (Hypercube d).
  Fixpoint cell_ind' (c : cell) : P c :=
    match c with
    | Simplex d => HS d
    | TPCell cs => HT cs ((fix go (l : list cell) : Forall P l :=
                             match l with
                             | [] => Forall_nil P
                             | x :: r => Forall_cons x (cell_ind' x) (go r)
                             end) cs)
    | Hypercube d => HC d
    end.
End CellInd.

Lemma cell_eqb_eq : forall a b, a = b <-> cell_eqb a b = true.
Proof.
  induction a as [x|xs IH|x] using cell_ind'; intros [y|ys|y]; simpl; try (split; congruence).
  - rewrite Nat.eqb_eq. split; congruence.
  - enough (G : forall ys, xs = ys <->
       ((fix go (xs ys : list cell) : bool :=
         match xs, ys with
         | [], [] => true
         | x :: xs', y :: ys' => cell_eqb x y && go xs' ys'
         | _, _ => false
         end) xs ys) = true).
    { rewrite <- G. split; congruence. }
    clear ys. induction IH as [|x xs Hx HF IHF]; intros [|y ys]; try (split; congruence).
    rewrite andb_true_iff, <- Hx, <- IHF. split; [intros H; injection H; auto | intros [-> ->]; auto].
  - rewrite Nat.eqb_eq. split; congruence.
Qed.

Lemma cell_eqb_spec : forall a b, reflect (a = b) (cell_eqb a b).
Proof. intros; apply iff_reflect, cell_eqb_eq. Qed.

(* ------------------------------------------------------------------ *)
(** ** Distinct keys *)

Lemma cart_NoDup : forall A (ls : list (list A)), Forall (@NoDup A) ls -> NoDup (cart ls).
Proof.
  induction 1 as [|l ls Hl H IH]; simpl; [repeat constructor; auto|].
  induction Hl as [|x l Hx Hl IHl]; simpl; [constructor|].
  assert (D : forall (a b : list (list A)), NoDup a -> NoDup b -> (forall y, In y a -> ~ In y b) -> NoDup (a ++ b)).
  { induction a as [|y a IHa]; intros b Ha Hb Hd; simpl; [exact Hb|].
    inversion Ha; subst. constructor.
    - rewrite in_app_iff. intros [?|?]; [contradiction|]. apply (Hd y); [left; reflexivity | assumption].
    - apply IHa; auto. intros z Hz; apply Hd; right; exact Hz. }
  apply D; [|exact IHl|].
  - apply FinFun.Injective_map_NoDup; [|exact IH]. intros a b E; congruence.
  - intros t Ht Ht'. apply in_map_iff in Ht as (t' & <- & _).
    apply in_flat_map in Ht' as (x' & Hx' & Ht'). apply in_map_iff in Ht' as (t'' & E & _).
    injection E as -> _. contradiction.
Qed.

Lemma map_fst_product_topology : forall ts,
  map fst (product_topology ts) = map DT (cart (map (map fst) ts)).
Proof.
  intros ts. unfold product_topology. rewrite map_map. simpl. rewrite cart_map, map_map. reflexivity.
Qed.

(* ------------------------------------------------------------------ *)
(** ** Grouping by total dimension *)

Definition row_values {V} (row : list (nat * V)) : list V :=
  map snd (sorted (fun a b => fst a <=? fst b) row).
Definition flat_rows {V} (rows : edict V) (k : nat) : list V :=
  flat_map (fun kr => if Nat.eqb (dk_total (fst kr)) k then row_values (snd kr) else []) rows.
Definition totals {V} (rows : list (dimkey * V)) : list nat := map (fun kr => dk_total (fst kr)) rows.

Lemma dict_set_get : forall K V (eqb : K -> K -> bool) (sp : forall a b, reflect (a = b) (eqb a b))
  (d : list (K * V)) k v k',
  dict_get eqb (dict_set eqb d k v) k' = if eqb k' k then Ok v else dict_get eqb d k'.
Proof.
  intros K V eqb sp d k v k'. induction d as [|[a b] d IH]; simpl.
  - destruct (eqb k' k); reflexivity.
  - destruct (sp k a) as [->|Hn]; simpl.
    + destruct (sp k' a); reflexivity.
    + rewrite IH. destruct (sp k' a) as [->|Hn']; [|reflexivity].
      destruct (sp a k); [congruence | reflexivity].
Qed.

Lemma dict_set_keys : forall K V (eqb : K -> K -> bool) (sp : forall a b, reflect (a = b) (eqb a b))
  (d : list (K * V)) k v,
  map fst (dict_set eqb d k v) = if dict_mem eqb d k then map fst d else map fst d ++ [k].
Proof.
  intros K V eqb sp d k v. induction d as [|[a b] d IH]; simpl; [reflexivity|].
  destruct (sp k a) as [->|Hn]; simpl; [reflexivity|]. rewrite IH.
  destruct (dict_mem eqb d k); reflexivity.
Qed.

Lemma dict_get_err : forall K V (eqb : K -> K -> bool) (d : list (K * V)) k e,
  dict_get eqb d k = Err e -> e = KeyError /\ dict_mem eqb d k = false.
Proof.
  induction d as [|[a b] d IH]; simpl; intros k e H; [split; congruence|].
  destruct (eqb k a); [discriminate|]. simpl. apply IH; exact H.
Qed.

Lemma dict_get_mem : forall K V (eqb : K -> K -> bool) (d : list (K * V)) k v,
  dict_get eqb d k = Ok v -> dict_mem eqb d k = true.
Proof.
  induction d as [|[a b] d IH]; simpl; intros k v H; [discriminate|].
  destruct (eqb k a); [reflexivity|]. simpl. eapply IH; exact H.
Qed.

(** The accumulator of the flattening loop. *)
Lemma flatten_fold_get : forall V (rows : edict V) acc k,
  dict_get dimkey_eqb (fold_left flatten_step rows acc) (DI k)
  = match dict_get dimkey_eqb acc (DI k) with
    | Ok l => Ok (l ++ flat_rows rows k)
    | Err e => if existsb (Nat.eqb k) (totals rows) then Ok (flat_rows rows k) else Err e
    end.
Proof.
  induction rows as [|[kk row] rows IH]; intros acc k; simpl.
  - destruct (dict_get dimkey_eqb acc (DI k)); [rewrite app_nil_r|]; reflexivity.
  - rewrite IH. unfold flatten_step; simpl.
    rewrite (dict_set_get _ _ _ dimkey_eqb_spec).
    change (dimkey_eqb (DI k) (DI (dk_total kk))) with (Nat.eqb k (dk_total kk)).
    rewrite (Nat.eqb_sym k (dk_total kk)).
    destruct (Nat.eqb_spec (dk_total kk) k) as [E|E]; simpl.
    + rewrite E. destruct (dict_get dimkey_eqb acc (DI k)) as [l|e] eqn:G; simpl.
      * rewrite <- app_assoc. reflexivity.
      * reflexivity.
    + destruct (dict_get dimkey_eqb acc (DI k)); reflexivity.
Qed.

Lemma flatten_fold_keys : forall V (rows : edict V) acc,
  (forall k, In k (map fst acc) -> exists n, k = DI n) ->
  NoDup (map fst acc) ->
  let r := fold_left flatten_step rows acc in
  NoDup (map fst r) /\
  (forall k, In k (map fst r) <-> In k (map fst acc) \/ exists n, k = DI n /\ In n (totals rows)).
Proof.
  induction rows as [|[kk row] rows IH]; intros acc HDI ND; simpl.
  - split; [exact ND|]. intros k; split; [auto|]. intros [H|(n & _ & [])]; exact H.
  - set (acc' := flatten_step acc (kk, row)).
    assert (K : map fst acc' = if dict_mem dimkey_eqb acc (DI (dk_total kk)) then map fst acc
                               else map fst acc ++ [DI (dk_total kk)]).
    { unfold acc', flatten_step; simpl. apply (dict_set_keys _ _ _ dimkey_eqb_spec). }
    assert (I : forall k, In k (map fst acc') <-> In k (map fst acc) \/ k = DI (dk_total kk)).
    { intros k; rewrite K. destruct (dict_mem dimkey_eqb acc (DI (dk_total kk))) eqn:M.
      - apply (dict_mem_spec _ dimkey_eqb_spec) in M. split; [auto|]. intros [H| ->]; auto.
      - rewrite in_app_iff; simpl. firstorder congruence. }
    assert (ND' : NoDup (map fst acc')).
    { rewrite K. destruct (dict_mem dimkey_eqb acc (DI (dk_total kk))) eqn:M; [exact ND|].
      apply (Permutation_NoDup (Permutation_cons_append (map fst acc) _)). constructor; [|exact ND].
      intros H. apply (dict_mem_spec _ dimkey_eqb_spec) in H. congruence. }
    destruct (IH acc') as [N I']; [| exact ND' |].
    { intros k Hk. apply I in Hk as [Hk| ->]; [apply HDI; exact Hk | eauto]. }
    split; [exact N|]. intros k. rewrite I', I. split.
    + intros [[H| ->]|(n & -> & H)]; [auto | right; exists (dk_total kk); auto | right; exists n; auto].
    + intros [H|(n & -> & [<-|H])]; [auto | auto |]. right; exists n; auto.
Qed.

Lemma existsb_eqb : forall k l, existsb (Nat.eqb k) l = true <-> In k l.
Proof.
  intros k l. rewrite existsb_exists. split.
  - intros (x & H & E). apply Nat.eqb_eq in E as ->. exact H.
  - intros H; exists k; split; [exact H | apply Nat.eqb_refl].
Qed.

Definition sort_rows {V} (d : list (dimkey * V)) :=
  sorted (fun a b => dimkey_leb (fst a) (fst b)) d.

Lemma flatten_get : forall V (d : edict V) k,
  dict_get dimkey_eqb (flatten_entities d) (DI k)
  = if existsb (Nat.eqb k) (totals d) then Ok (enumerate (flat_rows (sort_rows d) k)) else Err KeyError.
Proof.
  intros V d k. unfold flatten_entities. rewrite dict_get_map.
  change (sorted (fun a b : dimkey * list (nat * V) => dimkey_leb (fst a) (fst b)) d) with (sort_rows d).
  rewrite flatten_fold_get. simpl.
  assert (E : existsb (Nat.eqb k) (totals (sort_rows d)) = existsb (Nat.eqb k) (totals d)).
  { apply eq_true_iff_eq. rewrite !existsb_eqb.
    assert (P : Permutation (totals (sort_rows d)) (totals d)) by (apply Permutation_map, sorted_perm).
    split; apply Permutation_in; [exact P | symmetry; exact P]. }
  rewrite E. destruct (existsb (Nat.eqb k) (totals d)); reflexivity.
Qed.

Lemma flatten_keys : forall V (d : edict V),
  NoDup (map fst (flatten_entities d)) /\
  forall k, In k (map fst (flatten_entities d)) <-> exists n, k = DI n /\ In n (totals d).
Proof.
  intros V d. unfold flatten_entities. rewrite map_map. simpl.
  destruct (flatten_fold_keys V (sort_rows d) []) as [N I]; [intros k [] | constructor |].
  split; [exact N|]. intros k. rewrite I. simpl.
  assert (P : Permutation (totals (sort_rows d)) (totals d)) by (apply Permutation_map, sorted_perm).
  split.
  - intros [[]|(n & E & H)]. exists n; split; [exact E|]. eapply Permutation_in; eauto.
  - intros (n & E & H). right. exists n; split; [exact E|]. eapply Permutation_in; [symmetry|]; eauto.
Qed.

(** Every value of the dictionary reappears exactly once. *)
Lemma flat_map_group : forall V (rows : edict V) ks,
  NoDup ks -> (forall kr, In kr rows -> In (dk_total (fst kr)) ks) ->
  Permutation (flat_map (flat_rows rows) ks) (flat_map (fun kr => row_values (snd kr)) rows).
Proof.
  intros V rows ks ND H. unfold flat_rows. rewrite flat_map_swap. apply flat_map_perm_fun.
  intros kr Hk. specialize (H kr Hk). clear Hk. induction ND as [|k ks Hk ND IH]; simpl; [destruct H|].
  destruct (Nat.eqb_spec (dk_total (fst kr)) k) as [E|E].
  - subst k. assert (Z : flat_map (fun b => if dk_total (fst kr) =? b then row_values (snd kr) else []) ks = []).
    { transitivity (flat_map (fun _ : nat => @nil V) ks); [|apply flat_map_nil_fun].
      apply flat_map_ext_in. intros x Hx.
      destruct (Nat.eqb_spec (dk_total (fst kr)) x); [congruence | reflexivity]. }
    rewrite Z, app_nil_r. reflexivity.
  - destruct H as [H|H]; [congruence|]. apply IH; exact H.
Qed.

Lemma row_values_perm : forall V (row : list (nat * V)), Permutation (row_values row) (map snd row).
Proof. intros; unfold row_values; apply Permutation_map, sorted_perm. Qed.

(* ------------------------------------------------------------------ *)
(** ** Number of entities of a total dimension *)

Definition tcount (t : list (dimkey * nat)) (k : nat) : nat :=
  sum (map (fun kn => if Nat.eqb (dk_total (fst kn)) k then snd kn else 0) t).

Lemma sum_perm : forall l l', Permutation l l' -> sum l = sum l'.
Proof. induction 1; simpl; lia. Qed.

Lemma tcount_perm : forall t t' k, Permutation t t' -> tcount t k = tcount t' k.
Proof. intros; unfold tcount; apply sum_perm, Permutation_map; assumption. Qed.

Lemma length_flat_rows_dict : forall t k,
  length (flat_rows (topology_dict t) k) = tcount t k.
Proof.
  induction t as [|[d n] t IH]; intros k; simpl; [reflexivity|].
  change (length (flat_rows (topology_dict ((d, n) :: t)) k) = tcount ((d, n) :: t) k).
  unfold tcount, flat_rows in *; simpl. rewrite app_length, IH.
  destruct (dk_total d =? k); [|reflexivity].
  unfold row_values. rewrite map_length.
  rewrite (Permutation_length (sorted_perm _ _)), map_length, seq_length. reflexivity.
Qed.

Lemma flat_rows_perm_length : forall V (d d' : edict V) k,
  Permutation d d' -> length (flat_rows d k) = length (flat_rows d' k).
Proof. intros; apply Permutation_length, flat_map_perm; assumption. Qed.

Lemma flatten_topology_get : forall t k,
  dict_get dimkey_eqb (flatten_topology t) (DI k)
  = if existsb (Nat.eqb k) (totals t) then Ok (tcount t k) else Err KeyError.
Proof.
  intros t k. unfold flatten_topology.
  rewrite (dict_get_map dimkey_eqb), flatten_get.
  replace (totals (topology_dict t)) with (totals t)
    by (unfold totals, topology_dict; rewrite map_map; reflexivity).
  destruct (existsb (Nat.eqb k) (totals t)); [|reflexivity].
  rewrite <- (map_length fst), map_fst_enumerate, seq_length.
  rewrite (flat_rows_perm_length _ _ (topology_dict t)) by apply sorted_perm.
  rewrite length_flat_rows_dict. reflexivity.
Qed.

Lemma flatten_topology_keys : forall t,
  NoDup (map fst (flatten_topology t)) /\
  forall k, In k (map fst (flatten_topology t)) <-> exists n, k = DI n /\ In n (totals t).
Proof.
  intros t. unfold flatten_topology. rewrite map_map; simpl.
  destruct (flatten_keys _ (topology_dict t)) as [N I]. split; [exact N|].
  intros k; rewrite I. unfold totals, topology_dict. rewrite map_map. reflexivity.
Qed.

Lemma topology_NoDup : forall c, NoDup (map fst (topology c)).
Proof.
  induction c as [d|cs IH|d] using cell_ind'.
  - change (NoDup (map fst (simplex_topology d))).
    assert (E : map fst (simplex_topology d) = map DI (seq 0 (S d)))
      by (unfold simplex_topology; rewrite map_map; reflexivity).
    rewrite E. apply FinFun.Injective_map_NoDup; [intros a b; congruence | apply seq_NoDup].
  - simpl topology. rewrite map_fst_product_topology.
    apply FinFun.Injective_map_NoDup; [intros a b E; congruence|].
    apply cart_NoDup. rewrite map_map. induction IH; simpl; constructor; auto.
  - simpl topology. apply flatten_topology_keys.
Qed.

(** Convolution: the entity counts of a product. *)
Lemma tcount_product_cons : forall t ts k,
  tcount (product_topology (t :: ts)) k
  = sum (map (fun i => tcount t i * tcount (product_topology ts) (k - i)) (seq 0 (S k))).
Proof.
  intros t ts k. unfold product_topology at 1; cbn [cart].
  induction t as [|[d n] t IH].
  - cbn [flat_map map]. induction (seq 0 (S k)) as [|i l IHl]; [reflexivity|]. exact IHl.
  - simpl flat_map. rewrite map_app. unfold tcount at 1. rewrite map_app, sum_app.
    fold (tcount (map (fun kns => (DT (map fst kns), prod (map snd kns)))
       (flat_map (fun x => map (cons x) (cart ts)) t)) k). rewrite IH. clear IH.
    rewrite !map_map. simpl fst; simpl snd.
    transitivity (sum (map (fun i => (if Nat.eqb (dk_total d) i then n else 0) * tcount (product_topology ts) (k - i)) (seq 0 (S k)))
      + sum (map (fun i => tcount t i * tcount (product_topology ts) (k - i)) (seq 0 (S k)))).
    2:{ induction (seq 0 (S k)) as [|i l IHl]; cbn [map sum]; [reflexivity|].
        change (tcount ((d, n) :: t) i) with ((if dk_total d =? i then n else 0) + tcount t i).
        rewrite Nat.mul_add_distr_r. lia. }
    f_equal.
    assert (S1 : forall l, NoDup l ->
      sum (map (fun i => (if Nat.eqb (dk_total d) i then n else 0) * tcount (product_topology ts) (k - i)) l)
      = if existsb (Nat.eqb (dk_total d)) l then n * tcount (product_topology ts) (k - dk_total d) else 0).
    { induction 1 as [|i l Hi Hl IHl]; simpl; [reflexivity|]. rewrite IHl.
      destruct (Nat.eqb_spec (dk_total d) i) as [<-|E]; simpl; [|reflexivity].
      destruct (existsb (Nat.eqb (dk_total d)) l) eqn:X; [|lia].
      apply existsb_eqb in X; contradiction. }
    rewrite S1 by apply seq_NoDup.
    destruct (existsb (Nat.eqb (dk_total d)) (seq 0 (S k))) eqn:X.
    + apply existsb_eqb, in_seq in X. unfold tcount, product_topology. rewrite map_map.
      simpl fst; simpl snd.
      induction (cart ts) as [|u us IHu]; cbn [map sum]; [simpl; lia|].
      rewrite IHu. cbn [map fst snd prod]. rewrite !dk_total_DT. cbn [map sum].
      destruct (Nat.eqb_spec (dk_total d + sum (map dk_total (map fst u))) k);
      destruct (Nat.eqb_spec (sum (map dk_total (map fst u))) (k - dk_total d)); lia.
    + assert (X' : k < dk_total d).
      { destruct (le_lt_dec (dk_total d) k); [|assumption].
        assert (existsb (Nat.eqb (dk_total d)) (seq 0 (S k)) = true) by (apply existsb_eqb, in_seq; lia).
        congruence. }
      induction (cart ts) as [|u us IHu]; cbn [map sum]; [simpl; lia|].
      rewrite IHu. cbn [map fst snd prod]. rewrite !dk_total_DT. cbn [map sum].
      destruct (Nat.eqb_spec (dk_total d + sum (map dk_total (map fst u))) k); lia.
Qed.

(* ------------------------------------------------------------------ *)
(** ** Cubes *)

Definition conv (f g : nat -> nat) (k : nat) : nat :=
  sum (map (fun i => f i * g (k - i)) (seq 0 (S k))).
Definition f_int (k : nat) : nat := match k with 0 => 2 | 1 => 1 | _ => 0 end.
Definition f_one (k : nat) : nat := match k with 0 => 1 | _ => 0 end.
Fixpoint f_cube (m : nat) : nat -> nat :=
  match m with 0 => f_one | S m' => conv f_int (f_cube m') end.
Definition shift (g : nat -> nat) (k : nat) : nat := match k with 0 => 0 | S k' => g k' end.

Lemma sum_map_ext : forall A (f g : A -> nat) l, (forall x, In x l -> f x = g x) ->
  sum (map f l) = sum (map g l).
Proof. intros A f g l H. f_equal. apply map_ext_in; exact H. Qed.

Lemma sum_map_zero : forall A (f : A -> nat) l, (forall x, In x l -> f x = 0) -> sum (map f l) = 0.
Proof.
  induction l as [|x l IH]; intros H; simpl; [reflexivity|].
  rewrite H, IH by (intros; try apply H; simpl; auto). reflexivity.
Qed.

Lemma sum_map_add : forall A (f g : A -> nat) l,
  sum (map (fun x => f x + g x) l) = sum (map f l) + sum (map g l).
Proof. induction l as [|x l IH]; simpl; [reflexivity|]. rewrite IH; lia. Qed.

Lemma sum_map_mul : forall A (f : A -> nat) c l,
  sum (map (fun x => c * f x) l) = c * sum (map f l).
Proof. induction l as [|x l IH]; simpl; [lia|]. rewrite IH; lia. Qed.

Lemma conv_ext : forall f f' g g' k, (forall i, f i = f' i) -> (forall i, g i = g' i) ->
  conv f g k = conv f' g' k.
Proof. intros; unfold conv; apply sum_map_ext; intros; congruence. Qed.

Lemma conv_int : forall g k, conv f_int g k = 2 * g k + shift g k.
Proof.
  intros g [|k]; unfold conv.
  - simpl; lia.
  - change (seq 0 (S (S k))) with (0 :: 1 :: seq 2 k). cbn [map sum f_int shift].
    rewrite sum_map_zero.
    + replace (S k - 0) with (S k) by lia. replace (S k - 1) with k by lia. lia.
    + intros i Hi. apply in_seq in Hi. destruct i as [|[|i]]; [lia|lia|reflexivity].
Qed.

Lemma conv_one : forall g k, conv f_one g k = g k.
Proof.
  intros g k; unfold conv. change (seq 0 (S k)) with (0 :: seq 1 k). cbn [map sum f_one].
  rewrite sum_map_zero; [rewrite Nat.sub_0_r; lia|].
  intros i Hi. apply in_seq in Hi. destruct i; [lia|reflexivity].
Qed.

Lemma conv_shift : forall f g k, conv (shift f) g k = shift (conv f g) k.
Proof.
  intros f g [|k]; unfold conv; [reflexivity|].
  change (seq 0 (S (S k))) with (0 :: seq 1 (S k)). cbn [map sum shift].
  rewrite map_seq_shift. simpl shift. reflexivity.
Qed.

Lemma conv_cube : forall a b k, conv (f_cube a) (f_cube b) k = f_cube (a + b) k.
Proof.
  induction a as [|a IH]; intros b k; [apply conv_one|]. cbn [f_cube Nat.add].
  rewrite conv_int.
  transitivity (conv (fun i => 2 * f_cube a i + shift (f_cube a) i) (f_cube b) k).
  { apply conv_ext; [intros; apply conv_int | reflexivity]. }
  transitivity (2 * conv (f_cube a) (f_cube b) k + conv (shift (f_cube a)) (f_cube b) k).
  { unfold conv. rewrite <- sum_map_mul, <- sum_map_add. apply sum_map_ext; intros; ring. }
  rewrite conv_shift, IH. f_equal. destruct k; [reflexivity|]. simpl. apply IH.
Qed.

Lemma tcount_product : forall ts ms,
  Forall2 (fun t m => forall k, tcount t k = f_cube m k) ts ms ->
  forall k, tcount (product_topology ts) k = f_cube (sum ms) k.
Proof.
  induction 1 as [|t m ts ms Ht H IH]; intros k.
  - destruct k; reflexivity.
  - rewrite tcount_product_cons. cbn [sum]. rewrite <- conv_cube. apply conv_ext; assumption.
Qed.

Lemma tcount_DI : forall t, NoDup (map fst t) -> (forall kk, In kk (map fst t) -> exists n, kk = DI n) ->
  forall k, tcount t k = match dict_get dimkey_eqb t (DI k) with Ok n => n | Err _ => 0 end.
Proof.
  induction t as [|[d n] t IH]; intros ND H k; [reflexivity|]. inversion ND as [|? ? Hn ND']; subst.
  change (tcount ((d, n) :: t) k) with ((if dk_total d =? k then n else 0) + tcount t k).
  rewrite IH; [|exact ND' | intros; apply H; right; assumption].
  destruct (H d) as [m ->]; [left; reflexivity|]. simpl. rewrite (Nat.eqb_sym k m).
  destruct (Nat.eqb_spec m k) as [->|E]; [|reflexivity].
  rewrite (dict_get_none _ dimkey_eqb_spec) by exact Hn. lia.
Qed.

Lemma tcount_zero : forall t k, ~ In k (totals t) -> tcount t k = 0.
Proof.
  intros t k H. apply sum_map_zero. intros [d n] Hd. simpl.
  destruct (Nat.eqb_spec (dk_total d) k) as [<-|E]; [|reflexivity].
  exfalso; apply H. apply in_map_iff. exists (d, n); auto.
Qed.

Lemma tcount_flatten : forall t k, tcount (flatten_topology t) k = tcount t k.
Proof.
  intros t k. destruct (flatten_topology_keys t) as [N I].
  rewrite tcount_DI; [|exact N | intros kk H; apply I in H as (n & E & _); eauto].
  rewrite flatten_topology_get. destruct (existsb (Nat.eqb k) (totals t)) eqn:E; [reflexivity|].
  symmetry; apply tcount_zero. intros H; apply existsb_eqb in H; congruence.
Qed.

Lemma totals_flatten : forall t n, In n (totals (flatten_topology t)) <-> In n (totals t).
Proof.
  intros t n. destruct (flatten_topology_keys t) as [_ I]. unfold totals at 1. split; intros H.
  - apply in_map_iff in H as ([k c] & <- & H). simpl.
    assert (Hk : In k (map fst (flatten_topology t))) by (apply in_map_iff; exists (k, c); auto).
    apply I in Hk as (m & -> & Hm). exact Hm.
  - assert (Hk : In (DI n) (map fst (flatten_topology t))) by (apply I; eauto).
    apply in_map_iff in Hk as ([k c] & E & H'). simpl in E; subst k.
    apply in_map_iff. exists (DI n, c); auto.
Qed.

Lemma totals_product : forall ts n,
  In n (totals (product_topology ts))
  <-> exists ns, Forall2 (fun m t => In m (totals t)) ns ts /\ sum ns = n.
Proof.
  intros ts n. unfold totals at 1, product_topology. rewrite map_map.
  rewrite in_map_iff. split.
  - intros (kns & <- & H). apply in_cart in H. cbn [fst]. rewrite dk_total_DT.
    exists (map dk_total (map fst kns)). split; [|reflexivity].
    rewrite map_map, Forall2_map_l. eapply Forall2_impl_in; [|exact H].
    intros x y _ _ Hx. apply in_map_iff. exists x; auto.
  - intros (ns & H & <-).
    assert (E : exists kns, map (fun x => dk_total (fst x)) kns = ns /\ Forall2 (@In _) kns ts).
    { clear - H. induction H as [|m t ns ts Hm H IH]; [exists []; split; [reflexivity | constructor]|].
      destruct IH as (kns & <- & F). apply in_map_iff in Hm as (x & <- & Hx).
      exists (x :: kns); split; [reflexivity | constructor; assumption]. }
    destruct E as (kns & <- & F). exists kns. split; [|apply in_cart; exact F].
    cbn [fst]. rewrite dk_total_DT, map_map. reflexivity.
Qed.

Lemma le_sum_split : forall ms n, n <= sum ms <-> exists ns, Forall2 le ns ms /\ sum ns = n.
Proof.
  induction ms as [|m ms IH]; intros n; simpl; split.
  - intros H; exists []; split; [constructor | simpl; lia].
  - intros (ns & H & <-); inversion H; simpl; lia.
  - intros H. destruct (proj1 (IH (n - m))) as (ns & F & E); [lia|].
    exists (Nat.min n m :: ns). split; [constructor; [lia | exact F] | simpl; lia].
  - intros (ns & H & <-). inversion H as [|a b ? ? Hab H']; subst. simpl.
    assert (sum l <= sum ms) by (apply IH; eauto). lia.
Qed.
