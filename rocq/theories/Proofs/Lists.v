(** Lemmas on lists, products, multi-indices. *)
From Coq Require Import List Arith Lia Bool Permutation Sorted.
From Verif Require Import Model.Prelude Spec.Rowmajor.
Import ListNotations.

(* ------------------------------------------------------------------ *)
(** ** The result monad *)

Lemma bind_ok : forall A B (r : result A) (f : A -> result B) b,
  bind r f = Ok b <-> exists a, r = Ok a /\ f a = Ok b.
Proof.
  intros A B r f b; split.
  - destruct r as [a|e]; simpl; intros H; [eauto | discriminate].
  - intros (a & -> & H); exact H.
Qed.

Lemma guard_ok : forall c e, guard c e = Ok tt <-> c = true.
Proof. intros [] e; simpl; split; congruence. Qed.

Lemma mapM_ok : forall A B (f : A -> result B) l r,
  mapM f l = Ok r <-> Forall2 (fun x y => f x = Ok y) l r.
Proof.
  intros A B f l; induction l as [|x l IH]; intros r; simpl.
  - split; intros H; [injection H as <-; constructor | inversion H; reflexivity].
  - rewrite bind_ok; split.
    + intros (y & Hy & H). apply bind_ok in H. destruct H as (ys & Hys & H).
      injection H as <-. constructor; [exact Hy | apply IH; exact Hys].
    + intros H; inversion H as [|? y ? ys Hy Hys]; subst.
      exists y; split; [exact Hy|]. apply IH in Hys. rewrite Hys. reflexivity.
Qed.

Lemma mapM_ext_in : forall A B (f g : A -> result B) l,
  (forall x, In x l -> f x = g x) -> mapM f l = mapM g l.
Proof.
  intros A B f g l; induction l as [|x l IH]; intros H; simpl; [reflexivity|].
  rewrite (H x) by (left; reflexivity). destruct (g x); simpl; [|reflexivity].
  rewrite IH by (intros; apply H; right; assumption). reflexivity.
Qed.

Lemma mapM_all_ok : forall A B (f : A -> result B) (g : A -> B) l,
  (forall x, In x l -> f x = Ok (g x)) -> mapM f l = Ok (map g l).
Proof.
  intros A B f g l; induction l as [|x l IH]; intros H; simpl; [reflexivity|].
  rewrite (H x) by (left; reflexivity); simpl.
  rewrite IH by (intros; apply H; right; assumption). reflexivity.
Qed.

Lemma Forall2_length : forall A B (P : A -> B -> Prop) l r, Forall2 P l r -> length l = length r.
Proof. induction 1; simpl; congruence. Qed.

Lemma mapM_length : forall A B (f : A -> result B) l r,
  mapM f l = Ok r -> length r = length l.
Proof.
  intros A B f l r H. apply mapM_ok in H. symmetry. eapply Forall2_length; eauto.
Qed.

Lemma mapM_map : forall A B C (g : A -> B) (f : B -> result C) l,
  mapM f (map g l) = mapM (fun x => f (g x)) l.
Proof.
  intros A B C g f l; induction l as [|x l IH]; simpl; [reflexivity|].
  rewrite IH; reflexivity.
Qed.

Lemma mapM_app : forall A B (f : A -> result B) l1 l2 r1 r2,
  mapM f l1 = Ok r1 -> mapM f l2 = Ok r2 -> mapM f (l1 ++ l2) = Ok (r1 ++ r2).
Proof.
  intros A B f l1 l2 r1 r2 H1 H2. apply mapM_ok. apply Forall2_app; apply mapM_ok; assumption.
Qed.

(* ------------------------------------------------------------------ *)
(** ** prod and sum *)

Lemma prod_app : forall a b, prod (a ++ b) = prod a * prod b.
Proof. induction a as [|x a IH]; intros b; simpl; [lia|]. rewrite IH; lia. Qed.

Lemma sum_app : forall a b, sum (a ++ b) = sum a + sum b.
Proof. induction a as [|x a IH]; intros b; simpl; [lia|]. rewrite IH; lia. Qed.

Lemma prod_pos : forall s, Forall (fun d => 0 < d) s -> 0 < prod s.
Proof. induction 1; simpl; nia. Qed.

Lemma prod_concat : forall ss, prod (concat ss) = prod (map prod ss).
Proof. induction ss as [|s ss IH]; simpl; [reflexivity|]. rewrite prod_app, IH; reflexivity. Qed.

(* ------------------------------------------------------------------ *)
(** ** flat_map, concat, Permutation *)

Lemma flat_map_app_l : forall A B (f : A -> list B) l1 l2,
  flat_map f (l1 ++ l2) = flat_map f l1 ++ flat_map f l2.
Proof. intros; apply flat_map_app. Qed.

Lemma flat_map_map : forall A B C (g : A -> B) (f : B -> list C) l,
  flat_map f (map g l) = flat_map (fun x => f (g x)) l.
Proof. induction l as [|x l IH]; simpl; [reflexivity|]. rewrite IH; reflexivity. Qed.

Lemma map_flat_map : forall A B C (g : B -> C) (f : A -> list B) l,
  map g (flat_map f l) = flat_map (fun x => map g (f x)) l.
Proof. induction l as [|x l IH]; simpl; [reflexivity|]. rewrite map_app, IH; reflexivity. Qed.

Lemma flat_map_flat_map : forall A B C (g : B -> list C) (f : A -> list B) l,
  flat_map g (flat_map f l) = flat_map (fun x => flat_map g (f x)) l.
Proof. induction l as [|x l IH]; simpl; [reflexivity|]. rewrite flat_map_app, IH; reflexivity. Qed.

Lemma flat_map_ext_in : forall A B (f g : A -> list B) l,
  (forall x, In x l -> f x = g x) -> flat_map f l = flat_map g l.
Proof.
  induction l as [|x l IH]; intros H; simpl; [reflexivity|].
  rewrite (H x) by (left; reflexivity).
  rewrite IH by (intros; apply H; right; assumption). reflexivity.
Qed.

Lemma flat_map_perm_fun : forall A B (f g : A -> list B) l,
  (forall x, In x l -> Permutation (f x) (g x)) ->
  Permutation (flat_map f l) (flat_map g l).
Proof.
  induction l as [|x l IH]; intros H; simpl; [constructor|].
  apply Permutation_app; [apply H; left; reflexivity|].
  apply IH; intros; apply H; right; assumption.
Qed.

Lemma flat_map_perm : forall A B (f : A -> list B) l l',
  Permutation l l' -> Permutation (flat_map f l) (flat_map f l').
Proof.
  intros A B f l l' H; induction H; simpl.
  - constructor.
  - apply Permutation_app_head; assumption.
  - rewrite !app_assoc. apply Permutation_app_tail. apply Permutation_app_comm.
  - eapply Permutation_trans; eassumption.
Qed.

Lemma flat_map_app_fun : forall A B (f g : A -> list B) l,
  Permutation (flat_map (fun x => f x ++ g x) l) (flat_map f l ++ flat_map g l).
Proof.
  induction l as [|x l IH]; simpl; [constructor|].
  rewrite <- !app_assoc. apply Permutation_app_head.
  rewrite IH. rewrite !app_assoc. apply Permutation_app_tail. apply Permutation_app_comm.
Qed.

Lemma flat_map_nil_fun : forall A B (l : list A), flat_map (fun _ => @nil B) l = [].
Proof. induction l as [|x l IH]; simpl; auto. Qed.

(** Exchange of two nested loops. *)
Lemma flat_map_swap : forall A B C (f : A -> B -> list C) la lb,
  Permutation (flat_map (fun a => flat_map (fun b => f a b) lb) la)
              (flat_map (fun b => flat_map (fun a => f a b) la) lb).
Proof.
  induction la as [|a la IH]; intros lb; simpl.
  - rewrite flat_map_nil_fun; constructor.
  - rewrite IH. symmetry. apply flat_map_app_fun.
Qed.

Lemma concat_perm : forall A (l l' : list (list A)),
  Permutation l l' -> Permutation (concat l) (concat l').
Proof.
  intros A l l' H. induction H; simpl.
  - constructor.
  - apply Permutation_app_head; assumption.
  - rewrite !app_assoc. apply Permutation_app_tail. apply Permutation_app_comm.
  - eapply Permutation_trans; eassumption.
Qed.

Lemma Forall2_map_l : forall A B C (g : A -> B) (P : B -> C -> Prop) l r,
  Forall2 P (map g l) r <-> Forall2 (fun x y => P (g x) y) l r.
Proof.
  intros A B C g P l; induction l as [|x l IH]; intros r; simpl; split; intros H;
    inversion H; subst; constructor; auto; apply IH; auto.
Qed.

Lemma Forall2_map_r : forall A B C (g : C -> B) (P : A -> B -> Prop) l r,
  Forall2 P l (map g r) <-> Forall2 (fun x y => P x (g y)) l r.
Proof.
  intros A B C g P l; induction l as [|x l IH]; intros [|y r]; simpl; split; intros H;
    inversion H; subst; constructor; auto; apply IH; auto.
Qed.

Lemma Forall2_impl_in : forall A B (P Q : A -> B -> Prop) l r,
  (forall x y, In x l -> In y r -> P x y -> Q x y) -> Forall2 P l r -> Forall2 Q l r.
Proof.
  intros A B P Q l r H F; induction F as [|x y l r Hxy F IH]; constructor.
  - apply H; [left|left|]; auto.
  - apply IH; intros; apply H; [right|right|]; auto.
Qed.

Lemma Forall2_nth : forall A B (P : A -> B -> Prop) l r k da db,
  Forall2 P l r -> k < length l -> P (nth k l da) (nth k r db).
Proof.
  intros A B P l r k da db F; revert k; induction F as [|x y l r Hxy F IH];
    intros [|k] Hk; simpl in *; try lia; auto. apply IH; lia.
Qed.

Lemma Forall2_eq : forall A (l r : list A), Forall2 eq l r -> l = r.
Proof. induction 1; congruence. Qed.

Lemma Forall2_flip : forall A B (P : A -> B -> Prop) l r,
  Forall2 P l r -> Forall2 (fun y x => P x y) r l.
Proof. induction 1; constructor; auto. Qed.

(* ------------------------------------------------------------------ *)
(** ** Cartesian products *)

Lemma cart_length : forall A (ls : list (list A)),
  length (cart ls) = prod (map (@length A) ls).
Proof.
  induction ls as [|l ls IH]; simpl; [reflexivity|].
  rewrite <- IH. clear IH. induction l as [|x l IHl]; simpl; [reflexivity|].
  rewrite app_length, map_length, IHl. reflexivity.
Qed.

Lemma in_cart : forall A (ls : list (list A)) t,
  In t (cart ls) <-> Forall2 (fun x l => In x l) t ls.
Proof.
  induction ls as [|l ls IH]; intros t; simpl.
  - split; [intros [<-|[]]; constructor | intros H; inversion H; auto].
  - rewrite in_flat_map; split.
    + intros (x & Hx & Ht). apply in_map_iff in Ht. destruct Ht as (t' & <- & Ht').
      constructor; [exact Hx | apply IH; exact Ht'].
    + intros H; inversion H as [|x ? t' ? Hx Ht']; subst. exists x; split; [exact Hx|].
      apply in_map. apply IH; exact Ht'.
Qed.

Lemma cart_map : forall A B (g : A -> B) (ls : list (list A)),
  cart (map (map g) ls) = map (map g) (cart ls).
Proof.
  induction ls as [|l ls IH]; simpl; [reflexivity|].
  rewrite IH, flat_map_map, map_flat_map.
  apply flat_map_ext; intros x. rewrite !map_map. reflexivity.
Qed.

Lemma flat_map_cons_perm : forall A (l l' : list A) (c c' : list (list A)),
  Permutation l l' -> Permutation c c' ->
  Permutation (flat_map (fun x => map (cons x) c) l) (flat_map (fun x => map (cons x) c') l').
Proof.
  intros A l l' c c' Hl Hc.
  eapply Permutation_trans; [apply flat_map_perm; exact Hl|].
  apply flat_map_perm_fun; intros x _. apply Permutation_map; exact Hc.
Qed.

Lemma cart_perm : forall A (ls ls' : list (list A)),
  Forall2 (@Permutation A) ls ls' -> Permutation (cart ls) (cart ls').
Proof.
  induction 1 as [|l l' ls ls' Hl H IH]; simpl; [constructor; constructor|].
  apply flat_map_cons_perm; assumption.
Qed.

(** Products distribute over concatenation: choosing a list from each factor
    and then members of the chosen lists enumerates (up to order) the product
    of the concatenations. *)
Lemma cart_concat : forall A (lls : list (list (list A))),
  Permutation (flat_map cart (cart lls)) (cart (map (@concat A) lls)).
Proof.
  induction lls as [|ll lls IH]; simpl; [constructor; constructor|].
  rewrite flat_map_flat_map.
  induction ll as [|l ll IHll]; simpl; [constructor|].
  rewrite flat_map_app.
  apply Permutation_app; [|exact IHll].
  rewrite flat_map_map. simpl. clear IHll.
  rewrite flat_map_swap. apply flat_map_perm_fun; intros x _.
  rewrite <- map_flat_map. apply Permutation_map. exact IH.
Qed.

(** The same with a function from keys to lists. *)
Lemma cart_flat_map : forall A B (fs : list (list B * (B -> list A))),
  Permutation
    (flat_map (fun ks => cart (map2 (fun f k => snd f k) fs ks)) (cart (map fst fs)))
    (cart (map (fun f => flat_map (snd f) (fst f)) fs)).
Proof.
  induction fs as [|[ks f] fs IH]; simpl; [constructor; constructor|].
  rewrite flat_map_flat_map. simpl.
  induction ks as [|k ks IHks]; simpl; [constructor|].
  rewrite flat_map_app. apply Permutation_app; [|exact IHks].
  rewrite flat_map_map. simpl. clear IHks.
  rewrite flat_map_swap. apply flat_map_perm_fun; intros x _.
  rewrite <- map_flat_map. apply Permutation_map. exact IH.
Qed.

(* ------------------------------------------------------------------ *)
(** ** Row-major numbers *)

Fixpoint ravel (shape idx : list nat) : nat :=
  match shape, idx with
  | d :: s, i :: r => i * prod s + ravel s r
  | _, _ => 0
  end.

Lemma ravel_strides_ok : forall shape idx,
  in_shape shape idx -> ravel_strides shape idx = Ok (ravel shape idx).
Proof.
  induction 1 as [|d i s r Hi H IH]; simpl; [reflexivity|].
  apply Nat.ltb_lt in Hi; rewrite Hi, IH; reflexivity.
Qed.

Lemma ravel_strides_inv : forall shape idx n,
  ravel_strides shape idx = Ok n -> in_shape shape idx /\ n = ravel shape idx.
Proof.
  induction shape as [|d s IH]; intros [|i r] n H; simpl in H; try discriminate.
  - injection H as <-; split; [constructor | reflexivity].
  - destruct (i <? d) eqn:E; [|discriminate]. apply Nat.ltb_lt in E.
    apply bind_ok in H. destruct H as (m & Hm & H). injection H as <-.
    apply IH in Hm. destruct Hm as [Hs ->]. split; [constructor; assumption | reflexivity].
Qed.

Lemma rowmajor_acc : forall shape idx acc,
  length shape = length idx ->
  fold_left (fun acc di => acc * fst di + snd di) (combine shape idx) acc
  = acc * prod shape + ravel shape idx.
Proof.
  induction shape as [|d s IH]; intros [|i r] acc H; simpl in *; try lia.
  rewrite IH by lia. nia.
Qed.

Lemma rowmajor_ravel : forall shape idx,
  length shape = length idx -> rowmajor shape idx = ravel shape idx.
Proof. intros; unfold rowmajor; rewrite rowmajor_acc by assumption; lia. Qed.

Lemma in_shape_length : forall shape idx, in_shape shape idx -> length shape = length idx.
Proof. intros; eapply Forall2_length; eauto. Qed.

Lemma ravel_lt : forall shape idx, in_shape shape idx -> ravel shape idx < prod shape.
Proof. induction 1 as [|d i s r Hi H IH]; simpl; nia. Qed.

Lemma unravel_length : forall shape n, length (unravel_digits shape n) = length shape.
Proof. induction shape as [|d s IH]; intros n; simpl; auto. Qed.

Lemma unravel_in_shape : forall shape n, n < prod shape -> in_shape shape (unravel_digits shape n).
Proof.
  induction shape as [|d s IH]; intros n H; simpl in *; constructor.
  - apply Nat.div_lt_upper_bound; nia.
  - apply IH. apply Nat.mod_upper_bound. nia.
Qed.

Lemma ravel_unravel : forall shape n, n < prod shape -> ravel shape (unravel_digits shape n) = n.
Proof.
  induction shape as [|d s IH]; intros n H; simpl in *; [lia|].
  assert (prod s <> 0) by nia.
  rewrite IH by (apply Nat.mod_upper_bound; assumption).
  pose proof (Nat.div_mod n (prod s)). lia.
Qed.

Lemma unravel_ravel : forall shape idx, in_shape shape idx -> unravel_digits shape (ravel shape idx) = idx.
Proof.
  induction 1 as [|d i s r Hi H IH]; simpl; [reflexivity|].
  pose proof (ravel_lt s r H). f_equal.
  - rewrite Nat.div_add_l by lia. rewrite (Nat.div_small (ravel s r)) by lia. lia.
  - rewrite Nat.add_comm, Nat.mod_add by lia. rewrite Nat.mod_small by lia. exact IH.
Qed.

Lemma ravel_inj : forall shape i j,
  in_shape shape i -> in_shape shape j -> ravel shape i = ravel shape j -> i = j.
Proof.
  intros shape i j Hi Hj E. rewrite <- (unravel_ravel shape i), <- (unravel_ravel shape j) by assumption.
  congruence.
Qed.

Lemma ravel_app : forall s1 i1 s2 i2,
  length s1 = length i1 ->
  ravel (s1 ++ s2) (i1 ++ i2) = ravel s1 i1 * prod s2 + ravel s2 i2.
Proof.
  induction s1 as [|d s1 IH]; intros [|i i1] s2 i2 H; simpl in *; try lia.
  rewrite IH by lia. rewrite prod_app. nia.
Qed.

Lemma in_shape_app : forall s1 i1 s2 i2,
  in_shape s1 i1 -> in_shape s2 i2 -> in_shape (s1 ++ s2) (i1 ++ i2).
Proof. intros; apply Forall2_app; assumption. Qed.

Lemma in_shape_app_inv : forall s1 s2 i,
  in_shape (s1 ++ s2) i -> exists i1 i2, i = i1 ++ i2 /\ in_shape s1 i1 /\ in_shape s2 i2.
Proof.
  intros s1 s2 i H. apply Forall2_app_inv_l in H. destruct H as (i1 & i2 & H1 & H2 & ->).
  exists i1, i2; auto.
Qed.

Lemma map_seq_shift : forall A (f : nat -> A) a n,
  map f (seq a n) = map (fun k => f (a + k)) (seq 0 n).
Proof.
  intros A f a n. revert a f; induction n as [|n IH]; intros a f; simpl; [reflexivity|].
  rewrite Nat.add_0_r. f_equal. rewrite IH, (IH 1).
  apply map_ext; intros k. f_equal; lia.
Qed.

Lemma flat_map_seq_blocks_gen : forall A d m (g : nat -> nat -> A),
  flat_map (fun i => map (g i) (seq 0 m)) (seq 0 d)
  = map (fun n => g (n / m) (n mod m)) (seq 0 (d * m)).
Proof.
  intros A; induction d as [|d IH]; intros m g; [reflexivity|].
  rewrite seq_S, flat_map_app, IH. simpl. rewrite app_nil_r.
  rewrite Nat.add_comm, seq_app, map_app. f_equal.
  rewrite (map_seq_shift _ _ (0 + d * m)). apply map_ext_in. intros k Hk.
  apply in_seq in Hk. assert (m <> 0) by lia.
  rewrite Nat.add_0_l, Nat.div_add_l by assumption.
  rewrite (Nat.div_small k) by lia.
  rewrite (Nat.add_comm (d * m) k), Nat.mod_add by assumption.
  rewrite Nat.mod_small by lia. f_equal; lia.
Qed.

(** The product of ranges is listed in row-major order. *)
Lemma cart_seq : forall shape,
  cart (map (seq 0) shape) = map (unravel_digits shape) (seq 0 (prod shape)).
Proof.
  induction shape as [|d s IH]; simpl; [reflexivity|].
  rewrite IH.
  erewrite flat_map_ext by (intros a; rewrite map_map; reflexivity).
  rewrite (flat_map_seq_blocks_gen _ d (prod s) (fun i n => i :: unravel_digits s n)).
  reflexivity.
Qed.

Lemma map_ravel_cart_seq : forall shape,
  map (ravel shape) (cart (map (seq 0) shape)) = seq 0 (prod shape).
Proof.
  intros shape. rewrite cart_seq, map_map.
  rewrite <- (map_id (seq 0 (prod shape))) at 2. apply map_ext_in. intros n Hn.
  apply in_seq in Hn. apply ravel_unravel. lia.
Qed.

Lemma in_cart_seq : forall shape idx, In idx (cart (map (seq 0) shape)) <-> in_shape shape idx.
Proof.
  intros shape idx. rewrite in_cart, Forall2_map_r. split; intros H.
  - apply Forall2_flip. eapply Forall2_impl_in; [|exact H]. simpl; intros x y _ _ Hx.
    apply in_seq in Hx; lia.
  - apply Forall2_flip in H. eapply Forall2_impl_in; [|exact H]. simpl; intros x y _ _ Hx.
    apply in_seq; lia.
Qed.

(* ------------------------------------------------------------------ *)
(** ** enumerate, zip *)

Lemma map_fst_enumerate_from : forall A (l : list A) k,
  map fst (enumerate_from k l) = seq k (length l).
Proof. induction l as [|x l IH]; intros k; simpl; [reflexivity|]. rewrite IH; reflexivity. Qed.

Lemma map_snd_enumerate_from : forall A (l : list A) k,
  map snd (enumerate_from k l) = l.
Proof. induction l as [|x l IH]; intros k; simpl; [reflexivity|]. rewrite IH; reflexivity. Qed.

Lemma map_fst_enumerate : forall A (l : list A), map fst (enumerate l) = seq 0 (length l).
Proof. intros; apply map_fst_enumerate_from. Qed.

Lemma map_snd_enumerate : forall A (l : list A), map snd (enumerate l) = l.
Proof. intros; apply map_snd_enumerate_from. Qed.

Lemma zip_combine : forall A B (a : list A) (b : list B), zip a b = combine a b.
Proof. induction a as [|x a IH]; intros [|y b]; simpl; congruence. Qed.

Lemma map2_map : forall A B C (f : A -> B -> C) a b,
  map2 f a b = map (fun xy => f (fst xy) (snd xy)) (zip a b).
Proof. induction a as [|x a IH]; intros [|y b]; simpl; try reflexivity. rewrite IH; reflexivity. Qed.

Lemma map2_length : forall A B C (f : A -> B -> C) a b,
  length a = length b -> length (map2 f a b) = length a.
Proof. induction a as [|x a IH]; intros [|y b] H; simpl in *; try lia. rewrite IH; lia. Qed.

Lemma dict_get_enumerate_from : forall A (l : list A) k n d,
  k <= n -> n < k + length l -> dict_get Nat.eqb (enumerate_from k l) n = Ok (nth (n - k) l d).
Proof.
  induction l as [|x l IH]; intros k n d Hk Hn; simpl in *; [lia|].
  destruct (Nat.eqb_spec n k) as [->|Hne].
  - rewrite Nat.sub_diag; reflexivity.
  - rewrite (IH (S k) n d) by lia. f_equal.
    replace (n - k) with (S (n - S k)) by lia. reflexivity.
Qed.

Lemma dict_get_enumerate : forall A (l : list A) n d,
  n < length l -> dict_get Nat.eqb (enumerate l) n = Ok (nth n l d).
Proof.
  intros A l n d H. unfold enumerate. rewrite (dict_get_enumerate_from A l 0 n d) by lia.
  rewrite Nat.sub_0_r; reflexivity.
Qed.

Lemma dict_get_enumerate_from_err : forall A (l : list A) k n,
  n < k \/ k + length l <= n -> dict_get Nat.eqb (enumerate_from k l) n = Err KeyError.
Proof.
  induction l as [|x l IH]; intros k n H; simpl in *; [reflexivity|].
  destruct (Nat.eqb_spec n k) as [->|Hne]; [lia|]. apply IH; lia.
Qed.

(* ------------------------------------------------------------------ *)
(** ** Dictionaries *)

Section DictLemmas.
  Context {K V : Type} (eqb : K -> K -> bool).
  Hypothesis eqb_spec : forall a b, reflect (a = b) (eqb a b).

  Lemma dict_get_in : forall (d : list (K * V)) k v, dict_get eqb d k = Ok v -> In (k, v) d.
  Proof.
    induction d as [|[k' v'] d IH]; intros k v H; simpl in *; [discriminate|].
    destruct (eqb_spec k k') as [->|_]; [injection H as ->; left; reflexivity | right; apply IH; exact H].
  Qed.

  Lemma dict_in_get : forall (d : list (K * V)) k v,
    NoDup (map fst d) -> In (k, v) d -> dict_get eqb d k = Ok v.
  Proof.
    induction d as [|[k' v'] d IH]; intros k v ND H; simpl in *; [contradiction|].
    inversion ND as [|? ? Hn ND']; subst. destruct H as [E|H].
    - injection E as -> ->. destruct (eqb_spec k k); [reflexivity | contradiction].
    - destruct (eqb_spec k k') as [->|_]; [|apply IH; assumption].
      exfalso; apply Hn. apply in_map_iff. exists (k', v); auto.
  Qed.

  Lemma dict_get_some : forall (d : list (K * V)) k,
    In k (map fst d) -> exists v, dict_get eqb d k = Ok v.
  Proof.
    induction d as [|[k' v'] d IH]; intros k H; simpl in *; [contradiction|].
    destruct (eqb_spec k k') as [->|Hn]; [eauto|]. apply IH. destruct H; congruence.
  Qed.

  Lemma dict_get_none : forall (d : list (K * V)) k,
    ~ In k (map fst d) -> dict_get eqb d k = Err KeyError.
  Proof.
    induction d as [|[k' v'] d IH]; intros k H; simpl in *; [reflexivity|].
    destruct (eqb_spec k k') as [->|Hn]; [exfalso; apply H; left; reflexivity|]. apply IH; auto.
  Qed.

  Lemma dict_mem_spec : forall (d : list (K * V)) k, dict_mem eqb d k = true <-> In k (map fst d).
  Proof.
    induction d as [|[k' v'] d IH]; intros k; simpl; [split; [discriminate|contradiction]|].
    destruct (eqb_spec k k') as [->|Hn]; simpl; [tauto|]. rewrite IH. split; [auto|]. intros [E|H]; [congruence|exact H].
  Qed.

  Lemma dict_get_map : forall W (f : V -> W) (d : list (K * V)) k,
    dict_get eqb (map (fun kv => (fst kv, f (snd kv))) d) k
    = match dict_get eqb d k with Ok v => Ok (f v) | Err e => Err e end.
  Proof.
    induction d as [|[k' v'] d IH]; intros k; simpl; [reflexivity|].
    destruct (eqb k k'); [reflexivity | apply IH].
  Qed.
End DictLemmas.

(* ------------------------------------------------------------------ *)
(** ** Sorting *)

Section SortLemmas.
  Context {A : Type} (leb : A -> A -> bool).

  Lemma insert_perm : forall x l, Permutation (insert leb x l) (x :: l).
  Proof.
    induction l as [|y l IH]; simpl; [constructor; constructor|].
    destruct (leb x y); [constructor; constructor; reflexivity|].
    rewrite IH. constructor.
  Qed.

  Lemma sorted_perm : forall l, Permutation (sorted leb l) l.
  Proof.
    induction l as [|x l IH]; simpl; [constructor|].
    rewrite insert_perm. constructor; exact IH.
  Qed.

  Hypothesis leb_total : forall x y, leb x y = true \/ leb y x = true.
  Hypothesis leb_trans : forall x y z, leb x y = true -> leb y z = true -> leb x z = true.

  Lemma insert_sorted : forall x l,
    StronglySorted (fun a b => leb a b = true) l ->
    StronglySorted (fun a b => leb a b = true) (insert leb x l).
  Proof.
    induction l as [|y l IH]; intros H; simpl; [constructor; constructor|].
    inversion H as [|? ? H1 H2]; subst. destruct (leb x y) eqn:E.
    - constructor; [exact H|]. constructor; [exact E|].
      eapply Forall_impl; [|exact H2]. intros z Hz; eapply leb_trans; eauto.
    - constructor; [apply IH; exact H1|].
      assert (F : Forall (fun z => leb y z = true) (x :: l)).
      { constructor; [|exact H2]. destruct (leb_total x y); congruence. }
      rewrite Forall_forall in F |- *. intros z Hz. apply F.
      eapply Permutation_in; [apply insert_perm | exact Hz].
  Qed.

  Lemma sorted_sorted : forall l, StronglySorted (fun a b => leb a b = true) (sorted leb l).
  Proof. induction l as [|x l IH]; simpl; [constructor | apply insert_sorted; exact IH]. Qed.
End SortLemmas.

Lemma sorted_id : forall A (leb : A -> A -> bool) l,
  StronglySorted (fun a b => leb a b = true) l -> sorted leb l = l.
Proof.
  induction l as [|x l IH]; intros H; simpl; [reflexivity|].
  inversion H as [|? ? H1 H2]; subst. rewrite IH by exact H1.
  destruct l as [|y l]; [reflexivity|]. simpl. inversion H2 as [|? ? E ?]; subst. rewrite E; reflexivity.
Qed.

(** Two strictly ordered lists with the same members are equal. *)
Lemma StronglySorted_lt_perm_eq : forall l l',
  StronglySorted lt l -> StronglySorted lt l' -> Permutation l l' -> l = l'.
Proof.
  induction l as [|x l IH]; intros l' S S' P.
  - apply Permutation_nil in P; auto.
  - destruct l' as [|y l']; [apply Permutation_sym, Permutation_nil in P; discriminate|].
    inversion S as [|? ? S1 F]; inversion S' as [|? ? S1' F']; subst.
    assert (x = y) as ->.
    { rewrite Forall_forall in F, F'.
      assert (Hx : In x (y :: l')) by (eapply Permutation_in; [exact P | left; reflexivity]).
      assert (Hy : In y (x :: l)) by (eapply Permutation_in; [apply Permutation_sym; exact P | left; reflexivity]).
      destruct Hx as [->|Hx]; [reflexivity|]. destruct Hy as [->|Hy]; [reflexivity|].
      apply F' in Hx. apply F in Hy. lia. }
    f_equal. apply IH; auto. eapply Permutation_cons_inv; exact P.
Qed.

Lemma seq_StronglySorted : forall n a, StronglySorted lt (seq a n).
Proof.
  induction n as [|n IH]; intros a; simpl; constructor; [apply IH|].
  rewrite Forall_forall; intros x Hx; apply in_seq in Hx; lia.
Qed.

Lemma StronglySorted_le_lt : forall l,
  StronglySorted (fun a b => (a <=? b) = true) l -> NoDup l -> StronglySorted lt l.
Proof.
  induction l as [|x l IH]; intros S ND; constructor; inversion S; inversion ND; subst; auto.
  rewrite Forall_forall in *. intros y Hy.
  match goal with H : forall _, In _ _ -> (x <=? _) = true |- _ => apply H in Hy as Hle end.
  apply Nat.leb_le in Hle.
  assert (x <> y) by (intros ->; contradiction). lia.
Qed.

Lemma leb_total_nat : forall x y, (x <=? y) = true \/ (y <=? x) = true.
Proof. intros x y; rewrite !Nat.leb_le; lia. Qed.

Lemma leb_trans_nat : forall x y z, (x <=? y) = true -> (y <=? z) = true -> (x <=? z) = true.
Proof. intros x y z; rewrite !Nat.leb_le; lia. Qed.

(** Sorting any listing of [0..n-1] gives [0..n-1]. *)
Lemma sorted_perm_seq : forall l n, Permutation l (seq 0 n) -> sorted Nat.leb l = seq 0 n.
Proof.
  intros l n H. apply StronglySorted_lt_perm_eq.
  - apply StronglySorted_le_lt.
    + apply sorted_sorted; [exact leb_total_nat | exact leb_trans_nat].
    + eapply Permutation_NoDup; [apply Permutation_sym, sorted_perm|].
      eapply Permutation_NoDup; [apply Permutation_sym; exact H|]. apply seq_NoDup.
  - apply seq_StronglySorted.
  - rewrite sorted_perm. exact H.
Qed.

(** Python's order on equally long tuples is the order of row-major numbers. *)
Lemma tuple_leb_ravel : forall shape i j,
  in_shape shape i -> in_shape shape j -> ravel shape i <= ravel shape j -> tuple_leb i j = true.
Proof.
  intros shape i j Hi; revert j; induction Hi as [|d x s r Hx Hr IH]; intros j Hj E;
    inversion Hj as [|? y ? r' Hy Hr']; subst; simpl in *; [reflexivity|].
  pose proof (ravel_lt s r Hr). pose proof (ravel_lt s r' Hr').
  destruct (Nat.ltb_spec x y); [reflexivity|].
  destruct (Nat.ltb_spec y x); [nia|].
  assert (x = y) by lia; subst. apply IH; [exact Hr' | lia].
Qed.

Lemma StronglySorted_map_seq : forall A (R : A -> A -> Prop) (f : nat -> A) n a,
  (forall i j, a <= i -> i < j -> j < a + n -> R (f i) (f j)) -> StronglySorted R (map f (seq a n)).
Proof.
  induction n as [|n IH]; intros a H; simpl; constructor.
  - apply IH; intros; apply H; lia.
  - rewrite Forall_forall. intros y Hy. apply in_map_iff in Hy. destruct Hy as (j & <- & Hj).
    apply in_seq in Hj. apply H; lia.
Qed.

Lemma nth_map_seq : forall A (f : nat -> A) n k d, k < n -> nth k (map f (seq 0 n)) d = f k.
Proof.
  intros A f n k d H. rewrite (nth_indep _ d (f 0)) by (rewrite map_length, seq_length; exact H).
  rewrite map_nth, seq_nth by exact H. reflexivity.
Qed.

Lemma list_eqb_spec : forall A (eqb : A -> A -> bool),
  (forall a b, reflect (a = b) (eqb a b)) -> forall a b, reflect (a = b) (list_eqb eqb a b).
Proof.
  intros A eqb H; induction a as [|x a IH]; intros [|y b]; simpl; try (constructor; congruence).
  destruct (H x y) as [->|Hn]; simpl; [|constructor; congruence].
  destruct (IH b) as [->|Hn]; constructor; congruence.
Qed.

Lemma nat_eqb_spec : forall a b, reflect (a = b) (Nat.eqb a b).
Proof. intros; apply Nat.eqb_spec. Qed.

Lemma unique_ok : forall A (eqb : A -> A -> bool) (l : list A) x,
  (forall a b, reflect (a = b) (eqb a b)) ->
  unique eqb l = Ok x -> l <> [] /\ Forall (eq x) l.
Proof.
  intros A eqb [|y l] x H E; simpl in E; [discriminate|].
  destruct (forallb (eqb y) l) eqn:F; [|discriminate]. injection E as <-.
  split; [discriminate|]. constructor; [reflexivity|].
  rewrite forallb_forall in F. rewrite Forall_forall. intros z Hz. apply F in Hz.
  destruct (H y z); congruence.
Qed.

Lemma unique_all : forall A (eqb : A -> A -> bool) (l : list A) x,
  (forall a b, reflect (a = b) (eqb a b)) ->
  l <> [] -> Forall (eq x) l -> unique eqb l = Ok x.
Proof.
  intros A eqb [|y l] x H Hl F; [congruence|]. inversion F as [|? ? E F']; subst. simpl.
  replace (forallb (eqb y) l) with true; [reflexivity|]. symmetry. apply forallb_forall.
  intros z Hz. rewrite Forall_forall in F'. apply F' in Hz. subst. destruct (H z z); congruence.
Qed.
