(** Reference components of mixed elements. *)
From Coq Require Import Ascii String List ZArith Bool Lia.
From Verif Require Import Model.Prelude Model.Registry Model.UflElement Spec.UflElement Proofs.Lists Proofs.Repr Proofs.Symmetry.
Import ListNotations.
Open Scope list_scope.

(** ** Flat positions *)
Lemma nth_blocks {A} (L : list (list A)) (w : nat -> A) : forall n s k x,
  nth_error (flat_map (fun i => map (cons (w i)) L) (seq s n)) k = Some x ->
  exists i k' y, i < n /\ k = i * length L + k' /\ k' < length L /\ nth_error L k' = Some y /\ x = w (s + i) :: y.
Proof.
  induction n as [|n IH]; intros s k x H; [destruct k; discriminate H|]. cbn [seq flat_map] in H.
  destruct (le_lt_dec (length L) k) as [G|G].
  - rewrite nth_error_app2 in H by now rewrite map_length. rewrite map_length in H.
    apply IH in H as (i & k' & y & I & E & K & Y & ->). exists (S i), k', y. repeat split; auto; [lia| |].
    + cbn [Nat.mul]. lia.
    + do 2 f_equal. lia.
  - rewrite nth_error_app1 in H by now rewrite map_length. destruct (nth_error L k) as [y|] eqn:Y.
    + rewrite (map_nth_error _ _ _ Y) in H. injection H as <-. exists 0, k, y. repeat split; auto; [lia|]. do 2 f_equal. lia.
    + apply nth_error_None in Y. lia.
Qed.
Lemma unflatten_nth : forall shape k idx, nth_error (all_indices shape) k = Some idx ->
  unflatten_index (Z.of_nat k) (shape_to_strides shape) = map Z.of_nat idx.
Proof.
  induction shape as [|n shape IH]; intros k idx H; cbn [all_indices shape_to_strides unflatten_index] in *.
  - destruct k as [|k]; [injection H as <-; reflexivity|]. destruct k; discriminate H.
  - apply (nth_blocks _ (fun i => i)) in H as (i & k' & y & I & -> & K & Y & ->). rewrite length_all in *.
    cbn [map Nat.add]. apply IH in Y.
    rewrite Nat2Z.inj_add, Nat2Z.inj_mul. f_equal.
    + rewrite Z.add_comm, Z.div_add by lia. rewrite Z.div_small by lia. lia.
    + rewrite Z.add_comm, Z.mod_add by lia. rewrite Z.mod_small by lia. exact Y.
Qed.
Lemma find_at : forall pre sh post k0 p, p < prod sh ->
  find_subelement k0 (pre ++ sh :: post) (Z.of_nat (sum (map prod pre) + p)) = Ok (k0 + length pre, sh, Z.of_nat p).
Proof.
  induction pre as [|x pre IH]; intros sh post k0 p P; cbn [app map sum length find_subelement].
  - cbn [sum fold_right Nat.add]. destruct (Z.ltb_spec (Z.of_nat p) (Z.of_nat (prod sh))); [|lia]. do 3 f_equal. lia.
  - change (sum (prod x :: map prod pre)) with (prod x + sum (map prod pre)).
    destruct (Z.ltb_spec (Z.of_nat (prod x + sum (map prod pre) + p)) (Z.of_nat (prod x))); [lia|].
    destruct (pre ++ sh :: post) as [|y l] eqn:E; [destruct pre; discriminate E|]. rewrite <- E.
    replace (Z.of_nat (prod x + sum (map prod pre) + p) - Z.of_nat (prod x))%Z with (Z.of_nat (sum (map prod pre) + p)) by lia.
    rewrite IH by exact P. do 3 f_equal. lia.
Qed.
Lemma nth_flat {A B} (f : A -> list B) : forall l k y, nth_error (flat_map f l) k = Some y ->
  exists pre x post p, l = pre ++ x :: post /\ k = sum (map (fun x => length (f x)) pre) + p /\ nth_error (f x) p = Some y.
Proof.
  induction l as [|x l IH]; intros k y H; [destruct k; discriminate H|]. cbn [flat_map] in H.
  destruct (le_lt_dec (length (f x)) k) as [G|G].
  - rewrite nth_error_app2 in H by exact G. apply IH in H as (pre & z & post & p & -> & E & Y). exists (x :: pre), z, post, p.
    repeat split; auto. cbn [map]. change (sum (length (f x) :: ?l)) with (length (f x) + sum l). lia.
  - rewrite nth_error_app1 in H by exact G. exists [], x, l, k. auto.
Qed.

(** ** One level *)
Lemma total_app (l m : list nat) : sum (l ++ m) = sum l + sum m.
Proof. induction l as [|x l IH]; [reflexivity|]. cbn [app]. change (sum (x :: ?l)) with (x + sum l). lia. Qed.
Lemma level_at pre s post p c : nth_error (all_indices (u_shape s)) p = Some c ->
  mixed_reference_component (pre ++ s :: post) [sum (map (fun e => prod (u_shape e)) (pre ++ s :: post))]
    [Z.of_nat (sum (map (fun e => prod (u_shape e)) pre) + p)] = Ok (length pre, map Z.of_nat c).
Proof.
  intros H. assert (P : p < prod (u_shape s)). { rewrite <- length_all. apply nth_error_Some. congruence. }
  unfold mixed_reference_component, check_reference_component. cbn [length Nat.eqb zip forallb fst snd andb].
  rewrite map_app, total_app. cbn [map]. change (sum (prod (u_shape s) :: ?l)) with (prod (u_shape s) + sum l).
  match goal with |- context [Z.ltb ?a ?b] => destruct (Z.ltb_spec a b) as [L|L]; [|lia] end. cbn [andb guard bind].
  rewrite map_app. cbn [map].
  replace (sum (map (fun e => prod (u_shape e)) pre)) with (sum (map prod (map u_shape pre))) by now rewrite map_map.
  rewrite find_at by exact P. cbn [bind Nat.add].
  destruct (Z.ltb_spec (Z.of_nat p) 0); [lia|]. cbn [negb guard bind]. rewrite map_length. do 2 f_equal. now apply unflatten_nth.
Qed.
Lemma level_all subs j : j < sum (map (fun e => prod (u_shape e)) subs) -> exists pre s post p c,
  subs = pre ++ s :: post /\ j = sum (map (fun e => prod (u_shape e)) pre) + p /\ nth_error (all_indices (u_shape s)) p = Some c.
Proof.
  revert j. induction subs as [|s subs IH]; intros j H; [inversion H|]. cbn [map] in H.
  change (sum (prod (u_shape s) :: ?l)) with (prod (u_shape s) + sum l) in H.
  destruct (le_lt_dec (prod (u_shape s)) j) as [G|G].
  - destruct (IH (j - prod (u_shape s))) as (pre & t & post & p & c & -> & E & C); [lia|].
    exists (s :: pre), t, post, p, c. repeat split; auto. cbn [map]. change (sum (prod (u_shape s) :: ?l)) with (prod (u_shape s) + sum l). lia.
  - destruct (nth_error (all_indices (u_shape s)) j) as [c|] eqn:C.
    + exists [], s, subs, j, c. auto.
    + apply nth_error_None in C. rewrite length_all in C. lia.
Qed.

(** ** All levels *)
Definition located (e : uel) : Prop := length (components e) = prod (u_shape e) /\
  forall k c x idx, nth_error (components e) k = Some (c, x) -> nth_error (all_indices (u_shape e)) k = Some idx ->
    extract_reference_component e (map Z.of_nat idx) = Ok (map Z.of_nat c, x).
Lemma nth_one n k idx : nth_error (all_indices [n]) k = Some idx -> idx = [k] /\ k < n.
Proof.
  intros H. assert (K : k < n). { assert (K : k < length (all_indices [n])) by (apply nth_error_Some; congruence). rewrite length_all in K. cbn [prod] in K. lia. }
  split; [|exact K]. cbn [all_indices] in H. assert (E : flat_map (fun i => map (cons i) [[]]) (seq 0 n) = map (fun i => [i]) (seq 0 n)).
  { clear. generalize 0. induction n as [|n IH]; intros s; [reflexivity|]. cbn [seq flat_map map app]. now rewrite IH. }
  rewrite E in H. rewrite nth_error_map, nth_error_nth' with (d := 0) in H by now rewrite seq_length. rewrite seq_nth in H by exact K.
  now injection H as <-.
Qed.
Lemma lengths l : Forall located l -> map (fun e => length (components e)) l = map (fun e => prod (u_shape e)) l.
Proof. induction 1 as [|e l [H _] F IH]; [reflexivity|]. cbn [map]. now rewrite H, IH. Qed.
Lemma located_level (subs : list uel) e : Forall located subs -> components e = flat_map components subs ->
  u_shape e = [sum (map (fun e => prod (u_shape e)) subs)] ->
  (forall i pre s post c r, subs = pre ++ s :: post -> mixed_reference_component subs (u_shape e) i = Ok (length pre, c) ->
     extract_reference_component s c = Ok r -> extract_reference_component e i = Ok r) -> located e.
Proof.
  intros F C S X. split.
  - rewrite C, S. cbn [prod]. rewrite Nat.mul_1_r, <- (lengths _ F). clear. induction subs as [|s l IH]; [reflexivity|].
    cbn [flat_map map]. rewrite app_length, IH. reflexivity.
  - intros k c x idx H I. rewrite S in I. apply nth_one in I as [-> K]. rewrite C in H.
    apply nth_flat in H as (pre & s & post & p & E & -> & N). rewrite E in F. apply Forall_app in F as [F1 F2].
    inversion F2 as [|? ? [L1 L2] F3]; subst s l.
    assert (P : p < prod (u_shape x0)). { rewrite <- L1. apply nth_error_Some. congruence. }
    destruct (nth_error (all_indices (u_shape x0)) p) as [d|] eqn:D.
    2: { apply nth_error_None in D. rewrite length_all in D. lia. }
    apply (X _ pre x0 post (map Z.of_nat d)); [exact E| |now apply (L2 p)].
    rewrite S, E, (lengths _ F1). cbn [map]. now apply level_at.
Qed.
Lemma located_simple e : (match e with UMixed _ _ | UVector _ _ _ | UTensor _ _ _ _ _ _ => False | _ => True end) -> located e.
Proof.
  intros H. assert (C : components e = map (fun i => (i, e)) (all_indices (u_shape e))) by (destruct e; try destruct H; reflexivity).
  assert (X : forall i, extract_reference_component e i = do! check_reference_component (u_shape e) i ;; Ok (i, e)) by (destruct e; try destruct H; reflexivity).
  split; [now rewrite C, map_length, length_all|]. intros k c x idx N I. rewrite C in N. rewrite (map_nth_error _ _ _ I) in N. injection N as <- <-.
  rewrite X. assert (G : check_reference_component (u_shape e) (map Z.of_nat idx) = Ok tt); [|now rewrite G].
  apply nth_error_In, in_all in I. unfold check_reference_component. clear -I.
  match goal with |- guard ?b _ = _ => assert (b = true) as ->; [|reflexivity] end. apply andb_true_iff. induction I as [|n i ns is L I [I1 I2]]; [split; reflexivity|].
  cbn [map length zip forallb fst snd Nat.eqb]. split; [exact I1|]. rewrite I2. destruct (Z.ltb_spec (Z.of_nat i) (Z.of_nat n)); [reflexivity|lia].
Qed.
Lemma nth_here {A} (pre : list A) x post d : nth (length pre) (pre ++ x :: post) d = x.
Proof. rewrite app_nth2, Nat.sub_diag by lia. reflexivity. Qed.
Lemma repeat_at {A} (x : A) n pre y post : repeat x n = pre ++ y :: post -> y = x /\ length pre < n.
Proof.
  intros H. split.
  - apply (repeat_spec n x). rewrite H. apply in_app_iff. right. now left.
  - apply (f_equal (@length A)) in H. rewrite repeat_length, app_length in H. cbn [length] in H. lia.
Qed.
Lemma sum_ones n s : u_shape s = [] -> sum (map (fun e => prod (u_shape e)) (repeat s n)) = n.
Proof.
  intros S. induction n as [|n IH]; [reflexivity|]. cbn [repeat map]. change (sum (?x :: ?l)) with (x + sum l). rewrite IH, S. reflexivity.
Qed.
Lemma concat_flat {A B} (f : A -> list B) x n : concat (repeat (f x) n) = flat_map f (repeat x n).
Proof. induction n as [|n IH]; [reflexivity|]. cbn [repeat concat flat_map]. now rewrite IH. Qed.
Lemma Forall_repeat {A} (P : A -> Prop) x n : P x -> Forall P (repeat x n).
Proof. intros H. induction n as [|n IH]; cbn [repeat]; constructor; auto. Qed.
Lemma flat_located e : built e -> flat e -> located e.
Proof.
  intros B. induction B as [f c o k s v d c' s' v' H|es e B IH H|sub dim e B IH H|sub shape sym e B IH H|es c e B IH H|nodal es e B IH H
                 |sub e B IH H|sub e B IH H|sub m e B IH H|sub e B IH H|sub dom e B IH H] using built_ind'; intros F.
  - now apply located_simple.
  - apply mk_mixed_inv in H as (a & -> & A). inversion F as [? N|? ? Fl| |]; subst; [destruct N|].
    apply (located_level es).
    + clear -IH Fl. induction IH as [|x l H F IHl]; [constructor|]. inversion Fl; subst. constructor; auto.
    + reflexivity.
    + unfold mixed_attrs in A. binds A. now injection A as <-.
    + intros i pre s post c r E M X. cbn [extract_reference_component]. fold u_shape. rewrite M. cbn [bind].
      rewrite E, map_app. cbn [map]. rewrite <- (map_length (fun s => extract_reference_component s c) pre), nth_here. exact X.
  - apply mk_vector_inv in H as (n & a & -> & A & _). inversion F as [? N| |? ? ? Fs Sh|]; subst; [destruct N|].
    apply (located_level (repeat sub n)).
    + apply Forall_repeat. auto.
    + apply concat_flat.
    + rewrite sum_ones by exact Sh. unfold u_shape at 1. cbn [u_attrs at_shape]. now rewrite Sh.
    + intros i pre s post c r E M X. cbn [extract_reference_component]. rewrite M. cbn [bind].
      destruct (repeat_at _ _ _ _ _ E) as [-> L]. destruct (Nat.ltb_spec (length pre) n); [exact X|lia].
  - pose proof H as H'. apply mk_tensor_inv in H as (a & sh & sy & t & n & -> & _). inversion F as [? N| | |? ? ? ? ? ? Fs Sh D]; subst; [destruct N|].
    apply (located_level (repeat sub n)).
    + apply Forall_repeat. auto.
    + apply concat_flat.
    + rewrite sum_ones by exact Sh. unfold u_shape at 1. cbn [u_attrs].
      assert (FK : full_keys sh sy). { destruct D as [[-> _]|[_ D]]; [intros i j []|exact D]. }
      destruct (tensor_numbers _ _ _ _ _ _ _ _ _ H' FK) as (C & S & _). rewrite S, Sh, app_nil_r.
      destruct D as [[-> D]|[D _]]; [|destruct sy; [now destruct D|reflexivity]].
      destruct sh as [|m [|]]; try discriminate D. cbn [length prod] in C. f_equal. lia.
    + intros i pre s post c r E M X. cbn [extract_reference_component]. rewrite M. cbn [bind].
      destruct (repeat_at _ _ _ _ _ E) as [-> L]. destruct (Nat.ltb_spec (length pre) n); [exact X|lia].
  - apply mk_tensor_product_inv in H as (cell & -> & _). now apply located_simple.
  - apply mk_enriched_inv in H as (a & e0 & rest & _ & -> & _). now apply located_simple.
  - apply mk_hdiv_inv in H as (a & -> & _). now apply located_simple.
  - apply mk_hcurl_inv in H as (a & -> & _). now apply located_simple.
  - apply mk_with_mapping_inv in H as (-> & _). now apply located_simple.
  - apply mk_broken_inv in H as ->. now apply located_simple.
  - apply mk_restricted_inv in H as (-> & _). now apply located_simple.
Qed.

(** ** Wrong indices *)
Lemma check_bad shape i : length i <> length shape \/ (exists p j n, nth_error i p = Some j /\ nth_error shape p = Some n /\ (Z.of_nat n <= j)%Z) ->
  check_reference_component shape i = Err ValueError.
Proof.
  unfold check_reference_component. destruct (Nat.eqb_spec (length i) (length shape)) as [L|L]; [|reflexivity].
  intros [N|(p & j & n & I & S & G)]; [contradiction|]. destruct (forallb _ _) eqn:F; [|reflexivity]. exfalso.
  rewrite forallb_forall in F. specialize (F (j, n)). cbn [fst snd] in F.
  assert (In (j, n) (zip i shape)) as J. { clear F. revert i shape L I S. induction p as [|p IH]; intros [|x i] [|y sh]; cbn [nth_error length zip]; try discriminate.
    - intros _ [= ->] [= ->]. now left.
    - intros [= L] I S. right. eauto. }
  apply F, Z.ltb_lt in J. lia.
Qed.
Lemma extract_bad e i : length i <> length (u_shape e) \/
    (exists p j n, nth_error i p = Some j /\ nth_error (u_shape e) p = Some n /\ (Z.of_nat n <= j)%Z) ->
  extract_reference_component e i = Err ValueError.
Proof. intros H. apply check_bad in H. destruct e; cbn [extract_reference_component]; unfold mixed_reference_component; fold u_shape; rewrite H; reflexivity. Qed.
Lemma level_negative subs n j : subs <> [] -> (j < 0)%Z -> mixed_reference_component subs [n] [j] = Err ValueError.
Proof.
  intros N J. unfold mixed_reference_component, check_reference_component. cbn [length Nat.eqb zip forallb fst snd andb].
  destruct (Z.ltb_spec j (Z.of_nat n)); [|lia]. cbn [andb guard bind]. destruct subs as [|s subs]; [now destruct N|]. cbn [map find_subelement].
  destruct (Z.ltb_spec j (Z.of_nat (prod (u_shape s)))); [|lia]. cbn [bind]. destruct (Z.ltb_spec j 0); [|lia]. reflexivity.
Qed.
Definition mixed_class (e : uel) : Prop := match e with UMixed _ _ | UVector _ _ _ | UTensor _ _ _ _ _ _ => True | _ => False end.
Lemma extract_rank e i : mixed_class e -> length (u_shape e) <> 1 -> In i (all_indices (u_shape e)) ->
  extract_reference_component e (map Z.of_nat i) = Err AssertionError.
Proof.
  intros M R I. apply in_all in I. assert (G : check_reference_component (u_shape e) (map Z.of_nat i) = Ok tt).
  { unfold check_reference_component. clear -I. match goal with |- guard ?b _ = _ => assert (b = true) as ->; [|reflexivity] end.
    apply andb_true_iff. induction I as [|n i ns is L I [I1 I2]]; [split; reflexivity|].
    cbn [map length zip forallb fst snd Nat.eqb]. split; [exact I1|]. rewrite I2. destruct (Z.ltb_spec (Z.of_nat i) (Z.of_nat n)); [reflexivity|lia]. }
  destruct e; try destruct M; cbn [extract_reference_component]; unfold mixed_reference_component; rewrite G; cbn [bind];
    (match goal with |- context [Nat.eqb ?a 1] => destruct (Nat.eqb_spec a 1) as [Q|Q]; [now destruct R|reflexivity] end).
Qed.
