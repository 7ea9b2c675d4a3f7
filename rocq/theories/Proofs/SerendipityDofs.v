(** Numbering of the direct serendipity elements. *)
From Coq Require Import List Arith Lia Bool Permutation.
From Verif Require Import Model.Prelude Model.Cell Model.Element Model.Gem Model.Serendipity Spec.Rowmajor Spec.EntityDofs.
Import ListNotations.

Lemma quad_topology : topology (Hypercube 2) = [(DI 0, 4); (DI 1, 4); (DI 2, 1)].
Proof. reflexivity. Qed.

Lemma tri_even n : exists m, (n + 1) * (n + 2) = 2 * m.
Proof.
  induction n as [|n [m IH]]; [exists 1; reflexivity|]. exists (m + n + 2). lia.
Qed.
Lemma tri_half n : 2 * ((n + 1) * (n + 2) / 2) = (n + 1) * (n + 2).
Proof. destruct (tri_even n) as [m H]. rewrite H, (Nat.mul_comm 2 m), Nat.div_mul by lia. lia. Qed.

(** The dimension counts vertices, nodes of edges and inner nodes. *)
Lemma dimension_split r : 1 <= r -> 2 * ds_space_dimension r = 2 * (4 + 4 * (r - 1)) + (r - 2) * (r - 3).
Proof.
  intros H. unfold ds_space_dimension. destruct (Nat.eqb_spec r 1) as [->|H1]; [reflexivity|].
  pose proof (tri_half r) as T. destruct r as [|[|[|r]]]; lia.
Qed.

Lemma range_seq a n : range a (a + n) = seq a n.
Proof. unfold range. f_equal. lia. Qed.

Lemma keys_ok (f g : nat -> list nat) (l : list nat) :
  keys_match [(DI 0, 4); (DI 1, 4); (DI 2, 1)] [(DI 0, map (fun i => (i, f i)) (seq 0 4)); (DI 1, map (fun i => (i, g i)) (seq 0 4)); (DI 2, [(0, l)])].
Proof.
  split; [apply Permutation_refl|]. intros k row H.
  cbn [In] in H. destruct H as [E|[E|[E|[]]]]; injection E as <- <-.
  - exists 4. split; [left; reflexivity|]. cbn. apply Permutation_refl.
  - exists 4. split; [right; left; reflexivity|]. cbn. apply Permutation_refl.
  - exists 1. split; [right; right; left; reflexivity|]. cbn. apply Permutation_refl.
Qed.

Lemma ds_dofs_shape r : 1 <= r -> ds_entity_dofs r =
  [(DI 0, map (fun i => (i, [i])) (seq 0 4));
   (DI 1, map (fun i => (i, seq (4 + i * (r - 1)) (r - 1))) (seq 0 4));
   (DI 2, [(0, seq (4 + 4 * (r - 1)) (ds_space_dimension r - (4 + 4 * (r - 1))))])].
Proof.
  intros H. unfold ds_entity_dofs. destruct (Nat.eqb_spec r 1) as [->|H1]; [reflexivity|].
  destruct (Nat.eqb_spec r 2) as [->|H2]; [reflexivity|].
  rewrite (map_ext (fun i => (i, range (4 + i * (r - 1)) (4 + (i + 1) * (r - 1)))) (fun i => (i, seq (4 + i * (r - 1)) (r - 1)))); [reflexivity|].
  intros i. unfold range. do 2 f_equal. lia.
Qed.

Theorem ds_dofs_ok r : 1 <= r -> edofs_ok (topology (Hypercube 2)) (ds_space_dimension r) (ds_entity_dofs r).
Proof.
  intros H. rewrite ds_dofs_shape by exact H. rewrite quad_topology. split; [apply keys_ok|].
  unfold partitions, all_lists. cbn [flat_map map snd seq app concat]. rewrite !app_nil_r.
  pose proof (dimension_split r H) as D.
  assert (D' : 4 + 4 * (r - 1) <= ds_space_dimension r) by nia.
  set (n := ds_space_dimension r) in *. clearbody n. set (q := r - 1) in *. clearbody q.
  assert (Hm : exists m, n = 4 + (q + (q + (q + (q + m))))) by (exists (n - (4 + 4 * q)); lia). destruct Hm as [m ->].
  replace (4 + (q + (q + (q + (q + m)))) - (4 + 4 * q)) with m by lia.
  rewrite !seq_app. change (seq 0 4) with [0; 1; 2; 3]. cbn [app].
  replace (4 + 0 * q) with (0 + 4) by lia. replace (4 + 1 * q) with (0 + 4 + q) by lia. replace (4 + 2 * q) with (0 + 4 + q + q) by lia.
  replace (4 + 3 * q) with (0 + 4 + q + q + q) by lia. replace (4 + 4 * q) with (0 + 4 + q + q + q + q) by lia.
  apply Permutation_refl.
Qed.

Theorem ds_edge_list r e : 1 <= r -> e < 4 -> has_dofs (ds_entity_dofs r) (DI 1) e (seq (4 + e * (r - 1)) (r - 1)).
Proof.
  intros H He. rewrite ds_dofs_shape by exact H. eexists. split; [right; left; reflexivity|].
  apply in_map_iff. exists e. split; [reflexivity|]. apply in_seq. lia.
Qed.

(** ** The number of functions *)
Lemma length_flat_map {A B} (f : A -> list B) l : length (flat_map f l) = list_sum (map (fun a => length (f a)) l).
Proof. induction l as [|a l IH]; [reflexivity|]. cbn. rewrite app_length, IH. reflexivity. Qed.
Lemma list_sum_rev l : list_sum (rev l) = list_sum l.
Proof.
  induction l as [|a l IH]; [reflexivity|]. change (list_sum (rev l ++ [a]) = a + list_sum l).
  rewrite list_sum_app, IH. change (list_sum [a]) with (a + 0). lia.
Qed.
Lemma sum_down n k : 2 * list_sum (map (fun i => n - i + 1) (seq k (n - k + 1))) = (n - k + 1) * (n - k + 2) \/ n < k.
Proof.
  destruct (Nat.lt_ge_cases n k) as [H|H]; [right; exact H|left].
  remember (n - k) as m eqn:E. revert k H E. induction m as [|m IH]; intros k H E.
  - cbn. lia.
  - replace (S m + 1) with (S (m + 1)) by lia. cbn [seq map list_sum fold_right]. change (fold_right Nat.add 0) with list_sum.
    specialize (IH (S k) ltac:(lia) ltac:(lia)). lia.
Qed.
Lemma length_lattice r : 4 <= r -> 2 * length (lattice r) = (r - 3) * (r - 2).
Proof.
  intros H. unfold lattice. rewrite length_flat_map.
  rewrite (map_ext _ (fun i => r - 4 - i + 1)) by (intros i; rewrite map_length, rev_length, seq_length; reflexivity).
  rewrite map_rev, list_sum_rev. destruct (sum_down (r - 4) 0) as [S|S]; [|lia].
  replace (r - 4 - 0 + 1) with (r - 4 + 1) in S by lia. rewrite S. replace (r - 3) with (r - 4 + 1) by lia. replace (r - 2) with (r - 4 + 2) by lia.
  replace (r - 4 - 0) with (r - 4) by lia. reflexivity.
Qed.
Section Count.
  Context {F : Type} (o : ops F) (vs : nat -> F * F).
  Lemma length_internal r : 2 <= r -> 2 * length (internal_bfs o vs r) = (r - 2) * (r - 3).
  Proof.
    intros H. unfold internal_bfs. destruct (Nat.ltb_spec r 4) as [H4|H4].
    - destruct r as [|[|[|[|r]]]]; try lia; reflexivity.
    - destruct (Nat.eqb_spec r 4) as [->|H5]; [reflexivity|]. rewrite map_length, length_lattice by lia. lia.
  Qed.
  Lemma length_edges r e : 2 <= r -> length (edge_bfs o vs r e) = r - 1.
  Proof.
    intros H. unfold edge_bfs. destruct (Nat.eqb_spec r 2) as [->|H2]; [reflexivity|].
    rewrite map_length, seq_length. unfold nodes1d. rewrite map_length, seq_length. reflexivity.
  Qed.
  Theorem ds_count r : 1 <= r -> length (ds_sym o vs r) = ds_space_dimension r.
  Proof.
    intros H. unfold ds_sym. destruct (Nat.eqb_spec r 1) as [->|H1]; [reflexivity|].
    pose proof (dimension_split r H) as D. pose proof (length_internal r ltac:(lia)) as I.
    unfold dsr_sym. rewrite !app_length, length_flat_map, map_length, seq_length.
    rewrite (map_ext _ (fun _ => r - 1)) by (intros e; apply length_edges; lia). cbn [seq map list_sum fold_right]. lia.
  Qed.
End Count.
