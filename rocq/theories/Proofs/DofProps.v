(** Small consequences used in Props/Dofs.v. *)
From Coq Require Import String List Arith Permutation Sorted Bool Lia.
From Verif Require Import Model.Prelude Model.Cell Model.Element Model.EntityMaps.
From Verif Require Import Spec.Rowmajor Spec.EntityDofs Spec.Layout Spec.Samples.
From Verif Require Import Proofs.Lists Proofs.Cells Proofs.EntityDofs Proofs.EntityDofs2 Proofs.Layout Proofs.SampleFacts.
Import ListNotations.

Lemma entity_dofs_partition : forall F (e : elt F) c,
  (forall l, leaf_of l e -> leaf_ok l) -> sensible e -> cell_of e = Ok c ->
  exists d, entity_dofs e = Ok d /\ partitions (space_dimension e) (all_lists d).
Proof.
  intros F e c L S E. destruct (entity_dofs_main F e L S c E) as (d & Ed & _ & P). exists d; auto.
Qed.

Lemma entity_dofs_keys : forall F (e : elt F) c,
  (forall l, leaf_of l e -> leaf_ok l) -> sensible e -> cell_of e = Ok c ->
  exists d, entity_dofs e = Ok d /\ keys_match (topology c) d.
Proof.
  intros F e c L S E. destruct (entity_dofs_main F e L S c E) as (d & Ed & K & _). exists d; auto.
Qed.

Lemma prod_fold : forall l, prod l = fold_right Nat.mul 1 l.
Proof. induction l as [|x l IH]; [reflexivity|]. cbn [prod fold_right]. rewrite IH. reflexivity. Qed.

Lemma space_dimension_prod : forall F (e : elt F),
  (forall l, leaf_of l e -> fold_right Nat.mul 1 (lf_ishape l) = lf_dim l) ->
  fold_right Nat.mul 1 (index_shape e) = space_dimension e.
Proof.
  intros F e H. rewrite <- prod_fold. apply dims_prod. intros l Hl. rewrite prod_fold. auto.
Qed.

Lemma flattened_prism_refuted : exists (e : elt unit) c d,
  (forall l, leaf_of l e -> leaf_ok l) /\ mk_flattened (prism no_tab) = Ok e /\
  cell_of e = Ok c /\ entity_dofs e = Ok d /\ ~ keys_match (topology c) d.
Proof.
  exists (EFlattened (prism no_tab)). eexists. eexists.
  split; [leaves | split; [reflexivity | split; [reflexivity | split; [vm_compute; reflexivity|]]]].
  intros [_ K]. edestruct K as (n & Hn & P); [left; reflexivity|].
  apply Permutation_length in P. rewrite seq_length in P. cbn in P. subst n.
  vm_compute in Hn. intuition discriminate.
Qed.

Lemma empty_product_refuted : exists (e : elt unit) c err,
  mk_tensor_product (F := unit) [] = Ok e /\ cell_of e = Ok c /\ space_dimension e = 1 /\
  entity_dofs e = Err err.
Proof. do 3 eexists. repeat split. Qed.

Lemma no_enriched_summand : forall F (es : list (elt F)),
  built (EEnriched es) -> Forall plain es.
Proof. intros F es H. exact (built_enriched_plain F _ H). Qed.

Definition hex_triple (k i : nat) : result (list (dimkey * nat)) :=
  do KI <- unflatten_entity (TPCell [I1; I1; I1]) (Some (k, i)) ;;
  factor_entity [I1; I1; I1] (Some KI).

Definition hexcheck (x : nat * nat) : bool :=
  match (do KI <- unflatten_entity (TPCell [I1; I1; I1]) (Some x) ;; factor_entity [I1; I1; I1] (Some KI)),
        (do KI <- unflatten_entity (TPCell [Hypercube 2; I1]) (Some x) ;; factor_entity [Hypercube 2; I1] (Some KI))
  with
  | Ok [a; b; c], Ok [(DI p, y); c'] =>
      match (do KI <- unflatten_entity (TPCell [I1; I1]) (Some (p, y)) ;; factor_entity [I1; I1] (Some KI)) with
      | Ok [a'; b'] =>
          let eqb u v := dimkey_eqb (fst u) (fst v) && Nat.eqb (snd u) (snd v) in
          eqb a a' && eqb b b' && eqb c c'
      | _ => false end
  | _, _ => false
  end.

Lemma hexcheck_ok : forall k i, hexcheck (k, i) = true ->
  exists a b c x y,
    (exists K I, unflatten_entity (TPCell [I1; I1; I1]) (Some (k, i)) = Ok (K, I) /\
       factor_entity [I1; I1; I1] (Some (K, I)) = Ok [a; b; c]) /\
    (exists K I, unflatten_entity (TPCell [Hypercube 2; I1]) (Some (k, i)) = Ok (K, I) /\
       factor_entity [Hypercube 2; I1] (Some (K, I)) = Ok [(DI x, y); c]) /\
    (exists K I, unflatten_entity (TPCell [I1; I1]) (Some (x, y)) = Ok (K, I) /\
       factor_entity [I1; I1] (Some (K, I)) = Ok [a; b]).
Proof.
  intros k i H. unfold hexcheck in H.
  destruct (unflatten_entity (TPCell [I1; I1; I1]) (Some (k, i))) as [[K1 J1]|] eqn:E1; [|discriminate]. cbn [bind] in H.
  destruct (factor_entity [I1; I1; I1] (Some (K1, J1))) as [[|a [|b [|c []]]]|] eqn:E2; try discriminate.
  destruct (unflatten_entity (TPCell [Hypercube 2; I1]) (Some (k, i))) as [[K2 J2]|] eqn:E3; [|discriminate]. cbn [bind] in H.
  destruct (factor_entity [Hypercube 2; I1] (Some (K2, J2))) as [[|[[p|] y] [|c' []]]|] eqn:E4; try discriminate.
  destruct (unflatten_entity (TPCell [I1; I1]) (Some (p, y))) as [[K3 J3]|] eqn:E5; [|discriminate]. cbn [bind] in H.
  destruct (factor_entity [I1; I1] (Some (K3, J3))) as [[|a' [|b' []]]|] eqn:E6; try discriminate.
  assert (EQ : forall u v : dimkey * nat, dimkey_eqb (fst u) (fst v) && Nat.eqb (snd u) (snd v) = true -> u = v).
  { intros [u1 u2] [v1 v2] G. cbn in G. apply andb_prop in G as [G1 G2]. apply Nat.eqb_eq in G2.
    destruct (dimkey_eqb_spec u1 v1); congruence. }
  cbv zeta in H. apply andb_prop in H as [H H3]. apply andb_prop in H as [H1 H2].
  apply EQ in H1, H2, H3. subst a' b' c'.
  exists a, b, c, p, y. split; [exists K1, J1; auto | split; [exists K2, J2; auto | exists K3, J3; auto]].
Qed.

Lemma hexahedron_numbering : forall k i,
  entity_of (topology (Hypercube 3)) (DI k, i) ->
  exists a b c x y,
    (exists K I, unflatten_entity (TPCell [I1; I1; I1]) (Some (k, i)) = Ok (K, I) /\
       factor_entity [I1; I1; I1] (Some (K, I)) = Ok [a; b; c]) /\
    (exists K I, unflatten_entity (TPCell [Hypercube 2; I1]) (Some (k, i)) = Ok (K, I) /\
       factor_entity [Hypercube 2; I1] (Some (K, I)) = Ok [(DI x, y); c]) /\
    (exists K I, unflatten_entity (TPCell [I1; I1]) (Some (x, y)) = Ok (K, I) /\
       factor_entity [I1; I1] (Some (K, I)) = Ok [a; b]).
Proof.
  intros k i (n & Hn & Hi). apply hexcheck_ok. cbn [fst snd] in *.
  assert (G : forallb (fun kn => match fst kn with
      | DI k => forallb (fun i => hexcheck (k, i)) (seq 0 (snd kn)) | _ => false end) (topology (Hypercube 3)) = true)
    by (vm_compute; reflexivity).
  rewrite forallb_forall in G. specialize (G _ Hn). cbn [fst snd] in G.
  rewrite forallb_forall in G. apply G. apply in_seq. lia.
Qed.

Lemma interval_subentities :
  subentities_ok (topology I1) (get_dimension I1)
    [(DI 0, [(0, [(DI 0, 0)]); (1, [(DI 0, 1)])]); (DI 1, [(0, [(DI 0, 0); (DI 0, 1); (DI 1, 0)])])].
Proof.
  split; [split; [reflexivity|] | split].
  - intros k row [E|[E|[]]]; injection E as <- <-; eexists; (split; [cbn; eauto | reflexivity]).
  - intros k i l (row & [E|[E|[]]] & Hi); injection E as <- <-; cbn in Hi;
      repeat (destruct Hi as [Hi|Hi]; [injection Hi as <- <- | ]); try contradiction;
      (split; [repeat constructor; cbn; intuition discriminate | split; [cbn; auto | split]]).
    all: try (intros x Hx; cbn in Hx; repeat (destruct Hx as [<-|Hx]; [eexists; split; [cbn; eauto | cbn; lia]|]); contradiction).
    all: intros k' i' l' Hx (row' & [E|[E|[]]] & Hi'); injection E as <- <-; cbn in Hi', Hx; intuition; repeat match goal with H : (_, _) = (_, _) |- _ => injection H as; subst end; try discriminate; intros z Hz; cbn in *; intuition.
  - intros l (row & [E|[E|[]]] & Hi); inversion E; subst row.
    cbn in Hi. destruct Hi as [Hi|[]]. injection Hi as <-. intros [k i] (n & Hn & Hlt). cbn in Hn, Hlt.
    destruct Hn as [E'|[E'|[]]]; injection E' as <- <-; cbn in *; destruct i as [|[|i]]; auto; lia.
Qed.

Lemma two_summand_permutations :
  let p k := [(DI 1, [(0, [(0, seq 0 k); (1, rev (seq 0 k))])])] : edict (list (nat * list nat)) in
  Forall unique_keys [p 2; p 3] /\
  (forall el el' k i o q, In el [p 2; p 3] -> In el' [p 2; p 3] -> has_perm el k i o q -> exists q', has_perm el' k i o q') /\
  has_perm (concatenate_entity_permutations Nat.eqb [p 2; p 3]) (DI 1) 0 1 [1; 0; 4; 3; 2].
Proof.
  cbv zeta. split; [|split].
  - assert (G : forall k : nat, unique_keys ([(DI 1, [(0, [(0, seq 0 k); (1, rev (seq 0 k))])])] : edict (list (nat * list nat)))).
    { intros k. split; [repeat constructor; cbn; tauto | split].
      - intros k' row [E|[]]. injection E as <- <-. repeat constructor; cbn; tauto.
      - intros k' i m (row & [E|[]] & Hi). injection E as <- <-. destruct Hi as [Hi|[]]. injection Hi as <- <-.
        cbn [map fst]. apply (seq_NoDup 2 0). }
    constructor; [apply G | constructor; [apply G | constructor]].
  - assert (G : forall n m k i o q,
      has_perm ([(DI 1, [(0, [(0, seq 0 n); (1, rev (seq 0 n))])])] : edict (list (nat * list nat))) k i o q ->
      exists q', has_perm ([(DI 1, [(0, [(0, seq 0 m); (1, rev (seq 0 m))])])] : edict (list (nat * list nat))) k i o q').
    { intros n m k i o q (mm & (row & [E|[]] & Hi) & Ho). injection E as <- <-.
      destruct Hi as [Hi|[]]. injection Hi as <- <-. destruct Ho as [Ho|[Ho|[]]]; injection Ho as <- <-.
      - exists (seq 0 m). eexists. split; [eexists; split; [left; reflexivity | left; reflexivity] | left; reflexivity].
      - exists (rev (seq 0 m)). eexists. split; [eexists; split; [left; reflexivity | left; reflexivity] | right; left; reflexivity]. }
    intros el el' k i o q [<-|[<-|[]]] [<-|[<-|[]]]; apply G.
  - eexists. split; [eexists; split; [left; reflexivity | left; reflexivity] | right; left; reflexivity].
Qed.

Lemma discontinuous_layout : forall F (e : elt F) c d k i l, cell_of e = Ok c -> entity_dofs (EDiscontinuous e) = Ok d ->
  has_dofs d k i l -> l = if dimkey_eqb k (get_dimension c) && Nat.eqb i 0 then seq 0 (space_dimension e) else [].
Proof.
  intros F e c d k i l Hc Hd Hl. cbn [entity_dofs] in Hd. rewrite Hc in Hd. cbn [bind] in Hd.
  destruct (discontinuous_ok c (space_dimension e)) as (d' & E & (km & _) & Hk). rewrite Hd in E. injection E as <-.
  apply (has_dofs_get (topology c)) in Hl as (_ & _ & ->); [apply Hk | apply topology_NoDup | exact km].
Qed.
