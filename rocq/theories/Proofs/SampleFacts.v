(** The sample leaves meet the contract. *)
From Coq Require Import List Arith Lia Permutation Bool.
From Verif Require Import Model.Prelude Model.Cell Model.Element Spec.Rowmajor Spec.EntityDofs Spec.Layout Spec.Samples.
From Verif Require Import Proofs.Lists Proofs.Cells.
Import ListNotations.

(** Boolean forms of the hypotheses, to be computed. *)
Definition perm_seqb (l : list nat) (n : nat) : bool :=
  list_eqb Nat.eqb (sorted Nat.leb l) (seq 0 n).
Lemma perm_seqb_ok : forall l n, perm_seqb l n = true -> Permutation l (seq 0 n).
Proof.
  intros l n H. unfold perm_seqb in H. destruct (list_eqb_spec _ _ nat_eqb_spec (sorted Nat.leb l) (seq 0 n)) as [E|]; [|discriminate].
  rewrite <- E. symmetry. apply sorted_perm.
Qed.

Definition edofs_okb (t : list (dimkey * nat)) (n : nat) (d : edofs) : bool :=
  list_eqb dimkey_eqb (map fst d) (map fst t) &&
  forallb (fun kr => match dict_get dimkey_eqb t (fst kr) with
                     | Ok c => perm_seqb (map fst (snd kr)) c | Err _ => false end) d &&
  perm_seqb (concat (all_lists d)) n.
Lemma edofs_okb_ok : forall t n d, edofs_okb t n d = true -> edofs_ok t n d.
Proof.
  intros t n d H. unfold edofs_okb in H. apply andb_prop in H as [H H3]. apply andb_prop in H as [H1 H2].
  destruct (list_eqb_spec _ _ dimkey_eqb_spec (map fst d) (map fst t)) as [E|]; [|discriminate].
  split; [split|].
  - rewrite E. reflexivity.
  - intros k row Hr. rewrite forallb_forall in H2. specialize (H2 _ Hr). cbn [fst snd] in H2.
    destruct (dict_get dimkey_eqb t k) as [c|] eqn:G; [|discriminate].
    exists c. split; [apply (dict_get_in _ dimkey_eqb_spec); exact G | apply perm_seqb_ok; exact H2].
  - apply perm_seqb_ok; exact H3.
Qed.

Definition leaf_okb {F} (l : leaf F) : bool :=
  edofs_okb (topology (lf_cell l)) (lf_dim l) (lf_edofs l) &&
  Nat.eqb (fold_right Nat.mul 1 (lf_ishape l)) (lf_dim l).
Lemma leaf_okb_ok : forall F (l : leaf F), leaf_okb l = true -> leaf_ok l.
Proof.
  intros F l H. apply andb_prop in H as [H1 H2]. split; [apply edofs_okb_ok; exact H1 | apply Nat.eqb_eq; exact H2].
Qed.

Fixpoint all_leaves {F} (e : elt F) : list (leaf F) :=
  match e with
  | ELeaf l => [l]
  | ETensorProduct fs => flat_map all_leaves fs
  | ETensor b _ _ => all_leaves b
  | EEnriched es => flat_map all_leaves es
  | EMixedSub e' _ _ => all_leaves e'
  | EFlattened p => all_leaves p
  | EDiscontinuous e' => all_leaves e'
  | EHDiv w => all_leaves w
  | EHCurl w => all_leaves w
  end.

Lemma all_leaves_of : forall F (l : leaf F) e, leaf_of l e -> In l (all_leaves e).
Proof.
  intros F l e H. induction H; cbn [all_leaves]; auto; try (left; reflexivity);
    apply in_flat_map; eauto.
Qed.

Lemma leaves_okb : forall F (e : elt F), forallb leaf_okb (all_leaves e) = true ->
  forall l, leaf_of l e -> leaf_ok l.
Proof.
  intros F e H l Hl. rewrite forallb_forall in H. apply leaf_okb_ok, H, all_leaves_of, Hl.
Qed.

Fixpoint all_subs {F} (e : elt F) : list (elt F) :=
  e :: match e with
  | ELeaf l => []
  | ETensorProduct fs => flat_map all_subs fs
  | ETensor b _ _ => all_subs b
  | EEnriched es => flat_map all_subs es
  | EMixedSub e' _ _ => all_subs e'
  | EFlattened p => all_subs p
  | EDiscontinuous e' => all_subs e'
  | EHDiv w => all_subs w
  | EHCurl w => all_subs w
  end.

Lemma all_subs_of : forall F (s e : elt F), subelt s e -> In s (all_subs e).
Proof.
  intros F s e H. induction H; cbn [all_subs].
  - destruct e; left; reflexivity.
  - right. apply in_flat_map; eauto.
  - right; auto.
  - right. apply in_flat_map; eauto.
  - right; auto.
  - right; auto.
  - right; auto.
  - right; auto.
  - right; auto.
Qed.

Fixpoint cube_cellb (c : cell) : bool :=
  match c with
  | Simplex d => d <=? 1
  | Hypercube _ => true
  | TPCell cs => forallb cube_cellb cs
  end.

Lemma cube_cellb_ok : forall c, cube_cellb c = true -> cube_cell c.
Proof.
  intros c. induction c as [d|cs IH|d] using cell_ind'; cbn [cube_cellb]; intros H.
  - apply Nat.leb_le in H. destruct d as [|[|d]]; [constructor | constructor | lia].
  - constructor. rewrite forallb_forall in H. rewrite Forall_forall in IH |- *. intros c Hc. apply IH; auto.
  - constructor.
Qed.

Definition sensibleb {F} (e : elt F) : bool :=
  forallb (fun s => match s with
                    | ETensorProduct [] => false
                    | EFlattened p => match cell_of p with Ok c => cube_cellb c | Err _ => true end
                    | _ => true end) (all_subs e).

Lemma sensibleb_ok : forall F (e : elt F), sensibleb e = true -> sensible e.
Proof.
  intros F e H. unfold sensibleb in H. rewrite forallb_forall in H. split.
  - intros fs Hs ->. specialize (H _ (all_subs_of _ _ _ Hs)). discriminate.
  - intros p c Hs Ec. specialize (H _ (all_subs_of _ _ _ Hs)). cbn in H. rewrite Ec in H.
    apply cube_cellb_ok; exact H.
Qed.

(** Prove [forall l, leaf_of l e -> leaf_ok l], [sensible e] for a concrete tree. *)
Ltac leaves := apply leaves_okb; vm_compute; reflexivity.
Ltac is_sensible := apply sensibleb_ok; vm_compute; reflexivity.
