(** Closures of entities. *)
From Coq Require Import List Arith Lia Bool Permutation Sorted.
From Verif Require Import Model.Prelude Model.Cell Model.Element Model.EntityMaps.
From Verif Require Import Spec.Rowmajor Spec.EntityDofs Spec.Layout.
From Verif Require Import Proofs.Lists Proofs.Cells Proofs.EntityDofs Proofs.EntityDofs2.
Import ListNotations.

Lemma NoDup_app_inv : forall A (a b : list A), NoDup (a ++ b) ->
  NoDup a /\ NoDup b /\ forall x, In x a -> In x b -> False.
Proof.
  induction a as [|x a IH]; intros b H; simpl in *.
  - repeat split; [constructor | exact H | intros x []].
  - inversion H as [|? ? Hn H']; subst. destruct (IH b H') as (Ha & Hb & Hd). repeat split.
    + constructor; [|exact Ha]. intros Hx; apply Hn, in_or_app; auto.
    + exact Hb.
    + intros y [<-|Hy] Hyb; [apply Hn, in_or_app; auto | eapply Hd; eauto].
Qed.

Lemma NoDup_app_intro : forall A (a b : list A), NoDup a -> NoDup b ->
  (forall x, In x a -> In x b -> False) -> NoDup (a ++ b).
Proof.
  induction 1 as [|x a Hx Ha IH]; intros Hb Hd; simpl; [exact Hb|]. constructor.
  - rewrite in_app_iff. intros [H|H]; [contradiction | apply (Hd x); [left; reflexivity | exact H]].
  - apply IH; [exact Hb|]. intros y Hy; apply Hd; right; exact Hy.
Qed.

Lemma flat_map_disjoint : forall A B (f : A -> list B) big, NoDup (flat_map f big) ->
  forall a b v, In a big -> In b big -> In v (f a) -> In v (f b) -> a = b.
Proof.
  induction big as [|x big IH]; intros ND a b v Ha Hb Hva Hvb; [destruct Ha|].
  simpl in ND. apply NoDup_app_inv in ND as (_ & ND & D).
  destruct Ha as [<-|Ha], Hb as [<-|Hb]; [reflexivity | | |].
  - exfalso; apply (D v Hva). apply in_flat_map; eauto.
  - exfalso; apply (D v Hvb). apply in_flat_map; eauto.
  - eapply IH; eauto.
Qed.

Lemma flat_map_NoDup_in : forall A B (f : A -> list B) big a, NoDup (flat_map f big) -> In a big -> NoDup (f a).
Proof.
  induction big as [|x big IH]; intros a ND H; [destruct H|].
  simpl in ND; apply NoDup_app_inv in ND as (N1 & N2 & _). destruct H as [<-|H]; auto.
Qed.

Lemma NoDup_flat_map_sub : forall A B (f : A -> list B) big sub, NoDup (flat_map f big) ->
  NoDup sub -> incl sub big -> NoDup (flat_map f sub).
Proof.
  intros A B f big sub ND Hs. induction Hs as [|a sub Ha Hs IH]; intros Hi; simpl; [constructor|].
  apply NoDup_app_intro.
  - eapply flat_map_NoDup_in; [exact ND | apply Hi; left; reflexivity].
  - apply IH. intros x Hx; apply Hi; right; exact Hx.
  - intros v Hv Hv'. apply in_flat_map in Hv' as (b & Hb & Hvb).
    assert (a = b); [|subst; contradiction].
    eapply flat_map_disjoint; [exact ND | apply Hi; left; reflexivity | apply Hi; right; exact Hb | exact Hv | exact Hvb].
Qed.

Definition all_entities (t : list (dimkey * nat)) (d : edofs) : list (dimkey * nat) :=
  flat_map (fun k => map (pair k) (seq 0 (cnt d k))) (map fst t).

Lemma dof_sum_entities : forall t d, dof_sum t d = flat_map (fun x => dof_at d (fst x) (snd x)) (all_entities t d).
Proof.
  intros t d. unfold dof_sum, all_entities. rewrite flat_map_flat_map.
  apply flat_map_ext_in. intros k _. rewrite flat_map_map. reflexivity.
Qed.

Lemma entity_all : forall t d x, NoDup (map fst t) -> keys_match t d ->
  (entity_of t x <-> In x (all_entities t d)).
Proof.
  intros t d [k i] tn km. unfold all_entities, entity_of. cbn [fst snd]. rewrite in_flat_map. split.
  - intros (n & Hn & Hi). exists k. split; [apply in_map_iff; exists (k, n); auto|].
    apply in_map. apply in_seq. rewrite (km_count_eq t d tn km k n Hn). lia.
  - intros (k' & Hk & H). apply in_map_iff in H as (j & E & Hj). injection E as -> ->.
    exists (cnt d k). split; [apply (km_count t d tn km k Hk)|]. apply in_seq in Hj; lia.
Qed.

Lemma sorted_in : forall A (leb : A -> A -> bool) l x, In x (sorted leb l) <-> In x l.
Proof.
  intros. split; apply Permutation_in; [|symmetry]; apply sorted_perm.
Qed.

Lemma has_dofs_fun : forall V t (d : edict V) k i l l', NoDup (map fst t) -> keys_match t d ->
  has_dofs d k i l -> has_dofs d k i l' -> l = l'.
Proof.
  intros V t d k i l l' tn km (r & Hr & Hi) (r' & Hr' & Hi').
  assert (E1 := km_rowof t d tn km _ _ Hr). assert (E2 := km_rowof t d tn km _ _ Hr'). rewrite <- E2, E1 in Hi'.
  assert (Hk := km_key t d tn km _ _ Hr).
  assert (ND := km_row_NoDup t d tn km k Hk). rewrite E1 in ND.
  pose proof (dict_in_get _ nat_eqb_spec _ _ _ ND Hi) as G.
  pose proof (dict_in_get _ nat_eqb_spec _ _ _ ND Hi') as G'. congruence.
Qed.

Section Closure.
  Variable c : cell.
  Variable n : nat.
  Variable d : edofs.
  Variable subs : edict (list (dimkey * nat)).
  Hypothesis ok : edofs_ok (topology c) n d.
  Hypothesis so : subentities_ok (topology c) (get_dimension c) subs.

  Let t := topology c.
  Let tn : NoDup (map fst t) := topology_NoDup c.
  Let km : keys_match t d := proj1 ok.

  Definition clo (l : list (dimkey * nat)) : list nat :=
    sorted Nat.leb (flat_map (fun x => dof_at d (fst x) (snd x)) l).

  Lemma closure_ok : entity_closure_dofs subs d
    = Ok (map (fun kr => (fst kr, map (fun es => (fst es, clo (snd es))) (snd kr))) subs).
  Proof using All.
    unfold entity_closure_dofs. apply mapM_all_ok. intros [k row] Hr. cbn [fst snd].
    rewrite (mapM_all_ok _ _ _ (fun es => (fst es, clo (snd es)))); [reflexivity|].
    intros [i l] Hi. cbn [fst snd].
    destruct so as (_ & S & _). destruct (S k i l) as (_ & _ & V & _); [exists row; auto|].
    rewrite (mapM_all_ok _ _ _ (fun x => dof_at d (fst x) (snd x))).
    - cbn [bind]. unfold clo. rewrite flat_map_concat_map. reflexivity.
    - intros [k' i'] Hx. cbn [fst snd]. destruct (V _ Hx) as (m & Hm & Hlt). cbn [fst snd] in *.
      assert (Hk : In k' (map fst t)) by (apply in_map_iff; exists (k', m); auto).
      destruct (km_row t d tn km k' Hk) as [-> _]. cbn [bind].
      destruct (km_entry t d tn km k' i' Hk) as (l' & Hl & _); [rewrite (km_count_eq t d tn km k' m Hm); exact Hlt|].
      unfold dof_at, inrow. rewrite Hl. reflexivity.
  Qed.

  Lemma sorted_strict : forall l, NoDup l -> StronglySorted lt (sorted Nat.leb l).
  Proof using.
    intros l ND. apply StronglySorted_le_lt.
    - apply (sorted_sorted Nat.leb leb_total_nat leb_trans_nat l).
    - eapply Permutation_NoDup; [symmetry; apply sorted_perm | exact ND].
  Qed.

  Lemma all_NoDup : NoDup (flat_map (fun x => dof_at d (fst x) (snd x)) (all_entities t d)).
  Proof using All.
    rewrite <- dof_sum_entities. eapply Permutation_NoDup; [apply dof_sum_all; assumption|].
    eapply Permutation_NoDup; [symmetry; apply ok | apply seq_NoDup].
  Qed.

  Lemma closure_spec : exists cl, entity_closure_dofs subs d = Ok cl /\
    keys_match (topology c) cl /\
    (forall k i l, has_dofs cl k i l ->
       StronglySorted lt l /\
       forall v, In v l <-> exists s k' i' l', has_dofs subs k i s /\ In (k', i') s /\
                              has_dofs d k' i' l' /\ In v l') /\
    (forall k i l k' i' l' s, has_dofs cl k i l -> has_dofs cl k' i' l' ->
       has_dofs subs k i s -> In (k', i') s -> incl l' l) /\
    (forall l, has_dofs cl (get_dimension c) 0 l -> l = seq 0 n).
  Proof using All.
    pose proof so as (kms & S & T). unfold t in *.
    set (cl := map (fun kr => (fst kr, map (fun es => (fst es, clo (snd es))) (snd kr))) subs).
    assert (HC : forall k i l, has_dofs cl k i l <-> exists s, has_dofs subs k i s /\ l = clo s).
    { intros k i l. unfold cl. split.
      - intros (row & Hr & Hi). apply in_map_iff in Hr as ([k0 row0] & E & Hr). injection E as -> <-.
        apply in_map_iff in Hi as ([i0 s] & E & Hi). injection E as -> <-. exists s; split; [exists row0; auto | reflexivity].
      - intros (s & (row & Hr & Hi) & ->). eexists. split.
        + apply in_map_iff. exists (k, row). split; [reflexivity | exact Hr].
        + apply in_map_iff. exists (i, s). split; [reflexivity | exact Hi]. }
    assert (V : forall s v, (forall x, In x s -> entity_of (topology c) x) ->
       (In v (clo s) <-> exists k' i' l', In (k', i') s /\ has_dofs d k' i' l' /\ In v l')).
    { intros s v Hs. unfold clo. rewrite sorted_in, in_flat_map. split.
      - intros ([k' i'] & Hx & Hv). exists k', i', (dof_at d k' i'). split; [exact Hx|]. split; [|exact Hv].
        apply (has_dofs_get (topology c)); [exact tn | exact km|].
        destruct (Hs _ Hx) as (m & Hm & Hlt). cbn [fst snd] in *.
        split; [apply in_map_iff; exists (k', m); auto|]. split; [|reflexivity].
        rewrite (km_count_eq (topology c) d tn km k' m Hm). exact Hlt.
      - intros (k' & i' & l' & Hx & Hh & Hv). exists (k', i'). split; [exact Hx|].
        apply (has_dofs_get (topology c)) in Hh as (_ & _ & ->); [exact Hv | exact tn | exact km]. }
    exists cl. split; [exact closure_ok|]. split; [|split; [|split]].
    - destruct kms as [K1 K2]. split.
      + unfold cl. rewrite map_map. exact K1.
      + intros k row Hr. unfold cl in Hr. apply in_map_iff in Hr as ([k0 row0] & E & Hr). injection E as -> <-.
        destruct (K2 _ _ Hr) as (m & Hm & P). exists m. split; [exact Hm|].
        cbn [snd]. rewrite map_map. exact P.
    - intros k i l Hh. apply HC in Hh as (s & Hs & ->). destruct (S _ _ _ Hs) as (ND & _ & Va & _). split.
      + apply sorted_strict. eapply NoDup_flat_map_sub; [apply all_NoDup | exact ND |].
        intros x Hx. apply entity_all; [exact tn | exact km | apply Va; exact Hx].
      + intros v. rewrite (V s v Va). split.
        * intros (k' & i' & l' & H). exists s, k', i', l'. tauto.
        * intros (s' & k' & i' & l' & Hs' & Hx & H). exists k', i', l'.
          assert (s' = s); [|subst s'; tauto].
          eapply has_dofs_fun; [exact tn | exact kms | exact Hs' | exact Hs].
    - intros k i l k' i' l' s Hl Hl' Hs Hx. apply HC in Hl as (s1 & Hs1 & ->). apply HC in Hl' as (s2 & Hs2 & ->).
      assert (E : s1 = s).
      { eapply has_dofs_fun; [exact tn | exact kms | exact Hs1 | exact Hs]. }
      subst s1. destruct (S _ _ _ Hs) as (_ & _ & Va & Tr). destruct (S _ _ _ Hs2) as (_ & _ & Va2 & _).
      specialize (Tr _ _ _ Hx Hs2). intros v Hv. apply (V _ _ Va). apply (V _ _ Va2) in Hv as (a & b & l0 & H1 & H2 & H3).
      exists a, b, l0. split; [apply Tr; exact H1 | auto].
    - intros l Hh. apply HC in Hh as (s & Hs & ->). destruct (S _ _ _ Hs) as (ND & _ & Va & _).
      unfold clo. apply sorted_perm_seq.
      transitivity (dof_sum (topology c) d).
      + rewrite dof_sum_entities. apply flat_map_perm. apply NoDup_Permutation; [exact ND | |].
        * unfold all_entities. assert (forall (l : list dimkey), NoDup l -> NoDup (flat_map (fun k => map (pair k) (seq 0 (cnt d k))) l)) as G.
          { induction 1 as [|k0 l0 Hk Hl IH]; simpl; [constructor|]. apply NoDup_app_intro; [|exact IH|].
            - apply FinFun.Injective_map_NoDup; [intros a b; congruence | apply seq_NoDup].
            - intros x Hx Hx'. apply in_map_iff in Hx as (j & <- & _).
              apply in_flat_map in Hx' as (k1 & Hk1 & Hx'). apply in_map_iff in Hx' as (j' & E & _).
              injection E as -> _. contradiction. }
          apply G; exact tn.
        * intros x. split; intros Hx.
          -- apply entity_all; [exact tn | exact km | apply Va; exact Hx].
          -- apply (T s Hs). apply (entity_all (topology c) d x tn km) in Hx. exact Hx.
      + rewrite <- dof_sum_all by assumption. apply ok.
  Qed.
End Closure.

Theorem closure_main : forall F (e : elt F) c subs,
  leaves_ok e -> sensible e -> cell_of e = Ok c -> subentities_ok (topology c) (get_dimension c) subs ->
  exists d cl, entity_dofs e = Ok d /\ entity_closure_dofs subs d = Ok cl /\
    keys_match (topology c) cl /\
    (forall k i l, has_dofs cl k i l ->
       StronglySorted lt l /\
       forall v, In v l <-> exists s k' i' l', has_dofs subs k i s /\ In (k', i') s /\
                              has_dofs d k' i' l' /\ In v l') /\
    (forall k i l k' i' l' s, has_dofs cl k i l -> has_dofs cl k' i' l' ->
       has_dofs subs k i s -> In (k', i') s -> incl l' l) /\
    (forall l, has_dofs cl (get_dimension c) 0 l -> l = seq 0 (space_dimension e)).
Proof.
  intros F e c subs L S Ec So. destruct (entity_dofs_main F e L S c Ec) as (d & Ed & ok).
  destruct (closure_spec c (space_dimension e) d subs ok So) as (cl & H). exists d, cl. tauto.
Qed.
