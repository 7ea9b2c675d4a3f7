(** Entity permutations of all element trees. *)
From Coq Require Import List Arith Lia Bool Permutation Sorted.
From Verif Require Import Model.Prelude Model.Cell Model.Element Model.EntityMaps Model.Permutations.
From Verif Require Import Spec.Rowmajor Spec.EntityDofs Spec.Layout Spec.Permutations.
From Verif Require Import Proofs.Lists Proofs.Cells Proofs.Cubes Proofs.EntityDofs Proofs.EntityDofs2
  Proofs.Layout Proofs.Closure Proofs.Flatten Proofs.Perms Proofs.TreePerms.
Import ListNotations.

(* ------------------------------------------------------------------ *)
(** ** Equality of dof dictionaries *)

Lemma row_eqb_spec : forall a b n, Permutation (map fst a) (seq 0 n) -> Permutation (map fst b) (seq 0 n) ->
  (row_eqb a b = true <-> forall i l, In (i, l) a -> In (i, l) b).
Proof.
  intros a b n Pa Pb. unfold row_eqb.
  assert (La := Permutation_length Pa). assert (Lb := Permutation_length Pb).
  rewrite map_length, seq_length in La, Lb.
  replace (length a =? length b) with true by (symmetry; apply Nat.eqb_eq; congruence). cbn [andb].
  rewrite forallb_forall. split.
  - intros H i l Hi. specialize (H _ Hi). cbn [fst snd] in H.
    destruct (dict_get Nat.eqb b i) as [w|] eqn:G; [|discriminate].
    destruct (list_eqb_spec _ _ nat_eqb_spec l w) as [->|]; [|discriminate].
    apply (dict_get_in _ nat_eqb_spec). exact G.
  - intros H [i l] Hi. cbn [fst snd]. specialize (H _ _ Hi).
    assert (N : NoDup (map fst b)) by (eapply Perm_NoDup; [exact Pb | apply seq_NoDup]).
    rewrite (dict_in_get _ nat_eqb_spec b i l N H).
    destruct (list_eqb_spec _ _ nat_eqb_spec l l); congruence.
Qed.

Lemma edofs_eqb_spec : forall t a b, NoDup (map fst t) -> keys_match t a -> keys_match t b ->
  (edofs_eqb a b = true <-> forall k i l, has_dofs a k i l -> has_dofs b k i l).
Proof.
  intros t a b tn ka kb. unfold edofs_eqb.
  assert (La := Permutation_length (proj1 ka)). assert (Lb := Permutation_length (proj1 kb)).
  rewrite !map_length in La, Lb.
  replace (length a =? length b) with true by (symmetry; apply Nat.eqb_eq; congruence). cbn [andb].
  rewrite forallb_forall.
  assert (G : forall k row, In (k, row) a -> dict_get dimkey_eqb b k = Ok (rowof b k) /\
     (row_eqb row (rowof b k) = true <-> forall i l, In (i, l) row -> In (i, l) (rowof b k))).
  { intros k row Hr. assert (Hk := km_key t a tn ka k row Hr). destruct (km_row t b tn kb k Hk) as [E _].
    split; [exact E|]. destruct (proj2 ka _ _ Hr) as (n & Hn & P). apply (row_eqb_spec _ _ n); [exact P|].
    destruct (km_count t b tn kb k Hk) as [_ Pb]. rewrite (km_count_eq t b tn kb k n Hn) in Pb. exact Pb. }
  split.
  - intros H k i l (row & Hr & Hi). specialize (H _ Hr). cbn [fst snd] in H.
    destruct (G k row Hr) as [E R]. rewrite E in H. exists (rowof b k).
    split; [apply (km_row t b tn kb k), (km_key t a tn ka k row Hr) | apply R; assumption].
  - intros H [k row] Hr. cbn [fst snd]. destruct (G k row Hr) as [E R]. rewrite E. apply R.
    intros i l Hi. destruct (H k i l) as (row' & Hr' & Hi'); [exists row; auto|].
    rewrite (km_rowof t b tn kb k row' Hr'). exact Hi'.
Qed.

(* ------------------------------------------------------------------ *)
(** ** Elements with interior dofs only *)

Section Interior.
  Variable c : cell.
  Variable n : nat.
  Variable d : edofs.
  Hypothesis ok : edofs_ok (topology c) n d.

  Let t := topology c.
  Let tn : NoDup (map fst t) := topology_NoDup c.
  Let km : keys_match t d := proj1 ok.

  Lemma cell_key : In (get_dimension c) (map fst t) /\ cnt d (get_dimension c) = 1.
  Proof using All.
    assert (H := cell_in_topology c). split.
    - apply in_map_iff. exists (get_dimension c, 1). auto.
    - apply (km_count_eq t d tn km). exact H.
  Qed.

  Lemma has_cell : has_dofs d (get_dimension c) 0 (dof_at d (get_dimension c) 0).
  Proof using All.
    apply (has_dofs_get t d _ _ _ tn km). destruct cell_key as [A B]. rewrite B. repeat split; auto.
  Qed.

  (** Every dof is listed somewhere, once. *)
  Lemma dof_listed : forall v, v < n -> exists k i l, has_dofs d k i l /\ In v l.
  Proof using All.
    intros v Hv. assert (H : In v (concat (all_lists d))).
    { eapply Permutation_in; [symmetry; apply ok|]. apply in_seq; lia. }
    apply in_concat in H as (l & Hl & Hin). unfold all_lists in Hl.
    apply in_flat_map in Hl as ([k row] & Hr & Hl). apply in_map_iff in Hl as ([i l'] & E & Hi).
    cbn in E. subst l'. exists k, i, l. split; [exists row; auto | exact Hin].
  Qed.

  Lemma dof_unique : forall k i l k' i' l' v, has_dofs d k i l -> has_dofs d k' i' l' ->
    In v l -> In v l' -> k = k' /\ i = i'.
  Proof using All.
    intros k i l k' i' l' v H H' V V'.
    apply (has_dofs_get t d _ _ _ tn km) in H as (Hk & Hi & ->).
    apply (has_dofs_get t d _ _ _ tn km) in H' as (Hk' & Hi' & ->).
    assert (ND : NoDup (flat_map (fun x => dof_at d (fst x) (snd x)) (all_entities t d))).
    { rewrite <- dof_sum_entities. eapply Permutation_NoDup; [apply dof_sum_all; assumption|].
      eapply Permutation_NoDup; [symmetry; apply ok | apply seq_NoDup]. }
    assert (EN : forall kk ii, In kk (map fst t) -> ii < cnt d kk -> In (kk, ii) (all_entities t d)).
    { intros kk ii A B. apply in_flat_map. exists kk. split; [exact A|]. apply in_map. apply in_seq; lia. }
    assert (E : (k, i) = (k', i')); [|injection E; auto].
    eapply (flat_map_disjoint _ _ _ _ ND (k, i) (k', i') v); auto.
  Qed.

  Lemma dof_bound : forall k i l v, has_dofs d k i l -> In v l -> v < n.
  Proof using All.
    intros k i l v H V. apply (has_dofs_get t d _ _ _ tn km) in H as (Hk & Hi & ->).
    eapply dof_lt; [exact tn | exact ok | exact Hk | exact Hi | exact V].
  Qed.

  Definition interior_only : Prop := forall k i l, has_dofs d k i l ->
    StronglySorted lt l /\ (l <> [] -> k = get_dimension c /\ i = 0).

  Lemma interior_lists : interior_only -> forall k i l, has_dofs d k i l ->
    l = if dimkey_eqb k (get_dimension c) && Nat.eqb i 0 then seq 0 n else [].
  Proof using All.
    intros IO k i l H. destruct (IO _ _ _ H) as [S E].
    destruct (dimkey_eqb_spec k (get_dimension c)) as [->|Nk]; cbn [andb].
    2:{ destruct l as [|v l]; [reflexivity|]. destruct E as [E _]; [discriminate | congruence]. }
    destruct (Nat.eqb_spec i 0) as [->|Ni].
    2:{ destruct l as [|v l]; [reflexivity|]. destruct E as [_ E]; [discriminate | congruence]. }
    apply StronglySorted_lt_perm_eq; [exact S | apply seq_StronglySorted |].
    apply NoDup_Permutation.
    - clear - S. induction S as [|a l S IH Fa]; constructor; [|exact IH].
      intros Hin. rewrite Forall_forall in Fa. specialize (Fa _ Hin). lia.
    - apply seq_NoDup.
    - intros v. rewrite in_seq. split.
      + intros V. split; [lia|]. cbn. eapply dof_bound; eassumption.
      + intros [_ V]. destruct (dof_listed v V) as (k' & i' & l' & H' & V').
        destruct (IO _ _ _ H') as [_ E']. destruct E' as [-> ->]; [intros ->; destruct V'|].
        rewrite (has_dofs_fun _ t d _ _ _ _ tn km H H'). exact V'.
  Qed.

  Variable subs : edict (list (dimkey * nat)).
  Hypothesis so : subentities_ok (topology c) (get_dimension c) subs.
  Hypothesis top : forall k i l, has_dofs subs k i l -> In (get_dimension c, 0) l -> k = get_dimension c /\ i = 0.

  Lemma closure_interior : exists cl, entity_closure_dofs subs d = Ok cl /\
    (edofs_eqb d cl = true <-> interior_only).
  Proof using All.
    destruct (closure_spec c n d subs ok so) as (cl & E & kc & V & _ & W).
    exists cl. split; [exact E|]. rewrite (edofs_eqb_spec t d cl tn km kc). split.
    - intros H k i l Hl. specialize (H _ _ _ Hl) as Hc. split; [apply (V _ _ _ Hc)|].
      intros NE. destruct l as [|v l]; [congruence|].
      assert (Hv : v < n) by (eapply dof_bound; [exact Hl | left; reflexivity]).
      assert (Hcell := has_cell). assert (Hcl := H _ _ _ Hcell). apply W in Hcl.
      eapply dof_unique; [exact Hl | exact Hcell | left; reflexivity |].
      rewrite Hcl. apply in_seq; lia.
    - intros IO k i l Hl. assert (El := interior_lists IO _ _ _ Hl).
      assert (Hk : In k (map fst t) /\ i < cnt cl k).
      { apply (has_dofs_get t d _ _ _ tn km) in Hl as (Hk & Hi & _). split; [exact Hk|].
        destruct (km_count t d tn km k Hk) as [Hn _]. rewrite (km_count_eq t cl tn kc k _ Hn). exact Hi. }
      assert (Hcl : has_dofs cl k i (dof_at cl k i)) by (apply (has_dofs_get t cl _ _ _ tn kc); tauto).
      replace l with (dof_at cl k i); [exact Hcl|].
      destruct (V _ _ _ Hcl) as [Sc Vc]. destruct (IO _ _ _ Hl) as [Sl _].
      destruct (dimkey_eqb_spec k (get_dimension c)) as [->|Nk]; cbn [andb] in El.
      + destruct (Nat.eqb_spec i 0) as [->|Ni]; [rewrite (W _ Hcl); congruence|].
        destruct cell_key as [_ B]. destruct Hk as [_ Hk].
        rewrite (km_count_eq t cl tn kc _ _ (cell_in_topology c)) in Hk. lia.
      + subst l. destruct (dof_at cl k i) as [|v r] eqn:Ev; [reflexivity|]. exfalso.
        destruct (proj1 (Vc v)) as (s & k' & i' & l' & Hs & Hin & Hl' & Hv); [left; reflexivity|].
        destruct (IO _ _ _ Hl') as [_ E']. destruct E' as [-> ->]; [intros ->; destruct Hv|].
        apply Nk. eapply (top _ _ _ Hs Hin).
  Qed.
End Interior.

(* ------------------------------------------------------------------ *)
(** ** Merging *)

Section MergeKeys.
  Context {K V W : Type} (eqb : K -> K -> bool).
  Hypothesis sp : forall a b, reflect (a = b) (eqb a b).
  Variable dflt : V.
  Variable upd : V -> W -> V.

  Lemma merge_in : forall (d : list (K * V)) items, NoDup (map fst d) -> NoDup (map fst items) ->
    d = [] \/ (forall x, In x (map fst d) <-> In x (map fst items)) ->
    NoDup (map fst (dict_merge eqb dflt upd d items)) /\
    (forall x, In x (map fst (dict_merge eqb dflt upd d items)) <-> In x (map fst items)) /\
    (forall k v, In (k, v) (dict_merge eqb dflt upd d items) ->
       exists a w, (d = [] /\ a = dflt \/ In (k, a) d) /\ In (k, w) items /\ v = upd a w).
  Proof using sp.
    intros d items Nd Ni S.
    assert (N := merge_NoDup eqb sp dflt upd items d Nd). split; [exact N|].
    assert (G : forall k, dict_get eqb (dict_merge eqb dflt upd d items) k
              = merge_opt dflt upd (dict_get eqb d k) (dict_get eqb items k)).
    { intros k. apply (merge_get _ sp). exact Ni. }
    split.
    - intros x. split; intros H.
      + destruct (dict_get_some _ sp _ _ H) as [v Hv]. rewrite G in Hv.
        destruct (dict_get eqb items x) as [w|] eqn:Ew; [apply in_map_iff; exists (x, w); split; [reflexivity | apply (dict_get_in _ sp); exact Ew]|].
        destruct (dict_get eqb d x) as [a|] eqn:Ea; [|discriminate].
        apply (dict_get_in _ sp) in Ea. destruct S as [->|S]; [destruct Ea|].
        apply S. apply in_map_iff. exists (x, a). auto.
      + destruct (dict_get_some _ sp _ _ H) as [w Hw].
        assert (exists v, dict_get eqb (dict_merge eqb dflt upd d items) x = Ok v) as [v Hv].
        { rewrite G, Hw. destruct (dict_get eqb d x); cbn [merge_opt]; eauto. }
        apply in_map_iff. exists (x, v). split; [reflexivity | apply (dict_get_in _ sp); exact Hv].
    - intros k v H. apply (dict_in_get _ sp _ _ _ N) in H. rewrite G in H.
      destruct (dict_get eqb items k) as [w|] eqn:Ew.
      + apply (dict_get_in _ sp) in Ew. destruct (dict_get eqb d k) as [a|] eqn:Ea; cbn [merge_opt] in H; injection H as <-.
        * exists a, w. split; [right; apply (dict_get_in _ sp); exact Ea | auto].
        * exists dflt, w. split; [left | auto]. split; [|reflexivity].
          destruct S as [->|S]; [reflexivity|]. exfalso.
          assert (Hk : In k (map fst d)) by (apply S, in_map_iff; exists (k, w); auto).
          destruct (dict_get_some _ sp _ _ Hk) as [a Ha]. congruence.
      + destruct (dict_get eqb d k) as [a|] eqn:Ea; [|discriminate].
        apply (dict_get_in _ sp) in Ea. destruct S as [->|S]; [destruct Ea|]. exfalso.
        assert (Hk : In k (map fst items)) by (apply S, in_map_iff; exists (k, a); auto).
        destruct (dict_get_some _ sp _ _ Hk) as [w Hw]. congruence.
  Qed.
End MergeKeys.

Lemma same_in_perm : forall A (l l' : list A), NoDup l -> NoDup l' -> (forall x, In x l <-> In x l') -> Permutation l l'.
Proof. intros; apply NoDup_Permutation; assumption. Qed.

Section AddKeys.
  Context {O : Type} (oeqb : O -> O -> bool).
  Hypothesis osp : forall a b, reflect (a = b) (oeqb a b).
  Variable os : dimkey -> list O.
  Local Notation omap := (list (O * list nat)).

  Definition fits_keys (t : list (dimkey * nat)) (ep : edict omap) : Prop :=
    keys_match t ep /\ forall k i m, has_dofs ep k i m -> one_per (os k) m.

  Lemma fits_row : forall t ep k row, NoDup (map fst t) -> fits_keys t ep -> In (k, row) ep ->
    exists n, In (k, n) t /\ Permutation (map fst row) (seq 0 n) /\ forall i m, In (i, m) row -> one_per (os k) m.
  Proof using.
    intros t ep k row tn [km one] H. destruct (proj2 km _ _ H) as (n & Hn & P).
    exists n. split; [exact Hn|]. split; [exact P|]. intros i m Hi. apply (one k i m). exists row; auto.
  Qed.

  Lemma add_fits : forall t acc el, NoDup (map fst t) -> acc = [] \/ fits_keys t acc -> fits_keys t el ->
    fits_keys t (add_permutations oeqb acc el).
  Proof using osp.
    intros t acc el tn Ha He. unfold add_permutations.
    assert (Ne : NoDup (map fst el)) by (eapply km_NoDup; [exact tn | apply He]).
    destruct (merge_in dimkey_eqb dimkey_eqb_spec [] (dict_merge Nat.eqb [] (dict_merge oeqb [] append_shifted)) acc el)
      as (N & Keys & Vals); [| exact Ne | |].
    { destruct Ha as [->|Ha]; [constructor | eapply km_NoDup; [exact tn | apply Ha]]. }
    { destruct Ha as [->|Ha]; [left; reflexivity | right]. intros x.
      rewrite (proj1 (proj1 Ha)), (proj1 (proj1 He)). reflexivity. }
    assert (R : forall k row, In (k, row) (dict_merge dimkey_eqb [] (dict_merge Nat.eqb [] (dict_merge oeqb [] append_shifted)) acc el) ->
      exists n, In (k, n) t /\ Permutation (map fst row) (seq 0 n) /\ forall i m, In (i, m) row -> one_per (os k) m).
    { intros k row H. apply Vals in H as (a & w & Hav & Hw & ->).
      destruct (fits_row t el k w tn He Hw) as (n & Hn & Pw & Ow).
      assert (Aok : a = [] \/ (Permutation (map fst a) (seq 0 n) /\ forall i m, In (i, m) a -> one_per (os k) m)).
      { destruct Hav as [[_ ->]|Hav]; [left; reflexivity|].
        destruct Ha as [->|Ha]; [destruct Hav|]. right.
        destruct (fits_row t acc k a tn Ha Hav) as (n' & Hn' & Pa & Oa).
        assert (n' = n) as ->; [|split; assumption].
        pose proof (dict_in_get _ dimkey_eqb_spec _ _ _ tn Hn) as G1.
        pose proof (dict_in_get _ dimkey_eqb_spec _ _ _ tn Hn') as G2. congruence. }
      assert (Nw : NoDup (map fst w)) by (eapply Perm_NoDup; [exact Pw | apply seq_NoDup]).
      destruct (merge_in Nat.eqb nat_eqb_spec [] (dict_merge oeqb [] append_shifted) a w)
        as (N1 & K1 & V1); [| exact Nw | |].
      { destruct Aok as [->|[Pa _]]; [constructor | eapply Perm_NoDup; [exact Pa | apply seq_NoDup]]. }
      { destruct Aok as [->|[Pa _]]; [left; reflexivity | right]. intros x. rewrite Pa, Pw. reflexivity. }
      exists n. split; [exact Hn|]. split.
      - rewrite <- Pw. apply same_in_perm; [exact N1 | exact Nw | exact K1].
      - intros i m Hm. apply V1 in Hm as (b & x & Hb & Hx & ->).
        destruct (Ow _ _ Hx) as [Nx Ox].
        assert (Bok : b = [] \/ one_per (os k) b).
        { destruct Hb as [[_ ->]|Hb]; [left; reflexivity | right].
          destruct Aok as [->|[_ Oa]]; [destruct Hb | apply (Oa _ _ Hb)]. }
        destruct (merge_in oeqb osp [] append_shifted b x) as (N2 & K2 & _); [| exact Nx | |].
        { destruct Bok as [->|[Nb _]]; [constructor | exact Nb]. }
        { destruct Bok as [->|[_ Ob]]; [left; reflexivity | right]. intros o. rewrite Ob, Ox. reflexivity. }
        split; [exact N2|]. intros o. rewrite K2. apply Ox. }
    split; [split|].
    - rewrite <- (proj1 (proj1 He)). apply same_in_perm; [exact N | exact Ne | exact Keys].
    - intros k row H. destruct (R _ _ H) as (n & Hn & P & _). exists n; auto.
    - intros k i m (row & Hr & Hi). destruct (R _ _ Hr) as (n & _ & _ & X). eapply X; exact Hi.
  Qed.

  Lemma concat_fits : forall t els, NoDup (map fst t) -> els <> [] -> Forall (fits_keys t) els ->
    fits_keys t (concatenate_entity_permutations oeqb els).
  Proof using osp.
    intros t els tn NE H. unfold concatenate_entity_permutations.
    destruct H as [|el els He H]; [congruence|]. cbn [fold_left].
    assert (A : fits_keys t (add_permutations oeqb [] el)) by (apply add_fits; auto).
    revert A. generalize (add_permutations oeqb [] el). clear He NE el.
    induction H as [|el els He H IH]; intros acc A; cbn [fold_left]; [exact A|].
    apply IH. apply add_fits; auto.
  Qed.

  Lemma fits_unique : forall t ep, NoDup (map fst t) -> fits_keys t ep -> unique_keys ep.
  Proof using.
    intros t ep tn [km one]. split; [|split].
    - eapply km_NoDup; eassumption.
    - intros k row H. destruct (proj2 km _ _ H) as (n & _ & P). eapply Perm_NoDup; [exact P | apply seq_NoDup].
    - intros k i m H. apply (one _ _ _ H).
  Qed.

  (** All summands answer for the same entities and orientations. *)
  Lemma fits_same : forall t el el' k i o p, NoDup (map fst t) -> fits_keys t el -> fits_keys t el' ->
    has_perm el k i o p -> exists p', has_perm el' k i o p'.
  Proof using.
    intros t el el' k i o p tn H H' (m & Hm & Ho).
    assert (G := proj1 (has_val_get [] t el k i m tn (proj1 H)) Hm). destruct G as (Hk & Hi & _).
    destruct (km_count t el tn (proj1 H) k Hk) as [Hn _].
    assert (Hm' : has_dofs el' k i (val_at [] el' k i)).
    { apply (has_val_get [] t el' k i _ tn (proj1 H')). split; [exact Hk|]. split; [|reflexivity].
      rewrite (km_count_eq t el' tn (proj1 H') k _ Hn). exact Hi. }
    assert (In o (map fst (val_at [] el' k i))) as Hin.
    { apply (proj2 H' _ _ _ Hm'). apply (proj2 H _ _ _ Hm). apply in_map_iff. exists (o, p). auto. }
    apply in_map_iff in Hin as ([o' p'] & E & Hin). cbn in E; subst o'. exists p', (val_at [] el' k i). auto.
  Qed.
End AddKeys.
