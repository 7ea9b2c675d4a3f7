(** The arrays of Alfeld-Sorokina, Piola bubble and Mardal-Tai-Winther elements
    when every row is as it should be. *)
From Coq Require Import String List Arith Bool Lia Permutation.
From Verif Require Import Model.Prelude Model.Cell Model.Element Model.Gem Model.Mapped Model.Piola Model.Zany Model.PiolaElements.
From Verif Require Import Spec.Rowmajor Spec.EntityDofs.
From Verif Require Import Proofs.Lists Proofs.Cells Proofs.MappedDofs Proofs.PiolaArrays Proofs.PiolaLists.
Import ListNotations.
Open Scope result_scope.

Lemma edofs_facts sd n (d : edofs) : edofs_ok (topology (Simplex sd)) n d ->
  NoDup (map fst d) /\ (forall k row, In (k, row) d -> NoDup (map fst row)) /\
  (forall i, In i (concat (all_lists d)) <-> i < n) /\ NoDup (concat (all_lists d)).
Proof.
  intros H. pose proof (edofs_NoDup _ _ _ H (simplex_keys_NoDup sd)) as ND. destruct H as [[_ K] P].
  split; [exact ND|]. split; [|split].
  - intros k row Hr. destruct (K k row Hr) as (c & _ & Pc). exact (Permutation_NoDup (Permutation_sym Pc) (seq_NoDup _ _)).
  - intros i. split; intros H.
    + apply (Permutation_in i P) in H. apply in_seq in H. lia.
    + apply (Permutation_in i (Permutation_sym P)). apply in_seq. lia.
  - exact (Permutation_NoDup (Permutation_sym P) (seq_NoDup _ _)).
Qed.

Lemma in_all_lists (d : edofs) i : In i (concat (all_lists d)) <-> exists k e l, has_dofs d k e l /\ In i l.
Proof.
  rewrite in_concat. unfold all_lists. split.
  - intros (l & Hl & Hi). apply in_flat_map in Hl. destruct Hl as ([k row] & Hr & Hl). apply in_map_iff in Hl.
    destruct Hl as ([e l'] & El & Hl). cbn [snd] in *. subst l'. exists k, e, l. split; [exists row; auto|exact Hi].
  - intros (k & e & l & (row & Hr & Hl) & Hi). exists l. split; [|exact Hi]. apply in_flat_map. exists (k, row).
    split; [exact Hr|]. apply in_map_iff. exists (e, l). auto.
Qed.

Lemma has_dofs_get sd n (d : edofs) k e l : edofs_ok (topology (Simplex sd)) n d -> has_dofs d k e l ->
  exists row, dict_get dimkey_eqb d k = Ok row /\ dict_get Nat.eqb row e = Ok l.
Proof.
  intros H (row & Hr & Hl). destruct (edofs_facts _ _ _ H) as (ND & NDr & _). exists row.
  split; [apply (dict_in_get dimkey_eqb dimkey_eqb_spec); assumption|].
  apply (dict_in_get Nat.eqb Nat.eqb_spec); [exact (NDr k row Hr)|exact Hl].
Qed.

Lemma NoDup_concat_tl (ls : list (list nat)) : NoDup (concat ls) -> NoDup (concat (map (@tl nat) ls)).
Proof.
  induction ls as [|l ls IH]; intros H; [constructor|]. cbn [map concat] in *.
  assert (H2 : NoDup (l ++ concat (map (@tl nat) ls))).
  { specialize (IH (NoDup_app_remove_l _ _ H)). assert (hin : incl (concat (map (@tl nat) ls)) (concat ls)).
    { intros x hx. apply in_concat in hx. destruct hx as (y & hy & hx). apply in_map_iff in hy. destruct hy as (z & <- & hz).
      apply in_concat. exists z. split; [exact hz|]. destruct z; [destruct hx|right; exact hx]. }
    clear -H IH hin. induction l as [|x l IHl]; [exact IH|]. cbn [app] in *. inversion H as [|? ? hn ND]; subst.
    constructor; [|apply IHl; exact ND]. rewrite in_app_iff in *. intros [C|C]; apply hn; [left; exact C|right; apply hin; exact C]. }
  destruct l; [exact H2|]. cbn [tl app] in *. inversion H2; assumption.
Qed.

Section Elements.
  Context {F : Type} (o : ops F).
  Variables (c : scell (F := F)) (g : geometry (F := F)) (deriv : nat -> bool).
  Variables (numbf ndof : nat) (okrow : nat -> (nat -> F) -> Prop).
  Hypothesis okrow_ext : forall i w w', (forall j, w j = w' j) -> okrow i w -> okrow i w'.
  Variables (isdiv : nat -> Prop) (isgroup : list nat -> Prop).
  Let sd := sc_dim c.
  Let detJ := detJ_at g (centre o c).
  Let Finv := inverse_array o sd (jacobian_at g (centre o c)).
  Hypothesis hsd : 0 < sd.
  Hypothesis hle : ndof <= numbf.
  Hypothesis hdiv : forall d w, d < ndof -> isdiv d -> w d = detJ -> (forall j, j <> d -> w j = f0 o) -> okrow d w.
  Hypothesis hgroup : forall G a w, NoDup G -> (forall i, In i G -> i < ndof) -> isgroup G -> length G = sd -> a < sd ->
    (forall b, b < sd -> w (nth b G 0) = n_at Finv a b) -> (forall j, ~ In j G -> w j = f0 o) -> okrow (nth a G 0) w.

  Lemma as_array (dofs : edofs) : numbf = ndof -> edofs_ok (topology (Simplex sd)) ndof dofs ->
    (forall k e l, has_dofs dofs k e l -> chunks sd deriv isdiv isgroup l) ->
    exists V, as_transformation o ndof dofs deriv c g = Ok (list_tensor_of V) /\ n_rows V = ndof /\ n_cols V = ndof /\
      forall i, i < ndof -> okrow i (n_at V i).
  Proof.
    intros hnd hd hc. destruct (edofs_facts _ _ _ hd) as (ND & NDr & hin & NDl).
    destruct (undo_all_ok o numbf ndof okrow okrow_ext sd deriv detJ Finv isdiv isgroup hsd hle eq_refl eq_refl hdiv hgroup
                (fun _ => false) dofs (sorted dim_leb (map fst dofs)) (eye o numbf ndof)) as (V & e & h); trivial.
    - apply sorted_perm.
    - intros k e l H _. exact (hc k e l H).
    - intros i hi. apply hin. exact hi.
    - apply inv_eye.
    - exists V. unfold as_transformation. fold sd. fold detJ. fold Finv. cbn zeta iota beta in e.
      rewrite hnd in e. rewrite e. split; [reflexivity|]. destruct h as (h1 & h2 & h3 & _).
      split; [congruence|]. split; [congruence|]. intros i hi. apply h3; [lia|].
      replace (filter _ dofs) with dofs by (symmetry; apply filter_all; reflexivity). apply hin. exact hi.
  Qed.

  Section Bubble.
  Variables (s : nat) (d d' : edofs) (R : nat -> array (F := F)).
  Hypothesis hsd23 : sd = 2 \/ sd = 3.
  Hypothesis hd : edofs_ok (topology (Simplex sd)) numbf d.
  Hypothesis hd' : edofs_ok (topology (Simplex sd)) ndof d'.
  Hypothesis hdd : forall k i l, has_dofs d k i l ->
    (k <> DI (sd - 1) -> has_dofs d' k i l) /\ (k = DI (sd - 1) -> has_dofs d' k i [s + i]).
  Hypothesis hR : forall f, f < S sd -> facet_rows o c (jacobian_at g (centre o c)) detJ f = Ok (R f) /\ n_rows (R f) = sd - 1.
  Hypothesis hblocks : forall k e l, has_dofs d k e l -> k <> DI (sd - 1) -> chunks sd deriv isdiv isgroup l.
  Hypothesis hlists : forall f l, has_dofs d (DI (sd - 1)) f l ->
    exists T, l = (s + f) :: T /\ s + f < ndof /\ length T = sd - 1 /\ forall i, In i T -> ndof <= i.
  Hypothesis hfacet : forall f T a w, has_dofs d (DI (sd - 1)) f ((s + f) :: T) -> f < S sd -> a < length T ->
    w (s + f) = n_at (R f) a 0 -> (forall j, j < ndof -> j <> s + f -> w j = f0 o) -> okrow (nth a T 0) w.
  Hypothesis hnormal : forall f T w, has_dofs d (DI (sd - 1)) f ((s + f) :: T) -> f < S sd ->
    w (s + f) = f1 o -> (forall j, j <> s + f -> w j = f0 o) -> okrow (s + f) w.

  Lemma bubble_array : exists V, bubble_transformation o numbf ndof d d' deriv c g = Ok (list_tensor_of V) /\
    n_rows V = numbf /\ n_cols V = ndof /\ forall i, i < numbf -> okrow i (n_at V i).
  Proof.
    destruct (edofs_facts _ _ _ hd) as (ND & NDr & hin & NDl). destruct (edofs_facts _ _ _ hd') as (ND' & NDr' & hin' & NDl').
    pose proof (simplex_keys_NoDup sd) as NDt.
    pose proof (facet_in sd) as Hfin. replace (S (sd - 1)) with sd in Hfin by lia. rewrite binom_facet in Hfin.
    destruct (keys_row _ _ _ _ _ hd NDt Hfin) as (frow & Ef & Hf & Pf).
    destruct (keys_row _ _ _ _ _ hd' NDt Hfin) as (frow' & Ef' & Hf' & Pf').
    assert (Hfx : forall f, f < S sd -> exists T, dict_get Nat.eqb frow f = Ok ((s + f) :: T) /\ dict_get Nat.eqb frow' f = Ok [s + f] /\
       has_dofs d (DI (sd - 1)) f ((s + f) :: T) /\ s + f < ndof /\ length T = sd - 1 /\ forall i, In i T -> ndof <= i).
    { intros f hf. destruct (dict_get_some Nat.eqb Nat.eqb_spec frow f) as (l & El).
      { apply (Permutation_in f (Permutation_sym Pf)). apply in_seq. lia. }
      assert (Hl : has_dofs d (DI (sd - 1)) f l) by (exists frow; split; [exact Hf|apply (dict_get_in Nat.eqb Nat.eqb_spec); exact El]).
      destruct (hlists f l Hl) as (T & -> & h1 & h2 & h3). exists T. split; [exact El|]. split; [|auto].
      destruct (hdd _ _ _ Hl) as [_ H2]. specialize (H2 eq_refl).
      destruct (has_dofs_get _ _ _ _ _ _ hd' H2) as (r & Er & Erl). congruence. }
    (* the other dofs *)
    pose (skip := fun dim => dimkey_eqb dim (DI (sd - 1))).
    assert (Hback : forall k e l, has_dofs d' k e l -> k <> DI (sd - 1) -> has_dofs d k e l).
    { intros k e l H hk. destruct H as (row' & Hr' & Hl').
      assert (Hk : In k (map fst (topology (Simplex sd)))).
      { destruct hd' as [[P1 _] _]. apply (Permutation_in k P1). apply in_map_iff. exists (k, row'). auto. }
      apply in_map_iff in Hk. destruct Hk as ([k0 c0] & Ek & Hk). cbn [fst] in Ek. subst k0.
      destruct (keys_row _ _ _ _ _ hd NDt Hk) as (row & Er & Hr & Pr). destruct (keys_row _ _ _ _ _ hd' NDt Hk) as (row1 & Er1 & Hr1 & Pr1).
      assert (row1 = row') by (apply (row_unique d' k); assumption). subst row1.
      assert (He : In e (map fst row)).
      { apply (Permutation_in e (Permutation_sym Pr)). apply (Permutation_in e Pr1). apply in_map_iff. exists (e, l). auto. }
      apply in_map_iff in He. destruct He as ([e0 l0] & Ee & He). cbn [fst] in Ee. subst e0.
      assert (Hl0 : has_dofs d k e l0) by (exists row; auto).
      destruct (hdd _ _ _ Hl0) as [H1 _]. specialize (H1 hk).
      destruct (has_dofs_get _ _ _ _ _ _ hd' H1) as (r & E1 & E2).
      assert (r = row') by congruence. subst r. pose proof (dict_in_get Nat.eqb Nat.eqb_spec row' e l (NDr' _ _ Hr') Hl') as E3.
      replace l with l0 by congruence. exact Hl0. }
    destruct (undo_all_ok o numbf ndof okrow okrow_ext sd deriv detJ Finv isdiv isgroup hsd hle eq_refl eq_refl hdiv hgroup
                skip d' (map fst d') (eye o numbf ndof)) as (V1 & e1 & h1); trivial.
    { intros k e l H Hs. unfold skip in Hs. assert (hk : k <> DI (sd - 1)) by (intros ->; destruct (dimkey_eqb_spec (DI (sd - 1)) (DI (sd - 1))); congruence).
      exact (hblocks k e l (Hback k e l H hk) hk). }
    { intros i hi. apply hin'. exact hi. }
    { apply inv_eye. }
    set (done1 := concat (all_lists (filter (fun kr => negb (skip (fst kr))) d'))) in h1.
    assert (Hdone1 : forall i, In i done1 <-> exists k e l, k <> DI (sd - 1) /\ has_dofs d' k e l /\ In i l).
    { intros i. unfold done1. rewrite in_all_lists. split.
      - intros (k & e & l & (row & Hr & Hl) & Hi). apply filter_In in Hr. destruct Hr as [Hr Hs]. cbn [fst] in Hs. unfold skip in Hs.
        exists k, e, l. split; [|split; [exists row; auto|exact Hi]].
        intros ->. destruct (dimkey_eqb_spec (DI (sd - 1)) (DI (sd - 1))); [discriminate|congruence].
      - intros (k & e & l & hk & (row & Hr & Hl) & Hi). exists k, e, l. split; [|exact Hi]. exists row. split; [|exact Hl].
        apply filter_In. split; [exact Hr|]. cbn [fst]. unfold skip. destruct (dimkey_eqb_spec k (DI (sd - 1))); [contradiction|reflexivity]. }
    assert (NDd1 : NoDup done1).
    { assert (G : forall dd : edofs, NoDup (concat (all_lists dd)) -> NoDup (concat (all_lists (filter (fun kr => negb (skip (fst kr))) dd))) /\
        incl (concat (all_lists (filter (fun kr => negb (skip (fst kr))) dd))) (concat (all_lists dd))).
      { induction dd as [|[k row] dd IH]; intros NDd; [split; [exact NDd|apply incl_refl]|].
        unfold all_lists in NDd |- *. cbn [flat_map filter fst snd] in NDd |- *. rewrite concat_app in NDd |- *.
        destruct (IH (NoDup_app_remove_l _ _ NDd)) as [g1 g2]. unfold all_lists in g1, g2.
        destruct (skip k); cbn [negb].
        - split; [exact g1|]. intros x hx. apply in_or_app. right. apply g2. exact hx.
        - cbn [flat_map snd]. rewrite concat_app. split.
          + clear -NDd g1 g2. induction (concat (map snd row)) as [|x l IHl]; [exact g1|]. cbn [app] in *.
            inversion NDd as [|? ? hn NDx]; subst. constructor; [|apply IHl; exact NDx].
            rewrite in_app_iff in *. intros [C|C]; apply hn; [left; exact C|right; apply g2; exact C].
          + intros x hx. apply in_app_or in hx. apply in_or_app. destruct hx as [hx|hx]; [left; exact hx|right; apply g2; exact hx]. }
      apply G. exact NDl'. }
    (* the facets *)
    pose (cont := fun f => tl (got Nat.eqb [] frow f)).
    assert (Hcont : forall i, In i (concat (map cont (seq 0 (S sd)))) ->
       exists f T, f < S sd /\ has_dofs d (DI (sd - 1)) f ((s + f) :: T) /\ In i T /\ ndof <= i).
    { intros i hi. apply in_concat in hi. destruct hi as (l & Hl & Hi). apply in_map_iff in Hl. destruct Hl as (f & <- & Hfs).
      apply in_seq in Hfs. assert (hf : f < S sd) by lia. destruct (Hfx f hf) as (T & E1 & _ & H1 & _ & _ & H3). unfold cont, got in Hi. rewrite E1 in Hi.
      cbn [tl] in Hi. exists f, T. auto. }
    assert (NDc : NoDup (concat (map cont (seq 0 (S sd))))).
    { assert (P : Permutation (concat (map cont (seq 0 (S sd)))) (concat (map (@tl nat) (map snd frow)))).
      { rewrite <- (got_all Nat.eqb [] frow Nat.eqb_spec (NDr _ _ Hf)), map_map.
        apply (concat_map_perm (fun f => tl (got Nat.eqb [] frow f))). apply Permutation_sym. exact Pf. }
      apply (Permutation_NoDup (Permutation_sym P)). apply NoDup_concat_tl.
      clear -NDl Hf. induction d as [|[k row] dd IH]; [destruct Hf|]. unfold all_lists in *. cbn [flat_map snd] in *. rewrite concat_app in NDl.
      destruct Hf as [E|Hf]; [injection E as -> ->; apply (NoDup_app_remove_r _ _ NDl)|]. apply IH; [apply (NoDup_app_remove_l _ _ NDl)|exact Hf]. }
    assert (NDall : NoDup (concat (map cont (seq 0 (S sd))) ++ done1)).
    { revert Hcont NDc. generalize (concat (map cont (seq 0 (S sd)))). intros L HL NDL. induction L as [|x L IH]; [exact NDd1|].
      cbn [app]. inversion NDL as [|? ? hn NDL']; subst. constructor; [|apply IH; [intros i hi; apply HL; right; exact hi|exact NDL']].
      intros C. apply in_app_or in C. destruct C as [C|C]; [contradiction|].
      destruct (HL x (or_introl eq_refl)) as (_ & _ & _ & _ & _ & hx). apply Hdone1 in C. destruct C as (k & e & l & _ & Hl & Hi).
      assert (x < ndof) by (apply hin'; apply in_all_lists; exists k, e, l; auto). lia. }
    destruct (foldM_inv o numbf ndof okrow
        (fun V f => do rows <- facet_rows o c (jacobian_at g (centre o c)) detJ f ;;
           do cur_dofs <- dict_get Nat.eqb frow' f ;;
           do facets' <- dict_get dimkey_eqb d (DI (sd - 1)) ;;
           do l <- dict_get Nat.eqb facets' f ;;
           let cur_bfs := tl l in
           let B := mkArray (if sd =? 2 then length cur_bfs else n_rows rows) (Nat.min (length cur_dofs) sd)
                      (fun i j => n_at rows (if sd =? 2 then 0 else i) j) in
           set_ix V cur_bfs cur_dofs B) cont (seq 0 (S sd)) done1 V1 NDall h1) as (V2 & e2 & h2).
    { intros f sdone V hf hV NDf. apply in_seq in hf. assert (hf' : f < S sd) by lia. clear hf.
      destruct (hR f hf') as [er hr]. destruct (Hfx f hf') as (T & E1 & E2 & H1 & H2 & H3 & H4).
      rewrite er. cbn [bind]. rewrite E2. cbn [bind]. rewrite Ef. cbn [bind]. rewrite E1. cbn [bind tl length].
      unfold cont, got in NDf |- *. rewrite E1 in NDf |- *. cbn [tl] in NDf |- *.
      destruct hV as (v1 & v2 & v3 & v4).
      assert (HTb : forall i, In i T -> i < numbf).
      { intros i hi. apply hin. apply in_all_lists. exists (DI (sd - 1)), f, ((s + f) :: T). split; [exact H1|right; exact hi]. }
      destruct (set_ix_ok V T [s + f] (mkArray (if sd =? 2 then length T else n_rows (R f)) (Nat.min 1 sd)
                      (fun i j => n_at (R f) (if sd =? 2 then 0 else i) j))) as (V' & e & r1 & c1 & a1 & b1).
      { apply (NoDup_app_remove_r _ _ NDf). }
      { constructor; [intros []|constructor]. }
      { intros i hi. rewrite v1. exact (HTb i hi). }
      { intros j [<-|[]]. rewrite v2. exact H2. }
      { cbn [n_rows]. destruct (Nat.eqb_spec sd 2); [reflexivity|congruence]. }
      { cbn [n_cols length]. apply Nat.min_l. lia. }
      exists V'. split; [exact e|].
      assert (hns : forall i, In i T -> ~ In i sdone).
      { intros i hi C. clear -NDf hi C. induction T as [|x T IH]; [destruct hi|]. cbn [app] in NDf. inversion NDf as [|? ? hn NDx]; subst.
        destruct hi as [->|hi]; [|apply IH; assumption]. apply hn. apply in_or_app. right. exact C. }
      split; [congruence|]. split; [congruence|]. split.
      - intros i hib H. destruct (in_dec Nat.eq_dec i T) as [hT|hT].
        + destruct (In_nth _ _ 0 hT) as (a & ha & <-). apply (hfacet f T a); trivial.
          * specialize (a1 a 0 ha (Nat.lt_succ_diag_r 0)). cbn [nth n_at] in a1. rewrite a1.
            destruct (Nat.eqb_spec sd 2) as [E|_]; [|reflexivity]. rewrite H3 in ha. replace a with 0 by lia. reflexivity.
          * intros j hj hne. rewrite b1 by (intros [_ [C|[]]]; congruence). rewrite v4; [|exact hib|apply hns; exact hT].
            apply identity_off. specialize (H4 _ hT). lia.
        + apply in_app_or in H. destruct H as [H|H]; [contradiction|].
          apply (okrow_ext i (n_at V i)); [|apply v3; assumption].
          intros j. rewrite b1 by (intros [C _]; contradiction). reflexivity.
      - intros i hib H j. rewrite b1 by (intros [C _]; apply H; apply in_or_app; left; exact C).
        apply v4; [exact hib|]. intros C. apply H. apply in_or_app. right. exact C. }
    exists V2. unfold bubble_transformation. fold sd. fold detJ. fold Finv. unfold skip in e1. rewrite e1. cbn [bind].
    rewrite Ef'. cbn [bind]. rewrite (sorted_seq _ _ Pf'). cbv zeta in e2 |- *. rewrite e2. cbn [bind]. split; [reflexivity|].
    destruct h2 as (v1 & v2 & v3 & v4). split; [exact v1|]. split; [exact v2|].
    intros i hi. destruct (in_dec Nat.eq_dec i (concat (map cont (seq 0 (S sd))) ++ done1)) as [H|H]; [apply v3; assumption|].
    pose proof (proj2 (hin i) hi) as Hi. apply in_all_lists in Hi. destruct Hi as (k & e & l & Hl & Hi).
    destruct (dimkey_eqb_spec k (DI (sd - 1))) as [->|hk].
    - assert (he : e < S sd).
      { destruct Hl as (row & Hr & Hl). assert (row = frow) by (apply (row_unique d (DI (sd - 1))); assumption). subst row.
        assert (He : In e (map fst frow)) by (apply in_map_iff; exists (e, l); auto). apply (Permutation_in e Pf) in He. apply in_seq in He. lia. }
      destruct (hlists e l Hl) as (T & -> & h2 & h3 & h4). destruct Hi as [<-|Hi].
      + apply (hnormal e T); trivial.
        * rewrite v4 by assumption. unfold identity. rewrite Nat.eqb_refl. reflexivity.
        * intros j hj. rewrite v4 by assumption. apply identity_off. auto.
      + exfalso. apply H. apply in_or_app. left. apply in_concat. exists T. split; [|exact Hi]. apply in_map_iff. exists e.
        split; [|apply in_seq; lia]. unfold cont, got. destruct (has_dofs_get _ _ _ _ _ _ hd Hl) as (r & Er & Erl).
        assert (r = frow) by congruence. subst r. rewrite Erl. reflexivity.
    - exfalso. apply H. apply in_or_app. right. apply Hdone1. exists k, e, l. split; [exact hk|]. split; [|exact Hi].
      apply hdd; assumption.
  Qed.
  End Bubble.
End Elements.

Section Edges.
  Context {F : Type} (o : ops F).
  Variables (c : scell (F := F)) (g : geometry (F := F)).
  Variables (numbf ndof : nat) (okrow : nat -> (nat -> F) -> Prop).
  Hypothesis okrow_ext : forall i w w', (forall j, w j = w' j) -> okrow i w -> okrow i w'.
  Hypothesis hle : ndof <= numbf.
  Variables (dofs : edofs) (R : nat -> array (F := F)).
  Hypothesis hdim : sc_dim c = 2.
  Hypothesis hdofs : edofs_ok (topology (Simplex 2)) ndof dofs.
  Hypothesis hR : forall f, f < 3 -> facet_rows o c (jacobian_at g (centre o c)) (detJ_at g (centre o c)) f = Ok (R f) /\
    n_rows (R f) = 1 /\ n_cols (R f) = 2.
  Hypothesis hlists : forall f l, has_dofs dofs (DI 1) f l -> exists a r, l = a :: r /\ In (S a) r.
  Hypothesis hfacet : forall f a r w, has_dofs dofs (DI 1) f (a :: r) -> f < 3 -> S a < ndof ->
    w a = n_at (R f) 0 0 -> w (S a) = n_at (R f) 0 1 -> (forall j, j <> a -> j <> S a -> w j = f0 o) -> okrow (S a) w.
  Hypothesis hrest : forall i w, i < numbf -> (forall f a r, has_dofs dofs (DI 1) f (a :: r) -> i <> S a) ->
    (forall j, w j = identity o i j) -> okrow i w.

  Lemma mtw_array : exists V, mtw_transformation o numbf ndof dofs c g = Ok (list_tensor_of V) /\
    n_rows V = numbf /\ n_cols V = ndof /\ forall i, i < numbf -> okrow i (n_at V i).
  Proof.
    destruct (edofs_facts _ _ _ hdofs) as (ND & NDr & hin & NDl). pose proof (simplex_keys_NoDup 2) as NDt.
    destruct (keys_row _ _ _ _ _ hdofs NDt (facet_in 2)) as (frow & Ef & Hf & Pf). change (binom 3 (S (2 - 1))) with 3 in Pf.
    assert (Hfx : forall f, f < 3 -> exists a r, dict_get Nat.eqb frow f = Ok (a :: r) /\ has_dofs dofs (DI 1) f (a :: r) /\ S a < ndof).
    { intros f hf. destruct (dict_get_some Nat.eqb Nat.eqb_spec frow f) as (l & El).
      { apply (Permutation_in f (Permutation_sym Pf)). apply in_seq. lia. }
      assert (Hl : has_dofs dofs (DI 1) f l) by (exists frow; split; [exact Hf|apply (dict_get_in Nat.eqb Nat.eqb_spec); exact El]).
      destruct (hlists f l Hl) as (a & r & -> & Hr). exists a, r. split; [exact El|]. split; [exact Hl|].
      apply hin. apply in_all_lists. exists (DI 1), f, (a :: r). split; [exact Hl|right; exact Hr]. }
    pose (cont := fun f => [S (hd 0 (got Nat.eqb [] frow f))]).
    assert (NDc : NoDup (concat (map cont (seq 0 3)) ++ [])).
    { rewrite app_nil_r.
      assert (NDf : NoDup (concat (map (got Nat.eqb [] frow) (seq 0 3)))).
      { assert (P : Permutation (concat (map (got Nat.eqb [] frow) (seq 0 3))) (concat (map snd frow))).
        { rewrite <- (got_all Nat.eqb [] frow Nat.eqb_spec (NDr _ _ Hf)).
          apply (concat_map_perm (got Nat.eqb [] frow)). apply Permutation_sym. exact Pf. }
        apply (Permutation_NoDup (Permutation_sym P)).
        clear -NDl Hf. induction dofs as [|[k row] dd IH]; [destruct Hf|]. unfold all_lists in *. cbn [flat_map snd] in *. rewrite concat_app in NDl.
        destruct Hf as [E|Hf]; [injection E as -> ->; apply (NoDup_app_remove_r _ _ NDl)|]. apply IH; [apply (NoDup_app_remove_l _ _ NDl)|exact Hf]. }
      assert (G : forall L, (forall f, In f L -> f < 3) -> NoDup (concat (map (got Nat.eqb [] frow) L)) ->
        NoDup (concat (map cont L)) /\ incl (concat (map cont L)) (concat (map (got Nat.eqb [] frow) L))).
      { induction L as [|f L IH]; intros HL NDL; [split; [constructor|apply incl_refl]|]. cbn [map concat] in *.
        destruct (IH (fun x hx => HL x (or_intror hx)) (NoDup_app_remove_l _ _ NDL)) as [g1 g2].
        destruct (Hfx f (HL f (or_introl eq_refl))) as (a & r & E & Hl & _). assert (Ec : cont f = [S a]) by (unfold cont, got; rewrite E; reflexivity).
        assert (Eg : got Nat.eqb [] frow f = a :: r) by (unfold got; rewrite E; reflexivity). rewrite Eg, Ec in *.
        destruct (hlists _ _ Hl) as (a' & r' & E' & Hr). injection E' as <- <-. cbn [app] in *. inversion NDL as [|? ? _ NDL']; subst. split.
        - constructor; [|exact g1]. intros C. apply g2 in C. clear -NDL' Hr C. induction r as [|x r IHr]; [destruct Hr|]. cbn [app] in NDL'.
          inversion NDL' as [|? ? hn NDx]; subst. destruct Hr as [->|Hr]; [apply hn; apply in_or_app; right; exact C|exact (IHr Hr NDx)].
        - intros x [<-|hx]; [right; apply in_or_app; left; exact Hr|]. right. apply in_or_app. right. apply g2. exact hx. }
      apply (G (seq 0 3)); [intros f hf; apply in_seq in hf; lia|exact NDf]. }
    destruct (foldM_inv o numbf ndof okrow (fun V f =>
        do l <- dict_get Nat.eqb frow f ;;
        match l with
        | [] => Err IndexError
        | cur :: _ =>
            do! guard (2 =? 2) ValueError ;;
            do row <- facet_rows o c (jacobian_at g (centre o c)) (detJ_at g (centre o c)) f ;;
            do! guard (cur + 1 <? numbf) IndexError ;;
            set_slice V (cur + 1) (cur + 2) cur (cur + 2) row
        end) cont (seq 0 3) [] (eye o numbf ndof) NDc (inv_eye o numbf ndof okrow)) as (V & e & h).
    { intros f sdone V hf hV NDf. apply in_seq in hf. assert (hf' : f < 3) by lia. clear hf.
      destruct (hR f hf') as (er & hr & hc). destruct (Hfx f hf') as (a & r & E & Hl & ha).
      rewrite E. cbn [bind Nat.eqb guard]. rewrite er. cbn [bind].
      replace (a + 1 <? numbf) with true by (symmetry; apply Nat.ltb_lt; lia). cbn [guard bind].
      destruct hV as (v1 & v2 & v3 & v4). rewrite set_slice_ok by (rewrite ?v1, ?v2; lia).
      eexists. split; [reflexivity|]. unfold cont, got in NDf |- *. rewrite E in NDf |- *. cbn [hd app] in NDf |- *.
      apply NoDup_cons_iff in NDf. destruct NDf as [hn _].
      assert (Hrow : forall i j, i <> S a -> (if (a + 1 <=? i) && (i <? a + 2) && (a <=? j) && (j <? a + 2)
                 then n_at (R f) (i - (a + 1)) (j - a) else n_at V i j) = n_at V i j).
      { intros i j hne. destruct (Nat.leb_spec (a + 1) i), (Nat.ltb_spec i (a + 2)); cbn [andb]; try reflexivity. lia. }
      split; [exact v1|]. split; [exact v2|]. split; cbn [n_at].
      - intros i hib [<-|H].
        + replace (a + 1 <=? S a) with true by (symmetry; apply Nat.leb_le; lia).
          replace (S a <? a + 2) with true by (symmetry; apply Nat.ltb_lt; lia). cbn [andb].
          apply (hfacet f a r); trivial.
          * replace (a <=? a) with true by (symmetry; apply Nat.leb_le; lia).
            replace (a <? a + 2) with true by (symmetry; apply Nat.ltb_lt; lia). cbn [andb]. f_equal; lia.
          * replace (a <=? S a) with true by (symmetry; apply Nat.leb_le; lia).
            replace (S a <? a + 2) with true by (symmetry; apply Nat.ltb_lt; lia). cbn [andb]. f_equal; lia.
          * intros j h1 h2. replace ((a <=? j) && (j <? a + 2)) with false.
            2:{ symmetry. destruct (Nat.leb_spec a j), (Nat.ltb_spec j (a + 2)); cbn [andb]; try reflexivity. lia. }
            rewrite v4 by (trivial; lia). apply identity_off. auto.
        + apply (okrow_ext i (n_at V i)); [|apply v3; assumption]. intros j. symmetry. apply Hrow. intros ->. contradiction.
      - intros i hib H j. rewrite Hrow by (intros ->; apply H; left; reflexivity). apply v4; [exact hib|].
        intros C. apply H. right. exact C. }
    exists V. unfold mtw_transformation. rewrite hdim. rewrite Ef. cbn [bind]. rewrite (sorted_seq _ _ Pf), e.
    cbn [bind]. split; [reflexivity|]. destruct h as (v1 & v2 & v3 & v4). split; [exact v1|]. split; [exact v2|].
    intros i hi. destruct (in_dec Nat.eq_dec i (concat (map cont (seq 0 3)) ++ [])) as [H|H]; [apply v3; assumption|].
    apply hrest; [exact hi| |apply v4; assumption].
    intros f a r Hl ->. apply H. rewrite app_nil_r. apply in_concat. exists [S a]. split; [|left; reflexivity].
    apply in_map_iff. exists f. assert (hf : f < 3).
    { destruct Hl as (row & Hr & Hl). assert (row = frow) by (apply (row_unique dofs (DI 1)); assumption). subst row.
      assert (He : In f (map fst frow)) by (apply in_map_iff; exists (f, a :: r); auto). apply (Permutation_in f Pf) in He. apply in_seq in He. lia. }
    split; [|apply in_seq; lia]. unfold cont, got. destruct (has_dofs_get _ _ _ _ _ _ hdofs Hl) as (rr & Er & Erl).
    change (DI (2 - 1)) with (DI 1) in Ef. assert (rr = frow) by congruence. subst rr. rewrite Erl. reflexivity.
  Qed.
End Edges.
