(** Arrays filled in entity by entity: which rows are done after which dofs. *)
From Coq Require Import String List Arith Bool Lia Permutation.
From Verif Require Import Model.Prelude Model.Cell Model.Element Model.Gem Model.Piola Model.Zany Model.PiolaElements.
From Verif Require Import Spec.Rowmajor Spec.EntityDofs.
From Verif Require Import Proofs.Lists Proofs.Cells Proofs.PiolaArrays.
Import ListNotations.
Open Scope result_scope.

Lemma NoDup_app_remove_l {A} (a b : list A) : NoDup (a ++ b) -> NoDup b.
Proof. induction a as [|x a IH]; intros H; [exact H|]. inversion H; subst. auto. Qed.
Lemma NoDup_app_remove_r {A} (a b : list A) : NoDup (a ++ b) -> NoDup a.
Proof.
  induction a as [|x a IH]; intros H; [constructor|]. inversion H; subst. constructor; [|auto].
  intros C. apply H2. apply in_or_app. left. exact C.
Qed.

Section Lists.
  Context {F : Type} (o : ops F).
  Implicit Types (V W B : array (F := F)).

  Lemma set_entry_ok V i j x : i < n_rows V -> j < n_cols V ->
    set_entry V i j x = Ok (mkArray (n_rows V) (n_cols V) (put (n_at V) i j x)).
  Proof.
    intros hi hj. unfold set_entry. apply Nat.ltb_lt in hi, hj. rewrite hi, hj. reflexivity.
  Qed.

  Lemma set_row_ok cs : forall k V r (h : nat -> F), NoDup cs -> r < n_rows V -> (forall j, In j cs -> j < n_cols V) ->
    exists V', foldM (fun V bj => set_entry V r (snd bj) (h (fst bj))) (enumerate_from k cs) V = Ok V' /\
      n_rows V' = n_rows V /\ n_cols V' = n_cols V /\
      (forall b, b < length cs -> n_at V' r (nth b cs 0) = h (k + b)) /\
      (forall i j, ~ (i = r /\ In j cs) -> n_at V' i j = n_at V i j).
  Proof.
    induction cs as [|c cs IH]; intros k V r h ND hr hc.
    - exists V. cbn. repeat split; trivial. intros b hb. lia.
    - inversion ND as [|? ? hn ND']; subst. cbn [enumerate_from foldM fst snd].
      rewrite set_entry_ok; [|assumption|apply hc; left; reflexivity]. cbn [bind].
      destruct (IH (S k) (mkArray (n_rows V) (n_cols V) (put (n_at V) r c (h k))) r h ND' hr) as (V' & e & h1 & h2 & h3 & h4).
      { intros j hj. apply hc. right. exact hj. }
      exists V'. cbn [n_rows n_cols n_at] in *. repeat split; trivial.
      + intros [|b] hb; cbn [nth].
        * rewrite h4 by (intros [_ C]; contradiction). unfold put. rewrite !Nat.eqb_refl, Nat.add_0_r. reflexivity.
        * cbn [length] in hb. rewrite h3 by lia. f_equal. lia.
      + intros i j hij. rewrite h4 by (intros [-> C]; apply hij; split; [reflexivity|right; exact C]).
        unfold put. destruct (Nat.eqb_spec i r), (Nat.eqb_spec j c); try reflexivity.
        exfalso. apply hij. subst. split; [reflexivity|left; reflexivity].
  Qed.

  Lemma set_rows_ok rs : forall k V cs (h : nat -> nat -> F), NoDup rs -> NoDup cs ->
    (forall i, In i rs -> i < n_rows V) -> (forall j, In j cs -> j < n_cols V) ->
    exists V', foldM (fun V ai => foldM (fun V bj => set_entry V (snd ai) (snd bj) (h (fst ai) (fst bj))) (enumerate cs) V)
                 (enumerate_from k rs) V = Ok V' /\
      n_rows V' = n_rows V /\ n_cols V' = n_cols V /\
      (forall a b, a < length rs -> b < length cs -> n_at V' (nth a rs 0) (nth b cs 0) = h (k + a) b) /\
      (forall i j, ~ (In i rs /\ In j cs) -> n_at V' i j = n_at V i j).
  Proof.
    induction rs as [|r rs IH]; intros k V cs h NDr NDc hr hc.
    - exists V. cbn. repeat split; trivial. intros a b ha. lia.
    - inversion NDr as [|? ? hn ND']; subst. cbn [enumerate_from foldM fst snd].
      destruct (set_row_ok cs 0 V r (h k) NDc (hr r (or_introl eq_refl)) hc) as (V1 & e1 & r1 & c1 & a1 & b1).
      unfold enumerate at 1. rewrite e1. cbn [bind].
      destruct (IH (S k) V1 cs h ND' NDc) as (V' & e & h1 & h2 & h3 & h4).
      { intros i hi. rewrite r1. apply hr. right. exact hi. }
      { intros j hj. rewrite c1. apply hc. exact hj. }
      exists V'. split; [exact e|]. split; [congruence|]. split; [congruence|]. split.
      + intros [|a] b ha hb; cbn [nth].
        * rewrite h4 by (intros [C _]; contradiction). rewrite a1 by assumption. rewrite Nat.add_0_r. reflexivity.
        * cbn [length] in ha. rewrite h3 by lia. f_equal. lia.
      + intros i j hij. rewrite h4 by (intros [C C']; apply hij; split; [right; exact C|exact C']).
        apply b1. intros [-> C]. apply hij. split; [left; reflexivity|exact C].
  Qed.

  Lemma set_ix_ok V rs cs B : NoDup rs -> NoDup cs -> (forall i, In i rs -> i < n_rows V) -> (forall j, In j cs -> j < n_cols V) ->
    n_rows B = length rs -> n_cols B = length cs ->
    exists V', set_ix V rs cs B = Ok V' /\ n_rows V' = n_rows V /\ n_cols V' = n_cols V /\
      (forall a b, a < length rs -> b < length cs -> n_at V' (nth a rs 0) (nth b cs 0) = n_at B a b) /\
      (forall i j, ~ (In i rs /\ In j cs) -> n_at V' i j = n_at V i j).
  Proof.
    intros NDr NDc hr hc hB1 hB2. unfold set_ix.
    replace (forallb (fun i => i <? n_rows V) rs) with true by (symmetry; apply forallb_forall; intros i hi; apply Nat.ltb_lt; auto).
    replace (forallb (fun j => j <? n_cols V) cs) with true by (symmetry; apply forallb_forall; intros i hi; apply Nat.ltb_lt; auto).
    rewrite hB1, hB2, !Nat.eqb_refl. cbn [andb guard bind].
    destruct (set_rows_ok rs 0 V cs (n_at B) NDr NDc hr hc) as (V' & e & h). exists V'. split; [exact e|exact h].
  Qed.

  (** ** Rows that are done *)
  Variables (numbf ndof : nat) (okrow : nat -> (nat -> F) -> Prop).
  Hypothesis okrow_ext : forall i w w', (forall j, w j = w' j) -> okrow i w -> okrow i w'.

  Definition inv (done : list nat) V : Prop :=
    n_rows V = numbf /\ n_cols V = ndof /\
    (forall i, i < numbf -> In i done -> okrow i (n_at V i)) /\
    (forall i, i < numbf -> ~ In i done -> forall j, n_at V i j = identity o i j).

  Lemma inv_perm s s' V : Permutation s s' -> inv s V -> inv s' V.
  Proof.
    intros P (h1 & h2 & h3 & h4). split; [exact h1|]. split; [exact h2|]. split.
    - intros i hi H. apply h3; [exact hi|]. exact (Permutation_in i (Permutation_sym P) H).
    - intros i hi H. apply h4; [exact hi|]. intros C. apply H. exact (Permutation_in i P C).
  Qed.

  Lemma inv_eye : inv [] (eye o numbf ndof).
  Proof. split; [reflexivity|]. split; [reflexivity|]. split; [intros i _ []|reflexivity]. Qed.

  Lemma foldM_inv {T : Type} (f : array -> T -> result array) (cont : T -> list nat) :
    forall xs s V, NoDup (concat (map cont xs) ++ s) -> inv s V ->
    (forall x s V, In x xs -> inv s V -> NoDup (cont x ++ s) -> exists V', f V x = Ok V' /\ inv (cont x ++ s) V') ->
    exists V', foldM f xs V = Ok V' /\ inv (concat (map cont xs) ++ s) V'.
  Proof.
    induction xs as [|x xs IH]; intros s V ND hi hf.
    - exists V. split; [reflexivity|exact hi].
    - cbn [map concat] in ND |- *. cbn [foldM].
      assert (P : Permutation ((cont x ++ concat (map cont xs)) ++ s) (concat (map cont xs) ++ (cont x ++ s))).
      { rewrite app_assoc. apply Permutation_app_tail. apply Permutation_app_comm. }
      pose proof (Permutation_NoDup P ND) as ND'.
      destruct (hf x s V (or_introl eq_refl) hi) as (V1 & e1 & h1).
      { apply (NoDup_app_remove_l _ _ ND'). }
      destruct (IH (cont x ++ s) V1 ND' h1) as (V' & e & h).
      { intros y s' W hy. apply hf. right. exact hy. }
      exists V'. rewrite e1. cbn [bind]. split; [exact e|]. exact (inv_perm _ _ _ (Permutation_sym P) h).
  Qed.

  (** ** Undoing the Piola map *)
  Variables (sd : nat) (deriv : nat -> bool) (detJ : F) (Finv : array (F := F)).
  Variables (isdiv : nat -> Prop) (isgroup : list nat -> Prop).
  Hypothesis hsd : 0 < sd.
  Hypothesis hle : ndof <= numbf.
  Hypothesis hFr : n_rows Finv = sd.
  Hypothesis hFc : n_cols Finv = sd.
  Hypothesis hdiv : forall d w, d < ndof -> isdiv d -> w d = detJ -> (forall j, j <> d -> w j = f0 o) -> okrow d w.
  Hypothesis hgroup : forall G a w, NoDup G -> (forall i, In i G -> i < ndof) -> isgroup G -> length G = sd -> a < sd ->
    (forall b, b < sd -> w (nth b G 0) = n_at Finv a b) -> (forall j, ~ In j G -> w j = f0 o) -> okrow (nth a G 0) w.

  Inductive chunks : list nat -> Prop :=
    | chunks_nil : chunks []
    | chunks_div d l : isdiv d -> deriv d = true -> chunks l -> chunks (d :: l)
    | chunks_group G l : isgroup G -> length G = sd -> deriv (hd 0 G) = false -> chunks l -> chunks (G ++ l).

  Lemma identity_off i j : i <> j -> identity o i j = f0 o.
  Proof. intros h. unfold identity. destruct (Nat.eqb_spec i j); [contradiction|reflexivity]. Qed.

  Lemma undo_list_ok l : chunks l -> forall fuel s V, length l <= fuel -> (forall i, In i l -> i < ndof) ->
    NoDup (l ++ s) -> inv s V ->
    exists V', undo_piola fuel sd deriv detJ Finv V l = Ok V' /\ inv (l ++ s) V'.
  Proof.
    induction 1 as [|d l hd hder _ IH|G l hG hlen hder _ IH]; intros fuel s V hf hlt ND hi.
    - exists V. split; [destruct fuel; reflexivity|exact hi].
    - destruct fuel as [|fuel]; [cbn in hf; lia|]. cbn [undo_piola]. rewrite hder.
      destruct hi as (h1 & h2 & h3 & h4).
      assert (hdn : d < ndof) by (apply hlt; left; reflexivity).
      rewrite set_entry_ok by (rewrite ?h1, ?h2; lia). cbn [bind].
      assert (P : Permutation ((d :: l) ++ s) (l ++ d :: s)) by apply Permutation_middle.
      destruct (IH fuel (d :: s) (mkArray (n_rows V) (n_cols V) (put (n_at V) d d detJ))) as (V' & e & h).
      { cbn in hf. lia. }
      { intros i hi. apply hlt. right. exact hi. }
      { exact (Permutation_NoDup P ND). }
      { cbn [app] in ND. inversion ND as [|? ? hn ND']; subst.
        assert (hns : ~ In d s) by (intros C; apply hn; apply in_or_app; right; exact C).
        split; [exact h1|]. split; [exact h2|]. split.
        - intros i hib [<-|hs].
          + apply hdiv; trivial; cbn [n_at].
            * unfold put. rewrite !Nat.eqb_refl. reflexivity.
            * intros j hj. unfold put. destruct (Nat.eqb_spec j d); [contradiction|]. rewrite andb_false_r.
              rewrite h4 by (trivial; lia). apply identity_off. auto.
          + assert (hne : i <> d) by (intros ->; contradiction).
            apply (okrow_ext i (n_at V i)); [|apply h3; assumption].
            intros j. cbn [n_at]. unfold put. destruct (Nat.eqb_spec i d); [contradiction|reflexivity].
        - intros i hib hni j. cbn [n_at]. unfold put.
          destruct (Nat.eqb_spec i d); [exfalso; apply hni; left; auto|]. cbn [andb]. apply h4; [exact hib|].
          intros C. apply hni. right. exact C. }
      exists V'. split; [exact e|]. exact (inv_perm _ _ _ (Permutation_sym P) h).
    - destruct G as [|d G]; [cbn in hlen; lia|]. cbn [hd] in hder.
      destruct fuel as [|fuel]; [cbn in hf; lia|]. cbn [undo_piola app]. rewrite hder.
      change (d :: G ++ l) with ((d :: G) ++ l) in *. set (G' := d :: G) in *.
      replace (firstn sd (G' ++ l)) with G'.
      2:{ rewrite <- hlen, firstn_app, Nat.sub_diag, firstn_all. cbn [firstn]. rewrite app_nil_r. reflexivity. }
      replace (skipn sd (G' ++ l)) with l.
      2:{ rewrite <- hlen, skipn_app, Nat.sub_diag, skipn_all. reflexivity. }
      destruct hi as (h1 & h2 & h3 & h4).
      assert (hGn : forall i, In i G' -> i < ndof) by (intros i hi; apply hlt; apply in_or_app; left; exact hi).
      assert (NDG : NoDup G') by (rewrite <- app_assoc in ND; apply (NoDup_app_remove_r _ _ ND)).
      destruct (set_ix_ok V G' G' Finv NDG NDG) as (V1 & e1 & r1 & c1 & a1 & b1); try congruence.
      { intros i hi. rewrite h1. specialize (hGn i hi). lia. }
      { intros i hi. rewrite h2. exact (hGn i hi). }
      rewrite hlen in a1. rewrite e1. cbn [bind].
      assert (P : Permutation ((G' ++ l) ++ s) (l ++ G' ++ s)).
      { rewrite app_assoc. apply Permutation_app_tail. apply Permutation_app_comm. }
      assert (hns : forall i, In i G' -> ~ In i s).
      { intros i hi C. rewrite <- app_assoc in ND. clear -ND hi C. induction G' as [|x G' IH]; [destruct hi|].
        cbn [app] in ND. inversion ND; subst. destruct hi as [->|hi]; [|apply IH; assumption].
        apply H1. rewrite !in_app_iff. auto. }
      destruct (IH fuel (G' ++ s) V1) as (V' & e & h).
      { rewrite app_length in hf. unfold G' in hf. cbn [length] in hf. lia. }
      { intros i hi. apply hlt. apply in_or_app. right. exact hi. }
      { exact (Permutation_NoDup P ND). }
      { split; [congruence|]. split; [congruence|]. split.
        - intros i hib H. destruct (in_dec Nat.eq_dec i G') as [hG'|hG'].
          + destruct (In_nth _ _ 0 hG') as (a & ha & <-). apply hgroup; trivial; try lia.
            * intros b hb. apply a1; lia.
            * intros j hj. rewrite b1 by (intros [_ C]; contradiction). rewrite h4; [|exact hib|apply hns; exact hG'].
              apply identity_off. intros <-. contradiction.
          + apply in_app_or in H. destruct H as [H|H]; [contradiction|].
            apply (okrow_ext i (n_at V i)); [|apply h3; assumption].
            intros j. rewrite b1 by (intros [C _]; contradiction). reflexivity.
        - intros i hib H j. rewrite b1 by (intros [C _]; apply H; apply in_or_app; left; exact C).
          apply h4; [exact hib|]. intros C. apply H. apply in_or_app. right. exact C. }
      exists V'. split; [exact e|]. exact (inv_perm _ _ _ (Permutation_sym P) h).
  Qed.

  (** The members of a dictionary, in the order of sorted keys. *)
  Definition got {K} (eqb : K -> K -> bool) {A} (dflt : A) (row : list (K * A)) (e : K) : A :=
    match dict_get eqb row e with Ok l => l | Err _ => dflt end.

  Lemma got_all {K A} (eqb : K -> K -> bool) (dflt : A) row : (forall a b, reflect (a = b) (eqb a b)) -> NoDup (map fst row) ->
    map (got eqb dflt row) (map fst row) = map snd row.
  Proof.
    intros heq ND. rewrite map_map. apply map_ext_in. intros [k l] H. cbn [fst snd]. unfold got.
    rewrite (dict_in_get eqb heq row k l ND H). reflexivity.
  Qed.

  Lemma concat_map_perm {K} (f : K -> list nat) l l' : Permutation l l' -> Permutation (concat (map f l)) (concat (map f l')).
  Proof.
    intros P. rewrite <- !flat_map_concat_map. apply Permutation_flat_map. exact P.
  Qed.

  Lemma undo_dim_ok row s V : NoDup (map fst row) -> (forall e l, In (e, l) row -> chunks l /\ forall i, In i l -> i < ndof) ->
    NoDup (concat (map snd row) ++ s) -> inv s V ->
    exists V', undo_piola_dim sd deriv detJ Finv V row = Ok V' /\ inv (concat (map snd row) ++ s) V'.
  Proof.
    intros NDk hrow ND hi. unfold undo_piola_dim.
    assert (P : Permutation (concat (map (got Nat.eqb [] row) (sorted Nat.leb (map fst row))) ++ s) (concat (map snd row) ++ s)).
    { apply Permutation_app_tail. rewrite <- (got_all Nat.eqb [] row Nat.eqb_spec NDk).
      apply concat_map_perm. apply sorted_perm. }
    destruct (foldM_inv (fun V e => do l <- dict_get Nat.eqb row e ;; undo_piola (length l) sd deriv detJ Finv V l)
                (got Nat.eqb [] row) (sorted Nat.leb (map fst row)) s V) as (V' & e & h).
    - exact (Permutation_NoDup (Permutation_sym P) ND).
    - exact hi.
    - intros x s' W hx hW ND'. apply (Permutation_in x (sorted_perm Nat.leb _)) in hx.
      destruct (dict_get_some Nat.eqb Nat.eqb_spec row x hx) as (l & E). unfold got in ND' |- *. rewrite E in ND' |- *. cbn [bind].
      apply (dict_get_in Nat.eqb Nat.eqb_spec) in E. destruct (hrow _ _ E) as [hc hl].
      exact (undo_list_ok l hc (length l) s' W (le_n _) hl ND' hW).
    - exists V'. split; [exact e|]. exact (inv_perm _ _ _ P h).
  Qed.

  (** All dimensions but the ones that are skipped. *)
  Lemma undo_all_ok (skip : dimkey -> bool) (dofs : edofs) (order : list dimkey) V0 : Permutation order (map fst dofs) ->
    NoDup (map fst dofs) ->
    (forall k row, In (k, row) dofs -> NoDup (map fst row)) ->
    (forall k e l, has_dofs dofs k e l -> skip k = false -> chunks l) ->
    (forall i, In i (concat (all_lists dofs)) -> i < ndof) -> NoDup (concat (all_lists dofs)) -> inv [] V0 ->
    exists V', foldM (fun V dim => if skip dim then Ok V else
                 do row <- dict_get dimkey_eqb dofs dim ;; undo_piola_dim sd deriv detJ Finv V row) order V0 = Ok V' /\
      inv (concat (all_lists (filter (fun kr => negb (skip (fst kr))) dofs))) V'.
  Proof.
    intros Po NDk NDr hch hlt ND hi.
    pose (cont := fun dim => if skip dim then [] else concat (map snd (got dimkey_eqb [] dofs dim))).
    assert (E1 : concat (map cont (map fst dofs)) = concat (all_lists (filter (fun kr => negb (skip (fst kr))) dofs))).
    { assert (G : forall dd : edofs, incl dd dofs -> concat (map cont (map fst dd)) = concat (all_lists (filter (fun kr => negb (skip (fst kr))) dd))).
      { induction dd as [|[k row] dd IH]; intros hin; [reflexivity|]. cbn [map fst concat filter].
        rewrite IH by (intros x hx; apply hin; right; exact hx). unfold cont at 1. destruct (skip k); cbn [negb]; [reflexivity|].
        unfold all_lists. cbn [flat_map snd]. rewrite concat_app. f_equal. unfold got.
        rewrite (dict_in_get dimkey_eqb dimkey_eqb_spec dofs k row NDk); [reflexivity|]. apply hin. left. reflexivity. }
      apply G. apply incl_refl. }
    assert (P : Permutation (concat (map cont order)) (concat (all_lists (filter (fun kr => negb (skip (fst kr))) dofs)))).
    { rewrite <- E1. apply concat_map_perm. exact Po. }
    assert (Hsub : forall dd : edofs, NoDup (concat (all_lists dd)) -> NoDup (concat (all_lists (filter (fun kr : dimkey * _ => negb (skip (fst kr))) dd))) /\
        incl (concat (all_lists (filter (fun kr : dimkey * _ => negb (skip (fst kr))) dd))) (concat (all_lists dd))).
    { induction dd as [|[k row] dd IH]; intros NDd; [split; [exact NDd|apply incl_refl]|].
      unfold all_lists in NDd |- *. cbn [flat_map filter fst snd] in NDd |- *. rewrite concat_app in NDd |- *.
      destruct (IH (NoDup_app_remove_l _ _ NDd)) as [h1 h2]. unfold all_lists in h1, h2.
      destruct (skip k); cbn [negb].
      - split; [exact h1|]. intros x hx. apply in_or_app. right. apply h2. exact hx.
      - cbn [flat_map snd]. rewrite concat_app. split.
        + clear -NDd h1 h2. induction (concat (map snd row)) as [|x l IHl]; [exact h1|]. cbn [app] in *.
          inversion NDd as [|? ? hn ND']; subst. constructor; [|apply IHl; exact ND'].
          rewrite in_app_iff in *. intros [C|C]; apply hn; [left; exact C|right; apply h2; exact C].
        + intros x hx. apply in_app_or in hx. apply in_or_app. destruct hx as [hx|hx]; [left; exact hx|right; apply h2; exact hx]. }
    destruct (Hsub dofs ND) as [NDs _].
    destruct (foldM_inv (fun V dim => if skip dim then Ok V else
                 do row <- dict_get dimkey_eqb dofs dim ;; undo_piola_dim sd deriv detJ Finv V row) cont order [] V0) as (V' & e & h).
    - rewrite app_nil_r. exact (Permutation_NoDup (Permutation_sym P) NDs).
    - exact hi.
    - intros x s W hx hW ND'. unfold cont in ND' |- *. destruct (skip x) eqn:Ex; [exists W; split; [reflexivity|exact hW]|].
      apply (Permutation_in x Po) in hx.
      destruct (dict_get_some dimkey_eqb dimkey_eqb_spec dofs x hx) as (row & E). unfold got in ND' |- *. rewrite E in ND' |- *. cbn [bind].
      apply (dict_get_in dimkey_eqb dimkey_eqb_spec) in E.
      apply undo_dim_ok; trivial.
      + apply (NDr x). exact E.
      + intros en l Hl. split.
        * apply (hch x en l); [exists row; auto|exact Ex].
        * intros i hil. apply hlt. unfold all_lists. apply in_concat. exists l. split; [|exact hil].
          apply in_flat_map. exists (x, row). split; [exact E|]. apply in_map_iff. exists (en, l). auto.
    - exists V'. split; [exact e|]. rewrite app_nil_r in h. exact (inv_perm _ _ _ P h).
  Qed.
End Lists.
