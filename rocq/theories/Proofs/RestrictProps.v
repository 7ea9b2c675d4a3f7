(** The restriction theorems as stated, and the sample restriction of leaves. *)
From Coq Require Import String List Arith ZArith Lia Bool Permutation.
From Verif Require Import Model.Prelude Model.Cell Model.Element Model.Gem Model.PointSet Model.Evaluation Model.Restricted.
From Verif Require Import Spec.Rowmajor Spec.EntityDofs Spec.Layout Spec.Tabulation Spec.Restricted Spec.Samples Spec.ZSamples Spec.RSamples.
From Verif Require Import Proofs.Lists Proofs.Cells Proofs.EntityDofs Proofs.EntityDofs2 Proofs.Layout Proofs.Flatten Proofs.Closure Proofs.DofProps Proofs.DualTree
  Proofs.GemEval Proofs.Tables Proofs.Tables2 Proofs.Tables3 Proofs.Tree Proofs.TabProps Proofs.Restrict1 Proofs.Restrict2 Proofs.Restrict3 Proofs.Restrict4 Proofs.Restrict5 Proofs.Restrict6 Proofs.Restrict7.
Import ListNotations.
Local Open Scope nat_scope.

Lemma codim_names : forall s D n, names s D n -> n <= D ->
  r_to_codim s (Z.of_nat D) = Ok (Z.of_nat (D - n)).
Proof. intros s D n H L. rewrite (r_to_codim_names _ _ _ H). f_equal. lia. Qed.

Lemma names_codim : forall c D, c <= D -> (c <= 1 \/ D - c <= 2) ->
  exists s, codim_to_r (Z.of_nat c) (Z.of_nat D) = Ok s /\ names s D (D - c).
Proof.
  intros c D H1 H2. unfold codim_to_r.
  destruct (Z.eqb_spec (Z.of_nat c) 0) as [E|E].
  { exists "interior"%string. split; [reflexivity|]. replace (D - c) with D by lia. constructor. }
  destruct (Z.eqb_spec (Z.of_nat c) 1) as [E1|E1].
  { exists "facet"%string. split; [reflexivity|]. destruct D as [|D]; [lia|]. replace (S D - c) with D by lia. constructor. }
  destruct (Z.eqb_spec (Z.of_nat D - Z.of_nat c) 0) as [E2|E2].
  { exists "vertex"%string. split; [reflexivity|]. replace (D - c) with 0 by lia. constructor. }
  destruct (Z.eqb_spec (Z.of_nat D - Z.of_nat c) 1) as [E3|E3].
  { exists "edge"%string. split; [reflexivity|]. replace (D - c) with 1 by lia. constructor. }
  destruct (Z.eqb_spec (Z.of_nat D - Z.of_nat c) 2) as [E4|E4].
  { exists "face"%string. split; [reflexivity|]. replace (D - c) with 2 by lia. constructor. }
  lia.
Qed.

Lemma codim_unnamed : forall c D, 2 <= c -> c + 3 <= D -> codim_to_r (Z.of_nat c) (Z.of_nat D) = Err ValueError.
Proof.
  intros c D H1 H2. unfold codim_to_r.
  repeat match goal with |- context [Z.eqb ?a ?b] => destruct (Z.eqb_spec a b); [lia|] end. reflexivity.
Qed.

Lemma codim_unnamed' : forall c D, c <= D -> ~ (c <= 1 \/ D - c <= 2) -> codim_to_r (Z.of_nat c) (Z.of_nat D) = Err ValueError.
Proof. intros c D H N. apply codim_unnamed; lia. Qed.

Lemma codim_round : forall s D n, names s D n -> n <= D -> forall c, r_to_codim s (Z.of_nat D) = Ok c ->
  forall s', codim_to_r c (Z.of_nat D) = Ok s' -> names s' D n.
Proof.
  intros s D n H L c Hc s' Hs. rewrite (codim_names _ _ _ H L) in Hc. injection Hc as <-.
  destruct (le_dec (D - n) 1) as [L1|L1].
  - destruct (names_codim (D - n) D) as (s'' & E & Hn); [lia | now left|]. rewrite E in Hs. injection Hs as <-.
    replace (D - (D - n)) with n in Hn by lia. exact Hn.
  - destruct (le_dec n 2) as [L2|L2].
    + destruct (names_codim (D - n) D) as (s'' & E & Hn); [lia | right; lia|]. rewrite E in Hs. injection Hs as <-.
      replace (D - (D - n)) with n in Hn by lia. exact Hn.
    + rewrite codim_unnamed in Hs by lia. discriminate.
Qed.

Lemma unknown_name : forall s D, ~ In s ["interior"; "facet"; "face"; "edge"; "vertex"]%string ->
  r_to_codim s D = Err ValueError.
Proof.
  intros s D H. unfold r_to_codim.
  repeat match goal with |- context [String.eqb s ?x] => destruct (String.eqb_spec s x) as [->|_]; [exfalso; apply H; cbn; tauto|] end.
  reflexivity.
Qed.

Lemma concat_all : forall d : edofs, concat (all_lists d) = flat_map (fun kr => flat_map snd (snd kr)) d.
Proof.
  unfold all_lists. induction d as [|[k row] d IH]; [reflexivity|]. cbn [flat_map fst snd]. rewrite concat_app, IH. f_equal.
  clear. induction row as [|[i l] row IH]; [reflexivity|]. cbn [map concat flat_map snd]. now rewrite IH.
Qed.

Lemma has_disjoint : forall (d : edofs) n k i l k' i' l' v, partitions n (all_lists d) ->
  has_dofs d k i l -> has_dofs d k' i' l' -> In v l -> In v l' -> k = k' /\ i = i'.
Proof.
  intros d n k i l k' i' l' v P (row & Hr & Hi) (row' & Hr' & Hi') Hv Hv'. unfold partitions in P.
  assert (ND : NoDup (concat (all_lists d))) by (eapply Permutation_NoDup; [symmetry; exact P | apply seq_NoDup]).
  rewrite concat_all in ND.
  assert (E : (k, row) = (k', row')).
  { eapply (flat_map_disjoint _ _ _ _ ND); [exact Hr | exact Hr' | |]; cbn [snd]; apply in_flat_map; eauto. }
  injection E as <- <-. split; [reflexivity|]. apply (flat_map_NoDup_in _ _ _ _ _ ND) in Hr. cbn [snd] in Hr.
  assert (E : (i, l) = (i', l')) by (eapply (flat_map_disjoint _ _ _ _ Hr); eauto). now injection E.
Qed.

Lemma has_NoDup : forall (d : edofs) n k i l, partitions n (all_lists d) -> has_dofs d k i l -> NoDup l.
Proof.
  intros d n k i l P (row & Hr & Hi). unfold partitions in P.
  assert (ND : NoDup (concat (all_lists d))) by (eapply Permutation_NoDup; [symmetry; exact P | apply seq_NoDup]).
  rewrite concat_all in ND. apply (flat_map_NoDup_in _ _ _ _ _ ND) in Hr. cbn [snd] in Hr.
  apply (flat_map_NoDup_in _ _ _ _ _ Hr Hi).
Qed.

Section Final.
  Context {F : Type} (o : ops F) (fr : leaf F -> string -> bool -> result (leaf F)).
  Local Notation elt := (elt F).

  Lemma restrict_tree : forall (e : elt) domain c s d,
    (forall l, leaf_of l e -> leaf_ok l) -> sensible e -> cell_of e = Ok c -> value_shape e = Ok s -> entity_dofs e = Ok d ->
    valid domain (spatial_dimension c) -> restrictable fr domain true e ->
    let S := selects domain true (spatial_dimension c) in
    (some_dof S d -> exists r sigma, RestrictedElement fr e (Some domain) false = Ok (RElt r) /\ restricts o S e r sigma /\
       built r /\ (shaped e -> shaped r) /\ (forall l, leaf_of l r -> leaf_ok l) /\ sensible r) /\
    (~ some_dof S d -> RestrictedElement fr e (Some domain) false = Err ValueError).
  Proof.
    intros e domain c s d Hl Hsens Hc Hs Hd Hv Hr S.
    assert (G : good c e) by (split; [exact Hl | split; assumption]).
    assert (Sd : forall k, sel domain true c k \/ ~ sel domain true c k).
    { intros k. destruct (selects_dec domain true (spatial_dimension c) (dk_total k)); [left | right]; assumption. }
    unfold RestrictedElement. cbn [negb guard bind].
    destruct (proj1 (Q_all o fr e) domain true c s G Hs Hv Hr) as [(r & E & sigma & HR & Hb & Hsh & _)|[E HN]].
    - rewrite E. cbn [bind]. split.
      + intros _. exists r, sigma. split; [reflexivity|]. split; [|split; [exact Hb | split; [exact Hsh | split; apply (R_good _ _ _ _ _ _ HR)]]].
        split; [exists c; split; [exact Hc | apply (R_good _ _ _ _ _ _ HR)]|].
        split; [apply (R_shape _ _ _ _ _ _ HR)|]. split; [|apply (R_vals _ _ _ _ _ _ HR)].
        destruct (good_dofs _ _ (R_good _ _ _ _ _ _ HR)) as (dr & Hdr & _).
        exists d, dr. split; [exact Hd|]. split; [exact Hdr|]. intros k i le Hle.
        apply (dofs_has c e d k i le G Hd) in Hle. destruct Hle as [Hk ->].
        exists (dofs r k i). split; [apply (dofs_has c r dr k i _ (R_good _ _ _ _ _ _ HR) Hdr); auto|].
        apply (R_dofs _ _ _ _ _ _ HR k i Hk).
      + intros N. exfalso. apply N. destruct (R_some o c _ e r sigma d G Sd Hd HR) as (k & i & v & l & A & B & C).
        exists k, i, v, l. auto.
    - rewrite E. cbn [bind]. split; [|reflexivity].
      intros (k & i & v & l & A & B & C). exfalso. apply (none_some c _ e d G Hd HN). exists k, i, v, l. auto.
  Qed.

  (** [sigma] numbers the selected dofs. *)
  Lemma restricts_numbers : forall (S : nat -> Prop) (e r : elt) sigma d,
    (forall l, leaf_of l e -> leaf_ok l) -> sensible e -> (forall l, leaf_of l r -> leaf_ok l) -> sensible r ->
    (forall n, S n \/ ~ S n) -> entity_dofs e = Ok d -> restricts o S e r sigma ->
    (forall j, j < space_dimension r -> sigma j < space_dimension e) /\
    (forall j j', j < space_dimension r -> j' < space_dimension r -> sigma j = sigma j' -> j = j') /\
    (forall i, (exists j, j < space_dimension r /\ sigma j = i) <-> exists k n l, has_dofs d k n l /\ S (dk_total k) /\ In i l).
  Proof.
    intros S e r sigma d Hl Hsens Hlr Hsr Sd Hd ((c & Hc & Hcr) & _ & (de & dr & Hde & Hdr & Hdofs) & _).
    rewrite Hd in Hde. injection Hde as <-.
    assert (G : good c e) by (split; [exact Hl | split; assumption]).
    assert (Gr : good c r) by (split; [exact Hlr | split; assumption]).
    assert (Hk : forall k i, entity_of (topology c) (k, i) -> (S (dk_total k) -> map sigma (dofs r k i) = dofs e k i) /\ (~ S (dk_total k) -> dofs r k i = [])).
    { intros k i Hki. destruct (Hdofs k i (dofs e k i)) as (lr & H1 & H2); [apply (dofs_has c e d k i _ G Hd); auto|].
      apply (dofs_has c r dr k i _ Gr Hdr) in H1. destruct H1 as [_ ->]. exact H2. }
    assert (Hat : forall j, j < space_dimension r -> exists k i, entity_of (topology c) (k, i) /\ S (dk_total k) /\ In j (dofs r k i) /\ In (sigma j) (dofs e k i)).
    { intros j Hj. destruct (dofs_cover c r j Gr Hj) as (k & i & Hki & Hin). destruct (Hk k i Hki) as [A B].
      destruct (Sd (dk_total k)) as [X|X]; [|rewrite (B X) in Hin; destruct Hin].
      exists k, i. split; [exact Hki|]. split; [exact X|]. split; [exact Hin|]. rewrite <- (A X). apply in_map. exact Hin. }
    split; [|split].
    - intros j Hj. destruct (Hat j Hj) as (k & i & Hki & _ & _ & Hin). eapply dofs_lt; eassumption.
    - intros j j' Hj Hj' Es. destruct (Hat j Hj) as (k & i & Hki & HS & Hin & Hin').
      destruct (Hat j' Hj') as (k' & i' & Hki' & HS' & Hjn & Hjn'). rewrite Es in Hin'.
      destruct (good_dofs c e G) as (de & Ede & [_ part]). rewrite Hd in Ede. injection Ede as <-.
      pose proof (proj2 (dofs_has c e d k i _ G Hd) (conj Hki eq_refl)) as Hh.
      pose proof (proj2 (dofs_has c e d k' i' _ G Hd) (conj Hki' eq_refl)) as Hh'.
      destruct (has_disjoint d _ _ _ _ _ _ _ (sigma j') part Hh Hh' Hin' Hjn') as [-> ->].
      destruct (Hk k' i' Hki') as [A _]. specialize (A HS').
      destruct (In_nth_error _ _ Hin) as (a & Ha). destruct (In_nth_error _ _ Hjn) as (b & Hb).
      assert (Ne : NoDup (dofs e k' i')) by exact (has_NoDup d _ _ _ _ part Hh').
      assert (Ea : nth_error (dofs e k' i') a = Some (sigma j)) by (rewrite <- A; apply map_nth_error; exact Ha).
      assert (Eb : nth_error (dofs e k' i') b = Some (sigma j')) by (rewrite <- A; apply map_nth_error; exact Hb).
      assert (a = b).
      { eapply (proj1 (NoDup_nth_error _)); [exact Ne | apply nth_error_Some; congruence | congruence]. }
      congruence.
    - intros i. split.
      + intros (j & Hj & <-). destruct (Hat j Hj) as (k & n & Hki & HS & _ & Hin). exists k, n, (dofs e k n).
        split; [apply (dofs_has c e d k n _ G Hd); auto | auto].
      + intros (k & n & l & Hh & HS & Hin). apply (dofs_has c e d k n _ G Hd) in Hh. destruct Hh as [Hki ->].
        destruct (Hk k n Hki) as [A _]. rewrite <- (A HS) in Hin. apply in_map_iff in Hin. destruct Hin as (j & Ej & Hj).
        exists j. split; [eapply dofs_lt; eassumption | exact Ej].
  Qed.
End Final.

Lemma restrict_tabulates : forall F (o : ops F) G,
  ring_theory (f0 o) (f1 o) (fadd o) (fmul o) (fsub o) (fopp o) eq ->
  forall (leaf_eval : leaf F -> nat -> pset F -> option (dimkey * nat) -> option G -> fresh (list (list nat * gem F)))
    (S : nat -> Prop) (e r : elt F) sigma, restricts o S e r sigma -> built r -> shaped r ->
  (forall l, leaf_of l r -> fold_right Nat.mul 1 (lf_ishape l) = lf_dim l /\ leaf_tabulates o leaf_eval l) ->
  forall vars order ps ent cm n c vs, cell_of e = Ok c -> value_shape e = Ok vs ->
  ps_ok ps -> (forall i, In i (ps_indices ps) -> ix_id i < n) ->
  entity_of (topology c) (entity_or_cell c ent) -> fits r (entity_or_cell c ent) ps ->
  exists ts n', basis_evaluation o leaf_eval r order ps ent cm n = Ok (ts, n') /\
    derivative_keys (spatial_dimension c) order (map fst ts) /\
    forall alpha g, In (alpha, g) ts -> forall env b v, env_ok ps env -> in_shape (index_shape r) b -> in_shape vs v ->
      value_of o e alpha (entity_or_cell c ent) (pt_at ps env) (sigma (rowmajor (index_shape r) b)) v (eval o vars g env (b ++ v)).
Proof.
  intros F o G Rg le S e r sigma ((c' & Hc' & Hcr) & (s' & Hs' & Hsr) & _ & Hv) Hb Hsh Hl vars order ps ent cm n c vs Hc Hvs Hps Hix Hent Hfit.
  rewrite Hc in Hc'. injection Hc' as <-. rewrite Hvs in Hs'. injection Hs' as <-.
  destruct (tabulation o Rg le r vars order ps ent cm n c vs Hb Hsh Hl Hcr Hsr Hps Hix Hent Hfit) as (ts & n' & E & _ & Hk & Ht).
  exists ts, n'. split; [exact E|]. split; [exact Hk|]. intros alpha g Hg env b v He Hib Hiv.
  destruct (Ht alpha g Hg) as (_ & _ & Hval). apply Hv; [|apply Hval; auto].
  rewrite rowmajor_ravel by (apply in_shape_length; exact Hib).
  rewrite <- (dims_prod F r (fun l Hl' => proj1 (Hl l Hl'))). apply ravel_lt. exact Hib.
Qed.
