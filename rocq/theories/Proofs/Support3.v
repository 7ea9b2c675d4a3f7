(** Entity support dofs of base elements and of trees. *)
From Coq Require Import String List Arith Lia Bool ZArith Permutation Sorted Ring.
From Verif Require Import Model.Prelude Model.Cell Model.Element Model.EntityMaps Model.Gem Model.PointSet Model.Evaluation
  Model.Quadrature Model.Support.
From Verif Require Import Spec.Rowmajor Spec.EntityDofs Spec.Layout Spec.Tabulation Spec.Quadrature Spec.Support.
From Verif Require Import Proofs.Lists Proofs.EntityDofs Proofs.Quad Proofs.Quad2 Proofs.Tree Proofs.Support Proofs.Support2.
Import ListNotations.
Open Scope fresh_scope.

Section Support.
  Context {F G : Type} (o : ops F).
  Context (R : ring_theory (f0 o) (f1 o) (fadd o) (fmul o) (fsub o) (fopp o) eq).
  Context (gtb : F -> F -> bool) (eps : F).
  Context (poly : cell -> nat -> (list F -> F) -> F -> Prop).
  Context (gl : cell -> nat -> list (list F) * list F).
  Context (sch : cell -> nat -> string -> result (list (list F) * list F)).
  Context (macro : cell -> bool).
  Context (Hgl : gauss_legendre_ok o poly gl) (Hsch : fiat_scheme_ok o poly sch).
  Context (Htot : forall c d, exists r, sch c d "default"%string = Ok r).
  Context (leaf_eval : leaf F -> nat -> pset F -> option (dimkey * nat) -> option G -> fresh (list (list nat * gem F))).
  Context (sub_cell : cell -> dimkey -> cell).
  Local Notation elt := (elt F).
  Local Notation support := (entity_support_dofs o gtb eps gl sch macro leaf_eval sub_cell).
  Local Notation nonzero := (nonzero_on o).
  Local Notation integrable := (integrable sub_cell).

  Lemma subelt_trans : forall a b : elt, subelt a b -> forall c, subelt b c -> subelt a c.
  Proof using. intros a b H c H'. induction H'; [exact H | econstructor; eauto ..]. Qed.

  Lemma base_of_sub : forall (b e : elt), base_of b e -> subelt b e /\ (forall l, leaf_of l b -> leaf_of l e) /\
    support b = base_support o gtb eps gl sch macro leaf_eval sub_cell b.
  Proof using.
    induction 1 as [l|b sh tr|e|b f fs Hf H (A & B & D)|b f fs Hf H (A & B & D)|b e sz off H (A & B & D)|b p H (A & B & D)|b w H (A & B & D)|b w H (A & B & D)].
    1-3: split; [apply se_refl | split; [auto | reflexivity]].
    all: split; [econstructor; eassumption | split; [intros l Hl; econstructor; eauto | exact D]].
  Qed.

  Lemma base_prepared : forall b e : elt, prepared o leaf_eval e -> base_of b e -> prepared o leaf_eval b.
  Proof using gtb eps gl sch macro sub_cell.
    intros b e HP H. apply base_of_sub in H as (A & B & _). eapply prepared_sub; [exact HP| |exact B].
    intros s Hs. eapply subelt_trans; eassumption.
  Qed.

  (** What is computed for one element by integration. *)
  Theorem base_support_ok : forall (e b : elt) c, built e -> shaped e ->
    (forall l, leaf_of l e -> leaf_ok l /\ leaf_tabulates o leaf_eval l) ->
    base_of b e -> integrable b -> cell_of b = Ok c ->
    forall n, exists dd n', support b n = Ok (dd, n') /\ n <= n' /\ keys_match (topology c) dd /\
      forall k i l, has_dofs dd k i l -> StronglySorted lt l /\ (forall m, In m l -> m < space_dimension b) /\
        forall m I, m < space_dimension b -> square_integral o poly sub_cell b (k, i) m I ->
          (In m l <-> gtb I eps = true).
  Proof using R Hgl Hsch Htot.
    intros e b c HB HS HL Hb (c' & vs & d & s & q & Hc' & Hvs & Hd & Hreg & Htw & Hint) Hc n.
    rewrite Hc in Hc'. injection Hc' as <-.
    assert (HP : prepared o leaf_eval b).
    { eapply base_prepared; [|exact Hb]. split; [apply built_checked; exact HB | split; assumption]. }
    destruct (base_measured o R gtb eps poly gl sch macro Hgl Hsch Htot leaf_eval sub_cell b c vs d s q HP Hc Hvs Hd Hreg Htw Hint n)
      as (dd & n' & E & L & K & HM).
    apply base_of_sub in Hb as (_ & _ & Es). exists dd, n'. rewrite Es. split; [exact E|]. split; [exact L|]. split; [exact K|].
    intros k i l Hl. assert (M := HM k i l Hl). destruct (measured_sorted o gtb eps gl sch macro sub_cell _ _ _ _ _ _ _ M) as [S B].
    split; [exact S|]. split; [exact B|]. intros m I Hm HI.
    assert (Hent := entity_listed _ _ _ _ _ K Hl). destruct Hent as (cn & Hin & _). cbn [fst] in Hin.
    destruct (Hint k cn Hin) as (_ & Hne & _).
    eapply (measured_integral o R gtb eps poly gl sch macro Hgl Hsch); eassumption.
  Qed.

  Context (H1 : f1 o <> f0 o) (HD : forall x y, fmul o x y = f0 o -> x = f0 o \/ y = f0 o).

  Theorem support_ok : forall (e : elt) c vs, built e -> shaped e ->
    (forall l, leaf_of l e -> leaf_ok l /\ leaf_tabulates o leaf_eval l) ->
    (forall b, base_of b e -> integrable b /\ separated o poly sub_cell gtb eps b) ->
    cell_of e = Ok c -> value_shape e = Ok vs ->
    forall n, exists dd n', support e n = Ok (dd, n') /\ n <= n' /\ keys_match (topology c) dd /\
      forall k i l, has_dofs dd k i l -> StronglySorted lt l /\
        forall m, In m l <-> m < space_dimension e /\ nonzero e (k, i) m.
  Proof using R Hgl Hsch Htot H1 HD.
    intros e c vs HB HS HL Hbase Hc Hvs n.
    assert (HP : prepared o leaf_eval e) by (split; [apply built_checked; exact HB | split; assumption]).
    destruct (tree_answers o R gtb eps gl sch macro leaf_eval sub_cell (fun P => P) (fun P x => x) (fun P Q x f => f x) True H1 HD e)
      with (c := c) (vs := vs) (n := n) as (dd & n' & E & L & K & HG); auto.
    { intros b Hb c0 vs0 HPb Hc0 Hvs0 n0. destruct (Hbase b Hb) as [Hi Hsep].
      destruct (base_support_ok e b c0 HB HS HL Hb Hi Hc0 n0) as (dd & n' & E & L & K & HM).
      exists dd, n'. split; [exact E|]. split; [exact L|]. split; [exact K|]. intros k i l Hl.
      destruct (HM k i l Hl) as (S & B & D). assert (Hent := entity_listed _ _ _ _ _ K Hl).
      split; [exact S|]. split.
      - intros m Hm. split; [apply B; exact Hm|]. destruct (Hsep c0 (k, i) m Hc0 Hent (B m Hm)) as (I & HI & HZ).
        apply HZ. apply (D m I (B m Hm) HI). exact Hm.
      - intros _ m Hm Hnz. destruct (Hsep c0 (k, i) m Hc0 Hent Hm) as (I & HI & HZ).
        apply (D m I Hm HI). apply HZ. exact Hnz. }
    exists dd, n'. split; [exact E|]. split; [exact L|]. split; [exact K|]. intros k i l Hl.
    destruct (HG k i l Hl) as (S & A & B). split; [exact S|]. intros m. split; [apply A|]. intros [Hm Hnz]. apply B; auto.
  Qed.

  Theorem support_sound : forall (e : elt) c vs, built e -> shaped e ->
    (forall l, leaf_of l e -> leaf_ok l /\ leaf_tabulates o leaf_eval l) ->
    (forall b, base_of b e -> integrable b) ->
    (forall x : F, x = f0 o \/ x <> f0 o) -> gtb (f0 o) eps = false ->
    cell_of e = Ok c -> value_shape e = Ok vs ->
    forall n, exists dd n', support e n = Ok (dd, n') /\ n <= n' /\ keys_match (topology c) dd /\
      forall k i l, has_dofs dd k i l -> StronglySorted lt l /\
        forall m, (In m l -> m < space_dimension e) /\ (~ nonzero e (k, i) m -> ~ In m l).
  Proof using R Hgl Hsch Htot H1 HD.
    intros e c vs HB HS HL Hbase Hdec Hz Hc Hvs n.
    assert (HP : prepared o leaf_eval e) by (split; [apply built_checked; exact HB | split; assumption]).
    destruct (tree_answers o R gtb eps gl sch macro leaf_eval sub_cell (fun P => ~ ~ P) (fun P x f => f x) (fun P Q x f g => x (fun p => f p g)) False H1 HD e)
      with (c := c) (vs := vs) (n := n) as (dd & n' & E & L & K & HG); auto.
    { intros b Hb c0 vs0 HPb Hc0 Hvs0 n0. destruct (Hbase b Hb) as (c' & vs' & d & s & q & Hc' & Hvs' & Hd & Hreg & Htw & Hint).
      rewrite Hc0 in Hc'. injection Hc' as <-. rewrite Hvs0 in Hvs'. injection Hvs' as <-.
      destruct (base_measured o R gtb eps poly gl sch macro Hgl Hsch Htot leaf_eval sub_cell b c0 vs0 d s q HPb Hc0 Hvs0 Hd Hreg Htw Hint n0)
        as (dd & n' & E & L & K & HM).
      destruct (base_of_sub b e Hb) as (_ & _ & Es). exists dd, n'. rewrite Es. split; [exact E|]. split; [exact L|]. split; [exact K|].
      intros k i l Hl. assert (M := HM k i l Hl). destruct (measured_sorted o gtb eps gl sch macro sub_cell _ _ _ _ _ _ _ M) as [S B].
      split; [exact S|]. split; [|intros []]. intros m Hm. split; [apply B; exact Hm|]. intros Hn.
      eapply (measured_zero o R gtb eps gl sch macro sub_cell); try eassumption. apply B; exact Hm. }
    exists dd, n'. split; [exact E|]. split; [exact L|]. split; [exact K|]. intros k i l Hl.
    destruct (HG k i l Hl) as (S & A & _). split; [exact S|]. intros m. split; [apply A|]. intros Hn Hm. apply (proj2 (A m Hm)). exact Hn.
  Qed.
End Support.
