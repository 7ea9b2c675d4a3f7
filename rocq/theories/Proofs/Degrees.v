(** Degrees of composite elements. *)
From Coq Require Import List Arith Lia Bool.
From Verif Require Import Model.Prelude Model.Cell Model.Element Spec.Degrees Proofs.Lists.
Import ListNotations.

Section DegInd.
  Variable P : deg -> Prop.
  Hypothesis HI : forall n, P (Dg n).
  Hypothesis HT : forall l, Forall P l -> P (DgT l).
  Fixpoint deg_ind' (d : deg) : P d :=
    match d with
    | Dg n => HI n
    | DgT l => HT l ((fix go (l : list deg) : Forall P l :=
                        match l with
                        | [] => Forall_nil P
                        | x :: r => Forall_cons x (deg_ind' x) (go r)
                        end) l)
    end.
End DegInd.

Lemma deg_le_refl : forall d, deg_le d d.
Proof.
  induction d as [n|l IH] using deg_ind'; constructor; [lia|].
  induction IH; constructor; assumption.
Qed.

Lemma deg_le_trans : forall a b c, deg_le a b -> deg_le b c -> deg_le a c.
Proof.
  induction a as [n|l IH] using deg_ind'; intros b c H1 H2.
  - inversion H1; subst. inversion H2; subst. constructor; lia.
  - inversion H1 as [|? ys F1]; subst. inversion H2 as [|? zs F2]; subst. constructor.
    clear H1 H2. revert ys zs F1 F2. induction IH as [|x l Hx IH IHl]; intros ys zs F1 F2.
    + inversion F1; subst. inversion F2; subst. constructor.
    + inversion F1; subst. inversion F2; subst. constructor; [eapply Hx; eassumption | eapply IHl; eassumption].
Qed.

Definition go_max := fix go (xs ys : list deg) : result (list deg) :=
                    match xs, ys with
                    | [], [] => Ok []
                    | x :: xs', y :: ys' =>
                        do z <- tree_max2 x y ;; do zs <- go xs' ys' ;; Ok (z :: zs)
                    | _, _ => Err ValueError
                    end.

Lemma tree_max2_spec : forall a b c, tree_max2 a b = Ok c ->
  deg_le a c /\ deg_le b c /\ forall d, deg_le a d -> deg_le b d -> deg_le c d.
Proof.
  induction a as [n|xs IH] using deg_ind'; intros [m|ys] c H; try discriminate H.
  - injection H as <-. repeat split; try (constructor; lia).
    intros d H1 H2. inversion H1; subst. inversion H2; subst. constructor; lia.
  - change (tree_max2 (DgT xs) (DgT ys)) with (do zs <- go_max xs ys ;; Ok (DgT zs)) in H.
    apply bind_ok in H as (zs & Hz & H). injection H as <-.
    enough (G : Forall2 deg_le xs zs /\ Forall2 deg_le ys zs /\
                forall ds, Forall2 deg_le xs ds -> Forall2 deg_le ys ds -> Forall2 deg_le zs ds).
    { destruct G as (G1 & G2 & G3). split; [|split]; [constructor; exact G1 | constructor; exact G2|].
      intros d D1 D2. inversion D1; subst. inversion D2; subst. constructor. apply G3; assumption. }
    revert ys zs Hz. induction IH as [|x xs Hx IH IHl]; intros [|y ys] zs Hz; try discriminate Hz.
    + injection Hz as <-. repeat split; constructor || (intros ds D _; exact D).
    + cbn [go_max] in Hz. apply bind_ok in Hz as (z & Hz1 & Hz). apply bind_ok in Hz as (zs' & Hz2 & Hz).
      injection Hz as <-. destruct (Hx _ _ Hz1) as (A1 & A2 & A3). destruct (IHl _ _ Hz2) as (B1 & B2 & B3).
      split; [|split]; [constructor; assumption | constructor; assumption|].
      intros ds D1 D2. inversion D1; subst. inversion D2; subst. constructor; auto.
Qed.

Lemma tree_max_spec : forall l a c, tree_max a l = Ok c ->
  Forall (fun d => deg_le d c) (a :: l) /\ forall b, Forall (fun d => deg_le d b) (a :: l) -> deg_le c b.
Proof.
  induction l as [|x l IH]; intros a c H; cbn [tree_max] in H.
  - injection H as <-. split; [repeat constructor; apply deg_le_refl|]. intros b Hb; inversion Hb; assumption.
  - apply bind_ok in H as (m & Hm & H). destruct (tree_max2_spec _ _ _ Hm) as (A1 & A2 & A3).
    destruct (IH _ _ H) as [B1 B2]. inversion B1; subst. split.
    + constructor; [eapply deg_le_trans; eassumption|]. constructor; [eapply deg_le_trans; eassumption | assumption].
    + intros b Hb. inversion Hb as [|? ? Ha Hb']; subst. inversion Hb'; subst. apply B2. constructor; auto.
Qed.

Lemma deg_eqb_true : forall a b, deg_eqb a b = true -> a = b.
Proof.
  induction a as [n|xs IH] using deg_ind'; intros [m|ys] H; try discriminate H.
  - cbn in H. apply Nat.eqb_eq in H as ->. reflexivity.
  - f_equal. cbn in H. revert ys H. induction IH as [|x xs Hx IH IHl]; intros [|y ys] H; try discriminate H; [reflexivity|].
    apply andb_prop in H as [H1 H2]. f_equal; [apply Hx; exact H1 | apply IHl; exact H2].
Qed.

(** When the maximum is taken it exists: degrees of one form. *)
Inductive same_form : deg -> deg -> Prop :=
| sf_int : forall a b, same_form (Dg a) (Dg b)
| sf_tuple : forall xs ys, Forall2 same_form xs ys -> same_form (DgT xs) (DgT ys).

Theorem degree_enriched : forall F (es : list (elt F)) D, degree (EEnriched es) = Ok D ->
  exists ds, mapM degree es = Ok ds /\ Forall (fun d => deg_le d D) ds /\
    forall B, Forall (fun d => deg_le d B) ds -> deg_le D B.
Proof.
  intros F es D H. cbn [degree] in H. apply bind_ok in H as (ds & Hd & H). exists ds. split; [exact Hd|].
  destruct ds as [|d r]; [discriminate|]. apply tree_max_spec in H. exact H.
Qed.

Theorem degree_product : forall F (fs : list (elt F)) D, degree (ETensorProduct fs) = Ok D ->
  exists ds, D = DgT ds /\ Forall2 (fun f d => degree f = Ok d) fs ds.
Proof.
  intros F fs D H. cbn [degree] in H. apply bind_ok in H as (ds & Hd & H). injection H as <-.
  exists ds. split; [reflexivity|]. apply mapM_ok; exact Hd.
Qed.

Theorem degree_flattened : forall F (p : elt F) D,
  degree (EFlattened p) = Ok D <->
  exists ds, degree p = Ok (DgT ds) /\ ds <> [] /\ Forall (fun d => d = D) ds.
Proof.
  intros F p D. cbn [degree]. split.
  - intros H. apply bind_ok in H as (d & Hd & H). destruct d as [|ds]; [discriminate|].
    exists ds. split; [exact Hd|]. unfold unique in H. destruct ds as [|x r]; [discriminate|].
    destruct (forallb (deg_eqb x) r) eqn:E; [|discriminate]. injection H as <-. split; [discriminate|].
    constructor; [reflexivity|]. rewrite forallb_forall in E. apply Forall_forall. intros y Hy.
    symmetry. apply deg_eqb_true, E, Hy.
  - intros (ds & -> & NE & All). cbn [bind]. destruct ds as [|x r]; [congruence|].
    inversion All as [|? ? Ex All']. subst x. unfold unique.
    replace (forallb (deg_eqb D) r) with true; [reflexivity|]. symmetry. apply forallb_forall. intros y Hy.
    rewrite Forall_forall in All'. rewrite (All' y Hy). clear.
    induction D as [n|l IH] using deg_ind'; cbn; [apply Nat.eqb_refl|].
    induction IH as [|d l Hd IH IHl]; [reflexivity|]. rewrite Hd. exact IHl.
Qed.

(** Degrees of one form always have a maximum. *)
Lemma tree_max2_total : forall a b, same_form a b -> exists c, tree_max2 a b = Ok c /\ same_form a c.
Proof.
  induction a as [n|xs IH] using deg_ind'; intros b H; inversion H as [|? ys F]; subst.
  - eexists; split; [reflexivity | constructor].
  - change (tree_max2 (DgT xs) (DgT ys)) with (do zs <- go_max xs ys ;; Ok (DgT zs)).
    enough (G : exists zs, go_max xs ys = Ok zs /\ Forall2 same_form xs zs).
    { destruct G as (zs & -> & G). eexists; split; [reflexivity | constructor; exact G]. }
    clear H. revert ys F. induction IH as [|x xs Hx IH IHl]; intros ys F; inversion F; subst.
    + exists []; split; [reflexivity | constructor].
    + destruct (Hx _ H1) as (z & Ez & Sz). destruct (IHl _ H3) as (zs & Ezs & Szs).
      exists (z :: zs). cbn [go_max]. rewrite Ez. cbn [bind]. rewrite Ezs. split; [reflexivity | constructor; assumption].
Qed.

Lemma same_form_sym : forall a b, same_form a b -> same_form b a.
Proof.
  induction a as [n|xs IH] using deg_ind'; intros b H; inversion H as [|? ys F]; subst; constructor.
  clear H. revert ys F. induction IH; intros ys F; inversion F; subst; constructor; auto.
Qed.
Lemma same_form_trans : forall a b c, same_form a b -> same_form b c -> same_form a c.
Proof.
  induction a as [n|xs IH] using deg_ind'; intros b c H1 H2; inversion H1 as [|? ys F1]; subst; inversion H2 as [|? zs F2]; subst; constructor.
  clear H1 H2. revert ys zs F1 F2. induction IH; intros ys zs F1 F2; inversion F1; subst; inversion F2; subst; constructor; eauto.
Qed.

Theorem degree_enriched_defined : forall F (es : list (elt F)) ds,
  mapM degree es = Ok ds -> ds <> [] -> (forall a b, In a ds -> In b ds -> same_form a b) ->
  exists D, degree (EEnriched es) = Ok D.
Proof.
  intros F es ds Hd NE S. cbn [degree]. rewrite Hd. cbn [bind]. destruct ds as [|d r]; [congruence|].
  assert (G : forall r d, Forall (same_form d) r -> exists D, tree_max d r = Ok D).
  { clear. induction r as [|x r IH]; intros d H; cbn [tree_max]; [eauto|].
    inversion H; subst. destruct (tree_max2_total _ _ H2) as (m & -> & Sm). cbn [bind]. apply IH.
    rewrite Forall_forall in H3 |- *. intros y Hy. eapply same_form_trans; [apply same_form_sym; exact Sm | apply H3; exact Hy]. }
  apply G. apply Forall_forall. intros x Hx. apply S; [left; reflexivity | right; exact Hx].
Qed.
