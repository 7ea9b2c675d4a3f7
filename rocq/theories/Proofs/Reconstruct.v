(** Elements made again with one argument changed. *)
From Coq Require Import Ascii String List ZArith Arith Bool Lia.
From Verif Require Import Model.Prelude Model.Registry Model.UflElement Spec.Registry Spec.UflElement Spec.Reconstruct.
From Verif Require Import Proofs.Lists Proofs.Registry Proofs.Canonical Proofs.Repr Proofs.Equality Proofs.Rebuild Proofs.Expansion.
Import ListNotations.
Open Scope string_scope.
Opaque builtins registered.

(** ** Induction *)
Section LeafwiseInduction.
  Variable R : uel -> uel -> Prop.
  Variable P : uel -> uel -> Prop.
  Hypothesis HF : forall d c s v e', R (UFinite d c s v) e' -> P (UFinite d c s v) e'.
  Hypothesis HM : forall a a' l l', Forall2 (leafwise R) l l' -> Forall2 P l l' -> P (UMixed a l) (UMixed a' l').
  Hypothesis HV : forall a a' e e' n, leafwise R e e' -> P e e' -> P (UVector a e n) (UVector a' e' n).
  Hypothesis HT : forall a a' e e' shape sym t t' n n', leafwise R e e' -> P e e' ->
    P (UTensor a e shape sym t n) (UTensor a' e' shape sym t' n').
  Hypothesis HP : forall a a' l l' c, Forall2 (leafwise R) l l' -> Forall2 P l l' -> P (UTensorProduct a l c) (UTensorProduct a' l' c).
  Hypothesis HE : forall b a a' l l', Forall2 (leafwise R) l l' -> Forall2 P l l' -> P (UEnriched b a l) (UEnriched b a' l').
  Hypothesis HD : forall a a' e e', leafwise R e e' -> P e e' -> P (UHDiv a e) (UHDiv a' e').
  Hypothesis HC : forall a a' e e', leafwise R e e' -> P e e' -> P (UHCurl a e) (UHCurl a' e').
  Hypothesis HW : forall e e' m, leafwise R e e' -> P e e' -> P (UWithMapping e m) (UWithMapping e' m).
  Hypothesis HB : forall a a' e e', leafwise R e e' -> P e e' -> P (UBroken a e) (UBroken a' e').
  Hypothesis HR : forall a a' e e' d, leafwise R e e' -> P e e' -> P (URestricted a e d) (URestricted a' e' d).
  Fixpoint leafwise_ind' (x y : uel) (h : leafwise R x y) : P x y :=
    let all := fix all (l l' : list uel) (F : Forall2 (leafwise R) l l') : Forall2 P l l' :=
      match F with Forall2_nil _ => Forall2_nil P | Forall2_cons x y h r => Forall2_cons x y (leafwise_ind' x y h) (all _ _ r) end in
    match h with
    | lw_finite _ d c s v e' r => HF d c s v e' r
    | lw_mixed _ a a' l l' F => HM a a' l l' F (all l l' F)
    | lw_vector _ a a' e e' n h => HV a a' e e' n h (leafwise_ind' e e' h)
    | lw_tensor _ a a' e e' sh sy t t' n n' h => HT a a' e e' sh sy t t' n n' h (leafwise_ind' e e' h)
    | lw_tensor_product _ a a' l l' c F => HP a a' l l' c F (all l l' F)
    | lw_enriched _ b a a' l l' F => HE b a a' l l' F (all l l' F)
    | lw_hdiv _ a a' e e' h => HD a a' e e' h (leafwise_ind' e e' h)
    | lw_hcurl _ a a' e e' h => HC a a' e e' h (leafwise_ind' e e' h)
    | lw_with_mapping _ e e' m h => HW e e' m h (leafwise_ind' e e' h)
    | lw_broken _ a a' e e' h => HB a a' e e' h (leafwise_ind' e e' h)
    | lw_restricted _ a a' e e' d h => HR a a' e e' d h (leafwise_ind' e e' h)
    end.
End LeafwiseInduction.

(** ** Changes that leave the attributes alone *)
Section Kept.
  Variable kw : kwargs.
  Variable R : uel -> uel -> Prop.
  Hypothesis Kc : kw_cell kw = None.
  Hypothesis Km : kw_mapping kw = None.
  Definition redone (e e' : uel) : Prop := reconstruct kw e = Ok e' /\ leafwise R e e' /\ built e' /\ u_attrs e = u_attrs e'.
  Hypothesis Leaf : forall d c s v, built (UFinite d c s v) -> exists e', redone (UFinite d c s v) e'.

  Lemma redone_list l : Forall (fun e => exists e', redone e e') l -> exists l',
    sequence (map (reconstruct kw) l) = Ok l' /\ Forall2 (leafwise R) l l' /\ Forall built l' /\ map u_attrs l = map u_attrs l'.
  Proof.
    unfold sequence. intros F. induction F as [|x l (x' & K & S & Bx & Ax) F IH]; cbn [map mapM]; [exists []; auto|].
    destruct IH as (l' & M & S' & B' & A). rewrite K, M. cbn [bind].
    exists (x' :: l'). repeat split; try constructor; auto. cbn [map]. congruence.
  Qed.
  Lemma reconstruct_kept e : built e -> exists e', redone e e'.
  Proof.
    assert (Kc' : mkKwargs (kw_family kw) None (kw_degree kw) (kw_scheme kw) (kw_variant kw) (kw_mapping kw) = kw)
      by (destruct kw; cbn in *; congruence).
    assert (Km' : mkKwargs (kw_family kw) (kw_cell kw) (kw_degree kw) (kw_scheme kw) (kw_variant kw) None = kw)
      by (destruct kw; cbn in *; congruence).
    intros B. induction B as [f c o k s v d c' s' v' H|es e B IH H|sub dim e B IH H|sub shape sym e B IH H|es c e B IH H|nodal es e B IH H
                   |sub e B IH H|sub e B IH H|sub m e B IH H|sub e B IH H|sub dom e B IH H] using built_ind'.
    - apply Leaf. exact (built_finite _ _ _ _ _ _ _ _ _ _ H).
    - destruct (redone_list es IH) as (l' & M & S & B' & A). pose proof H as H'. apply mk_mixed_inv in H' as (a & -> & _).
      pose proof (mk_mixed_cong _ _ _ A H) as K. exists (UMixed a l'). unfold redone. cbn [reconstruct]. rewrite M. cbn [bind].
      split; [exact K|]. split; [now constructor|]. split; [exact (built_mixed _ _ B' K)|reflexivity].
    - destruct IH as (s' & K & S & B' & A). pose proof H as H'. apply mk_vector_inv in H' as (n & a & E & _). rewrite E in H |- *. clear E a.
      apply mk_vector_self in H. apply (mk_vector_cong _ s') in H; [|exact A].
      eexists. unfold redone. cbn [reconstruct]. rewrite K. cbn [bind]. split; [exact H|]. split; [now constructor|].
      split; [exact (built_vector _ _ _ B' H)|reflexivity].
    - destruct IH as (s' & K & S & B' & A). pose proof H as H'. apply mk_tensor_inv in H' as (a & sh & sy & t & n & -> & _).
      apply mk_tensor_self in H. apply (mk_tensor_cong _ s') in H; [|exact A].
      eexists. unfold redone. cbn [reconstruct]. rewrite K. cbn [bind]. split; [exact H|]. split; [now constructor|].
      split; [exact (built_tensor _ _ _ _ B' H)|reflexivity].
    - destruct (redone_list es IH) as (l' & M & S & B' & A). pose proof H as H'. apply mk_tensor_product_inv in H' as (cell & E & _).
      rewrite E in H |- *. clear E. apply mk_tensor_product_self in H. apply (mk_tensor_product_cong _ _ _ _ A) in H.
      eexists. unfold redone. cbn [reconstruct]. rewrite Kc'. rewrite M. cbn [bind]. rewrite Kc. cbn [or_else].
      split; [exact H|]. split; [now constructor|]. split; [exact (built_tensor_product _ _ _ B' H)|reflexivity].
    - destruct (redone_list es IH) as (l' & M & S & B' & A). pose proof H as H'. apply mk_enriched_inv in H' as (a & e0 & rest & _ & -> & _).
      pose proof (mk_enriched_cong _ _ _ _ A H) as K. eexists. unfold redone. cbn [reconstruct]. rewrite M. cbn [bind].
      split; [exact K|]. split; [now constructor|]. split; [exact (built_enriched _ _ _ B' K)|reflexivity].
    - destruct IH as (s' & K & S & B' & A). pose proof H as H'. apply mk_hdiv_inv in H' as (a & -> & W).
      rewrite (wrapped_cong _ s' A) in W. assert (K' : mk_hdiv s' = Ok (UHDiv a s')) by (unfold mk_hdiv; now rewrite W).
      eexists. unfold redone. cbn [reconstruct]. rewrite K. cbn [bind]. split; [exact K'|]. split; [now constructor|].
      split; [exact (built_hdiv _ _ B' K')|reflexivity].
    - destruct IH as (s' & K & S & B' & A). pose proof H as H'. apply mk_hcurl_inv in H' as (a & -> & W).
      rewrite (wrapped_cong _ s' A) in W. assert (K' : mk_hcurl s' = Ok (UHCurl a s')) by (unfold mk_hcurl; now rewrite W).
      eexists. unfold redone. cbn [reconstruct]. rewrite K. cbn [bind]. split; [exact K'|]. split; [now constructor|].
      split; [exact (built_hcurl _ _ B' K')|reflexivity].
    - destruct IH as (s' & K & S & B' & A). pose proof H as H'. apply mk_with_mapping_inv in H' as [-> N].
      assert (K' : mk_with_mapping s' m = Ok (UWithMapping s' m)).
      { unfold mk_with_mapping. apply String.eqb_neq in N. now rewrite N. }
      eexists. unfold redone. cbn [reconstruct]. rewrite Km'. rewrite K. cbn [bind]. rewrite Km. cbn [or_else].
      split; [exact K'|]. split; [now constructor|]. split; [exact (built_with_mapping _ _ _ B' K')|].
      cbn [u_attrs]. now rewrite A.
    - destruct IH as (s' & K & S & B' & A). pose proof H as H'. apply mk_broken_inv in H' as ->.
      eexists. unfold redone. cbn [reconstruct]. rewrite K. cbn [bind]. split; [reflexivity|]. split; [now constructor|].
      split; [exact (built_broken _ _ B' eq_refl)|]. cbn [u_attrs]. unfold u_cell, u_degree, u_scheme, u_shape. now rewrite A.
    - destruct IH as (s' & K & S & B' & A). pose proof H as H'. apply mk_restricted_inv in H' as [-> I].
      eexists. unfold redone. cbn [reconstruct]. rewrite K. cbn [bind]. unfold mk_restricted in *. binds H. cbn [bind].
      split; [reflexivity|]. split; [now constructor|]. split.
      + apply (built_restricted s' dom); [exact B'|]. unfold mk_restricted. rewrite E. reflexivity.
      + cbn [u_attrs]. unfold u_cell, u_degree, u_scheme, u_shape. now rewrite A.
  Qed.
End Kept.

(** ** Leaves *)
Lemma repr_parts d c s v : has_char dquote (finite_repr d c s v) = false <->
  has_char dquote (pyrepr (ds_family d)) = false /\ has_char dquote (ocell_repr c) = false /\
  has_char dquote (order_repr (ds_order d)) = false /\
  (forall x, s = Some x -> has_char dquote (pyrepr x) = false) /\ (forall x, v = Some x -> has_char dquote (pyrepr x) = false).
Proof.
  unfold finite_repr. rewrite !has_char_app, !orb_false_iff. split.
  - intros (_ & A & _ & B & _ & C & D & E & _). repeat split; auto.
    + intros x ->. rewrite has_char_app in D. now apply orb_false_iff in D.
    + intros x ->. rewrite has_char_app in E. now apply orb_false_iff in E.
  - intros (A & B & C & D & E). repeat split; auto.
    + destruct s as [x|]; [|reflexivity]. rewrite has_char_app, (D x eq_refl). reflexivity.
    + destruct v as [x|]; [|reflexivity]. rewrite has_char_app, (E x eq_refl). reflexivity.
Qed.
Lemma finite_other f c o k s v d s' v' : mk_finite f c o k s v = Ok (UFinite d c s v) ->
  has_char dquote (finite_repr d c s' v') = false ->
  mk_finite f c o k s' v' = Ok (UFinite d c s' v').
Proof.
  intros H Q. pose proof H as P. apply mk_finite_plain, plain_finite_inv in P as (x & E & D & _). injection E as <-.
  assert (P : plain_finite f c o k s' v' = Ok (UFinite d c s' v')) by (unfold plain_finite; rewrite D; cbn [bind]; now rewrite Q).
  destruct c as [[n|cs]|]; [exact P| |exact P]. cbn [mk_finite finite_on] in *. rewrite D in H |- *. cbn [bind] in H |- *.
  assert (NE : forall es e, mk_enriched false es = Ok e -> forall d c s v, e <> UFinite d c s v).
  { intros es e K. apply mk_enriched_inv in K as (a & e0 & r & _ & -> & _). intros. discriminate. }
  assert (NP : forall es c e, mk_tensor_product es c = Ok e -> forall d c s v, e <> UFinite d c s v).
  { intros es c0 e K. apply mk_tensor_product_inv in K as (a & -> & _). intros. discriminate. }
  destruct (String.eqb (ds_family d) "RTCF" || String.eqb (ds_family d) "RTCE").
  { binds H. destruct (NE _ _ H _ _ _ _ eq_refl). }
  destruct (String.eqb (ds_family d) "NCF"). { binds H. destruct (NE _ _ H _ _ _ _ eq_refl). }
  destruct (String.eqb (ds_family d) "NCE"). { binds H. destruct (NE _ _ H _ _ _ _ eq_refl). }
  destruct (String.eqb (ds_family d) "Q"). { binds H. destruct (NP _ _ _ H _ _ _ _ eq_refl). }
  destruct (String.eqb (ds_family d) "DQ"). { binds H. destruct (NP _ _ _ H _ _ _ _ eq_refl). }
  destruct (String.eqb (ds_family d) "DQ L2"). { binds H. destruct (NP _ _ _ H _ _ _ _ eq_refl). }
  exact P.
Qed.
Lemma leaf_inv d c s v : built (UFinite d c s v) -> exists f o k, mk_finite f c o k s v = Ok (UFinite d c s v).
Proof. intros B. exact (built_made _ B). Qed.
Lemma leaf_again d c s v s' v' : built (UFinite d c s v) ->
  (forall x, s' = Some x -> s = Some x \/ quiet (Some x)) -> (forall x, v' = Some x -> v = Some x \/ quiet (Some x)) ->
  exists d', mk_finite (ds_family d) c (ds_order d) None s' v' = Ok (UFinite d' c s' v') /\ same_element d d'.
Proof.
  intros B Qs Qv. destruct (leaf_inv _ _ _ _ B) as (f & o & k & H). pose proof H as H'.
  apply mk_finite_plain, plain_finite_inv in H' as (d0 & E & _ & Q). injection E as <-.
  assert (Q' : has_char dquote (finite_repr d c s' v') = false).
  { apply repr_parts in Q as (Q1 & Q2 & Q3 & Q4 & Q5). apply repr_parts. repeat split; auto.
    - intros x X. destruct (Qs x X) as [S|S]; [now apply Q4|now apply quiet_repr].
    - intros x X. destruct (Qv x X) as [S|S]; [now apply Q5|now apply quiet_repr]. }
  exact (finite_again _ _ _ _ _ _ _ (finite_other _ _ _ _ _ _ _ s' v' H Q')).
Qed.

(** ** The variant *)
Lemma reconstruct_variant e v : built e -> quiet (Some v) -> exists e', reconstruct (set_variant v) e = Ok e' /\
  leafwise (with_variant v) e e' /\ built e' /\ u_attrs e = u_attrs e'.
Proof.
  intros B Q. apply (reconstruct_kept (set_variant v) (with_variant v)); try reflexivity; [|exact B].
  intros d c s w Bl. destruct (leaf_again d c s w s (Some v) Bl) as (d' & H & S); [now left|right; congruence|].
  exists (UFinite d' c s (Some v)). split; [|split; [|split]].
  - cbn [reconstruct set_variant kw_mapping kw_family kw_cell kw_degree kw_scheme kw_variant or_else or_opt]. exact H.
  - apply lw_finite. cbn. destruct S as (F & O & _). auto.
  - exact (built_finite _ _ _ _ _ _ _ _ _ _ H).
  - destruct S as (F & O & Sh & _). cbn [u_attrs]. congruence.
Qed.

(** What is related to the same tree is the same. *)
Lemma variant_unique v e e1 e2 : leafwise (with_variant v) e e1 -> leafwise (with_variant v) e e2 -> same e1 e2.
Proof.
  intros h. revert e2.
  assert (All : forall l l1, Forall2 (fun e e1 => forall e2, leafwise (with_variant v) e e2 -> same e1 e2) l l1 ->
    forall l2, Forall2 (leafwise (with_variant v)) l l2 -> Forall2 same l1 l2).
  { induction 1 as [|x y l l1 H F IH]; intros l2 K; inversion K; subst; constructor; auto. }
  induction h using leafwise_ind'; intros e2 K; inversion K; subst; try (constructor; eauto; fail).
  match goal with A : with_variant _ _ e', B : with_variant _ _ e2 |- _ => destruct e', e2; cbn in A, B; try contradiction;
    destruct A as (? & ? & ? & ? & ?), B as (? & ? & ? & ? & ?) end. subst. constructor; congruence.
Qed.

Section Expanded.
  Variable v : string.
  Hypothesis Q : quiet (Some v).
  Definition varied (e e' : uel) : Prop := leafwise (with_variant v) e e' /\ u_attrs e = u_attrs e'.

  Lemma plain_varied f c o k s w e : plain_finite f c o k s w = Ok e -> exists e', plain_finite f c o k s (Some v) = Ok e' /\ varied e e'.
  Proof.
    intros H. apply plain_finite_inv in H as (d & -> & D & R). exists (UFinite d c s (Some v)). split.
    - unfold plain_finite. rewrite D. cbn [bind].
      assert (has_char dquote (finite_repr d c s (Some v)) = false) as ->; [|reflexivity].
      apply repr_parts in R as (R1 & R2 & R3 & R4 & _). apply repr_parts. repeat split; auto.
      intros x E. injection E as <-. now apply quiet_repr.
    - split; [|reflexivity]. apply lw_finite. cbn. auto.
  Qed.
  Lemma kind_varied f k o w e : on_kind f k o w = Ok e -> exists e', on_kind f k o (Some v) = Ok e' /\ varied e e'.
  Proof. apply plain_varied. Qed.
  Lemma varied_attrs l l' : Forall2 varied l l' -> map u_attrs l = map u_attrs l'.
  Proof. induction 1 as [|x y l l' [_ A] F IH]; cbn [map]; congruence. Qed.
  Lemma varied_leaves l l' : Forall2 varied l l' -> Forall2 (leafwise (with_variant v)) l l'.
  Proof. induction 1 as [|x y l l' [A _] F IH]; constructor; auto. Qed.
  Lemma product_varied l l' c e : Forall2 varied l l' -> mk_tensor_product l (Some c) = Ok e ->
    exists e', mk_tensor_product l' (Some c) = Ok e' /\ varied e e'.
  Proof.
    intros F H. pose proof H as H'. apply mk_tensor_product_inv in H' as (cell & E & _ & _ & C). subst cell. rewrite E in H |- *.
    apply (mk_tensor_product_cong l l') in H; [|now apply varied_attrs]. eexists. split; [exact H|].
    split; [|reflexivity]. constructor. now apply varied_leaves.
  Qed.
  Lemma enriched_varied n l l' e : Forall2 varied l l' -> mk_enriched n l = Ok e ->
    exists e', mk_enriched n l' = Ok e' /\ varied e e'.
  Proof.
    intros F H. pose proof H as H'. apply mk_enriched_inv in H' as (a & e0 & rest & _ & -> & _).
    apply (mk_enriched_cong n l l') in H; [|now apply varied_attrs]. eexists. split; [exact H|].
    split; [|reflexivity]. constructor. now apply varied_leaves.
  Qed.
  Lemma hdiv_varied s s' e : varied s s' -> mk_hdiv s = Ok e -> exists e', mk_hdiv s' = Ok e' /\ varied e e'.
  Proof.
    intros [L A] H. apply mk_hdiv_inv in H as (a & -> & W). rewrite (wrapped_cong s s' A) in W. unfold mk_hdiv. rewrite W. cbn [bind].
    eexists. split; [reflexivity|]. split; [now constructor|reflexivity].
  Qed.
  Lemma hcurl_varied s s' e : varied s s' -> mk_hcurl s = Ok e -> exists e', mk_hcurl s' = Ok e' /\ varied e e'.
  Proof.
    intros [L A] H. apply mk_hcurl_inv in H as (a & -> & W). rewrite (wrapped_cong s s' A) in W. unfold mk_hcurl. rewrite W. cbn [bind].
    eexists. split; [reflexivity|]. split; [now constructor|reflexivity].
  Qed.
  Ltac vary_kind K := apply kind_varied in K as (? & -> & ?); cbn [bind].
  Lemma two_varied a b a' b' : varied a a' -> varied b b' -> Forall2 varied [a; b] [a'; b'].
  Proof. auto. Qed.
  Ltac vary_product K :=
    match type of K with context [[?a; ?b]] =>
      match goal with A : varied a _, B : varied b _ |- _ =>
        destruct (product_varied _ _ _ _ (two_varied _ _ _ _ A B) K) as (? & -> & ?); cbn [bind] end
    end.
  Ltac vary_enriched K :=
    match type of K with context [[?a; ?b]] =>
      match goal with A : varied a _, B : varied b _ |- _ => exact (enriched_varied _ _ _ _ (two_varied _ _ _ _ A B) K) end
    end.
  Ltac vary_wrap f K :=
    match type of K with _ ?a = _ => match goal with A : varied a _ |- _ => destruct (f _ _ _ A K) as (? & -> & ?); cbn [bind] end end.

  Lemma finite_on_varied : forall c f o k s w e, finite_on f c o k s w = Ok e ->
    exists e', finite_on f c o k s (Some v) = Ok e' /\ varied e e'.
  Proof.
    intros c. induction c as [n|cs IH] using ucell_ind'; intros f o k s w e H; [now apply plain_varied in H|].
    cbn [finite_on] in H |- *. destruct (describe_name f (Some (ProductCell cs)) o k) as [d|] eqn:D; [|discriminate H]. cbn [bind] in H |- *.
    assert (Fac : forall g r, sequence (map (fun c' => finite_on (g c') c' (ds_order d) None None w) cs) = Ok r ->
      exists r', sequence (map (fun c' => finite_on (g c') c' (ds_order d) None None (Some v)) cs) = Ok r' /\ Forall2 varied r r').
    { intros g r S. clear H D. unfold sequence in *. revert r S. induction IH as [|c' cs Hc F IHl]; intros r S; cbn [map mapM] in S |- *.
      - injection S as <-. exists []. auto.
      - binds S. injection S as <-. apply Hc in E as (e1 & -> & V). destruct (IHl _ eq_refl) as (r' & -> & V'). cbn [bind].
        exists (e1 :: r'). split; [reflexivity|]. now constructor. }
    destruct (String.eqb (ds_family d) "RTCF" || String.eqb (ds_family d) "RTCE").
    { binds H. cbn [bind]. vary_kind E0. vary_kind E2. vary_product E3. vary_product E4. destruct (String.eqb (ds_family d) "RTCF").
      - vary_wrap hdiv_varied E5. vary_wrap hdiv_varied E6.
        vary_enriched H.
      - vary_wrap hcurl_varied E5. vary_wrap hcurl_varied E6.
        vary_enriched H. }
    destruct (String.eqb (ds_family d) "NCF").
    { binds H. cbn [bind]. vary_kind E0. vary_kind E2. vary_kind E3. vary_kind E4. vary_product E5.
      vary_wrap hdiv_varied E6. vary_product E7.
      vary_wrap hdiv_varied E8.
      vary_enriched H. }
    destruct (String.eqb (ds_family d) "NCE").
    { binds H. cbn [bind]. vary_kind E0. vary_kind E1. vary_kind E3. vary_kind E4. vary_product E5.
      vary_wrap hcurl_varied E6. vary_product E7.
      vary_wrap hcurl_varied E8.
      vary_enriched H. }
    destruct (String.eqb (ds_family d) "Q"). { binds H. apply Fac in E as (r' & -> & V). cbn [bind]. now apply (product_varied _ r') in H. }
    destruct (String.eqb (ds_family d) "DQ"). { binds H. apply Fac in E as (r' & -> & V). cbn [bind]. now apply (product_varied _ r') in H. }
    destruct (String.eqb (ds_family d) "DQ L2"). { binds H. apply Fac in E as (r' & -> & V). cbn [bind]. now apply (product_varied _ r') in H. }
    now apply plain_varied in H.
  Qed.
  Lemma variant_commutes f c o k s w e : mk_finite f c o k s w = Ok e ->
    exists e1 e2, reconstruct (set_variant v) e = Ok e1 /\ mk_finite f c o k s (Some v) = Ok e2 /\ same e1 e2.
  Proof.
    intros H. destruct (reconstruct_variant e v (mk_finite_built _ _ _ _ _ _ _ H) Q) as (e1 & R & L & _).
    assert (X : exists e2, mk_finite f c o k s (Some v) = Ok e2 /\ varied e e2).
    { destruct c as [c|]; [now apply finite_on_varied in H|now apply plain_varied in H]. }
    destruct X as (e2 & M & V & _). exists e1, e2. split; [exact R|]. split; [exact M|]. exact (variant_unique _ _ _ _ L V).
  Qed.
End Expanded.

(** The variant that is read back. *)
Lemma variant_read v e e' : leafwise (with_variant v) e e' -> built e -> inhabited e -> nowhere is_broken e = true -> u_variant e' = Some v.
Proof.
  assert (All : forall l l', Forall2 (fun e e' => built e -> inhabited e -> nowhere is_broken e = true -> u_variant e' = Some v) l l' ->
    Forall built l -> l <> [] -> Forall inhabited l -> forallb (nowhere is_broken) l = true -> common_variant (map u_variant l') = Some v).
  { intros l l' F B N I W. apply shared_variant.
    - destruct F; [now destruct N|discriminate].
    - clear N. induction F as [|x y l l' H F IH]; cbn [map forallb] in *; constructor.
      + inversion B; inversion I; subst. apply andb_true_iff in W as [W _]. symmetry. auto.
      + inversion B; inversion I; subst. apply andb_true_iff in W as [_ W]. auto. }
  intros h. induction h using leafwise_ind'; intros B I W; cbn [nowhere is_broken negb andb] in W; inversion I; subst; cbn [u_variant];
    pose proof B as M; apply built_made in M; cbn [made] in M; try (destruct M; auto; fail); try discriminate W.
  - destruct e'; cbn in H; try contradiction. destruct H as (_ & _ & _ & _ & ->). reflexivity.
  - destruct M as [M _]. eauto.
  - destruct M as [M K]. apply mk_tensor_product_inv in K as (? & _ & N & _). eapply All; eauto.
  - destruct M as [M K]. apply mk_enriched_inv in K as (? & ? & ? & -> & _). eapply All; eauto. discriminate.
Qed.

Lemma variant_read_back v e e' : built e -> inhabited e -> nowhere is_broken e = true -> quiet (Some v) ->
  reconstruct (set_variant v) e = Ok e' -> u_variant e' = Some v.
Proof.
  intros B I W Q R. destruct (reconstruct_variant e v B Q) as (e1 & R1 & L & _). rewrite R in R1. injection R1 as <-.
  exact (variant_read v e e' L B I W).
Qed.

(** ** Variants with quotation marks *)
Lemma loud v : ~ quiet (Some v) -> has_char dquote (pyrepr v) = true.
Proof.
  intros N. destruct (has_char dquote (pyrepr v)) eqn:E; [reflexivity|]. exfalso. apply N.
  apply pyrepr_dquote in E as [A B].
  assert (X : forall c s, has_char c s = false -> ~ In c (list_ascii_of_string s)).
  { intros c s H I. unfold has_char in H. assert (existsb (Ascii.eqb c) (list_ascii_of_string s) = true); [|congruence].
    apply existsb_exists. exists c. split; [exact I|apply Ascii.eqb_refl]. }
  split; now apply X.
Qed.
Lemma finite_loud f c o k s v d w : mk_finite f c o k s v = Ok (UFinite d c s v) -> has_char dquote (pyrepr w) = true ->
  mk_finite f c o k s (Some w) = Err AssertionError.
Proof.
  intros H Q. pose proof H as P. apply mk_finite_plain, plain_finite_inv in P as (x & E & D & _). injection E as <-.
  assert (P : plain_finite f c o k s (Some w) = Err AssertionError).
  { unfold plain_finite. rewrite D. cbn [bind]. destruct (has_char dquote (finite_repr d c s (Some w))) eqn:R; [reflexivity|].
    apply repr_parts in R as (_ & _ & _ & _ & R). rewrite (R w eq_refl) in Q. discriminate Q. }
  destruct c as [[n|cs]|]; [exact P| |exact P]. cbn [mk_finite finite_on] in *. rewrite D in H |- *. cbn [bind] in H |- *.
  assert (NE : forall es e, mk_enriched false es = Ok e -> forall d c s v, e <> UFinite d c s v).
  { intros es e K. apply mk_enriched_inv in K as (a & e0 & r & _ & -> & _). intros. discriminate. }
  assert (NP : forall es c e, mk_tensor_product es c = Ok e -> forall d c s v, e <> UFinite d c s v).
  { intros es c0 e K. apply mk_tensor_product_inv in K as (a & -> & _). intros. discriminate. }
  destruct (String.eqb (ds_family d) "RTCF" || String.eqb (ds_family d) "RTCE").
  { binds H. destruct (NE _ _ H _ _ _ _ eq_refl). }
  destruct (String.eqb (ds_family d) "NCF"). { binds H. destruct (NE _ _ H _ _ _ _ eq_refl). }
  destruct (String.eqb (ds_family d) "NCE"). { binds H. destruct (NE _ _ H _ _ _ _ eq_refl). }
  destruct (String.eqb (ds_family d) "Q"). { binds H. destruct (NP _ _ _ H _ _ _ _ eq_refl). }
  destruct (String.eqb (ds_family d) "DQ"). { binds H. destruct (NP _ _ _ H _ _ _ _ eq_refl). }
  destruct (String.eqb (ds_family d) "DQ L2"). { binds H. destruct (NP _ _ _ H _ _ _ _ eq_refl). }
  exact P.
Qed.
Lemma reconstruct_loud e v : built e -> inhabited e -> ~ quiet (Some v) -> reconstruct (set_variant v) e = Err AssertionError.
Proof.
  intros B I N. apply loud in N.
  assert (All : forall l, Forall (fun e => inhabited e -> reconstruct (set_variant v) e = Err AssertionError) l -> Forall inhabited l -> l <> [] ->
    sequence (map (reconstruct (set_variant v)) l) = Err AssertionError).
  { intros l F J L. destruct F as [|x l H F]; [now destruct L|]. inversion J; subst. unfold sequence. cbn [map mapM]. now rewrite H. }
  induction B as [f c o k s w d c' s' v' H|es e B IH H|sub dim e B IH H|sub shape sym e B IH H|es c e B IH H|nodal es e B IH H
                 |sub e B IH H|sub e B IH H|sub m e B IH H|sub e B IH H|sub dom e B IH H] using built_ind'.
  - pose proof H as H'. apply mk_finite_plain, plain_finite_inv in H' as (d0 & E & _). injection E as <- -> -> ->.
    apply finite_again in H as (d' & H & S). cbn [reconstruct set_variant kw_mapping kw_family kw_cell kw_degree kw_scheme kw_variant or_else or_opt].
    exact (finite_loud _ _ _ _ _ _ _ _ H N).
  - apply mk_mixed_inv in H as (a & -> & _). inversion I; subst. cbn [reconstruct]. now rewrite All.
  - apply mk_vector_inv in H as (n & a & -> & _). inversion I; subst. cbn [reconstruct]. now rewrite IH.
  - apply mk_tensor_inv in H as (a & sh & sy & t & n & -> & _). inversion I; subst. cbn [reconstruct]. now rewrite IH.
  - apply mk_tensor_product_inv in H as (cell & -> & NE & _). inversion I; subst. cbn [reconstruct set_variant kw_family kw_degree kw_scheme kw_variant kw_mapping].
    fold (set_variant v). now rewrite All.
  - apply mk_enriched_inv in H as (a & e0 & rest & -> & -> & _). inversion I; subst. cbn [reconstruct]. now rewrite All.
  - apply mk_hdiv_inv in H as (a & -> & _). inversion I; subst. cbn [reconstruct]. now rewrite IH.
  - apply mk_hcurl_inv in H as (a & -> & _). inversion I; subst. cbn [reconstruct]. now rewrite IH.
  - apply mk_with_mapping_inv in H as [-> _]. inversion I; subst. cbn [reconstruct set_variant kw_family kw_degree kw_scheme kw_variant kw_cell].
    fold (set_variant v). now rewrite IH.
  - apply mk_broken_inv in H as ->. inversion I; subst. cbn [reconstruct]. now rewrite IH.
  - apply mk_restricted_inv in H as [-> _]. inversion I; subst. cbn [reconstruct]. now rewrite IH.
Qed.

(** ** The degree *)
Lemma resolve_none tdim f o f2 o2 : resolve builtins 3 tdim f o None = Some (Ok (f2, o2)) ->
  o2 = o /\ (f2 = f \/ In (f, f2) other_names) /\ forall o', resolve builtins 3 tdim f o' None = Some (Ok (f2, o')).
Proof.
  intros H. destruct (dict_get String.eqb (aliases builtins) f) as [t|x] eqn:E.
  - destruct tdim as [n|]; [|rewrite resolve_S, E in H; discriminate H].
    destruct (alias_kind f t E) as [(m & I & ->)|K].
    + rewrite (resolve_other 1 n f m o None I) in H. injection H as <- <-. split; [reflexivity|]. split; [now right|].
      intros o'. exact (resolve_other 1 n f m o' None I).
    + exfalso. rewrite resolve_S, E in H.
      assert (X : forall table f n r, exists x, feec table f (Some n) r None = Err x).
      { intros table g n0 r. unfold feec. destruct (minus_one r) as [p|]; [|cbn [bind]; eauto]. cbn [bind].
        destruct (dict_get String.eqb (table r p) g) as [t0|]; [|cbn [bind]; eauto]. cbn [bind table_item].
        destruct (py_item t0 (Z.of_nat n0 - 1)) as [row|]; cbn [bind]; eauto. }
      destruct K as [[_ ->]|[_ ->]]; unfold to_feec, to_feec_l2, feec_element, feec_element_l2 in H.
      * destruct (X feec_table f n o) as [x Ex]. rewrite Ex in H. discriminate H.
      * destruct (X feec_table_l2 f n o) as [x Ex]. rewrite Ex in H. discriminate H.
  - assert (A : alias_name f = false) by (apply alias_name_get; now exists x).
    rewrite (resolve_plain 2 tdim f o None A) in H. injection H as <- <-. split; [reflexivity|]. split; [now left|].
    intros o'. exact (resolve_plain 2 tdim f o' None A).
Qed.
Lemma described_none f c o d : describe_name f c o None = Ok d -> exists f2 d0, (f2 = f \/ In (f, f2) other_names) /\
  registered d0 /\ (f2 = fd_family d0 \/ Some f2 = fd_short d0) /\ described d0 c o d /\
  forall o' d', describe_name f c o' None = Ok d' -> described d0 c o' d'.
Proof.
  assert (C : forall o, catch_feec (option_map ucell_dim c) f o None = Ok (f, o)) by (intros; apply catch_id; now left).
  intros H. unfold describe_name, canonical in H. rewrite C in H.
  destruct (resolve builtins 3 (option_map ucell_dim c) f o None) as [[[f2 o2]|]|] eqn:R; [|discriminate H..].
  apply resolve_none in R as (-> & N & R).
  destruct (dict_get String.eqb (ufl_elements builtins) f2) as [d0|x] eqn:E.
  2:{ unfold describe in H. rewrite E in H. discriminate H. }
  destruct (entry_known f2 d0 E) as [Rg Nm]. exists f2, d0. split; [exact N|]. split; [exact Rg|]. split; [exact Nm|].
  pose proof (describe_spec d0 f2 c o Rg Nm) as S. rewrite H in S. split; [exact (proj1 S)|].
  intros o' d' H'. unfold describe_name, canonical in H'. rewrite C, R in H'.
  pose proof (describe_spec d0 f2 c o' Rg Nm) as S'. rewrite H' in S'. exact (proj1 S').
Qed.
Lemma vector_name f c o d : describe_name f c o None = Ok d -> In (ds_family d) vector_families -> f = ds_family d.
Proof.
  intros H I. destruct (described_none _ _ _ _ H) as (f2 & d0 & N & Rg & Nm & D & _). destruct D as (_ & _ & F & _).
  assert (F' : fd_family d0 = ds_family d).
  { destruct (product_cell c); [|congruence]. unfold on_product in F.
    destruct (String.eqb (fd_family d0) "Lagrange"); [rewrite F in I; exfalso; clear -I; cbn in I; intuition discriminate|].
    destruct (String.eqb (fd_family d0) "Discontinuous Lagrange"); [rewrite F in I; exfalso; clear -I; cbn in I; intuition discriminate|].
    destruct (String.eqb (fd_family d0) "Discontinuous Lagrange L2"); [rewrite F in I; exfalso; clear -I; cbn in I; intuition discriminate|congruence]. }
  clear F. rewrite <- F' in I |- *. pose proof (entry_registered d0 Rg) as ER.
  assert (Sh : fd_short d0 = None).
  { destruct I as [I|[I|[I|[I|[]]]]]; rewrite <- I in ER; rewrite <- ER; reflexivity. }
  destruct Nm as [->|Nm]; [|congruence]. destruct N as [N|N]; [congruence|]. exfalso.
  assert (T : forallb (fun p => negb (existsb (String.eqb (snd p)) vector_families)) other_names = true) by reflexivity.
  rewrite forallb_forall in T. specialize (T _ N). cbn [snd] in T. apply negb_true_iff in T.
  assert (existsb (String.eqb (fd_family d0)) vector_families = true); [|congruence].
  apply existsb_exists. exists (fd_family d0). split; [exact I|apply String.eqb_refl].
Qed.

Lemma not_vector x : existsb (String.eqb x) vector_families = false -> ~ In x vector_families.
Proof.
  intros H I. assert (existsb (String.eqb x) vector_families = true); [|congruence].
  apply existsb_exists. exists x. split; [exact I|apply String.eqb_refl].
Qed.

Lemma degree_commutes_on q : forall c f o s v e e2, ~ In f vector_families ->
  finite_on f c o None s v = Ok e -> finite_on f c (Order q) None s v = Ok e2 ->
  exists e1, reconstruct (set_degree q) e = Ok e1 /\ same e1 e2 /\ built e1.
Proof.
  assert (Plain : forall f c o s v e e2 d d2, ~ In f vector_families -> describe_name f c o None = Ok d -> describe_name f c (Order q) None = Ok d2 ->
    e = UFinite d c s v -> mk_finite f c (Order q) None s v = Ok e2 -> e2 = UFinite d2 c s v ->
    exists e1, reconstruct (set_degree q) e = Ok e1 /\ same e1 e2 /\ built e1).
  { intros f c o s v e e2 d d2 N D D2 -> H ->. destruct (described_none _ _ _ _ D) as (f2 & d0 & _ & _ & _ & S & O).
    pose proof (O _ _ D2) as S2. apply finite_again in H as (d' & H & SE).
    assert (F : ds_family d2 = ds_family d) by (destruct S as (_ & _ & S & _), S2 as (_ & _ & S2 & _); congruence).
    assert (Od : ds_order d2 = Order q) by (destruct S2 as (_ & _ & _ & _ & S2 & _); exact S2).
    rewrite F, Od in H. exists (UFinite d' c s v). split; [|split].
    - cbn [reconstruct set_degree kw_mapping kw_family kw_cell kw_degree kw_scheme kw_variant or_else or_opt]. exact H.
    - destruct SE as (SF & SO & _). constructor; congruence.
    - exact (built_finite _ _ _ _ _ _ _ _ _ _ H). }
  intros c. induction c as [n|cs IH] using ucell_ind'; intros f o s v e e2 N H H2.
  - pose proof H as P. pose proof H2 as P2. apply plain_finite_inv in P as (d & -> & D & _). apply plain_finite_inv in P2 as (d2 & E2 & D2 & _).
    exact (Plain _ _ _ _ _ _ _ _ _ N D D2 eq_refl H2 E2).
  - pose proof H2 as W2. cbn [finite_on] in H, H2.
    destruct (describe_name f (Some (ProductCell cs)) o None) as [d|] eqn:D; [|discriminate H].
    destruct (describe_name f (Some (ProductCell cs)) (Order q) None) as [d2|] eqn:D2; [|discriminate H2]. cbn [bind] in H, H2.
    destruct (described_none _ _ _ _ D) as (f2 & d0 & _ & _ & _ & S & O). pose proof (O _ _ D2) as S2.
    assert (F : ds_family d2 = ds_family d) by (destruct S as (_ & _ & S & _), S2 as (_ & _ & S2 & _); congruence).
    assert (Oo : ds_order d = o) by (destruct S as (_ & _ & _ & _ & S & _); exact S).
    assert (Oq : ds_order d2 = Order q) by (destruct S2 as (_ & _ & _ & _ & S2 & _); exact S2).
    rewrite F, Oq in H2. rewrite Oo in H.
    assert (V : forall x, In x vector_families -> String.eqb (ds_family d) x = false).
    { intros x I. apply String.eqb_neq. intros E. rewrite <- E in I. apply N. rewrite (vector_name _ _ _ _ D I). exact I. }
    rewrite (V "RTCF"), (V "RTCE") in H, H2 by (cbn; auto). cbn [orb] in H, H2.
    rewrite (V "NCF") in H, H2 by (cbn; auto). rewrite (V "NCE") in H, H2 by (cbn; auto).
    assert (Fac : forall g, (forall c', ~ In (g c') vector_families) ->
      (do es <- sequence (map (fun c' => finite_on (g c') c' o None None v) cs) ;; mk_tensor_product es (Some (ProductCell cs))) = Ok e ->
      (do es <- sequence (map (fun c' => finite_on (g c') c' (Order q) None None v) cs) ;; mk_tensor_product es (Some (ProductCell cs))) = Ok e2 ->
      exists e1, reconstruct (set_degree q) e = Ok e1 /\ same e1 e2 /\ built e1).
    { intros g G K K2. clear Plain H H2 W2 D D2 O S S2 F V. binds K. binds K2. rename v0 into es, v1 into es2.
      assert (X : exists es1, sequence (map (reconstruct (set_degree q)) es) = Ok es1 /\ Forall2 same es1 es2 /\ Forall built es1 /\ Forall built es2).
      { clear K K2. unfold sequence in *. revert es es2 E E0. induction IH as [|c' cs Hc F IHl]; intros es es2 E E0; cbn [map mapM] in E, E0.
        - injection E as <-. injection E0 as <-. exists []. auto.
        - binds E. injection E as <-. binds E0. injection E0 as <-. destruct (IHl _ _ eq_refl eq_refl) as (es1 & M & SS & B1 & B2).
          destruct (Hc _ _ _ _ _ _ (G c') E1 E) as (x1 & R1 & Sx & Bx). exists (x1 :: es1). cbn [map mapM]. rewrite R1, M. cbn [bind].
          repeat split; constructor; auto. exact (finite_on_built _ _ _ _ _ _ _ E). }
      destruct X as (es1 & M & SS & B1 & B2).
      assert (A : map u_attrs es2 = map u_attrs es1).
      { clear M K2 K E E0. induction SS as [|x y l l' Sx SS IHs]; [reflexivity|]. inversion B1; inversion B2; subst. cbn [map].
        rewrite IHs by assumption. f_equal. symmetry. exact (proj1 (same_agree x y Sx ltac:(assumption) ltac:(assumption))). }
      apply mk_tensor_product_inv in K as (cell & -> & _ & _ & C). subst cell.
      pose proof K2 as K3. apply mk_tensor_product_inv in K3 as (cell & E2 & _ & _ & C). subst cell. rewrite E2 in K2 |- *.
      apply (mk_tensor_product_cong es2 es1) in K2; [|exact A].
      eexists. cbn [reconstruct set_degree kw_mapping kw_family kw_cell kw_degree kw_scheme kw_variant or_else]. fold (set_degree q).
      rewrite M. cbn [bind]. split; [exact K2|]. split; [now constructor|exact (built_tensor_product _ _ _ B1 K2)]. }
    destruct (String.eqb (ds_family d) "Q"). { apply (Fac (fun _ => "CG")); [|exact H|exact H2]. intros c'. now apply not_vector. }
    destruct (String.eqb (ds_family d) "DQ").
    { apply (Fac (fun c' => if simplex_name c' then "DG" else "DQ")); [|exact H|exact H2]. intros c'. destruct (simplex_name c'); now apply not_vector. }
    destruct (String.eqb (ds_family d) "DQ L2").
    { apply (Fac (fun c' => if simplex_name c' then "DG L2" else "DQ L2")); [|exact H|exact H2]. intros c'. destruct (simplex_name c'); now apply not_vector. }
    apply plain_finite_inv in H as (d' & -> & D' & _). apply plain_finite_inv in H2 as (d2' & E2 & D2' & _).
    rewrite D in D'. rewrite D2 in D2'. injection D' as <-. injection D2' as <-.
    exact (Plain _ _ _ _ _ _ _ _ _ N D D2 eq_refl W2 E2).
Qed.
Lemma degree_commutes f c o s v q e e2 : ~ In f vector_families -> mk_finite f c o None s v = Ok e -> mk_finite f c (Order q) None s v = Ok e2 ->
  exists e1, reconstruct (set_degree q) e = Ok e1 /\ same e1 e2.
Proof.
  intros N H H2. destruct c as [c|].
  - destruct (degree_commutes_on q _ _ _ _ _ _ _ N H H2) as (e1 & R & S & _). eauto.
  - pose proof H2 as W2. apply plain_finite_inv in H as (d & -> & D & _). apply plain_finite_inv in H2 as (d2 & -> & D2 & _).
    destruct (described_none _ _ _ _ D) as (f2 & d0 & _ & _ & _ & S & O). pose proof (O _ _ D2) as S2.
    assert (F : ds_family d2 = ds_family d) by (destruct S as (_ & _ & S & _), S2 as (_ & _ & S2 & _); congruence).
    assert (Od : ds_order d2 = Order q) by (destruct S2 as (_ & _ & _ & _ & S2 & _); exact S2).
    apply finite_again in W2 as (d' & W2 & SE). rewrite F, Od in W2. exists (UFinite d' None s v). split; [exact W2|].
    destruct SE as (SF & SO & _). constructor; congruence.
Qed.

