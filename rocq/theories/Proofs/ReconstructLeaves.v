(** Reconstruction with several arguments changed, and with another mapping. *)
From Coq Require Import Ascii String List ZArith Bool Lia.
From Verif Require Import Model.Prelude Model.Registry Model.UflElement Spec.Registry Spec.UflElement Spec.Reconstruct
  Proofs.Lists Proofs.Repr Proofs.Rebuild Proofs.Reconstruct.
Import ListNotations.
Open Scope string_scope.

Lemma dict_symmetry a e sh sy t n sy' : built (UTensor a e sh sy t n) -> symmetry_of sh (SymDict sy) = Ok sy' -> sy' = sy.
Proof.
  intros B H. apply built_made in B as [_ M]. apply mk_tensor_inv in M as (a' & x & y & t' & n' & E & S & _). injection E as <- <- <- <- <-. congruence.
Qed.
Lemma mapped_list kw (R : uel -> uel -> Prop) l : Forall (fun e => forall e', reconstruct kw e = Ok e' -> R e e') l ->
  forall l', sequence (map (reconstruct kw) l) = Ok l' -> Forall2 R l l'.
Proof.
  unfold sequence. induction 1 as [|e l H _ IH]; cbn [map mapM]; intros l' E; [injection E as <-; constructor|].
  binds E. injection E as <-. constructor; auto.
Qed.
Lemma or_chosen {A} (o : option A) x : chosen o x (or_else o x).
Proof. destruct o; [now left|now right]. Qed.
Lemma or_given {A} (o s : option A) : o <> None /\ or_opt o s = o \/ o = None /\ or_opt o s = s.
Proof. destruct o; [left; now split|now right]. Qed.

Lemma leaves_replaced : forall e kw e', built e -> kw_cell kw = None -> kw_mapping kw = None -> reconstruct kw e = Ok e' -> leafwise (replaced kw) e e'.
Proof.
  induction e as [d c s v|a l IH|a e n IH|a e sh sy t n IH|a l c IH|b a l IH|a e IH|a e IH|e m IH|a e IH|a e dom IH] using uel_ind';
    intros kw e' B Kc Km H; cbn [reconstruct] in H; pose proof (built_made _ B) as Bs; try destruct Bs as [Bs _].
  - constructor. rewrite Km, Kc in H. cbn [or_opt] in H. cbn [replaced]. do 4 eexists. split; [apply or_chosen|]. split; [apply or_chosen|].
    split; [apply or_given|]. split; [apply or_given|]. exact H.
  - binds H. apply mk_mixed_inv in H as (a' & -> & _). constructor. apply (mapped_list kw); [|exact E]. rewrite Forall_forall in *. intros x I. exact (fun x' => IH x I kw x' (Bs x I) Kc Km).
  - binds H. apply mk_vector_inv in H as (n' & a' & -> & _ & ->). constructor. auto.
  - binds H. apply mk_tensor_inv in H as (a' & sh' & sy' & t' & n' & -> & S & _ & _ & _ & -> & _). apply (dict_symmetry _ _ _ _ _ _ _ B) in S as ->. constructor. auto.
  - replace (mkKwargs (kw_family kw) None (kw_degree kw) (kw_scheme kw) (kw_variant kw) (kw_mapping kw)) with kw in H
      by (destruct kw; cbn in *; congruence).
    binds H. apply mk_tensor_product_inv in H as (c' & -> & _ & _ & <-). rewrite Kc. cbn [or_else]. constructor.
    apply (mapped_list kw); [|exact E]. rewrite Forall_forall in *. intros x I. exact (fun x' => IH x I kw x' (Bs x I) Kc Km).
  - binds H. apply mk_enriched_inv in H as (a' & e0 & r & _ & -> & _). constructor. apply (mapped_list kw); [|exact E]. rewrite Forall_forall in *. intros x I. exact (fun x' => IH x I kw x' (Bs x I) Kc Km).
  - binds H. apply mk_hdiv_inv in H as (a' & -> & _). constructor. auto.
  - binds H. apply mk_hcurl_inv in H as (a' & -> & _). constructor. auto.
  - replace (mkKwargs (kw_family kw) (kw_cell kw) (kw_degree kw) (kw_scheme kw) (kw_variant kw) None) with kw in H
      by (destruct kw; cbn in *; congruence).
    binds H. apply mk_with_mapping_inv in H as (-> & _). rewrite Km. cbn [or_else]. constructor. auto.
  - binds H. apply mk_broken_inv in H as ->. constructor. auto.
  - binds H. apply mk_restricted_inv in H as (-> & _). constructor. auto.
Qed.
Lemma mapping_replaced m : forall e e', built e -> reconstruct (set_mapping m) e = Ok e' -> remapped m e e'.
Proof.
  induction e as [d c s v|a l IH|a e n IH|a e sh sy t n IH|a l c IH|b a l IH|a e IH|a e IH|e m0 IH|a e IH|a e dom IH] using uel_ind';
    intros e' B H; cbn [reconstruct] in H; try discriminate H; pose proof B as B0; apply built_made in B as [B _].
  - binds H. apply mk_mixed_inv in H as (a' & -> & _). constructor. apply (mapped_list (set_mapping m)); [|exact E].
    rewrite Forall_forall in *. intros x I. exact (fun x' => IH x I x' (B x I)).
  - binds H. apply mk_vector_inv in H as (n' & a' & -> & _ & ->). constructor. auto.
  - binds H. apply mk_tensor_inv in H as (a' & sh' & sy' & t' & n' & -> & S & _ & _ & _ & -> & _). apply (dict_symmetry _ _ _ _ _ _ _ B0) in S as ->. constructor. auto.
  - change (mkKwargs (kw_family (set_mapping m)) None (kw_degree (set_mapping m)) (kw_scheme (set_mapping m)) (kw_variant (set_mapping m)) (kw_mapping (set_mapping m)))
      with (set_mapping m) in H.
    binds H. apply mk_tensor_product_inv in H as (c' & -> & _ & _ & <-). cbn [or_else kw_cell set_mapping]. constructor.
    apply (mapped_list (set_mapping m)); [|exact E]. rewrite Forall_forall in *. intros x I. exact (fun x' => IH x I x' (B x I)).
  - binds H. apply mk_enriched_inv in H as (a' & e0 & r & _ & -> & _). constructor. apply (mapped_list (set_mapping m)); [|exact E].
    rewrite Forall_forall in *. intros x I. exact (fun x' => IH x I x' (B x I)).
  - binds H. apply mk_hdiv_inv in H as (a' & -> & _). constructor. auto.
  - binds H. apply mk_hcurl_inv in H as (a' & -> & _). constructor. auto.
  - change (mkKwargs (kw_family (set_mapping m)) (kw_cell (set_mapping m)) (kw_degree (set_mapping m)) (kw_scheme (set_mapping m)) (kw_variant (set_mapping m)) None)
      with no_kwargs in H.
    binds H. apply mk_with_mapping_inv in H as (-> & _). cbn [or_else kw_mapping set_mapping]. constructor.
    destruct (reconstruct_same e B) as (e1 & R & S & _). congruence.
  - binds H. apply mk_broken_inv in H as ->. constructor. auto.
  - binds H. apply mk_restricted_inv in H as (-> & _). constructor. auto.
Qed.

(** ** Which mappings can be replaced *)
Definition mapped (m : string) (e e' : uel) : Prop :=
  reconstruct (set_mapping m) e = Ok e' /\ remapped m e e' /\ built e' /\ u_attrs e = u_attrs e'.
Lemma alike_shape m m0 c sh : alike m m0 = true -> mapped_shape m0 c sh = mapped_shape m c sh.
Proof.
  unfold alike, mapping_axes, mapped_shape. cbn [existsb]. rewrite !orb_false_r.
  destruct (String.eqb m "covariant Piola" || String.eqb m "contravariant Piola"), (String.eqb m0 "covariant Piola" || String.eqb m0 "contravariant Piola"),
    (String.eqb m "double covariant Piola" || String.eqb m "double contravariant Piola"), (String.eqb m0 "double covariant Piola" || String.eqb m0 "double contravariant Piola");
    try discriminate; reflexivity.
Qed.
Lemma mapped_all m l : Forall (fun e => covered (alike m) e = true -> exists e', mapped m e e') l -> forallb (covered (alike m)) l = true -> exists l',
  sequence (map (reconstruct (set_mapping m)) l) = Ok l' /\ Forall2 (remapped m) l l' /\ Forall built l' /\ map u_attrs l = map u_attrs l'.
Proof.
  unfold sequence. induction 1 as [|x l H _ IH]; cbn [map mapM forallb]; [exists []; auto|]. intros C. apply andb_prop in C as [C1 C2].
  destruct (H C1) as (x' & K & S & Bx & Ax). destruct (IH C2) as (l' & M & S' & B' & A). rewrite K, M. cbn [bind].
  exists (x' :: l'). repeat split; try constructor; auto. cbn [map]. congruence.
Qed.
Lemma same_attrs e : built e -> exists e', reconstruct no_kwargs e = Ok e' /\ same e e' /\ built e' /\ u_attrs e = u_attrs e'.
Proof.
  intros B. destruct (reconstruct_same e B) as (e' & R & S & B'). exists e'. repeat split; auto. exact (proj1 (same_agree e e' S B B')).
Qed.
Lemma mapping_accepted m e : built e -> covered (alike m) e = true -> m <> "symmetries" -> exists e', mapped m e e'.
Proof.
  intros B C N. revert C. induction B as [f c o k s v d c' s' v' H|es e B IH H|sub dim e B IH H|sub shape sym e B IH H|es c e B IH H|nodal es e B IH H
                 |sub e B IH H|sub e B IH H|sub m0 e B IH H|sub e B IH H|sub dom e B IH H] using built_ind'; intros C.
  - discriminate C.
  - pose proof H as H'. apply mk_mixed_inv in H' as (a & -> & _). destruct (mapped_all m es IH C) as (l' & M & S & B' & A).
    pose proof (mk_mixed_cong _ _ _ A H) as K. exists (UMixed a l'). unfold mapped. cbn [reconstruct]. rewrite M. cbn [bind].
    split; [exact K|]. split; [now constructor|]. split; [exact (built_mixed _ _ B' K)|reflexivity].
  - pose proof H as H'. apply mk_vector_inv in H' as (n & a & E & _). rewrite E in H, C |- *. clear E a. destruct (IH C) as (s' & K & S & B' & A).
    apply mk_vector_self in H. apply (mk_vector_cong _ s') in H; [|exact A].
    eexists. unfold mapped. cbn [reconstruct]. rewrite K. cbn [bind]. split; [exact H|]. split; [now constructor|].
    split; [exact (built_vector _ _ _ B' H)|reflexivity].
  - pose proof H as H'. apply mk_tensor_inv in H' as (a & sh & sy & t & n & -> & _). destruct (IH C) as (s' & K & S & B' & A).
    apply mk_tensor_self in H. apply (mk_tensor_cong _ s') in H; [|exact A].
    eexists. unfold mapped. cbn [reconstruct]. rewrite K. cbn [bind]. split; [exact H|]. split; [now constructor|].
    split; [exact (built_tensor _ _ _ _ B' H)|reflexivity].
  - pose proof H as H'. apply mk_tensor_product_inv in H' as (cell & E & _). rewrite E in H, C |- *. clear E. destruct (mapped_all m es IH C) as (l' & M & S & B' & A).
    apply mk_tensor_product_self in H. apply (mk_tensor_product_cong _ _ _ _ A) in H.
    eexists. unfold mapped. cbn [reconstruct set_mapping kw_family kw_degree kw_scheme kw_variant kw_mapping kw_cell or_else]. fold (set_mapping m). rewrite M. cbn [bind].
    split; [exact H|]. split; [now constructor|]. split; [exact (built_tensor_product _ _ _ B' H)|reflexivity].
  - pose proof H as H'. apply mk_enriched_inv in H' as (a & e0 & rest & _ & -> & _). destruct (mapped_all m es IH C) as (l' & M & S & B' & A).
    pose proof (mk_enriched_cong _ _ _ _ A H) as K. eexists. unfold mapped. cbn [reconstruct]. rewrite M. cbn [bind].
    split; [exact K|]. split; [now constructor|]. split; [exact (built_enriched _ _ _ B' K)|reflexivity].
  - pose proof H as H'. apply mk_hdiv_inv in H' as (a & -> & W). destruct (IH C) as (s' & K & S & B' & A).
    rewrite (wrapped_cong _ s' A) in W. assert (K' : mk_hdiv s' = Ok (UHDiv a s')) by (unfold mk_hdiv; now rewrite W).
    eexists. unfold mapped. cbn [reconstruct]. rewrite K. cbn [bind]. split; [exact K'|]. split; [now constructor|].
    split; [exact (built_hdiv _ _ B' K')|reflexivity].
  - pose proof H as H'. apply mk_hcurl_inv in H' as (a & -> & W). destruct (IH C) as (s' & K & S & B' & A).
    rewrite (wrapped_cong _ s' A) in W. assert (K' : mk_hcurl s' = Ok (UHCurl a s')) by (unfold mk_hcurl; now rewrite W).
    eexists. unfold mapped. cbn [reconstruct]. rewrite K. cbn [bind]. split; [exact K'|]. split; [now constructor|].
    split; [exact (built_hcurl _ _ B' K')|reflexivity].
  - apply mk_with_mapping_inv in H as [-> _]. destruct (same_attrs sub B) as (s' & K & S & B' & A).
    assert (K' : mk_with_mapping s' m = Ok (UWithMapping s' m)).
    { unfold mk_with_mapping. apply String.eqb_neq in N. now rewrite N. }
    exists (UWithMapping s' m). unfold mapped. cbn [reconstruct set_mapping kw_family kw_degree kw_scheme kw_variant kw_mapping kw_cell or_else]. fold no_kwargs. rewrite K. cbn [bind].
    split; [exact K'|]. split; [now constructor|]. split; [exact (built_with_mapping _ _ _ B' K')|].
    cbn [u_attrs]. cbn [covered] in C. rewrite A, (alike_shape m m0 _ _ C). reflexivity.
  - apply mk_broken_inv in H as ->. destruct (IH C) as (s' & K & S & B' & A).
    eexists. unfold mapped. cbn [reconstruct]. rewrite K. cbn [bind]. split; [reflexivity|]. split; [now constructor|].
    split; [exact (built_broken _ _ B' eq_refl)|]. cbn [u_attrs]. unfold u_cell, u_degree, u_scheme, u_shape. now rewrite A.
  - pose proof H as H'. apply mk_restricted_inv in H' as [-> I]. destruct (IH C) as (s' & K & S & B' & A).
    eexists. unfold mapped. cbn [reconstruct]. rewrite K. cbn [bind]. unfold mk_restricted in *. binds H. cbn [bind].
    split; [reflexivity|]. split; [now constructor|]. split.
    + apply (built_restricted s' dom); [exact B'|]. unfold mk_restricted. rewrite E. reflexivity.
    + cbn [u_attrs]. unfold u_cell, u_degree, u_scheme, u_shape. now rewrite A.
Qed.
Lemma remapped_covered m : forall e e', remapped m e e' -> covered (fun _ => true) e = true.
Proof.
  induction e as [d c s v|a l IH|a e n IH|a e sh sy t n IH|a l c IH|b a l IH|a e IH|a e IH|e m0 IH|a e IH|a e dom IH] using uel_ind';
    intros e' H; inversion H; subst; cbn [covered]; eauto;
    match goal with F : Forall2 _ l ?l' |- _ => clear H; induction F as [|x y l l' R F IHF]; [reflexivity|] end;
    inversion IH; subst; cbn [forallb]; apply andb_true_intro; eauto.
Qed.
Lemma mapping_refused m e : built e -> covered (fun _ => true) e = false -> exists x, reconstruct (set_mapping m) e = Err x.
Proof.
  intros B C. destruct (reconstruct (set_mapping m) e) as [e'|x] eqn:E; [|eauto].
  apply mapping_replaced in E; [|exact B]. apply remapped_covered in E. congruence.
Qed.
