(** Elements made again on another cell, with another quadrature scheme. *)
From Coq Require Import Ascii String List ZArith Arith Bool Lia.
From Verif Require Import Model.Prelude Model.Registry Model.UflElement Spec.Registry Spec.UflElement Spec.Reconstruct.
From Verif Require Import Proofs.Lists Proofs.Registry Proofs.Canonical Proofs.Repr Proofs.Equality Proofs.Rebuild Proofs.Expansion Proofs.Reconstruct.
Import ListNotations.
Open Scope string_scope.
Opaque builtins registered.

(** ** The cell *)
Lemma finite_cell f c o k s v e : mk_finite f (Some c) o k s v = Ok e -> u_cell e = Some c.
Proof.
  cbn [mk_finite]. intros H.
  assert (P : forall es e, mk_tensor_product es (Some c) = Ok e -> u_cell e = Some c).
  { intros es x K. apply mk_tensor_product_inv in K as (cell & -> & _ & _ & <-). reflexivity. }
  assert (D : forall x e, u_cell x = Some c -> mk_hdiv x = Ok e -> u_cell e = Some c).
  { intros x y X K. apply mk_hdiv_inv in K as (a & -> & W). unfold wrapped_attrs in W. rewrite X in W. injection W as <-. reflexivity. }
  assert (C : forall x e, u_cell x = Some c -> mk_hcurl x = Ok e -> u_cell e = Some c).
  { intros x y X K. apply mk_hcurl_inv in K as (a & -> & W). unfold wrapped_attrs in W. rewrite X in W. injection W as <-. reflexivity. }
  assert (E : forall x es e, u_cell x = Some c -> mk_enriched false (x :: es) = Ok e -> u_cell e = Some c).
  { intros x es y X K. apply mk_enriched_inv in K as (a & e0 & r & E & -> & A & _). injection E as <- <-. unfold u_cell. cbn [u_attrs]. congruence. }
  assert (F : forall f k o e, plain_finite f (Some c) k o s v = Ok e -> u_cell e = Some c).
  { intros f0 k0 o0 x K. apply plain_finite_inv in K as (d & -> & _). reflexivity. }
  destruct c as [n|cs]; [exact (F _ _ _ _ H)|]. cbn [finite_on] in H.
  destruct (describe_name f (Some (ProductCell cs)) o k) as [d|]; [|discriminate H]. cbn [bind] in H.
  assert (F' := F f o k e). clear F.
  destruct (String.eqb (ds_family d) "RTCF" || String.eqb (ds_family d) "RTCE").
  { binds H. destruct (String.eqb (ds_family d) "RTCF").
    - exact (E _ _ _ (D _ _ (P _ _ E4) E6) H).
    - exact (E _ _ _ (C _ _ (P _ _ E4) E6) H). }
  destruct (String.eqb (ds_family d) "NCF").
  { binds H. exact (E _ _ _ (D _ _ (P _ _ E6) E7) H). }
  destruct (String.eqb (ds_family d) "NCE").
  { binds H. exact (E _ _ _ (C _ _ (P _ _ E6) E7) H). }
  destruct (String.eqb (ds_family d) "Q"); [binds H; exact (P _ _ H)|].
  destruct (String.eqb (ds_family d) "DQ"); [binds H; exact (P _ _ H)|].
  destruct (String.eqb (ds_family d) "DQ L2"); [binds H; exact (P _ _ H)|].
  exact (F' H).
Qed.
Lemma mixed_cell l sh a c : mixed_attrs l sh = Ok a -> l <> [] -> Forall (fun e => u_cell e = Some c) l -> at_cell a = Some c.
Proof.
  intros H N F. unfold mixed_attrs in H. destruct F as [|x l X F]; [now destruct N|]. cbn [flat_map] in H. rewrite X in H. cbn [app] in H.
  binds H. injection H as <-. cbn [at_cell]. destruct (guard _ _) in E; [|discriminate E]. cbn [bind] in E. now injection E as <-.
Qed.
Lemma sequence_length {A} (l : list (result A)) r : sequence l = Ok r -> length r = length l.
Proof.
  unfold sequence. revert r. induction l as [|x l IH]; intros r H; cbn [mapM] in H; [now injection H as <-|].
  binds H. injection H as <-. cbn [length]. f_equal. now apply IH.
Qed.
Lemma reconstruct_cell c : forall e e', built e -> inhabited e -> reconstruct (set_cell c) e = Ok e' -> u_cell e' = Some c.
Proof.
  intros e e' B. revert e'.
  assert (All : forall l, Forall (fun e => forall e', inhabited e -> reconstruct (set_cell c) e = Ok e' -> u_cell e' = Some c) l ->
    Forall inhabited l -> forall l', sequence (map (reconstruct (set_cell c)) l) = Ok l' -> Forall (fun e => u_cell e = Some c) l').
  { intros l F. unfold sequence. induction F as [|x l H F IH]; intros I l' M; cbn [map mapM] in M; [injection M as <-; constructor|].
    inversion I; subst. binds M. injection M as <-. constructor; eauto. }
  induction B as [f c0 o k s w d c' s' v' H|es e B IH H|sub dim e B IH H|sub shape sym e B IH H|es c0 e B IH H|nodal es e B IH H
                 |sub e B IH H|sub e B IH H|sub m e B IH H|sub e B IH H|sub dom e B IH H] using built_ind'; intros e' I R.
  - cbn [reconstruct set_cell kw_mapping kw_family kw_cell kw_degree kw_scheme kw_variant or_else or_opt] in R.
    exact (finite_cell _ _ _ _ _ _ _ R).
  - apply mk_mixed_inv in H as (a & -> & _). inversion I; subst. cbn [reconstruct] in R. binds R. pose proof (sequence_length _ _ E) as L. rewrite map_length in L.
    apply All in E; [|assumption..]. apply mk_mixed_inv in R as (a' & -> & A). unfold u_cell. cbn [u_attrs].
    apply (mixed_cell v None a' c A); [|exact E]. intros ->. destruct es; [congruence|discriminate L].
  - apply mk_vector_inv in H as (n & a & -> & _). inversion I; subst. cbn [reconstruct] in R. binds R.
    apply mk_vector_inv in R as (n' & a' & -> & _). unfold u_cell at 1. cbn [u_attrs at_cell]. eauto.
  - apply mk_tensor_inv in H as (a & sh & sy & t & n & -> & Sy & _ & Hn & _). inversion I; subst. cbn [reconstruct] in R. binds R.
    apply symmetry_self in Sy. apply mk_tensor_inv in R as (a' & sh' & sy' & t' & n' & -> & Sy' & _ & -> & _ & <- & a2 & A & Ea).
    rewrite Sy in Sy'. injection Sy' as <-.
    unfold u_cell. cbn [u_attrs]. rewrite Ea. cbn [at_cell]. apply (mixed_cell _ _ a2 c A).
    + destruct (snd (number_free sy (compute_indices sh))); [lia|discriminate].
    + apply Forall_forall. intros x X. apply repeat_spec in X as ->. eauto.
  - apply mk_tensor_product_inv in H as (cell & -> & _). inversion I; subst. cbn [reconstruct] in R. binds R.
    apply mk_tensor_product_inv in R as (cell' & -> & _ & _ & <-). reflexivity.
  - apply mk_enriched_inv in H as (a & e0 & rest & -> & -> & _). inversion I; subst. cbn [reconstruct] in R. binds R.
    apply All in E; [|assumption..]. apply mk_enriched_inv in R as (a' & e1 & r1 & -> & -> & A & _). inversion E; subst.
    unfold u_cell. cbn [u_attrs]. congruence.
  - apply mk_hdiv_inv in H as (a & -> & _). inversion I; subst. cbn [reconstruct] in R. binds R. apply mk_hdiv_inv in R as (a' & -> & W).
    unfold wrapped_attrs in W. rewrite (IH _ ltac:(assumption) eq_refl) in W. injection W as <-. reflexivity.
  - apply mk_hcurl_inv in H as (a & -> & _). inversion I; subst. cbn [reconstruct] in R. binds R. apply mk_hcurl_inv in R as (a' & -> & W).
    unfold wrapped_attrs in W. rewrite (IH _ ltac:(assumption) eq_refl) in W. injection W as <-. reflexivity.
  - apply mk_with_mapping_inv in H as [-> _]. inversion I; subst. cbn [reconstruct set_cell kw_family kw_degree kw_scheme kw_variant kw_cell] in R.
    fold (set_cell c) in R. binds R. apply mk_with_mapping_inv in R as [-> _]. unfold u_cell. cbn [u_attrs at_cell]. exact (IH _ ltac:(assumption) eq_refl).
  - apply mk_broken_inv in H as ->. inversion I; subst. cbn [reconstruct] in R. binds R. apply mk_broken_inv in R as ->.
    unfold u_cell at 1. cbn [u_attrs at_cell]. eauto.
  - apply mk_restricted_inv in H as [-> _]. inversion I; subst. cbn [reconstruct] in R. binds R. apply mk_restricted_inv in R as [-> _].
    unfold u_cell at 1. cbn [u_attrs at_cell]. eauto.
Qed.

(** ** The quadrature scheme *)
Section Scheme.
  Variable q : string.
  Hypothesis Q : quiet (Some q).
  Definition ruled (a : attrs) : attrs := mkAttrs (at_family a) (at_cell a) (at_degree a) (Some q) (at_shape a).
  Definition again (e e' : uel) : Prop :=
    reconstruct (set_scheme q) e = Ok e' /\ leafwise (with_scheme q) e e' /\ built e' /\ u_attrs e' = ruled (u_attrs e).

  Lemma all_ruled {A} (f : A -> attrs) (l : list A) (s : option string) : s = Some q ->
    forallb (fun x => opt_eqb String.eqb (at_scheme (ruled (f x))) s) l = true.
  Proof. intros ->. apply forallb_forall. intros x _. cbn. apply String.eqb_refl. Qed.
  Lemma mixed_ruled l sh a : l <> [] -> mixed_attrs_of l sh = Ok a -> mixed_attrs_of (map ruled l) sh = Ok (ruled a).
  Proof.
    intros N H. unfold mixed_attrs_of in *. rewrite !map_map, flat_map_map.
    change (fun x => match at_cell (ruled x) with Some c => [c] | None => [] end) with (fun x => match at_cell x with Some c => [c] | None => [] end).
    change (fun x => at_degree (ruled x)) with at_degree.
    change (fun x => prod (at_shape (ruled x))) with (fun x => prod (at_shape x)).
    destruct l as [|x l]; [now destruct N|]. cbn [map]. rewrite <- (map_cons ruled x l).
    binds H. cbn [bind]. rewrite forallb_map. rewrite (all_ruled (fun a => a)) by reflexivity. cbn [guard bind].
    cbn [map] in E1. rewrite E1. cbn [bind]. injection H as <-. reflexivity.
  Qed.
  Lemma enriched_ruled nodal l a : enriched_attrs_of nodal l = Ok a -> enriched_attrs_of nodal (map ruled l) = Ok (ruled a).
  Proof.
    intros H. unfold enriched_attrs_of in *. destruct l as [|x l]; [discriminate H|]. cbn [map]. rewrite <- (map_cons ruled x l).
    binds H. rewrite forallb_map, map_map, mapM_map, forallb_map, flat_map_map. cbn [ruled at_cell at_degree at_shape]. rewrite E. cbn [bind].
    match goal with |- bind ?x _ = _ => match type of E0 with ?y = _ => change x with y end end.
    rewrite E0. cbn [bind]. cbn [ruled at_scheme flat_map app].
    assert (forallb (fun s => opt_eqb String.eqb (Some s) (Some q)) (q :: flat_map (fun _ : attrs => [q]) l) = true) as ->.
    { apply forallb_forall. intros s I. assert (s = q) as ->; [|apply String.eqb_refl]. destruct I as [|I]; [auto|].
      apply in_flat_map in I as (_ & _ & [I|[]]). auto. }
    cbn [guard bind].
    match goal with |- context [guard ?b ValueError] => match type of E2 with guard ?b' _ = _ => change b with b' end end.
    rewrite E2. cbn [bind]. injection H as <-. reflexivity.
  Qed.
  Lemma again_list l : Forall (fun e => inhabited e -> nowhere is_product e = true -> exists e', again e e') l ->
    Forall inhabited l -> forallb (nowhere is_product) l = true -> exists l',
    sequence (map (reconstruct (set_scheme q)) l) = Ok l' /\ Forall2 (leafwise (with_scheme q)) l l' /\ Forall built l' /\
    map u_attrs l' = map ruled (map u_attrs l).
  Proof.
    unfold sequence. intros F. induction F as [|x l H F IH]; intros I W; cbn [map mapM forallb] in *; [exists []; auto|].
    inversion I; subst. apply andb_true_iff in W as [W1 W2]. destruct H as (x' & K & S & Bx & Ax); [assumption..|].
    destruct IH as (l' & M & S' & B' & A); [assumption..|]. rewrite K, M. cbn [bind].
    exists (x' :: l'). repeat split; try constructor; auto. cbn [map]. congruence.
  Qed.
  Lemma reconstruct_scheme e : built e -> inhabited e -> nowhere is_product e = true -> exists e', again e e'.
  Proof.
    intros B. induction B as [f c o k s v d c' s' v' H|es e B IH H|sub dim e B IH H|sub shape sym e B IH H|es c e B IH H|nodal es e B IH H
                   |sub e B IH H|sub e B IH H|sub m e B IH H|sub e B IH H|sub dom e B IH H] using built_ind'; intros I W.
    - pose proof (built_finite _ _ _ _ _ _ _ _ _ _ H) as Bl. destruct (leaf_again d c' s' v' (Some q) v' Bl) as (d' & K & S); [right; congruence|now left|].
      exists (UFinite d' c' (Some q) v'). split; [|split; [|split]].
      + cbn [reconstruct set_scheme kw_mapping kw_family kw_cell kw_degree kw_scheme kw_variant or_else or_opt]. exact K.
      + apply lw_finite. cbn. destruct S as (F & O & _). auto.
      + exact (built_finite _ _ _ _ _ _ _ _ _ _ K).
      + destruct S as (F & O & Sh & _). unfold ruled. cbn [u_attrs at_family at_cell at_degree at_shape]. congruence.
    - apply mk_mixed_inv in H as (a & -> & H). inversion I; subst. cbn [nowhere] in W. apply andb_true_iff in W as [_ W].
      destruct (again_list es IH) as (l' & M & S & B' & A); [assumption..|]. rewrite mixed_attrsE in H. apply mixed_ruled in H; [|now destruct es].
      rewrite <- A, <- mixed_attrsE in H. assert (K : mk_mixed l' = Ok (UMixed (ruled a) l')) by (unfold mk_mixed; now rewrite H).
      exists (UMixed (ruled a) l'). unfold again. cbn [reconstruct]. rewrite M. cbn [bind].
      split; [exact K|]. split; [now constructor|]. split; [exact (built_mixed _ _ B' K)|reflexivity].
    - pose proof H as H'. apply mk_vector_inv in H' as (n & a & -> & X & _). inversion I; subst. cbn [nowhere] in W. apply andb_true_iff in W as [_ W].
      destruct IH as (s' & K & S & B' & A); [assumption..|].
      assert (Y : exists a', mixed_attrs (repeat s' n) (Some (n :: u_shape s')) = Ok a').
      { rewrite mixed_attrsE in *. destruct n as [|n]; [cbn; eauto|]. exists (ruled a).
        apply mixed_ruled in X; [|discriminate]. rewrite !repeat_map in *. rewrite A.
        unfold u_shape at 1. rewrite A. exact X. }
      destruct Y as [a' Y].
      assert (K' : mk_vector s' (Some n) = Ok (UVector (mkAttrs (at_family (u_attrs s')) (u_cell s') (u_degree s') (u_scheme s') (n :: u_shape s')) s' n)).
      { unfold mk_vector. cbn [bind]. now rewrite Y. }
      eexists. unfold again. cbn [reconstruct]. rewrite K. cbn [bind]. split; [exact K'|]. split; [now constructor|].
      split; [exact (built_vector _ _ _ B' K')|]. cbn [u_attrs]. unfold u_cell, u_degree, u_scheme, u_shape. rewrite A. reflexivity.
    - pose proof H as H'. apply mk_tensor_inv in H' as (a & sh & sy & t & n & -> & Sy & Ch & Hn & Ht & _ & a' & X & Ea).
      inversion I; subst. cbn [nowhere] in W. apply andb_true_iff in W as [_ W]. clear H.
      destruct IH as (s' & K & S & B' & A); [assumption..|]. apply symmetry_self in Sy.
      rewrite mixed_attrsE, repeat_map in X. cbn [at_shape] in X.
      apply mixed_ruled in X; [|destruct (snd (number_free sy (compute_indices sh))); [lia|discriminate]].
      rewrite repeat_map, <- A, <- repeat_map, <- mixed_attrsE in X.
      destruct (number_free sy (compute_indices sh)) as [fr n] eqn:N. cbn [fst snd] in *.
      eexists. unfold again. cbn [reconstruct]. rewrite K. cbn [bind].
      assert (K' : mk_tensor s' (Some sh) (SymDict sy) = Ok (UTensor (ruled
        (mkAttrs (at_family (u_attrs sub)) (at_cell a') (u_degree sub) (at_scheme a')
        (match sy with [] => sh | _ => [prod sh - length sy] end ++ u_shape sub))) s' sh sy t n)).
      { unfold mk_tensor. cbn [bind]. rewrite Sy. cbn [bind]. rewrite Ch. cbn [bind]. rewrite N, Ht. cbn [bind].
        unfold u_shape at 1. rewrite A. cbn [ruled at_shape]. fold (u_shape sub). rewrite X. cbn [bind]. unfold u_degree, u_shape. rewrite A. reflexivity. }
      split; [exact K'|]. split; [now constructor|].
      split; [exact (built_tensor _ _ _ _ B' K')|reflexivity].
    - apply mk_tensor_product_inv in H as (cell & -> & _). discriminate W.
    - pose proof H as H'. apply mk_enriched_inv in H' as (a & e0 & rest & _ & -> & _). inversion I; subst.
      cbn [nowhere] in W. apply andb_true_iff in W as [_ W].
      destruct (again_list es IH) as (l' & M & S & B' & A); [assumption..|]. rewrite mk_enrichedE in H. binds H. injection H as ->.
      apply enriched_ruled in E. rewrite <- A in E. assert (K : mk_enriched nodal l' = Ok (UEnriched nodal (ruled a) l')) by (rewrite mk_enrichedE; now rewrite E).
      eexists. unfold again. cbn [reconstruct]. rewrite M. cbn [bind].
      split; [exact K|]. split; [now constructor|]. split; [exact (built_enriched _ _ _ B' K)|reflexivity].
    - apply mk_hdiv_inv in H as (a & -> & H). inversion I; subst. cbn [nowhere] in W. apply andb_true_iff in W as [_ W].
      destruct IH as (s' & K & S & B' & A); [assumption..|].
      assert (K' : mk_hdiv s' = Ok (UHDiv (ruled a) s')).
      { unfold mk_hdiv, wrapped_attrs in *. unfold u_cell, u_degree, u_scheme in *. rewrite A. cbn [ruled at_cell at_degree at_scheme].
        destruct (at_cell (u_attrs sub)); [|discriminate H]. injection H as <-. reflexivity. }
      eexists. unfold again. cbn [reconstruct]. rewrite K. cbn [bind]. split; [exact K'|]. split; [now constructor|].
      split; [exact (built_hdiv _ _ B' K')|reflexivity].
    - apply mk_hcurl_inv in H as (a & -> & H). inversion I; subst. cbn [nowhere] in W. apply andb_true_iff in W as [_ W].
      destruct IH as (s' & K & S & B' & A); [assumption..|].
      assert (K' : mk_hcurl s' = Ok (UHCurl (ruled a) s')).
      { unfold mk_hcurl, wrapped_attrs in *. unfold u_cell, u_degree, u_scheme in *. rewrite A. cbn [ruled at_cell at_degree at_scheme].
        destruct (at_cell (u_attrs sub)); [|discriminate H]. injection H as <-. reflexivity. }
      eexists. unfold again. cbn [reconstruct]. rewrite K. cbn [bind]. split; [exact K'|]. split; [now constructor|].
      split; [exact (built_hcurl _ _ B' K')|reflexivity].
    - apply mk_with_mapping_inv in H as [-> N]. inversion I; subst. cbn [nowhere] in W. apply andb_true_iff in W as [_ W].
      destruct IH as (s' & K & S & B' & A); [assumption..|].
      assert (K' : mk_with_mapping s' m = Ok (UWithMapping s' m)).
      { unfold mk_with_mapping. apply String.eqb_neq in N. now rewrite N. }
      eexists. unfold again. cbn [reconstruct set_scheme kw_family kw_cell kw_degree kw_scheme kw_variant kw_mapping]. fold (set_scheme q). rewrite K. cbn [bind or_else].
      split; [exact K'|]. split; [now constructor|]. split; [exact (built_with_mapping _ _ _ B' K')|].
      cbn [u_attrs]. now rewrite A.
    - apply mk_broken_inv in H as ->. inversion I; subst. cbn [nowhere] in W. apply andb_true_iff in W as [_ W].
      destruct IH as (s' & K & S & B' & A); [assumption..|].
      eexists. unfold again. cbn [reconstruct]. rewrite K. cbn [bind]. split; [reflexivity|]. split; [now constructor|].
      split; [exact (built_broken _ _ B' eq_refl)|]. cbn [u_attrs]. unfold u_cell, u_degree, u_scheme, u_shape. now rewrite A.
    - pose proof H as H'. apply mk_restricted_inv in H' as [-> _]. inversion I; subst. cbn [nowhere] in W. apply andb_true_iff in W as [_ W].
      destruct IH as (s' & K & S & B' & A); [assumption..|].
      assert (K' : mk_restricted s' dom = Ok (URestricted (mkAttrs "RestrictedElement" (u_cell s') (u_degree s') (u_scheme s') (u_shape s')) s' dom)).
      { unfold mk_restricted in *. binds H. reflexivity. }
      eexists. unfold again. cbn [reconstruct]. rewrite K. cbn [bind].
      split; [exact K'|]. split; [now constructor|]. split; [exact (built_restricted _ _ _ B' K')|].
      cbn [u_attrs]. unfold u_cell, u_degree, u_scheme, u_shape. now rewrite A.
  Qed.
End Scheme.
Lemma scheme_changed e q : built e -> inhabited e -> nowhere is_product e = true -> quiet (Some q) -> exists e',
  reconstruct (set_scheme q) e = Ok e' /\ leafwise (with_scheme q) e e' /\ built e' /\
  same_but_scheme (u_attrs e) (u_attrs e') /\ u_scheme e' = Some q.
Proof.
  intros B I W Q. destruct (reconstruct_scheme q Q e B I W) as (e' & R & L & B' & A). exists e'.
  unfold same_but_scheme, u_scheme. rewrite A. repeat split; assumption.
Qed.
