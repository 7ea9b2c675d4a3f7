(** Equality of elements. *)
From Coq Require Import Ascii String List ZArith Arith Bool Lia.
From Verif Require Import Model.Prelude Model.Registry Model.UflElement Spec.UflElement Proofs.Repr.
Import ListNotations.
Open Scope string_scope.

Definition no_quote (s : string) : bool := negb (has_char squote s).
Definition opt_quote (o : option string) : bool := match o with None => true | Some s => no_quote s end.
Fixpoint clean (e : uel) : bool :=
  match e with
  | UFinite d _ s v => no_quote (ds_family d) && opt_quote s && opt_quote v
  | UMixed _ l | UEnriched _ _ l => forallb clean l
  | UTensorProduct _ l _ => match l with [] => false | _ => true end && forallb clean l
  | UVector _ e _ | UTensor _ e _ _ _ _ | UHDiv _ e | UHCurl _ e | UBroken _ e => clean e
  | UWithMapping e m => clean e && no_quote m
  | URestricted _ e d => clean e && no_quote d
  end.

(** ** Same data, same text *)
Section SameInduction.
  Variable P : uel -> uel -> Prop.
  Hypothesis HF : forall d d' c s v, ds_family d = ds_family d' -> ds_order d = ds_order d' -> P (UFinite d c s v) (UFinite d' c s v).
  Hypothesis HM : forall a a' l l', Forall2 same l l' -> Forall2 P l l' -> P (UMixed a l) (UMixed a' l').
  Hypothesis HV : forall a a' e e' n, same e e' -> P e e' -> P (UVector a e n) (UVector a' e' n).
  Hypothesis HT : forall a a' e e' shape sym t t' n n', same e e' -> P e e' ->
    P (UTensor a e shape sym t n) (UTensor a' e' shape sym t' n').
  Hypothesis HP : forall a a' l l' c, Forall2 same l l' -> Forall2 P l l' -> P (UTensorProduct a l c) (UTensorProduct a' l' c).
  Hypothesis HE : forall b a a' l l', Forall2 same l l' -> Forall2 P l l' -> P (UEnriched b a l) (UEnriched b a' l').
  Hypothesis HD : forall a a' e e', same e e' -> P e e' -> P (UHDiv a e) (UHDiv a' e').
  Hypothesis HC : forall a a' e e', same e e' -> P e e' -> P (UHCurl a e) (UHCurl a' e').
  Hypothesis HW : forall e e' m, same e e' -> P e e' -> P (UWithMapping e m) (UWithMapping e' m).
  Hypothesis HB : forall a a' e e', same e e' -> P e e' -> P (UBroken a e) (UBroken a' e').
  Hypothesis HR : forall a a' e e' d, same e e' -> P e e' -> P (URestricted a e d) (URestricted a' e' d).
  Fixpoint same_ind' (x y : uel) (h : same x y) : P x y :=
    let all := fix all (l l' : list uel) (F : Forall2 same l l') : Forall2 P l l' :=
      match F with Forall2_nil _ => Forall2_nil P | Forall2_cons x y h r => Forall2_cons x y (same_ind' x y h) (all _ _ r) end in
    match h with
    | same_finite d d' c s v hf ho => HF d d' c s v hf ho
    | same_mixed a a' l l' F => HM a a' l l' F (all l l' F)
    | same_vector a a' e e' n h => HV a a' e e' n h (same_ind' e e' h)
    | same_tensor a a' e e' sh sy t t' n n' h => HT a a' e e' sh sy t t' n n' h (same_ind' e e' h)
    | same_tensor_product a a' l l' c F => HP a a' l l' c F (all l l' F)
    | same_enriched b a a' l l' F => HE b a a' l l' F (all l l' F)
    | same_hdiv a a' e e' h => HD a a' e e' h (same_ind' e e' h)
    | same_hcurl a a' e e' h => HC a a' e e' h (same_ind' e e' h)
    | same_with_mapping e e' m h => HW e e' m h (same_ind' e e' h)
    | same_broken a a' e e' h => HB a a' e e' h (same_ind' e e' h)
    | same_restricted a a' e e' d h => HR a a' e e' d h (same_ind' e e' h)
    end.
End SameInduction.

Lemma Forall2_map_eq {A B} (f : A -> B) l l' : Forall2 (fun x y => f x = f y) l l' -> map f l = map f l'.
Proof. induction 1; cbn; congruence. Qed.
Lemma same_variant a b : same a b -> u_variant a = u_variant b.
Proof.
  intros h. induction h using same_ind'; cbn [u_variant]; auto.
  all: f_equal; now apply Forall2_map_eq.
Qed.
Lemma same_repr a b : same a b -> u_repr a = u_repr b.
Proof.
  intros h. induction h using same_ind'; cbn [u_repr]; try congruence.
  - unfold finite_repr. congruence.
  - now rewrite (Forall2_map_eq u_repr _ _ H0).
  - now rewrite IHh, (same_variant _ _ h).
  - now rewrite IHh, (same_variant _ _ h).
  - now rewrite (Forall2_map_eq u_repr _ _ H0).
  - now rewrite (Forall2_map_eq u_repr _ _ H0).
Qed.
Lemma same_class a b : same a b -> u_class a = u_class b.
Proof. now destruct 1. Qed.

(** ** Same text, same data *)
Definition upper (c : ascii) : bool := existsb (Ascii.eqb c) (list_ascii_of_string "FMVTENHWBR").
Lemma repr_cons e : exists c r, u_repr e = String c r /\ upper c = true.
Proof. destruct e as [| | | | |[]| | | | |]; cbn [u_repr finite_repr append]; eauto. Qed.
Lemma repr_neq e p s t : match p with "" => false | String c _ => negb (upper c) end = true -> u_repr e ++ s <> p ++ t.
Proof.
  destruct (repr_cons e) as (c & r & -> & U). destruct p as [|d p]; [discriminate|]. intros D H. cbn in H.
  apply cons_inj in H as [-> _]. rewrite U in D. discriminate D.
Qed.

Lemma no_quote_char s : no_quote s = true -> has_char squote s = false.
Proof. apply negb_true_iff. Qed.
Lemma opt_decode head o o' s t : opt_quote o = true -> opt_quote o' = true ->
  match o with None => "" | Some x => head ++ pyrepr x end ++ s = match o' with None => "" | Some x => head ++ pyrepr x end ++ t ->
  (forall x, s <> head ++ x) -> (forall x, t <> head ++ x) -> o = o' /\ s = t.
Proof.
  intros Q Q' H N N'. destruct o as [x|], o' as [y|].
  - rewrite !append_assoc in H. apply append_head in H. cbn in Q, Q'. apply no_quote_char in Q, Q'.
    apply pyrepr_decode in H as [-> ->]; auto.
  - rewrite append_assoc in H. cbn in H. now destruct (N' (pyrepr x ++ s)).
  - rewrite append_assoc in H. cbn in H. now destruct (N (pyrepr y ++ t)).
  - auto.
Qed.
Definition quad_str (o : option string) : string := match o with None => "" | Some x => ", quad_scheme=" ++ pyrepr x end.
Definition variant_str (o : option string) : string := match o with None => "" | Some x => ", variant=" ++ pyrepr x end.
Lemma finite_reprE d c s v r : finite_repr d c s v ++ r =
  "FiniteElement(" ++ pyrepr (ds_family d) ++ ", " ++ ocell_repr c ++ ", " ++ order_repr (ds_order d) ++ quad_str s ++ variant_str v ++ ")" ++ r.
Proof. unfold finite_repr, quad_str, variant_str. now rewrite !append_assoc. Qed.
Lemma variant_stops v r : stops (variant_str v ++ ")" ++ r) = true.
Proof. now destruct v. Qed.
Lemma quad_stops s v r : stops (quad_str s ++ variant_str v ++ ")" ++ r) = true.
Proof. destruct s; [reflexivity|]. apply variant_stops. Qed.
Lemma quad_clash v r x : variant_str v ++ ")" ++ r <> ", quad_scheme=" ++ x.
Proof.
  destruct v as [v|]; cbn [variant_str]; intros H.
  - rewrite append_assoc in H. exact (clash_neq ", variant=" ", quad_scheme=" _ _ eq_refl H).
  - exact (clash_neq ")" ", quad_scheme=" _ _ eq_refl H).
Qed.
Lemma variant_clash r x : ")" ++ r <> ", variant=" ++ x.
Proof. intros H. exact (clash_neq ")" ", variant=" _ _ eq_refl H). Qed.
Lemma finite_decode d c s v d' c' s' v' r r' : clean (UFinite d c s v) = true -> clean (UFinite d' c' s' v') = true ->
  finite_repr d c s v ++ r = finite_repr d' c' s' v' ++ r' -> same (UFinite d c s v) (UFinite d' c' s' v') /\ r = r'.
Proof.
  cbn [clean]. intros C C' H. apply andb_true_iff in C as [C Cv], C' as [C' Cv'].
  apply andb_true_iff in C as [C Cs], C' as [C' Cs']. apply no_quote_char in C, C'.
  rewrite !finite_reprE in H. apply append_head in H.
  apply pyrepr_decode in H as [F H]; [|assumption..]. apply append_head in H.
  apply ocell_decode in H as [<- H]. apply append_head in H.
  apply order_decode in H as [O H]; [|apply quad_stops..].
  apply opt_decode in H as [<- H]; [|assumption|assumption|intros x; apply quad_clash|intros x; apply quad_clash].
  apply opt_decode in H as [<- H]; [|assumption|assumption|intros x; apply variant_clash|intros x; apply variant_clash].
  apply append_head in H. split; [now constructor|exact H].
Qed.

Lemma symmetry_decode l m s t : symmetry_repr l ++ s = symmetry_repr m ++ t -> l = m /\ s = t.
Proof.
  unfold symmetry_repr. rewrite !append_assoc. intros H. apply append_head in H.
  set (f := fun ij : list nat * list nat => index_repr (fst ij) ++ ": " ++ index_repr (snd ij)) in H.
  assert (O : forall x s', exists r, f x ++ s' = "(" ++ r).
  { intros [i j] s'. unfold f. cbn [fst snd]. destruct (tuple_repr_open (map str_nat i)) as [r E]. unfold index_repr. rewrite E.
    rewrite !append_assoc. eauto. }
  apply (concat_decode f (fun _ => True) eq "}") in H as [F ->].
  - split; [now apply Forall2_eq|reflexivity].
  - reflexivity.
  - intros x s' t' H'. destruct (O x s') as [r E]. rewrite E in H'. exact (clash_neq "(" "}" _ _ eq_refl H').
  - intros x s' t' H'. exact (clash_neq ", " "}" _ _ eq_refl H').
  - apply Forall_forall. intros [i j] _ [i' j'] s' t' _ _ _ H'. unfold f in H'. cbn [fst snd] in H'. rewrite !append_assoc in H'.
    apply index_decode in H' as [-> H']. apply append_head in H'. apply index_decode in H' as [-> ->]. auto.
  - now apply Forall_forall.
Qed.

Lemma quoted_decode m m' s t : has_char squote m = false -> has_char squote m' = false ->
  m ++ "'" ++ s = m' ++ "'" ++ t -> m = m' /\ s = t.
Proof.
  intros M M' H. apply (split_first (fun c => negb (Ascii.eqb squote c))) in H as [-> H].
  - split; [reflexivity|exact (append_head "'" _ _ H)].
  - clear -M. induction m as [|c m IH]; [reflexivity|]. rewrite has_char_cons in M. apply orb_false_iff in M as [M1 M2].
    cbn [all_chars]. now rewrite M1, IH.
  - clear -M'. induction m' as [|c m' IH]; [reflexivity|]. rewrite has_char_cons in M'. apply orb_false_iff in M' as [M1 M2].
    cbn [all_chars]. now rewrite M1, IH.
  - reflexivity.
  - reflexivity.
Qed.

Definition decoded (a : uel) : Prop := clean a = true -> forall b s t, clean b = true -> stops s = true -> stops t = true ->
  u_repr a ++ s = u_repr b ++ t -> same a b /\ s = t.

Lemma clean_decodes l : Forall decoded l -> forallb clean l = true -> Forall (decodes u_repr (fun y => clean y = true) same) l.
Proof.
  intros F C. rewrite forallb_forall in C. rewrite Forall_forall in *. intros x I y s t Q. exact (F x I (C x I) y s t Q).
Qed.
Lemma clean_all l : forallb clean l = true -> Forall (fun y => clean y = true) l.
Proof. intros C. apply Forall_forall. now apply forallb_forall. Qed.
Lemma sublist_decode l m s t : Forall decoded l -> forallb clean l = true -> forallb clean m = true ->
  String.concat ", " (map u_repr l) ++ ")" ++ s = String.concat ", " (map u_repr m) ++ ")" ++ t -> Forall2 same l m /\ s = t.
Proof.
  intros F C D H. apply (concat_decode u_repr (fun y => clean y = true) same ")") in H; auto.
  - intros x s' t'. apply repr_neq. reflexivity.
  - intros x s' t' H'. exact (clash_neq ", " ")" _ _ eq_refl H').
  - now apply clean_decodes.
  - now apply clean_all.
Qed.
Lemma factors_decode l m s t : Forall decoded l -> forallb clean l = true -> forallb clean m = true ->
  String.concat ", " (map u_repr l) ++ ", cell=" ++ s = String.concat ", " (map u_repr m) ++ ", cell=" ++ t -> Forall2 same l m /\ s = t.
Proof.
  intros F C D H. apply (concat_decode u_repr (fun y => clean y = true) same ", cell=") in H; auto.
  - intros x s' t'. apply repr_neq. reflexivity.
  - intros x s' t' H'. apply (append_head ", " _ ("cell=" ++ t')) in H'. revert H'. apply repr_neq. reflexivity.
  - now apply clean_decodes.
  - now apply clean_all.
Qed.

(** The head of the text of each class. *)
Definition head (e : uel) : string := u_class e ++ "(".
Lemma head_repr e : exists r, u_repr e = head e ++ r.
Proof. destruct e as [| | | | |[]| | | | |]; cbn [u_repr finite_repr head u_class append]; eauto. Qed.
Lemma head_clash a b : u_class a = u_class b \/ clash (head a) (head b) = true.
Proof.
  destruct a as [| | | | |[]| | | | |], b as [| | | | |[]| | | | |]; (left; reflexivity) || (right; reflexivity).
Qed.
Lemma var_decode v s t : var_str v ++ ")" ++ s = var_str v ++ ")" ++ t -> s = t.
Proof. intros H. apply append_head in H. exact (append_head ")" _ _ H). Qed.
Lemma var_stops v s : stops (var_str v ++ ")" ++ s) = true.
Proof. now destruct v. Qed.

Lemma repr_decode a : decoded a.
Proof.
  induction a as [d c s v|a l IH|a e n IH|a e sh sy t n IH|a l c IH|b a l IH|a e IH|a e IH|e m IH|a e IH|a e d IH] using uel_ind';
    intros C y r r' D S T H;
    (assert (K : u_class y = u_class _) by
       (match type of H with u_repr ?x ++ _ = _ =>
          destruct (head_clash x y) as [E|E]; [symmetry; exact E|];
          destruct (head_repr x) as [q Q], (head_repr y) as [q' Q']; rewrite Q, Q', !append_assoc in H;
          destruct (clash_neq _ _ _ _ E H) end)).
  - destruct y as [| | | | |[]| | | | |]; try discriminate K. now apply finite_decode.
  - destruct y as [| | | | |[]| | | | |]; try discriminate K. cbn [u_repr clean] in *. rewrite !append_assoc in H. apply append_head in H.
    apply sublist_decode in H as [F ->]; auto. split; [now constructor|reflexivity].
  - destruct y as [| | | | |[]| | | | |]; try discriminate K. cbn [u_repr clean] in *. rewrite !append_assoc in H. apply append_head in H.
    apply IH in H as [h H]; auto. apply append_head in H. rewrite <- (same_variant _ _ h) in H.
    apply str_nat_decode in H as [<- H]; [|apply var_stops..]. apply var_decode in H. split; [now constructor|exact H].
  - destruct y as [| | | | |[]| | | | |]; try discriminate K. cbn [u_repr clean] in *. rewrite !append_assoc in H. apply append_head in H.
    apply IH in H as [h H]; auto. apply append_head in H. rewrite <- (same_variant _ _ h) in H.
    apply index_decode in H as [<- H]. apply append_head in H. apply symmetry_decode in H as [<- H]. apply var_decode in H.
    split; [now constructor|exact H].
  - destruct y as [| | | | |[]| | | | |]; try discriminate K. cbn [u_repr clean] in *. rewrite !append_assoc in H. apply append_head in H.
    apply andb_true_iff in C as [_ C], D as [_ D].
    apply factors_decode in H as [F H]; auto. apply cell_decode in H as [<- H]. apply append_head in H. split; [now constructor|exact H].
  - destruct y as [| | | | |b' a' l'| | | | |]; try (destruct b; discriminate K). assert (b' = b) as -> by (now destruct b', b).
    cbn [u_repr clean] in *. rewrite !append_assoc in H. apply append_head in H.
    apply sublist_decode in H as [F ->]; auto. split; [now constructor|reflexivity].
  - destruct y as [| | | | |[]| | | | |]; try discriminate K. cbn [u_repr clean] in *. rewrite !append_assoc in H. apply append_head in H.
    apply IH in H as [h H]; auto. apply append_head in H. split; [now constructor|exact H].
  - destruct y as [| | | | |[]| | | | |]; try discriminate K. cbn [u_repr clean] in *. rewrite !append_assoc in H. apply append_head in H.
    apply IH in H as [h H]; auto. apply append_head in H. split; [now constructor|exact H].
  - destruct y as [| | | | |[]| | | | |]; try discriminate K. cbn [u_repr clean] in *. rewrite !append_assoc in H. apply append_head in H.
    apply andb_true_iff in C as [C C'], D as [D D']. apply no_quote_char in C', D'.
    apply IH in H as [h H]; auto. apply append_head in H. apply (quoted_decode m _ (")" ++ r)) in H as [-> H]; [|assumption..]. split; [now constructor|exact (append_head ")" _ _ H)].
  - destruct y as [| | | | |[]| | | | |]; try discriminate K. cbn [u_repr clean] in *. rewrite !append_assoc in H. apply append_head in H.
    apply IH in H as [h H]; auto. apply append_head in H. split; [now constructor|exact H].
  - destruct y as [| | | | |[]| | | | |]; try discriminate K. cbn [u_repr clean] in *. rewrite !append_assoc in H. apply append_head in H.
    apply andb_true_iff in C as [C C'], D as [D D']. apply no_quote_char in C', D'.
    apply IH in H as [h H]; auto. apply append_head in H. apply pyrepr_decode in H as [-> H]; [|assumption..]. apply append_head in H. split; [now constructor|exact H].
Qed.

(** ** What the constructors make is clean *)
Lemma finite_clean d c s v : has_char dquote (finite_repr d c s v) = false -> clean (UFinite d c s v) = true.
Proof.
  unfold finite_repr. rewrite !has_char_app. intros H.
  repeat match type of H with _ || _ = false => let H' := fresh "H" in apply orb_false_iff in H as [H' H] end.
  cbn [clean]. unfold no_quote, opt_quote. apply pyrepr_dquote in H1 as [-> _]. cbn [negb andb].
  apply andb_true_iff. split.
  - destruct s as [s|]; [|reflexivity]. match goal with K : has_char _ (", quad_scheme=" ++ _) = false |- _ =>
      rewrite has_char_app in K; apply orb_false_iff in K as [_ K]; apply pyrepr_dquote in K as [K _]; unfold no_quote; now rewrite K end.
  - destruct v as [v|]; [|reflexivity]. match goal with K : has_char _ (", variant=" ++ _) = false |- _ =>
      rewrite has_char_app in K; apply orb_false_iff in K as [_ K]; apply pyrepr_dquote in K as [K _]; unfold no_quote; now rewrite K end.
Qed.
Lemma in_quote m : ~ In "'"%char (list_ascii_of_string m) -> no_quote m = true.
Proof.
  intros N. unfold no_quote, has_char. apply negb_true_iff. destruct (existsb _ _) eqn:E; [|reflexivity].
  apply existsb_exists in E as (x & I & X). apply Ascii.eqb_eq in X as <-. now destruct N.
Qed.
Lemma built_clean e : built e -> plain_mappings e -> clean e = true.
Proof.
  induction 1 as [f c o k s v d c' s' v' H|es e B IH H|sub dim e B IH H|sub shape sym e B IH H|es c e B IH H|nodal es e B IH H
                 |sub e B IH H|sub e B IH H|sub m e B IH H|sub e B IH H|sub dom e B IH H] using built_ind'; intros P.
  - apply mk_finite_plain, plain_finite_inv in H as (d0 & E & _ & Q). injection E as -> -> -> ->. now apply finite_clean.
  - apply mk_mixed_inv in H as (a & -> & _). inversion P; subst. cbn [clean]. apply forallb_forall. intros x I.
    rewrite Forall_forall in *. auto.
  - apply mk_vector_inv in H as (n & a & -> & _). inversion P; subst. cbn [clean]. auto.
  - apply mk_tensor_inv in H as (a & sh & sy & t & n & -> & _). inversion P; subst. cbn [clean]. auto.
  - apply mk_tensor_product_inv in H as (cell & -> & N & _). inversion P; subst. cbn [clean]. apply andb_true_iff. split; [now destruct es|].
    apply forallb_forall. intros x I. rewrite Forall_forall in *. auto.
  - apply mk_enriched_inv in H as (a & e0 & rest & _ & -> & _). inversion P; subst. cbn [clean]. apply forallb_forall. intros x I.
    rewrite Forall_forall in *. auto.
  - apply mk_hdiv_inv in H as (a & -> & _). inversion P; subst. cbn [clean]. auto.
  - apply mk_hcurl_inv in H as (a & -> & _). inversion P; subst. cbn [clean]. auto.
  - apply mk_with_mapping_inv in H as [-> _]. inversion P; subst. cbn [clean]. rewrite IH by assumption. now apply in_quote.
  - apply mk_broken_inv in H as ->. inversion P; subst. cbn [clean]. auto.
  - apply mk_restricted_inv in H as [-> I]. inversion P; subst. cbn [clean]. rewrite IH by assumption.
    unfold valid_restriction_domains in I. cbn [In] in I. repeat destruct I as [<-|I]; try reflexivity. destruct I.
Qed.

(** ** Equality *)
Lemma eqb_same a b : built a -> plain_mappings a -> built b -> plain_mappings b -> (u_eqb a b = true <-> same a b).
Proof.
  intros A PA B PB. unfold u_eqb. rewrite andb_true_iff, !String.eqb_eq. split.
  - intros [_ H]. apply (repr_decode a (built_clean a A PA) b "" ""); auto.
    + now apply built_clean.
    + now rewrite !append_nil.
  - intros H. split; [now apply same_class|now apply same_repr].
Qed.
Lemma eqb_hash md5 a b : u_eqb a b = true -> u_hash md5 a = u_hash md5 b.
Proof. unfold u_eqb, u_hash. intros H. apply andb_true_iff in H as [_ H]. apply String.eqb_eq in H. congruence. Qed.
Lemma eqb_equiv : (forall a, u_eqb a a = true) /\ (forall a b, u_eqb a b = true -> u_eqb b a = true) /\ (forall a b c, u_eqb a b = true -> u_eqb b c = true -> u_eqb a c = true).
Proof.
  unfold u_eqb. repeat split; intros *; rewrite ?andb_true_iff, ?String.eqb_eq; intuition congruence.
Qed.
