(** Operators and queries of the symbolic elements. *)
From Coq Require Import Ascii String List ZArith Bool Lia Sorted Permutation.
From Verif Require Import Model.Prelude Model.Registry Model.UflElement Model.UflOperators
  Spec.Registry Spec.UflElement Spec.Reconstruct Spec.Attributes Spec.Operators
  Proofs.Lists Proofs.Registry Proofs.Canonical Proofs.Repr Proofs.Rebuild Proofs.Equality Proofs.Embedded Proofs.Spaces Proofs.DegreeOrder Proofs.Attributes.
Import ListNotations.
Open Scope string_scope.

(** ** Order of strings *)
Lemma compare_trans : forall s t u, String.compare s t = Lt -> String.compare t u = Lt -> String.compare s u = Lt.
Proof.
  induction s as [|a s IH]; intros [|b t] [|c u]; cbn [String.compare]; try discriminate; try reflexivity.
  unfold Ascii.compare. destruct (N.compare_spec (N_of_ascii a) (N_of_ascii b)) as [E|L|L]; try discriminate.
  - destruct (N.compare_spec (N_of_ascii b) (N_of_ascii c)) as [E'|L'|L']; try discriminate.
    + rewrite E, E', N.compare_refl. apply IH.
    + rewrite E. intros _ _. now apply N.compare_lt_iff in L' as ->.
  - destruct (N.compare_spec (N_of_ascii b) (N_of_ascii c)) as [E'|L'|L']; try discriminate.
    + rewrite <- E'. intros _ _. now apply N.compare_lt_iff in L as ->.
    + intros _ _. assert (N_of_ascii a < N_of_ascii c)%N by lia. now apply N.compare_lt_iff in H as ->.
Qed.
Lemma compare_same s : String.compare s s = Eq.
Proof. induction s as [|c s IH]; [reflexivity|]. cbn [String.compare]. unfold Ascii.compare. now rewrite N.compare_refl. Qed.
Lemma ltb_Lt s t : String.ltb s t = true <-> String.compare s t = Lt.
Proof. unfold String.ltb. destruct (String.compare s t); split; congruence. Qed.
Lemma repr_order a b : u_ltb a b = true /\ u_repr a <> u_repr b /\ u_ltb b a = false \/
  u_ltb a b = false /\ u_repr a = u_repr b /\ u_ltb b a = false \/
  u_ltb a b = false /\ u_repr a <> u_repr b /\ u_ltb b a = true.
Proof.
  unfold u_ltb, String.ltb. rewrite (String.compare_antisym (u_repr b) (u_repr a)).
  destruct (String.compare (u_repr a) (u_repr b)) eqn:C; cbn [CompOpp].
  - apply String.compare_eq_iff in C. right. left. now repeat split.
  - left. repeat split. intros E. rewrite E, compare_same in C. discriminate C.
  - right. right. repeat split. intros E. rewrite E, compare_same in C. discriminate C.
Qed.
Lemma repr_same a b : built a -> plain_mappings a -> built b -> plain_mappings b -> (u_repr a = u_repr b <-> same a b).
Proof.
  intros Ba Pa Bb Pb. split; [|apply same_repr]. intros E. destruct (head_clash a b) as [C|C].
  - apply eqb_same; auto. unfold u_eqb. rewrite C, E, !String.eqb_refl. reflexivity.
  - exfalso. destruct (head_repr a) as (r & Hr), (head_repr b) as (t & Ht). rewrite Hr, Ht in E. now apply clash_neq in E.
Qed.

(** ** Sorting *)
Section Sorting.
  Context {A : Type} (lt : A -> A -> Prop).
  Hypothesis tri : forall a b, ~ lt a b -> ~ lt b a -> a = b.
  Lemma sorted_unique : forall l l', StronglySorted (fun a b => ~ lt b a) l -> StronglySorted (fun a b => ~ lt b a) l' -> Permutation l l' -> l = l'.
  Proof.
    induction l as [|x l IH]; intros l' S S' P.
    - now apply Permutation_nil in P as ->.
    - destruct l' as [|y l']; [apply Permutation_sym, Permutation_nil in P; discriminate P|].
      inversion S as [|? ? S1 S2]; subst. inversion S' as [|? ? T1 T2]; subst.
      assert (x = y) as <-.
      { assert (I : In x (y :: l')) by (apply (Permutation_in _ P); now left).
        assert (J : In y (x :: l)) by (apply (Permutation_in _ (Permutation_sym P)); now left).
        destruct I as [->|I]; [reflexivity|]. destruct J as [<-|J]; [reflexivity|].
        rewrite Forall_forall in S2, T2. apply tri; [apply T2, I|apply S2, J]. }
      f_equal. apply IH; auto. exact (Permutation_cons_inv P).
  Qed.
End Sorting.
Lemma strongly_map {A B} (f : A -> B) (R : B -> B -> Prop) l : StronglySorted (fun a b => R (f a) (f b)) l -> StronglySorted R (map f l).
Proof.
  induction 1 as [|x l S IH F]; [constructor|]. cbn [map]. constructor; [exact IH|]. rewrite Forall_map. exact F.
Qed.
Lemma sorted_same l l1 l2 : Forall built l -> Forall plain_mappings l ->
  sorted_by (fun a b => u_ltb a b = true) l l1 -> sorted_by (fun a b => u_ltb a b = true) l l2 -> Forall2 same l1 l2.
Proof.
  intros B P [P1 S1] [P2 S2].
  assert (E : map u_repr l1 = map u_repr l2).
  { apply (sorted_unique (fun s t => String.ltb s t = true)).
    - intros a b H K. unfold String.ltb in H, K. rewrite (String.compare_antisym b a) in K. destruct (String.compare a b) eqn:C.
      + now apply String.compare_eq_iff in C.
      + now destruct H.
      + now destruct K.
    - apply strongly_map. exact S1.
    - apply strongly_map. exact S2.
    - apply Permutation_map. now rewrite <- P1. }
  assert (B1 : Forall (fun e => built e /\ plain_mappings e) l1).
  { apply Forall_forall. intros e I. apply (Permutation_in _ (Permutation_sym P1)) in I. rewrite Forall_forall in B, P. auto. }
  assert (B2 : Forall (fun e => built e /\ plain_mappings e) l2).
  { apply Forall_forall. intros e I. apply (Permutation_in _ (Permutation_sym P2)) in I. rewrite Forall_forall in B, P. auto. }
  clear - E B1 B2. revert l2 E B2. induction B1 as [|x l1 [Bx Px] B1 IH]; intros [|y l2] E B2; try discriminate E; [constructor|].
  injection E as E1 E2. inversion B2 as [|? ? [By Py] B2']; subst. constructor; [|auto]. now apply repr_same.
Qed.
Lemma order_same a b : built a -> plain_mappings a -> built b -> plain_mappings b ->
  u_ltb a b = true /\ ~ same a b /\ u_ltb b a = false \/ u_ltb a b = false /\ same a b /\ u_ltb b a = false \/
  u_ltb a b = false /\ ~ same a b /\ u_ltb b a = true.
Proof.
  intros Ba Pa Bb Pb. pose proof (repr_same a b Ba Pa Bb Pb) as R. destruct (repr_order a b) as [(X & Y & Z)|[(X & Y & Z)|(X & Y & Z)]]; tauto.
Qed.
Lemma order_trans a b c : u_ltb a b = true -> u_ltb b c = true -> u_ltb a c = true.
Proof. unfold u_ltb. rewrite !ltb_Lt. apply compare_trans. Qed.
Lemma unequal a b : u_neb a b = true <-> u_eqb a b <> true.
Proof. unfold u_neb. destruct (u_eqb a b); cbn; split; congruence. Qed.

(** ** Operators *)
Lemma add_operand a b e : u_add a (Operand b) = Ok e -> exists at', e = UEnriched false at' [a; b].
Proof. cbn [u_add]. intros H. apply mk_enriched_inv in H as (at' & e0 & rest & _ & -> & _). now exists at'. Qed.
Lemma mul_operand a b e : u_mul a (Operand b) = Ok e -> exists at', e = UMixed at' [a; b].
Proof. cbn [u_mul]. intros H. apply mk_mixed_inv in H as (at' & -> & _). now exists at'. Qed.
Lemma getitem_spec e k : (In k ["interior"; "facet"; "face"; "edge"; "vertex"; "reduced"] -> exists at', u_getitem e k = Ok (URestricted at' e k)) /\
  (~ In k ["interior"; "facet"; "face"; "edge"; "vertex"; "reduced"] -> u_getitem e k = Err KeyError).
Proof.
  assert (X : existsb (String.eqb k) valid_restriction_domains = true <-> In k valid_restriction_domains).
  { rewrite existsb_exists. split; [intros (x & I & E); apply String.eqb_eq in E; now subst|]. intros I. exists k. split; [exact I|apply String.eqb_refl]. }
  unfold u_getitem, mk_restricted. split; intros I.
  - apply X in I. rewrite I. cbn [guard bind]. eauto.
  - destruct (existsb (String.eqb k) valid_restriction_domains); [|reflexivity]. destruct I. now apply X.
Qed.
Lemma call_spec e : (u_cell e <> None -> exists a a', space_call "HDiv" e = Ok (UHDiv a e) /\ space_call "HCurl" e = Ok (UHCurl a' e)) /\
  (forall s, s <> "HDiv" -> s <> "HCurl" -> space_call s e = Err NotImplementedError).
Proof.
  split.
  - intros C. unfold space_call, mk_hdiv, mk_hcurl, wrapped_attrs. cbn [String.eqb Ascii.eqb Bool.eqb].
    destruct (u_cell e) as [c|]; [|now destruct C]. cbn [bind]. eauto.
  - intros s H H'. unfold space_call. apply String.eqb_neq in H, H'. now rewrite H, H'.
Qed.
Lemma sub_elements_length e : num_sub_elements e = length (sub_elements e).
Proof. induction e using uel_ind'; try reflexivity. exact IHe. Qed.
Lemma operators_spec a b e :
  (u_add a (Operand b) = Ok e -> exists at', e = UEnriched false at' [a; b]) /\
  (u_mul a (Operand b) = Ok e -> exists at', e = UMixed at' [a; b] /\ sub_elements e = [a; b]) /\
  u_add a Other = Err ValueError /\ u_mul a Other = Err ValueError.
Proof.
  split; [apply add_operand|]. split; [|now split]. intros H. apply mul_operand in H as (x & ->). now exists x.
Qed.
Lemma sub_elements_spec e : num_sub_elements e = length (sub_elements e) /\
  (forall l m, mk_mixed l = Ok m -> sub_elements m = l) /\
  (forall l c m, mk_tensor_product l c = Ok m -> sub_elements m = l) /\
  (forall d r, mk_restricted e d = Ok r -> sub_elements r = sub_elements e) /\
  (forall n v, mk_vector e (Some n) = Ok v -> sub_elements v = repeat e n).
Proof.
  split; [apply sub_elements_length|]. split; [|split; [|split]].
  - intros l m H. apply mk_mixed_inv in H as (a & -> & _). reflexivity.
  - intros l c m H. apply mk_tensor_product_inv in H as (a & -> & _). reflexivity.
  - intros d r H. apply mk_restricted_inv in H as (-> & _). reflexivity.
  - intros n v H. apply mk_vector_inv in H as (m & a & -> & _ & ->). reflexivity.
Qed.
Lemma unequal_same a b : built a -> plain_mappings a -> built b -> plain_mappings b -> (u_neb a b = true <-> ~ same a b).
Proof. intros A PA B PB. rewrite unequal, (eqb_same a b A PA B PB). reflexivity. Qed.

(** ** Spaces *)
Lemma max_checked : forallb (fun a => forallb (fun b => implb (up a b || up b a) (let m := if sobolev_gtb b a then b else a in up a m && up b m)) spaces) spaces = true.
Proof. vm_compute. reflexivity. Qed.
Lemma max_upper a b : related a b -> let m := if sobolev_gtb b a then b else a in included a m /\ included b m.
Proof.
  intros R. pose proof (forall_spaces _ (forall_spaces _ max_checked a) b) as M. cbn beta zeta in M.
  assert (U : up a b || up b a = true) by (apply orb_true_iff; destruct R as [R|R]; [left|right]; now apply up_included).
  rewrite U in M. cbn [implb] in M. apply andb_prop in M as [M1 M2]. split; now apply up_included.
Qed.
Lemma max_among l : forall s, In (fold_left (fun m t => if sobolev_gtb t m then t else m) l s) (s :: l).
Proof.
  induction l as [|t l IH]; intros s; cbn [fold_left]; [now left|]. destruct (IH (if sobolev_gtb t s then t else s)) as [E|I]; [|right; now right].
  rewrite <- E. destruct (sobolev_gtb t s); [right; now left|now left].
Qed.
Lemma max_all l : forall s, (forall a b, In a (s :: l) -> In b (s :: l) -> related a b) ->
  forall t, In t (s :: l) -> included t (fold_left (fun m t => if sobolev_gtb t m then t else m) l s).
Proof.
  induction l as [|x l IH]; intros s R t I; cbn [fold_left].
  - destruct I as [<-|[]]. constructor.
  - destruct (max_upper s x (R s x (or_introl eq_refl) (or_intror (or_introl eq_refl)))) as [U1 U2]. cbn zeta in U1, U2.
    assert (R' : forall a b, In a ((if sobolev_gtb x s then x else s) :: l) -> In b ((if sobolev_gtb x s then x else s) :: l) -> related a b).
    { intros a b Ia Ib. apply R; [destruct Ia as [<-|Ia]|destruct Ib as [<-|Ib]]; try (right; now right); destruct (sobolev_gtb x s); [right; now left|now left|right; now left|now left]. }
    pose proof (IH _ R' _ (or_introl eq_refl)) as H. destruct I as [<-|[<-|I]].
    + exact (inc_trans _ _ _ U1 H).
    + exact (inc_trans _ _ _ U2 H).
    + apply (IH _ R'). now right.
Qed.
Lemma mixed_space_smallest l : l <> [] -> (forall a b, In a l -> In b l -> related a b) ->
  exists s, mixed_space l = Ok s /\ In s l /\ smallest l s.
Proof.
  destruct l as [|s l]; [congruence|]. intros _ R. eexists. split; [reflexivity|]. split; [apply max_among|]. split; [now apply max_all|].
  intros u H. apply H, max_among.
Qed.
Lemma mixed_element_space a l spaces : map u_space l = map (fun s => Ok (Predefined s)) spaces -> spaces <> [] ->
  (forall a b, In a spaces -> In b spaces -> related a b) -> exists s, u_mixed_space (UMixed a l) = Ok s /\ In s spaces /\ smallest spaces s.
Proof.
  intros E NE R. unfold u_mixed_space. cbn [u_subs]. rewrite E. rewrite <- (map_map Predefined (@Ok uspace)), sequence_ok. cbn [bind]. rewrite predefined_all. cbn [bind].
  now apply mixed_space_smallest.
Qed.
