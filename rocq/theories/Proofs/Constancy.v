(** Elements that are constant on cells, and linear elements. *)
From Coq Require Import Ascii String List ZArith Bool Lia.
From Verif Require Import Model.Prelude Model.Registry Model.UflElement Model.UflOperators
  Spec.Registry Spec.UflElement Spec.Reconstruct Spec.Attributes Spec.Operators
  Proofs.Lists Proofs.Registry Proofs.Canonical Proofs.Repr Proofs.Rebuild Proofs.Embedded Proofs.DegreeOrder Proofs.Attributes.
Import ListNotations.
Open Scope string_scope.

(** ** Leaves *)
Definition bubbles : list string := ["Bernardi-Raugel Bubble"; "Guzman-Neilan Bubble"].
Definition enriched_names : list string := ["Bernardi-Raugel"; "Bernardi-Raugel Bubble"; "Guzman-Neilan 1st kind H1";
             "Guzman-Neilan 2nd kind H1"; "Guzman-Neilan H1(div)"; "Guzman-Neilan Bubble"].
Definition listed (f : string) (l : list string) : bool := existsb (String.eqb f) l.
Lemma listed_in f l : listed f l = true <-> In f l.
Proof.
  unfold listed. rewrite existsb_exists. split; [intros (x & I & E); apply String.eqb_eq in E; now subst|].
  intros I. exists f. split; [exact I|apply String.eqb_refl].
Qed.
Definition range_fine (r : family_data) : bool :=
  listed (fd_family r) bubbles ||
  match fd_range r with
  | Some (Some m, hi) =>
      Z.leb 0 m && implb (listed (fd_family r) enriched_names) (Z.leb 1 m) &&
      implb (String.eqb (fd_family r) "Real") (match hi with Some h => Z.leb h 0 | None => false end)
  | _ => false
  end.
Lemma ranges_fine : forallb range_fine families = true.
Proof. vm_compute. reflexivity. Qed.
Lemma on_product_cases f : on_product f = f \/ In (on_product f) ["Q"; "DQ"; "DQ L2"].
Proof.
  unfold on_product. destruct (String.eqb f "Lagrange"); [cbn; auto|]. destruct (String.eqb f "Discontinuous Lagrange"); [cbn; auto|].
  destruct (String.eqb f "Discontinuous Lagrange L2"); cbn; auto.
Qed.
Lemma on_product_listed f l : forallb (fun g => negb (listed g l)) ["Q"; "DQ"; "DQ L2"] = true ->
  forallb (fun g => String.eqb (on_product g) g) l = true -> listed (on_product f) l = listed f l.
Proof.
  intros H K. destruct (on_product_cases f) as [->|I]; [reflexivity|]. rewrite forallb_forall in H. specialize (H _ I). apply negb_true_iff in H. rewrite H.
  destruct (listed f l) eqn:L; [|reflexivity]. apply listed_in in L. rewrite forallb_forall in K. specialize (K _ L). apply String.eqb_eq in K. rewrite K in H.
  apply listed_in in L. congruence.
Qed.
Lemma family_listed d r c o l : described r c o d -> forallb (fun g => negb (listed g l)) ["Q"; "DQ"; "DQ L2"] = true ->
  forallb (fun g => String.eqb (on_product g) g) l = true -> listed (ds_family d) l = listed (fd_family r) l.
Proof. intros (_ & _ & -> & _) H K. destruct (product_cell c); [|reflexivity]. now apply on_product_listed. Qed.
Lemma leaf_described d c s v : built (UFinite d c s v) -> exists r, registered r /\ described r c (ds_order d) d.
Proof.
  intros B. apply built_made in B as (f & o & k & H). apply mk_finite_plain, plain_finite_inv in H as (d0 & E & D & _). injection E as <-.
  unfold describe_name in D. destruct (canonical builtins 3 f c o k) as [x|] eqn:C; [|discriminate D]. subst x. exact (canonical_ok _ _ _ _ _ _ C).
Qed.
Definition members (o : order) : list Z := match o with NoOrder => [] | Order z => [z] | Orders l => l end.
Lemma leaf_range d c s v : built (UFinite d c s v) -> is_bubble (UFinite d c s v) = false ->
  (forall z, In z (members (ds_order d)) -> (0 <= z)%Z /\ (listed (ds_family d) enriched_names = true -> (1 <= z)%Z) /\ (ds_family d = "Real" -> z = 0%Z)) /\
  (listed (ds_family d) enriched_names = false -> ds_embedded d = ds_order d) /\
  (listed (ds_family d) enriched_names = true -> exists w, (ds_embedded d = NoOrder \/ ds_embedded d = Order w) /\ (0 <= w)%Z).
Proof.
  intros B N. apply leaf_described in B as (r & R & D). cbn [is_bubble] in N. change (listed (ds_family d) bubbles = false) in N.
  pose proof (family_listed d r c _ bubbles D eq_refl eq_refl) as E1. pose proof (family_listed d r c _ enriched_names D eq_refl eq_refl) as E2.
  pose proof (family_listed d r c _ ["Real"] D eq_refl eq_refl) as E3.
  pose proof ranges_fine as F. rewrite forallb_forall in F. specialize (F _ (registered_families r R)). unfold range_fine in F. rewrite <- E1, N, <- E2 in F. cbn [orb] in F.
  assert (E3' : String.eqb (fd_family r) "Real" = String.eqb (ds_family d) "Real").
  { unfold listed in E3. cbn [existsb] in E3. now rewrite !orb_false_r in E3. }
  rewrite E3' in F. destruct D as (_ & A & _ & _ & _ & _ & _ & _ & M). split; [|split].
  - assert (W : forall z, In z (members (ds_order d)) -> exists lo hi, fd_range r = Some (lo, hi) /\ within lo hi z).
    { intros z I. unfold order_allowed in A. destruct (ds_order d) as [|w|l]; [destruct I| |].
      - destruct I as [<-|[]]. exact A.
      - destruct A as (lo & hi & X & Y). exists lo, hi. split; [exact X|]. rewrite Forall_forall in Y. auto. }
    intros z I. destruct (W z I) as (lo & hi & E & L & U). rewrite E in F. destruct lo as [m|]; [|discriminate F].
    apply andb_prop in F as [F F3]. apply andb_prop in F as [F1 F2]. apply Z.leb_le in F1. split; [lia|]. split.
    + intros G. rewrite G in F2. cbn [implb] in F2. apply Z.leb_le in F2. lia.
    + intros G. rewrite G in F3. cbn in F3. destruct hi as [h|]; [|discriminate F3]. apply Z.leb_le in F3. lia.
  - intros G. apply M. intros K. unfold bubble_family in K. apply listed_in in K. unfold enriched_names in G. congruence.
  - intros G. apply listed_in in G. destruct M as [M _]. specialize (M G). destruct c as [c|].
    + exists (Z.of_nat (ucell_dim c)). split; [now right|lia].
    + exists 0%Z. split; [now left|lia].
Qed.
Lemma leaf_bounds d c s v l : built (UFinite d c s v) -> is_bubble (UFinite d c s v) = false -> described_degrees d = Some l ->
  (forall z, In z l -> (0 <= z)%Z) /\
  ((forall z, In z (members (ds_order d)) -> (z <= 0)%Z) -> forall z, In z l -> (z <= 0)%Z).
Proof.
  intros B N D. destruct (leaf_range d c s v B N) as (R & E & F). unfold described_degrees in D.
  assert (S : exists z0, In z0 (members (ds_order d)) /\
     l = (members (ds_order d) ++ match ds_embedded d with Order z => [z] | _ => [] end)%list).
  { destruct (ds_order d) as [|z|[|z m]]; try discriminate D; injection D as <-; exists z; (split; [now left|reflexivity]). }
  destruct S as (z0 & I0 & ->). destruct (listed (ds_family d) enriched_names) eqn:L.
  - destruct (F eq_refl) as (w & W & P). split.
    + intros z I. apply in_app_iff in I as [I|I]; [apply R, I|]. destruct W as [W|W]; rewrite W in I; [destruct I|]. destruct I as [<-|[]]. exact P.
    + intros U z I. exfalso. specialize (U _ I0). destruct (R _ I0) as (_ & G & _). specialize (G eq_refl). lia.
  - rewrite (E eq_refl). clear E F. split.
    + intros z I. apply in_app_iff in I as [I|I]; [apply R, I|]. destruct (ds_order d) as [|y|]; [destruct I| |destruct I]. destruct I as [<-|[]]. apply R. now left.
    + intros U z I. apply in_app_iff in I as [I|I]; [apply U, I|]. destruct (ds_order d) as [|y|]; [destruct I| |destruct I]. destruct I as [<-|[]]. apply U. now left.
Qed.

(** ** Trees *)
Lemma nowhere_here p e : nowhere p e = true -> p e = false.
Proof. intros H. destruct e; cbn [nowhere] in H; apply andb_prop in H as [H _]; now apply negb_true_iff in H. Qed.
Lemma nowhere_list p l : forallb (nowhere p) l = true -> Forall (fun e => nowhere p e = true) l.
Proof. intros H. apply Forall_forall. now rewrite forallb_forall in H. Qed.
Definition inside (p : uel -> bool) (e : uel) : Prop :=
  match e with
  | UFinite _ _ _ _ => True
  | UMixed _ l | UTensorProduct _ l _ | UEnriched _ _ l => forall x, In x l -> nowhere p x = true
  | UVector _ e _ | UTensor _ e _ _ _ _ | UHDiv _ e | UHCurl _ e | UWithMapping e _ | UBroken _ e
  | URestricted _ e _ => nowhere p e = true
  end.
Lemma nowhere_inside p e : nowhere p e = true -> p e = false /\ inside p e.
Proof.
  intros H. split; [now apply nowhere_here|]. destruct e; cbn [nowhere] in H; apply andb_prop in H as [_ H]; cbn [inside]; auto;
    now rewrite forallb_forall in H.
Qed.
Lemma nowhere_stripped p e : nowhere p e = true -> nowhere p (stripped e) = true.
Proof.
  induction e as [d c s v|a l IH|a e n IH|a e sh sy t n IH|a l c IH|b a l IH|a e IH|a e IH|e m IH|a e IH|a e dom IH] using uel_ind';
    intros H; try exact H; apply nowhere_inside in H as [_ H]; cbn [inside] in H; [exact (IH H)|exact H].
Qed.

Definition degree_made (e : uel) : Prop :=
  match e with
  | UFinite d _ _ _ => True
  | UMixed _ l => Forall built l /\ mixed_degree (given (map u_degree l)) (u_degree e)
  | UEnriched _ _ l => Forall built l /\ sum_degree (map u_degree l) (u_degree e)
  | UTensorProduct _ l _ => Forall built l /\ u_degree e = DTuple (map u_degree l)
  | UVector _ s _ | UTensor _ s _ _ _ _ | UHDiv _ s | UHCurl _ s | UWithMapping s _ | UBroken _ s
  | URestricted _ s _ => built s /\ u_degree e = u_degree s
  end.
Lemma wrapped_degree e a : wrapped_attrs e = Ok a -> at_degree a = u_degree e.
Proof. unfold wrapped_attrs. destruct (u_cell e); [|discriminate]. now intros [= <-]. Qed.
Lemma built_degree e : built e -> degree_made e.
Proof.
  intros B. apply built_made in B. destruct e as [d c s v|a l|a e n|a e sh sy t n|a l c|b a l|a e|a e|e m|a e|a e dom]; cbn [made degree_made] in *.
  - exact I.
  - destruct B as [B M]. split; [exact B|]. now apply mixed_ok in M.
  - destruct B as [B M]. split; [exact B|]. apply vector_ok in M as (m & _ & E). unfold u_degree at 1. now rewrite E.
  - destruct B as [B M]. split; [exact B|]. apply tensor_ok in M as (m & _ & _ & E & _). exact E.
  - destruct B as [B M]. split; [exact B|]. apply product_ok in M as (_ & m & _ & E & _). unfold u_degree at 1. now rewrite E.
  - destruct B as [B M]. split; [exact B|]. now apply enriched_ok in M as (e0 & rest & _ & _ & _ & _ & _ & _ & _ & M).
  - destruct B as [B M]. split; [exact B|]. apply mk_hdiv_inv in M as (a' & E & M). injection E as <-. exact (wrapped_degree _ _ M).
  - destruct B as [B M]. split; [exact B|]. apply mk_hcurl_inv in M as (a' & E & M). injection E as <-. exact (wrapped_degree _ _ M).
  - destruct B as [B M]. split; [exact B|reflexivity].
  - destruct B as [B M]. split; [exact B|]. apply mk_broken_inv in M. now injection M as ->.
  - destruct B as [B M]. split; [exact B|]. apply mk_restricted_inv in M as [M _]. now injection M as ->.
Qed.
Lemma given_in_inv d ds : In d (given ds) -> In d ds.
Proof. unfold given. rewrite in_flat_map. intros (x & I & J). destruct x; [destruct J| |]; destruct J as [<-|[]]; exact I. Qed.
Lemma mixed_int l z : mixed_degree (given (map u_degree l)) (DInt z) ->
  (exists e, In e l /\ u_degree e = DInt z) /\ (forall e, In e l -> u_degree e = DNone \/ exists y, u_degree e = DInt y /\ (y <= z)%Z).
Proof.
  intros M. apply mixed_int_inv in M as (zs & E & G1 & G2). split.
  - assert (I : In (DInt z) (given (map u_degree l))) by (rewrite E; now apply in_map).
    apply given_in_inv, in_map_iff in I as (e & X & I). eauto.
  - intros e I. destruct (u_degree e) as [|y|t] eqn:D; [now left| |].
    + right. exists y. split; [reflexivity|]. assert (J : In (DInt y) (given (map u_degree l))).
      { apply given_in; [discriminate|]. rewrite <- D. now apply in_map. }
      rewrite E in J. apply in_map_iff in J as (w & [= ->] & J). auto.
    + exfalso. assert (J : In (DTuple t) (given (map u_degree l))).
      { apply given_in; [discriminate|]. rewrite <- D. now apply in_map. }
      rewrite E in J. apply in_map_iff in J as (w & [=] & J).
Qed.
Lemma ints_of_in z ds : In z (ints_of ds) <-> In (DInt z) ds.
Proof.
  unfold ints_of. rewrite in_flat_map. split.
  - intros (x & I & J). destruct x; [destruct J| |destruct J]. destruct J as [<-|[]]. exact I.
  - intros I. exists (DInt z). split; [exact I|now left].
Qed.
Lemma sum_int' l z : sum_degree (map u_degree l) (DInt z) ->
  (exists e, In e l /\ u_degree e = DInt z) /\ (forall e, In e l -> u_degree e = DNone \/ exists y, u_degree e = DInt y /\ (y <= z)%Z).
Proof.
  intros M. inversion M as [x ds z' F [G1 G2] E E'|]. subst z'.
  assert (K : forall y, In y (x :: ints_of ds) <-> In (DInt y) (map u_degree l)).
  { intros y. rewrite <- E. cbn [In]. rewrite ints_of_in. split; intros [H|H]; auto; [left; now f_equal|left; congruence]. }
  split.
  - apply K, in_map_iff in G1 as (e & X & I). eauto.
  - intros e I. destruct (u_degree e) as [|y|t] eqn:D; [now left| |].
    + right. exists y. split; [reflexivity|]. apply G2, K. rewrite <- D. now apply in_map.
    + exfalso. assert (J : In (DTuple t) (map u_degree l)) by (rewrite <- D; now apply in_map).
      rewrite <- E in J. destruct J as [J|J]; [discriminate J|]. rewrite Forall_forall in F. exact (F _ J).
Qed.

Lemma degree_nonneg : forall e z, built e -> nowhere is_bubble e = true -> u_degree e = DInt z -> (0 <= z)%Z.
Proof.
  induction e as [d c s v|a l IH|a e n IH|a e sh sy t n IH|a l c IH|b a l IH|a e IH|a e IH|e m IH|a e IH|a e dom IH] using uel_ind';
    intros z B N D; pose proof (built_degree _ B) as M; apply nowhere_inside in N as [N1 N2]; cbn [degree_made inside] in M, N2.
  1: { apply (leaf_range d c s v B N1). unfold u_degree in D. cbn in D. destruct (ds_order d); try discriminate D. injection D as ->. now left. }
  4: { destruct M as [_ M]. rewrite M in D. discriminate D. }
  1, 4: destruct M as [Bl M]; rewrite D in M; rewrite Forall_forall in IH, Bl;
    first [apply mixed_int in M as ((e & I & E) & _)|apply sum_int' in M as ((e & I & E) & _)]; exact (IH e I z (Bl e I) (N2 e I) E).
  all: destruct M as [Bs M]; rewrite M in D; exact (IH z Bs N2 D).
Qed.
Lemma stripped_degree e : built e -> u_degree (stripped e) = u_degree e.
Proof.
  induction e as [d c s v|a l IH|a e n IH|a e sh sy t n IH|a l c IH|b a l IH|a e IH|a e IH|e m IH|a e IH|a e dom IH] using uel_ind';
    intros B; try reflexivity; apply built_degree in B; cbn [degree_made] in B; destruct B as [B E].
  - change (stripped (UWithMapping e m)) with (stripped e). rewrite E. auto.
  - rewrite E. reflexivity.
Qed.
Lemma leaf_degree d c s v z : u_degree (UFinite d c s v) = DInt z -> ds_order d = Order z.
Proof. unfold u_degree. cbn. destruct (ds_order d); try discriminate. now intros [= ->]. Qed.
Lemma described_in d z l : ds_order d = Order z -> described_degrees d = Some l -> In z l.
Proof. unfold described_degrees. intros ->. intros [= <-]. now left. Qed.
Lemma bounds_member l bs e : Forall2 (fun e b => bounds e (fst b) (snd b)) l bs -> In e l ->
  exists b, In b bs /\ bounds e (fst b) (snd b).
Proof.
  induction 1 as [|x b l bs H _ IH]; [intros []|]. intros [->|I]; [exists b; split; [now left|exact H]|].
  destruct (IH I) as (b' & J & K). exists b'. split; [now right|exact K].
Qed.
Lemma bounds_member' l bs b : Forall2 (fun e b => bounds e (fst b) (snd b)) l bs -> In b bs ->
  exists e, In e l /\ bounds e (fst b) (snd b).
Proof.
  induction 1 as [|x c l bs H _ IH]; [intros []|]. intros [->|I]; [exists x; split; [now left|exact H]|].
  destruct (IH I) as (e & J & K). exists e. split; [now right|exact K].
Qed.
Lemma bounded_given : forall e lo hi, built e -> bounds e lo hi -> u_degree e <> DNone.
Proof.
  induction e as [d c s v|a l IH|a e n IH|a e sh sy t n IH|a l c|b a l IH|a e IH|a e IH|e m IH|a e IH|a e dom IH] using strip_ind;
    intros lo hi B K; pose proof (built_degree _ B) as M; cbn [degree_made] in M; inversion K; subst.
  - match goal with H : described_degrees d = _ |- _ => unfold described_degrees in H; unfold u_degree; cbn; now destruct (ds_order d) end.
  - destruct M as [Bl M]. intros D. rewrite D in M. inversion M as [E| |].
    match goal with H : least (map fst ?bs) lo, F : Forall2 _ l ?bs |- _ => destruct H as [H _]; apply in_map_iff in H as (b & _ & I);
      destruct (bounds_member' _ _ _ F I) as (e & J & X) end.
    rewrite Forall_forall in IH, Bl. pose proof (IH e J _ _ (Bl e J) X) as Y.
    assert (Z : In (u_degree e) (given (map u_degree l))) by (apply given_in; [exact Y|now apply in_map]). rewrite <- E in Z. exact Z.
  - destruct M as [Bs ->]. eauto.
  - destruct M as [Bs ->]. eauto.
  - destruct M as [Bs ->]. discriminate.
  - destruct M as [Bs M]. intros D. rewrite D in M. inversion M.
  - destruct M as [Bs ->]. eauto.
  - destruct M as [Bs ->]. eauto.
  - destruct M as [Bs ->]. rewrite <- (stripped_degree e Bs). apply (IH lo hi); [now apply built_stripped|assumption].
  - destruct M as [Bs ->]. eauto.
  - destruct M as [Bs ->]. congruence.
Qed.
(** The degree bounds, for elements of degree at most 0. *)
Lemma low_bounds : forall e z lo hi, built e -> nowhere is_bubble e = true -> u_degree e = DInt z -> (z <= 0)%Z -> bounds e lo hi -> (hi <= 0)%Z.
Proof.
  induction e as [d c s v|a l IH|a e n IH|a e sh sy t n IH|a l c|b a l IH|a e IH|a e IH|e m IH|a e IH|a e dom IH] using strip_ind;
    intros z lo hi B N D U K; pose proof (built_degree _ B) as M; pose proof (nowhere_inside _ _ N) as [N1 N2]; cbn [degree_made inside] in M, N2; inversion K; subst.
  - apply leaf_degree in D. match goal with H : described_degrees d = Some ?l, G : greatest ?l hi |- _ =>
      apply (leaf_bounds d c s v l B N1 H); [|apply G] end. rewrite D. intros y [<-|[]]. exact U.
  - destruct M as [Bl M]. rewrite D in M. apply mixed_int in M as [_ M]. rewrite Forall_forall in IH, Bl.
    match goal with H : greatest (map snd ?bs) hi, F : Forall2 _ l ?bs |- _ => destruct H as [H _]; apply in_map_iff in H as (b & <- & I);
      destruct (bounds_member' _ _ _ F I) as (e & J & X) end.
    destruct (M e J) as [E|(y & E & L)]; [destruct (bounded_given _ _ _ (Bl e J) X E)|].
    apply (IH e J y _ _ (Bl e J) (N2 e J) E) in X; lia.
  - destruct M as [Bs M]. rewrite M in D. eauto.
  - destruct M as [Bs M]. rewrite M in D. eauto.
  - destruct M as [Bs M]. rewrite M in D. discriminate D.
  - destruct M as [Bl M]. rewrite D in M. apply sum_int' in M as [_ M]. rewrite Forall_forall in IH, Bl.
    match goal with H : greatest (map snd ?bs) hi, F : Forall2 _ l ?bs |- _ => destruct H as [H _]; apply in_map_iff in H as (b' & <- & I);
      destruct (bounds_member' _ _ _ F I) as (e & J & X) end.
    destruct (M e J) as [E|(y & E & L)]; [destruct (bounded_given _ _ _ (Bl e J) X E)|].
    apply (IH e J y _ _ (Bl e J) (N2 e J) E) in X; lia.
  - destruct M as [Bs M]. rewrite M in D. eauto.
  - destruct M as [Bs M]. rewrite M in D. eauto.
  - destruct M as [Bs M]. rewrite M, <- (stripped_degree e Bs) in D.
    apply (IH z lo hi); [now apply built_stripped|now apply nowhere_stripped|exact D|exact U|assumption].
  - destruct M as [Bs M]. rewrite M in D. eauto.
  - destruct M as [Bs M]. rewrite M in D. congruence.
Qed.
Lemma nonneg_bounds : forall e lo hi, built e -> nowhere is_bubble e = true -> bounds e lo hi -> (0 <= lo)%Z.
Proof.
  induction e as [d c s v|a l IH|a e n IH|a e sh sy t n IH|a l c|b a l IH|a e IH|a e IH|e m IH|a e IH|a e dom IH] using strip_ind;
    intros lo hi B N K; pose proof (built_degree _ B) as M; pose proof (nowhere_inside _ _ N) as [N1 N2]; cbn [degree_made inside] in M, N2; inversion K; subst.
  1: { match goal with H : described_degrees d = Some ?l, G : least ?l lo |- _ => apply (leaf_bounds d c s v l B N1 H), G end. }
  4: { destruct M as [Bl M]. match goal with H : least ?zs _, E : map u_degree l = map DInt ?zs |- _ => destruct H as [H _]; apply (in_map DInt) in H;
         rewrite <- E in H; apply in_map_iff in H as (e & X & I) end.
       rewrite Forall_forall in Bl. exact (degree_nonneg e _ (Bl e I) (N2 e I) X). }
  1, 4: destruct M as [Bl M]; rewrite Forall_forall in IH, Bl;
    match goal with H : least (map fst ?bs) _, F : Forall2 _ _ ?bs |- _ => destruct H as [H _]; apply in_map_iff in H as (b' & <- & I);
      destruct (bounds_member' _ _ _ F I) as (e & J & X) end; exact (IH e J _ _ (Bl e J) (N2 e J) X).
  1, 2, 3, 4, 6: destruct M as [Bs M]; eauto.
  - destruct M as [Bs M]. apply (IH lo hi); [now apply built_stripped|now apply nowhere_stripped|assumption].
  - destruct M as [Bs M]. eapply degree_nonneg; eauto.
Qed.
Lemma forallb_repeat b n : 0 < n -> forallb (fun x => x) (repeat b n) = b.
Proof. induction n as [|[|n] IH]; [lia|intros _; cbn; now rewrite andb_true_r|]. intros _. cbn [repeat forallb]. cbn [repeat forallb] in IH. rewrite IH; [|lia]. apply andb_diag. Qed.
Lemma deg_eqb_int d z : deg_eqb d (DInt z) = true -> d = DInt z.
Proof. destruct d; cbn; try discriminate. intros H. apply Z.eqb_eq in H. now subst. Qed.
Lemma constant_degree : forall e z, built e -> nowhere is_bubble e = true -> nowhere is_empty e = true ->
  cellwise_constant e = true -> u_degree e = DInt z -> (z <= 0)%Z.
Proof.
  induction e as [d c s v|a l IH|a e n IH|a e sh sy t n IH|a l c IH|b a l IH|a e IH|a e IH|e m IH|a e IH|a e dom IH] using uel_ind';
    intros z B N V C D; pose proof (built_degree _ B) as M; pose proof (nowhere_inside _ _ N) as [N1 N2]; pose proof (nowhere_inside _ _ V) as [V1 V2];
    cbn [degree_made inside] in M, N2, V2; cbn [cellwise_constant] in C.
  - apply orb_prop in C as [C|C].
    + cbn [globally_constant] in C. apply String.eqb_eq in C. apply leaf_degree in D. destruct (leaf_range d c s v B N1) as (R & _).
      destruct (R z) as (_ & _ & R'); [rewrite D; now left|]. rewrite (R' C). lia.
    + apply deg_eqb_int in C. rewrite C in D. injection D as <-. lia.
  - destruct M as [Bl M]. rewrite D in M. apply mixed_int in M as [(e & I & E) _]. rewrite Forall_forall in IH, Bl. rewrite forallb_forall in C.
    exact (IH e I z (Bl e I) (N2 e I) (V2 e I) (C e I) E).
  - destruct M as [Bs M]. rewrite M in D. destruct n as [|n]; [discriminate V1|]. rewrite forallb_repeat in C by lia. eauto.
  - destruct M as [Bs M]. rewrite M in D. destruct n as [|n]; [discriminate V1|]. rewrite forallb_repeat in C by lia. eauto.
  - destruct M as [Bs M]. rewrite M in D. discriminate D.
  - destruct b; [discriminate C|]. destruct M as [Bl M]. rewrite D in M. apply sum_int' in M as [(e & I & E) _]. rewrite Forall_forall in IH, Bl. rewrite forallb_forall in C.
    exact (IH e I z (Bl e I) (N2 e I) (V2 e I) (C e I) E).
  - cbn [globally_constant orb] in C. apply deg_eqb_int in C. rewrite C in D. injection D as <-. lia.
  - cbn [globally_constant orb] in C. apply deg_eqb_int in C. rewrite C in D. injection D as <-. lia.
  - cbn [globally_constant orb] in C. apply deg_eqb_int in C. rewrite C in D. injection D as <-. lia.
  - cbn [globally_constant orb] in C. apply deg_eqb_int in C. rewrite C in D. injection D as <-. lia.
  - destruct M as [Bs M]. rewrite M in D. eauto.
Qed.
Lemma constant_low : forall e lo hi, built e -> nowhere is_bubble e = true -> nowhere is_empty e = true ->
  cellwise_constant e = true -> bounds e lo hi -> (hi <= 0)%Z.
Proof.
  induction e as [d c s v|a l IH|a e n IH|a e sh sy t n IH|a l c IH|b a l IH|a e IH|a e IH|e m IH|a e IH|a e dom IH] using uel_ind';
    intros lo hi B N V C K; pose proof (built_degree _ B) as M; pose proof (nowhere_inside _ _ N) as [N1 N2]; pose proof (nowhere_inside _ _ V) as [V1 V2];
    cbn [degree_made inside] in M, N2, V2; cbn [cellwise_constant] in C.
  - inversion K as [? ? ? ? l ? ? D L G| | | | | | | | | |]; subst. apply (leaf_bounds d c s v l B N1 D); [|apply G].
    intros z I. apply orb_prop in C as [C|C].
    + cbn [globally_constant] in C. apply String.eqb_eq in C. destruct (leaf_range d c s v B N1) as (R & _).
      destruct (R z I) as (_ & _ & R'). rewrite (R' C). lia.
    + apply deg_eqb_int, leaf_degree in C. rewrite C in I. destruct I as [<-|[]]. lia.
  - destruct M as [Bl M]. rewrite Forall_forall in IH, Bl. rewrite forallb_forall in C. inversion K; subst.
    match goal with H : greatest (map snd ?bs) hi, F : Forall2 _ l ?bs |- _ => destruct H as [H _]; apply in_map_iff in H as (b' & <- & I);
      destruct (bounds_member' _ _ _ F I) as (e & J & X) end. exact (IH e J _ _ (Bl e J) (N2 e J) (V2 e J) (C e J) X).
  - destruct M as [Bs M]. inversion K; subst. rewrite forallb_repeat in C by assumption. eauto.
  - destruct M as [Bs M]. inversion K; subst. rewrite forallb_repeat in C by assumption. eauto.
  - destruct M as [Bs M]. cbn [globally_constant orb] in C. apply deg_eqb_int in C. rewrite M in C. discriminate C.
  - destruct b; [discriminate C|]. destruct M as [Bl M]. rewrite Forall_forall in IH, Bl. rewrite forallb_forall in C. inversion K; subst.
    match goal with H : greatest (map snd ?bs) hi, F : Forall2 _ l ?bs |- _ => destruct H as [H _]; apply in_map_iff in H as (b' & <- & I);
      destruct (bounds_member' _ _ _ F I) as (e & J & X) end. exact (IH e J _ _ (Bl e J) (N2 e J) (V2 e J) (C e J) X).
  - cbn [globally_constant orb] in C. apply deg_eqb_int in C. exact (low_bounds _ 0 lo hi B N C (Z.le_refl 0) K).
  - cbn [globally_constant orb] in C. apply deg_eqb_int in C. exact (low_bounds _ 0 lo hi B N C (Z.le_refl 0) K).
  - cbn [globally_constant orb] in C. apply deg_eqb_int in C. exact (low_bounds _ 0 lo hi B N C (Z.le_refl 0) K).
  - cbn [globally_constant orb] in C. apply deg_eqb_int in C. exact (low_bounds _ 0 lo hi B N C (Z.le_refl 0) K).
  - destruct M as [Bs M]. inversion K; subst. eapply constant_degree; eauto.
Qed.
Lemma constant_bounds e lo hi : built e -> nowhere is_bubble e = true -> nowhere is_empty e = true ->
  cellwise_constant e = true -> bounds e lo hi -> lo = 0%Z /\ hi = 0%Z.
Proof.
  intros B N V C K. pose proof (constant_low e lo hi B N V C K). pose proof (nonneg_bounds e lo hi B N K). pose proof (bounds_le e B lo hi K). lia.
Qed.

(** ** The converse *)
Lemma all_int l : (forall e, In e l -> exists z, u_degree e = DInt z) -> exists zs, map u_degree l = map DInt zs.
Proof.
  induction l as [|e l IH]; intros H; [now exists []|]. destruct (H e (or_introl eq_refl)) as (z & E). destruct IH as (zs & F); [intros x I; apply H; now right|].
  exists (z :: zs). cbn [map]. now rewrite E, F.
Qed.
Lemma given_ints zs : given (map DInt zs) = map DInt zs.
Proof. unfold given. induction zs as [|z zs IH]; [reflexivity|]. cbn [map flat_map app]. now rewrite IH. Qed.
Lemma mixed_all_int l d : l <> [] -> (forall e, In e l -> exists z, u_degree e = DInt z) -> mixed_degree (given (map u_degree l)) d -> exists z, d = DInt z.
Proof.
  intros NE H M. destruct (all_int l H) as (zs & E). rewrite E, given_ints in M. inversion M as [F|zs' z G F|ds zs' (t & I & _) F].
  - destruct l; [congruence|]. destruct zs; discriminate.
  - eauto.
  - subst. apply in_map_iff in I as (y & [=] & _).
Qed.
Lemma sum_all_int l d : (forall e, In e l -> exists z, u_degree e = DInt z) -> sum_degree (map u_degree l) d -> exists z, d = DInt z.
Proof.
  intros H M. destruct (all_int l H) as (zs & E). rewrite E in M. inversion M as [|l0 rows t _ _ F]; [eauto|]. destruct zs; discriminate F.
Qed.
Lemma numbered : forall e, built e -> nowhere is_empty e = true -> nowhere lacks_degree e = true -> exists z, u_degree e = DInt z.
Proof.
  induction e as [d c s v|a l IH|a e n IH|a e sh sy t n IH|a l c IH|b a l IH|a e IH|a e IH|e m IH|a e IH|a e dom IH] using uel_ind';
    intros B N V; pose proof (built_degree _ B) as M; pose proof (nowhere_inside _ _ N) as [N1 N2]; pose proof (nowhere_inside _ _ V) as [V1 V2];
    cbn [degree_made inside] in M, N2, V2.
  - cbn [lacks_degree] in V1. unfold u_degree. cbn. destruct (ds_order d) as [|z|]; try discriminate V1. now exists z.
  - destruct M as [Bl M]. rewrite Forall_forall in IH, Bl. apply mixed_all_int in M; [exact M|intros ->; discriminate N1|].
    intros e I. exact (IH e I (Bl e I) (N2 e I) (V2 e I)).
  - destruct M as [Bs ->]. auto.
  - destruct M as [Bs ->]. auto.
  - discriminate V1.
  - destruct M as [Bl M]. rewrite Forall_forall in IH, Bl. apply sum_all_int in M; [exact M|].
    intros e I. exact (IH e I (Bl e I) (N2 e I) (V2 e I)).
  - destruct M as [Bs ->]. auto.
  - destruct M as [Bs ->]. auto.
  - destruct M as [Bs ->]. auto.
  - destruct M as [Bs ->]. auto.
  - destruct M as [Bs ->]. auto.
Qed.
Lemma degree_bounded : forall e z lo hi, built e -> u_degree e = DInt z -> bounds e lo hi -> (z <= hi)%Z.
Proof.
  induction e as [d c s v|a l IH|a e n IH|a e sh sy t n IH|a l c|b a l IH|a e IH|a e IH|e m IH|a e IH|a e dom IH] using strip_ind;
    intros z lo hi B D K; pose proof (built_degree _ B) as M; cbn [degree_made] in M; inversion K; subst.
  - apply leaf_degree in D. match goal with G : greatest _ hi |- _ => apply G end. eapply described_in; eauto.
  - destruct M as [Bl M]. rewrite D in M. apply mixed_int in M as [(e & I & E) _]. rewrite Forall_forall in IH, Bl.
    match goal with H : greatest (map snd ?bs) hi, F : Forall2 _ l ?bs |- _ => destruct (bounds_member _ _ _ F I) as (b & J & X); destruct H as [_ H];
      specialize (H (snd b) (in_map snd _ _ J)); pose proof (IH e I z _ _ (Bl e I) E X); lia end.
  - destruct M as [Bs M]. rewrite M in D. eauto.
  - destruct M as [Bs M]. rewrite M in D. eauto.
  - destruct M as [Bs M]. rewrite M in D. discriminate D.
  - destruct M as [Bl M]. rewrite D in M. apply sum_int' in M as [(e & I & E) _]. rewrite Forall_forall in IH, Bl.
    match goal with H : greatest (map snd ?bs) hi, F : Forall2 _ l ?bs |- _ => destruct (bounds_member _ _ _ F I) as (b' & J & X); destruct H as [_ H];
      specialize (H (snd b') (in_map snd _ _ J)); pose proof (IH e I z _ _ (Bl e I) E X); lia end.
  - destruct M as [Bs M]. rewrite M in D. eauto.
  - destruct M as [Bs M]. rewrite M in D. eauto.
  - destruct M as [Bs M]. rewrite M, <- (stripped_degree e Bs) in D. apply (IH z lo hi); [now apply built_stripped|exact D|assumption].
  - destruct M as [Bs M]. rewrite M in D. eauto.
  - destruct M as [Bs M]. rewrite M in D. replace z with hi by congruence. lia.
Qed.
Lemma low_constant : forall e z, built e -> nowhere is_bubble e = true -> nowhere is_empty e = true -> nowhere lacks_degree e = true ->
  nowhere is_nodal e = true -> u_degree e = DInt z -> (z <= 0)%Z -> cellwise_constant e = true.
Proof.
  assert (Base : forall e z, built e -> nowhere is_bubble e = true -> u_degree e = DInt z -> (z <= 0)%Z -> deg_eqb (u_degree e) (DInt 0) = true).
  { intros e z B N D U. pose proof (degree_nonneg e z B N D). rewrite D. cbn. apply Z.eqb_eq. lia. }
  induction e as [d c s v|a l IH|a e n IH|a e sh sy t n IH|a l c IH|b a l IH|a e IH|a e IH|e m IH|a e IH|a e dom IH] using uel_ind';
    intros z B N V L X D U; pose proof (built_degree _ B) as M; pose proof (nowhere_inside _ _ N) as [N1 N2]; pose proof (nowhere_inside _ _ V) as [V1 V2];
    pose proof (nowhere_inside _ _ L) as [L1 L2]; pose proof (nowhere_inside _ _ X) as [X1 X2];
    cbn [degree_made inside] in M, N2, V2, L2, X2; cbn [cellwise_constant globally_constant orb].
  - apply orb_true_intro. right. exact (Base _ z B N D U).
  - destruct M as [Bl M]. rewrite D in M. apply mixed_int in M as [_ M]. rewrite Forall_forall in IH, Bl. apply forallb_forall. intros e I.
    destruct (numbered e (Bl e I) (V2 e I) (L2 e I)) as (y & E). destruct (M e I) as [F|(y' & F & G)]; [congruence|].
    apply (IH e I y' (Bl e I) (N2 e I) (V2 e I) (L2 e I) (X2 e I) F). lia.
  - destruct M as [Bs M]. rewrite M in D. destruct n as [|n]; [discriminate V1|]. rewrite forallb_repeat by lia. eauto.
  - destruct M as [Bs M]. rewrite M in D. destruct n as [|n]; [discriminate V1|]. rewrite forallb_repeat by lia. eauto.
  - discriminate L1.
  - destruct b; [discriminate X1|]. destruct M as [Bl M]. rewrite D in M. apply sum_int' in M as [_ M]. rewrite Forall_forall in IH, Bl. apply forallb_forall. intros e I.
    destruct (numbered e (Bl e I) (V2 e I) (L2 e I)) as (y & E). destruct (M e I) as [F|(y' & F & G)]; [congruence|].
    apply (IH e I y' (Bl e I) (N2 e I) (V2 e I) (L2 e I) (X2 e I) F). lia.
  - exact (Base _ z B N D U).
  - exact (Base _ z B N D U).
  - exact (Base _ z B N D U).
  - exact (Base _ z B N D U).
  - destruct M as [Bs M]. rewrite M in D. eauto.
Qed.
Lemma constant_found e lo hi : built e -> nowhere is_bubble e = true -> nowhere is_empty e = true -> nowhere lacks_degree e = true ->
  nowhere is_nodal e = true -> bounds e lo hi -> (hi <= 0)%Z -> cellwise_constant e = true.
Proof.
  intros B N V L X K U. destruct (numbered e B V L) as (z & D). pose proof (degree_bounded e z lo hi B D K).
  apply (low_constant e z B N V L X D). lia.
Qed.

(** ** Linear elements *)
Lemma one_bounds l bs : (forall b, In b bs -> b = (1, 1)%Z) -> l <> [] -> Forall2 (fun (e : uel) (b : Z * Z) => bounds e (fst b) (snd b)) l bs ->
  least (map fst bs) 1 /\ greatest (map snd bs) 1.
Proof.
  intros H NE F. destruct F as [|e b l bs _ F]; [congruence|]. pose proof (H b (or_introl eq_refl)) as ->. split; (split; [now left|]); intros z I;
    apply in_map_iff in I as (x & <- & I); rewrite (H x I); cbn; lia.
Qed.
Lemma linear_bounds : forall e, built e -> nowhere is_empty e = true -> is_linear e = true -> u_degree e = DInt 1 /\ bounds e 1 1.
Proof.
  induction e as [d c s v|a l IH|a e n IH|a e sh sy t n IH|a l c IH|b a l IH|a e IH|a e IH|e m IH|a e IH|a e dom IH] using uel_ind';
    intros B V C; pose proof (built_degree _ B) as M; pose proof (nowhere_inside _ _ V) as [V1 V2];
    cbn [degree_made inside] in M, V2; cbn [is_linear] in C; try discriminate C.
  - apply andb_prop in C as [C1 C2]. apply deg_eqb_int in C2. split; [exact C2|]. apply leaf_degree in C2. apply String.eqb_eq in C1.
    assert (N : is_bubble (UFinite d c s v) = false) by (cbn [is_bubble]; rewrite C1; reflexivity).
    destruct (leaf_range d c s v B N) as (_ & E & _). assert (E' : ds_embedded d = Order 1) by (rewrite E; [exact C2|rewrite C1; reflexivity]).
    apply (bounds_finite d c s v [1; 1]%Z); [unfold described_degrees; now rewrite C2, E'| |]; (split; [now left|intros z [<-|[<-|[]]]; lia]).
  - destruct M as [Bl M]. rewrite Forall_forall in IH, Bl. rewrite forallb_forall in C.
    assert (NE : l <> []) by (intros ->; discriminate V1).
    assert (K : forall e, In e l -> u_degree e = DInt 1 /\ bounds e 1 1) by (intros e I; exact (IH e I (Bl e I) (V2 e I) (C e I))).
    split.
    + destruct (mixed_all_int l (u_degree (UMixed a l)) NE) as (z & E); [intros e I; exists 1%Z; apply K, I|exact M|].
      rewrite E in M |- *. apply mixed_int in M as [(e & I & F) _]. destruct (K e I). congruence.
    + assert (F : Forall2 (fun (e : uel) (b : Z * Z) => bounds e (fst b) (snd b)) l (map (fun _ => (1, 1)%Z) l)).
      { clear - K. induction l as [|e l IH]; [constructor|]. constructor; [apply K; now left|]. apply IH. intros x I. apply K. now right. }
      destruct (one_bounds l _ (fun b I => match proj1 (in_map_iff _ _ _) I with ex_intro _ _ (conj H _) => eq_sym H end) NE F) as [L G].
      exact (bounds_mixed a l _ 1 1 F L G).
  - destruct M as [Bs M]. destruct n as [|n]; [discriminate V1|]. rewrite forallb_repeat in C by lia. destruct (IH Bs V2 C) as [D K]. split; [congruence|].
    constructor; [lia|exact K].
  - destruct M as [Bs M]. destruct n as [|n]; [discriminate V1|]. rewrite forallb_repeat in C by lia. destruct (IH Bs V2 C) as [D K]. split; [congruence|].
    constructor; [lia|exact K].
  - destruct M as [Bs M]. destruct (IH Bs V2 C) as [D K]. split; [congruence|]. now constructor.
Qed.
