(** Mappings and form degrees of element trees. *)
From Coq Require Import String List Arith Lia Bool.
From Verif Require Import Model.Prelude Model.Cell Model.Element.
From Verif Require Import Spec.EntityDofs Spec.Mappings Proofs.Lists Proofs.Cells Proofs.EntityDofs Proofs.Tree Proofs.TabProps.
Import ListNotations.

Lemma ostring_eqb_spec a b : reflect (a = b) (ostring_eqb a b).
Proof.
  destruct a as [x|], b as [y|]; simpl; try (constructor; congruence).
  destruct (String.eqb_spec x y); constructor; congruence.
Qed.

Lemma unique_opt_some {A} (eqb : A -> A -> bool) (l : list A) x : (forall a b, reflect (a = b) (eqb a b)) ->
  unique_opt eqb l = Some x <-> l <> [] /\ Forall (eq x) l.
Proof.
  intros R. unfold unique_opt. split.
  - destruct (unique eqb l) eqn:E; [|discriminate]. intros [= <-]. eapply unique_ok; eauto.
  - intros [N H]. now rewrite (unique_all _ eqb l x R N H).
Qed.

Lemma unique_opt_none {A} (eqb : A -> A -> bool) (l : list A) : (forall a b, reflect (a = b) (eqb a b)) ->
  l <> [] -> unique_opt eqb l = None -> exists a b, In a l /\ In b l /\ a <> b.
Proof.
  intros R N. destruct l as [|x r]; [congruence|]. unfold unique_opt; simpl.
  destruct (forallb (eqb x) r) eqn:E; [discriminate|]. intros _.
  assert (X : exists y, In y r /\ eqb x y = false).
  { clear N. induction r as [|y r IH]; [discriminate|]. simpl in E. destruct (eqb x y) eqn:Y.
    - destruct IH as (z & Z & ?); [exact E|]. exists z; split; [now right | assumption].
    - exists y; split; [now left | exact Y]. }
  destruct X as (y & Y & D). exists x, y. split; [now left|]. split; [now right|].
  destruct (R x y); congruence.
Qed.

Section Trees.
  Context {F : Type}.
  Local Notation elt := (elt F).

  Lemma mapped_somehow (e : elt) : populated e -> exists m, mapped_by e m.
  Proof.
    induction e as [l|fs IH|b sh t IH|es IH|e sz off IH|e IH|e IH|e IH|e IH] using elt_ind'; intros P; inversion P; subst.
    - destruct (lf_mappings l) as [|m r] eqn:E; [congruence|]. exists (Some m). constructor. rewrite E. now left.
    - assert (X : exists ms, Forall2 mapped_by fs ms).
      { clear P. induction IH as [|f fs Hf _ IHs]; [exists []; constructor|]. inversion H0; subst.
        destruct (Hf H2) as (m & M), (IHs H3) as (ms & Ms). exists (m :: ms). now constructor. }
      destruct X as (ms & Ms).
      assert (Y : exists m, product_mapping ms m).
      { clear. induction ms as [|m ms IH]; [exists affine; now repeat constructor|].
        destruct (ostring_eqb_spec m affine) as [->|N].
        - destruct IH as (m' & [l A|a x b A B|a x b y c X Y]).
          + exists affine. apply pm_none. now constructor.
          + exists x. apply (pm_one (affine :: a) x b); [now constructor | exact B].
          + exists None. now apply (pm_two (affine :: a) x b y c).
        - assert (D : Forall (eq affine) ms \/ exists a x b, ms = a ++ x :: b /\ x <> affine).
          { clear. induction ms as [|y ms IH]; [left; constructor|]. destruct (ostring_eqb_spec y affine) as [->|Y].
            - destruct IH as [A|(a & x & b & -> & X)]; [left; now constructor | right; now exists (affine :: a), x, b].
            - right. now exists [], y, ms. }
          destruct D as [A|(a & x & b & -> & X)].
          + exists m. apply (pm_one [] m ms); [constructor | exact A].
          + exists None. now apply (pm_two [] m a x b). }
      destruct Y as (m & M). exists m. econstructor; eauto.
    - destruct (IH H0) as (m & M). exists m. now constructor.
    - destruct es as [|x r]; [congruence|]. inversion IH as [|? ? IHx _]; subst. inversion H1; subst.
      destruct (IHx H3) as (m & M). exists m. econstructor; [now left | exact M].
    - destruct (IH H0) as (m & M). exists m. now constructor.
    - destruct (IH H0) as (m & M). exists m. now constructor.
    - destruct (IH H0) as (m & M). exists m. now constructor.
    - eexists; constructor.
    - eexists; constructor.
  Qed.

  (** The mapping of the products follows from the mappings of the factors. *)
  Lemma filter_affine ms : filter (fun m => negb (ostring_eqb m (Some "affine"%string))) ms = [] <-> Forall (eq affine) ms.
  Proof.
    induction ms as [|m ms IH]; simpl; [split; constructor|].
    change (Some "affine"%string) with affine in *. destruct (ostring_eqb_spec m affine) as [->|N]; simpl.
    - rewrite IH. split; intros H; [now constructor | now inversion H].
    - split; [discriminate|]. intros H; inversion H; subst; congruence.
  Qed.

  Lemma filter_one ms m r : filter (fun m => negb (ostring_eqb m (Some "affine"%string))) ms = m :: r ->
    exists a b, ms = a ++ m :: b /\ Forall (eq affine) a /\ m <> affine /\
      filter (fun m => negb (ostring_eqb m (Some "affine"%string))) b = r.
  Proof.
    induction ms as [|x ms IH]; simpl; [discriminate|].
    change (Some "affine"%string) with affine in *. destruct (ostring_eqb_spec x affine) as [->|N]; simpl.
    - intros H. destruct (IH H) as (a & b & -> & A & N & B). exists (affine :: a), b. repeat split; auto.
    - intros [= -> <-]. exists [], ms. repeat split; auto.
  Qed.

  Definition product_of (ms : list (option string)) : option string :=
    match filter (fun m => negb (ostring_eqb m (Some "affine"%string))) ms with
    | [] => affine
    | [m] => m
    | _ => None
    end.

  Lemma product_ofE ms m : product_mapping ms m <-> product_of ms = m.
  Proof.
    unfold product_of. split.
    - assert (K : forall a l, Forall (eq affine) a -> filter (fun m => negb (ostring_eqb m (Some "affine"%string))) (a ++ l)
          = filter (fun m => negb (ostring_eqb m (Some "affine"%string))) l).
      { intros a l A. rewrite filter_app. apply filter_affine in A. now rewrite A. }
      assert (Z : forall y l, y <> affine -> filter (fun m => negb (ostring_eqb m (Some "affine"%string))) (y :: l)
          = y :: filter (fun m => negb (ostring_eqb m (Some "affine"%string))) l).
      { intros y l Y. cbn [filter]. destruct (ostring_eqb_spec y (Some "affine"%string)); [contradiction | reflexivity]. }
      intros [l A|a x b A B|a x b y c X Y].
      + apply filter_affine in A. now rewrite A.
      + rewrite K by exact A. apply filter_affine in B. destruct (ostring_eqb_spec x affine) as [->|X].
        * simpl. now rewrite B.
        * rewrite Z by exact X. now rewrite B.
      + rewrite filter_app, (Z x) by exact X. rewrite filter_app, (Z y) by exact Y.
        destruct (filter _ a) as [|? [|? ?]]; simpl; [|reflexivity|reflexivity].
        destruct (filter _ b); reflexivity.
    - destruct (filter _ ms) as [|x r] eqn:E.
      + intros <-. apply pm_none. now apply filter_affine.
      + apply filter_one in E as (a & b & -> & A & X & E). destruct r as [|y r].
        * intros <-. apply pm_one; [exact A | now apply filter_affine].
        * intros <-. apply filter_one in E as (a' & b' & -> & _ & Y & _). now apply pm_two.
  Qed.

  (** Either all functions have the mapping of the element, or they have none in common. *)
  Definition agreed (e : elt) : Prop :=
    match mapping e with
    | Some m => forall m', mapped_by e m' -> m' = Some m
    | None => mapped_by e None \/ exists a b, mapped_by e a /\ mapped_by e b /\ a <> b
    end.

  Lemma agreed_other e m0 : populated e -> agreed e -> mapping e <> m0 -> exists m, m <> m0 /\ mapped_by e m \/ m0 = None /\ mapping e = None.
  Proof.
    intros P A N. unfold agreed in A. destruct (mapping e) as [m|] eqn:E.
    - destruct (mapped_somehow e P) as (m' & M). rewrite (A _ M) in M. exists (Some m). now left.
    - destruct m0 as [m0|]; [|congruence]. destruct A as [A|(a & b & HA & HB & D)].
      + exists None. left. split; [discriminate | exact A].
      + destruct (ostring_eqb_spec a (Some m0)) as [->|]; [exists b | exists a]; left; split; congruence || assumption.
  Qed.

  Lemma not_affine e : populated e -> agreed e -> mapping e <> affine -> exists m, m <> affine /\ mapped_by e m.
  Proof. intros P A N. destruct (agreed_other e affine P A N) as (m & [H|[H _]]); [now exists m | discriminate H]. Qed.

  Lemma mapped_all (fs : list elt) : Forall populated fs -> exists ms, Forall2 mapped_by fs ms.
  Proof.
    induction 1 as [|f fs P _ IH]; [exists []; constructor|].
    destruct (mapped_somehow f P) as (m & M), IH as (ms & Ms). exists (m :: ms). now constructor.
  Qed.

  Lemma split_map {A B} (f : A -> B) l a x b : map f l = a ++ x :: b -> exists l1 y l2, l = l1 ++ y :: l2 /\ map f l1 = a /\ f y = x /\ map f l2 = b.
  Proof.
    revert a. induction l as [|y l IH]; intros [|z a] E; simpl in E; try discriminate.
    - injection E as <- <-. now exists [], y, l.
    - injection E as <- E. destruct (IH _ E) as (l1 & w & l2 & -> & <- & <- & <-). now exists (y :: l1), w, l2.
  Qed.

  Lemma mapped_affine (fs : list elt) ms : Forall agreed fs -> Forall (eq affine) (map mapping fs) -> Forall2 mapped_by fs ms -> Forall (eq affine) ms.
  Proof.
    intros A E M. induction M as [|f m fs ms M _ IH]; [constructor|].
    inversion A; subst. inversion E; subst. constructor; [|now apply IH].
    unfold agreed in H1. rewrite <- H3 in H1. simpl in H1. symmetry. now apply H1.
  Qed.

  Lemma agreed_product (fs : list elt) : Forall populated fs -> Forall agreed fs -> agreed (ETensorProduct fs).
  Proof.
    intros P A. unfold agreed. change (mapping (ETensorProduct fs)) with (product_of (map mapping fs)). unfold product_of.
    destruct (filter _ (map mapping fs)) as [|x r] eqn:E.
    - apply filter_affine in E. intros m' M. inversion M as [|? ms ? Ms Pm| | | | | | |]; subst.
      pose proof (mapped_affine fs ms A E Ms) as Aff. apply product_ofE in Pm. subst.
      unfold product_of. apply filter_affine in Aff. now rewrite Aff.
    - apply filter_one in E as (a & b & E & Ha & X & Hb). apply split_map in E as (l1 & f & l2 & -> & <- & <- & <-).
      apply Forall_app in P as [P1 P2]. apply Forall_cons_iff in P2 as [Pf P3].
      apply Forall_app in A as [A1 A2]. apply Forall_cons_iff in A2 as [Af A3].
      destruct (mapped_all l1 P1) as (m1 & M1).
      destruct r as [|y r].
      + apply filter_affine in Hb. destruct (mapped_all l2 P3) as (m2 & M2).
        assert (K : forall m, mapped_by f m -> mapped_by (ETensorProduct (l1 ++ f :: l2)) m).
        { intros m M. apply mb_tensor_product with (m1 ++ m :: m2).
          - apply Forall2_app; [exact M1 | now constructor].
          - apply pm_one; [exact (mapped_affine _ _ A1 Ha M1) | exact (mapped_affine _ _ A3 Hb M2)]. }
        unfold agreed in Af. destruct (mapping f) as [m|] eqn:Ef.
        * intros m' M. inversion M as [|? ms ? Ms Pm| | | | | | |]; subst.
          apply Forall2_app_inv_l in Ms as (n1 & n2 & N1 & N2 & ->). inversion N2 as [|? k ? n3 K1 N3]; subst.
          rewrite (Af _ K1) in *. apply product_ofE in Pm. subst.
          symmetry. symmetry. apply product_ofE. apply pm_one; [exact (mapped_affine _ _ A1 Ha N1) | exact (mapped_affine _ _ A3 Hb N3)].
        * destruct Af as [Af|(u & v & U & V & D)]; [left; now apply K | right; exists u, v; auto].
      + left. apply filter_one in Hb as (a' & b' & E & _ & Y & _). apply split_map in E as (l3 & g & l4 & -> & <- & <- & <-).
        apply Forall_app in P3 as [P3 P4]. apply Forall_cons_iff in P4 as [Pg P5].
        apply Forall_app in A3 as [A3 A4]. apply Forall_cons_iff in A4 as [Ag A5].
        destruct (mapped_all l3 P3) as (m3 & M3), (mapped_all l4 P5) as (m4 & M4).
        destruct (not_affine f Pf Af X) as (u & U & Mu), (not_affine g Pg Ag Y) as (v & V & Mv).
        apply mb_tensor_product with (m1 ++ u :: m3 ++ v :: m4); [|now apply pm_two].
        apply Forall2_app; [exact M1|]. constructor; [exact Mu|]. apply Forall2_app; [exact M3 | now constructor].
  Qed.

  Lemma populated_agreed (e : elt) : populated e -> agreed e.
  Proof.
    induction e as [l|fs IH|b sh t IH|es IH|e sz off IH|e IH|e IH|e IH|e IH] using elt_ind'; intros P; inversion P as [? N|? N|? ? ? N|? E N|? ? ? N|? N|? N|? N|? N]; subst.
    - unfold agreed; simpl. destruct (unique_opt String.eqb (lf_mappings l)) as [m|] eqn:E.
      + apply unique_opt_some in E as [_ E]; [|exact String.eqb_spec]. intros m' M. inversion M; subst.
        rewrite Forall_forall in E. f_equal. symmetry. now apply E.
      + right. destruct (unique_opt_none _ _ String.eqb_spec N E) as (a & b & A & B & D).
        exists (Some a), (Some b). repeat split; try (now constructor). congruence.
    - apply agreed_product; [exact N|]. rewrite Forall_forall in *. auto.
    - specialize (IH N). unfold agreed in *. simpl. destruct (mapping b).
      + intros m' M; inversion M; subst; auto.
      + destruct IH as [H|(u & v & U & V & D)]; [left | right; exists u, v; repeat split; auto]; now constructor.
    - assert (A : Forall agreed es) by (rewrite Forall_forall in *; auto). clear IH.
      unfold agreed; simpl. destruct (unique_opt ostring_eqb (map mapping es)) as [m|] eqn:U.
      + apply unique_opt_some in U as [_ U]; [|exact ostring_eqb_spec].
        assert (K : forall e, In e es -> mapping e = m) by (rewrite Forall_forall in U; intros e He; symmetry; apply U; now apply in_map).
        destruct m as [m|].
        * intros m' M. inversion M; subst. rewrite Forall_forall in A.
          specialize (A _ H0). unfold agreed in A. rewrite (K _ H0) in A. auto.
        * destruct es as [|x r]; [congruence|]. inversion A as [|? ? Ax _]; subst. unfold agreed in Ax.
          rewrite (K x (or_introl eq_refl)) in Ax. destruct Ax as [H|(u & v & Hu & Hv & D)].
          -- left. apply mb_enriched with x; [now left | exact H].
          -- right. exists u, v. repeat split; auto; apply mb_enriched with x; auto; now left.
      + assert (N' : map mapping es <> []) by (destruct es; [congruence | discriminate]).
        destruct (unique_opt_none _ _ ostring_eqb_spec N' U) as (a & b & Ha & Hb & D).
        apply in_map_iff in Ha as (f & <- & Hf). apply in_map_iff in Hb as (g & <- & Hg).
        rewrite Forall_forall in A, N.
        destruct (agreed_other f (mapping g) (N _ Hf) (A _ Hf) D) as (u & [[U1 U2]|[U1 U2]]).
        * pose proof (A _ Hg) as Ag. unfold agreed in Ag. destruct (mapping g) as [mg|] eqn:Eg.
          -- destruct (mapped_somehow g (N _ Hg)) as (v & V). right. exists u, v.
             repeat split; [now apply mb_enriched with f | now apply mb_enriched with g |]. now rewrite (Ag _ V).
          -- destruct Ag as [H|(v & w & V & W & D')]; [left; now apply mb_enriched with g|].
             right. exists v, w. repeat split; auto; now apply mb_enriched with g.
        * congruence.
    - specialize (IH N). unfold agreed in *. simpl. destruct (mapping e).
      + intros m' M; inversion M; subst; auto.
      + destruct IH as [H|(u & v & U & V & D)]; [left | right; exists u, v; repeat split; auto]; now constructor.
    - specialize (IH N). unfold agreed in *. simpl. destruct (mapping e).
      + intros m' M; inversion M; subst; auto.
      + destruct IH as [H|(u & v & U & V & D)]; [left | right; exists u, v; repeat split; auto]; now constructor.
    - specialize (IH N). unfold agreed in *. simpl. destruct (mapping e).
      + intros m' M; inversion M; subst; auto.
      + destruct IH as [H|(u & v & U & V & D)]; [left | right; exists u, v; repeat split; auto]; now constructor.
    - unfold agreed; simpl. intros m' M; now inversion M.
    - unfold agreed; simpl. intros m' M; now inversion M.
  Qed.

  Lemma mapping_spec (e : elt) m : populated e -> (mapping e = Some m <-> forall m', mapped_by e m' <-> m' = Some m).
  Proof.
    intros P. pose proof (populated_agreed e P) as A. unfold agreed in A. destruct (mapped_somehow e P) as (m0 & M0).
    destruct (mapping e) as [x|].
    - split.
      + intros [= <-] m'. split; [apply A|]. intros ->. now rewrite <- (A _ M0).
      + intros H. rewrite <- (A (Some m)); [reflexivity | now apply H].
    - split; [discriminate|]. intros H. destruct A as [A|(a & b & Ha & Hb & D)].
      + apply H in A. discriminate.
      + apply H in Ha. apply H in Hb. congruence.
  Qed.

  (** ** Form degrees *)

  Lemma sum_some ks s : fold_right (fun k acc => match k, acc with Some a, Some b => Some (a + b) | _, _ => None end) (Some 0) ks = Some s
    <-> exists ns, ks = map Some ns /\ s = fold_right Nat.add 0 ns.
  Proof.
    revert s. induction ks as [|k ks IH]; intros s; simpl.
    - split; [intros [= <-]; now exists [] | intros ([|] & E & ->); [reflexivity | discriminate]].
    - destruct k as [k|].
      + destruct (fold_right _ (Some 0) ks) as [t|] eqn:E.
        * split.
          -- intros [= <-]. destruct (proj1 (IH t) eq_refl) as (ns & -> & ->). now exists (k :: ns).
          -- intros ([|n ns] & E' & ->); [discriminate|]. simpl in E'. injection E' as <- ->. simpl.
             f_equal. f_equal. assert (X : Some t = Some (fold_right Nat.add 0 ns)) by (apply IH; now exists ns). now injection X.
        * split; [discriminate|]. intros ([|n ns] & E' & ->); [discriminate|]. simpl in E'. injection E' as <- ->.
          assert (X : None = Some (fold_right Nat.add 0 ns)) by (apply IH; now exists ns). discriminate X.
      + split; [discriminate|]. intros ([|n ns] & E' & ->); discriminate.
  Qed.

  Lemma max_some ks s : ks <> [] -> fold_right (fun k acc => match k, acc with Some a, Some b => Some (Nat.max a b) | _, _ => None end) (Some 0) ks = Some s
    <-> exists ns, ks = map Some ns /\ In s ns /\ Forall (fun i => i <= s) ns.
  Proof.
    intros N.
    assert (K : forall ks s, fold_right (fun k acc => match k, acc with Some a, Some b => Some (Nat.max a b) | _, _ => None end) (Some 0) ks = Some s
      <-> exists ns, ks = map Some ns /\ (In s ns \/ s = 0) /\ Forall (fun i => i <= s) ns).
    { clear. induction ks as [|k ks IH]; intros s; simpl.
      - split; [intros [= <-]; exists []; repeat split; auto | intros ([|x xs] & E & H & _); [destruct H as [[]|H]; now subst | discriminate E]].
      - destruct k as [k|].
        + destruct (fold_right _ (Some 0) ks) as [t|] eqn:E.
          * split.
            -- intros [= <-]. destruct (proj1 (IH t) eq_refl) as (ns & -> & H & B). exists (k :: ns). split; [reflexivity|]. split.
               ++ destruct (Nat.max_spec k t) as [[_ ->]|[_ ->]]; [|left; now left]. destruct H as [H|H]; [left; now right | now right].
               ++ constructor; [lia|]. eapply Forall_impl; [|exact B]. simpl. lia.
            -- intros ([|n ns] & E' & H & B); [discriminate E'|]. simpl in E'. injection E' as <- ->.
               inversion B as [|? ? B1 B2]; subst. f_equal.
               destruct (proj1 (IH t) eq_refl) as (ns' & E' & H' & B'). 
               assert (ns' = ns) as -> by (clear -E'; revert ns' E'; induction ns as [|x ns IH]; intros [|y ns'] E; simpl in E; try discriminate; [reflexivity|]; injection E as <- E; f_equal; auto).
               rewrite Forall_forall in B2, B'. assert (t <= s) by (destruct H' as [H'|H']; [now apply B2 | lia]).
               destruct H as [[Hn|H]|H]; [subst; lia | apply B' in H; lia | subst; lia].
          * split; [discriminate|]. intros ([|n ns] & E' & H & B); [discriminate E'|]. simpl in E'. injection E' as <- ->. exfalso.
            assert (X : exists s : nat, None = Some s).
            { exists (list_max ns). apply IH. exists ns. split; [reflexivity|]. split.
              - clear. induction ns as [|x ns IH]; [now right|]. simpl. destruct (Nat.max_spec x (list_max ns)) as [[_ ->]|[_ ->]]; [|left; now left].
                destruct IH as [IH|IH]; [left; now right | now right].
              - apply list_max_le. lia. }
            destruct X as (? & X); discriminate X.
        + split; [discriminate|]. intros ([|n ns] & E' & _); discriminate E'. }
    rewrite K. split.
    - intros (ns & -> & [H|H] & B); exists ns; repeat split; auto. subst s.
      destruct ns as [|n ns]; [now destruct N|]. inversion B; subst. left. lia.
    - intros (ns & -> & H & B); exists ns; repeat split; auto.
  Qed.

  Lemma Forall2_some (es : list elt) ns : Forall2 (fun x y => formdegree x = Ok y) es (map Some ns) <-> Forall2 (fun x y => formdegree x = Ok (Some y)) es ns.
  Proof.
    split.
    - revert ns. induction es as [|e es IH]; intros [|n ns] H; inversion H; subst; constructor; auto.
    - induction 1; simpl; constructor; auto.
  Qed.

  Lemma Forall2_iff_in {A B} (P Q : A -> B -> Prop) l r : Forall (fun x => forall y, P x y <-> Q x y) l -> Forall2 P l r <-> Forall2 Q l r.
  Proof.
    intros H. revert r. induction H as [|x l Hx _ IH]; intros r; split; intros X; inversion X; subst; constructor; try apply Hx; try apply IH; auto.
  Qed.

  Lemma formdegree_spec (e : elt) k : formdegree e = Ok (Some k) <-> forms e k.
  Proof.
    revert k. induction e as [l|fs IH|b sh t IH|es IH|e sz off IH|e IH|e IH|e IH|e IH] using elt_ind'; intros k.
    - simpl. split; [intros [= H]; now constructor | intros H; inversion H; subst; congruence].
    - cbn [formdegree]. rewrite bind_ok. split.
      + intros (ks & M & [= E]). apply mapM_ok in M. apply sum_some in E as (ns & -> & ->). constructor.
        apply (Forall2_iff_in (fun x y => formdegree x = Ok (Some y))); [exact IH|]. now apply Forall2_some.
      + intros H; inversion H as [|? ns H1| | | | | | |]; subst. exists (map Some ns). split.
        * apply mapM_ok, Forall2_some. now apply (Forall2_iff_in _ forms).
        * f_equal. apply sum_some. now exists ns.
    - simpl. rewrite IH. split; [now constructor | intros H; now inversion H].
    - cbn [formdegree]. rewrite bind_ok. split.
      + intros (ks & M & E). apply mapM_ok in M. destruct ks as [|k0 ks]; [discriminate|]. injection E as E.
        apply (max_some (k0 :: ks)) in E as (ns & E & H & B); [|discriminate]. rewrite E in M. econstructor; [|exact H|exact B].
        apply (Forall2_iff_in (fun x y => formdegree x = Ok (Some y))); [exact IH|]. now apply Forall2_some.
      + intros H; inversion H as [| | |? ns ? H1 H2 H3| | | | |]; subst. exists (map Some ns). split.
        * apply mapM_ok, Forall2_some. now apply (Forall2_iff_in _ forms).
        * destruct ns as [|n ns]; [destruct H2|]. cbn [map]. f_equal.
          change (Some n :: map Some ns) with (map Some (n :: ns)). apply max_some; [discriminate|]. now exists (n :: ns).
    - simpl. rewrite IH. split; [now constructor | intros H; now inversion H].
    - simpl. rewrite IH. split; [now constructor | intros H; now inversion H].
    - cbn [formdegree]. rewrite bind_ok. split.
      + intros (c & C & [= <-]). now constructor.
      + intros H; inversion H; subst. eexists; split; [eassumption | reflexivity].
    - cbn [formdegree]. rewrite bind_ok. split.
      + intros (c & C & [= <-]). now constructor.
      + intros H; inversion H; subst. eexists; split; [eassumption | reflexivity].
    - simpl. split; [intros [= <-]; constructor | intros H; now inversion H].
  Qed.

  Lemma fold_none (g : nat -> nat -> nat) ks : fold_right (fun k acc => match k, acc with Some a, Some b => Some (g a b) | _, _ => None end) (Some 0) ks = None
    <-> In None ks.
  Proof.
    induction ks as [|k ks IH]; simpl; [split; [discriminate | intros []]|]. rewrite <- IH.
    destruct k, (fold_right _ (Some 0) ks); split; intros H; auto; try discriminate; destruct H; congruence.
  Qed.

  Lemma Forall2_pick {A B} (P : A -> B -> Prop) l r y : Forall2 P l r -> In y r -> exists x, In x l /\ P x y.
  Proof. induction 1; intros []; subst; [eexists; split; [now left | assumption]|]. destruct IHForall2 as (z & ? & ?); auto. exists z. split; [now right | assumption]. Qed.
  Lemma Forall2_pick_l {A B} (P : A -> B -> Prop) l r x : Forall2 P l r -> In x l -> exists y, In y r /\ P x y.
  Proof. induction 1; intros []; subst; [eexists; split; [now left | assumption]|]. destruct IHForall2 as (z & ? & ?); auto. exists z. split; [now right | assumption]. Qed.

  Lemma formdegree_none (e : elt) r : formdegree e = Ok r -> (r = None <-> exists l, exposed l e /\ lf_formdegree l = None).
  Proof.
    revert r. induction e as [l|fs IH|b sh t IH|es IH|e sz off IH|e IH|e IH|e IH|e IH] using elt_ind'; intros r.
    - simpl. intros [= <-]. split; [intros E; exists l; split; [constructor | exact E] | intros (l' & X & E); now inversion X; subst].
    - cbn [formdegree]. rewrite bind_ok. intros (ks & M & [= <-]). apply mapM_ok in M. rewrite (fold_none Nat.add). rewrite Forall_forall in IH. split.
      + intros N. destruct (Forall2_pick _ _ _ _ M N) as (f & Hf & E). destruct (proj1 (IH f Hf _ E) eq_refl) as (l & X & L).
        exists l. split; [econstructor; eauto | exact L].
      + intros (l & X & L). inversion X as [|? f ? Hf Xf| | | |]; subst. destruct (Forall2_pick_l _ _ _ _ M Hf) as (k & Hk & E).
        rewrite (proj2 (IH f Hf k E)) in Hk; [exact Hk|]. now exists l.
    - simpl. intros E. rewrite (IH _ E). split; intros (l & X & L); exists l; (split; [|exact L]); [now constructor | now inversion X].
    - cbn [formdegree]. rewrite bind_ok. intros (ks & M & E). apply mapM_ok in M. rewrite Forall_forall in IH.
      destruct ks as [|k0 ks]; [discriminate|]. injection E as <-. pose proof (fold_none Nat.max (k0 :: ks)) as Q. cbn [fold_right] in Q. rewrite Q. clear Q. split.
      + intros N. destruct (Forall2_pick _ _ _ _ M N) as (f & Hf & E). destruct (proj1 (IH f Hf _ E) eq_refl) as (l & X & L).
        exists l. split; [econstructor; eauto | exact L].
      + intros (l & X & L). inversion X as [| | |? f ? Hf Xf| |]; subst. destruct (Forall2_pick_l _ _ _ _ M Hf) as (k & Hk & E).
        rewrite (proj2 (IH f Hf k E)) in Hk; [exact Hk|]. now exists l.
    - simpl. intros E. rewrite (IH _ E). split; intros (l & X & L); exists l; (split; [|exact L]); [now constructor | now inversion X].
    - simpl. intros E. rewrite (IH _ E). split; intros (l & X & L); exists l; (split; [|exact L]); [now constructor | now inversion X].
    - cbn [formdegree]. rewrite bind_ok. intros (c & C & [= <-]). split; [discriminate | intros (l & X & _); inversion X].
    - cbn [formdegree]. rewrite bind_ok. intros (c & C & [= <-]). split; [discriminate | intros (l & X & _); inversion X].
    - simpl. intros [= <-]. split; [discriminate | intros (l & X & _); inversion X].
  Qed.

  Lemma formdegree_defined (e : elt) c : cell_of e = Ok c -> exists r, formdegree e = Ok r.
  Proof.
    revert c. induction e as [l|fs IH|b sh t IH|es IH|e sz off IH|e IH|e IH|e IH|e IH] using elt_ind'; intros c.
    - simpl. eauto.
    - cbn [formdegree cell_of]. rewrite bind_ok. intros (cs & M & _). apply mapM_ok in M.
      assert (X : exists ks, mapM formdegree fs = Ok ks).
      { clear c. induction M as [|f c fs cs C _ IHs]; [now exists []|]. inversion IH as [|? ? Hf Hs]; subst.
        destruct (Hf _ C) as (k & K), (IHs Hs) as (ks & Ks). exists (k :: ks). simpl. rewrite K. simpl. now rewrite Ks. }
      destruct X as (ks & ->). simpl. eauto.
    - simpl. apply IH.
    - cbn [formdegree cell_of]. rewrite bind_ok. intros (cs & M & U). apply mapM_ok in M.
      assert (N : es <> []) by (intros ->; inversion M; subst; discriminate U). clear U.
      assert (X : exists ks, mapM formdegree es = Ok ks).
      { clear c N. induction M as [|f c fs cs C _ IHs]; [now exists []|]. inversion IH as [|? ? Hf Hs]; subst.
        destruct (Hf _ C) as (k & K), (IHs Hs) as (ks & Ks). exists (k :: ks). simpl. rewrite K. simpl. now rewrite Ks. }
      destruct X as (ks & E). rewrite E. apply mapM_length in E. destruct ks as [|k ks]; [destruct es; [congruence | discriminate]|]. simpl. eauto.
    - simpl. apply IH.
    - cbn [formdegree cell_of]. rewrite bind_ok. intros (c' & C & _). eauto.
    - cbn [formdegree cell_of]. intros ->. simpl. eauto.
    - cbn [formdegree cell_of]. intros ->. simpl. eauto.
    - simpl. eauto.
  Qed.

  (** Built elements have form degrees between 0 and the dimension of their cell. *)
  Lemma forms_bound (e : elt) : all_checked e -> forall c k, cell_of e = Ok c ->
    (forall l i, exposed l e -> lf_formdegree l = Some i -> i <= spatial_dimension (lf_cell l)) ->
    forms e k -> k <= spatial_dimension c.
  Proof.
    induction e as [l|fs IH|b sh t IH|es IH|e sz off IH|e IH|e IH|e IH|e IH] using elt_ind'; intros Ck c k C B H.
    - simpl in C. injection C as <-. inversion H; subst. apply B; [constructor | assumption].
    - cbn [cell_of] in C. apply bind_ok in C as (cs & M & [= <-]). apply mapM_ok in M. inversion H as [|? ks Hs| | | | | | |]; subst. simpl.
      assert (Q : Forall (fun f => forall c k, cell_of f = Ok c -> forms f k -> k <= spatial_dimension c) fs).
      { rewrite Forall_forall in *. intros f Hf c k Cf Ff. apply (IH f Hf); auto.
        - intros s S. apply Ck. econstructor; eauto.
        - intros l i X. apply B. econstructor; eauto. }
      clear -Q M Hs. revert ks Hs. induction M as [|f c fs cs C _ IHs]; intros ks Hs; inversion Hs; subst; simpl; [lia|].
      inversion Q; subst. specialize (IHs H4 _ H3). specialize (H2 _ _ C H1). unfold sum in *. lia.
    - simpl in C. inversion H; subst. apply (IH); auto; [intros s S; apply Ck; now constructor | intros l i X; apply B; now constructor].
    - cbn [cell_of] in C. apply bind_ok in C as (cs & M & U). apply mapM_ok in M. apply unique_ok in U as [_ U]; [|exact cell_eqb_spec].
      inversion H as [| | |? ks ? Hs Hk _| | | | |]; subst. destruct (Forall2_pick _ _ _ _ Hs Hk) as (f & Hf & Ff).
      destruct (Forall2_pick_l _ _ _ _ M Hf) as (c' & Hc & Cf). rewrite Forall_forall in U. rewrite <- (U _ Hc) in Cf.
      rewrite Forall_forall in IH. apply (IH f Hf); auto.
      + intros s S. apply Ck. econstructor; eauto.
      + intros l i X. apply B. econstructor; eauto.
    - simpl in C. inversion H; subst. apply (IH); auto; [intros s S; apply Ck; now constructor | intros l i X; apply B; now constructor].
    - cbn [cell_of] in C. apply bind_ok in C as (c' & C & E). inversion H; subst.
      assert (X : k <= spatial_dimension c') by (apply IH; auto; [intros s S; apply Ck; now constructor | intros l i X; apply B; now constructor]).
      destruct (spatial_dimension c') as [|[|[|[|?]]]]; try discriminate; injection E as <-; exact X.
    - simpl in C. inversion H; subst. rewrite C in *. injection H1 as <-. lia.
    - simpl in C. inversion H; subst. rewrite C in *. injection H1 as <-. lia.
    - simpl in C. inversion H; subst. specialize (Ck (EHCurl e) (se_refl _)). simpl in Ck.
      destruct Ck as (tr & T). unfold select_hcurl_transformer in T. apply bind_ok in T as (fs & W & T).
      destruct e as [|fs'| | | | | | |]; try discriminate W. injection W as ->. destruct fs as [|f [|g [|]]]; try discriminate T.
      apply bind_ok in T as (c1 & C1 & T). apply bind_ok in T as (u & L & _). destruct u. apply guard_ok in L.
      cbn [cell_of] in C. apply bind_ok in C as (cs & M & [= <-]). apply mapM_ok in M.
      inversion M as [|? x ? y _ M']; subst. inversion M' as [|? z ? y' Z M'']; subst. inversion M''; subst.
      rewrite C1 in Z. injection Z as <-. destruct c1 as [[|[|?]]| |]; try discriminate L. cbn [map spatial_dimension]. unfold sum. simpl. lia.
  Qed.

  Lemma built_bound (e : elt) c k : built e -> cell_of e = Ok c ->
    (forall l i, exposed l e -> lf_formdegree l = Some i -> i <= spatial_dimension (lf_cell l)) ->
    formdegree e = Ok (Some k) -> k <= spatial_dimension c.
  Proof. intros B C X H. apply formdegree_spec in H. eapply forms_bound; eauto. now apply built_checked. Qed.

  (** The wrappers keep the form degree of the product. *)
  Lemma hdiv_degree (w e : elt) : mk_hdiv w = Ok e -> formdegree e = formdegree w.
  Proof.
    intros H. apply hdiv_accepts in H as (-> & a & b & k0 & k1 & c & cb & -> & K0 & K1 & C & D & _).
    cbn [formdegree]. rewrite C. cbn [mapM bind]. rewrite K0, K1. cbn [bind fold_right]. replace (spatial_dimension c - 1) with (k0 + (k1 + 0)) by lia. reflexivity.
  Qed.
  Lemma hcurl_degree (w e : elt) : mk_hcurl w = Ok e -> formdegree e = formdegree w.
  Proof.
    intros H. apply hcurl_accepts in H as (-> & a & b & k0 & k1 & c & cb & -> & K0 & K1 & C & D & _).
    cbn [formdegree mapM bind]. rewrite K0, K1. cbn [bind fold_right]. replace (k0 + (k1 + 0)) with 1 by lia. reflexivity.
  Qed.

  Lemma mapping_none (e : elt) : populated e -> mapping e = None ->
    mapped_by e None \/ exists a b, mapped_by e a /\ mapped_by e b /\ a <> b.
  Proof. intros P E. pose proof (populated_agreed e P) as A. unfold agreed in A. now rewrite E in A. Qed.

  Lemma formdegree_missing (e : elt) c : cell_of e = Ok c ->
    exists r, formdegree e = Ok r /\ (r = None <-> exists l, exposed l e /\ lf_formdegree l = None).
  Proof. intros C. destruct (formdegree_defined e c C) as (r & R). exists r. split; [exact R | now apply formdegree_none]. Qed.

  Lemma wrapper_degree (w e : elt) : mk_hdiv w = Ok e \/ mk_hcurl w = Ok e ->
    formdegree e = formdegree w /\ exists k, forms w k /\ forms e k.
  Proof.
    intros H. assert (E : formdegree e = formdegree w) by (destruct H; [now apply hdiv_degree | now apply hcurl_degree]).
    split; [exact E|].
    assert (X : exists k, formdegree w = Ok (Some k)).
    { destruct H as [H|H].
      - apply hdiv_accepts in H as (_ & a & b & k0 & k1 & c & cb & -> & K0 & K1 & _).
        exists (k0 + (k1 + 0)). cbn [formdegree mapM bind]. now rewrite K0, K1.
      - apply hcurl_accepts in H as (_ & a & b & k0 & k1 & c & cb & -> & K0 & K1 & _).
        exists (k0 + (k1 + 0)). cbn [formdegree mapM bind]. now rewrite K0, K1. }
    destruct X as (k & X). exists k. split; apply formdegree_spec; congruence.
  Qed.
End Trees.
