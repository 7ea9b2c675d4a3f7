(** The values of basis functions in the specification are unique. *)
From Coq Require Import String List Arith Lia Bool.
From Verif Require Import Model.Prelude Model.Cell Model.Element Model.EntityMaps Model.Gem Model.PointSet.
From Verif Require Import Spec.Rowmajor Spec.EntityDofs Spec.Layout Spec.Tabulation.
From Verif Require Import Proofs.Lists Proofs.Cells Proofs.EntityDofs Proofs.Tables Proofs.Factor.
Import ListNotations.

Section Single.
  Context {F : Type} (o : ops F).
  Local Notation elt := (elt F).

  Lemma hdiv_case_fun : forall k0 k1 m vs d s s', hdiv_case k0 k1 m vs d s -> hdiv_case k0 k1 m vs d s' -> s = s'.
  Proof. intros k0 k1 m vs d s s' H H'. inversion H; subst; inversion H'; subst; reflexivity. Qed.
  Lemma hcurl_case_fun : forall k0 k1 m vs d s s', hcurl_case k0 k1 m vs d s -> hcurl_case k0 k1 m vs d s' -> s = s'.
  Proof. intros k0 k1 m vs d s s' H H'. inversion H; subst; inversion H'; subst; reflexivity. Qed.
  Lemma embeds_fun : forall (case : nat -> nat -> option string -> list nat -> nat -> list slot -> Prop) (w : elt) s s',
    (forall k0 k1 m vs d s s', case k0 k1 m vs d s -> case k0 k1 m vs d s' -> s = s') ->
    embeds case w s -> embeds case w s' -> s = s'.
  Proof.
    intros case w s s' Hf (a & b & k0 & k1 & vs & c & -> & Ha & Hb & Hv & Hc & H) (a' & b' & k0' & k1' & vs' & c' & E & Ha' & Hb' & Hv' & Hc' & H').
    injection E as <- <-. eapply Hf; [exact H|].
    replace k0 with k0' by congruence. replace k1 with k1' by congruence. replace vs with vs' by congruence.
    replace c with c' by congruence. exact H'.
  Qed.

  Lemma block_unique : forall A (f : A -> nat) pre x post pre' x' post' j j',
    pre ++ x :: post = pre' ++ x' :: post' -> fold_right Nat.add 0 (map f pre) + j = fold_right Nat.add 0 (map f pre') + j' ->
    j < f x -> j' < f x' -> pre = pre' /\ x = x' /\ j = j'.
  Proof.
    induction pre as [|y pre IH]; intros x post [|y' pre'] x' post' j j' E S Hj Hj'; cbn [app map fold_right] in *.
    - injection E as -> _. auto.
    - injection E as -> _. lia.
    - injection E as -> _. lia.
    - injection E as -> E. destruct (IH x post pre' x' post' j j' E) as (-> & -> & ->); auto. lia.
  Qed.

  Lemma rowmajor_inj : forall s i j, in_shape s i -> in_shape s j -> rowmajor s i = rowmajor s j -> i = j.
  Proof. intros s i j Hi Hj E. rewrite !rowmajor_ravel in E by (apply in_shape_length; assumption). eapply ravel_inj; eassumption. Qed.

  Lemma values_parts : forall fs alphas ents pts is vs xs, values_of o fs alphas ents pts is vs xs ->
    Forall2 (fun f a => exists c, cell_of f = Ok c /\ length a = spatial_dimension c) fs alphas /\
    Forall2 (fun ent p => length p = dk_total (fst ent)) ents pts /\
    in_shape (map space_dimension fs) is /\
    Forall2 (fun f v => exists s, value_shape f = Ok s /\ in_shape s v) fs vs.
  Proof.
    induction 1 as [|f fs c s a alphas ent ents pt pts i is v vs x xs Hc Ha Hp Hi Hs Hv _ _ (A & B & C & D)].
    - repeat split; constructor.
    - repeat split; constructor; eauto.
  Qed.

  Lemma concat_fun : forall A B (Q : B -> list A -> nat -> Prop) bs xs ys,
    (forall b x n, Q b x n -> length x = n) -> (forall b x y n m, Q b x n -> Q b y m -> n = m) ->
    Forall2 (fun b x => exists n, Q b x n) bs xs -> Forall2 (fun b x => exists n, Q b x n) bs ys ->
    concat xs = concat ys -> xs = ys.
  Proof.
    intros A B Q bs xs ys Hl Hf Hx. revert ys. induction Hx as [|b x bs xs (n & Hb) Hx IH]; intros ys Hy E; inversion Hy as [|? y ? ys' (m & Hb') Hy']; subst; [reflexivity|].
    cbn [concat] in E. apply app_inj_len in E as [-> E]; [|rewrite (Hl _ _ _ Hb), (Hl _ _ _ Hb'); eapply Hf; eassumption].
    f_equal. apply IH; assumption.
  Qed.

  Definition unique_at (e : elt) : Prop := forall alpha ent pt i v x y,
    value_of o e alpha ent pt i v x -> value_of o e alpha ent pt i v y -> x = y.

  Lemma values_unique : forall fs, Forall unique_at fs -> forall alphas ents pts is vs xs ys,
    values_of o fs alphas ents pts is vs xs -> values_of o fs alphas ents pts is vs ys -> xs = ys.
  Proof.
    induction 1 as [|f fs Hf H IH]; intros alphas ents pts is vs xs ys Hx Hy; inversion Hx; subst; inversion Hy; subst; [reflexivity|].
    f_equal; [eapply Hf; eassumption | eapply IH; eassumption].
  Qed.

  Theorem value_unique : forall e, unique_at e.
  Proof.
    induction e as [l|fs IH|b sh t IH|es IH|e sz off IH|e IH|e IH|e IH|e IH] using elt_ind'; intros alpha ent pt i v x y Hx Hy.
    - inversion Hx; subst. inversion Hy; subst. reflexivity.
    - inversion Hx as [|? alphas ks es ns pts is vs xs HV HF HL HI | | | | | | | | | | ]; subst. clear Hx.
      remember (concat alphas) as A eqn:EA. remember (concat pts) as P eqn:EP. remember (concat vs) as V eqn:EV.
      remember (rowmajor (map space_dimension fs) is) as N eqn:EN. remember (DT ks, rowmajor ns es) as T eqn:ET.
      inversion Hy as [|? alphas' ks' es' ns' pts' is' vs' ys HV' HF' HL' HI' E1 E2 E3 E4 E5 E6 | | | | | | | | | | ]; subst. clear Hy.
      match goal with H : (DT ks', _) = (DT ks, _) |- _ => injection H as -> Ee end.
      destruct (values_parts _ _ _ _ _ _ _ HV) as (A1 & A2 & A3 & A4).
      destruct (values_parts _ _ _ _ _ _ _ HV') as (B1 & B2 & B3 & B4).
      assert (ns' = ns) as ->.
      { clear -HF HF' HL HL'. revert ks ns ns' HF HF' HL HL'. induction fs as [|f fs IHf]; intros [|k ks] [|n ns] [|n' ns'] H1 H2 L1 L2; try discriminate; try reflexivity; simpl in H1; inversion H1 as [|? ? ? ? (c & Hc & Hin) Hr]; inversion H2 as [|? ? ? ? (c' & Hc' & Hin') Hr']; subst.
        f_equal; [|simpl in *; eapply IHf with (ks := ks); eauto].
        replace c' with c in Hin' by congruence. eapply topology_unique; eassumption. }
      assert (es' = es) as -> by (eapply rowmajor_inj; [exact HI' | exact HI | exact Ee]).
      assert (is' = is) as -> by (eapply rowmajor_inj; [exact B3 | exact A3 | congruence]).
      assert (alphas' = alphas) as ->.
      { eapply (concat_fun nat elt (fun f a n => exists c, cell_of f = Ok c /\ n = spatial_dimension c /\ length a = n)) with (bs := fs); [| | | |congruence].
        - intros b0 x0 n (c & _ & _ & Hn). exact Hn.
        - intros b0 x0 y0 n m (c & Hc & -> & _) (c' & Hc' & -> & _). congruence.
        - clear -B1. induction B1 as [|f a fs l (c & Hc & Hl) B1 IHB]; constructor; [exists (spatial_dimension c), c; auto | exact IHB].
        - clear -A1. induction A1 as [|f a fs l (c & Hc & Hl) B1 IHB]; constructor; [exists (spatial_dimension c), c; auto | exact IHB]. }
      assert (vs' = vs) as ->.
      { eapply (concat_fun nat elt (fun f v n => exists s, value_shape f = Ok s /\ n = length s /\ length v = n)) with (bs := fs); [| | | |congruence].
        - intros b0 x0 n (c & _ & _ & Hn). exact Hn.
        - intros b0 x0 y0 n m (c & Hc & -> & _) (c' & Hc' & -> & _). congruence.
        - clear -B4. induction B4 as [|f a fs l (s & Hs & Hl) B4 IHB]; constructor; [exists (length s), s; repeat split; [exact Hs | symmetry; apply in_shape_length; exact Hl] | exact IHB].
        - clear -A4. induction A4 as [|f a fs l (s & Hs & Hl) B4 IHB]; constructor; [exists (length s), s; repeat split; [exact Hs | symmetry; apply in_shape_length; exact Hl] | exact IHB]. }
      assert (pts' = pts) as ->.
      { eapply (concat_fun F (dimkey * nat) (fun ent p n => n = dk_total (fst ent) /\ length p = n)) with (bs := combine ks es); [| | | |congruence].
        - intros b0 x0 n (_ & Hn). exact Hn.
        - intros b0 x0 y0 n m (-> & _) (-> & _). reflexivity.
        - clear -B2. induction B2; constructor; eauto.
        - clear -A2. induction A2; constructor; eauto. }
      f_equal. eapply values_unique; eassumption.
    - inversion Hx as [| |? ? ? ? ? ? i1 s1 t1 v1 x1 H1 L1 S1 T1| | | | | | | | | ]; subst. clear Hx.
      remember (t1 ++ v1) as V eqn:EV.
      set (N := (if t then rowmajor sh s1 * space_dimension b + i1 else i1 * fold_right Nat.mul 1 sh + rowmajor sh s1)) in Hy.
      remember N as N' eqn:EN.
      inversion Hy as [| |? ? ? ? ? ? i2 s2 t2 v2 x2 H2 L2 S2 T2 E1 E2 E3 E4 E5 E6| | | | | | | | | ]; subst. clear Hy. unfold N in *; clear N.
      match goal with H : t2 ++ v2 = t1 ++ v1 |- _ => rename H into EV end.
      assert (Lt : length t2 = length t1) by (rewrite <- (in_shape_length _ _ T1), <- (in_shape_length _ _ T2); reflexivity).
      apply app_inj_len in EV as [-> ->]; [|exact Lt].
      assert (R1 : rowmajor sh s1 < fold_right Nat.mul 1 sh).
      { rewrite rowmajor_ravel by (apply in_shape_length; exact S1). apply ravel_lt. exact S1. }
      assert (R2 : rowmajor sh s2 < fold_right Nat.mul 1 sh).
      { rewrite rowmajor_ravel by (apply in_shape_length; exact S2). apply ravel_lt. exact S2. }
      assert (Hi : i2 = i1 /\ rowmajor sh s2 = rowmajor sh s1).
      { match goal with H : (if t then _ else _) = (if t then _ else _) |- _ => rename H into EN end.
        destruct t; [rewrite !(Nat.mul_comm _ (space_dimension b)) in EN | rewrite !(Nat.mul_comm _ (fold_right Nat.mul 1 sh)) in EN];
          apply Nat.div_mod_unique in EN; try assumption; destruct EN as [E1 E2]; split; assumption. }
      destruct Hi as [-> Es]. apply rowmajor_inj in Es as ->; [|assumption|assumption].
      rewrite (IH _ _ _ _ _ _ _ H1 H2). reflexivity.
    - inversion Hx as [| | |bef e1 aft ? ? ? i1 ? ? H1 L1| | | | | | | | ]; subst. clear Hx.
      remember (fold_right Nat.add 0 (map space_dimension bef) + i1) as N eqn:EN.
      remember (bef ++ e1 :: aft) as L eqn:EL.
      inversion Hy as [| | |bef' e2 aft' ? ? ? i2 ? ? H2 L2| | | | | | | | ]; subst. clear Hy.
      match goal with H : bef' ++ _ = bef ++ _ |- _ => rename H into EL end.
      match goal with H : _ + i2 = _ + i1 |- _ => rename H into EN end.
      destruct (block_unique _ space_dimension _ _ _ _ _ _ _ _ EL EN L2 L1) as (-> & -> & ->).
      rewrite Forall_forall in IH. eapply IH; [|exact H1 | exact H2]. apply in_or_app. right. left. reflexivity.
    - inversion Hx as [| | | |? ? ? ? ? ? ? s1 v1 ? H1 S1 V1|? ? ? ? ? ? ? s1 c1 S1 C1 | | | | | | ]; subst; clear Hx.
      + remember [off + rowmajor s1 v1] as V eqn:EV.
        assert (Lt : rowmajor s1 v1 < fold_right Nat.mul 1 s1).
        { rewrite rowmajor_ravel by (apply in_shape_length; exact V1). apply ravel_lt. exact V1. }
        inversion Hy as [| | | |? ? ? ? ? ? ? s2 v2 ? H2 S2 V2|? ? ? ? ? ? ? s2 c2 S2 C2 | | | | | | ]; subst; clear Hy;
          rewrite S1 in S2; injection S2 as <-.
        * match goal with H : [_] = [_] |- _ => injection H as H end.
          assert (v2 = v1) as -> by (eapply rowmajor_inj; [exact V2 | exact V1 | lia]). eapply IH; eassumption.
        * match goal with H : [_] = [_] |- _ => injection H as H end. lia.
      + inversion Hy as [| | | |? ? ? ? ? ? ? s2 v2 ? H2 S2 V2|? ? ? ? ? ? ? s2 c2 S2 C2 | | | | | | ]; subst; clear Hy;
          rewrite S1 in S2; injection S2 as <-; [|reflexivity].
        assert (Lt : rowmajor s1 v2 < fold_right Nat.mul 1 s1).
        { rewrite rowmajor_ravel by (apply in_shape_length; exact V2). apply ravel_lt. exact V2. }
        lia.
    - inversion Hx as [| | | | | |? c ? k j en ? ? ? ? Hc Hu H1| | | | | ]; subst. clear Hx.
      inversion Hy as [| | | | | |? c' ? k' j' en' ? ? ? ? Hc' Hu' H2| | | | | ]; subst. clear Hy.
      rewrite Hc in Hc'. injection Hc' as <-. rewrite Hu in Hu'. injection Hu' as <-. eapply IH; eassumption.
    - inversion Hx; subst. inversion Hy; subst. eapply IH; eassumption.
    - inversion Hx as [| | | | | | | |? s1 ? ? ? ? k1 Em1 N1|? s1 ? ? ? ? k1 ng1 v1 x1 Em1 N1 H1| | ]; subst; clear Hx;
      inversion Hy as [| | | | | | | |? s2 ? ? ? ? k2 Em2 N2|? s2 ? ? ? ? k2 ng2 v2 x2 Em2 N2 H2| | ]; subst; clear Hy;
      pose proof (embeds_fun _ _ _ _ hdiv_case_fun Em1 Em2) as <-; rewrite N1 in N2; try discriminate N2; try reflexivity.
      injection N2 as <- <-. rewrite (IH _ _ _ _ _ _ _ H1 H2). reflexivity.
    - inversion Hx as [| | | | | | | | | |? s1 ? ? ? ? k1 Em1 N1|? s1 ? ? ? ? k1 ng1 v1 x1 Em1 N1 H1]; subst; clear Hx;
      inversion Hy as [| | | | | | | | | |? s2 ? ? ? ? k2 Em2 N2|? s2 ? ? ? ? k2 ng2 v2 x2 Em2 N2 H2]; subst; clear Hy;
      pose proof (embeds_fun _ _ _ _ hcurl_case_fun Em1 Em2) as <-; rewrite N1 in N2; try discriminate N2; try reflexivity.
      injection N2 as <- <-. rewrite (IH _ _ _ _ _ _ _ H1 H2). reflexivity.
  Qed.
End Single.
