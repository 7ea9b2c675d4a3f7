(** Consequences of the tabulation theorem, blocks of mixed elements,
    embeddings, and expressions of points. *)
From Coq Require Import String List Arith Lia Bool Permutation Ring.
From Verif Require Import Model.Prelude Model.Cell Model.Element Model.EntityMaps Model.Gem Model.PointSet Model.Evaluation.
From Verif Require Import Spec.Rowmajor Spec.EntityDofs Spec.Layout Spec.Tabulation.
From Verif Require Import Proofs.Lists Proofs.Cells Proofs.EntityDofs Proofs.EntityDofs2
  Proofs.GemEval Proofs.Tables Proofs.Tables2 Proofs.Tables3 Proofs.Leaf Proofs.Factor Proofs.Tree Proofs.Single.
Import ListNotations.
Open Scope fresh_scope.

(* ------------------------------------------------------------------ *)
(** ** Mixed elements *)

Lemma cumsum_from_last : forall l a, last (cumsum_from a l) 0 = a + sum l /\ cumsum_from a l <> [].
Proof.
  induction l as [|x l IH]; intros a; cbn [cumsum_from]; [simpl; split; [lia | discriminate]|].
  destruct (IH (a + x)) as [E N]. split; [|discriminate].
  change (sum (x :: l)) with (x + sum l).
  destruct (cumsum_from (a + x) l) as [|y r] eqn:Ec; [congruence|]. change (last (a :: y :: r) 0) with (last (y :: r) 0). rewrite E. lia.
Qed.

Lemma removelast_cumsum : forall l a k, k < length l ->
  nth_error (removelast (cumsum_from a l)) k = Some (a + sum (firstn k l)).
Proof.
  induction l as [|x l IH]; intros a k Hk; [simpl in Hk; lia|]. cbn [cumsum_from].
  destruct (cumsum_from_last l (a + x)) as [_ N]. destruct (cumsum_from (a + x) l) as [|y r] eqn:Ec; [congruence|].
  change (removelast (a :: y :: r)) with (a :: removelast (y :: r)).
  destruct k as [|k]; cbn [nth_error firstn]; [rewrite Nat.add_0_r; reflexivity|].
  rewrite <- Ec, IH by (simpl in Hk; lia). f_equal. change (sum (x :: firstn k l)) with (x + sum (firstn k l)). lia.
Qed.

Lemma removelast_cumsum_length : forall l a, length (removelast (cumsum_from a l)) = length l.
Proof.
  induction l as [|x l IH]; intros a; [reflexivity|]. cbn [cumsum_from].
  destruct (cumsum_from_last l (a + x)) as [_ N]. destruct (cumsum_from (a + x) l) as [|y r] eqn:Ec; [congruence|].
  change (removelast (a :: y :: r)) with (a :: removelast (y :: r)). cbn [length]. rewrite <- Ec, IH. reflexivity.
Qed.

Lemma Forall2_nth : forall A B (P : A -> B -> Prop) l r, Forall2 P l r ->
  forall k x, nth_error l k = Some x -> exists y, nth_error r k = Some y /\ P x y.
Proof.
  intros A B P l r H. induction H as [|a b l r Hab H IH]; intros [|k] x Hx; try discriminate; cbn [nth_error] in *.
  - injection Hx as <-. exists b. auto.
  - apply IH. exact Hx.
Qed.

Lemma nth_error_same : forall A (l r : list A), (forall k, nth_error l k = nth_error r k) -> l = r.
Proof.
  induction l as [|x l IH]; intros [|y r] H; [reflexivity | specialize (H 0); discriminate | specialize (H 0); discriminate|].
  f_equal; [specialize (H 0); cbn in H; congruence | apply IH; intros k; exact (H (S k))].
Qed.

Lemma ostring_eqb_eq : forall a b, ostring_eqb a b = true -> a = b.
Proof. intros [a|] [b|] H; try discriminate; [|reflexivity]. f_equal. apply String.eqb_eq. exact H. Qed.

Section Mixed.
  Context {F : Type}.
  Local Notation elt := (elt F).

  (** The parts of a mixed element. *)
  Lemma mixed_parts : forall (es : list elt) e, mk_mixed es = Ok e ->
    exists ss subs, mapM value_shape es = Ok ss /\ (e = EEnriched subs \/ subs = [e]) /\ length subs = length es /\
      forall k x, nth_error es k = Some x ->
        nth_error subs k = Some (EMixedSub x (sum (map prod ss)) (sum (firstn k (map prod ss)))).
  Proof.
    intros es e H. unfold mk_mixed in H. apply bind_ok in H as (ss & Hss & H). apply bind_ok in H as (subs & Hs & H).
    injection H as <-. exists ss, subs. split; [exact Hss|].
    set (T := last (cumsum0 (map prod ss)) 0) in *.
    assert (HT : T = sum (map prod ss)) by (apply (cumsum_from_last (map prod ss) 0)).
    set (offs := removelast (cumsum0 (map prod ss))) in *.
    assert (Ll : length offs = length es).
    { unfold offs, cumsum0. rewrite removelast_cumsum_length, map_length. symmetry. symmetry. apply (mapM_length _ _ _ _ _ Hss). }
    pose proof (mapM_length _ _ _ _ _ Hs) as Ls. rewrite zip_combine, combine_length, Ll, Nat.min_id in Ls.
    apply mapM_ok in Hs. rewrite zip_combine in Hs.
    assert (Hform : Forall2 (fun oe s => s = EMixedSub (snd oe) T (fst oe)) (combine offs es) subs).
    { revert Hs. apply Forall2_impl_in. intros [o x] s _ _ Hx. cbn [fst snd] in *. unfold mk_mixed_sub in Hx.
      apply bind_ok in Hx as (? & _ & Hx). apply bind_ok in Hx as (sh & _ & Hx). apply bind_ok in Hx as (? & _ & Hx).
      injection Hx as <-. reflexivity. }
    split; [|split; [congruence|]].
    - unfold mk_enriched.
      assert (Efm : flat_map (fun e => match e with EEnriched es' => es' | _ => [e] end) subs = subs).
      { clear - Hform. induction Hform as [|oe s l subs -> Hf IH]; [reflexivity|]. cbn [flat_map app]. rewrite IH. reflexivity. }
      rewrite Efm. destruct subs as [|s [|s' subs]]; auto.
    - intros k x Hx. assert (Hk : k < length es) by (apply nth_error_Some; congruence).
      assert (Ho : nth_error offs k = Some (sum (firstn k (map prod ss)))).
      { unfold offs, cumsum0. rewrite removelast_cumsum; [reflexivity|]. rewrite map_length, (mapM_length _ _ _ _ _ Hss). exact Hk. }
      clear - Hform Hx Ho Ll HT. remember (sum (firstn k (map prod ss))) as O eqn:EO. clear EO. revert es Ll subs Hform k Hx Ho.
      generalize offs. clear offs. induction offs as [|o offs IH]; intros [|y es] Ll subs Hform k Hx Ho;
        try discriminate; [destruct k; discriminate|].
      cbn [combine] in Hform. inversion Hform as [|? s ? subs' Es Hf]; subst s; subst subs.
      destruct k as [|k]; cbn [nth_error] in *.
      + injection Hx as ->. injection Ho as ->. cbn [fst snd]. rewrite HT. reflexivity.
      + eapply IH; [| exact Hf | exact Hx | exact Ho]. simpl in Ll; lia.
  Qed.

  Lemma firstn_sum_app : forall A (f : A -> nat) pre x post,
    sum (firstn (length pre) (map f (pre ++ x :: post))) = sum (map f pre).
  Proof. intros. rewrite map_app, firstn_app, map_length, Nat.sub_diag. rewrite firstn_all2 by (rewrite map_length; lia). cbn [firstn]. rewrite app_nil_r. reflexivity. Qed.

  (** Every component of the mixed element lies in exactly one block. *)
  Lemma blocks_cover : forall (ss : list (list nat)) c, c < sum (map prod ss) ->
    exists k s v, nth_error ss k = Some s /\ in_shape s v /\ c = sum (firstn k (map prod ss)) + rowmajor s v /\
      forall k' s' v', nth_error ss k' = Some s' -> in_shape s' v' -> c = sum (firstn k' (map prod ss)) + rowmajor s' v' ->
        k' = k /\ v' = v.
  Proof.
    intros ss c H. destruct (find_block _ prod ss c H) as (pre & s & post & j & E & -> & Hj).
    destruct (ravel_onto s j Hj) as (v & Hv & <-). exists (length pre), s, v.
    assert (Ev : rowmajor s v = ravel s v) by (apply rowmajor_ravel, in_shape_length; exact Hv).
    split; [rewrite E, nth_error_app2, Nat.sub_diag by lia; reflexivity|]. split; [exact Hv|].
    split; [rewrite E, firstn_sum_app, Ev; reflexivity|].
    intros k' s' v' H1 H2 E'. apply nth_error_split in H1 as (pre' & post' & E1 & <-).
    rewrite E1 in E at 1. rewrite E1, firstn_sum_app in E'.
    assert (Ev' : rowmajor s' v' = ravel s' v') by (apply rowmajor_ravel, in_shape_length; exact H2). rewrite Ev' in E'.
    destruct (block_unique _ prod pre s post pre' s' post' (ravel s v) (ravel s' v')) as (-> & -> & Er).
    { symmetry; exact E. } { exact E'. } { exact Hj. } { apply ravel_lt; exact H2. }
    split; [reflexivity|]. eapply ravel_inj; [exact H2 | exact Hv | congruence].
  Qed.
End Mixed.

Section MixedValues.
  Context {F : Type} (o : ops F).

  Lemma mixed_values : forall (es : list (elt F)) e k x s, mk_mixed es = Ok e ->
    nth_error es k = Some x -> value_shape x = Ok s ->
    forall ss, mapM value_shape es = Ok ss ->
    forall alpha ent pt i, i < space_dimension x ->
    (forall v y, in_shape s v -> value_of o x alpha ent pt i v y ->
       value_of o e alpha ent pt (sum (firstn k (map space_dimension es)) + i) [sum (firstn k (map prod ss)) + rowmajor s v] y) /\
    (forall c, c < sum (firstn k (map prod ss)) \/ sum (firstn (S k) (map prod ss)) <= c ->
       value_of o e alpha ent pt (sum (firstn k (map space_dimension es)) + i) [c] (f0 o)).
  Proof.
    intros es e k x s He Hx Hs ss Hss alpha ent pt i Hi.
    destruct (mixed_parts es e He) as (ss' & subs & Hss' & Hshape & Hlen & Hsub). rewrite Hss in Hss'. injection Hss' as <-.
    pose proof (Hsub k x Hx) as Hk.
    assert (Hks : nth_error ss k = Some s).
    { apply mapM_ok in Hss. destruct (Forall2_nth _ _ _ _ _ Hss _ _ Hx) as (s' & Es & H). congruence. }
    assert (ES : sum (firstn (S k) (map prod ss)) = sum (firstn k (map prod ss)) + prod s).
    { apply nth_error_split in Hks as (pre & post & -> & <-). rewrite firstn_sum_app.
      replace (pre ++ s :: post) with ((pre ++ [s]) ++ post) by (rewrite <- app_assoc; reflexivity).
      replace (S (length pre)) with (length (map prod (pre ++ [s]))) by (rewrite map_length, app_length; simpl; lia).
      rewrite (map_app _ (pre ++ [s]) post), firstn_app, firstn_all, Nat.sub_diag. cbn [firstn]. rewrite app_nil_r, map_app, sum_app. cbn [map]. 
      change (sum [prod s]) with (prod s + 0). lia. }
    assert (Hdims : map space_dimension subs = map space_dimension es).
    { apply nth_error_same. intros j. rewrite !nth_error_map. destruct (nth_error es j) as [y|] eqn:Ey.
      - rewrite (Hsub j y Ey). reflexivity.
      - rewrite (proj2 (nth_error_None subs j)); [reflexivity|]. rewrite Hlen. apply nth_error_None. exact Ey. }
    set (M := EMixedSub x (sum (map prod ss)) (sum (firstn k (map prod ss)))) in *.
    assert (Hlift : forall v y, value_of o M alpha ent pt i v y ->
              value_of o e alpha ent pt (sum (firstn k (map space_dimension es)) + i) v y).
    { intros v y Hv. destruct Hshape as [->| ->].
      - rewrite <- Hdims. apply nth_error_split in Hk as (pre & post & -> & <-). rewrite firstn_sum_app.
        apply vo_enriched; [exact Hv | exact Hi].
      - destruct k as [|k]; [|destruct k; discriminate]. injection Hk as ->. exact Hv. }
    split.
    - intros v y Hv Hy. apply Hlift. unfold M. eapply vo_mixed_own; eassumption.
    - intros c Hc. apply Hlift. unfold M. eapply vo_mixed_other; [exact Hs|].
      change (fold_right Nat.mul 1 s) with (prod s). rewrite <- ES. exact Hc.
  Qed.
End MixedValues.

(* ------------------------------------------------------------------ *)
(** ** H(div) and H(curl) wrappers *)

Section Wrappers.
  Context {F : Type}.

  (** What the constructors accept. *)
  Lemma hdiv_accepts : forall (w e : elt F), mk_hdiv w = Ok e <->
    e = EHDiv w /\ exists a b k0 k1 c cb,
      w = ETensorProduct [a; b] /\ formdegree a = Ok (Some k0) /\ formdegree b = Ok (Some k1) /\
      cell_of w = Ok c /\ k0 + k1 + 1 = spatial_dimension c /\ cell_of b = Ok cb /\ is_line cb = true /\
      ((k0, k1) = (0, 1) \/ (k0, k1) = (1, 0) \/ (k0, k1) = (2, 0) \/
       (k0, k1) = (1, 1) /\ (mapping w = Some "contravariant piola"%string \/ mapping w = Some "covariant piola"%string)).
  Proof.
    intros w e. split.
    - intros H. unfold mk_hdiv in H. apply bind_ok in H as (fs & Hfs & H). apply bind_ok in H as (ks & Hks & H).
      apply bind_ok in H as (ns & Hns & H). apply bind_ok in H as (c & Hc & H). apply bind_ok in H as ([] & Hg & H).
      apply guard_ok in Hg. apply Nat.eqb_eq in Hg. apply bind_ok in H as (t & Ht & H). injection H as <-. split; [reflexivity|].
      unfold select_hdiv_transformer in Ht. rewrite Hfs in Ht. cbn [bind] in Ht.
      destruct w; try discriminate. cbn [wrapper_factors] in Hfs. injection Hfs as <-.
      destruct factors as [|a [|b [|? ?]]]; try discriminate.
      apply bind_ok in Ht as (cb & Hcb & Ht). apply bind_ok in Ht as ([] & Hl & Ht). apply guard_ok in Hl.
      cbn [mapM bind] in Hks. destruct (formdegree a) as [ka|] eqn:Ea; [|discriminate]. destruct (formdegree b) as [kb|] eqn:Eb; [|discriminate].
      cbn [bind] in Hks, Ht. injection Hks as <-. unfold all_some in Hns. cbn [mapM bind] in Hns.
      destruct ka as [k0|]; [|discriminate]. destruct kb as [k1|]; [|discriminate]. cbn [bind] in Hns. injection Hns as <-.
      exists a, b, k0, k1, c, cb. repeat (split; [first [reflexivity | assumption | cbn [sum] in Hg; lia]|]).
      generalize dependent (mapping (ETensorProduct [a; b])). intros m Ht.
      destruct k0 as [|[|[|k0]]], k1 as [|[|k1]]; try discriminate; auto.
      right; right; right. split; [reflexivity|].
      destruct (ostring_eqb m (Some "contravariant piola"%string)) eqn:E1; [left; apply ostring_eqb_eq; exact E1|].
      destruct (ostring_eqb m (Some "covariant piola"%string)) eqn:E2; [right; apply ostring_eqb_eq; exact E2|discriminate].
    - intros (-> & a & b & k0 & k1 & c & cb & -> & Ha & Hb & Hc & Hd & Hcb & Hl & Hcase).
      unfold mk_hdiv, select_hdiv_transformer. cbn [wrapper_factors bind mapM]. rewrite Ha, Hb. cbn [bind mapM all_some].
      unfold all_some. cbn [mapM bind]. rewrite Hc, Hcb. cbn [bind].
      replace (sum [k0; k1] + 1 =? spatial_dimension c) with true by (symmetry; apply Nat.eqb_eq; cbn [sum]; lia).
      rewrite Hl. cbn [guard bind].
      generalize dependent (mapping (ETensorProduct [a; b])). intros m Hcase.
      destruct Hcase as [E|[E|[E|[E [->| ->]]]]]; injection E as -> ->; reflexivity.
  Qed.

  Lemma hcurl_accepts : forall (w e : elt F), mk_hcurl w = Ok e <->
    e = EHCurl w /\ exists a b k0 k1 c cb,
      w = ETensorProduct [a; b] /\ formdegree a = Ok (Some k0) /\ formdegree b = Ok (Some k1) /\
      cell_of w = Ok c /\ k0 + k1 = 1 /\ cell_of b = Ok cb /\ is_line cb = true /\
      (mapping w = Some "affine"%string \/ mapping w = Some "contravariant piola"%string \/ mapping w = Some "covariant piola"%string).
  Proof.
    intros w e. split.
    - intros H. unfold mk_hcurl in H. apply bind_ok in H as (fs & Hfs & H). apply bind_ok in H as (ks & Hks & H).
      apply bind_ok in H as (ns & Hns & H). apply bind_ok in H as ([] & Hg & H).
      apply guard_ok in Hg. apply Nat.eqb_eq in Hg. apply bind_ok in H as (t & Ht & H). injection H as <-. split; [reflexivity|].
      unfold select_hcurl_transformer in Ht. rewrite Hfs in Ht. cbn [bind] in Ht.
      destruct w; try discriminate. cbn [wrapper_factors] in Hfs. injection Hfs as <-.
      destruct factors as [|a [|b [|? ?]]]; try discriminate.
      apply bind_ok in Ht as (cb & Hcb & Ht). apply bind_ok in Ht as ([] & Hl & Ht). apply guard_ok in Hl.
      apply bind_ok in Ht as (c & Hc & Ht).
      cbn [mapM bind] in Hks. destruct (formdegree a) as [ka|] eqn:Ea; [|discriminate]. destruct (formdegree b) as [kb|] eqn:Eb; [|discriminate].
      cbn [bind] in Hks, Ht. injection Hks as <-. unfold all_some in Hns. cbn [mapM bind] in Hns.
      destruct ka as [k0|]; [|discriminate]. destruct kb as [k1|]; [|discriminate]. cbn [bind] in Hns. injection Hns as <-.
      exists a, b, k0, k1, c, cb. repeat (split; [first [reflexivity | assumption | cbn [sum] in Hg; lia]|]).
      generalize dependent (mapping (ETensorProduct [a; b])). intros m Ht.
      destruct (ostring_eqb m (Some "affine"%string)) eqn:E0; [left; apply ostring_eqb_eq; exact E0|].
      destruct (ostring_eqb m (Some "covariant piola"%string)) eqn:E2; [right; right; apply ostring_eqb_eq; exact E2|].
      destruct (ostring_eqb m (Some "contravariant piola"%string)) eqn:E1; [right; left; apply ostring_eqb_eq; exact E1|discriminate].
    - intros (-> & a & b & k0 & k1 & c & cb & -> & Ha & Hb & Hc & Hd & Hcb & Hl & Hcase).
      unfold mk_hcurl, select_hcurl_transformer. cbn [wrapper_factors bind mapM]. rewrite Ha, Hb. cbn [bind mapM all_some].
      unfold all_some. cbn [mapM bind]. rewrite Hc, Hcb. cbn [bind].
      replace (sum [k0; k1] =? 1) with true by (symmetry; apply Nat.eqb_eq; cbn [sum]; lia).
      rewrite Hl. cbn [guard bind].
      generalize dependent (mapping (ETensorProduct [a; b])). intros m Hcase.
      destruct Hcase as [->|[->| ->]]; [|reflexivity|reflexivity].
      destruct k0 as [|[|k0]], k1 as [|[|k1]]; try lia; reflexivity.
  Qed.

  Context (o : ops F) (R : ring_theory (f0 o) (f1 o) (fadd o) (fmul o) (fsub o) (fopp o) eq).
  Add Ring Fring : R.

  Definition total (xs : list F) : F := fold_right (fadd o) (f0 o) xs.

  Lemma total_perm : forall l l', Permutation l l' -> total l = total l'.
  Proof using R. intros l l' H. induction H; cbn [total fold_right] in *; unfold total in *; cbn [fold_right]; [reflexivity|congruence|ring|congruence]. Qed.

  Lemma enumerates_perm : forall A (L L' : list A), NoDup L -> NoDup L' -> (forall x, In x L <-> In x L') -> Permutation L L'.
  Proof. intros. apply NoDup_Permutation; assumption. Qed.

  Lemma total_zeros : forall (A : Type) (f : A -> F) l, (forall x, In x l -> f x = f0 o) -> total (map f l) = f0 o.
  Proof using R. intros A f l. induction l as [|x l IH]; intros H; [reflexivity|]. cbn [map total fold_right]. unfold total in *. cbn [fold_right].
    rewrite (H x) by (left; reflexivity). rewrite IH by (intros; apply H; right; assumption). ring. Qed.

  Lemma case_total : forall (P : list nat -> nat -> list slot -> Prop),
    (forall vs d slots, P vs d slots -> length slots = d /\ forall u w : list nat -> F,
      total (map (fun s => fmul o (slot_val o u s) (slot_val o w s)) slots) =
      match vs with [] => fmul o (u []) (w []) | _ => fadd o (fmul o (u [0]) (w [0])) (fmul o (u [1]) (w [1])) end) ->
    (forall vs d slots, P vs d slots -> vs = [] \/ vs = [2]) ->
    forall vs d slots, P vs d slots -> length slots = d /\ forall (u w : list nat -> F) L, NoDup L -> (forall i, In i L <-> in_shape vs i) ->
      total (map (fun s => fmul o (slot_val o u s) (slot_val o w s)) slots) = total (map (fun i => fmul o (u i) (w i)) L).
  Proof using R.
    intros P H1 H2 vs d slots Hp. destruct (H1 _ _ _ Hp) as [Hl Ht]. split; [exact Hl|]. intros u w L HL Hin. rewrite Ht.
    destruct (H2 _ _ _ Hp) as [->| ->].
    - rewrite (total_perm _ (map (fun i => fmul o (u i) (w i)) [[]])).
      + cbn [map total fold_right]. unfold total. cbn [fold_right]. ring.
      + apply Permutation_map, enumerates_perm; [exact HL | repeat constructor; simpl; tauto |].
        intros i. rewrite Hin. split; [intros Hi; inversion Hi; left; reflexivity | intros [<-|[]]; constructor].
    - rewrite (total_perm _ (map (fun i => fmul o (u i) (w i)) [[0];[1]])).
      + cbn [map total fold_right]. unfold total. cbn [fold_right]. ring.
      + apply Permutation_map, enumerates_perm; [exact HL | repeat constructor; simpl; intuition congruence |].
        intros i. rewrite Hin. split.
        * intros Hi. inversion Hi as [|? x ? r Hx Hr]; subst. inversion Hr; subst.
          destruct x as [|[|x]]; [left; reflexivity | right; left; reflexivity | lia].
        * intros [<-|[<-|[]]]; repeat constructor.
  Qed.

  Lemma hdiv_isometry : forall k0 k1 m vs d slots, hdiv_case k0 k1 m vs d slots ->
    length slots = d /\ forall (u w : list nat -> F) L, NoDup L -> (forall i, In i L <-> in_shape vs i) ->
      total (map (fun s => fmul o (slot_val o u s) (slot_val o w s)) slots) = total (map (fun i => fmul o (u i) (w i)) L).
  Proof using R.
    intros k0 k1 m vs d slots H. apply (case_total (fun vs d slots => hdiv_case k0 k1 m vs d slots)); [| | exact H].
    - clear -R. intros vs d slots H. destruct H; (split; [reflexivity|]); intros u w; cbn [map]; unfold total; cbn [fold_right slot_val]; ring.
    - clear. intros vs d slots H. destruct H; auto.
  Qed.

  Lemma hcurl_isometry : forall k0 k1 m vs d slots, hcurl_case k0 k1 m vs d slots ->
    length slots = d /\ forall (u w : list nat -> F) L, NoDup L -> (forall i, In i L <-> in_shape vs i) ->
      total (map (fun s => fmul o (slot_val o u s) (slot_val o w s)) slots) = total (map (fun i => fmul o (u i) (w i)) L).
  Proof using R.
    intros k0 k1 m vs d slots H. apply (case_total (fun vs d slots => hcurl_case k0 k1 m vs d slots)); [| | exact H].
    - clear -R. intros vs d slots H. destruct H as [|d| |].
      + split; [reflexivity|]. intros u w. cbn [map]. unfold total; cbn [fold_right slot_val]; ring.
      + split; [rewrite app_length, repeat_length; simpl; lia|]. intros u w. rewrite map_app.
        assert (E : forall l x, total (l ++ [x]) = fadd o (total l) x).
        { induction l as [|y l IH]; intros x; unfold total in *; cbn [app fold_right]; [ring | rewrite IH; ring]. }
        cbn [map]. rewrite E, total_zeros; [cbn [slot_val]; ring|]. intros s Hs. apply repeat_spec in Hs as ->. cbn [slot_val]. ring.
      + split; [reflexivity|]. intros u w. cbn [map]. unfold total; cbn [fold_right slot_val]; ring.
      + split; [reflexivity|]. intros u w. cbn [map]. unfold total; cbn [fold_right slot_val]; ring.
    - clear. intros vs d slots H. destruct H; auto.
  Qed.
End Wrappers.

(* ------------------------------------------------------------------ *)
(** ** Expressions of points *)

Lemma nth_concat_uniform : forall A (l : list (list A)) D i k (d : A), (forall p, In p l -> length p = D) ->
  i < length l -> k < D -> nth (i * D + k) (concat l) d = nth k (nth i l []) d.
Proof.
  intros A. induction l as [|p l IH]; intros D i k d H Hi Hk; [simpl in Hi; lia|].
  assert (Lp : length p = D) by (apply H; left; reflexivity).
  cbn [concat]. destruct i as [|i].
  - cbn [Nat.mul Nat.add nth]. apply app_nth1. lia.
  - rewrite app_nth2 by (rewrite Lp; simpl; lia). rewrite Lp.
    replace (S i * D + k - D) with (i * D + k) by (simpl; lia). cbn [nth].
    apply IH; [intros q Hq; apply H; right; exact Hq | simpl in Hi; lia | exact Hk].
Qed.

Section Expressions.
  Context {F : Type} (o : ops F) (vars : string -> list nat -> F).

  Definition expr_ok (ps : pset F) : Prop := forall n, (forall i, In i (ps_indices ps) -> ix_id i < n) ->
    exists g n', ps_expression ps n = Ok (g, n') /\ n <= n' /\ gshape g = [psdim ps] /\
      (forall x, In x (gfree g) <-> In x (map ix_id (ps_indices ps))) /\
      forall env, env_ok ps env -> length (coords vars ps env) = psdim ps /\
        forall k, k < psdim ps -> eval o vars g env [k] = nth k (coords vars ps env) (f0 o).

  Lemma plain_dim : forall ps : pset F, ps_plain ps -> 0 < psdim ps.
  Proof.
    induction ps as [pt|s N D i|k D pts ixs|qs IH] using pset_ind'; intros H; inversion H; subst; cbn [psdim]; auto.
    - destruct pt; [congruence | simpl; lia].
    - destruct qs as [|q qs]; [congruence|]. cbn [map fold_right]. inversion IH; subst.
      match goal with H : Forall ps_plain _ |- _ => inversion H; subst end.
      assert (0 < psdim q) by auto. lia.
  Qed.

  (** The list of components of the factors' expressions. *)
  Lemma components_ok : forall qs : list (pset F), Forall expr_ok qs -> (forall q, In q qs -> ps_dimension q = Ok (psdim q)) ->
    forall n, (forall i, In i (flat_map ps_indices qs) -> ix_id i < n) ->
    exists ls n', mapF (fun f => fbind (flift (ps_dimension f)) (fun d => fbind (ps_expression f) (fun e =>
          flift (mapM (fun i => mk_indexed e [IFixed i]) (seq 0 d))))) qs n = Ok (ls, n') /\ n <= n' /\
      length (concat ls) = sum (map psdim qs) /\ Forall (fun g => gshape g = []) (concat ls) /\
      ((forall q, In q qs -> 0 < psdim q) -> forall x, In x (flat_map gfree (concat ls)) <-> In x (map ix_id (flat_map ps_indices qs))) /\
      forall env, (forall i, In i (flat_map ps_indices qs) -> env (ix_id i) < ix_extent i) ->
        map (fun c => eval o vars c env []) (concat ls) = concat (map (fun q => coords vars q env) qs).
  Proof.
    induction qs as [|q qs IH]; intros He Hd n Hn.
    - exists [], n. split; [reflexivity|]. split; [lia|]. split; [reflexivity|]. split; [constructor|]. split; [simpl; tauto|]. reflexivity.
    - inversion He as [|? ? Hq He']; subst.
      destruct (Hq n) as (g & n1 & E1 & L1 & S1 & F1 & V1). { intros i Hi. apply Hn. cbn [flat_map]. apply in_or_app. auto. }
      destruct (IH He' (fun q' Hq' => Hd q' (or_intror Hq')) n1) as (ls & n2 & E2 & L2 & Le & Sc & Fr & V2).
      { intros i Hi. apply Nat.lt_le_trans with n; [apply Hn; cbn [flat_map]; apply in_or_app; auto | exact L1]. }
      set (gs := map (fun i => GIndexed g [IFixed i]) (seq 0 (psdim q))).
      assert (Egs : mapM (fun i => mk_indexed g [IFixed i]) (seq 0 (psdim q)) = Ok gs).
      { unfold gs. apply mapM_all_ok. intros i Hi. apply in_seq in Hi.
        apply (mk_indexed_fixed g [i]). rewrite S1. repeat constructor. lia. }
      exists (gs :: ls), n2. cbn [mapF].
      split. { unfold fbind, flift, fret in *. rewrite (Hd q (or_introl eq_refl)). cbn [bind]. rewrite E1. rewrite Egs. cbn [bind]. rewrite E2. reflexivity. }
      split; [lia|]. cbn [concat].
      split. { rewrite app_length, Le. unfold gs. rewrite map_length, seq_length. reflexivity. }
      split. { apply Forall_app. split; [|exact Sc]. unfold gs. apply Forall_map. apply Forall_forall. reflexivity. }
      split.
      { intros Hp x. rewrite flat_map_app, in_app_iff. cbn [flat_map]. rewrite map_app, in_app_iff. rewrite Fr by (intros q' Hq'; apply Hp; right; exact Hq').
        apply or_iff_compat_r. rewrite <- F1. unfold gs. split.
        - intros Hx. apply in_flat_map in Hx as (y & Hy & Hx). apply in_map_iff in Hy as (i & <- & _). cbn [gfree mi_ids flat_map] in Hx. rewrite app_nil_r in Hx. exact Hx.
        - intros Hx. apply in_flat_map. exists (GIndexed g [IFixed 0]). split.
          + apply in_map_iff. exists 0. split; [reflexivity|]. apply in_seq. specialize (Hp q (or_introl eq_refl)). lia.
          + cbn [gfree mi_ids flat_map]. rewrite app_nil_r. exact Hx. }
      intros env Henv. rewrite map_app. cbn [map concat].
      rewrite V2 by (intros i Hi; apply Henv; cbn [flat_map]; apply in_or_app; auto). f_equal.
      destruct (V1 env) as [Lc Vc]. { intros i Hi. apply Henv. cbn [flat_map]. apply in_or_app. auto. }
      unfold gs. rewrite map_map. cbn [eval map gidx_val].
      apply nth_ext with (d := f0 o) (d' := f0 o); [rewrite map_length, seq_length; congruence|].
      intros k Hk. rewrite map_length, seq_length in Hk.
      rewrite (nth_indep _ (f0 o) (eval o vars g env [0])) by (rewrite map_length, seq_length; exact Hk).
      rewrite (map_nth (fun i => eval o vars g env [i]) (seq 0 (psdim q)) 0 k), seq_nth by exact Hk. cbn [Nat.add]. apply Vc. exact Hk.
  Qed.

  Lemma expression_ok : forall ps : pset F, ps_plain ps -> expr_ok ps.
  Proof.
    induction ps as [pt|s N D i|k D pts ixs|qs IH] using pset_ind'; intros H; inversion H; subst; intros n Hn; cbn [ps_expression psdim].
    - exists (GLiteral (mkArr [length pt] pt)), n. split; [reflexivity|]. split; [lia|]. split; [reflexivity|]. split; [simpl; tauto|].
      intros env _. split; [reflexivity|]. intros k Hk. cbn [eval]. rewrite arr_at_in by (repeat constructor; exact Hk).
      cbn [a_shape a_data coords pt_at]. f_equal. cbn [ravel prod]. lia.
    - destruct (partial_indexed_ok F (GVariable s [ix_extent i; D]) [i] [D] n) as (g & n' & E & L & S & Fr & V).
      { reflexivity. } { intros x []. } { intros j [<-|[]]. apply Hn. left. reflexivity. }
      exists g, n'. split; [exact E|]. split; [exact L|]. split; [exact S|].
      split. { intros x. rewrite Fr. simpl. tauto. }
      intros env He. split; [cbn [coords]; rewrite map_length, seq_length; reflexivity|].
      intros k Hk. rewrite V by reflexivity. cbn [eval map app coords].
      rewrite (nth_indep _ (f0 o) (vars s [env (ix_id i); 0])) by (rewrite map_length, seq_length; exact Hk).
      rewrite (map_nth (fun k => vars s [env (ix_id i); k]) (seq 0 D) 0 k), seq_nth by exact Hk. reflexivity.
    - rename i into j. destruct (partial_indexed_ok F (GLiteral (points_array D pts)) [j] [D] n) as (g & n' & E & L & S & Fr & V).
      { unfold points_array. cbn [gshape a_shape map app]. congruence. } { intros x []. } { intros j' [<-|[]]. apply Hn. left. reflexivity. }
      exists g, n'. split; [exact E|]. split; [exact L|]. split; [exact S|].
      split. { intros x. rewrite Fr. simpl. tauto. }
      assert (Hpt : forall env, env_ok (PPoints k D pts [j]) env -> pt_at (PPoints k D pts [j]) env = nth (env (ix_id j)) pts []).
      { intros env _. cbn [pt_at map]. rewrite rowmajor_ravel by reflexivity. cbn [ravel prod]. f_equal. lia. }
      intros env He. assert (Hj : env (ix_id j) < length pts). { match goal with H : ix_extent j = _ |- _ => rewrite <- H end. apply He. left. reflexivity. }
      assert (Hdim : forall p, In p pts -> length p = D) by assumption.
      cbn [coords]. rewrite (Hpt env He). split; [apply Hdim, nth_In; exact Hj|].
      intros kk Hk. rewrite V by reflexivity. cbn [eval map app]. rewrite arr_at_in by (unfold points_array; cbn [a_shape]; repeat constructor; assumption).
      unfold points_array. cbn [a_shape a_data ravel prod]. 
      replace (env (ix_id j) * (D * 1) + (kk * 1 + 0)) with (env (ix_id j) * D + kk) by lia.
      apply nth_concat_uniform; assumption.
    - rename H3 into Hkn. 
      assert (Hd : forall q, In q qs -> ps_dimension q = Ok (psdim q)).
      { intros q Hq. destruct (Hkn q Hq) as [Hok|(nm & N & D & i & ->)]; [apply ps_dimension_ok; exact Hok | reflexivity]. }
      assert (Hpl : Forall ps_plain qs) by assumption.
      assert (Hex : Forall expr_ok qs). { rewrite Forall_forall in *. auto. }
      destruct (components_ok qs Hex Hd n) as (ls & n' & E & L & Le & Sc & Fr & V); [exact Hn|].
      assert (Hpos : forall q, In q qs -> 0 < psdim q). { intros q Hq. apply plain_dim. rewrite Forall_forall in Hpl. auto. }
      assert (Ht : 0 < sum (map psdim qs)). { destruct qs as [|q qs]; [congruence|]. specialize (Hpos q (or_introl eq_refl)). change (sum (map psdim (q :: qs))) with (psdim q + sum (map psdim qs)). lia. }
      exists (GListTensor [length (concat ls)] (concat ls)), n'.
      split. { unfold fbind at 1. rewrite E. unfold flift. rewrite mk_list_tensor_ok; [reflexivity| cbn [prod]; lia | cbn [prod]; lia | exact Sc]. }
      split; [exact L|]. split; [cbn [gshape]; rewrite Le; reflexivity|].
      split; [intros x; cbn [gfree ps_indices]; apply Fr; exact Hpos|].
      intros env He. specialize (V env He). cbn [coords]. rewrite <- V.
      split; [rewrite map_length; exact Le|].
      intros kk Hk. cbn [eval]. rewrite ravel_strides_ok by (repeat constructor; rewrite Le; exact Hk). cbn [ravel prod]. f_equal. lia.
  Qed.

  (** Slicing a point set accepts what it should and loses no coordinate. *)
  Lemma factor_points : forall (ps : pset F) dims, ps_ok ps ->
    ((exists pss, factor_point_set dims ps = Ok pss) <->
     match ps with
     | PTensor qs => if Nat.eqb (length qs) (length dims) then map psdim qs = dims else psdim ps = sum dims
     | _ => psdim ps = sum dims
     end) /\
    forall pss, factor_point_set dims ps = Ok pss -> seen_by ps dims pss.
  Proof.
    intros ps dims Hok. pose proof (ps_dimension_ok ps Hok) as Hpd. destruct (ps_points_ok ps Hok) as (pts & Epts & _).
    assert (Hsl : forall pts' : list (list F), (exists pss, (do! guard (Nat.eqb (psdim ps) (sum dims)) AssertionError ;;
              Ok (map (fun k => PPoints PGeneric (nth k dims 0) (map (fun p => nth k (split_slices dims p) []) pts') (ps_indices ps)) (seq 0 (length dims)))) = Ok pss)
            <-> psdim ps = sum dims).
    { intros pts'. destruct (Nat.eqb_spec (psdim ps) (sum dims)) as [E|E]; cbn [guard bind]; split; eauto; [intros (? & ?); discriminate | congruence]. }
    assert (Hsl2 : forall pss, (do! guard (Nat.eqb (psdim ps) (sum dims)) AssertionError ;;
              Ok (map (fun k => PPoints PGeneric (nth k dims 0) (map (fun p => nth k (split_slices dims p) []) pts) (ps_indices ps)) (seq 0 (length dims)))) = Ok pss ->
            seen_by ps dims pss).
    { intros pss E. apply bind_ok in E as ([] & G & E). apply guard_ok, Nat.eqb_eq in G. injection E as <-. apply slice_seen; assumption. }
    destruct ps as [pt|s N D i|k D p ixs|qs].
    - unfold factor_point_set. rewrite Hpd. cbn [bind]. cbn [psdim] in *. split.
      + destruct (Nat.eqb_spec (length pt) (sum dims)) as [E|E]; cbn [guard bind]; split; eauto; [intros (? & ?); discriminate | congruence].
      + intros pss E. apply bind_ok in E as ([] & G & E). apply guard_ok, Nat.eqb_eq in G. injection E as <-. apply singleton_seen; assumption.
    - inversion Hok.
    - unfold factor_point_set. rewrite Hpd. cbn [bind]. cbn [ps_points] in Epts. injection Epts as ->. cbn [ps_points bind].
      split; [apply Hsl | exact Hsl2].
    - unfold factor_point_set. rewrite (Nat.eqb_sym (length qs)). destruct (Nat.eqb_spec (length dims) (length qs)) as [E|E].
      + assert (Hds : mapM ps_dimension qs = Ok (map psdim qs)).
        { apply mapM_all_ok. intros q Hq. apply ps_dimension_ok. inversion Hok; subst. rewrite Forall_forall in *. auto. }
        rewrite Hds. cbn [bind]. destruct (list_eqb_spec _ _ nat_eqb_spec (map psdim qs) dims) as [El|El]; cbn [guard bind].
        * split; [split; eauto|]. intros pss [= <-]. subst dims. apply tensor_seen. inversion Hok; assumption.
        * split; [|discriminate]. split; [intros (? & ?); discriminate|]. intros Ed. congruence.
      + rewrite Hpd. cbn [bind]. rewrite Epts. cbn [bind]. split; [apply Hsl | exact Hsl2].
  Qed.
End Expressions.

(* ------------------------------------------------------------------ *)
(** ** Built trees *)

Section Built.
  Context {F : Type} (o : ops F) {G : Type}.
  Context (R : ring_theory (f0 o) (f1 o) (fadd o) (fmul o) (fsub o) (fopp o) eq).
  Context (leaf_eval : leaf F -> nat -> pset F -> option (dimkey * nat) -> option G -> fresh (list (list nat * gem F))).

  Lemma tabulation : forall (e : elt F) vars order ps ent cm n c vs,
    built e -> shaped e ->
    (forall l, leaf_of l e -> fold_right Nat.mul 1 (lf_ishape l) = lf_dim l /\ leaf_tabulates o leaf_eval l) ->
    cell_of e = Ok c -> value_shape e = Ok vs ->
    ps_ok ps -> (forall i, In i (ps_indices ps) -> ix_id i < n) ->
    entity_of (topology c) (entity_or_cell c ent) -> fits e (entity_or_cell c ent) ps ->
    exists ts n', basis_evaluation o leaf_eval e order ps ent cm n = Ok (ts, n') /\ n <= n' /\
      derivative_keys (spatial_dimension c) order (map fst ts) /\
      forall alpha g, In (alpha, g) ts ->
        gshape g = index_shape e ++ vs /\ incl (gfree g) (map ix_id (ps_indices ps)) /\
        forall env b v, env_ok ps env -> in_shape (index_shape e) b -> in_shape vs v ->
          forall x, value_of o e alpha (entity_or_cell c ent) (pt_at ps env) (rowmajor (index_shape e) b) v x <->
            eval o vars g env (b ++ v) = x.
  Proof using R.
    intros e vars order ps ent cm n c vs Hb Hs Hl Hc Hvs Hps Hn He Hf.
    destruct (tree_tabulates o R leaf_eval vars e order ps ent cm n c vs (built_checked _ Hb) Hs Hl Hc Hvs Hps Hn He Hf)
      as (ts & n' & E & L & K & V).
    exists ts, n'. split; [exact E|]. split; [exact L|]. split; [exact K|].
    intros alpha g Hg. destruct (V alpha g Hg) as [[S Fr] Ve]. split; [exact S|]. split; [exact Fr|].
    intros env b v H1 H2 H3 x. specialize (Ve env b v H1 H2 H3). split.
    - intros Hx. eapply value_unique; eassumption.
    - intros <-. exact Ve.
  Qed.

  (** The same for a product, with the values of its factors. *)
  Lemma product_tabulation : forall fs vars order ps ks es ns cm n c vs,
    let e := ETensorProduct fs in
    built e -> shaped e ->
    (forall l, leaf_of l e -> fold_right Nat.mul 1 (lf_ishape l) = lf_dim l /\ leaf_tabulates o leaf_eval l) ->
    cell_of e = Ok c -> value_shape e = Ok vs ->
    Forall2 (fun f kn => exists c, cell_of f = Ok c /\ In kn (topology c)) fs (combine ks ns) ->
    length ks = length ns -> in_shape ns es ->
    ps_ok ps -> (forall i, In i (ps_indices ps) -> ix_id i < n) ->
    entity_of (topology c) (DT ks, rowmajor ns es) -> fits e (DT ks, rowmajor ns es) ps ->
    exists ts n', basis_evaluation o leaf_eval e order ps (Some (DT ks, rowmajor ns es)) cm n = Ok (ts, n') /\
      derivative_keys (spatial_dimension c) order (map fst ts) /\
      forall alphas g, In (concat alphas, g) ts ->
        forall env b v is wvs pts xs, env_ok ps env -> in_shape (index_shape e) b -> in_shape vs v ->
          pt_at ps env = concat pts -> rowmajor (index_shape e) b = rowmajor (map space_dimension fs) is -> v = concat wvs ->
          values_of o fs alphas (combine ks es) pts is wvs xs ->
          eval o vars g env (b ++ v) = fold_right (fmul o) (f1 o) xs.
  Proof using R.
    intros fs vars order ps ks es ns cm n c vs e Hb Hs Hl Hc Hvs Htop Hlen Hes Hps Hn He Hf.
    destruct (tabulation e vars order ps (Some (DT ks, rowmajor ns es)) cm n c vs Hb Hs Hl Hc Hvs Hps Hn He Hf)
      as (ts & n' & E & _ & K & V).
    exists ts, n'. split; [exact E|]. split; [exact K|].
    intros alphas g Hg env b v is wvs pts xs H1 H2 H3 Ep Ei Ev Hx. destruct (V _ _ Hg) as (_ & _ & Hv).
    apply (Hv env b v H1 H2 H3). cbn [entity_or_cell]. rewrite Ep, Ei, Ev. apply vo_product; assumption.
  Qed.

  (** Components of a wrapped product. *)
  Lemma wrapped_values : forall w vars order ps ent cm n c (curl : bool),
    let e := if curl then EHCurl w else EHDiv w in
    built e -> shaped e ->
    (forall l, leaf_of l e -> fold_right Nat.mul 1 (lf_ishape l) = lf_dim l /\ leaf_tabulates o leaf_eval l) ->
    cell_of w = Ok c -> ps_ok ps -> (forall i, In i (ps_indices ps) -> ix_id i < n) ->
    entity_of (topology c) (entity_or_cell c ent) -> fits w (entity_or_cell c ent) ps ->
    exists slots ts n', embeds (if curl then hcurl_case else hdiv_case) w slots /\ length slots = spatial_dimension c /\
      basis_evaluation o leaf_eval e order ps ent cm n = Ok (ts, n') /\
      derivative_keys (spatial_dimension c) order (map fst ts) /\
      forall alpha g, In (alpha, g) ts ->
        gshape g = index_shape w ++ [length slots] /\
        forall env b x, env_ok ps env -> in_shape (index_shape w) b ->
          (forall v, value_of o w alpha (entity_or_cell c ent) (pt_at ps env) (rowmajor (index_shape w) b) v (x v)) ->
          forall k s, nth_error slots k = Some s -> eval o vars g env (b ++ [k]) = slot_val o x s.
  Proof using R.
    intros w vars order ps ent cm n c curl e Hb Hs Hl Hc Hps Hn He Hf.
    assert (Hslots : exists slots, embeds (if curl then hcurl_case else hdiv_case) w slots).
    { destruct curl; apply Hs; constructor. }
    destruct Hslots as [slots Hsl].
    assert (Hlen : length slots = spatial_dimension c).
    { destruct Hsl as (a & b0 & k0 & k1 & vs & c' & _ & _ & _ & _ & Hc' & Hcase). rewrite Hc in Hc'. injection Hc' as <-.
      destruct curl; [eapply hcurl_isometry | eapply hdiv_isometry]; eassumption. }
    exists slots.
    assert (Hce : cell_of e = Ok c) by (destruct curl; exact Hc).
    assert (Hve : value_shape e = Ok [spatial_dimension c]) by (destruct curl; cbn [e value_shape]; rewrite Hc; reflexivity).
    assert (Hfe : fits e (entity_or_cell c ent) ps) by (destruct curl; constructor; exact Hf).
    assert (Hie : index_shape e = index_shape w) by (destruct curl; reflexivity).
    destruct (tabulation e vars order ps ent cm n c _ Hb Hs Hl Hce Hve Hps Hn He Hfe) as (ts & n' & E & _ & K & V).
    exists ts, n'. split; [exact Hsl|]. split; [exact Hlen|]. split; [exact E|]. split; [exact K|].
    intros alpha g Hg. destruct (V _ _ Hg) as (S & _ & Hv). rewrite Hie in *. rewrite Hlen. split; [exact S|].
    intros env b x Henv Hbi Hx k s Hk. apply (Hv env b [k] Henv Hbi).
    { repeat constructor. rewrite <- Hlen. apply nth_error_Some. congruence. }
    unfold e. destruct s as [|neg v]; destruct curl; cbn [slot_val].
    - eapply vo_hcurl_zero; eassumption.
    - eapply vo_hdiv_zero; eassumption.
    - eapply vo_hcurl; [exact Hsl | exact Hk | apply Hx].
    - eapply vo_hdiv; [exact Hsl | exact Hk | apply Hx].
  Qed.
End Built.

(* ------------------------------------------------------------------ *)
(** ** Restatements *)

Lemma compose_rowmajor : forall F (o : ops F) vars,
  forall (rs : list (part F)) d order vsh ids N n,
  rs <> [] -> (forall r, In r rs -> part_ok order ids r /\ p_dim r = d /\ p_vsh r = vsh) ->
  N = fold_right Nat.add 0 (map (fun r => fold_right Nat.mul 1 (p_ish r)) rs) -> (forall x, In x ids -> x < n) ->
  exists ts n', compose_evaluations (map p_ish rs) N vsh (map p_tab rs) n = Ok (ts, n') /\ n <= n' /\
    derivative_keys d order (map fst ts) /\
    forall a g, In (a, g) ts ->
      gshape g = [N] ++ vsh /\ incl (gfree g) ids /\
      forall env pre r post b v, rs = pre ++ r :: post -> in_shape (p_ish r) b -> length v = length vsh ->
        exists t, In (a, t) (p_tab r) /\
          eval o vars g env ([fold_right Nat.add 0 (map (fun r => fold_right Nat.mul 1 (p_ish r)) pre) + rowmajor (p_ish r) b] ++ v)
          = eval o vars t env (b ++ v).
Proof.
  intros F o vars rs d order vsh ids N n H1 H2 H3 H4.
  destruct (compose_ok o vars rs d order vsh ids N n H1 H2 H3 H4) as (ts & n' & E & L & K & V).
  exists ts, n'. split; [exact E|]. split; [exact L|]. split; [exact K|]. intros a g Hg. destruct (V a g Hg) as (S & Fr & Hv).
  split; [exact S|]. split; [exact Fr|]. intros env pre r post b v Hrs Hb Hlv.
  rewrite rowmajor_ravel by (apply in_shape_length; exact Hb). exact (Hv env pre r post b v Hrs Hb Hlv).
Qed.

Lemma points_rowmajor : forall F (ps : pset F), ps_ok ps ->
  exists pts, ps_points ps = Ok pts /\
    length pts = fold_right Nat.mul 1 (map ix_extent (ps_indices ps)) /\
    (forall p, In p pts -> length p = psdim ps) /\
    forall env, env_ok ps env ->
      nth_error pts (rowmajor (map ix_extent (ps_indices ps)) (map (fun i => env (ix_id i)) (ps_indices ps)))
      = Some (pt_at ps env).
Proof.
  intros F ps H. destruct (ps_points_ok ps H) as (pts & E & L & _ & D & N).
  exists pts. split; [exact E|]. split; [exact L|]. split; [exact D|]. intros env He.
  rewrite rowmajor_ravel by (rewrite !map_length; reflexivity). exact (N env He).
Qed.

Lemma fiat_tabulation : forall F (o : ops F) (l : leaf F),
  fclose0 o (f0 o) = true -> lf_ishape l = [lf_dim l] -> Forall (lt 0) (lf_vshape l) -> fiat_polynomial o l ->
  forall vars order ps ent n,
  ps_ok ps -> (forall i, In i (ps_indices ps) -> ix_id i < n) ->
  entity_of (topology (lf_cell l)) (entity_or_cell (lf_cell l) ent) ->
  psdim ps = dk_total (fst (entity_or_cell (lf_cell l) ent)) ->
  exists ts n', fiat_basis_evaluation o l order ps ent n = Ok (ts, n') /\ n <= n' /\
    derivative_keys (spatial_dimension (lf_cell l)) order (map fst ts) /\
    forall alpha g, In (alpha, g) ts ->
      gshape g = lf_dim l :: lf_vshape l /\ incl (gfree g) (map ix_id (ps_indices ps)) /\
      forall env i v, env_ok ps env -> i < lf_dim l -> in_shape (lf_vshape l) v ->
        eval o vars g env (i :: v) = lf_tab l alpha (entity_or_cell (lf_cell l) ent) (pt_at ps env) i v.
Proof.
  intros F o l H1 H2 H3 H4 vars order ps ent n Hp Hn He Hd.
  destruct (fiat_leaf_tabulates F o unit l H1 H2 H3 H4 vars order ps ent None n Hp Hn He Hd) as (ts & n' & E & L & K & V).
  exists ts, n'. split; [exact E|]. split; [exact L|]. split; [exact K|]. intros alpha g Hg. destruct (V alpha g Hg) as [[S Fr] Hv].
  change (index_shape (ELeaf l)) with (lf_ishape l) in *. rewrite H2 in S, Hv. split; [exact S|]. split; [exact Fr|]. intros env i v Henv Hi Hvv.
  assert (Hb : in_shape [lf_dim l] [i]) by (repeat constructor; exact Hi).
  specialize (Hv env [i] v Henv Hb Hvv). cbn [app] in Hv. inversion Hv; subst. unfold rowmajor. cbn [combine fold_left fst snd]. reflexivity.
Qed.
