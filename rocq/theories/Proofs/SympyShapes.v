(** Shapes of translated expressions. *)
From Coq Require Import String List Bool Arith ZArith Lia.
From Verif Require Import Model.Prelude Model.Gem Model.Sympy2Gem Spec.Sympy Proofs.Sympy.
Import ListNotations.

Lemma list_eqb_nat l l' : list_eqb Nat.eqb l l' = true <-> l = l'.
Proof.
  revert l'. induction l as [|x l IH]; intros [|y l']; cbn; split; try congruence.
  - intros H. apply andb_true_iff in H as [A B]. apply Nat.eqb_eq in A as ->. apply IH in B as ->. reflexivity.
  - intros H. injection H as -> ->. rewrite Nat.eqb_refl. apply IH. reflexivity.
Qed.

Section Shapes.
  Context {F : Type} (o : ops F) (ofZ : Z -> F) (nan : F) (bindings : list (string * gem F)).
  Notation tr := (sympy2gem o ofZ nan bindings).
  Definition bshape (s : string) (sh : list nat) : Prop := exists g, dict_get String.eqb bindings s = Ok g /\ gshape g = sh.
  Notation has := (has_shape bshape).

  Lemma xscalar_iff (g : xgem F) : xscalar g = true <-> xshape g = [].
  Proof. unfold xscalar. destruct (xshape g); split; congruence. Qed.
  Lemma mk2_ok' f (a b g : xgem F) : mk2 f a b = Ok g -> g = f a b /\ xshape a = [] /\ xshape b = [].
  Proof.
    unfold mk2. intros H. apply bind_ok in H as (u & G & H). apply guard_ok in G. apply andb_true_iff in G as [A B].
    apply xscalar_iff in A, B. injection H as <-. auto.
  Qed.
  Lemma mk1_ok' f (a g : xgem F) : mk1 f a = Ok g -> g = f a /\ xshape a = [].
  Proof. unfold mk1. intros H. apply bind_ok in H as (u & G & H). apply guard_ok in G. apply xscalar_iff in G. injection H as <-. auto. Qed.
  Lemma cond_ok' (a b c g : xgem F) : mk_conditional a b c = Ok g -> g = XConditional a b c /\ xshape a = [] /\ xshape b = xshape c.
  Proof.
    unfold mk_conditional. intros H. apply bind_ok in H as (u & G & H). apply guard_ok in G. apply xscalar_iff in G.
    apply bind_ok in H as (u' & G' & H). apply guard_ok in G'. apply list_eqb_nat in G'. injection H as <-. auto.
  Qed.
  Lemma mk2_mk f (a b : xgem F) : xshape a = [] -> xshape b = [] -> mk2 f a b = Ok (f a b).
  Proof. intros A B. apply xscalar_iff in A, B. unfold mk2. rewrite A, B. reflexivity. Qed.
  Lemma mk1_mk f (a : xgem F) : xshape a = [] -> mk1 f a = Ok (f a).
  Proof. intros A. apply xscalar_iff in A. unfold mk1. rewrite A. reflexivity. Qed.
  Lemma cond_mk (a b c : xgem F) : xshape a = [] -> xshape b = xshape c -> mk_conditional a b c = Ok (XConditional a b c).
  Proof. intros A B. apply xscalar_iff in A. apply list_eqb_nat in B. unfold mk_conditional. rewrite A, B. reflexivity. Qed.
  Lemma mk2_err f (a b : xgem F) x : mk2 f a b = Err x -> x = AssertionError /\ (xshape a <> [] \/ xshape b <> []).
  Proof.
    unfold mk2. destruct (xscalar a) eqn:A, (xscalar b) eqn:B; cbn; try discriminate; intros H; injection H as <-; split; auto.
    - right. intros E. apply xscalar_iff in E. congruence.
    - left. intros E. apply xscalar_iff in E. congruence.
    - left. intros E. apply xscalar_iff in E. congruence.
  Qed.
  Lemma mk1_err f (a : xgem F) x : mk1 f a = Err x -> x = AssertionError /\ xshape a <> [].
  Proof. unfold mk1. destruct (xscalar a) eqn:A; cbn; [discriminate|]. intros H. injection H as <-. split; auto. intros E. apply xscalar_iff in E. congruence. Qed.
  Lemma cond_err (a b c : xgem F) x : mk_conditional a b c = Err x -> x = AssertionError /\ (xshape a <> [] \/ xshape b <> [] \/ xshape c <> []).
  Proof.
    unfold mk_conditional. destruct (xscalar a) eqn:A; cbn.
    - destruct (list_eqb _ _ _) eqn:E; cbn; [discriminate|]. intros H. injection H as <-. split; auto. right.
      destruct (xshape b), (xshape c); [discriminate E|right; discriminate|left; discriminate|left; discriminate].
    - intros H. injection H as <-. split; auto. left. intros E. apply xscalar_iff in E. congruence.
  Qed.

  Definition typed (e : snode F) : Prop := forall g, tr e = Ok g -> has e (xshape g).
  Lemma reduce_typed con l : (forall a b, xshape (con a b) = []) -> Forall typed l -> forall acc g, reduce_args tr con acc l = Ok g ->
    (l = [] -> g = acc) /\ (l <> [] -> xshape acc = [] /\ xshape g = [] /\ Forall (fun x => has x []) l).
  Proof.
    intros C. induction 1 as [|y l Hy Hl IH]; intros acc g H; cbn [reduce_args] in H.
    - injection H as <-. split; [reflexivity|congruence].
    - split; [discriminate|intros _]. apply bind_ok in H as (gy & Ty & H). apply bind_ok in H as (acc' & M & H). apply mk2_ok' in M as (-> & A & B).
      destruct (IH _ _ H) as [I0 I1]. specialize (Hy gy Ty). rewrite B in Hy. destruct l as [|z l].
      + rewrite (I0 eq_refl). repeat split; auto.
      + destruct I1 as (_ & Sg & L); [discriminate|]. repeat split; auto.
  Qed.
  Lemma reduce_map_typed con e l g : chain e l -> (forall a b, xshape (con a b) = []) -> Forall typed l -> reduce_map tr con l = Ok g -> has e (xshape g).
  Proof.
    intros E C L H. destruct l as [|y l]; [discriminate H|]. cbn [reduce_map] in H. apply bind_ok in H as (gy & Ty & H).
    inversion L as [|? ? Hy Hl]; subst. destruct (reduce_typed con l C Hl _ _ H) as [I0 I1]. destruct l as [|z l].
    - rewrite (I0 eq_refl). eapply hs_one; eauto.
    - destruct I1 as (A & -> & K); [discriminate|]. specialize (Hy gy Ty). rewrite A in Hy. eapply hs_many; eauto.
  Qed.
  Lemma not_certain (c : snode F) : certainly c = false -> forall k, c <> SBool k true.
  Proof. intros H k ->. discriminate H. Qed.

  Lemma all_typed e : typed e.
  Proof.
    induction e using snode_induction; intros g T; cbn [sympy2gem] in T.
    - eapply (reduce_map_typed XSum); eauto. left. reflexivity.
    - eapply (reduce_map_typed XProduct); eauto. right. left. reflexivity.
    - apply bind_ok in T as (x & Tx & T). apply bind_ok in T as (y & Ty & T). apply mk2_ok' in T as (-> & A & B).
      constructor; [rewrite <- A|rewrite <- B]; auto.
    - destruct k; try discriminate T; injection T as <-; constructor; discriminate.
    - injection T as <-. constructor.
    - injection T as <-. constructor.
    - apply bind_ok in T as (x & Tx & T). injection T as <-. constructor. exists x. auto.
    - apply mk2_ok' in T as (-> & _). constructor.
    - apply bind_ok in T as (x & Tx & T). apply mk1_ok' in T as (-> & A). constructor. rewrite <- A. auto.
    - apply bind_ok in T as (x & Tx & T). apply mk1_ok' in T as (-> & A). constructor. rewrite <- A. auto.
    - eapply (reduce_map_typed XLogicalOr); eauto. right. right. left. reflexivity.
    - eapply (reduce_map_typed XLogicalAnd); eauto. right. right. right. reflexivity.
    - apply bind_ok in T as (x & Tx & T). apply bind_ok in T as (y & Ty & T). apply mk2_ok' in T as (-> & A & B).
      constructor; [rewrite <- A|rewrite <- B]; auto.
    - revert g T. induction H as [|[x c] l [Hx Hc] Hl IH]; intros g T.
      + injection T as <-. constructor.
      + cbn [piecewise fst snd] in *. destruct (certainly c) eqn:Cc.
        { destruct c; try discriminate Cc. cbn in Cc. subst b. apply hs_certain. exact (Hx g T). }
        apply bind_ok in T as (ge & Te & T). apply bind_ok in T as (gc & Tc & T). apply bind_ok in T as (gv & Tv & T).
        apply cond_ok' in T as (-> & A & B). cbn [xshape]. apply hs_piece; [exact (not_certain c Cc)|exact (Hx gv Tv)|rewrite <- A; exact (Hc gc Tc)|].
        rewrite B. exact (IH ge Te).
    - apply bind_ok in T as (gc & Tc & T). apply bind_ok in T as (gv & Tv & T). apply bind_ok in T as (ge & Te & T).
      apply cond_ok' in T as (-> & A & B). cbn [xshape]. apply hs_ite; [rewrite <- A; exact (IHe1 gc Tc)|exact (IHe2 gv Tv)|rewrite B; exact (IHe3 ge Te)].
    - discriminate.
    - discriminate.
  Qed.

  Definition gives (e : snode F) (s : list nat) : Prop := exists g, tr e = Ok g /\ xshape g = s.
  Lemma reduce_gives con l : (forall a b, xshape (con a b) = []) -> Forall (fun x => gives x []) l -> forall acc, xshape acc = [] ->
    exists g, reduce_args tr con acc l = Ok g /\ xshape g = [].
  Proof.
    intros C. induction 1 as [|y l (gy & Ty & Sy) Hl IH]; intros acc A; cbn [reduce_args]; [eauto|].
    rewrite Ty. cbn [bind]. rewrite mk2_mk by assumption. cbn [bind]. apply IH, C.
  Qed.
  Lemma reduce_map_gives con a l : (forall a b, xshape (con a b) = []) -> Forall (fun x => gives x []) (a :: l) ->
    exists g, reduce_map tr con (a :: l) = Ok g /\ xshape g = [].
  Proof.
    intros C H. inversion H as [|? ? (ga & Ta & Sa) Hl]; subst. cbn [reduce_map]. rewrite Ta. cbn [bind]. apply reduce_gives; auto.
  Qed.
  Lemma shape_gives e s : has e s -> gives e s.
  Proof.
    revert e s. fix IH 3. intros e s H.
    assert (ALL : forall l, Forall (fun x => has x []) l -> Forall (fun x => gives x []) l).
    { fix ALL 2. intros l L. destruct L as [|y l Hy Hl]; constructor; [exact (IH y [] Hy)|exact (ALL l Hl)]. }
    destruct H as [e a s E H|e a b l E L|a b A B|k b N|z|x|n s B|p q|a A|a A|r a b A B| |v k r s V|v c r s N V C R|c t e s C T E].
    - destruct (IH _ _ H) as (g & T & S). exists g. split; [|exact S].
      destruct E as [E|[E|[E|E]]]; subst e; cbn [sympy2gem reduce_map]; rewrite T; reflexivity.
    - pose proof (ALL _ L) as G. destruct E as [E|[E|[E|E]]]; subst e; unfold gives; cbn [sympy2gem]; apply reduce_map_gives; auto.
    - destruct (IH _ _ A) as (ga & Ta & Sa), (IH _ _ B) as (gb & Tb & Sb). unfold gives. cbn [sympy2gem]. rewrite Ta, Tb. cbn [bind].
      rewrite mk2_mk by assumption. eauto.
    - destruct k; [eexists; split; reflexivity|eexists; split; reflexivity|congruence].
    - eexists; split; reflexivity.
    - eexists; split; reflexivity.
    - destruct B as (g & G & S). exists (XGem g). split; [cbn [sympy2gem]; rewrite G; reflexivity|exact S].
    - eexists; split; reflexivity.
    - destruct (IH _ _ A) as (ga & Ta & Sa). unfold gives. cbn [sympy2gem]. rewrite Ta. cbn [bind]. rewrite mk1_mk by assumption. eauto.
    - destruct (IH _ _ A) as (ga & Ta & Sa). unfold gives. cbn [sympy2gem]. rewrite Ta. cbn [bind]. rewrite mk1_mk by assumption. eauto.
    - destruct (IH _ _ A) as (ga & Ta & Sa), (IH _ _ B) as (gb & Tb & Sb). unfold gives. cbn [sympy2gem]. rewrite Ta, Tb. cbn [bind].
      rewrite mk2_mk by assumption. eauto.
    - eexists; split; reflexivity.
    - destruct (IH _ _ V) as (g & T & S). exists g. split; [exact T|exact S].
    - destruct (IH _ _ V) as (gv & Tv & Sv), (IH _ _ C) as (gc & Tc & Sc), (IH _ _ R) as (gr & Tr & Sr). unfold gives. cbn [sympy2gem piecewise].
      assert (Cc : certainly c = false) by (destruct c; try reflexivity; destruct b; [destruct (N k eq_refl)|reflexivity]). rewrite Cc.
      change (piecewise nan tr r) with (tr (SPiecewise r)). rewrite Tr. cbn [bind]. rewrite Tc. cbn [bind]. rewrite Tv. cbn [bind].
      rewrite cond_mk by congruence. eauto.
    - destruct (IH _ _ C) as (gv & Tv & Sv), (IH _ _ T) as (gc & Tc & Sc), (IH _ _ E) as (gr & Tr & Sr). unfold gives. cbn [sympy2gem].
      rewrite Tv. cbn [bind]. rewrite Tc. cbn [bind]. rewrite Tr. cbn [bind]. rewrite cond_mk by congruence. eauto.
  Qed.
  Theorem translation_shapes e s : (exists g, tr e = Ok g /\ xshape g = s) <-> has e s.
  Proof. split; [intros (g & T & <-); exact (all_typed e g T)|apply shape_gives]. Qed.

  (** Other errors come from a tensor. *)
  Definition tensor_in (e : snode F) : Prop := exists m s, part m e /\ has m s /\ s <> [].
  Definition explained' (e : snode F) : Prop := forall x, tr e = Err x ->
    (exists m, part m e /\ blame (bound bindings) m x) \/ (x = AssertionError /\ tensor_in e).
  Lemma tensor_part e g : tr e = Ok g -> xshape g <> [] -> tensor_in e.
  Proof. intros T N. exists e, (xshape g). split; [constructor|]. split; [exact (all_typed e g T)|exact N]. Qed.
  Lemma up (x : exn) (a e : snode F) : (forall m, part m a -> part m e) ->
    (exists m, part m a /\ blame (bound bindings) m x) \/ (x = AssertionError /\ tensor_in a) ->
    (exists m, part m e /\ blame (bound bindings) m x) \/ (x = AssertionError /\ tensor_in e).
  Proof. intros U [(m & P & B)|(-> & m & s & P & H)]; [left|right; split; auto]; [exists m|exists m, s]; auto. Qed.
  Lemma up_tensor (x : exn) (a e : snode F) : (forall m, part m a -> part m e) -> x = AssertionError -> tensor_in a ->
    (exists m, part m e /\ blame (bound bindings) m x) \/ (x = AssertionError /\ tensor_in e).
  Proof. intros U E T. apply (up x a e U). auto. Qed.
  Lemma reduce_err' con l x : (forall a b, xshape (con a b) = []) -> Forall explained' l -> forall acc, reduce_args tr con acc l = Err x ->
    (x = AssertionError /\ xshape acc <> []) \/ exists y, In y l /\ ((exists m, part m y /\ blame (bound bindings) m x) \/ (x = AssertionError /\ tensor_in y)).
  Proof.
    intros C. induction 1 as [|y l Hy Hl IH]; intros acc H; cbn [reduce_args] in H; [discriminate H|].
    apply bind_err in H as [H|(gy & Ty & H)]; [right; exists y; split; [left; reflexivity|exact (Hy x H)]|].
    apply bind_err in H as [H|(acc' & M & H)].
    - apply mk2_err in H as (-> & [A|B]); [left; auto|right; exists y; split; [left; reflexivity|]]. right. split; auto. exact (tensor_part y gy Ty B).
    - apply mk2_ok in M as ->. destruct (IH _ H) as [(-> & N)|(z & Hz & G)]; [destruct (N (C _ _))|]. right. exists z. split; [right; exact Hz|exact G].
  Qed.
  Lemma reduce_map_err' con l x : (forall a b, xshape (con a b) = []) -> Forall explained' l -> reduce_map tr con l = Err x ->
    (l = [] /\ x = TypeError) \/ exists y, In y l /\ ((exists m, part m y /\ blame (bound bindings) m x) \/ (x = AssertionError /\ tensor_in y)).
  Proof.
    intros C L H. destruct l as [|y l]; [left; injection H as <-; auto|right]. inversion L as [|? ? Hy Hl]; subst.
    cbn [reduce_map] in H. apply bind_err in H as [H|(gy & Ty & H)]; [exists y; split; [left; reflexivity|exact (Hy x H)]|].
    destruct (reduce_err' con l x C Hl gy H) as [(-> & N)|(z & Hz & G)].
    - exists y. split; [left; reflexivity|]. right. split; auto. exact (tensor_part y gy Ty N).
    - exists z. split; [right; exact Hz|exact G].
  Qed.
  (** A tensor that is the value of a Piecewise is that of one of the pieces. *)
  Lemma piece_tensor l g : piecewise nan tr l = Ok g -> xshape g <> [] -> exists v c gv, In (v, c) l /\ tr v = Ok gv /\ xshape gv <> [].
  Proof.
    destruct l as [|[v c] l]; cbn [piecewise]; intros T N; [injection T as <-; destruct (N eq_refl)|]. exists v, c. destruct (certainly c).
    - exists g. cbn. auto.
    - apply bind_ok in T as (ge & Te & T). apply bind_ok in T as (gc & Tc & T). apply bind_ok in T as (gv & Tv & T).
      apply cond_ok in T as ->. exists gv. cbn. auto.
  Qed.
  Theorem translation_errors' e : explained' e.
  Proof.
    induction e using snode_induction; intros err T; cbn [sympy2gem] in T.
    - apply reduce_map_err' in T as [[-> ->]|(y & Hy & G)]; auto; [left; exists (SAdd []); split; [constructor|cbn; auto]|].
      eapply up; [|exact G]. intros m. exact (part_add m y l Hy).
    - apply reduce_map_err' in T as [[-> ->]|(y & Hy & G)]; auto; [left; exists (SMul []); split; [constructor|cbn; auto]|].
      eapply up; [|exact G]. intros m. exact (part_mul m y l Hy).
    - assert (U1 : forall m, part m e1 -> part m (SPow e1 e2)) by (intros m; apply part_pow; cbn; auto).
      assert (U2 : forall m, part m e2 -> part m (SPow e1 e2)) by (intros m; apply part_pow; cbn; auto).
      apply bind_err in T as [T|(g1 & T1 & T)]; [exact (up _ _ _ U1 (IHe1 err T))|].
      apply bind_err in T as [T|(g2 & T2 & T)]; [exact (up _ _ _ U2 (IHe2 err T))|].
      apply mk2_err in T as (E & [N|N]); [exact (up_tensor _ _ _ U1 E (tensor_part _ _ T1 N))|exact (up_tensor _ _ _ U2 E (tensor_part _ _ T2 N))].
    - destruct k; try discriminate T. injection T as <-. left. exists (SBool BNumpy b). split; [constructor|reflexivity].
    - discriminate T.
    - discriminate T.
    - apply bind_err in T as [T|(g1 & T1 & T)]; [|discriminate T]. left. exists (SSymbol s). split; [constructor|].
      split; [|exact (dict_get_err _ _ _ T)]. intros [g G]. congruence.
    - discriminate T.
    - assert (U : forall m, part m e -> part m (SAbs e)) by (intros m; apply part_abs).
      apply bind_err in T as [T|(g1 & T1 & T)]; [exact (up _ _ _ U (IHe err T))|].
      apply mk1_err in T as (E & N). exact (up_tensor _ _ _ U E (tensor_part _ _ T1 N)).
    - assert (U : forall m, part m e -> part m (SNot e)) by (intros m; apply part_not).
      apply bind_err in T as [T|(g1 & T1 & T)]; [exact (up _ _ _ U (IHe err T))|].
      apply mk1_err in T as (E & N). exact (up_tensor _ _ _ U E (tensor_part _ _ T1 N)).
    - apply reduce_map_err' in T as [[-> ->]|(y & Hy & G)]; auto; [left; exists (SOr []); split; [constructor|cbn; auto]|].
      eapply up; [|exact G]. intros m. exact (part_or m y l Hy).
    - apply reduce_map_err' in T as [[-> ->]|(y & Hy & G)]; auto; [left; exists (SAnd []); split; [constructor|cbn; auto]|].
      eapply up; [|exact G]. intros m. exact (part_and m y l Hy).
    - assert (U1 : forall m, part m e1 -> part m (SRel r e1 e2)) by (intros m; apply part_rel; cbn; auto).
      assert (U2 : forall m, part m e2 -> part m (SRel r e1 e2)) by (intros m; apply part_rel; cbn; auto).
      apply bind_err in T as [T|(g1 & T1 & T)]; [exact (up _ _ _ U1 (IHe1 err T))|].
      apply bind_err in T as [T|(g2 & T2 & T)]; [exact (up _ _ _ U2 (IHe2 err T))|].
      apply mk2_err in T as (E & [N|N]); [exact (up_tensor _ _ _ U1 E (tensor_part _ _ T1 N))|exact (up_tensor _ _ _ U2 E (tensor_part _ _ T2 N))].
    - assert (K : piecewise nan tr l = Err err -> exists v c y, In (v, c) l /\ In y [v; c] /\
        ((exists m, part m y /\ blame (bound bindings) m err) \/ (err = AssertionError /\ tensor_in y))).
      { clear T. induction H as [|[v c] l [Hv Hc] Hl IH]; intros T; [discriminate T|]. cbn [piecewise fst snd] in *.
        destruct (certainly c) eqn:Cc.
        - exists v, c, v. cbn. auto.
        - apply bind_err in T as [T|(ge & Te & T)].
          { destruct (IH T) as (v' & c' & y & I & J & G). exists v', c', y. cbn [In] in *. auto. }
          apply bind_err in T as [T|(gc & Tc & T)]; [exists v, c, c; cbn; auto|].
          apply bind_err in T as [T|(gv & Tv & T)]; [exists v, c, v; cbn; auto|].
          apply cond_err in T as (E & [N|[N|N]]).
          + exists v, c, c. cbn. pose proof (tensor_part c gc Tc N). auto 10.
          + exists v, c, v. cbn. pose proof (tensor_part v gv Tv N). auto 10.
          + destruct (piece_tensor l ge Te N) as (v' & c' & gv' & I & Tv' & N'). exists v', c', v'. cbn. pose proof (tensor_part v' gv' Tv' N'). auto 10. }
      destruct (K T) as (v & c & y & I & J & G). eapply up; [|exact G]. intros m. exact (part_piece m y v c l I J).
    - assert (U1 : forall m, part m e1 -> part m (SITE e1 e2 e3)) by (intros m; apply part_ite; cbn; auto).
      assert (U2 : forall m, part m e2 -> part m (SITE e1 e2 e3)) by (intros m; apply part_ite; cbn; auto).
      assert (U3 : forall m, part m e3 -> part m (SITE e1 e2 e3)) by (intros m; apply part_ite; cbn; auto).
      apply bind_err in T as [T|(g1 & T1 & T)]; [exact (up _ _ _ U1 (IHe1 err T))|].
      apply bind_err in T as [T|(g2 & T2 & T)]; [exact (up _ _ _ U2 (IHe2 err T))|].
      apply bind_err in T as [T|(g3 & T3 & T)]; [exact (up _ _ _ U3 (IHe3 err T))|].
      apply cond_err in T as (E & [N|[N|N]]);
        [exact (up_tensor _ _ _ U1 E (tensor_part _ _ T1 N))|exact (up_tensor _ _ _ U2 E (tensor_part _ _ T2 N))|exact (up_tensor _ _ _ U3 E (tensor_part _ _ T3 N))].
    - injection T as <-. left. exists SExpr. split; [constructor|reflexivity].
    - injection T as <-. left. exists SForeign. split; [constructor|reflexivity].
  Qed.
End Shapes.
