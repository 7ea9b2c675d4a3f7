(** The translation of sympy expressions keeps their meaning. *)
From Coq Require Import String List Bool ZArith Lia.
From Verif Require Import Model.Prelude Model.Gem Model.Sympy2Gem Spec.Sympy.
Import ListNotations.

(** Induction over nodes with lists of nodes. *)
Section Induction.
  Context {F : Type} (P : snode F -> Prop).
  Hypothesis Hadd : forall l, Forall P l -> P (SAdd l).
  Hypothesis Hmul : forall l, Forall P l -> P (SMul l).
  Hypothesis Hpow : forall a b, P a -> P b -> P (SPow a b).
  Hypothesis Hbool : forall k b, P (SBool k b).
  Hypothesis Hint : forall z, P (SInteger z).
  Hypothesis Hfloat : forall x, P (SFloat x).
  Hypothesis Hsym : forall s, P (SSymbol s).
  Hypothesis Hrat : forall p q, P (SRational p q).
  Hypothesis Habs : forall a, P a -> P (SAbs a).
  Hypothesis Hnot : forall a, P a -> P (SNot a).
  Hypothesis Hor : forall l, Forall P l -> P (SOr l).
  Hypothesis Hand : forall l, Forall P l -> P (SAnd l).
  Hypothesis Hrel : forall r a b, P a -> P b -> P (SRel r a b).
  Hypothesis Hpiece : forall l, Forall (fun vc => P (fst vc) /\ P (snd vc)) l -> P (SPiecewise l).
  Hypothesis Hite : forall a b c, P a -> P b -> P c -> P (SITE a b c).
  Hypothesis Hexpr : P SExpr.
  Hypothesis Hforeign : P SForeign.
  Fixpoint snode_induction (e : snode F) : P e :=
    let all := fix all (l : list (snode F)) : Forall P l :=
      match l with [] => Forall_nil _ | x :: r => Forall_cons _ (snode_induction x) (all r) end in
    let pairs := fix pairs (l : list (snode F * snode F)) : Forall (fun vc => P (fst vc) /\ P (snd vc)) l :=
      match l with
      | [] => Forall_nil _
      | (v, c) :: r => @Forall_cons _ (fun vc => P (fst vc) /\ P (snd vc)) (v, c) r (conj (snode_induction v) (snode_induction c)) (pairs r)
      end in
    match e with
    | SAdd l => Hadd l (all l) | SMul l => Hmul l (all l)
    | SPow a b => Hpow a b (snode_induction a) (snode_induction b)
    | SBool k b => Hbool k b | SInteger z => Hint z | SFloat x => Hfloat x | SSymbol s => Hsym s
    | SRational p q => Hrat p q
    | SAbs a => Habs a (snode_induction a) | SNot a => Hnot a (snode_induction a)
    | SOr l => Hor l (all l) | SAnd l => Hand l (all l)
    | SRel r a b => Hrel r a b (snode_induction a) (snode_induction b)
    | SPiecewise l => Hpiece l (pairs l)
    | SITE a b c => Hite a b c (snode_induction a) (snode_induction b) (snode_induction c)
    | SExpr => Hexpr | SForeign => Hforeign
    end.
End Induction.

Lemma bind_ok {A B} (r : result A) (f : A -> result B) b : bind r f = Ok b -> exists a, r = Ok a /\ f a = Ok b.
Proof. destruct r as [a|x]; intros H; [exists a; auto|discriminate]. Qed.
Lemma guard_ok c x u : guard c x = Ok u -> c = true.
Proof. destruct c; [reflexivity|discriminate]. Qed.

Section Sound.
  Context {F : Type} (o : ops F) (xo : xops F) (ofZ : Z -> F) (nan : F).
  Hypothesis add_assoc : forall x y z, fadd o x (fadd o y z) = fadd o (fadd o x y) z.
  Hypothesis add_0 : forall x, fadd o x (f0 o) = x.
  Hypothesis mul_assoc : forall x y z, fmul o x (fmul o y z) = fmul o (fmul o x y) z.
  Hypothesis mul_1 : forall x, fmul o x (f1 o) = x.
  Hypothesis eq_0 : xeq xo (f0 o) (f0 o) = true.
  Hypothesis neq_1 : xeq xo (f1 o) (f0 o) = false.
  Context (bindings : list (string * gem F)) (vars : string -> list nat -> F) (env : nat -> nat).
  Context (rho : string -> option F).
  Hypothesis assigned : forall s x g, rho s = Some x -> dict_get String.eqb bindings s = Ok g -> eval o vars g env [] = x.
  Notation tr := (sympy2gem o ofZ nan bindings).
  Notation mean := (smean o xo ofZ nan rho).
  Notation xev := (xeval o xo vars env).
  Notation agr := (agrees o xo).
  Definition sound (e : snode F) : Prop := forall g v, tr e = Ok g -> mean e = Some v -> agr v (xev g).

  Lemma mk2_ok f (a b g : xgem F) : mk2 f a b = Ok g -> g = f a b.
  Proof. unfold mk2. intros H. apply bind_ok in H as (u & _ & H). injection H as <-. reflexivity. Qed.
  Lemma mk1_ok f (a g : xgem F) : mk1 f a = Ok g -> g = f a.
  Proof. unfold mk1. intros H. apply bind_ok in H as (u & _ & H). injection H as <-. reflexivity. Qed.
  Lemma cond_ok (a b c g : xgem F) : mk_conditional a b c = Ok g -> g = XConditional a b c.
  Proof. unfold mk_conditional. intros H. apply bind_ok in H as (u & _ & H). apply bind_ok in H as (u' & _ & H). injection H as <-. reflexivity. Qed.

  Lemma num_some v x : num v = Some x -> v = Some (VNum (F:=F) x).
  Proof. destruct v as [[y|y]|]; cbn; congruence. Qed.
  Lemma truthvalue_some v x : truthvalue v = Some x -> v = Some (VBool (F:=F) x).
  Proof. destruct v as [[y|y]|]; cbn; congruence. Qed.

  Lemma sound_num e g x : sound e -> tr e = Ok g -> num (mean e) = Some x -> xev g = Some (VNum x).
  Proof. intros S T H. apply num_some in H. exact (S g _ T H). Qed.
  Lemma sound_bool e g b : sound e -> tr e = Ok g -> truthvalue (mean e) = Some b -> exists u, xev g = Some u /\ truth o xo u = b.
  Proof. intros S T H. apply truthvalue_some in H. exact (S g _ T H). Qed.

  Lemma nums_cons v (l : list (option (value F))) (xs : list F) : nums (v :: l) = Some xs -> exists x ys, num v = Some x /\ nums l = Some ys /\ xs = x :: ys.
  Proof.
    unfold nums. cbn [fold_right]. destruct (num v) as [x|]; [|discriminate]. intros H.
    destruct (fold_right _ (Some []) l) as [ys|]; [|discriminate]. injection H as <-. exists x, ys. auto.
  Qed.
  Lemma truths_cons v (l : list (option (value F))) (xs : list bool) : truths (v :: l) = Some xs -> exists x ys, truthvalue v = Some x /\ truths l = Some ys /\ xs = x :: ys.
  Proof.
    unfold truths. cbn [fold_right]. destruct (truthvalue v) as [x|]; [|discriminate]. intros H.
    destruct (fold_right _ (Some []) l) as [ys|]; [|discriminate]. injection H as <-. exists x, ys. auto.
  Qed.

  (** Sums and products. *)
  Section Numeric.
    Variables (op : F -> F -> F) (e : F) (con : xgem F -> xgem F -> xgem F).
    Hypothesis assoc : forall x y z, op x (op y z) = op (op x y) z.
    Hypothesis unit : forall x, op x e = x.
    Hypothesis con_eval : forall a b, xev (con a b) = omap2 (fun x y => VNum (op x y)) (num (xev a)) (num (xev b)).
    Lemma reduce_num l : Forall sound l -> forall acc a g xs, xev acc = Some (VNum a) ->
      reduce_args tr con acc l = Ok g -> nums (map mean l) = Some xs -> xev g = Some (VNum (op a (fold_right op e xs))).
    Proof.
      induction 1 as [|y l Hy Hl IH]; intros acc a g xs Ha H Hx; cbn [reduce_args reduce_map map] in H, Hx.
      - injection H as <-. injection Hx as <-. cbn [fold_right]. rewrite unit. exact Ha.
      - apply bind_ok in H as (gy & Ty & H). apply bind_ok in H as (acc' & M & H). apply mk2_ok in M as ->.
        apply nums_cons in Hx as (x & xs' & Ny & Nl & ->).
        assert (Ey := sound_num y gy x Hy Ty Ny).
        cbn [fold_right]. rewrite assoc. eapply IH; [|exact H|exact Nl].
        rewrite con_eval, Ha, Ey. reflexivity.
    Qed.
    Lemma reduce_map_num l : Forall sound l -> forall g xs, reduce_map tr con l = Ok g -> nums (map mean l) = Some xs ->
      xev g = Some (VNum (fold_right op e xs)).
    Proof.
      intros Hl g xs H Hx. destruct l as [|y l]; [discriminate H|]. inversion Hl as [|? ? Hy Hl']; subst.
      cbn [reduce_args reduce_map map] in H, Hx. apply bind_ok in H as (gy & Ty & H).
      apply nums_cons in Hx as (x & xs' & Ny & Nl & ->).
      cbn [fold_right]. exact (reduce_num l Hl' gy x g xs' (sound_num y gy x Hy Ty Ny) H Nl).
    Qed.
  End Numeric.

  (** Disjunctions and conjunctions. *)
  Section Logical.
    Variables (op : bool -> bool -> bool) (all : list bool -> bool) (con : xgem F -> xgem F -> xgem F).
    Hypothesis all_cons : forall b l, all (b :: l) = op b (all l).
    Hypothesis all_nil : forall b, op b (all []) = b.
    Hypothesis assoc : forall x y z, op x (op y z) = op (op x y) z.
    Hypothesis con_eval : forall a b, xev (con a b) = omap2 (fun x y => VBool (op (truth o xo x) (truth o xo y))) (xev a) (xev b).
    Lemma reduce_bool l : Forall sound l -> forall acc a g bs, (exists u, xev acc = Some u /\ truth o xo u = a) ->
      reduce_args tr con acc l = Ok g -> truths (map mean l) = Some bs -> exists u, xev g = Some u /\ truth o xo u = op a (all bs).
    Proof.
      induction 1 as [|y l Hy Hl IH]; intros acc a g xs Ha H Hx; cbn [reduce_args reduce_map map] in H, Hx.
      - injection H as <-. injection Hx as <-. rewrite all_nil. exact Ha.
      - apply bind_ok in H as (gy & Ty & H). apply bind_ok in H as (acc' & M & H). apply mk2_ok in M as ->.
        apply truths_cons in Hx as (x & xs' & Ny & Nl & ->).
        destruct (sound_bool y gy x Hy Ty Ny) as (u & Eu & Tu). destruct Ha as (w & Ew & Tw).
        rewrite all_cons, assoc. eapply IH; [|exact H|exact Nl].
        exists (VBool (op a x)). rewrite con_eval, Ew, Eu. cbn. rewrite Tu, Tw. split; reflexivity.
    Qed.
    Lemma reduce_map_bool l : Forall sound l -> forall g bs, reduce_map tr con l = Ok g -> truths (map mean l) = Some bs ->
      exists u, xev g = Some u /\ truth o xo u = all bs.
    Proof.
      intros Hl g xs H Hx. destruct l as [|y l]; [discriminate H|]. inversion Hl as [|? ? Hy Hl']; subst.
      cbn [reduce_args reduce_map map] in H, Hx. apply bind_ok in H as (gy & Ty & H).
      apply truths_cons in Hx as (x & xs' & Ny & Nl & ->).
      rewrite all_cons. exact (reduce_bool l Hl' gy x g xs' (sound_bool y gy x Hy Ty Ny) H Nl).
    Qed.
  End Logical.

  Lemma gcompare_relop r x y : gcompare xo (relop r) x y = Some (compare xo r x y).
  Proof. destruct r; reflexivity. Qed.

  Lemma sound_cond c t e gc gt ge v : sound c -> sound t -> tr c = Ok gc -> tr t = Ok gt ->
    match truthvalue (mean c) with Some true => mean t | Some false => e | None => None end = Some v ->
    (e = Some v -> agr v (xev ge)) -> agr v (xev (XConditional gc gt ge)).
  Proof.
    intros Sc St Tc Tt H He. destruct (truthvalue (mean c)) as [b|] eqn:Nc; [|discriminate].
    destruct (sound_bool c gc b Sc Tc Nc) as (u & Eu & Tu). cbn [xeval]. rewrite Eu, Tu. destruct b; auto.
  Qed.

  Theorem translation_sound e g v : tr e = Ok g -> mean e = Some v -> agr v (xev g).
  Proof.
    revert g v. change (sound e). induction e using snode_induction; intros g v T M; cbn [sympy2gem smean] in T, M.
    - destruct (nums _) as [xs|] eqn:N in M; [|discriminate]. injection M as <-.
      eapply (reduce_map_num (fadd o) (f0 o) XSum); eauto.
    - destruct (nums _) as [xs|] eqn:N in M; [|discriminate]. injection M as <-.
      eapply (reduce_map_num (fmul o) (f1 o) XProduct); eauto.
    - apply bind_ok in T as (x & Tx & T). apply bind_ok in T as (y & Ty & T). apply mk2_ok in T as ->.
      destruct (num (mean e1)) as [a|] eqn:N1; [|discriminate]. destruct (num (mean e2)) as [b|] eqn:N2; [|discriminate].
      injection M as <-. cbn. rewrite (sound_num _ _ _ IHe1 Tx N1), (sound_num _ _ _ IHe2 Ty N2). reflexivity.
    - destruct k; try discriminate T; injection T as <-; injection M as <-; eexists; (split; [reflexivity|]);
        destruct b; cbn; rewrite ?eq_0, ?neq_1; reflexivity.
    - injection T as <-. injection M as <-. reflexivity.
    - injection T as <-. injection M as <-. reflexivity.
    - apply bind_ok in T as (x & Tx & T). injection T as <-. destruct (rho s) as [y|] eqn:R; [|discriminate M].
      injection M as <-. cbn. rewrite (assigned s y x R Tx). reflexivity.
    - apply mk2_ok in T as ->. injection M as <-. reflexivity.
    - apply bind_ok in T as (x & Tx & T). apply mk1_ok in T as ->.
      destruct (num (mean e)) as [a|] eqn:N1; [|discriminate]. injection M as <-. cbn. rewrite (sound_num _ _ _ IHe Tx N1). reflexivity.
    - apply bind_ok in T as (x & Tx & T). apply mk1_ok in T as ->.
      destruct (truthvalue (mean e)) as [a|] eqn:N1; [|discriminate]. injection M as <-.
      destruct (sound_bool _ _ _ IHe Tx N1) as (u & Eu & Tu). exists (VBool (negb a)). cbn. rewrite Eu. cbn. rewrite Tu. auto.
    - destruct (truths _) as [xs|] eqn:N in M; [|discriminate]. injection M as <-.
      eapply (reduce_map_bool orb (existsb (fun b => b)) XLogicalOr); eauto using orb_assoc, orb_false_r.
    - destruct (truths _) as [xs|] eqn:N in M; [|discriminate]. injection M as <-.
      eapply (reduce_map_bool andb (forallb (fun b => b)) XLogicalAnd); eauto using andb_assoc, andb_true_r.
    - apply bind_ok in T as (x & Tx & T). apply bind_ok in T as (y & Ty & T). apply mk2_ok in T as ->.
      destruct (num (mean e1)) as [a|] eqn:N1; [|discriminate]. destruct (num (mean e2)) as [b|] eqn:N2; [|discriminate].
      injection M as <-. exists (VBool (compare xo r a b)). cbn [xeval].
      rewrite (sound_num _ _ _ IHe1 Tx N1), (sound_num _ _ _ IHe2 Ty N2). cbn [num]. rewrite gcompare_relop. split; reflexivity.
    - revert g v T M. induction H as [|[x c] l [Hx Hc] Hl IH]; intros g v T M.
      + injection T as <-. injection M as <-. reflexivity.
      + cbn [piecewise fst snd] in *. destruct (certainly c) eqn:Cc.
        * destruct c; try discriminate Cc. cbn in Cc, M. subst b. exact (Hx g v T M).
        * apply bind_ok in T as (ge & Te & T). apply bind_ok in T as (gc & Tc & T). apply bind_ok in T as (gv & Tv & T).
          apply cond_ok in T as ->. eapply (sound_cond c x); eauto.
    - apply bind_ok in T as (gc & Tc & T). apply bind_ok in T as (gv & Tv & T). apply bind_ok in T as (ge & Te & T).
      apply cond_ok in T as ->. eapply (sound_cond e1 e2); eauto.
    - discriminate.
    - discriminate.
  Qed.
End Sound.

(** Which expressions can be translated. *)
Section Complete.
  Context {F : Type} (o : ops F) (ofZ : Z -> F) (nan : F) (bindings : list (string * gem F)).
  Notation tr := (sympy2gem o ofZ nan bindings).
  Definition bound (s : string) : Prop := exists g, dict_get String.eqb bindings s = Ok g.
  Hypothesis scalar : forall s g, dict_get String.eqb bindings s = Ok g -> gshape g = [].

  Definition good (e : snode F) : Prop := forall g, tr e = Ok g -> xshape g = [].
  Lemma reduce_shape con l : (forall a b, xshape (con a b) = []) -> forall acc g, xshape acc = [] -> reduce_args tr con acc l = Ok g -> xshape g = [].
  Proof using.
    intros C. induction l as [|y l IH]; intros acc g A H; cbn [reduce_args] in H; [injection H as <-; exact A|].
    apply bind_ok in H as (gy & Ty & H). apply bind_ok in H as (acc' & M & H). apply mk2_ok in M as ->. exact (IH _ g (C _ _) H).
  Qed.
  Lemma reduce_map_shape con l g : (forall a b, xshape (con a b) = []) -> Forall good l -> reduce_map tr con l = Ok g -> xshape g = [].
  Proof using.
    intros C L H. destruct l as [|y l]; [discriminate H|]. cbn [reduce_map] in H. apply bind_ok in H as (gy & Ty & H).
    inversion L as [|? ? Gy Gl]; subst. exact (reduce_shape con l C gy g (Gy gy Ty) H).
  Qed.
  Lemma all_good e : good e.
  Proof using scalar.
    induction e using snode_induction; intros g T; cbn [sympy2gem] in T.
    - eapply (reduce_map_shape XSum); eauto.
    - eapply (reduce_map_shape XProduct); eauto.
    - apply bind_ok in T as (x & Tx & T). apply bind_ok in T as (y & Ty & T). apply mk2_ok in T as ->. reflexivity.
    - destruct k; try discriminate T; injection T as <-; reflexivity.
    - injection T as <-. reflexivity.
    - injection T as <-. reflexivity.
    - apply bind_ok in T as (x & Tx & T). injection T as <-. exact (scalar s x Tx).
    - apply mk2_ok in T as ->. reflexivity.
    - apply bind_ok in T as (x & Tx & T). apply mk1_ok in T as ->. reflexivity.
    - apply bind_ok in T as (x & Tx & T). apply mk1_ok in T as ->. reflexivity.
    - eapply (reduce_map_shape XLogicalOr); eauto.
    - eapply (reduce_map_shape XLogicalAnd); eauto.
    - apply bind_ok in T as (x & Tx & T). apply bind_ok in T as (y & Ty & T). apply mk2_ok in T as ->. reflexivity.
    - revert g T. induction H as [|[x c] l [Hx Hc] Hl IH]; intros g T.
      + injection T as <-. reflexivity.
      + cbn [piecewise fst snd] in *. destruct (certainly c) eqn:Cc; [exact (Hx g T)|].
        apply bind_ok in T as (ge & Te & T). apply bind_ok in T as (gc & Tc & T). apply bind_ok in T as (gv & Tv & T).
        apply cond_ok in T as ->. exact (Hx gv Tv).
    - apply bind_ok in T as (gc & Tc & T). apply bind_ok in T as (gv & Tv & T). apply bind_ok in T as (ge & Te & T).
      apply cond_ok in T as ->. exact (IHe2 gv Tv).
    - discriminate.
    - discriminate.
  Qed.
  Lemma mk2_scalar con a b ga gb : tr a = Ok ga -> tr b = Ok gb -> mk2 con ga gb = Ok (con ga gb).
  Proof using scalar. intros A B. unfold mk2, xscalar. rewrite (all_good a ga A), (all_good b gb B). reflexivity. Qed.
  Lemma mk1_scalar con a ga : tr a = Ok ga -> mk1 con ga = Ok (con ga).
  Proof using scalar. intros A. unfold mk1, xscalar. rewrite (all_good a ga A). reflexivity. Qed.
  Lemma cond_scalar a b c ga gb gc : tr a = Ok ga -> tr b = Ok gb -> tr c = Ok gc -> mk_conditional ga gb gc = Ok (XConditional ga gb gc).
  Proof using scalar. intros A B C. unfold mk_conditional, xscalar. rewrite (all_good a ga A), (all_good b gb B), (all_good c gc C). reflexivity. Qed.

  Definition fine (e : snode F) : Prop := exists g, tr e = Ok g.
  Lemma reduce_fine con l : (forall a b, xshape (con a b) = []) -> Forall fine l -> forall acc, xshape acc = [] -> exists g, reduce_args tr con acc l = Ok g.
  Proof using scalar.
    intros C. induction 1 as [|y l [gy Ty] Hl IH]; intros acc A; cbn [reduce_args]; [eexists; reflexivity|].
    rewrite Ty. cbn [bind]. unfold mk2, xscalar at 1 2. rewrite A, (all_good y gy Ty). cbn [andb guard bind]. apply IH, C.
  Qed.
  Lemma reduce_map_fine con l : (forall a b, xshape (con a b) = []) -> l <> [] -> Forall fine l -> exists g, reduce_map tr con l = Ok g.
  Proof using scalar.
    intros C N L. destruct l as [|y l]; [congruence|]. inversion L as [|? ? [gy Ty] Hl]; subst.
    cbn [reduce_map]. rewrite Ty. cbn [bind]. apply reduce_fine; auto. exact (all_good y gy Ty).
  Qed.

  (** A Piecewise is translated from its tail. *)
  Lemma translatable_fine e : translatable bound e -> fine e.
  Proof using scalar.
    revert e. fix IH 2. intros e H.
    assert (ALL : forall l, Forall (translatable bound) l -> Forall fine l).
    { fix ALL 2. intros l L. destruct L as [|y l Hy Hl]; constructor; [exact (IH y Hy)|exact (ALL l Hl)]. }
    destruct H.
    - apply reduce_map_fine; auto.
    - apply reduce_map_fine; auto.
    - destruct (IH _ H) as [ga A], (IH _ H0) as [gb B]. unfold fine. cbn [sympy2gem]. rewrite A, B. cbn [bind]. rewrite (mk2_scalar _ a b) by assumption. eauto.
    - destruct k; [eexists; reflexivity|eexists; reflexivity|congruence].
    - eexists; reflexivity.
    - eexists; reflexivity.
    - destruct H as [g G]. unfold fine. cbn [sympy2gem]. rewrite G. eexists; reflexivity.
    - eexists; reflexivity.
    - destruct (IH _ H) as [ga A]. unfold fine. cbn [sympy2gem]. rewrite A. cbn [bind]. rewrite (mk1_scalar _ a) by assumption. eauto.
    - destruct (IH _ H) as [ga A]. unfold fine. cbn [sympy2gem]. rewrite A. cbn [bind]. rewrite (mk1_scalar _ a) by assumption. eauto.
    - apply reduce_map_fine; auto.
    - apply reduce_map_fine; auto.
    - destruct (IH _ H) as [ga A], (IH _ H0) as [gb B]. unfold fine. cbn [sympy2gem]. rewrite A, B. cbn [bind]. rewrite (mk2_scalar _ a b) by assumption. eauto.
    - eexists; reflexivity.
    - destruct (IH _ H) as [g G]. exists g. exact G.
    - destruct (IH _ H) as [gv V], (IH _ H0) as [gc C], (IH _ H1) as [gr R]. unfold fine. cbn [sympy2gem piecewise].
      destruct (certainly c); [eauto|]. change (piecewise nan tr r) with (tr (SPiecewise r)). rewrite R. cbn [bind]. rewrite C. cbn [bind]. rewrite V. cbn [bind].
      rewrite (cond_scalar c v (SPiecewise r)) by assumption. eauto.
    - destruct (IH _ H) as [gv V], (IH _ H0) as [gc C], (IH _ H1) as [gr R]. unfold fine. cbn [sympy2gem].
      rewrite V. cbn [bind]. rewrite C. cbn [bind]. rewrite R. cbn [bind].
      rewrite (cond_scalar c t e) by assumption. eauto.
  Qed.

  (** The converse holds whatever is bound. *)
  Lemma reduce_args_all con l acc g : reduce_args tr con acc l = Ok g -> Forall fine l.
  Proof using.
    revert acc. induction l as [|y l IH]; intros acc H; [constructor|]. cbn [reduce_args] in H.
    apply bind_ok in H as (gy & Ty & H). apply bind_ok in H as (acc' & M & H). constructor; [exists gy; exact Ty|exact (IH acc' H)].
  Qed.
  Lemma reduce_map_all con l g : reduce_map tr con l = Ok g -> l <> [] /\ Forall fine l.
  Proof using.
    intros H. destruct l as [|y l]; [discriminate H|]. split; [discriminate|]. cbn [reduce_map] in H.
    apply bind_ok in H as (gy & Ty & H). constructor; [exists gy; exact Ty|exact (reduce_args_all _ _ _ _ H)].
  Qed.
  Lemma all_translatable l : Forall (fun e => fine e -> translatable bound e) l -> Forall fine l -> Forall (translatable bound) l.
  Proof using. induction 1 as [|y l Hy Hl IH]; intros H; inversion H; subst; constructor; auto. Qed.
  Lemma fine_translatable e : fine e -> translatable bound e.
  Proof using.
    induction e using snode_induction; intros [g T]; cbn [sympy2gem] in T.
    - apply reduce_map_all in T as [N A]. constructor; [exact N|]. apply all_translatable; assumption.
    - apply reduce_map_all in T as [N A]. constructor; [exact N|]. apply all_translatable; assumption.
    - apply bind_ok in T as (x & Tx & T). apply bind_ok in T as (y & Ty & T). constructor; [apply IHe1|apply IHe2]; eexists; eassumption.
    - constructor. destruct k; [discriminate..|discriminate T].
    - constructor.
    - constructor.
    - apply bind_ok in T as (x & Tx & T). constructor. exists x. exact Tx.
    - constructor.
    - apply bind_ok in T as (x & Tx & T). constructor. apply IHe. eexists; eassumption.
    - apply bind_ok in T as (x & Tx & T). constructor. apply IHe. eexists; eassumption.
    - apply reduce_map_all in T as [N A]. constructor; [exact N|]. apply all_translatable; assumption.
    - apply reduce_map_all in T as [N A]. constructor; [exact N|]. apply all_translatable; assumption.
    - apply bind_ok in T as (x & Tx & T). apply bind_ok in T as (y & Ty & T). constructor; [apply IHe1|apply IHe2]; eexists; eassumption.
    - revert g T. induction H as [|[x c] l [Hx Hc] Hl IH]; intros g T; [constructor|].
      cbn [piecewise fst snd] in *. destruct (certainly c) eqn:Cc.
      + destruct c; try discriminate Cc. cbn in Cc. subst b. apply tr_certain. apply Hx. eexists; eassumption.
      + apply bind_ok in T as (ge & Te & T). apply bind_ok in T as (gc & Tc & T). apply bind_ok in T as (gv & Tv & T).
        apply tr_piece; [apply Hx; eexists; eassumption|apply Hc; eexists; eassumption|exact (IH ge Te)].
    - apply bind_ok in T as (gc & Tc & T). apply bind_ok in T as (gv & Tv & T). apply bind_ok in T as (ge & Te & T).
      constructor; [apply IHe1|apply IHe2|apply IHe3]; eexists; eassumption.
    - discriminate.
    - discriminate.
  Qed.
  Theorem translation_defined e : (exists g, tr e = Ok g) <-> translatable bound e.
  Proof using scalar. split; [apply fine_translatable|apply translatable_fine]. Qed.

  (** Errors come from a part without a translation. *)
  Definition guilty (x : exn) (e : snode F) : Prop := exists m, part m e /\ blame bound m x.
  Lemma bind_err {A B} (r : result A) (f : A -> result B) x : bind r f = Err x -> r = Err x \/ exists a, r = Ok a /\ f a = Err x.
  Proof using. destruct r as [a|y]; intros H; [right; exists a; auto|left; injection H as ->; reflexivity]. Qed.
  Definition explained (e : snode F) : Prop := forall x, tr e = Err x -> guilty x e.
  Lemma reduce_err con l x : (forall a b, xshape (con a b) = []) -> Forall explained l -> forall acc, xshape acc = [] -> reduce_args tr con acc l = Err x -> exists y, In y l /\ guilty x y.
  Proof using scalar.
    intros C. induction 1 as [|y l Hy Hl IH]; intros acc A H; cbn [reduce_args] in H; [discriminate H|].
    apply bind_err in H as [H|(gy & Ty & H)]; [exists y; split; [left; reflexivity|exact (Hy x H)]|].
    unfold mk2, xscalar at 1 2 in H. rewrite A, (all_good y gy Ty) in H. cbn [andb guard bind] in H.
    destruct (IH _ (C _ _) H) as (z & Hz & G). exists z. split; [right; exact Hz|exact G].
  Qed.
  Lemma reduce_map_err con l x : (forall a b, xshape (con a b) = []) -> Forall explained l -> reduce_map tr con l = Err x ->
    (l = [] /\ x = TypeError) \/ exists y, In y l /\ guilty x y.
  Proof using scalar.
    intros C L H. destruct l as [|y l]; [left; injection H as <-; auto|right]. inversion L as [|? ? Hy Hl]; subst.
    cbn [reduce_map] in H. apply bind_err in H as [H|(gy & Ty & H)]; [exists y; split; [left; reflexivity|exact (Hy x H)]|].
    destruct (reduce_err con l x C Hl gy (all_good y gy Ty) H) as (z & Hz & G). exists z. split; [right; exact Hz|exact G].
  Qed.
  Lemma dict_get_err (d : list (string * gem F)) s x : dict_get String.eqb d s = Err x -> x = KeyError.
  Proof using. induction d as [|[k v] d IH]; cbn; [congruence|]. destruct (String.eqb s k); [discriminate|exact IH]. Qed.
  Theorem translation_errors e err : tr e = Err err -> exists m, part m e /\ blame bound m err.
  Proof using scalar.
    revert err. induction e using snode_induction; intros err T; cbn [sympy2gem] in T.
    - apply reduce_map_err in T as [[-> ->]|(y & Hy & m & P & B)]; auto; [exists (SAdd []); split; [constructor|cbn; auto]|exists m; split; [econstructor; eauto|exact B]].
    - apply reduce_map_err in T as [[-> ->]|(y & Hy & m & P & B)]; auto; [exists (SMul []); split; [constructor|cbn; auto]|exists m; split; [econstructor; eauto|exact B]].
    - apply bind_err in T as [T|(g1 & T1 & T)]; [destruct (IHe1 err T) as (m & P & B); exists m; split; [apply (part_pow m e1); cbn; auto|exact B]|].
      apply bind_err in T as [T|(g2 & T2 & T)]; [destruct (IHe2 err T) as (m & P & B); exists m; split; [apply (part_pow m e2); cbn; auto|exact B]|].
      rewrite (mk2_scalar _ e1 e2) in T by assumption. discriminate T.
    - destruct k; try discriminate T. injection T as <-. exists (SBool BNumpy b). split; [constructor|reflexivity].
    - discriminate T.
    - discriminate T.
    - apply bind_err in T as [T|(g1 & T1 & T)]; [|discriminate T]. exists (SSymbol s). split; [constructor|].
      split; [|exact (dict_get_err _ _ _ T)]. intros [g G]. congruence.
    - discriminate T.
    - apply bind_err in T as [T|(g1 & T1 & T)]; [destruct (IHe err T) as (m & P & B); exists m; split; [constructor; exact P|exact B]|].
      rewrite (mk1_scalar _ e) in T by assumption. discriminate T.
    - apply bind_err in T as [T|(g1 & T1 & T)]; [destruct (IHe err T) as (m & P & B); exists m; split; [constructor; exact P|exact B]|].
      rewrite (mk1_scalar _ e) in T by assumption. discriminate T.
    - apply reduce_map_err in T as [[-> ->]|(y & Hy & m & P & B)]; auto; [exists (SOr []); split; [constructor|cbn; auto]|exists m; split; [econstructor; eauto|exact B]].
    - apply reduce_map_err in T as [[-> ->]|(y & Hy & m & P & B)]; auto; [exists (SAnd []); split; [constructor|cbn; auto]|exists m; split; [econstructor; eauto|exact B]].
    - apply bind_err in T as [T|(g1 & T1 & T)]; [destruct (IHe1 err T) as (m & P & B); exists m; split; [apply (part_rel m e1); cbn; auto|exact B]|].
      apply bind_err in T as [T|(g2 & T2 & T)]; [destruct (IHe2 err T) as (m & P & B); exists m; split; [apply (part_rel m e2); cbn; auto|exact B]|].
      rewrite (mk2_scalar _ e1 e2) in T by assumption. discriminate T.
    - assert (K : piecewise nan tr l = Err err -> exists v c m y, In (v, c) l /\ In y [v; c] /\ part m y /\ blame bound m err).
      { clear T. induction H as [|[v c] l [Hv Hc] Hl IH]; intros T; [discriminate T|]. cbn [piecewise fst snd] in *.
        destruct (certainly c) eqn:Cc.
        - destruct (Hv err T) as (m & P & B). exists v, c, m, v. cbn. auto.
        - apply bind_err in T as [T|(ge & Te & T)].
          { destruct (IH T) as (v' & c' & m & y & I & J & P & B). exists v', c', m, y. cbn [In] in *. auto. }
          apply bind_err in T as [T|(gc & Tc & T)]; [destruct (Hc err T) as (m & P & B); exists v, c, m, c; cbn; auto|].
          apply bind_err in T as [T|(gv & Tv & T)]; [destruct (Hv err T) as (m & P & B); exists v, c, m, v; cbn; auto|].
          rewrite (cond_scalar c v (SPiecewise l)) in T by assumption. discriminate T. }
      destruct (K T) as (v & c & m & y & I & J & P & B). exists m. split; [exact (part_piece m y v c l I J P)|exact B].
    - apply bind_err in T as [T|(g1 & T1 & T)]; [destruct (IHe1 err T) as (m & P & B); exists m; split; [apply (part_ite m e1); cbn; auto|exact B]|].
      apply bind_err in T as [T|(g2 & T2 & T)]; [destruct (IHe2 err T) as (m & P & B); exists m; split; [apply (part_ite m e2); cbn; auto|exact B]|].
      apply bind_err in T as [T|(g3 & T3 & T)]; [destruct (IHe3 err T) as (m & P & B); exists m; split; [apply (part_ite m e3); cbn; auto|exact B]|].
      rewrite (cond_scalar e1 e2 e3) in T by assumption. discriminate T.
    - injection T as <-. exists SExpr. split; [constructor|reflexivity].
    - injection T as <-. exists SForeign. split; [constructor|reflexivity].
  Qed.
End Complete.
