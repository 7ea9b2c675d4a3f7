(** Evaluation of FIAT elements at symbolic points. *)
From Coq Require Import String List Arith Lia Bool ZArith.
From Verif Require Import Model.Prelude Model.Cell Model.Element Model.EntityMaps Model.Gem Model.PointSet Model.Evaluation Model.Sympy2Gem Model.PointEvaluation.
From Verif Require Import Spec.Rowmajor Spec.EntityDofs Spec.Layout Spec.Sympy Spec.Tabulation Spec.PointEvaluation.
From Verif Require Import Proofs.Lists Proofs.Cells Proofs.Sympy
  Proofs.GemEval Proofs.Tables Proofs.Leaf Proofs.PointTree.
Import ListNotations.
Open Scope fresh_scope.

(* ------------------------------------------------------------------ *)
(** ** Nodes made by the translation, as GEM expressions *)

Section Nodes.
  Context {F : Type} (o : ops F) (xo : xops F) (ofZ : Z -> F) (nan : F) (fn : string -> list F -> F).
  Hypothesis HF : functions_ok o xo fn.
  Hypothesis eq_0 : xeq xo (f0 o) (f0 o) = true.
  Hypothesis neq_1 : xeq xo (f1 o) (f0 o) = false.
  Context (vars : string -> list nat -> F) (env : nat -> nat).
  Notation ev g := (eval o vars (gem_of fn g) env []).

  (** The number that stands for a value. *)
  Definition as_number (v : value F) : F := match v with VNum x => x | VBool b => number_of o b end.
  Lemma nonzero_as_number : forall v, nonzero o xo (as_number v) = truth o xo v.
  Proof using eq_0 neq_1. intros [x|[|]]; unfold nonzero; cbn [as_number number_of truth]; rewrite ?eq_0, ?neq_1; reflexivity. Qed.

  Lemma num_some : forall (v : option (value F)) x, num v = Some x -> v = Some (VNum x).
  Proof using. intros [[y|b]|] x H; cbn in H; congruence. Qed.

  Lemma gem_of_value : forall g v, xeval o xo vars env g = Some v -> ev g = as_number v.
  Proof using HF eq_0 neq_1.
    assert (N : forall a x, (forall v, xeval o xo vars env a = Some v -> ev a = as_number v) -> num (xeval o xo vars env a) = Some x -> ev a = x).
    { intros a x H E. apply num_some in E. exact (H _ E). }
    induction g as [g|x|a IHa b IHb|a IHa b IHb|a IHa b IHb|a IHa b IHb|f a IHa|op a IHa b IHb|a IHa|a IHa b IHb|a IHa b IHb|c IHc t IHt e IHe];
      intros v H; cbn [xeval gem_of eval map] in *.
    - injection H as <-. reflexivity.
    - injection H as <-. reflexivity.
    - unfold omap2 in H. destruct (num (xeval o xo vars env a)) eqn:A; [|discriminate]. destruct (num (xeval o xo vars env b)) eqn:B; [|discriminate].
      injection H as <-. rewrite (N a _ IHa A), (N b _ IHb B). reflexivity.
    - unfold omap2 in H. destruct (num (xeval o xo vars env a)) eqn:A; [|discriminate]. destruct (num (xeval o xo vars env b)) eqn:B; [|discriminate].
      injection H as <-. rewrite (N a _ IHa A), (N b _ IHb B). reflexivity.
    - unfold omap2 in H. destruct (num (xeval o xo vars env a)) eqn:A; [|discriminate]. destruct (num (xeval o xo vars env b)) eqn:B; [|discriminate].
      injection H as <-. rewrite (N a _ IHa A), (N b _ IHb B). reflexivity.
    - unfold omap2 in H. destruct (num (xeval o xo vars env a)) eqn:A; [|discriminate]. destruct (num (xeval o xo vars env b)) eqn:B; [|discriminate].
      injection H as <-. rewrite (N a _ IHa A), (N b _ IHb B). apply (fn_power _ _ _ HF).
    - destruct (String.eqb_spec f "abs") as [->|]; [|discriminate]. unfold omap in H.
      destruct (num (xeval o xo vars env a)) eqn:A; [|discriminate]. injection H as <-. rewrite (N a _ IHa A). apply (fn_abs _ _ _ HF).
    - destruct (num (xeval o xo vars env a)) eqn:A; [|discriminate]. destruct (num (xeval o xo vars env b)) eqn:B; [|discriminate].
      rewrite (N a _ IHa A), (N b _ IHb B). unfold gcompare in H.
      destruct (String.eqb_spec op "==") as [->|]; [injection H as <-; apply (fn_eq _ _ _ HF)|].
      destruct (String.eqb_spec op "!=") as [->|]; [injection H as <-; apply (fn_ne _ _ _ HF)|].
      destruct (String.eqb_spec op ">") as [->|]; [injection H as <-; apply (fn_gt _ _ _ HF)|].
      destruct (String.eqb_spec op ">=") as [->|]; [injection H as <-; apply (fn_ge _ _ _ HF)|].
      destruct (String.eqb_spec op "<") as [->|]; [injection H as <-; apply (fn_lt _ _ _ HF)|].
      destruct (String.eqb_spec op "<=") as [->|]; [injection H as <-; apply (fn_le _ _ _ HF)|discriminate].
    - destruct (xeval o xo vars env a) as [u|]; [|discriminate]. injection H as <-. rewrite (IHa u eq_refl).
      rewrite (fn_not _ _ _ HF), nonzero_as_number. reflexivity.
    - destruct (xeval o xo vars env a) as [u|]; [|discriminate]. destruct (xeval o xo vars env b) as [w|]; [|discriminate].
      injection H as <-. rewrite (IHa u eq_refl), (IHb w eq_refl), (fn_or _ _ _ HF), !nonzero_as_number. reflexivity.
    - destruct (xeval o xo vars env a) as [u|]; [|discriminate]. destruct (xeval o xo vars env b) as [w|]; [|discriminate].
      injection H as <-. rewrite (IHa u eq_refl), (IHb w eq_refl), (fn_and _ _ _ HF), !nonzero_as_number. reflexivity.
    - destruct (xeval o xo vars env c) as [u|]; [|discriminate]. rewrite (IHc u eq_refl), (fn_if _ _ _ HF), nonzero_as_number.
      destruct (truth o xo u); [exact (IHt v H) | exact (IHe v H)].
  Qed.

End Nodes.

Section Inside.
  Context {F : Type} (o : ops F) (ofZ : Z -> F) (nan : F) (fn : string -> list F -> F).
  Lemma gem_of_shape : forall g, xshape g = [] -> gshape (gem_of fn g) = [].
  Proof using. intros g H. destruct g; try reflexivity. exact H. Qed.

  (** The expressions inside. *)
  Fixpoint inside (g : xgem F) : list (gem F) :=
    match g with
    | XGem g => [g]
    | XLiteral _ => []
    | XSum a b | XProduct a b | XDivision a b | XPower a b | XComparison _ a b | XLogicalOr a b | XLogicalAnd a b => inside a ++ inside b
    | XMathFunction _ a | XLogicalNot a => inside a
    | XConditional c t e => inside c ++ inside t ++ inside e
    end.
  Lemma gem_of_free : forall S g, (forall h, In h (inside g) -> incl (gfree h) S) -> incl (gfree (gem_of fn g)) S.
  Proof using.
    intros S. induction g as [g|x|a IHa b IHb|a IHa b IHb|a IHa b IHb|a IHa b IHb|f a IHa|op a IHa b IHb|a IHa|a IHa b IHb|a IHa b IHb|c IHc t IHt e IHe];
      intros H; cbn [inside gem_of gfree flat_map] in *; rewrite ?app_nil_r.
    all: try (apply incl_app; [apply IHa | apply IHb]; intros h Hh; apply H; apply in_app_iff; tauto).
    - apply H. left. reflexivity.
    - intros y [].
    - exact (IHa H).
    - exact (IHa H).
    - apply incl_app; [|apply incl_app]; [apply IHc | apply IHt | apply IHe]; intros h Hh; apply H; rewrite !in_app_iff; tauto.
  Qed.

  Context (bindings : list (string * gem F)).
  Notation tr := (sympy2gem o ofZ nan bindings).
  Definition from_bindings (g : xgem F) : Prop := forall h, In h (inside g) -> exists s, dict_get String.eqb bindings s = Ok h.
  Lemma reduce_inside : forall con l, (forall a b, inside (con a b) = inside a ++ inside b) ->
    Forall (fun e => forall g, tr e = Ok g -> from_bindings g) l ->
    forall acc g, from_bindings acc -> reduce_args tr con acc l = Ok g -> from_bindings g.
  Proof using.
    intros con l C L. induction L as [|y l Hy L IH]; intros acc g A H; cbn [reduce_args] in H; [injection H as <-; exact A|].
    apply bind_ok in H as (gy & Ty & H). apply bind_ok in H as (acc' & M & H). apply mk2_ok in M as ->. refine (IH _ g _ H).
    intros h Hh. rewrite C in Hh. apply in_app_iff in Hh as [Hh|Hh]; [exact (A h Hh) | exact (Hy gy Ty h Hh)].
  Qed.
  Lemma reduce_map_inside : forall con l g, (forall a b, inside (con a b) = inside a ++ inside b) ->
    Forall (fun e => forall g, tr e = Ok g -> from_bindings g) l -> reduce_map tr con l = Ok g -> from_bindings g.
  Proof using.
    intros con l g C L H. destruct l as [|y l]; [discriminate H|]. cbn [reduce_map] in H. apply bind_ok in H as (gy & Ty & H).
    inversion L as [|? ? Gy Gl]; subst. exact (reduce_inside con l C Gl gy g (Gy gy Ty) H).
  Qed.
  Lemma translation_inside : forall e g, tr e = Ok g -> from_bindings g.
  Proof using.
    assert (App : forall a b g, inside g = inside a ++ inside b -> from_bindings a -> from_bindings b -> from_bindings g).
    { intros a b g E A B h Hh. rewrite E in Hh. apply in_app_iff in Hh as [Hh|Hh]; auto. }
    assert (App3 : forall a b c, from_bindings a -> from_bindings b -> from_bindings c -> from_bindings (XConditional a b c)).
    { intros a b c A B C h Hh. cbn [inside] in Hh. rewrite !in_app_iff in Hh. destruct Hh as [Hh|[Hh|Hh]]; auto. }
    induction e using snode_induction; intros g T; cbn [sympy2gem] in T.
    - eapply (reduce_map_inside XSum); eauto.
    - eapply (reduce_map_inside XProduct); eauto.
    - apply bind_ok in T as (x & Tx & T). apply bind_ok in T as (y & Ty & T). apply mk2_ok in T as ->. apply (App x y); auto.
    - destruct k; try discriminate T; injection T as <-; intros h [].
    - injection T as <-. intros h [].
    - injection T as <-. intros h [].
    - apply bind_ok in T as (x & Tx & T). injection T as <-. intros h [<-|[]]. exists s. exact Tx.
    - apply mk2_ok in T as ->. intros h [].
    - apply bind_ok in T as (x & Tx & T). apply mk1_ok in T as ->. exact (IHe x Tx).
    - apply bind_ok in T as (x & Tx & T). apply mk1_ok in T as ->. exact (IHe x Tx).
    - eapply (reduce_map_inside XLogicalOr); eauto.
    - eapply (reduce_map_inside XLogicalAnd); eauto.
    - apply bind_ok in T as (x & Tx & T). apply bind_ok in T as (y & Ty & T). apply mk2_ok in T as ->. apply (App x y); auto.
    - revert g T. induction H as [|[x c] l [Hx Hc] Hl IH]; intros g T.
      + injection T as <-. intros h [].
      + cbn [piecewise fst snd] in *. destruct (certainly c) eqn:Cc; [exact (Hx g T)|].
        apply bind_ok in T as (ge & Te & T). apply bind_ok in T as (gc & Tc & T). apply bind_ok in T as (gv & Tv & T).
        apply cond_ok in T as ->. apply App3; auto.
    - apply bind_ok in T as (gc & Tc & T). apply bind_ok in T as (gv & Tv & T). apply bind_ok in T as (ge & Te & T).
      apply cond_ok in T as ->. apply App3; auto.
    - discriminate.
    - discriminate.
  Qed.
End Inside.

(* ------------------------------------------------------------------ *)
(** ** Symbols stand for coordinates *)

Section Symbols.
  Context {F : Type}.
  Local Notation gem := (gem F).
  Definition binding (p : gem) (is_ : nat * string) : result (string * gem) :=
    do x <- mk_indexed p [IFixed (fst is_)] ;; Ok (snd is_, x).

  Lemma bindings_ok : forall (p : gem) d, gshape p = [d] ->
    exists bs, mapM (binding p) (enumerate (firstn d ["X"; "Y"; "Z"]%string)) = Ok bs /\
      forall s g, dict_get String.eqb bs s = Ok g <-> exists k, letter s = Some k /\ k < d /\ g = GIndexed p [IFixed k].
  Proof.
    intros p d Hp.
    assert (B : forall k s, k < d -> binding p (k, s) = Ok (s, GIndexed p [IFixed k])).
    { intros k s Hk. unfold binding. cbn [fst snd]. rewrite (mk_fixed_ok p d k Hp Hk). reflexivity. }
    assert (E : exists bs, mapM (binding p) (enumerate (firstn d ["X"; "Y"; "Z"]%string)) = Ok bs /\
      bs = map (fun k => (nth k ["X"; "Y"; "Z"]%string ""%string, GIndexed p [IFixed k])) (seq 0 (Nat.min d 3))).
    { eexists. split; [|reflexivity]. destruct d as [|[|[|d]]]; cbn [firstn enumerate enumerate_from mapM bind]; [reflexivity|..].
      all: repeat (rewrite B by lia; cbn [bind]). all: try reflexivity.
      rewrite firstn_nil, Nat.min_r by lia. cbn [enumerate_from mapM bind]. reflexivity. }
    destruct E as (bs & E & Ebs). exists bs. split; [exact E|]. clear E B. subst bs. intros s g.
    unfold letter. destruct d as [|[|[|d]]]; [..|rewrite Nat.min_r by lia]; cbn [Nat.min seq map nth dict_get].
    all: destruct (string_dec s "X") as [->|NX]; [|destruct (string_dec s "Y") as [->|NY]; [|destruct (string_dec s "Z") as [->|NZ]]].
    all: cbn [String.eqb Ascii.eqb Bool.eqb andb].
    all: rewrite ?(proj2 (String.eqb_neq s "X") ltac:(assumption)), ?(proj2 (String.eqb_neq s "Y") ltac:(assumption)), ?(proj2 (String.eqb_neq s "Z") ltac:(assumption)).
    all: split; [intros H; try discriminate H; injection H as <-; eexists; repeat split; lia | intros (k & Hk & Hlt & ->); try discriminate Hk; injection Hk as <-; try lia; reflexivity].
  Qed.
End Symbols.

(* ------------------------------------------------------------------ *)
(** ** FIAT elements *)

Lemma translatable_ext : forall F (P Q : string -> Prop), (forall s, P s -> Q s) ->
  forall e : snode F, translatable P e -> translatable Q e.
Proof.
  intros F P Q PQ. fix IH 2. intros e H.
  assert (ALL : forall l : list (snode F), Forall (translatable P) l -> Forall (translatable Q) l).
  { fix ALL 2. intros l L. destruct L as [|y l Hy Hl]; constructor; [exact (IH y Hy)|exact (ALL l Hl)]. }
  destruct H; try (constructor; auto; fail).
Qed.

Section Fiat.
  Context {F : Type} (o : ops F) (xo : xops F) (ofZ : Z -> F) (nan : F) (fn : string -> list F -> F).
  Context (sym : leaf F -> list nat -> dimkey * nat -> nat -> list nat -> snode F).
  Hypothesis R : Ring_theory.ring_theory (f0 o) (f1 o) (fadd o) (fmul o) (fsub o) (fopp o) eq.
  Hypothesis HF : functions_ok o xo fn.
  Hypothesis eq_0 : xeq xo (f0 o) (f0 o) = true.
  Hypothesis neq_1 : xeq xo (f1 o) (f0 o) = false.
  Context (vars : string -> list nat -> F) (l : leaf F).
  Hypothesis Hdim : 0 < lf_dim l.
  Hypothesis Hvpos : Forall (lt 0) (lf_vshape l).
  Hypothesis Hsym : tabulates_symbols o xo ofZ nan sym l.
  Local Notation gem := (gem F).

  (** An entry of the table. *)
  Definition entry_ok (p : gem) (alpha : list nat) (ent : dimkey * nat) (i : nat) (v : list nat) (g : gem) : Prop :=
    gshape g = [] /\ incl (gfree g) (gfree p) /\
    forall env, eval o vars g env [] = lf_tab l alpha ent (coordinates o vars p env (dk_total (fst ent))) i v.

  Lemma entry_defined : forall p alpha ent bs i v,
    length alpha = spatial_dimension (lf_cell l) -> entity_of (topology (lf_cell l)) ent -> gshape p = [dk_total (fst ent)] ->
    (forall s g, dict_get String.eqb bs s = Ok g <-> exists k, letter s = Some k /\ k < dk_total (fst ent) /\ g = GIndexed p [IFixed k]) ->
    i < lf_dim l -> in_shape (lf_vshape l) v ->
    exists g, (do g <- sympy2gem o ofZ nan bs (sym l alpha ent i v) ;; Ok (gem_of fn g)) = Ok g /\ entry_ok p alpha ent i v g.
  Proof using R HF eq_0 neq_1 Hsym.
    intros p alpha ent bs i v Ha Hent Hp Hbs Hi Hv. destruct (Hsym alpha ent i v Ha Hent Hi Hv) as [Ht Hm].
    assert (Hsc : forall s g, dict_get String.eqb bs s = Ok g -> gshape g = []).
    { intros s g H. apply Hbs in H as (k & _ & _ & ->). reflexivity. }
    assert (Ht' : translatable (bound bs) (sym l alpha ent i v)).
    { revert Ht. apply translatable_ext. intros s (k & Hk & Hlt). exists (GIndexed p [IFixed k]). apply Hbs. exists k. auto. }
    apply (translation_defined o ofZ nan bs Hsc) in Ht' as (g & Hg). exists (gem_of fn g).
    rewrite Hg. cbn [bind]. split; [reflexivity|]. split; [|split].
    - apply gem_of_shape. exact (all_good o ofZ nan bs Hsc _ g Hg).
    - apply gem_of_free. intros h Hh. destruct (translation_inside o ofZ nan bs _ g Hg h Hh) as (s & Hs).
      apply Hbs in Hs as (k & _ & _ & ->). cbn [gfree mi_ids flat_map]. rewrite app_nil_r. apply incl_refl.
    - intros env. set (pt := coordinates o vars p env (dk_total (fst ent))).
      specialize (Hm pt). unfold pt in Hm at 1. unfold coordinates in Hm at 1. rewrite map_length, seq_length in Hm. specialize (Hm eq_refl).
      assert (Hass : forall s x g, at_point pt s = Some x -> dict_get String.eqb bs s = Ok g -> eval o vars g env [] = x).
      { intros s x g' Hx Hs. apply Hbs in Hs as (k & Hk & Hlt & ->). unfold at_point in Hx. rewrite Hk in Hx.
        unfold pt, coordinates in Hx. rewrite nth_error_map in Hx.
        rewrite (nth_error_nth' _ 0) in Hx by (rewrite seq_length; exact Hlt). rewrite seq_nth in Hx by exact Hlt.
        cbn [option_map] in Hx. injection Hx as <-. reflexivity. }
      pose proof (translation_sound o xo ofZ nan) as TS.
      apply (gem_of_value o xo fn HF eq_0 neq_1 vars env g (VNum _)).
      refine (TS _ _ _ _ eq_0 neq_1 bs vars env (at_point pt) Hass _ _ _ Hg Hm).
      all: intros; destruct R; congruence.
  Qed.

  Definition symbols (alpha : list nat) (ent : dimkey * nat) : arr (snode F) :=
    array_of (lf_dim l :: lf_vshape l ++ [1])
      (fun idx => match idx with [] => SForeign | i :: r => sym l alpha ent i (removelast r) end).

  Lemma table_ok : forall p alpha ent bs,
    length alpha = spatial_dimension (lf_cell l) -> entity_of (topology (lf_cell l)) ent -> gshape p = [dk_total (fst ent)] ->
    (forall s g, dict_get String.eqb bs s = Ok g <-> exists k, letter s = Some k /\ k < dk_total (fst ent) /\ g = GIndexed p [IFixed k]) ->
    exists gs, mapM (fun e => do g <- sympy2gem o ofZ nan bs e ;; Ok (gem_of fn g)) (a_data (symbols alpha ent)) = Ok gs /\
      length gs = lf_dim l * prod (lf_vshape l) /\
      forall i v, i < lf_dim l -> in_shape (lf_vshape l) v ->
        entry_ok p alpha ent i v (nth (i * prod (lf_vshape l) + ravel (lf_vshape l) v) gs (GZero [])).
  Proof using R HF eq_0 neq_1 Hsym Hdim.
    intros p alpha ent bs Ha Hent Hp Hbs. set (pv := prod (lf_vshape l)).
    set (sh := lf_dim l :: lf_vshape l ++ [1]).
    assert (Hps : prod sh = lf_dim l * pv) by (unfold sh; cbn [prod]; rewrite prod_app; cbn [prod]; fold pv; nia).
    set (f := fun idx : list nat => match idx with [] => SForeign | i :: r => sym l alpha ent i (removelast r) end).
    assert (Hd : a_data (symbols alpha ent) = map (fun k => f (unravel_digits sh k)) (seq 0 (prod sh))).
    { unfold symbols. fold sh f. cbn [array_of a_data]. rewrite cart_seq, map_map. reflexivity. }
    rewrite Hd. clear Hd.
    assert (Hk : forall k, k < prod sh -> exists g, (do g <- sympy2gem o ofZ nan bs (f (unravel_digits sh k)) ;; Ok (gem_of fn g)) = Ok g /\
              exists i v, unravel_digits sh k = i :: v ++ [0] /\ entry_ok p alpha ent i v g).
    { intros k Hk. pose proof (unravel_in_shape sh k Hk) as Hin. unfold sh in Hin at 1.
      destruct (unravel_digits sh k) as [|i r]; [inversion Hin|]. inversion Hin as [|? ? ? ? Hi Hr]; subst.
      apply Forall2_app_inv_r in Hr as (a & b & Hr1 & Hr2 & ->) || apply Forall2_app_inv_l in Hr as (a & b & Hr1 & Hr2 & ->).
      inversion Hr2 as [|? z ? ? Hz Hr3]; subst. inversion Hr3; subst. assert (z = 0) as -> by lia.
      cbn [f]. rewrite removelast_last.
      destruct (entry_defined p alpha ent bs i a Ha Hent Hp Hbs Hi Hr1) as (g & Eg & Hg).
      exists g. split; [exact Eg|]. exists i, a. split; [reflexivity | exact Hg]. }
    assert (Hm : forall L, (forall k, In k L -> k < prod sh) -> exists gs,
      mapM (fun e => do g <- sympy2gem o ofZ nan bs e ;; Ok (gem_of fn g)) (map (fun k => f (unravel_digits sh k)) L) = Ok gs /\
      Forall2 (fun k g => exists i v, unravel_digits sh k = i :: v ++ [0] /\ entry_ok p alpha ent i v g) L gs).
    { induction L as [|k L IH]; intros HL; [exists []; split; [reflexivity | constructor]|].
      destruct (Hk k (HL k (or_introl eq_refl))) as (g & Eg & Hg).
      destruct IH as (gs & Egs & Hgs); [intros j Hj; apply HL; right; exact Hj|].
      exists (g :: gs). cbn [map mapM]. rewrite Eg. cbn [bind]. rewrite Egs. split; [reflexivity | constructor; assumption]. }
    destruct (Hm (seq 0 (prod sh))) as (gs & Egs & Hgs); [intros k Hin; apply in_seq in Hin; lia|].
    exists gs. split; [exact Egs|]. split; [rewrite <- (Forall2_length _ _ _ _ _ Hgs), seq_length; exact Hps|].
    intros i v Hi Hv. pose proof (ravel_lt _ _ Hv) as Hr. fold pv in Hr.
    assert (Hlt : i * pv + ravel (lf_vshape l) v < prod sh) by (rewrite Hps; nia).
    pose proof (Forall2_nth _ _ _ _ _ (i * pv + ravel (lf_vshape l) v) 0 (GZero []) Hgs) as Hx.
    rewrite seq_length in Hx. specialize (Hx Hlt). rewrite seq_nth in Hx by exact Hlt. cbn [Nat.add] in Hx.
    destruct Hx as (i' & v' & Eu & He).
    assert (Hin : in_shape sh (i :: v ++ [0])) by (constructor; [exact Hi|]; apply in_shape_app; [exact Hv | constructor; [lia | constructor]]).
    assert (Hrv : ravel sh (i :: v ++ [0]) = i * pv + ravel (lf_vshape l) v).
    { unfold sh. cbn [ravel]. rewrite ravel_app by (apply in_shape_length; exact Hv). rewrite prod_app. cbn [ravel prod]. fold pv. nia. }
    pose proof (unravel_ravel sh _ Hin) as Hu. rewrite Hrv, Eu in Hu. injection Hu as -> Hu. apply app_inj_tail in Hu as [-> _]. exact He.
  Qed.

  Lemma point_alpha_ok : forall p alpha ent n,
    length alpha = spatial_dimension (lf_cell l) -> entity_of (topology (lf_cell l)) ent -> gshape p = [dk_total (fst ent)] ->
    (forall x, In x (gfree p) -> x < n) ->
    exists g n', point_alpha o ofZ nan fn l p (firstn (dk_total (fst ent)) ["X"; "Y"; "Z"]%string) (symbols alpha ent) n = Ok (g, n') /\
      n <= n' /\ gshape g = lf_dim l :: lf_vshape l /\ incl (gfree g) (gfree p) /\
      forall env i v, i < lf_dim l -> in_shape (lf_vshape l) v ->
        eval o vars g env (i :: v) = lf_tab l alpha ent (coordinates o vars p env (dk_total (fst ent))) i v.
  Proof using R HF eq_0 neq_1 Hsym Hdim Hvpos.
    intros p alpha ent n Ha Hent Hp Hn. unfold point_alpha.
    destruct (bindings_ok p _ Hp) as (bs & Ebs & Hbs). unfold binding in Ebs.
    unfold fbind at 1. unfold flift at 1. rewrite Ebs. cbn [bind].
    set (pv := prod (lf_vshape l)). assert (Hpos : 0 < pv) by (apply prod_pos; exact Hvpos).
    assert (Hps : prod (a_shape (symbols alpha ent)) = lf_dim l * pv)
      by (unfold symbols; cbn [array_of a_shape prod]; rewrite prod_app; cbn [prod]; fold pv; nia).
    unfold fbind at 1. unfold flift at 1. rewrite Hps. destruct (Nat.eqb_spec (lf_dim l * pv) 0) as [C|_]; [nia|]. cbn [negb guard bind].
    destruct (table_ok p alpha ent bs Ha Hent Hp Hbs) as (gs & Egs & Hlg & Hgs).
    unfold fbind at 1. unfold flift at 1. rewrite Egs. cbn [bind].
    unfold fbind at 1. unfold flift at 1. unfold columns. fold pv in Hlg |- *. rewrite Hlg, Nat.eqb_refl. cbn [guard bind].
    set (col := fun j => map (fun i => nth (i * pv + j) gs (GZero [])) (seq 0 (lf_dim l))).
    assert (Hcol : forall v, in_shape (lf_vshape l) v -> Forall (fun g => gshape g = [] /\ incl (gfree g) (gfree p)) (col (ravel (lf_vshape l) v))).
    { intros v Hv. apply Forall_forall. intros g Hg. apply in_map_iff in Hg as (i & <- & Hi). apply in_seq in Hi.
      destruct (Hgs i v ltac:(lia) Hv) as (H1 & H2 & _). split; assumption. }
    set (ex := fun j => GListTensor [lf_dim l] (col j)).
    assert (Hex : mapM (mk_list_tensor [lf_dim l]) (map col (seq 0 pv)) = Ok (map ex (seq 0 pv))).
    { rewrite (mapM_all_ok _ _ (mk_list_tensor [lf_dim l]) (GListTensor [lf_dim l])); [rewrite map_map; reflexivity|].
      intros c Hc. apply in_map_iff in Hc as (j & <- & Hj). apply in_seq in Hj.
      apply mk_list_tensor_ok; [cbn [prod]; lia | unfold col; rewrite map_length, seq_length; cbn [prod]; lia|].
      assert (Hj' : j < prod (lf_vshape l)) by (fold pv; lia).
      rewrite <- (ravel_unravel _ _ Hj'). eapply Forall_impl; [|apply Hcol; apply unravel_in_shape; exact Hj']. intros g [H _]. exact H. }
    unfold fbind at 1. unfold flift at 1. fold col. rewrite Hex. cbn [bind].
    assert (Hexf : forall v, in_shape (lf_vshape l) v -> incl (gfree (ex (ravel (lf_vshape l) v))) (gfree p)).
    { intros v Hv x Hx. cbn [ex gfree] in Hx. apply in_flat_map in Hx as (g & Hg & Hx).
      specialize (Hcol v Hv). rewrite Forall_forall in Hcol. destruct (Hcol g Hg) as [_ H]. apply H. exact Hx. }
    assert (Hexv : forall env i v, i < lf_dim l -> in_shape (lf_vshape l) v ->
        eval o vars (ex (ravel (lf_vshape l) v)) env [i] = lf_tab l alpha ent (coordinates o vars p env (dk_total (fst ent))) i v).
    { intros env i v Hi Hv. cbn [ex eval]. rewrite (ravel_strides_ok [lf_dim l] [i]) by (constructor; [exact Hi | constructor]).
      cbn [ravel prod]. replace (i * 1 + 0) with i by lia. unfold col. rewrite map_map.
      rewrite (nth_map_seq _ (fun k => eval o vars (nth (k * pv + ravel (lf_vshape l) v) gs (GZero [])) env [])) by exact Hi.
      destruct (Hgs i v Hi Hv) as (_ & _ & H). apply H. }
    assert (Hexs : forall j, gshape (ex j) = [lf_dim l]) by reflexivity.
    clearbody ex. clear Hcol Hex col.
    assert (Hpv : pv = prod (lf_vshape l)) by reflexivity. clearbody pv.
    destruct (lf_vshape l) as [|v0 vs] eqn:Evs.
    - cbn [prod] in Hpv. subst pv. cbn [seq map]. exists (ex 0), n. split; [reflexivity|]. split; [lia|].
      assert (Hnil : in_shape [] []) by constructor.
      split; [|split; [exact (Hexf [] Hnil)|]].
      + apply Hexs.
      + intros env i v Hi Hv. inversion Hv; subst. exact (Hexv env i [] Hi Hnil).
    - rewrite <- Evs in *. assert (Hvne : lf_vshape l <> []) by congruence. clear Evs v0 vs.
      subst pv. set (pv := prod (lf_vshape l)) in *. set (gs' := map ex (seq 0 pv)). assert (Hlg' : length gs' = pv) by (unfold gs'; rewrite map_length, seq_length; reflexivity).
      unfold fbind. rewrite !new_indices_eq.
      set (m := n + length [lf_dim l]). set (be := (n, lf_dim l) : ix).
      change (ixs n [lf_dim l]) with [be]. cbn [length] in m.
      assert (Hge : forall v, in_shape (lf_vshape l) v -> nth_error gs' (ravel (lf_vshape l) v) = Some (ex (ravel (lf_vshape l) v))).
      { intros v Hv. pose proof (ravel_lt _ _ Hv) as Hr. fold pv in Hr. unfold gs'. rewrite nth_error_map.
        rewrite (nth_error_nth' _ 0) by (rewrite seq_length; exact Hr). rewrite seq_nth by exact Hr. reflexivity. }
      assert (Hall : forall g, In g gs' -> exists v, in_shape (lf_vshape l) v /\ g = ex (ravel (lf_vshape l) v)).
      { intros g Hg. apply in_map_iff in Hg as (j & <- & Hj). apply in_seq in Hj.
        assert (Hj' : j < prod (lf_vshape l)) by (fold pv; lia).
        exists (unravel_digits (lf_vshape l) j). split; [apply unravel_in_shape; exact Hj'|]. rewrite (ravel_unravel _ _ Hj'). reflexivity. }
      assert (Hitems : mapM (fun expr => mk_indexed expr (map IFree [be])) gs' = Ok (map (fun g => GIndexed g (map IFree [be])) gs')).
      { apply mapM_all_ok. intros g Hg. destruct (Hall g Hg) as (v & Hv & ->). apply mk_indexed_free. rewrite Hexs. reflexivity. }
      unfold flift. rewrite Hitems. cbn [bind].
      rewrite mk_list_tensor_ok; [|exact Hpos|rewrite map_length; exact Hlg'|].
      2:{ apply Forall_forall. intros g Hg. apply in_map_iff in Hg as (g' & <- & _). reflexivity. }
      cbn [bind]. rewrite mk_indexed_free by (cbn [gshape]; apply ixs_extents). cbn [bind].
      assert (Hgne : gs' <> []) by (intros E; rewrite E in Hlg'; simpl in Hlg'; lia).
      rewrite mk_component_tensor_ok; [|reflexivity|].
      2:{ intros x Hx. cbn [gfree]. rewrite mi_ids_free. rewrite map_app in Hx. rewrite in_app_iff in *.
          destruct Hx as [Hx|Hx]; [left | right; exact Hx]. destruct Hx as [<-|[]].
          destruct gs' as [|g gs'']; [congruence|]. cbn [map flat_map gfree]. rewrite !in_app_iff. left. right. left. reflexivity. }
      cbn [bind]. eexists _, _. split; [reflexivity|]. split; [unfold m; lia|].
      split; [|split].
      + cbn [gshape]. rewrite map_app, ixs_extents. reflexivity.
      + intros x Hx. cbn [gfree] in Hx. apply in_remove_ids in Hx as [Hx Hnx]. rewrite mi_ids_free in Hx.
        rewrite map_app in Hnx. rewrite in_app_iff in Hx, Hnx. destruct Hx as [Hx|Hx]; [|tauto].
        apply in_flat_map in Hx as (g' & Hg' & Hx). apply in_map_iff in Hg' as (g & <- & Hg).
        cbn [gfree] in Hx. rewrite in_app_iff in Hx. destruct Hx as [Hx|Hx].
        * destruct (Hall g Hg) as (v & Hv & ->). apply (Hexf v Hv). exact Hx.
        * exfalso. apply Hnx. left. exact Hx.
      + intros env i v Hi Hv. cbn [Gem.eval].
        set (env' := upds env ([be] ++ ixs m (lf_vshape l)) (i :: v)).
        assert (Hnd : NoDup (map ix_id ([be] ++ ixs m (lf_vshape l)))).
        { cbn [app map]. constructor; [|apply ixs_NoDup]. rewrite in_ixs_id. cbn [be ix_id fst]. unfold m. lia. }
        assert (Hvals : map (fun i => env' (ix_id i)) ([be] ++ ixs m (lf_vshape l)) = i :: v).
        { apply upds_vals; [exact Hnd|]. rewrite !app_length, ixs_length. cbn [length]. rewrite (in_shape_length _ _ Hv). reflexivity. }
        cbn [app map] in Hvals. injection Hvals as Hb Hvv. assert (Hb' : env' (ix_id be) = i) by exact Hb.
        rewrite map_map. cbn [gidx_val]. rewrite Hvv.
        rewrite (ravel_strides_ok _ _ Hv). rewrite map_map.
        rewrite (nth_indep _ _ (eval o vars (GIndexed (ex 0) (map IFree [be])) env' []))
          by (rewrite map_length, Hlg'; apply ravel_lt; exact Hv).
        rewrite (map_nth (fun x => eval o vars (GIndexed x (map IFree [be])) env' [])).
        rewrite (nth_error_nth _ _ _ (Hge v Hv)). cbn [Gem.eval map gidx_val]. rewrite Hb'.
        rewrite <- (Hexv env i v Hi Hv). apply eval_ext. intros x Hx. unfold env'. apply upds_notin.
        apply (Hexf v Hv) in Hx. specialize (Hn x Hx).
        cbn [app map]. intros [E|E]; [cbn [be ix_id fst] in E; unfold ix_id in *; lia|].
        apply in_ixs_id in E. unfold m in E. lia.
  Qed.
End Fiat.

Lemma fiat_leaf_evaluates : forall F (o : ops F) xo ofZ nan fn sym (l : leaf F),
  Ring_theory.ring_theory (f0 o) (f1 o) (fadd o) (fmul o) (fsub o) (fopp o) eq ->
  functions_ok o xo fn -> xeq xo (f0 o) (f0 o) = true -> xeq xo (f1 o) (f0 o) = false ->
  lf_ishape l = [lf_dim l] -> 0 < lf_dim l -> Forall (lt 0) (lf_vshape l) -> tabulates_symbols o xo ofZ nan sym l ->
  leaf_evaluates o (fiat_point_evaluation o ofZ nan fn sym) l.
Proof.
  intros F o xo ofZ nan fn sym l R HF eq_0 neq_1 Hish Hdim Hvpos Hsym vars order p ent n Hn Hent Hp.
  set (en := entity_or_cell (lf_cell l) ent) in *.
  change (fiat_point_evaluation o ofZ nan fn sym l order p ent) with
    (_ <~ flift (guard (list_eqb Nat.eqb (gshape p) [dk_total (fst en)]) AssertionError) ;;
     mapF (fun at_ => x <~ point_alpha o ofZ nan fn l p (firstn (dk_total (fst en)) ["X"; "Y"; "Z"]%string) (snd at_) ;; fret (fst at_, x))
       (fiat_tabulate_symbols sym l order en)).
  rewrite Hp. unfold fbind at 1. unfold flift.
  destruct (list_eqb_spec _ _ nat_eqb_spec [dk_total (fst en)] [dk_total (fst en)]) as [_|C]; [|congruence]. cbn [guard bind].
  unfold fiat_tabulate_symbols. set (keys := flat_map (mis (spatial_dimension (lf_cell l))) (seq 0 (S order))).
  assert (Hkeys : forall a, In a keys -> length a = spatial_dimension (lf_cell l)).
  { intros a Hk. apply in_flat_map in Hk as (k & _ & Hk). apply in_mis in Hk as [Hk _]. exact Hk. }
  assert (Hgen : forall K m, (forall a, In a K -> length a = spatial_dimension (lf_cell l)) -> n <= m ->
    exists ts m', mapF (fun at_ => x <~ point_alpha o ofZ nan fn l p (firstn (dk_total (fst en)) ["X"; "Y"; "Z"]%string) (snd at_) ;; fret (fst at_, x))
      (map (fun alpha => (alpha, symbols sym l alpha en)) K) m = Ok (ts, m') /\ m <= m' /\
      map fst ts = K /\ forall alpha g, In (alpha, g) ts -> gshape g = lf_dim l :: lf_vshape l /\ incl (gfree g) (gfree p) /\
        forall env i v, i < lf_dim l -> in_shape (lf_vshape l) v ->
        eval o vars g env (i :: v) = lf_tab l alpha en (coordinates o vars p env (dk_total (fst en))) i v).
  { induction K as [|a K IH]; intros m HK Hm.
    - exists [], m. split; [reflexivity|]. split; [lia|]. split; [reflexivity|]. intros ? ? [].
    - destruct (point_alpha_ok o xo ofZ nan fn sym R HF eq_0 neq_1 vars l Hdim Hvpos Hsym p a en m) as (g & m1 & E & Hle & Hadv);
        [apply HK; left; reflexivity | exact Hent | exact Hp | intros x Hx; specialize (Hn x Hx); lia|].
      destruct (IH m1) as (ts & m2 & E2 & Hle2 & Ek & Hts); [intros b Hb; apply HK; right; exact Hb | lia|].
      exists ((a, g) :: ts), m2. cbn [map mapF fst snd]. unfold fbind in E2 |- *. rewrite E. unfold fret at 1. rewrite E2.
      split; [reflexivity|]. split; [lia|]. split; [simpl; rewrite Ek; reflexivity|].
      intros alpha g' [Eq|Hin]; [|apply Hts; exact Hin]. injection Eq as <- <-. exact Hadv. }
  destruct (Hgen keys n Hkeys ltac:(lia)) as (ts & n' & E & Hle & Ek & Hts). exists ts, n'.
  split; [exact E|]. split; [exact Hle|]. split; [rewrite Ek; apply mis_keys|].
  intros alpha g Hin. destruct (Hts alpha g Hin) as (Hs & Hf & Hev).
  change (index_shape (ELeaf l)) with (lf_ishape l). rewrite Hish.
  split; [exact Hs|]. split; [exact Hf|]. intros env b v Hb Hv.
  inversion Hb as [|? i ? ? Hi Hb']; subst. inversion Hb'; subst. cbn [app].
  rewrite (Hev env i v Hi Hv).
  replace (rowmajor [lf_dim l] [i]) with i by (unfold rowmajor; simpl; lia). constructor.
Qed.
