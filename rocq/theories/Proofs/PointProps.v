(** Evaluation at symbolic points, put together. *)
From Coq Require Import String List Arith Lia Bool ZArith.
From Verif Require Import Model.Prelude Model.Cell Model.Element Model.EntityMaps Model.Gem Model.PointSet Model.Evaluation Model.Sympy2Gem Model.PointEvaluation.
From Verif Require Import Spec.Rowmajor Spec.EntityDofs Spec.Layout Spec.Samples Spec.ZSamples Spec.Sympy Spec.Tabulation Spec.PointEvaluation Spec.PointSamples.
From Verif Require Import Proofs.Lists Proofs.Cells Proofs.EntityDofs Proofs.Leaf Proofs.Tree Proofs.Single Proofs.TabProps Proofs.SampleFacts Proofs.TabFacts Proofs.DualFacts
  Proofs.PointTree Proofs.PointLeaf Proofs.PointWhole.
Import ListNotations.
Open Scope fresh_scope.

Section Built.
  Context {F : Type} (o : ops F).
  Context (R : ring_theory (f0 o) (f1 o) (fadd o) (fmul o) (fsub o) (fopp o) eq).
  Context (leaf_point : leaf F -> nat -> gem F -> option (dimkey * nat) -> fresh (list (list nat * gem F))).

  Lemma built_point_evaluation : forall (e : elt F) vars order pnt ent n c vs,
    built e -> shaped e ->
    (forall l, leaf_of l e -> fold_right Nat.mul 1 (lf_ishape l) = lf_dim l /\ leaf_evaluates o leaf_point l) ->
    cell_of e = Ok c -> value_shape e = Ok vs ->
    let en := entity_or_cell c ent in
    entity_of (topology c) en -> sliceable e en ->
    gshape pnt = [dk_total (fst en)] -> (forall x, In x (gfree pnt) -> x < n) ->
    exists ts n', point_evaluation o leaf_point e order pnt ent n = Ok (ts, n') /\ n <= n' /\
      derivative_keys (spatial_dimension c) order (map fst ts) /\
      forall alpha g, In (alpha, g) ts ->
        gshape g = index_shape e ++ vs /\ incl (gfree g) (gfree pnt) /\
        forall env b v, in_shape (index_shape e) b -> in_shape vs v ->
          forall x, value_of o e alpha en (coordinates o vars pnt env (dk_total (fst en))) (rowmajor (index_shape e) b) v x <->
            eval o vars g env (b ++ v) = x.
  Proof using R.
    intros e vars order pnt ent n c vs Hb Hs Hl Hc Hvs en He Hsl Hp Hn.
    destruct (tree_evaluates o R leaf_point vars e order pnt ent n c vs (built_checked _ Hb) Hs Hl Hc Hvs Hp Hn He Hsl) as (ts & n' & E & L & K & V).
    exists ts, n'. split; [exact E|]. split; [exact L|]. split; [exact K|].
    intros alpha g Hg. destruct (V alpha g Hg) as (S & Fr & Ve). split; [exact S|]. split; [exact Fr|].
    intros env b v H2 H3 x. specialize (Ve env b v H2 H3). split.
    - intros Hx. eapply value_unique; eassumption.
    - intros <-. exact Ve.
  Qed.

  Lemma built_settled : forall (e : elt F) order pnt ent n c vs,
    built e -> shaped e ->
    (forall l, leaf_of l e -> fold_right Nat.mul 1 (lf_ishape l) = lf_dim l /\ leaf_evaluates o leaf_point l) ->
    cell_of e = Ok c -> value_shape e = Ok vs ->
    let en := entity_or_cell c ent in
    entity_of (topology c) en ->
    gshape pnt = [dk_total (fst en)] -> (forall x, In x (gfree pnt) -> x < n) ->
    ((exists r, point_evaluation o leaf_point e order pnt ent n = Ok r) <-> sliceable e en) /\
    (~ sliceable e en -> point_evaluation o leaf_point e order pnt ent n = Err AssertionError).
  Proof using R.
    intros e order pnt ent n c vs Hb Hs Hl Hc Hvs en He Hp Hn.
    pose proof (tree_settled o R leaf_point (fun _ _ => f0 o) e order pnt ent n c vs (built_checked _ Hb) Hs Hl Hc Hvs Hp Hn He) as D.
    split; [split|].
    - intros (r & E). destruct D as [D|D]; [exact D|]. unfold entity, tables in *. rewrite E in D. discriminate D.
    - intros Hsl. destruct (built_point_evaluation e (fun _ _ => f0 o) order pnt ent n c vs Hb Hs Hl Hc Hvs He Hsl Hp Hn) as (ts & n' & E & _).
      exists (ts, n'). exact E.
    - intros H. destruct D as [D|D]; [contradiction | exact D].
  Qed.

  (** The same numbers as a tabulation at that point. *)
  Lemma built_agrees : forall G
    (leaf_eval : leaf F -> nat -> pset F -> option (dimkey * nat) -> option G -> fresh (list (list nat * gem F)))
    (e : elt F) vars order pnt ent cm n m c vs pt env,
    built e -> shaped e ->
    (forall l, leaf_of l e -> fold_right Nat.mul 1 (lf_ishape l) = lf_dim l /\ leaf_evaluates o leaf_point l /\ leaf_tabulates o leaf_eval l) ->
    cell_of e = Ok c -> value_shape e = Ok vs ->
    let en := entity_or_cell c ent in
    entity_of (topology c) en -> sliceable e en ->
    gshape pnt = [dk_total (fst en)] -> (forall x, In x (gfree pnt) -> x < n) ->
    coordinates o vars pnt env (dk_total (fst en)) = pt ->
    exists ts n' ts' m', point_evaluation o leaf_point e order pnt ent n = Ok (ts, n') /\
      basis_evaluation o leaf_eval e order (PSingleton pt) ent cm m = Ok (ts', m') /\
      forall alpha g g' b v, In (alpha, g) ts -> In (alpha, g') ts' -> in_shape (index_shape e) b -> in_shape vs v ->
        eval o vars g env (b ++ v) = eval o vars g' env (b ++ v).
  Proof using R.
    intros G leaf_eval e vars order pnt ent cm n m c vs pt env Hb Hs Hl Hc Hvs en He Hsl Hp Hn Ept.
    assert (Hl1 : leaves_evaluate o leaf_point e) by (intros l Hll; destruct (Hl l Hll) as (A & B & _); split; assumption).
    destruct (tree_evaluates o R leaf_point vars e order pnt ent n c vs (built_checked _ Hb) Hs Hl1 Hc Hvs Hp Hn He Hsl) as (ts & n' & E & _ & V).
    destruct (tree_tabulates o R leaf_eval vars e order (PSingleton pt) ent cm m c vs (built_checked _ Hb) Hs) as (ts' & m' & E' & _ & V'); auto.
    - intros l Hll. destruct (Hl l Hll) as (A & _ & B). split; assumption.
    - constructor.
    - intros i [].
    - apply Factor.loose_fits; [exact I|]. cbn [psdim]. rewrite <- Ept. unfold coordinates. rewrite map_length, seq_length. reflexivity.
    - exists ts, n', ts', m'. split; [exact E|]. split; [exact E'|]. intros alpha g g' b v Hg Hg' Hbb Hv.
      exact (point_tables_agree F o vars e (spatial_dimension c) order vs pnt en ts ts' pt V V' alpha g g' env b v Hg Hg' Hbb Hv Ept).
  Qed.
End Built.

(* ------------------------------------------------------------------ *)
(** ** Samples *)

Lemma zfunctions : functions_ok zops zxops' zfunction.
Proof. split; intros; cbn; try reflexivity. all: try (unfold number_of, nonzero; cbn; destruct (Z.eqb _ _); reflexivity). Qed.

Lemma zsymbols : forall l, In l [cg1 ztab1; dg1 ztab1; dg0 ztab0; cg2 ztab2] -> tabulates_symbols zops zxops' id (-1)%Z zsym l.
Proof.
  intros l Hl alpha ent i v Ha Hent Hi Hv.
  assert (Hx : exists k j, ent = (DI k, j) /\ (k = 0 \/ k = 1)).
  { destruct ent as [k j]. destruct Hent as (m & Hin & _). cbn [fst] in Hin.
    replace (lf_cell l) with I1 in Hin by (repeat destruct Hl as [<-|Hl]; try reflexivity; destruct Hl).
    cbn in Hin. destruct Hin as [E|[E|[]]]; injection E as <- _; eauto. }
  destruct Hx as (k & j & -> & Hk).
  assert (Hax : exists a, alpha = [a]).
  { replace (lf_cell l) with I1 in Ha by (repeat destruct Hl as [<-|Hl]; try reflexivity; destruct Hl). cbn in Ha.
    destruct alpha as [|a [|b r]]; try discriminate. exists a. reflexivity. }
  destruct Hax as (a & ->).
  assert (Ht : translatable (is_coordinate (dk_total (DI k))) (zsx (DI k, j))).
  { destruct Hk as [-> | ->]; cbn; constructor. exists 0. split; [reflexivity | lia]. }
  assert (Hv0 : v = []).
  { replace (lf_vshape l) with (@nil nat) in Hv by (repeat destruct Hl as [<-|Hl]; try reflexivity; destruct Hl). inversion Hv. reflexivity. }
  subst v.
  cbn [fst] in Ht |- *. split.
  - repeat destruct Hl as [<-|Hl]; try (destruct Hl; fail); cbn in Hi; destruct a as [|[|[|a]]]; destruct i as [|[|[|i]]]; try lia;
      cbn [zsym lf_dim cg1 dg1 dg0 cg2 sum Nat.add]; unfold zlinear;
      repeat (first [exact Ht | constructor | discriminate]).
  - intros pt Hpt.
    assert (Hm : smean zops zxops' id (-1)%Z (at_point pt) (zsx (DI k, j)) = Some (VNum (zx (DI k, j) pt))).
    { destruct Hk as [-> | ->]; [reflexivity|]. cbn [dk_total] in Hpt. destruct pt as [|x [|y r]]; try discriminate. reflexivity. }
    repeat destruct Hl as [<-|Hl]; try (destruct Hl; fail); cbn in Hi; destruct a as [|[|[|a]]]; destruct i as [|[|[|i]]]; try lia;
      cbn [zsym lf_dim cg1 dg1 dg0 cg2 sum Nat.add lf_tab]; unfold zlinear; cbn [smean map nums fold_right num omap omap2]; rewrite ?Hm;
      cbn [nums fold_right num omap omap2 ztab0 ztab1 ztab2 sum Nat.add fadd fmul f0 f1 zops zxops' xpow id];
      try reflexivity; unfold ztab0, ztab1, ztab2; cbn [sum Nat.add]; do 2 f_equal; change id with (fun z : Z => z); cbv beta; try ring.
Qed.

Lemma fiat_point_values : forall F (o : ops F) (xo : xops F) ofZ nan fn sym (l : leaf F),
  ring_theory (f0 o) (f1 o) (fadd o) (fmul o) (fsub o) (fopp o) eq ->
  functions_ok o xo fn -> xeq xo (f0 o) (f0 o) = true -> xeq xo (f1 o) (f0 o) = false ->
  lf_ishape l = [lf_dim l] -> 0 < lf_dim l -> Forall (lt 0) (lf_vshape l) ->
  tabulates_symbols o xo ofZ nan sym l ->
  forall vars order pnt ent n,
  let en := entity_or_cell (lf_cell l) ent in
  (forall x, In x (gfree pnt) -> x < n) -> entity_of (topology (lf_cell l)) en -> gshape pnt = [dk_total (fst en)] ->
  exists ts n', fiat_point_evaluation o ofZ nan fn sym l order pnt ent n = Ok (ts, n') /\ n <= n' /\
    derivative_keys (spatial_dimension (lf_cell l)) order (map fst ts) /\
    forall alpha g, In (alpha, g) ts ->
      gshape g = lf_dim l :: lf_vshape l /\ incl (gfree g) (gfree pnt) /\
      forall env i v, i < lf_dim l -> in_shape (lf_vshape l) v ->
        eval o vars g env (i :: v)
        = lf_tab l alpha en (map (fun k => eval o vars pnt env [k]) (seq 0 (dk_total (fst en)))) i v.
Proof.
  intros F o xo ofZ nan fn sym l R Hfn H00 H10 Hish Hd Hvs Hsym vars order pnt ent n en Hn He Hp.
  destruct (fiat_leaf_evaluates F o xo ofZ nan fn sym l R Hfn H00 H10 Hish Hd Hvs Hsym vars order pnt ent n Hn He Hp) as (ts & n' & E & L & K & V).
  exists ts, n'. split; [exact E|]. split; [exact L|]. split; [exact K|]. intros alpha g Hg.
  destruct (V alpha g Hg) as (S & Fr & Ve). change (index_shape (ELeaf l)) with (lf_ishape l) in S, Ve. rewrite Hish in S, Ve.
  split; [exact S|]. split; [exact Fr|]. intros env i v Hi Hv.
  assert (Hb : in_shape [lf_dim l] [i]) by (repeat constructor; exact Hi).
  specialize (Ve env [i] v Hb Hv).
  replace (rowmajor [lf_dim l] [i]) with i in Ve by (cbn; lia).
  eapply value_unique; [exact Ve|]. apply vo_leaf.
Qed.

Lemma zpoint_leaves : forall l, In l [cg1 ztab1; dg1 ztab1; dg0 ztab0; cg2 ztab2] -> leaf_evaluates zops zpoint_leaf l.
Proof.
  intros l Hl. apply (fiat_leaf_evaluates Z zops zxops' id (-1)%Z zfunction zsym l).
  - exact zring.
  - exact zfunctions.
  - reflexivity.
  - reflexivity.
  - cbn [In] in Hl. repeat destruct Hl as [<-|Hl]; try reflexivity; destruct Hl.
  - cbn [In] in Hl. repeat destruct Hl as [<-|Hl]; try (cbn; lia); destruct Hl.
  - cbn [In] in Hl. repeat destruct Hl as [<-|Hl]; try (constructor; fail); destruct Hl.
  - apply zsymbols. exact Hl.
Qed.

Lemma zpoint_parts : forall e, incl (all_leaves e) [cg1 ztab1; cg2 ztab2; dg1 ztab1; dg0 ztab0] -> forall l, leaf_of l e ->
  fold_right Nat.mul 1 (lf_ishape l) = lf_dim l /\ leaf_evaluates zops zpoint_leaf l /\ leaf_tabulates zops (zleaf unit) l.
Proof.
  intros e Hi l Hl. destruct (zleaves e unit Hi l Hl) as [H1 H2]. split; [exact H1|]. split; [|exact H2].
  apply zpoint_leaves. apply all_leaves_of, Hi in Hl. cbn [In] in Hl |- *. tauto.
Qed.

Lemma zrt_parts : forall l, leaf_of l zrt ->
  fold_right Nat.mul 1 (lf_ishape l) = lf_dim l /\ leaf_evaluates zops zpoint_leaf l /\ leaf_tabulates zops (zleaf unit) l.
Proof. apply zpoint_parts. incl_leaves. Qed.

Lemma zrt_solid : solid zrt.
Proof.
  intros l Hl. apply all_leaves_of in Hl. unfold zrt, zcg2, zdg1 in Hl. cbn [all_leaves flat_map app In] in Hl.
  repeat destruct Hl as [<-|Hl]; try (cbn; lia); destruct Hl.
Qed.

Lemma zflat_built : built zflat.
Proof. apply (built_flattened (ETensorProduct [zcg2; zcg1])); [|reflexivity]. apply (built_tensor_product [zcg2; zcg1]); [repeat constructor | reflexivity]. Qed.

Lemma zflat_shaped : shaped zflat.
Proof.
  split; [is_sensible|]. split; [|split; [|split]].
  - intros b sh tr H. subs H.
  - intros l H. apply all_leaves_of in H. unfold zflat, zcg2, zcg1 in H. cbn [all_leaves flat_map app In] in H.
    repeat destruct H as [<-|H]; try (constructor; fail); destruct H.
  - intros w H. subs H.
  - intros w H. subs H.
Qed.

Lemma facets_refuted : exists (e : elt Z) ent pt r,
  built e /\ shaped e /\
  (forall l, leaf_of l e -> fold_right Nat.mul 1 (lf_ishape l) = lf_dim l /\ leaf_evaluates zops zpoint_leaf l /\ leaf_tabulates zops (zleaf unit) l) /\
  cell_of e = Ok (Hypercube 2) /\ entity_of (topology (Hypercube 2)) ent /\
  basis_evaluation zops (zleaf unit) e 1 (PSingleton pt) (Some ent) None 0 = Ok r /\
  point_evaluation zops zpoint_leaf e 1 (GVariable "X" [1]) (Some ent) 0 = Err AssertionError.
Proof.
  exists zflat, (DI 1, 2), [3%Z]. eexists. split; [exact zflat_built|]. split; [exact zflat_shaped|].
  split; [apply zpoint_parts; incl_leaves|]. split; [reflexivity|].
  split; [exists 4; split; [vm_compute; auto | cbn; lia]|]. split; [vm_compute; reflexivity|]. reflexivity.
Qed.
