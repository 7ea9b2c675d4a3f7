(** Supports found by integration. *)
From Coq Require Import String List Arith Lia Bool ZArith Permutation Sorted Ring.
From Verif Require Import Model.Prelude Model.Cell Model.Element Model.EntityMaps Model.Gem Model.PointSet Model.Evaluation
  Model.Quadrature Model.Support.
From Verif Require Import Spec.Rowmajor Spec.EntityDofs Spec.Layout Spec.Tabulation Spec.Quadrature Spec.Support.
From Verif Require Import Proofs.Lists Proofs.Cells Proofs.EntityDofs Proofs.EntityDofs2 Proofs.Closure
  Proofs.GemEval Proofs.Leaf Proofs.Factor Proofs.Sums Proofs.Tree Proofs.Single Proofs.Quad Proofs.Quad2.
Import ListNotations.
Open Scope fresh_scope.

(* ------------------------------------------------------------------ *)
(** ** Degrees *)

Fixpoint cut (s : list nat) : list nat :=
  match s with [] => [] | 0 :: _ => [0] | n :: r => n :: cut r end.

Lemma regular_shape : forall d s, regular d s -> deg_shape d = Some (cut s).
Proof.
  fix IH 3. intros d s H. destruct H as [n|ds s H]; [reflexivity|].
  cbn [deg_shape]. induction H as [|d ds Hd H IHl]; [reflexivity|].
  assert (E := IH d s Hd). destruct ds as [|d' ds].
  - rewrite E. reflexivity.
  - rewrite E. rewrite IHl. cbn [length cut]. destruct (list_eqb_spec _ _ nat_eqb_spec (cut s) (cut s)); [reflexivity | congruence].
Qed.

Lemma twice_doubled : forall d q, twice d q -> q = doubled d.
Proof.
  fix IH 3. intros d q H. destruct H as [n|ds qs H]; cbn [doubled].
  - f_equal. lia.
  - f_equal. induction H as [|d q ds qs Hd H IHl]; cbn [map]; [reflexivity|]. rewrite (IH d q Hd), IHl. reflexivity.
Qed.

(* ------------------------------------------------------------------ *)
(** ** Lists *)

Lemma zero_key : forall A d (ts : list (list nat * A)), derivative_keys d 0 (map fst ts) ->
  exists g, ts = [(repeat 0 d, g)].
Proof.
  intros A d ts [N K].
  assert (Z : forall a, length a = d -> fold_right Nat.add 0 a <= 0 -> a = repeat 0 d).
  { clear. intros a <-. induction a as [|x a IH]; cbn; intros H; [reflexivity|]. f_equal; [lia|]. apply IH. lia. }
  assert (H : forall a, In a (map fst ts) -> a = repeat 0 d) by (intros a Ha; apply K in Ha as [L S]; apply Z; assumption).
  assert (H0 : In (repeat 0 d) (map fst ts)).
  { apply K. split; [apply repeat_length|]. clear. induction d; cbn; lia. }
  destruct ts as [|[a g] [|[a' g'] ts]].
  - destruct H0.
  - exists g. f_equal. f_equal. apply H. left. reflexivity.
  - exfalso. inversion N as [|? ? Hn _]; subst. apply Hn. left. rewrite (H a), (H a'); [reflexivity | right; left; reflexivity | left; reflexivity].
Qed.

Lemma filter_enumerate : forall A (h : nat -> A) (P : A -> bool) n a,
  map fst (filter (fun di => P (snd di)) (enumerate_from a (map h (seq a n)))) = filter (fun m => P (h m)) (seq a n).
Proof.
  induction n as [|n IH]; intros a; cbn; [reflexivity|]. destruct (P (h a)); cbn; rewrite IH; reflexivity.
Qed.

Lemma filter_sorted : forall (P : nat -> bool) l, StronglySorted lt l -> StronglySorted lt (filter P l).
Proof.
  intros P l H. induction H as [|x l H IH Hx]; cbn; [constructor|]. destruct (P x); [|exact IH].
  constructor; [exact IH|]. rewrite Forall_forall in *. intros y Hy. apply filter_In in Hy as [Hy _]. auto.
Qed.

Lemma mapF_ok : forall A B (f : A -> fresh B) (P : A -> B -> Prop) l,
  (forall x, In x l -> forall n, exists y n', f x n = Ok (y, n') /\ n <= n' /\ P x y) ->
  forall n, exists ys n', mapF f l n = Ok (ys, n') /\ n <= n' /\ Forall2 P l ys.
Proof.
  intros A B f P l. induction l as [|x l IH]; intros H n.
  - exists [], n. repeat split; [lia | constructor].
  - destruct (H x (or_introl eq_refl) n) as (y & n1 & E & L & Py).
    destruct (IH (fun z Hz => H z (or_intror Hz)) n1) as (ys & n2 & E' & L' & Pys).
    exists (y :: ys), n2. cbn [mapF]. rewrite (fbind_eq _ _ _ _ _ _ _ E), (fbind_eq _ _ _ _ _ _ _ E').
    repeat split; [lia | constructor; assumption].
Qed.

Lemma mapF_ok_from : forall A B (f : A -> fresh B) (P : A -> B -> Prop) m l,
  (forall x, In x l -> forall n, m <= n -> exists y n', f x n = Ok (y, n') /\ n <= n' /\ P x y) ->
  forall n, m <= n -> exists ys n', mapF f l n = Ok (ys, n') /\ n <= n' /\ Forall2 P l ys.
Proof.
  intros A B f P m l. induction l as [|x l IH]; intros H n Hn.
  - exists [], n. repeat split; [lia | constructor].
  - destruct (H x (or_introl eq_refl) n Hn) as (y & n1 & E & L & Py).
    destruct (IH (fun z Hz => H z (or_intror Hz)) n1) as (ys & n2 & E' & L' & Pys); [lia|].
    exists (y :: ys), n2. cbn [mapF]. rewrite (fbind_eq _ _ _ _ _ _ _ E), (fbind_eq _ _ _ _ _ _ _ E').
    repeat split; [lia | constructor; assumption].
Qed.

(* ------------------------------------------------------------------ *)
(** ** Rules *)

Section Rules.
  Context {F : Type}.

  Lemma weight_free : forall r : qrule F, rule_ok r -> forall w, q_weight r = Ok w ->
    incl (map ix_id (ps_indices (q_point_set r))) (gfree w).
  Proof using.
    fix IH 2. intros r H. destruct H as [kd D pts i w Hne Hi Hd Hw|qs Hne Hq]; intros g Eg.
    - cbn [q_weight ps_indices map] in Eg. unfold mk_indexed in Eg. cbn [gshape a_shape length Nat.eqb guard bind check_indices] in Eg.
      rewrite Hi, Hw, Nat.eqb_refl in Eg. cbn [guard bind] in Eg. injection Eg as <-. intros x Hx. exact Hx.
    - cbn [q_weight] in Eg. apply bind_ok in Eg as (ws & Ews & Eg). cbn [q_point_set ps_indices].
      assert (G : Forall (fun w => gshape w = []) ws /\
                  incl (map ix_id (flat_map ps_indices (map q_point_set qs))) (flat_map gfree ws) /\ length ws = length qs).
      { clear Hne Eg. revert ws Ews. induction Hq as [|q qs Hq0 Hq IHq]; intros ws Ews.
        - injection Ews as <-. repeat split; [constructor | intros x []].
        - cbn [mapM] in Ews. apply bind_ok in Ews as (w & Ew & Ews). apply bind_ok in Ews as (ws' & Ews & E).
          injection E as <-. destruct (IHq _ Ews) as (A & B & C).
          destruct (rule_weight q Hq0) as (w' & Ew' & Sw' & _). rewrite Ew in Ew'. injection Ew' as <-.
          split; [constructor; assumption|]. split; [|cbn; congruence].
          cbn [map flat_map]. rewrite map_app. apply incl_app; intros x Hx; apply in_or_app; [left; exact (IH q Hq0 w Ew x Hx) | right; apply B; exact Hx]. }
      destruct G as (S & Fr & L). destruct (reduce_product_ok ws) as (g' & Eg' & _ & Fg & _);
        [intros ->; destruct qs; [congruence | discriminate] | exact S|].
      rewrite Eg in Eg'. injection Eg' as <-. intros x Hx. apply Fg, Fr, Hx.
  Qed.

  Context (gl : cell -> nat -> list (list F) * list F).
  Context (sch : cell -> nat -> string -> result (list (list F) * list F)).
  Context (macro : cell -> bool).

  Lemma mk_qrule_points : forall ps w (r : qrule F), mk_qrule ps w = Ok r -> q_point_set r = ps.
  Proof using. intros ps w r H. unfold mk_qrule in H. apply bind_ok in H as (m & _ & H). destruct (m =? length w); cbn in H; [|discriminate]. injection H as <-. reflexivity. Qed.

  Lemma simple_points : forall c deg s n r n', simple_quadrature gl sch macro c deg s n = Ok (r, n') ->
    exists kd pts ixs, q_point_set r = PPoints kd (spatial_dimension c) pts ixs.
  Proof using.
    intros c [d|ds] s n r n' H; [|discriminate]. unfold simple_quadrature in H.
    destruct (d <? 0)%Z; [discriminate|]. destruct (is_line c && negb (macro c)).
    - apply fbind_ok in H as (i & n1 & _ & H). unfold flift in H. apply bind_ok in H as (q & Eq & H). injection H as -> _.
      apply mk_qrule_points in Eq. eauto.
    - apply fbind_ok in H as (fr & n1 & _ & H). apply fbind_ok in H as (i & n2 & _ & H).
      unfold flift in H. apply bind_ok in H as (q & Eq & H). injection H as -> _.
      apply mk_qrule_points in Eq. eauto.
  Qed.

  Lemma make_points : forall c deg s n r n', make_quadrature gl sch macro c deg s n = Ok (r, n') ->
    rule_points c (q_point_set r).
  Proof using.
    fix IH 1. intros c deg s n r n' H.
    assert (MF : forall cs ds n rs n', map2F (fun c' d => make_quadrature gl sch macro c' d s) cs ds n = Ok (rs, n') ->
       length cs = length ds ->
       (forall c0, In c0 cs -> forall deg s n r n', make_quadrature gl sch macro c0 deg s n = Ok (r, n') -> rule_points c0 (q_point_set r)) ->
       Forall2 rule_points cs (map (@q_point_set F) rs)).
    { clear. induction cs as [|c cs IHc]; intros [|d ds] n rs n' H L G; try discriminate L.
      - cbn in H. injection H as <- _. constructor.
      - cbn [map2F] in H. apply fbind_ok in H as (r & n1 & Er & H). apply fbind_ok in H as (rs' & n2 & Ers & H).
        injection H as <- _. cbn [map]. constructor; [eapply G; [left; reflexivity | exact Er]|].
        eapply IHc; [exact Ers | injection L as L; exact L | intros c0 H0; apply G; right; exact H0]. }
    destruct c as [k|cs|k].
    - cbn [make_quadrature] in H. apply simple_points in H as (kd & pts & i & ->). apply rp_simple; [discriminate | discriminate].
    - cbn [make_quadrature] in H. apply fbind_ok in H as (ds & n1 & E & H). apply fbind_ok in H as (rs & n2 & E2 & H).
      injection H as <- _. cbn [q_point_set]. constructor.
      unfold flift in E. apply bind_ok in E as (ds' & E & E'). injection E' as -> _.
      unfold split_degree in E. destruct (Nat.eqb_spec (length cs) (length (match deg with QTuple l => l | QInt _ => repeat deg (length cs) end))) as [L|]; [|discriminate].
      cbn [guard bind] in E. injection E as <-. eapply MF; [exact E2 | exact L |].
      clear - IH. intros c0 Hc0. induction cs as [|c cs IHcs]; [destruct Hc0|]. destruct Hc0 as [<-|Hc0]; [apply IH | apply IHcs; exact Hc0].
    - destruct k as [|[|[|k]]].
      1, 2, 4: cbn [make_quadrature] in H; apply simple_points in H as (kd & pts & i & ->); apply rp_simple; discriminate.
      constructor. cbn [make_quadrature] in H. apply fbind_ok in H as (ds & n1 & E & H). apply fbind_ok in H as (rs & n2 & E2 & H).
      injection H as <- _. unfold flift in E. apply bind_ok in E as (ds' & E & E'). injection E' as -> _.
      assert (D2 : exists d1 d2, ds = [d1; d2]).
      { clear - E. unfold split_degree in E. destruct deg as [d|l].
        - cbn in E. injection E as <-. eauto.
        - destruct l as [|d1 [|d2 [|]]]; try discriminate E. cbn in E. injection E as <-. eauto. }
      destruct D2 as (d1 & d2 & ->). cbn [q_point_set]. constructor.
      cbn [map2F] in E2. apply fbind_ok in E2 as (r1 & m1 & E1 & E2). apply fbind_ok in E2 as (rs1 & m2 & E2 & E3).
      injection E3 as <- _. apply fbind_ok in E2 as (r2 & m3 & E2 & E4). injection E4 as <- _.
      apply simple_points in E1 as (? & ? & ? & E1). apply simple_points in E2 as (? & ? & ? & E2).
      cbn [map]. rewrite E1, E2. repeat constructor; discriminate.
  Qed.
End Rules.

(* ------------------------------------------------------------------ *)
(** ** One entity *)

Section Entity.
  Context {F G : Type} (o : ops F).
  Context (R : ring_theory (f0 o) (f1 o) (fadd o) (fmul o) (fsub o) (fopp o) eq).
  Context (gtb : F -> F -> bool) (eps : F).
  Context (leaf_eval : leaf F -> nat -> pset F -> option (dimkey * nat) -> option G -> fresh (list (list nat * gem F))).
  Local Notation elt := (elt F).
  Local Notation novars := (fun (_ : string) (_ : list nat) => f0 o).
  Local Notation quad := (Quadrature.quad o novars).
  Local Notation total := (fold_right (fadd o) (f0 o)).

  Definition leaves_tabulate (e : elt) : Prop :=
    forall l, leaf_of l e -> prod (lf_ishape l) = lf_dim l /\ leaf_tabulates o leaf_eval l.

  (** [f] is the square of function [m] wherever it has values. *)
  Definition squares_at (e : elt) (c : cell) (vs : list nat) (ent : dimkey * nat) (m : nat) (f : list F -> F) : Prop :=
    forall pt g, length pt = dk_total (fst ent) ->
      (forall v, in_shape vs v -> value_of o e (repeat 0 (spatial_dimension c)) ent pt m v (g v)) ->
      f pt = total (map (fun v => fmul o (g v) (g v)) (cart (map (seq 0) vs))).

  Lemma entity_sum : forall e c vs k i (r : qrule F) n0 m0 n1 n w,
    all_checked e -> shaped e -> leaves_tabulate e -> cell_of e = Ok c -> value_shape e = Ok vs ->
    rule_ok r -> distinct_indices (q_point_set r) -> psdim (q_point_set r) = dk_total k ->
    (forall j, In j (ps_indices (q_point_set r)) -> m0 <= ix_id j < n1) ->
    n0 + length (index_shape e) + length vs <= m0 -> n1 <= n ->
    q_weight r = Ok w -> entity_of (topology c) (k, i) -> fits e (k, i) (q_point_set r) ->
    exists n' h,
      entity_support o gtb eps leaf_eval e (ixs n0 (index_shape e)) (ixs (n0 + length (index_shape e)) vs) r k i n
      = Ok ((i, filter (fun m => gtb (h m) eps) (seq 0 (prod (index_shape e)))), n') /\ n <= n' /\
      forall m f, m < prod (index_shape e) -> squares_at e c vs (k, i) m f ->
        exists env, h m = quad (q_point_set r) w f env.
  Proof using R.
    intros e c vs k i r n0 m0 n1 n w HC HS HL Hc Hvs Hr Hdi Hpd Hids Hm0 Hn Hw He Hf.
    set (ps := q_point_set r) in *. set (ish := index_shape e) in *.
    set (beta := ixs n0 ish). set (zeta := ixs (n0 + length ish) vs).
    assert (Hps : ps_ok ps) by (apply rule_ps_ok; exact Hr).
    destruct (tree_tabulates o R leaf_eval novars e 0 ps (Some (k, i)) None n c vs HC HS HL Hc Hvs Hps) as (ts & n' & E & Ln & K & V);
      [intros j Hj; specialize (Hids j Hj); lia | exact He | exact Hf |].
    cbn [entity_or_cell] in V. destruct (zero_key _ _ _ K) as (vals & ->).
    destruct (V _ _ (or_introl eq_refl)) as [[Sv Fv] Val]. clear V K. fold ish in Sv, Val.
    assert (Ebz : beta ++ zeta = ixs n0 (ish ++ vs)) by (unfold beta, zeta; rewrite ixs_app; reflexivity).
    assert (Ext : map ix_extent (beta ++ zeta) = gshape vals) by (rewrite Ebz, ixs_extents, Sv; reflexivity).
    destruct (rule_weight r Hr) as (w' & Ew' & Sw & Fw). rewrite Hw in Ew'. injection Ew' as <-.
    assert (Fw' := weight_free r Hr w Hw). fold ps in Fw, Fw'.
    assert (Bid : forall x, In x (map ix_id beta) -> n0 <= x < n0 + length ish) by (intros x; unfold beta; apply in_ixs_id).
    assert (Zid : forall x, In x (map ix_id zeta) -> n0 + length ish <= x < n0 + length ish + length vs) by (intros x; unfold zeta; apply in_ixs_id).
    assert (Pid : forall x, In x (map ix_id (ps_indices ps)) -> m0 <= x < n1)
      by (intros x Hx; apply in_map_iff in Hx as (j & <- & Hj); apply Hids; exact Hj).
    set (X := GIndexed vals (map IFree (beta ++ zeta))).
    set (SQ := GIndexSum (GProduct X X) zeta). set (WT := GProduct SQ w). set (INTS := GIndexSum WT (ps_indices ps)).
    set (T := GComponentTensor INTS beta).
    assert (FX : forall x, In x (gfree X) <-> In x (gfree vals) \/ In x (map ix_id beta) \/ In x (map ix_id zeta)).
    { intros x. unfold X. cbn [gfree]. rewrite in_app_iff, mi_ids_free, map_app, in_app_iff. tauto. }
    assert (FSQ : forall x, In x (gfree SQ) <-> (In x (gfree vals) \/ In x (map ix_id beta) \/ In x (map ix_id zeta)) /\ ~ In x (map ix_id zeta)).
    { intros x. unfold SQ. cbn [gfree]. rewrite in_remove_ids, in_app_iff, FX. tauto. }
    assert (E1 : mk_index_sum (GProduct X X) zeta = Ok SQ).
    { apply mk_index_sum_ok; [reflexivity|]. intros x Hx. cbn [gfree]. apply in_or_app. left. apply FX. auto. }
    assert (E2 : mk_index_sum WT (ps_indices ps) = Ok INTS).
    { apply mk_index_sum_ok; [reflexivity|]. intros x Hx. cbn [gfree]. apply in_or_app. right. apply Fw'. exact Hx. }
    assert (E3 : mk_component_tensor INTS beta = Ok T).
    { apply mk_component_tensor_ok; [reflexivity|]. intros x Hx. unfold INTS, WT. cbn [gfree]. apply in_remove_ids. split.
      - apply in_or_app. left. apply FSQ. split; [auto|]. intros Hz. apply Bid in Hx. apply Zid in Hz. lia.
      - intros Hp. apply Bid in Hx. apply Pid in Hp. lia. }
    assert (FT : gfree T = []).
    { destruct (gfree T) as [|x l] eqn:ET; [reflexivity|]. exfalso. assert (Hx : In x (gfree T)) by (rewrite ET; left; reflexivity).
      unfold T in Hx. cbn [gfree] in Hx. apply in_remove_ids in Hx as [Hx Nb]. apply in_remove_ids in Hx as [Hx Np].
      apply in_app_or in Hx as [Hx|Hx]; [|apply Np, Fw, Hx].
      apply FSQ in Hx as [[Hx|[Hx|Hx]] Nz]; [apply Np, Fv, Hx | apply Nb, Hx | apply Nz, Hx]. }
    set (h := fun m => eval o novars T (fun _ => 0) (unravel_digits ish m)).
    exists n', h. split; [|split; [exact Ln|]].
    - unfold entity_support. fold ps. rewrite (fbind_eq _ _ _ _ _ _ _ E). unfold flift. cbn [bind].
      fold beta zeta. rewrite (mk_indexed_free vals (beta ++ zeta) Ext). cbn [bind]. fold X.
      rewrite mk_product_ok by reflexivity. cbn [bind]. rewrite E1. cbn [bind]. rewrite Hw. cbn [bind].
      rewrite mk_product_ok by (reflexivity || exact Sw). cbn [bind]. fold WT. rewrite E2. cbn [bind]. rewrite E3. cbn [bind].
      rewrite FT. cbn [guard bind]. unfold T at 2. cbn [gshape]. unfold beta. rewrite ixs_extents, cart_seq, map_map.
      unfold enumerate. rewrite <- (filter_enumerate _ h (fun x => gtb x eps)). reflexivity.
    - intros m f Hm Sf. set (b := unravel_digits ish m). assert (Hb : in_shape ish b) by (apply unravel_in_shape; exact Hm).
      assert (Em : rowmajor ish b = m) by (rewrite rowmajor_ravel by (apply in_shape_length; exact Hb); apply ravel_unravel; exact Hm).
      assert (Lb : length b = length beta) by (unfold beta; rewrite ixs_length; symmetry; apply in_shape_length; exact Hb).
      set (env := upds (fun _ => 0) beta b). exists env. rewrite quad_upds. unfold h. fold b. unfold T. cbn [eval]. fold env.
      unfold INTS. cbn [eval]. fold (qexts (ps_indices ps)).
      apply fsum_ext. intros ws Hws. set (e2 := upds env (ps_indices ps) ws). unfold WT. cbn [eval].
      rewrite (Rmul_comm R). f_equal. unfold SQ. cbn [eval].
      assert (Hee : env_ok ps e2) by (apply upds_env_ok; assumption).
      set (pt := pt_at ps e2).
      assert (Lpt : length pt = dk_total k) by (unfold pt; rewrite pt_at_length by assumption; exact Hpd).
      set (g := fun z => eval o novars vals (upds e2 zeta z) (b ++ z)).
      rewrite (Sf pt g); [|exact Lpt|].
      + assert (Ez : map (fun i0 : ix => seq 0 (ix_extent i0)) zeta = map (seq 0) vs)
          by (unfold zeta; rewrite <- (map_map ix_extent (seq 0)), ixs_extents; reflexivity).
        rewrite Ez. change (fold_right (fadd o) (f0 o)) with (fsum o). apply fsum_ext. intros z Hz.
        assert (EX : eval o novars X (upds e2 zeta z) [] = g z).
        { unfold X, g. cbn [eval]. f_equal. rewrite map_map. cbn [gidx_val]. rewrite map_app. f_equal.
          - transitivity (map (fun i0 : ix => env (ix_id i0)) beta).
            + apply map_ext_in. intros j Hj. apply (in_map ix_id) in Hj. rewrite upds_notin by (intros Hz'; apply Bid in Hj; apply Zid in Hz'; lia).
              unfold e2. apply upds_notin. intros Hp. apply Bid in Hj. apply Pid in Hp. lia.
            + unfold env. apply upds_vals; [unfold beta; apply ixs_NoDup | exact Lb].
          - apply upds_vals; [unfold zeta; apply ixs_NoDup|]. unfold zeta. rewrite ixs_length.
            apply in_cart_seq in Hz. symmetry. apply in_shape_length. exact Hz. }
        rewrite EX. reflexivity.
      + intros v Hv. unfold g.
        assert (Ez : forall j, In j (ps_indices ps) -> upds e2 zeta v (ix_id j) = e2 (ix_id j)).
        { intros j Hj. apply upds_notin. intros Hz. apply Zid in Hz. specialize (Hids j Hj). lia. }
        specialize (Val (upds e2 zeta v) b v). rewrite Em in Val.
        replace (pt_at ps (upds e2 zeta v)) with pt in Val by (unfold pt; apply pt_at_ext; intros j Hj; symmetry; apply Ez; exact Hj).
        apply Val; [|exact Hb | exact Hv]. intros j Hj. rewrite Ez by exact Hj. apply Hee. exact Hj.
  Qed.
End Entity.

(* ------------------------------------------------------------------ *)
(** ** All entities *)

Section Base.
  Context {F G : Type} (o : ops F).
  Context (R : ring_theory (f0 o) (f1 o) (fadd o) (fmul o) (fsub o) (fopp o) eq).
  Context (gtb : F -> F -> bool) (eps : F).
  Context (poly : cell -> nat -> (list F -> F) -> F -> Prop).
  Context (gl : cell -> nat -> list (list F) * list F).
  Context (sch : cell -> nat -> string -> result (list (list F) * list F)).
  Context (macro : cell -> bool).
  Context (Hgl : gauss_legendre_ok o poly gl) (Hsch : fiat_scheme_ok o poly sch).
  Context (Htot : forall c d, exists r, sch c d "default" = Ok r).
  Context (leaf_eval : leaf F -> nat -> pset F -> option (dimkey * nat) -> option G -> fresh (list (list nat * gem F))).
  Context (sub_cell : cell -> dimkey -> cell).
  Local Notation elt := (elt F).
  Local Notation novars := (fun (_ : string) (_ : list nat) => f0 o).
  Local Notation quad := (Quadrature.quad o novars).
  Local Notation base := (base_support o gtb eps gl sch macro leaf_eval sub_cell).
  Local Notation make := (make_quadrature gl sch macro).

  Definition prepared (e : elt) : Prop :=
    all_checked e /\ shaped e /\ (forall l, leaf_of l e -> leaf_ok l /\ leaf_tabulates o leaf_eval l).

  Lemma prepared_tabulate : forall e, prepared e -> leaves_tabulate o leaf_eval e.
  Proof using.
    intros e (_ & _ & H) l Hl. destruct (H l Hl) as [[_ A] B]. rewrite fold_mul_prod in A. auto.
  Qed.

  (** What each list of dofs is: the functions whose square sums to more than
      the tolerance, by a rule for the entity. *)
  Definition measured (e : elt) (c : cell) (vs : list nat) (q : qdeg) (k : dimkey) (i : nat) (l : list nat) : Prop :=
    exists h r w n n', make (sub_cell c k) q "default" n = Ok (r, n') /\ q_weight r = Ok w /\
      l = filter (fun m => gtb (h m) eps) (seq 0 (space_dimension e)) /\
      forall m f, m < space_dimension e -> squares_at o e c vs (k, i) m f ->
        exists env, h m = quad (q_point_set r) w f env.

  Lemma base_measured : forall e c vs d s q, prepared e ->
    cell_of e = Ok c -> value_shape e = Ok vs -> degree e = Ok d -> regular d s -> twice d q ->
    (forall k n, In (k, n) (topology c) ->
        spatial_dimension (sub_cell c k) = dk_total k /\ no_empty_product (sub_cell c k) /\
        degree_fits (sub_cell c k) q /\
        forall i ps, i < n -> rule_points (sub_cell c k) ps -> fits e (k, i) ps) ->
    forall n, exists dd n', base e n = Ok (dd, n') /\ n <= n' /\ keys_match (topology c) dd /\
      forall k i l, has_dofs dd k i l -> measured e c vs q k i l.
  Proof using All.
    intros e c vs d s q P Hc Hvs Hd Hreg Htw Hint n. assert (HT := prepared_tabulate e P).
    destruct P as (HC & HS & HL).
    assert (Dim : prod (index_shape e) = space_dimension e).
    { apply dims_prod. intros l Hl. apply HT. exact Hl. }
    destruct (entity_dofs_main F e) with (c := c) as (ed & Eed & km & _);
      [intros l Hl; apply HL; exact Hl | apply HS | exact Hc |].
    assert (tn := topology_NoDup c).
    unfold base_support. rewrite (fbind_eq _ _ _ _ _ _ _ (flift_eq _ _ _ n Hc)).
    assert (Eq : (do d0 <- degree e ;; double_degree d0) = Ok q).
    { rewrite Hd. cbn [bind]. unfold double_degree. rewrite (regular_shape d s Hreg). rewrite <- (twice_doubled d q Htw). reflexivity. }
    pose (P := fun (k : dimkey) (kr : dimkey * list (nat * list nat)) => fst kr = k /\
       (forall cnt, In (k, cnt) (topology c) -> Permutation (map fst (snd kr)) (seq 0 cnt)) /\
       forall i l, In (i, l) (snd kr) -> measured e c vs q k i l).
    match goal with |- context [mapF ?f _ _] => set (body := f) end.
    destruct (mapF_ok _ _ body P (map fst (topology c))) with (n := n) as (dd & n' & E & Ln & FP).
    2:{ exists dd, n'. split; [exact E|]. split; [exact Ln|].
        assert (Ek : map fst dd = map fst (topology c)).
        { clear - FP. induction FP as [|k kr ks dd (<- & _) FP IH]; [reflexivity|]. cbn [map]. rewrite IH. reflexivity. }
        assert (G0 : forall k row, In (k, row) dd -> P k (k, row)).
        { clear - FP. intros k row H. induction FP as [|k0 kr ks dd Hk FP IH]; [destruct H|].
          destruct H as [->|H]; [|apply IH; exact H]. destruct Hk as (Hk & A & B). cbn [fst] in Hk. subst k0. repeat split; assumption. }
        split.
        - split; [rewrite Ek; reflexivity|]. intros k row H. destruct (G0 k row H) as (_ & A & _).
          assert (Hk : In k (map fst (topology c))) by (rewrite <- Ek; apply in_map_iff; exists (k, row); auto).
          apply in_map_iff in Hk as ([k' cnt] & <- & Hk). exists cnt. split; [exact Hk | apply A; exact Hk].
        - intros k i l (row & Hr & Hi). destruct (G0 k row Hr) as (_ & _ & B). apply B. exact Hi. }
    intros k Hk n0. unfold body. apply in_map_iff in Hk as ([k' cnt] & E0 & Hk). cbn [fst] in E0. subst k'.
    destruct (Hint k cnt Hk) as (Hsd & Hne & Hdf & Hfit).
    rewrite (fbind_eq _ _ _ _ _ _ _ (new_indices_eq (index_shape e) n0)).
    rewrite (fbind_eq _ _ _ _ _ _ _ (flift_eq _ _ _ _ Hvs)).
    rewrite (fbind_eq _ _ _ _ _ _ _ (new_indices_eq vs _)).
    rewrite (fbind_eq _ _ _ _ _ _ _ (flift_eq _ _ _ _ Eq)).
    destruct (make_total o poly gl sch macro Hgl Hsch "default" Htot _ _ Hdf (n0 + length (index_shape e) + length vs)) as (r & n1 & Er).
    rewrite (fbind_eq _ _ _ _ _ _ _ Er).
    destruct (make_wf o novars poly gl sch macro Hgl Hsch _ _ _ _ _ _ Hne Er) as (L1 & Hr & Hpd & Hdi & Hids).
    destruct (rule_weight r Hr) as (w & Hw & _ & _).
    assert (Hkk : In k (map fst (topology c))) by (apply in_map_iff; exists (k, cnt); auto).
    destruct (km_row (topology c) ed tn km k Hkk) as [Erow Hrow].
    assert (Eed' : (do d0 <- entity_dofs e ;; dict_get dimkey_eqb d0 k) = Ok (rowof ed k)) by (rewrite Eed; exact Erow).
    rewrite (fbind_eq _ _ _ _ _ _ _ (flift_eq _ _ _ n1 Eed')).
    destruct (proj2 km _ _ Hrow) as (cnt' & Hcnt' & Pr).
    assert (cnt' = cnt) as -> by (eapply topology_unique; eassumption).
    edestruct (mapF_ok_from _ _ (entity_support o gtb eps leaf_eval e (ixs n0 (index_shape e)) (ixs (n0 + length (index_shape e)) vs) r k)
       (fun i il => fst il = i /\ measured e c vs q k i (snd il)) n1 (map fst (rowof ed k))) with (n := n1) as (rows & n2 & E2 & L2 & FP).
    { intros i Hi m Hm. assert (Hic : i < cnt).
      { apply (Permutation_in _ Pr) in Hi. apply in_seq in Hi. lia. }
      destruct (entity_sum o R gtb eps leaf_eval e c vs k i r n0 (n0 + length (index_shape e) + length vs) n1 m w)
        as (m' & h & E & Lm & Hh); auto.
      - rewrite Hpd. exact Hsd.
      - exists cnt. split; [exact Hk | exact Hic].
      - apply Hfit; [exact Hic|]. eapply make_points. exact Er.
      - eexists. exists m'. split; [exact E|]. split; [exact Lm|]. split; [reflexivity|]. cbn [snd].
        exists h, r, w, (n0 + length (index_shape e) + length vs), n1.
        split; [exact Er|]. split; [exact Hw|]. split; [rewrite Dim; reflexivity|].
        intros m1 f Hm1 Hf. rewrite <- Dim in Hm1. exact (Hh m1 f Hm1 Hf). }
    { lia. }
    exists (k, rows), n2. rewrite (fbind_eq _ _ _ _ _ _ _ E2). split; [reflexivity|]. split; [lia|].
    assert (Ef : map fst rows = map fst (rowof ed k)).
    { clear - FP. induction FP as [|i il is rows (<- & _) FP IH]; [reflexivity|]. cbn [map]. rewrite IH. reflexivity. }
    split; [reflexivity|]. cbn [snd]. split.
    - intros cnt' Hc'. assert (cnt' = cnt) as -> by (eapply topology_unique; eassumption). rewrite Ef. exact Pr.
    - intros i l Hin. clear - FP Hin. induction FP as [|i0 il is rows (E & M) FP IH]; [destruct Hin|].
      destruct Hin as [->|Hin]; [cbn [fst snd] in *; subst i0; exact M | apply IH; exact Hin].
  Qed.

  (** The exact integral decides. *)
  Lemma measured_integral : forall e c vs d q k i l m I, measured e c vs q k i l ->
    cell_of e = Ok c -> value_shape e = Ok vs -> degree e = Ok d -> twice d q ->
    no_empty_product (sub_cell c k) -> m < space_dimension e ->
    square_integral o poly sub_cell e (k, i) m I -> (In m l <-> gtb I eps = true).
  Proof using R Hgl Hsch.
    intros e c vs d q k i l m I (h & r & w & n & n' & Er & Hw & -> & Hh) Hc Hvs Hd Htw Hne Hm (c' & d' & q' & f & Hc' & Hd' & Htw' & Hf & HI).
    rewrite Hc in Hc'. injection Hc' as <-. rewrite Hd in Hd'. injection Hd' as <-.
    rewrite (twice_doubled _ _ Htw), <- (twice_doubled _ _ Htw') in Er. cbn [fst] in HI.
    destruct (exactness o novars R poly gl sch macro Hgl Hsch _ _ _ _ HI Hne _ _ _ _ Er) as (w' & Hw' & HQ).
    rewrite Hw in Hw'. injection Hw' as <-.
    destruct (Hh m f Hm) as (env & Eh).
    { intros pt g Hpt Hg. destruct (Hf pt Hpt) as (c' & vs' & g' & Hc' & Hvs' & Hg' & ->).
      rewrite Hc in Hc'. injection Hc' as <-. rewrite Hvs in Hvs'. injection Hvs' as <-.
      f_equal. apply map_ext_in. intros v Hv. apply in_cart_seq in Hv.
      rewrite (value_unique o e _ _ _ _ _ _ _ (Hg' v Hv) (Hg v Hv)). reflexivity. }
    rewrite HQ in Eh. rewrite filter_In, in_seq, Eh. split; [tauto|]. intros H. split; [lia | exact H].
  Qed.

  (** Functions that vanish on the entity are not listed. *)
  Lemma measured_zero : forall e c vs q k i l m, measured e c vs q k i l ->
    cell_of e = Ok c -> value_shape e = Ok vs -> m < space_dimension e ->
    (forall x : F, x = f0 o \/ x <> f0 o) -> gtb (f0 o) eps = false ->
    ~ nonzero_on o e (k, i) m -> ~ In m l.
  Proof using R.
    intros e c vs q k i l m (h & r & w & n & n' & Er & Hw & -> & Hh) Hc Hvs Hm Hdec Heps Hz Hin.
    destruct (Hh m (fun _ => f0 o) Hm) as (env & Eh).
    { intros pt g Hpt Hg. change (fold_right (fadd o) (f0 o)) with (fsum o). symmetry. apply (fsum_none o R).
      intros v Hv. apply in_cart_seq in Hv. destruct (Hdec (g v)) as [E|N].
      - rewrite E. Add Ring FR5 : R. clear - R. ring.
      - exfalso. apply Hz. exists c, vs, pt, v, (g v). repeat split; auto. }
    rewrite quad_zero in Eh by exact R. apply filter_In in Hin as [_ Hin]. rewrite Eh in Hin. congruence.
  Qed.

  Lemma measured_sorted : forall e c vs q k i l, measured e c vs q k i l ->
    StronglySorted lt l /\ forall m, In m l -> m < space_dimension e.
  Proof using.
    intros e c vs q k i l (h & r & w & n & n' & _ & _ & -> & _). split.
    - apply filter_sorted, seq_StronglySorted.
    - intros m Hm. apply filter_In in Hm as [Hm _]. apply in_seq in Hm. lia.
  Qed.
End Base.
