(** Facts about the samples of entity support dofs. *)
From Coq Require Import String List Arith Lia ZArith QArith Qcanon Bool.
From Verif Require Import Model.Prelude Model.Cell Model.Element Model.EntityMaps Model.Gem Model.PointSet Model.Evaluation
  Model.Quadrature Model.Support.
From Verif Require Import Spec.Rowmajor Spec.EntityDofs Spec.Layout Spec.Tabulation Spec.Quadrature Spec.Support
  Spec.Samples Spec.QSamples Spec.SupportSamples.
From Verif Require Import Proofs.Lists Proofs.SampleFacts Proofs.Leaf Proofs.QuadFacts.
Import ListNotations.
Local Open Scope nat_scope.

Lemma radau_ok : forall m, 1 <= m -> fiat_rule_ok (Simplex 1) (radau_rule (Simplex 1) m).
Proof.
  intros [|[|m]] H; [lia| |].
  - split; [discriminate|]. split; [reflexivity|]. intros p [<-|[]]. reflexivity.
  - split; [discriminate|]. split; [cbn; rewrite !repeat_length; reflexivity|].
    intros p [<-|[<-|Hp]]; try reflexivity. apply repeat_spec in Hp as ->. reflexivity.
Qed.

Lemma radau_exact : forall m d, d + 1 <= 2 * m -> fiat_rule_exact qops quadratic_poly (Simplex 1) d (radau_rule (Simplex 1) m).
Proof.
  intros m d Hm f I (Hd & a & b & e & He & Hf & ->). destruct m as [|[|m]]; [lia| |].
  - assert (E0 : e = 0%Qc) by (apply He; lia). subst e. cbn [radau_rule fst snd combine map fold_right]. rewrite Hf. cbn [nth fadd fmul f0 qops]. ring.
  - cbn [radau_rule fst snd combine map fold_right]. rewrite zeros_sum, !Hf. cbn [nth fadd fmul f0 qops].
    replace half with (Q2Qc (3 # 4) * Q2Qc (2 # 3))%Qc by (apply Qc_is_canon; reflexivity).
    replace third with (Q2Qc (3 # 4) * (Q2Qc (2 # 3) * Q2Qc (2 # 3)))%Qc by (apply Qc_is_canon; reflexivity).
    assert (E : (Q2Qc (1 # 4) = 1 - Q2Qc (3 # 4))%Qc) by (apply Qc_is_canon; reflexivity). rewrite E. ring.
Qed.

Lemma radau_gauss : gauss_legendre_ok qops quadratic_poly radau_rule.
Proof.
  intros c m Hc Hm. destruct c as [[|[|]]|?|?]; try discriminate.
  split; [apply radau_ok; exact Hm|]. split; [|intros d Hd; apply radau_exact; exact Hd].
  destruct m as [|[|m]]; [lia | reflexivity|]. cbn. rewrite repeat_length. reflexivity.
Qed.

Lemma radau_scheme_ok : fiat_scheme_ok qops quadratic_poly radau_scheme.
Proof.
  intros c d s r H.
  assert (P : r = ([repeat 0%Qc (spatial_dimension c)], [1%Qc]) -> fiat_rule_ok c r).
  { intros ->. split; [discriminate|]. split; [reflexivity|]. intros p [<-|[]]. apply repeat_length. }
  destruct c as [[|[|n]]|cs|n]; cbn [radau_scheme] in H; injection H as <-.
  - split; [apply P; reflexivity|]. intros f I ->. cbn. ring.
  - split; [exact (radau_ok 2 ltac:(lia))|]. intros f I HI. assert (Hd : d <= 2) by apply HI. exact (radau_exact 2 d ltac:(lia) f I HI).
  - split; [apply P; reflexivity|]. intros f I [].
  - split; [apply P; reflexivity|]. intros f I [].
  - split; [apply P; reflexivity|]. intros f I [].
Qed.

Lemma radau_total : forall c d, exists r, radau_scheme c d "default" = Ok r.
Proof. intros [[|[|n]]|cs|n] d; eexists; reflexivity. Qed.

Lemma qc_nonzero : f1 qops <> f0 qops.
Proof. discriminate. Qed.
Lemma qc_domain : forall x y, fmul qops x y = f0 qops -> x = f0 qops \/ y = f0 qops.
Proof. intros x y H. apply Qcmult_integral. exact H. Qed.

Lemma qtab_poly : forall a b, fiat_polynomial qops (cg1 (qtab a b)).
Proof.
  intros a b. exists 1. split; [reflexivity|]. split.
  - intros _ alpha ent p q i v H. cbn [lf_tab cg1]. unfold qtab. change (fold_right Nat.add 0 alpha) with (sum alpha) in H. rewrite H. reflexivity.
  - intros alpha ent p i v H. cbn [lf_tab cg1]. unfold qtab. change (fold_right Nat.add 0 alpha) with (sum alpha) in H.
    destruct (sum alpha) as [|[|n]]; [lia | lia | reflexivity].
Qed.

Lemma qleaf_ok : forall a b, leaf_ok (cg1 (qtab a b)) /\ leaf_tabulates qops qleaf (cg1 (qtab a b)).
Proof.
  intros a b. split; [split; [apply edofs_okb_ok; reflexivity | reflexivity]|].
  apply fiat_leaf_tabulates; [reflexivity | reflexivity | constructor | apply qtab_poly].
Qed.

Lemma line_entities : forall ent, entity_of (topology (Simplex 1)) ent -> ent = (DI 0, 0) \/ ent = (DI 0, 1) \/ ent = (DI 1, 0).
Proof.
  intros [k i] (n & Hin & Hi). cbn in Hin, Hi. destruct Hin as [E|[E|[]]]; injection E as <- <-.
  - destruct i as [|[|]]; [left; reflexivity | right; left; reflexivity | lia].
  - destruct i as [|]; [right; right; reflexivity | lia].
Qed.

Lemma line_integrable : forall a b, integrable sample_sub (ELeaf (cg1 (qtab a b))).
Proof.
  intros a b. exists (Simplex 1), [], (Dg 1), [], (QInt 2). split; [reflexivity|]. split; [reflexivity|]. split; [reflexivity|].
  split; [constructor|]. split; [exact (tw_int 1)|]. intros k n Hin. cbn in Hin.
  assert (HF : forall d, d <> 2 -> degree_fits (Simplex d) (QInt 2)).
  { intros d Hd. apply (df_simple (Simplex d) 2); [intros cs|]; discriminate. }
  assert (HP : forall d ps, rule_points (F := Qc) (Simplex d) ps -> psdim ps = d).
  { intros d ps H. inversion H; subst. reflexivity. }
  destruct Hin as [E|[E|[]]]; injection E as <- <-; (split; [reflexivity|]); (split; [constructor|]); (split; [apply HF; lia|]);
    intros i ps _ H; apply fit_leaf; cbn [fst dk_total]; apply HP; exact H.
Qed.

(** The square of [f] on the three entities of the interval. *)
Lemma line_square : forall a b ent m, entity_of (topology (Simplex 1)) ent -> m < 2 ->
  square_of qops (ELeaf (cg1 (qtab a b))) ent m
    (fun pt => let y := qtab a b [0] ent pt m [] in (y * y)%Qc).
Proof.
  intros a b ent m _ _ pt _. exists (Simplex 1), [], (fun v => qtab a b [0] ent pt m []).
  split; [reflexivity|]. split; [reflexivity|]. split.
  - intros v Hv. inversion Hv; subst. apply (vo_leaf qops (cg1 (qtab a b))).
  - cbn. ring.
Qed.

Lemma qgtb_spec : forall x y, qgtb x y = true <-> (y < x)%Qc.
Proof. intros x y. unfold qgtb. destruct (Qclt_le_dec y x) as [H|H]; split; auto; [discriminate|]. intros H'. exfalso. exact (Qclt_not_le _ _ H' H). Qed.

Lemma line_separated : separated qops quadratic_poly sample_sub qgtb q1e8 qcg1.
Proof.
  intros c ent m Hc Hent Hm. cbn in Hc. injection Hc as <-.
  assert (Hf := line_square 1 1 ent m Hent Hm). set (f := fun pt : list Qc => _) in Hf.
  assert (Z : forall pt v x, value_of qops qcg1 (repeat 0 1) ent pt m v x -> x = qtab 1 1 [0] ent pt m v).
  { intros pt v x H. inversion H; subst. reflexivity. }
  assert (NZ : forall pt, length pt = dk_total (fst ent) -> qtab 1 1 [0] ent pt m [] <> 0%Qc -> nonzero_on qops qcg1 ent m).
  { intros pt L H. exists (Simplex 1), [], pt, [], (qtab 1 1 [0] ent pt m []). split; [reflexivity|]. split; [reflexivity|].
    split; [exact L|]. split; [constructor|]. split; [|exact H]. apply (vo_leaf qops (cg1 (qtab 1 1))). }
  assert (SI : forall I, integrates qops quadratic_poly (sample_sub (Simplex 1) (fst ent)) (QInt 2) f I ->
             square_integral qops quadratic_poly sample_sub qcg1 ent m I).
  { intros I HI. exists (Simplex 1), (Dg 1), (QInt 2), f. split; [reflexivity|]. split; [reflexivity|]. split; [exact (tw_int 1)|]. split; assumption. }
  apply line_entities in Hent as [-> | [-> | ->]].
  1-2: exists (f []); split;
    [ apply SI; apply (in_simple qops quadratic_poly (Simplex 0) 2); [intros cs|..]; try discriminate; reflexivity
    | rewrite qgtb_spec; split;
      [ intros H; destruct m as [|[|m]]; [| |unfold space_dimension in Hm; cbn in Hm; lia];
        first [ exfalso; vm_compute in H; discriminate H | apply (NZ []); [reflexivity | vm_compute; discriminate] ]
      | intros (c' & vs & pt & v & x & Hc' & _ & L & _ & Vx & Nx); injection Hc' as <-; apply Z in Vx; subst x;
        destruct m as [|[|m]]; [| |unfold space_dimension in Hm; cbn in Hm; lia];
        first [ vm_compute; reflexivity | exfalso; apply Nx; vm_compute; apply Qc_is_canon; reflexivity ] ] ].
  exists third. split.
  - apply SI. apply (in_simple qops quadratic_poly (Simplex 1) 2); [intros cs; discriminate | discriminate|].
    destruct m as [|[|m]]; [| |unfold space_dimension in Hm; cbn in Hm; lia].
    + split; [lia|]. exists 1%Qc, (Q2Qc (-2 # 1)), 1%Qc. split; [lia|]. split.
      * intros p. unfold f, qtab, qx. cbn [sum fold_right Nat.add].
        replace (Q2Qc (-2 # 1)) with (- (1 + 1))%Qc by (apply Qc_is_canon; reflexivity).
        destruct p as [|x p]; cbn [nth hd]; ring.
      * apply Qc_is_canon. reflexivity.
    + split; [lia|]. exists 0%Qc, 0%Qc, 1%Qc. split; [lia|]. split.
      * intros p. unfold f, qtab, qx. cbn [sum fold_right Nat.add]. destruct p as [|x p]; cbn [nth hd]; ring.
      * apply Qc_is_canon. reflexivity.
  - split; [|intros _; reflexivity]. intros _. apply (NZ [half]); [reflexivity|].
    destruct m as [|[|m]]; [| |unfold space_dimension in Hm; cbn in Hm; lia]; vm_compute; discriminate.
Qed.

Definition sample_support := entity_support_dofs qops qgtb q1e8 radau_rule radau_scheme no_macro qleaf sample_sub.

Lemma leaf_line : forall a b, built (ELeaf (cg1 (qtab a b))) /\ shaped (ELeaf (cg1 (qtab a b))).
Proof.
  intros a b. split; [constructor|]. split; [is_sensible|].
  split; [intros e sh tr H; inversion H|]. split; [intros l H; inversion H; subst; constructor|].
  split; intros w H; inversion H.
Qed.

Lemma qq1_built : built qq1.
Proof.
  apply (built_flattened (ETensorProduct [qcg1; qcg1])); [|reflexivity].
  apply (built_tensor_product [qcg1; qcg1]); [repeat constructor | reflexivity].
Qed.

Lemma qleaves : forall e a b, incl (all_leaves e) [cg1 (qtab a b)] ->
  forall l, leaf_of l e -> leaf_ok l /\ leaf_tabulates qops qleaf l.
Proof. intros e a b H l Hl. apply all_leaves_of, H in Hl as [<-|[]]. apply qleaf_ok. Qed.

Lemma plain_shaped : forall e : elt Qc, sensible e ->
  (forall s, In s (all_subs e) -> match s with ETensor _ _ _ | EHDiv _ | EHCurl _ => False | _ => True end) ->
  incl (all_leaves e) [cg1 (qtab 1 1)] -> shaped e.
Proof.
  intros e HS H HL. split; [exact HS|]. split; [|split; [|split]].
  - intros b sh tr Hs. apply all_subs_of in Hs. destruct (H _ Hs).
  - intros l Hl. apply all_leaves_of, HL in Hl as [<-|[]]. constructor.
  - intros w Hs. apply all_subs_of in Hs. destruct (H _ Hs).
  - intros w Hs. apply all_subs_of in Hs. destruct (H _ Hs).
Qed.

Lemma qq1_shaped : shaped qq1.
Proof.
  apply plain_shaped; [is_sensible| |].
  - intros s Hs. cbn in Hs. repeat destruct Hs as [<-|Hs]; try exact I. destruct Hs.
  - intros l Hl. cbn in Hl. repeat destruct Hl as [<-|Hl]; try (left; reflexivity). destruct Hl.
Qed.

Lemma qq1_bases : forall b, base_of b qq1 ->
  integrable sample_sub b /\ separated qops quadratic_poly sample_sub qgtb q1e8 b.
Proof.
  intros b H. assert (E : b = qcg1).
  { unfold qq1 in H. inversion H as [| | | | | |? ? H'| |]; subst. inversion H' as [| | |? f ? Hf H''| | | | |]; subst.
    destruct Hf as [<-|[<-|[]]]; inversion H''; reflexivity. }
  subst b. split; [apply line_integrable | exact line_separated].
Qed.

Lemma tiny_refuted : exists (e : elt Qc) c vs dd n' l,
  built e /\ shaped e /\ (forall l, leaf_of l e -> leaf_ok l /\ leaf_tabulates qops qleaf l) /\
  (forall b, base_of b e -> integrable sample_sub b) /\
  cell_of e = Ok c /\ value_shape e = Ok vs /\ sample_support e 0 = Ok (dd, n') /\
  has_dofs dd (DI 1) 0 l /\ 1 < space_dimension e /\ nonzero_on qops e (DI 1, 0) 1 /\ ~ In 1 l.
Proof.
  exists qtiny, (Simplex 1), [], [(DI 0, [(0, [0]); (1, [])]); (DI 1, [(0, [0])])], 7, [0].
  destruct (leaf_line 1 (Q2Qc (1 # 100000))) as [HB HS].
  split; [exact HB|]. split; [exact HS|]. split; [intros l H; inversion H; subst; apply qleaf_ok|].
  split; [intros b H; inversion H; subst; apply line_integrable|]. split; [reflexivity|]. split; [reflexivity|].
  split; [vm_compute; reflexivity|]. split; [exists [(0, [0])]; split; [right; left|left]; reflexivity|].
  split; [unfold space_dimension; cbn; lia|]. split; [|intros [E|[]]; discriminate].
  exists (Simplex 1), [], [1%Qc], [], (Q2Qc (1 # 100000) * 1)%Qc. split; [reflexivity|]. split; [reflexivity|]. split; [reflexivity|].
  split; [constructor|]. split; [apply (vo_leaf qops (cg1 (qtab 1 (Q2Qc (1 # 100000)))))|]. vm_compute. discriminate.
Qed.

Lemma nested_refuted : exists (e : elt Qc) c vs dd,
  built e /\ shaped e /\ (forall l, leaf_of l e -> leaf_ok l /\ leaf_tabulates qops qleaf l) /\
  cell_of e = Ok c /\ c = Hypercube 3 /\ value_shape e = Ok vs /\ entity_dofs e = Ok dd /\
  sample_support e 0 = Err AssertionError.
Proof.
  exists (EDiscontinuous qhex), (Hypercube 3), []. eexists.
  split; [constructor; apply (built_flattened (ETensorProduct [qq1; qcg1])); [|reflexivity];
          apply (built_tensor_product [qq1; qcg1]); [repeat constructor; exact qq1_built | reflexivity]|].
  split.
  { apply plain_shaped; [is_sensible| |].
    - intros s Hs. cbn in Hs. repeat destruct Hs as [<-|Hs]; try exact I. destruct Hs.
    - intros l Hl. cbn in Hl. repeat destruct Hl as [<-|Hl]; try (left; reflexivity). destruct Hl. }
  split; [apply (qleaves _ 1 1); intros l Hl; cbn in Hl; repeat destruct Hl as [<-|Hl]; try (left; reflexivity); destruct Hl|].
  split; [reflexivity|]. split; [reflexivity|]. split; [reflexivity|]. split; [vm_compute; reflexivity|]. vm_compute. reflexivity.
Qed.
