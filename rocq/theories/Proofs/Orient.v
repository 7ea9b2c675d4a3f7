(** Orientation maps of quadrature rules. *)
From Coq Require Import String List Arith Lia Bool ZArith Ring_theory Permutation.
From Verif Require Import Model.Prelude Model.Cell Model.Element Model.Gem Model.PointSet Model.Evaluation Model.Quadrature Model.Orientation.
From Verif Require Import Spec.Rowmajor Spec.Tabulation Spec.Quadrature Spec.Orientation.
From Verif Require Import Proofs.Lists Proofs.Cells Proofs.Closure Proofs.GemEval Proofs.Leaf Proofs.Factor Proofs.Sums Proofs.Quad Proofs.Quad2.
Import ListNotations.
Open Scope fresh_scope.

Lemma map2F_map : forall A B C D (f : A -> B -> fresh C) (g : A -> B -> fresh D) (h : C -> D) xs ys n,
  (forall x y n, In x xs -> g x y n = match f x y n with Ok (r, n') => Ok (h r, n') | Err e => Err e end) ->
  map2F g xs ys n = match map2F f xs ys n with Ok (r, n') => Ok (map h r, n') | Err e => Err e end.
Proof.
  intros A B C D f g h. induction xs as [|x xs IH]; intros [|y ys] n H; try reflexivity.
  cbn [map2F]. unfold fbind. rewrite H by (left; reflexivity). destruct (f x y n) as [[r n1]|e]; [|reflexivity].
  rewrite IH by (intros; apply H; right; assumption). destruct (map2F f xs ys n1) as [[rs n2]|e]; reflexivity.
Qed.

Section Orient.
  Context {F : Type} (o : ops F) (vars : string -> list nat -> F).
  Context (gl : cell -> nat -> frule F) (sch : cell -> nat -> string -> result (frule F)) (macro : cell -> bool).
  Context (move : cell -> nat -> list F -> list F).

  (** *** The rules are those of Model/Quadrature.v *)
  Local Notation gl' := (plain_line gl). Local Notation sch' := (plain_scheme sch).

  Definition forget (x : result (orule F * nat)) : result (qrule F * nat) :=
    match x with Ok (r, n') => Ok (o_rule r, n') | Err e => Err e end.

  Lemma simple_forget : forall c d s n,
    simple_quadrature gl' sch' macro c d s n = forget (o_simple gl sch macro c d s n).
  Proof using Type.
    intros c [d|ds] s n; [|reflexivity]. unfold simple_quadrature, o_simple.
    destruct (d <? 0)%Z; [reflexivity|]. destruct (is_line c && negb (macro c)).
    - unfold plain_line. cbn [fst snd]. unfold fbind. rewrite new_indices_eq. unfold flift, mk_orule.
      destruct (mk_qrule _ _) as [q|e] eqn:E; [|reflexivity]. cbn [bind forget o_rule].
      unfold mk_qrule in E. apply bind_ok in E as (k & _ & E). apply bind_ok in E as ([] & _ & E). injection E as <-. reflexivity.
    - unfold plain_scheme. unfold fbind at 1 3. unfold flift at 1 3. destruct (sch c (Z.to_nat d) s) as [f|e]; [|reflexivity]. cbn [bind].
      cbn [fst snd]. unfold fbind. rewrite new_indices_eq. unfold flift, mk_orule.
      destruct (mk_qrule _ _) as [q|e] eqn:E; [|reflexivity]. cbn [bind forget o_rule].
      unfold mk_qrule in E. apply bind_ok in E as (k & _ & E). apply bind_ok in E as ([] & _ & E). injection E as <-. reflexivity.
  Qed.

  Lemma make_forget : forall c d s n,
    make_quadrature gl' sch' macro c d s n = forget (o_make gl sch macro c d s n).
  Proof using Type.
    induction c as [k|cs IH|k] using cell_ind'; intros d s n.
    - apply simple_forget.
    - cbn [make_quadrature o_make]. unfold fbind at 1 3. unfold flift.
      destruct (split_degree (length cs) d) as [ds|e]; [|reflexivity]. cbn [bind]. unfold fbind.
      rewrite (map2F_map _ _ _ _ (fun c' d' => o_make gl sch macro c' d' s) _ o_rule).
      + destruct (map2F _ cs ds n) as [[rs n']|e]; reflexivity.
      + intros x y m Hx. rewrite Forall_forall in IH. apply IH. exact Hx.
    - destruct k as [|[|[|k]]]; try apply simple_forget.
      cbn [make_quadrature o_make]. unfold fbind at 1 3. unfold flift.
      destruct (split_degree 2 d) as [ds|e]; [|reflexivity]. cbn [bind]. unfold fbind.
      rewrite (map2F_map _ _ _ _ (fun c' d' => o_simple gl sch macro c' d' s) _ o_rule).
      + destruct (map2F _ _ ds n) as [[rs n']|e]; reflexivity.
      + intros x y m _. apply simple_forget.
  Qed.

  Lemma simple_ref_el : forall c d s n r n', o_simple gl sch macro c d s n = Ok (r, n') -> o_ref_el r = Some c.
  Proof using Type.
    intros c [d|ds] s n r n' H; [|discriminate]. unfold o_simple in H.
    destruct (d <? 0)%Z; [discriminate|]. destruct (is_line c && negb (macro c)).
    - apply fbind_ok in H as (i & n1 & _ & H). unfold flift, mk_orule in H.
      destruct (mk_qrule _ _); [|discriminate]. injection H as <- <-. reflexivity.
    - apply fbind_ok in H as (f & n1 & _ & H). apply fbind_ok in H as (i & n2 & _ & H). unfold flift, mk_orule in H.
      destruct (mk_qrule _ _); [|discriminate]. injection H as <- <-. reflexivity.
  Qed.

  Lemma make_ref_el : forall c d s n r n', o_make gl sch macro c d s n = Ok (r, n') -> o_ref_el r = Some (oriented_cell c).
  Proof using Type.
    intros [k|cs|k] d s n r n' H.
    - apply simple_ref_el in H. exact H.
    - cbn [o_make] in H. apply fbind_ok in H as (ds & n1 & _ & H). apply fbind_ok in H as (rs & n2 & _ & H). injection H as <- <-. reflexivity.
    - destruct k as [|[|[|k]]]; try (apply simple_ref_el in H; exact H).
      cbn [o_make] in H. apply fbind_ok in H as (ds & n1 & _ & H). apply fbind_ok in H as (rs & n2 & _ & H). injection H as <- <-. reflexivity.
  Qed.

  (** *** Rules with their axes *)
  Inductive oriented : orule F -> list cell -> Prop :=
  | od_rule : forall kd i c f m,
      orientable o move c f -> fr_io f = [m] -> ix_extent i = length (fr_points f) ->
      oriented (ORule (Some c) (PPoints kd (spatial_dimension c) (fr_points f) [i]) (fr_weights f) [m]) [c]
  | od_tensor : forall rc qs css, qs <> [] -> Forall2 oriented qs css ->
      oriented (OTensor rc qs (concat (map o_io qs))) (concat css).

  Context (Hf : fiat_orientable o move gl sch).

  Lemma simple_fiat : forall c f kd n r n', orientable o move c f ->
    fbind (new_indices [length (fr_points f)])
      (fun i => flift (mk_orule (PPoints kd (spatial_dimension c) (fr_points f) i) (fr_weights f) (Some c) (fr_io f))) n = Ok (r, n') ->
    oriented r [c].
  Proof using Type.
    intros c f kd n r n' Ho H. destruct (proj2 Ho) as (m & Em & _). apply fbind_ok in H as (i & n1 & E & H).
    rewrite new_indices_eq in E. injection E as <- <-. cbn [ixs combine seq length] in H.
    unfold flift, mk_orule in H. destruct (mk_qrule _ _); [|discriminate]. cbn [bind] in H. injection H as <- <-.
    rewrite Em. constructor; [exact Ho | exact Em | reflexivity].
  Qed.

  Lemma simple_oriented : forall c d s n r n', o_simple gl sch macro c d s n = Ok (r, n') -> oriented r [c].
  Proof using Hf.
    intros c [d|ds] s n r n' H; [|discriminate]. unfold o_simple in H.
    destruct (d <? 0)%Z eqn:Hd; [discriminate|]. apply Z.ltb_ge in Hd. destruct (is_line c && negb (macro c)) eqn:Hl.
    - apply andb_prop in Hl as [Hl _]. eapply simple_fiat; [|exact H].
      apply (proj1 Hf); [exact Hl|]. pose proof (Z.div_mod (d + 1 + 1) 2 ltac:(lia)). pose proof (Z.mod_pos_bound (d + 1 + 1) 2 ltac:(lia)). lia.
    - apply fbind_ok in H as (f & n1 & E & H). unfold flift in E. destruct (sch c (Z.to_nat d) s) as [f'|] eqn:Es; [|discriminate].
      cbn in E. injection E as -> <-. eapply simple_fiat; [|exact H]. eapply (proj2 Hf). exact Es.
  Qed.

  Lemma make_oriented : forall c d s n r n', no_empty_product c ->
    o_make gl sch macro c d s n = Ok (r, n') -> oriented r (axes c).
  Proof using Hf.
    induction c as [k|cs IH|k] using cell_ind'; intros d s n r n' Hne H.
    - apply simple_oriented in H. exact H.
    - cbn [o_make] in H. apply fbind_ok in H as (ds & n1 & E1 & H). unfold flift in E1.
      destruct (split_degree (length cs) d) as [ds'|] eqn:Es; [|discriminate]. cbn in E1. injection E1 as -> <-.
      apply split_degree_ok in Es as [Ls _]. apply fbind_ok in H as (rs & n2 & E2 & H). injection H as <- <-.
      inversion Hne as [| |? Hcs HF]; subst. cbn [axes]. rewrite flat_map_concat_map. unfold mk_otensor. cbn [first_pass second_pass].
      assert (G : Forall2 oriented rs (map axes cs)).
      { clear Hcs Hne. revert ds Ls n rs n2 E2. induction IH as [|c cs Hc IH IHcs]; intros [|e ds] Ls n rs n2 E2; try discriminate.
        - injection E2 as <- <-. constructor.
        - apply map2F_cons in E2 as (r & n1 & rs' & Er & E2 & ->). inversion HF; subst. cbn [map].
          constructor; [eapply Hc; [assumption | exact Er]|]. eapply IHcs; [assumption | | exact E2]. simpl in Ls. lia. }
      constructor; [|exact G]. intros ->. inversion G as [E|]; subst. destruct cs; [congruence | discriminate].
    - destruct k as [|[|[|k]]]; try (apply simple_oriented in H; exact H).
      cbn [o_make] in H. apply fbind_ok in H as (ds & n1 & E1 & H). unfold flift in E1.
      destruct (split_degree 2 d) as [ds'|] eqn:Es; [|discriminate]. cbn in E1. injection E1 as -> <-.
      apply split_degree_ok in Es as [Ls _]. apply fbind_ok in H as (rs & n2 & E2 & H). injection H as <- <-.
      destruct ds as [|d1 [|d2 [|]]]; try discriminate.
      apply map2F_cons in E2 as (r1 & n3 & rs' & Er & E2 & ->). apply map2F_cons in E2 as (r2 & n4 & rs'' & Er2 & E2 & ->).
      injection E2 as <- <-. change (axes (Hypercube 2)) with (concat [[Simplex 1]; [Simplex 1]]).
      constructor; [discriminate|]. apply simple_oriented in Er. apply simple_oriented in Er2. repeat constructor; assumption.
  Qed.

  Local Notation ps r := (q_point_set (o_rule r)).

  (** *** One map for every axis *)
  Lemma oriented_rule_ok : forall r cs, oriented r cs -> rule_ok (o_rule r).
  Proof using Type.
    fix IH 3. intros r cs H. destruct H as [kd i c f m ((Hn & Hw & Hd) & _) Em Hi|rc qs css Hne H].
    - cbn [o_rule]. cbn [fst snd] in *. constructor; assumption.
    - cbn [o_rule]. constructor; [destruct qs; [congruence | discriminate]|]. clear Hne.
      induction H as [|q c qs css Hq H IHq]; cbn [map]; constructor; [eapply IH; exact Hq | exact IHq].
  Qed.

  Lemma oriented_leaves : forall r cs, oriented r cs ->
    Forall2 axis_rule (leaves r) cs /\ o_io r = flat_map o_io (leaves r) /\
    length (ps_indices (ps r)) = length cs /\
    psdim (ps r) = fold_right Nat.add 0 (map spatial_dimension cs) /\
    ps_indices (ps r) = flat_map (fun l => ps_indices (ps l)) (leaves r).
  Proof using Type.
    fix IH 3. intros r cs H. destruct H as [kd i c f m (Hok & m' & Em' & Hm) Em Hi|rc qs css Hne H].
    - cbn. repeat split; try lia. constructor; [|constructor]. split; [reflexivity|]. exists i, m. split; [reflexivity|]. split; [reflexivity|].
      intros rows E. apply Forall_forall. intros row Hr. apply In_nth_error in Hr as (io & Hr).
      rewrite Em in Em'. injection Em' as <-. rewrite Hi. eapply Hm; eassumption.
    - clear Hne. cbn [o_rule q_point_set ps_indices psdim leaves o_io].
      induction H as [|q c qs css Hq H IHq]; [repeat split; constructor|].
      destruct (IH q c Hq) as (A1 & A2 & A3 & A4 & A5). destruct IHq as (B1 & B2 & B3 & B4 & B5).
      cbn [map concat flat_map fold_right]. rewrite !flat_map_app. split; [apply Forall2_app; assumption|]. split; [rewrite A2, B2; reflexivity|].
      split; [rewrite !app_length, A3, B3; reflexivity|]. split; [|rewrite A5, B5; reflexivity].
      rewrite A4, B4. clear. rewrite map_app, fold_right_app. induction (map spatial_dimension c) as [|x l IHl]; cbn [fold_right]; lia.
  Qed.

  Lemma leaf_maps : forall (ls : list (orule F)) cs ms, Forall2 axis_rule ls cs ->
    (flat_map o_io ls = map Some ms <-> Forall2 (fun l m => o_io l = [Some m]) ls ms).
  Proof using Type.
    intros ls cs ms H. revert ms. induction H as [|l c ls cs (_ & i & m & _ & E & _) H IH]; intros ms.
    - split; intros G; [destruct ms; [constructor | discriminate] | inversion G; reflexivity].
    - cbn [flat_map]. split; intros G.
      + rewrite E in G. destruct ms as [|m' ms]; [discriminate|]. cbn [app map] in G. injection G as E1 G.
        constructor; [rewrite E, E1; reflexivity | apply IH; exact G].
      + inversion G as [|? m' ? ms' E1 G']; subst. rewrite E1. cbn [app map]. f_equal. apply IH. exact G'.
  Qed.

  Lemma intrinsic_ok : forall (r : orule F) l, intrinsic_maps r = Ok l <-> l = o_io r /\ exists ms, l = map Some ms.
  Proof using Type.
    intros r l. unfold intrinsic_maps. destruct (existsb _ (o_io r)) eqn:E.
    - split; [discriminate|]. intros (-> & ms & Em). exfalso. rewrite Em in E. clear -E. induction ms; [discriminate | apply IHms; exact E].
    - split.
      + intros H. injection H as <-. split; [reflexivity|]. clear -E. induction (o_io r) as [|[m|] l IH]; [exists []; reflexivity| |discriminate].
        destruct IH as (ms & ->); [exact E|]. exists (m :: ms). reflexivity.
      + intros (-> & _). reflexivity.
  Qed.

  Lemma intrinsic_cases : forall r : orule F,
    intrinsic_maps r = Ok (o_io r) /\ (exists ms, o_io r = map Some ms) \/ intrinsic_maps r = Err ValueError /\ In None (o_io r).
  Proof using Type.
    intros r. unfold intrinsic_maps. destruct (existsb _ (o_io r)) eqn:E.
    - right. split; [reflexivity|]. apply existsb_exists in E as ([m|] & Hm & Hn); [discriminate | exact Hm].
    - left. split; [reflexivity|]. clear -E. induction (o_io r) as [|[m|] l IH]; [exists []; reflexivity| |discriminate].
      destruct IH as (ms & ->); [exact E|]. exists (m :: ms). reflexivity.
  Qed.

  Theorem one_map_per_axis : forall c d s n r n', no_empty_product c -> o_make gl sch macro c d s n = Ok (r, n') ->
    Forall2 axis_rule (leaves r) (axes c) /\
    ps_indices (ps r) = flat_map (fun l => ps_indices (ps l)) (leaves r) /\
    (forall ms, intrinsic_maps r = Ok (map Some ms) <-> Forall2 (fun l m => o_io l = [Some m]) (leaves r) ms) /\
    (intrinsic_maps r = Err ValueError <-> exists l, In l (leaves r) /\ o_io l = [None]) /\
    (forall l, intrinsic_maps r = Ok l -> exists ms, l = map Some ms).
  Proof using Hf.
    intros c d s n r n' Hne H. apply make_oriented in H; [|exact Hne]. apply oriented_leaves in H as (A1 & A2 & A3 & A4 & A5).
    split; [exact A1|]. split; [exact A5|]. split; [|split].
    - intros ms. rewrite intrinsic_ok, A2, <- (leaf_maps _ _ _ A1). split; [intros (E & _); symmetry; exact E | intros E; split; [symmetry; exact E | exists ms; reflexivity]].
    - destruct (intrinsic_cases r) as [(E & ms & Em)|(E & Hn)].
      + rewrite E. split; [discriminate|]. intros (l & Hl & El). exfalso.
        assert (Hin : In None (o_io r)) by (rewrite A2; apply in_flat_map; exists l; split; [exact Hl | rewrite El; left; reflexivity]).
        rewrite Em in Hin. apply in_map_iff in Hin as (m & Ex & _). discriminate.
      + split; [|intros _; exact E]. intros _. rewrite A2 in Hn. apply in_flat_map in Hn as (l & Hl & Hn). exists l. split; [exact Hl|].
        clear -A1 Hl Hn. induction A1 as [|l' c' ls cs (_ & i & m & _ & Em & _) H IH]; [destruct Hl|]. destruct Hl as [<-|Hl]; [|auto].
        rewrite Em in Hn |- *. destruct Hn as [->|[]]. reflexivity.
    - intros l E. apply intrinsic_ok in E as (_ & G). exact G.
  Qed.

  (** *** Reorienting *)
  Lemma reorient_app : forall m1 m2 i1 i2 v1 v2, length i1 = length m1 -> length v1 = length m1 ->
    reorient (m1 ++ m2) (i1 ++ i2) (v1 ++ v2) = reorient m1 i1 v1 ++ reorient m2 i2 v2.
  Proof using Type.
    induction m1 as [|m m1 IH]; intros m2 [|i i1] i2 [|v v1] v2 H1 H2; try discriminate; [reflexivity|].
    unfold reorient. cbn [app combine map]. f_equal. apply (IH m2 i1 i2 v1 v2); simpl in *; lia.
  Qed.
  Lemma reorient_length : forall ms ios vs, length ios = length ms -> length vs = length ms -> length (reorient ms ios vs) = length ms.
  Proof using Type. intros ms ios vs H1 H2. unfold reorient. rewrite map_length, !combine_length. lia. Qed.

  Lemma move_axes_app : forall c1 c2 i1 i2 p1 p2, length i1 = length c1 ->
    length p1 = fold_right Nat.add 0 (map spatial_dimension c1) ->
    move_axes move (c1 ++ c2) (i1 ++ i2) (p1 ++ p2) = move_axes move c1 i1 p1 ++ move_axes move c2 i2 p2.
  Proof using Type.
    induction c1 as [|c c1 IH]; intros c2 [|i i1] i2 p1 p2 H1 H2; try discriminate.
    - destruct p1; [reflexivity | discriminate].
    - cbn [map fold_right] in H2. cbn [app move_axes]. rewrite <- app_assoc. 
      rewrite firstn_app, skipn_app. replace (spatial_dimension c - length p1) with 0 by lia. cbn [firstn skipn]. rewrite app_nil_r.
      f_equal. apply IH; [simpl in H1; lia|]. rewrite skipn_length. lia.
  Qed.

  (** Orientation [ios] of the axes exists. *)
  Definition valid (ms : list ornt_map) (ios : list nat) : Prop := Forall2 (fun m io => io < length m) ms ios.

  Local Notation vals := index_values.

  Lemma perm_nth : forall row k v, Permutation row (seq 0 k) -> v < k -> nth v row 0 < k.
  Proof using Type.
    intros row k v H Hv. assert (L := Permutation_length H). rewrite seq_length in L.
    assert (Hin : In (nth v row 0) row) by (apply nth_In; lia). eapply Permutation_in in Hin; [|exact H]. apply in_seq in Hin. lia.
  Qed.

  Lemma map_some_app : forall (a b : list (option ornt_map)) ms, a ++ b = map Some ms ->
    exists m1 m2, ms = m1 ++ m2 /\ a = map Some m1 /\ b = map Some m2.
  Proof using Type.
    induction a as [|x a IH]; intros b ms H; [exists [], ms; auto|]. destruct ms as [|m ms]; [discriminate|].
    cbn in H. injection H as -> H. apply IH in H as (m1 & m2 & -> & -> & ->). exists (m :: m1), m2. auto.
  Qed.

  Context (R : ring_theory (f0 o) (f1 o) (fadd o) (fmul o) (fsub o) (fopp o) eq).
  Local Notation eval := (eval o vars).

  Lemma eval_weight : forall i (w : list F) env, env (ix_id i) < length w ->
    eval (GIndexed (GLiteral (mkArr [length w] w)) [IFree i]) env [] = nth (env (ix_id i)) w (f0 o).
  Proof using Type.
    intros i w env H. cbn [Gem.eval map gidx_val]. unfold arr_at. cbn [a_shape a_data ravel_strides].
    apply Nat.ltb_lt in H. rewrite H. cbn [bind prod]. rewrite Nat.mul_1_r, Nat.add_0_r. reflexivity.
  Qed.

  Lemma point_at : forall kd D pts i env, pt_at (PPoints kd D pts [i]) env = nth (env (ix_id i)) pts ([] : list F).
  Proof using Type. intros. cbn [pt_at map]. unfold rowmajor. cbn [combine fold_left fst snd]. reflexivity. Qed.

  (** The point with the reoriented indices. *)
  Definition moves (r : orule F) (cs : list cell) (ms : list ornt_map) (ios : list nat) : Prop :=
    forall env env', env_ok (ps r) env -> vals r env' = reorient ms ios (vals r env) ->
      env_ok (ps r) env' /\ pt_at (ps r) env' = move_axes move cs ios (pt_at (ps r) env) /\
      exists w, q_weight (o_rule r) = Ok w /\ gshape w = [] /\ eval w env' [] = eval w env [].

  Lemma oriented_moves : forall r cs, oriented r cs -> forall ms ios, o_io r = map Some ms -> valid ms ios -> moves r cs ms ios.
  Proof using R.
    fix IH 3. intros r cs H. destruct H as [kd i c f m ((Hn & Hw & Hd) & m' & Em' & Hm) Em Hi|rc qs css Hne H]; intros ms ios Eio Hv env env' He Hr.
    - cbn [fst snd] in *. destruct ms as [|m0 [|]]; try discriminate. cbn in Eio. injection Eio as ->.
      rewrite Em in Em'. injection Em' as <-. inversion Hv as [|? io ? ios' Hio Hv']; subst. inversion Hv'; subst. clear Hv Hv'.
      unfold index_values in Hr. cbn [o_rule q_point_set ps_indices map reorient combine fst snd] in *. injection Hr as Hr.
      destruct (nth_error m0 io) as [row|] eqn:Er; [|apply nth_error_None in Er; lia].
      rewrite (nth_error_nth _ _ [] Er) in Hr. destruct (Hm _ _ _ eq_refl Er) as (Hp & Hmv).
      assert (Hi' : env (ix_id i) < length (fr_points f)) by (rewrite <- Hi; apply He; left; reflexivity).
      assert (Hi2 : env' (ix_id i) < length (fr_points f)) by (rewrite Hr; eapply perm_nth; [exact Hp | exact Hi']).
      destruct (Hmv _ Hi') as (M1 & M2).
      split; [intros j [<-|[]]; rewrite Hi; exact Hi2|]. rewrite !point_at, Hr, M1. split.
      + cbn [move_axes]. rewrite firstn_all2, skipn_all2, app_nil_r; [reflexivity| |];
          rewrite (Hd (nth (env (ix_id i)) (fr_points f) [])) by (apply nth_In; exact Hi'); lia.
      + cbn [q_weight ps_indices map]. unfold mk_indexed. cbn [gshape a_shape length Nat.eqb guard bind check_indices].
        rewrite Hi, Hw, Nat.eqb_refl. cbn [guard bind]. rewrite <- Hw. eexists. split; [reflexivity|]. split; [reflexivity|].
        rewrite !eval_weight by (rewrite Hw; assumption). rewrite Hr. exact M2.
    - assert (G : env_ok (PTensor (map (fun q => ps q) qs)) env' /\
        concat (map (fun q => pt_at (ps q) env') qs) = move_axes move (concat css) ios (concat (map (fun q => pt_at (ps q) env) qs)) /\
        exists ws, mapM q_weight (map o_rule qs) = Ok ws /\ Forall (fun w => gshape w = []) ws /\ length ws = length qs /\
          map (fun w => eval w env' []) ws = map (fun w => eval w env []) ws).
      { cbn [o_io] in Eio. unfold index_values in Hr. cbn [o_rule q_point_set ps_indices] in He, Hr. unfold env_ok in He |- *.
        cbn [ps_indices] in He |- *. rewrite map_map in He. rewrite !flat_map_map in Hr. rewrite !flat_map_map in He. rewrite flat_map_map. clear Hne.
        revert ms ios Eio Hv He Hr. induction H as [|q c qs css Hq H IHq]; intros ms ios Eio Hv He Hr.
        - destruct ms; [|discriminate]. inversion Hv; subst. cbn. split; [intros j []|]. split; [reflexivity|]. exists []. repeat split. constructor.
        - cbn [map concat flat_map] in Eio, He, Hr |- *.
          apply map_some_app in Eio as (m1 & m2 & -> & E1 & E2).
          apply Forall2_app_inv_l in Hv as (i1 & i2 & Hv1 & Hv2 & ->).
          destruct (oriented_leaves q c Hq) as (A1 & A2 & A3 & A4 & _).
          assert (Lio : length m1 = length c).
          { assert (L := proj1 (leaf_maps _ _ m1 A1) (eq_trans (eq_sym A2) E1)). apply Forall2_length in L.
            rewrite <- L. eapply Forall2_length; exact A1. }
          assert (Li : length i1 = length m1) by (symmetry; eapply Forall2_length; exact Hv1).
          rewrite !map_app in Hr. rewrite reorient_app in Hr; [|exact Li | rewrite map_length; lia].
          assert (Hs : forall (a b c d : list nat), length a = length c -> a ++ b = c ++ d -> a = c /\ b = d).
          { clear. induction a as [|x a IHa]; intros b [|y c] d L E; try discriminate; [auto|]. injection E as -> E. apply IHa in E as (-> & ->); [auto | simpl in L; lia]. }
          apply Hs in Hr as (Hr1 & Hr2); [|rewrite map_length, reorient_length; rewrite ?map_length; lia].
          assert (He1 : env_ok (ps q) env) by (intros j Hj; apply He, in_or_app; left; exact Hj).
          destruct (IH q c Hq m1 i1 E1 Hv1 env env' He1 Hr1) as (B1 & B2 & w & B3 & B4 & B5).
          destruct (IHq m2 i2 E2 Hv2) as (C1 & C2 & ws & C3 & C4 & C5 & C6); [intros j Hj; apply He, in_or_app; right; exact Hj | exact Hr2|].
          split; [intros j Hj; apply in_app_iff in Hj as [Hj|Hj]; [apply B1 | apply C1]; exact Hj|].
          split.
          + rewrite B2, C2. symmetry. apply move_axes_app; [lia|]. rewrite <- A4. apply pt_at_length; [|exact He1].
            apply rule_ps_ok. eapply oriented_rule_ok. exact Hq.
          + exists (w :: ws). cbn [mapM]. rewrite B3. cbn [bind]. rewrite C3. split; [reflexivity|]. split; [constructor; assumption|].
            split; [simpl; lia|]. cbn [map]. rewrite B5, C6. reflexivity. }
      destruct G as (G1 & G2 & ws & G3 & G4 & G5 & G6).
      cbn [o_rule q_point_set]. rewrite map_map. split; [exact G1|]. split; [cbn [pt_at]; rewrite !map_map; exact G2|].
      cbn [q_weight]. rewrite G3. cbn [bind]. destruct (reduce_product_ok ws) as (w & Ew & Sw & _ & Vw); [intros ->; destruct qs; [congruence | discriminate] | exact G4|].
      exists w. split; [exact Ew|]. split; [exact Sw|]. rewrite !Vw by exact R. rewrite G6. reflexivity.
  Qed.

  Lemma oriented_rows : forall r cs, oriented r cs -> forall ms ios, o_io r = map Some ms -> valid ms ios ->
    Forall2 (fun row i => Permutation row (seq 0 (ix_extent i))) (map (fun x => nth (snd x) (fst x) []) (combine ms ios)) (ps_indices (ps r)).
  Proof using Type.
    intros r cs H ms ios E Hv. apply oriented_leaves in H as (A1 & A2 & _ & _ & A5). rewrite A2 in E. rewrite A5. clear A2 A5.
    revert ms ios E Hv. induction A1 as [|l c ls cs (_ & i & m & Ei & Em & Hm) H IH]; intros ms ios E Hv.
    - destruct ms; [|discriminate]. constructor.
    - cbn [flat_map] in *. rewrite Em in E. destruct ms as [|m0 ms]; [discriminate|]. cbn [app map] in E. injection E as -> E.
      inversion Hv as [|? io ? ios' Hio Hv']; subst. cbn [combine map fst snd].
      destruct (nth_error m0 io) as [row|] eqn:Er; [|apply nth_error_None in Er; lia]. rewrite (nth_error_nth _ _ [] Er).
      assert (Hp := Hm _ eq_refl). rewrite Forall_forall in Hp. rewrite Ei. cbn [app]. constructor; [apply Hp; eapply nth_error_In; exact Er|]. apply IH; assumption.
  Qed.

  Lemma reorient_cart : forall ms ios (ixs : list ix), length ios = length ms ->
    Forall2 (fun row i => Permutation row (seq 0 (ix_extent i))) (map (fun x => nth (snd x) (fst x) []) (combine ms ios)) ixs ->
    Permutation (map (reorient ms ios) (cart (qexts ixs))) (cart (qexts ixs)).
  Proof using Type.
    intros ms ios ixs L H.
    assert (E : map (reorient ms ios) (cart (qexts ixs)) = cart (map (fun x => nth (snd x) (fst x) []) (combine ms ios))).
    { revert ios ixs L H. induction ms as [|m ms IH]; intros [|io ios] ixs L H; try discriminate.
      - inversion H; subst. reflexivity.
      - cbn [combine map fst snd] in *. inversion H as [|row i rows ixs' Hp H']; subst. unfold qexts. cbn [map cart]. fold (qexts ixs').
        rewrite <- (IH ios ixs'); [|simpl in L; lia | exact H']. set (row := nth io m []) in *.
        assert (Er : row = map (fun v => nth v row 0) (seq 0 (ix_extent i))).
        { assert (Lr := Permutation_length Hp). rewrite seq_length in Lr. rewrite <- Lr. clear. induction row as [|x l IHl]; [reflexivity|].
          cbn [length seq map nth]. f_equal. rewrite <- seq_shift, map_map. exact IHl. }
        rewrite Er. rewrite flat_map_map, map_flat_map. apply flat_map_ext. intros v. rewrite !map_map. apply map_ext. intros vs.
        unfold reorient. cbn [combine map fst snd]. reflexivity. }
    rewrite E. apply cart_perm. unfold qexts. apply Forall2_map_r. exact H.
  Qed.

  Lemma fsum_permutation : forall l l', Permutation l l' -> fsum o l = fsum o l'.
  Proof using R.
    intros l l' H. destruct R. induction H; unfold Gem.fsum in *; cbn [fold_right]; [reflexivity | congruence | | congruence].
    rewrite !Radd_assoc. f_equal. apply Radd_comm.
  Qed.

  Theorem rule_moves : forall c d s n r n', no_empty_product c -> o_make gl sch macro c d s n = Ok (r, n') ->
    forall ms ios, intrinsic_maps r = Ok (map Some ms) -> Forall2 (fun m io => io < length m) ms ios ->
    forall env env', env_ok (ps r) env -> vals r env' = reorient ms ios (vals r env) ->
      env_ok (ps r) env' /\ pt_at (ps r) env' = move_axes move (axes c) ios (pt_at (ps r) env) /\
      exists w, q_weight (o_rule r) = Ok w /\ eval w env' [] = eval w env [].
  Proof using R Hf.
    intros c d s n r n' Hne H ms ios E Hv env env' He Hr. apply make_oriented in H; [|exact Hne].
    apply intrinsic_ok in E as (E & _). destruct (oriented_moves _ _ H ms ios (eq_sym E) Hv env env' He Hr) as (B1 & B2 & w & B3 & _ & B4).
    split; [exact B1|]. split; [exact B2|]. exists w. split; assumption.
  Qed.

  Lemma fiat_structure : gauss_legendre_ok o (fun _ _ _ _ => False) gl' /\ fiat_scheme_ok o (fun _ _ _ _ => False) sch'.
  Proof using Hf.
    destruct Hf as (H1 & H2). split.
    - intros c m Hl Hm. destruct (H1 c m Hl Hm) as ((Hr & _) & L). split; [exact Hr|]. split; [exact L|]. intros e _ f I [].
    - intros c e s x E. unfold plain_scheme in E. destruct (sch c e s) as [f|] eqn:Ef; [|discriminate]. injection E as <-. destruct (H2 _ _ _ _ Ef) as (Hr & _).
      split; [exact Hr|]. intros g I [].
  Qed.

  Theorem quad_invariant : forall c d s n r n', no_empty_product c -> o_make gl sch macro c d s n = Ok (r, n') ->
    forall ms ios, intrinsic_maps r = Ok (map Some ms) -> Forall2 (fun m io => io < length m) ms ios ->
    exists w, q_weight (o_rule r) = Ok w /\ forall f env,
      quad o vars (ps r) w (fun p => f (move_axes move (axes c) ios p)) env = quad o vars (ps r) w f env.
  Proof using R Hf.
    intros c d s n r n' Hne H ms ios E Hv.
    assert (Hw : fresh_rule c (o_rule r) n n').
    { destruct fiat_structure as (S1 & S2). eapply (make_wf o vars (fun _ _ _ _ => False) gl' sch' macro S1 S2 c d s); [exact Hne|].
      rewrite make_forget, H. reflexivity. }
    destruct Hw as (_ & Hok & _ & Hdi & _).
    assert (Hor := make_oriented _ _ _ _ _ _ Hne H). assert (Eio := E). apply intrinsic_ok in Eio as (Eio & _).
    destruct (rule_weight (o_rule r) Hok) as (w & Ew & _). exists w. split; [exact Ew|]. intros f env. rewrite !quad_upds.
    assert (Hp := oriented_rows _ _ Hor ms ios (eq_sym Eio) Hv).
    assert (Lm : length ios = length ms) by (symmetry; eapply Forall2_length; exact Hv).
    assert (Li : length (ps_indices (ps r)) = length ms).
    { apply Forall2_length in Hp. rewrite map_length, combine_length in Hp. lia. }
    apply (reorient_cart ms ios _ Lm) in Hp. set (ixs := ps_indices (ps r)) in *.
    transitivity (fsum o (map (fun vs => fmul o (eval w (upds env ixs vs) []) (f (pt_at (ps r) (upds env ixs vs)))) (map (reorient ms ios) (cart (qexts ixs))))).
    - rewrite map_map. apply fsum_ext. intros vs Hvs.
      assert (Lv := in_cart_length _ _ Hvs).
      assert (He := upds_env_ok (ps r) env vs Hvs Hdi).
      destruct (rule_moves _ _ _ _ _ _ Hne H ms ios E Hv (upds env ixs vs) (upds env ixs (reorient ms ios vs)) He) as (_ & B2 & w' & Ew' & B3).
      { unfold index_values. fold ixs. rewrite !upds_vals; [reflexivity | exact Hdi | exact Lv | exact Hdi |]. rewrite reorient_length; lia. }
      rewrite Ew in Ew'. injection Ew' as <-. rewrite B2, B3. reflexivity.
    - apply fsum_permutation, Permutation_map. exact Hp.
  Qed.
End Orient.

Lemma extrinsic_of : forall F E (extrinsic : cell -> E) (r : orule F) c, o_ref_el r = Some c -> extrinsic_map extrinsic r = Ok (extrinsic c).
Proof. intros F E extrinsic r c H. unfold extrinsic_map. rewrite H. reflexivity. Qed.

Lemma unset : forall F E (extrinsic : cell -> E) (ps : pset F) w r, mk_orule ps w None [None] = Ok r ->
  extrinsic_map extrinsic r = Err ValueError /\ intrinsic_maps r = Err ValueError.
Proof.
  intros F E extrinsic ps w r H. unfold mk_orule in H. destruct (mk_qrule ps w); [|discriminate]. injection H as <-. split; reflexivity.
Qed.
