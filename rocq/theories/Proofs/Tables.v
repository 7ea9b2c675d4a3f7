(** Tables of composite elements in terms of the tables of their parts. *)
From Coq Require Import String List Arith Lia Bool.
From Verif Require Import Model.Prelude Model.Cell Model.Element Model.Gem Model.PointSet Model.Evaluation.
From Verif Require Import Spec.Rowmajor Spec.Tabulation Proofs.Lists Proofs.GemEval.
Import ListNotations.
Open Scope fresh_scope.

(* ------------------------------------------------------------------ *)
(** ** Derivative multi-indices *)

Lemma sum_fold : forall l, fold_right Nat.add 0 l = sum l.
Proof. induction l as [|x l IH]; simpl; [reflexivity | rewrite IH; reflexivity]. Qed.
Lemma prod_fold : forall l, fold_right Nat.mul 1 l = prod l.
Proof. induction l as [|x l IH]; simpl; [reflexivity | rewrite IH; reflexivity]. Qed.

Lemma mis_S : forall m n, mis (S (S m)) n = flat_map (fun i => map (cons (n - i)) (mis (S m) i)) (seq 0 (S n)).
Proof. reflexivity. Qed.

Lemma in_mis : forall m n a, In a (mis m n) <-> length a = m /\ sum a = n.
Proof.
  induction m as [|[|m] IH]; intros n a.
  - destruct n as [|n]; simpl; split.
    + intros [<-|[]]. split; reflexivity.
    + intros [Hl _]. destruct a; [left; reflexivity | discriminate].
    + intros [].
    + intros [Hl Hs]. destruct a; [discriminate Hs | discriminate Hl].
  - simpl. split.
    + intros [<-|[]]. simpl. lia.
    + intros [Hl Hs]. destruct a as [|x [|y a]]; try discriminate. simpl in Hs. left. f_equal. lia.
  - rewrite mis_S, in_flat_map. split.
    + intros (i & Hi & H). apply in_map_iff in H as (b & <- & Hb). apply IH in Hb as [Hl Hs].
      apply in_seq in Hi. simpl. split; [rewrite Hl; reflexivity | rewrite Hs; lia].
    + intros [Hl Hs]. destruct a as [|x a]; [discriminate|]. simpl in Hl, Hs.
      exists (sum a). split; [apply in_seq; lia|]. apply in_map_iff. exists a. split; [f_equal; lia|].
      apply IH. split; [lia | reflexivity].
Qed.

Lemma NoDup_flat_map : forall A B (f : A -> list B) l,
  NoDup l -> (forall x, In x l -> NoDup (f x)) ->
  (forall x y b, In x l -> In y l -> In b (f x) -> In b (f y) -> x = y) -> NoDup (flat_map f l).
Proof.
  intros A B f l Hl. induction Hl as [|x l Hx Hl IH]; intros Hf Hd; [constructor|]. cbn [flat_map].
  assert (IH' : NoDup (flat_map f l)).
  { apply IH; [intros y Hy; apply Hf; right; exact Hy|].
    intros y z b Hy Hz. apply Hd; right; assumption. }
  specialize (Hf x (or_introl eq_refl)).
  assert (Hdis : forall b, In b (f x) -> ~ In b (flat_map f l)).
  { intros b Hb Hin. apply in_flat_map in Hin as (y & Hy & Hb').
    apply Hx. rewrite (Hd x y b); auto; [left; reflexivity | right; exact Hy]. }
  induction Hf as [|b bs Hb Hbs IHb]; [exact IH'|]. simpl. constructor.
  - rewrite in_app_iff. intros [H|H]; [contradiction|]. apply (Hdis b); [left; reflexivity | exact H].
  - apply IHb. intros b' Hb'. apply Hdis. right. exact Hb'.
Qed.

Lemma mis_NoDup : forall m n, NoDup (mis m n).
Proof.
  induction m as [|[|m] IH]; intros n.
  - destruct n; simpl; repeat constructor; auto.
  - simpl. repeat constructor; auto.
  - rewrite mis_S. apply NoDup_flat_map; [apply seq_NoDup| |].
    + intros i _. apply FinFun.Injective_map_NoDup; [intros a b E; congruence | apply IH].
    + intros i j a Hi Hj Ha Hb. apply in_map_iff in Ha as (a1 & <- & H1).
      apply in_map_iff in Hb as (a2 & E & H2). injection E as _ ->. apply in_mis in H1, H2. lia.
Qed.

Lemma mis_keys : forall d order, derivative_keys d order (flat_map (mis d) (seq 0 (S order))).
Proof.
  intros d order. split.
  - apply NoDup_flat_map; [apply seq_NoDup | intros; apply mis_NoDup|].
    intros i j a _ _ H1 H2. apply in_mis in H1, H2. lia.
  - intros a. rewrite in_flat_map, sum_fold. split.
    + intros (n & Hn & Ha). apply in_seq in Hn. apply in_mis in Ha. lia.
    + intros [Hl Hs]. exists (sum a). split; [apply in_seq; lia | apply in_mis; auto].
Qed.

Definition keq := list_eqb Nat.eqb.
Lemma keq_spec : forall a b, reflect (a = b) (keq a b).
Proof. apply list_eqb_spec, nat_eqb_spec. Qed.

(* ------------------------------------------------------------------ *)
(** ** Slices *)

Lemma split_slices_concat : forall A (dims : list nat) (L : list (list A)),
  Forall2 (fun d l => length l = d) dims L -> split_slices dims (concat L) = L.
Proof.
  induction 1 as [|d l dims L Hl H IH]; [reflexivity|]. cbn [split_slices concat].
  rewrite firstn_app, skipn_app, Hl, Nat.sub_diag, firstn_all2, skipn_all2 by lia.
  cbn [firstn skipn app]. rewrite app_nil_r, IH. reflexivity.
Qed.

Lemma split_slices_spec : forall A (dims : list nat) (l : list A), length l = sum dims ->
  concat (split_slices dims l) = l /\ Forall2 (fun d x => length x = d) dims (split_slices dims l).
Proof.
  induction dims as [|d dims IH]; intros l H; cbn [split_slices concat].
  - destruct l; [split; [reflexivity | constructor] | discriminate].
  - cbn [sum] in H. destruct (IH (skipn d l)) as [E Hf]; [rewrite skipn_length; lia|].
    rewrite E, firstn_skipn. split; [reflexivity|]. constructor; [|exact Hf].
    rewrite firstn_length. lia.
Qed.

Lemma map_concat_inj : forall A B (f : A -> B) (L : list (list A)) (M : list (list B)),
  Forall2 (fun a b => length a = length b) L M -> map f (concat L) = concat M -> map (map f) L = M.
Proof.
  induction 1 as [|a b L M Hab H IH]; intros E; [reflexivity|]. cbn [concat map] in *.
  rewrite map_app in E.
  assert (Ea : map f a = b /\ map f (concat L) = concat M).
  { revert b Hab E. clear. induction a as [|x a IHa]; intros [|y b] Hab E; try discriminate; [auto|].
    simpl in *. injection E as -> E. destruct (IHa b) as [-> ->]; auto. }
  destruct Ea as [<- E']. rewrite IH by exact E'. reflexivity.
Qed.

Lemma app_inj_len : forall A (a b c d : list A), length a = length c -> a ++ b = c ++ d -> a = c /\ b = d.
Proof.
  induction a as [|x a IH]; intros b [|y c] d Hl H; try discriminate; [auto|].
  simpl in *. injection H as -> H. destruct (IH b c d) as [-> ->]; auto.
Qed.

Lemma Forall2_same_map : forall A B C (f : A -> B) (g : A -> C) (P : B -> C -> Prop) l,
  (forall x, In x l -> P (f x) (g x)) -> Forall2 P (map f l) (map g l).
Proof.
  induction l as [|x l IH]; intros H; constructor; [apply H; left; reflexivity|].
  apply IH. intros y Hy. apply H. right. exact Hy.
Qed.

(* ------------------------------------------------------------------ *)
(** ** Products *)

Section Merge.
  Context {F : Type} (o : ops F) (vars : string -> list nat -> F).
  Context (R : ring_theory (f0 o) (f1 o) (fadd o) (fmul o) (fsub o) (fopp o) eq).
  Local Notation gem := (gem F).
  Local Notation eval := (eval o vars).

  Fixpoint scal (rs : list (part F)) (gs : list gem) (n m : nat) : list gem :=
    match rs, gs with
    | r :: rs', g :: gs' =>
        GIndexed g (map IFree (ixs n (p_ish r) ++ ixs m (p_vsh r)))
          :: scal rs' gs' (n + length (p_ish r)) (m + length (p_vsh r))
    | _, _ => []
    end.

  Lemma merge_scalars : forall rs deltas gs n m,
    Forall2 (fun rd g => dict_get keq (p_tab (fst rd)) (snd rd) = Ok g /\
                         gshape g = p_ish (fst rd) ++ p_vsh (fst rd)) (combine rs deltas) gs ->
    length rs = length deltas ->
    mapM (fun x : (tables * list nat) * (list ix * list ix) =>
            let '((fr, delta), (alpha, zeta)) := x in
            do t <- dict_get (list_eqb Nat.eqb) fr delta ;;
            mk_indexed t (map IFree (alpha ++ zeta)))
      (zip (zip (map p_tab rs) deltas) (zip (blocks n (map p_ish rs)) (blocks m (map p_vsh rs))))
    = Ok (scal rs gs n m).
  Proof.
    induction rs as [|r rs IH]; intros [|d deltas] gs n m H Hl; try discriminate; [reflexivity|].
    cbn [combine] in H. inversion H as [|? g ? gs' [Hg Hs] H']; subst. cbn [fst snd] in Hg, Hs.
    cbn [map blocks zip mapM scal]. unfold keq in Hg. unfold tables in *. rewrite Hg. cbn [bind].
    rewrite mk_indexed_free by (rewrite map_app, !ixs_extents; symmetry; exact Hs). cbn [bind].
    rewrite (IH deltas gs' _ _ H') by (simpl in Hl; lia). reflexivity.
  Qed.

  Lemma scal_shape : forall rs gs n m, Forall (fun g => gshape g = []) (scal rs gs n m).
  Proof.
    induction rs as [|r rs IH]; intros [|g gs] n m; try constructor; [reflexivity | apply IH].
  Qed.

  Lemma scal_free : forall rs gs n m, length rs = length gs -> forall x,
    In x (flat_map gfree (scal rs gs n m)) <->
    In x (flat_map gfree gs) \/ n <= x < n + length (concat (map p_ish rs)) \/
    m <= x < m + length (concat (map p_vsh rs)).
  Proof.
    induction rs as [|r rs IH]; intros [|g gs] n m Hl x; try discriminate; cbn [scal flat_map map concat].
    - simpl. lia.
    - simpl in Hl. rewrite in_app_iff, IH by lia. cbn [gfree]. rewrite mi_ids_free, map_app, !in_app_iff, !in_ixs_id.
      rewrite !app_length. intuition lia.
  Qed.

  Lemma scal_eval : forall rs gs (xs : list (share F)) n m env,
    Forall2 (fun r x => length (x_b x) = length (p_ish r) /\ length (x_v x) = length (p_vsh r)) rs xs ->
    length gs = length rs ->
    map env (seq n (length (concat (map p_ish rs)))) = concat (map x_b xs) ->
    map env (seq m (length (concat (map p_vsh rs)))) = concat (map x_v xs) ->
    map (fun c => eval c env []) (scal rs gs n m)
    = map (fun gx => eval (fst gx) env (x_b (snd gx) ++ x_v (snd gx))) (combine gs xs).
  Proof.
    induction rs as [|r rs IH]; intros [|g gs] xs n m env H Hl Hb Hv; try discriminate.
    - inversion H; subst. reflexivity.
    - inversion H as [|? x ? xs' [Lb Lv] H']; subst. cbn [scal map combine concat] in *.
      rewrite app_length, seq_app, map_app in Hb, Hv.
      apply app_inj_len in Hb as [Hb1 Hb2]; [|rewrite map_length, seq_length; auto].
      apply app_inj_len in Hv as [Hv1 Hv2]; [|rewrite map_length, seq_length; auto].
      f_equal; [|apply IH; trivial; simpl in Hl; lia].
      cbn [Gem.eval fst snd]. rewrite map_map, map_app. cbn [gidx_val].
      rewrite <- (map_map ix_id env), <- (map_map ix_id env), !ixs_ids, Hb1, Hv1. reflexivity.
  Qed.

  Lemma max_list_le : forall l m, (forall x, In x l -> x <= m) -> fold_right Nat.max 0 l <= m.
  Proof.
    induction l as [|x l IH]; intros m H; simpl; [lia|].
    specialize (IH m (fun y Hy => H y (or_intror Hy))). specialize (H x (or_introl eq_refl)). lia.
  Qed.
  Lemma max_list_ge : forall l x, In x l -> x <= fold_right Nat.max 0 l.
  Proof. induction l as [|y l IH]; intros x []; simpl; [subst; lia | specialize (IH x H); lia]. Qed.

  Lemma merge_ok : forall (rs : list (part F)) order ids n,
    rs <> [] -> (forall r, In r rs -> part_ok order ids r) -> (forall x, In x ids -> x < n) ->
    exists ts n', merge_evaluations (map p_dim rs) (map p_ish rs) (map p_vsh rs) (map p_tab rs) n = Ok (ts, n') /\
      n <= n' /\ derivative_keys (sum (map p_dim rs)) order (map fst ts) /\
      forall Delta g, In (Delta, g) ts ->
        gshape g = concat (map p_ish rs) ++ concat (map p_vsh rs) /\ incl (gfree g) ids /\
        forall xs env, Forall2 share_ok rs xs -> concat (map x_alpha xs) = Delta ->
          eval g env (concat (map x_b xs) ++ concat (map x_v xs))
          = fold_right (fmul o) (f1 o) (map (fun x => eval (x_g x) env (x_b x ++ x_v x)) xs).
  Proof.
    intros rs order ids n Hne Hparts Hids. unfold merge_evaluations.
    set (keys := concat (map (map fst) (map p_tab rs))).
    assert (Hzero : forall r, In r rs -> In (repeat 0 (p_dim r)) (map fst (p_tab r))).
    { intros r Hr. destruct (Hparts r Hr) as [[_ Hk] _]. apply Hk. rewrite repeat_length. split; [reflexivity|].
      rewrite sum_fold. replace (sum (repeat 0 (p_dim r))) with 0; [lia|].
      clear. induction (p_dim r) as [|d IH]; simpl; auto. }
    assert (Hkeys : forall a, In a keys <-> exists r, In r rs /\ In a (map fst (p_tab r))).
    { intros a. unfold keys. rewrite map_map, <- flat_map_concat_map, in_flat_map. reflexivity. }
    clearbody keys. destruct keys as [|k0 keys'].
    { destruct rs as [|r rs']; [congruence|]. exfalso.
      destruct (proj2 (Hkeys (repeat 0 (p_dim r)))). exists r. split; [left; reflexivity | apply Hzero; left; reflexivity]. }
    set (keys := k0 :: keys') in *. clearbody keys. clear k0 keys'. set (maxo := fold_right Nat.max 0 (map sum keys)).
    (* the order recovered from the keys serves the same multi-indices *)
    assert (Hord : derivative_keys (sum (map p_dim rs)) order (flat_map (mis (sum (map p_dim rs))) (seq 0 (S maxo)))).
    { destruct (mis_keys (sum (map p_dim rs)) maxo) as [Hnd Hin]. split; [exact Hnd|].
      intros a. specialize (Hin a). change (fold_right Nat.add 0 a) with (sum a) in Hin |- *. rewrite Hin. clear Hin.
      split; intros [Hl Hs]; (split; [exact Hl|]).
      - transitivity maxo; [exact Hs|]. apply max_list_le. intros s Hsn. apply in_map_iff in Hsn as (k & <- & Hkk).
        apply Hkeys in Hkk as (r & Hr & Hkr). destruct (Hparts r Hr) as [[_ Hk] _]. apply Hk in Hkr. rewrite sum_fold in Hkr. lia.
      - destruct (Nat.eq_dec (sum (map p_dim rs)) 0) as [E0|E0].
        { destruct a; [simpl; lia | simpl in Hl; lia]. }
        assert (Hr : exists r, In r rs /\ p_dim r <> 0).
        { clear - E0. induction rs as [|r rs IH]; [simpl in E0; lia|]. simpl in E0.
          destruct (Nat.eq_dec (p_dim r) 0) as [E|E].
          - destruct IH as (r' & Hr' & H'); [lia|]. exists r'. split; [right; exact Hr' | exact H'].
          - exists r. split; [left; reflexivity | exact E]. }
        destruct Hr as (r & Hr & Hd). transitivity order; [exact Hs|]. apply max_list_ge.
        apply in_map_iff. exists (order :: repeat 0 (p_dim r - 1)). split.
        + simpl. replace (sum (repeat 0 (p_dim r - 1))) with 0; [lia|].
          clear. induction (p_dim r - 1) as [|d IH]; simpl; auto.
        + apply Hkeys. exists r. split; [exact Hr|]. destruct (Hparts r Hr) as [[_ Hk] _]. apply Hk.
          rewrite sum_fold. simpl. rewrite repeat_length.
          replace (sum (repeat 0 (p_dim r - 1))) with 0; [lia|].
          clear. induction (p_dim r - 1) as [|d IH]; simpl; auto. }
    unfold fbind at 1. rewrite mapF_new_indices. unfold fbind at 1. rewrite mapF_new_indices.
    set (LA := length (concat (map p_ish rs))). set (LV := length (concat (map p_vsh rs))).
    rewrite !concat_blocks. fold LA.
    set (bound := ixs n (concat (map p_ish rs)) ++ ixs (n + LA) (concat (map p_vsh rs))).
    assert (Hbound : bound = ixs n (concat (map p_ish rs) ++ concat (map p_vsh rs)))
      by (unfold bound; rewrite ixs_app; reflexivity).
    (* one derivative *)
    assert (Hone : forall Delta, In Delta (flat_map (mis (sum (map p_dim rs))) (seq 0 (S maxo))) ->
      exists gs p,
        Forall2 (fun rd g => dict_get keq (p_tab (fst rd)) (snd rd) = Ok g /\
                             gshape g = p_ish (fst rd) ++ p_vsh (fst rd) /\ incl (gfree g) ids)
                (combine rs (split_slices (map p_dim rs) Delta)) gs /\
        length gs = length rs /\
        reduce_product (scal rs gs n (n + LA)) = Ok p /\ gshape p = [] /\
        (forall x, In x (gfree p) <-> In x (flat_map gfree (scal rs gs n (n + LA)))) /\
        (forall env, eval p env [] = fold_right (fmul o) (f1 o) (map (fun c => eval c env []) (scal rs gs n (n + LA)))) /\
        (do scalars <- mapM (fun x : (tables * list nat) * (list ix * list ix) =>
            let '((fr, delta), (alpha, zeta)) := x in
            do t <- dict_get (list_eqb Nat.eqb) fr delta ;;
            mk_indexed t (map IFree (alpha ++ zeta)))
          (zip (zip (map p_tab rs) (split_slices (map p_dim rs) Delta))
               (zip (blocks n (map p_ish rs)) (blocks (n + LA) (map p_vsh rs)))) ;;
         do p <- reduce_product scalars ;;
         do ct <- mk_component_tensor p bound ;;
         Ok (Delta, ct)) = Ok (Delta, GComponentTensor p bound)).
    { intros Delta HD. apply Hord in HD as [Hl Hs]. rewrite sum_fold in Hs.
      destruct (split_slices_spec _ (map p_dim rs) Delta Hl) as [Hcat Hlen].
      assert (Hsl : Forall (fun d => sum d <= order) (split_slices (map p_dim rs) Delta)).
      { rewrite <- Hcat in Hs. clear -Hs. revert Hs. generalize (split_slices (map p_dim rs) Delta).
        induction l as [|d l IH]; intros Hs; constructor; cbn [concat] in Hs; rewrite sum_app in Hs; [lia | apply IH; lia]. }
      assert (Hgs : exists gs, Forall2 (fun rd g => dict_get keq (p_tab (fst rd)) (snd rd) = Ok g /\
                             gshape g = p_ish (fst rd) ++ p_vsh (fst rd) /\ incl (gfree g) ids)
                (combine rs (split_slices (map p_dim rs) Delta)) gs /\ length gs = length rs).
      { revert Hlen Hsl. generalize (split_slices (map p_dim rs) Delta) as ds. clear -Hparts.
        induction rs as [|r rs IH]; intros ds Hlen Hsl.
        - inversion Hlen; subst. exists []. split; [constructor | reflexivity].
        - cbn [map] in Hlen. inversion Hlen as [|? d ? ds' Hd Hlen']; subst. inversion Hsl as [|? ? Hsd Hsl']; subst.
          destruct (IH (fun r' Hr' => Hparts r' (or_intror Hr')) ds' Hlen' Hsl') as (gs & Hgs & Hlg).
          destruct (Hparts r (or_introl eq_refl)) as [[_ Hk] Hg].
          assert (Hin : In d (map fst (p_tab r))) by (apply Hk; rewrite sum_fold; auto).
          destruct (dict_get_some keq keq_spec (p_tab r) d Hin) as [g Eg].
          exists (g :: gs). cbn [combine]. split; [|simpl; rewrite Hlg; reflexivity]. constructor; [|exact Hgs].
          cbn [fst snd]. split; [exact Eg|]. apply (Hg d). apply (dict_get_in keq keq_spec). exact Eg. }
      destruct Hgs as (gs & Hgs & Hlg).
      assert (Hnes : scal rs gs n (n + LA) <> []).
      { destruct rs as [|r rs']; [congruence|]. destruct gs; discriminate. }
      destruct (reduce_product_ok _ Hnes (scal_shape rs gs n (n + LA))) as (p & Ep & Hsh & Hfr & Hev).
      exists gs, p. split; [exact Hgs|]. split; [exact Hlg|]. split; [exact Ep|]. split; [exact Hsh|].
      split; [exact Hfr|]. split; [intros env; apply Hev; exact R|].
      rewrite (merge_scalars rs _ gs).
      2:{ eapply Forall2_impl_in; [|exact Hgs]. intros x y _ _ (H1 & H2 & _). split; assumption. }
      2:{ pose proof (Forall2_length _ _ _ _ _ Hlen) as Hx. rewrite map_length in Hx. exact Hx. }
      cbn [bind]. rewrite Ep. cbn [bind]. rewrite mk_component_tensor_ok; [reflexivity | exact Hsh|].
      intros x Hx. apply Hfr. rewrite scal_free by (symmetry; exact Hlg).
      unfold bound in Hx. rewrite map_app, in_app_iff, !in_ixs_id in Hx. fold LA in Hx |- *. fold LV in Hx |- *. lia. }
    (* all of them *)
    assert (Hall : exists ts, mapM (fun Delta =>
        do scalars <- mapM (fun x : (tables * list nat) * (list ix * list ix) =>
            let '((fr, delta), (alpha, zeta)) := x in
            do t <- dict_get (list_eqb Nat.eqb) fr delta ;;
            mk_indexed t (map IFree (alpha ++ zeta)))
          (zip (zip (map p_tab rs) (split_slices (map p_dim rs) Delta))
               (zip (blocks n (map p_ish rs)) (blocks (n + LA) (map p_vsh rs)))) ;;
        do p <- reduce_product scalars ;;
        do ct <- mk_component_tensor p bound ;;
        Ok (Delta, ct)) (flat_map (mis (sum (map p_dim rs))) (seq 0 (S maxo))) = Ok ts /\
      map fst ts = flat_map (mis (sum (map p_dim rs))) (seq 0 (S maxo)) /\
      forall Delta g, In (Delta, g) ts -> exists gs p, g = GComponentTensor p bound /\
        Forall2 (fun rd g => dict_get keq (p_tab (fst rd)) (snd rd) = Ok g /\
                             gshape g = p_ish (fst rd) ++ p_vsh (fst rd) /\ incl (gfree g) ids)
                (combine rs (split_slices (map p_dim rs) Delta)) gs /\
        length gs = length rs /\ gshape p = [] /\
        (forall x, In x (gfree p) <-> In x (flat_map gfree (scal rs gs n (n + LA)))) /\
        (forall env, eval p env [] = fold_right (fmul o) (f1 o) (map (fun c => eval c env []) (scal rs gs n (n + LA))))).
    { revert Hone. generalize (flat_map (mis (sum (map p_dim rs))) (seq 0 (S maxo))) as Ds.
      induction Ds as [|D Ds IH]; intros Hone; [exists []; repeat split; intros; contradiction|].
      destruct IH as (ts & E & Ek & Hts); [intros D' HD'; apply Hone; right; exact HD'|].
      destruct (Hone D (or_introl eq_refl)) as (gs & p & H1 & H2 & H3 & H4 & H5 & H6 & H7).
      exists ((D, GComponentTensor p bound) :: ts). cbn [mapM]. unfold tables in *. rewrite H7. cbn [bind]. rewrite E. cbn [bind].
      split; [reflexivity|]. split; [simpl; rewrite Ek; reflexivity|].
      intros D' g [Eq|Hin]; [|apply Hts; exact Hin]. injection Eq as <- <-.
      exists gs, p. repeat (split; [assumption || reflexivity|]). exact H6. }
    destruct Hall as (ts & Ets & Ekeys & Hts).
    exists ts, (n + LA + LV). unfold flift. unfold tables in *. rewrite Ets. cbn [bind]. split; [reflexivity|].
    split; [lia|]. split; [rewrite Ekeys; exact Hord|].
    intros Delta g Hin. destruct (Hts Delta g Hin) as (gs & p & -> & Hgs & Hlg & Hsh & Hfr & Hev).
    split; [cbn [gshape]; unfold bound; rewrite map_app, !ixs_extents; reflexivity|]. split.
    { intros x Hx. cbn [gfree] in Hx. apply in_remove_ids in Hx as [Hx Hn]. apply Hfr in Hx.
      rewrite scal_free in Hx by (symmetry; exact Hlg). unfold bound in Hn. rewrite map_app, in_app_iff, !in_ixs_id in Hn.
      fold LA in Hx, Hn. fold LV in Hx, Hn. destruct Hx as [Hx|Hx]; [|lia].
      apply in_flat_map in Hx as (g & Hg & Hx).
      clear -Hgs Hg Hx. induction Hgs as [|rd g' L gs (_ & _ & Hi) Hgs IH]; [destruct Hg|].
      destruct Hg as [->|Hg]; [apply Hi; exact Hx | apply IH; exact Hg]. }
    intros xs env Hxs HD. cbn [Gem.eval]. rewrite Hev.
    assert (Lb : length (concat (map x_b xs)) = LA).
    { unfold LA. clear -Hxs. induction Hxs as [|r x rs xs (_ & _ & H & _) Hxs IH]; [reflexivity|].
      cbn [map concat]. rewrite !app_length, IH, H. reflexivity. }
    assert (Lv : length (concat (map x_v xs)) = LV).
    { unfold LV. clear -Hxs. induction Hxs as [|r x rs xs (_ & _ & _ & H) Hxs IH]; [reflexivity|].
      cbn [map concat]. rewrite !app_length, IH, H. reflexivity. }
    set (env' := upds env bound (concat (map x_b xs) ++ concat (map x_v xs))).
    assert (Hvals : map env' (seq n LA ++ seq (n + LA) LV) = concat (map x_b xs) ++ concat (map x_v xs)).
    { rewrite <- seq_app. transitivity (map (fun i => env' (ix_id i)) bound).
      - rewrite <- (map_map ix_id env'). rewrite Hbound, ixs_ids, app_length. reflexivity.
      - apply upds_vals; [rewrite Hbound; apply ixs_NoDup|]. rewrite app_length, Lb, Lv, Hbound, ixs_length, app_length. reflexivity. }
    rewrite map_app in Hvals. apply app_inj_len in Hvals as [Hv1 Hv2]; [|rewrite map_length, seq_length; auto].
    rewrite (scal_eval rs gs xs n (n + LA) env'); trivial.
    2:{ eapply Forall2_impl_in; [|exact Hxs]. intros r x _ _ (_ & _ & A & B). split; assumption. }
    f_equal.
    assert (Hsl : split_slices (map p_dim rs) Delta = map x_alpha xs).
    { rewrite <- HD. apply split_slices_concat. rewrite Forall2_map_r, Forall2_map_l.
      eapply Forall2_impl_in; [|exact Hxs]. intros r x _ _ (A & _). exact A. }
    rewrite Hsl in Hgs. clear Hsl Hv1 Hv2 Lb Lv HD Hfr Hev Hsh Hts Ets Ekeys Hin.
    assert (Henv : forall x, In x ids -> env' x = env x).
    { intros x Hx. unfold env'. apply upds_notin. rewrite Hbound, in_ixs_id. specialize (Hids x Hx). lia. }
    clearbody env'. revert Hgs Hlg. generalize gs. clear -Hxs Henv Hparts.
    induction Hxs as [|r x rs xs (A & B & C & D) Hxs IH]; intros gs Hgs Hlg.
    - destruct gs; reflexivity.
    - cbn [map combine] in Hgs. inversion Hgs as [|? g ? gs' (Eg & _ & Hi) Hgs']; subst. cbn [fst snd] in Eg.
      cbn [combine map fst snd]. f_equal.
      + destruct (Hparts r (or_introl eq_refl)) as [[Hnd _] _].
        rewrite (dict_in_get keq keq_spec _ _ _ Hnd B) in Eg. injection Eg as <-.
        apply eval_ext. intros z Hz. apply Henv, Hi, Hz.
      + apply IH; [intros r' Hr'; apply Hparts; right; exact Hr' | exact Hgs' | simpl in Hlg; lia].
  Qed.
End Merge.
