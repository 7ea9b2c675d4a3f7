(** Tables of physically mapped elements. *)
From Coq Require Import String List Arith Lia Bool ZArith.
From Verif Require Import Model.Prelude Model.Cell Model.Element Model.Gem Model.PointSet Model.Evaluation Model.Mapped.
From Verif Require Import Spec.Rowmajor Spec.EntityDofs Spec.Layout Spec.Tabulation Spec.Samples Spec.ZSamples.
From Verif Require Import Proofs.Lists Proofs.GemEval Proofs.Tables Proofs.Tables2 Proofs.Leaf Proofs.TabProps Proofs.TabFacts.
Import ListNotations.
Open Scope fresh_scope.

Lemma NoDup_app_intro : forall A (a b : list A), NoDup a -> NoDup b -> (forall x, In x a -> ~ In x b) -> NoDup (a ++ b).
Proof.
  intros A a b Ha Hb H. induction Ha as [|x a Hx Ha IH]; [exact Hb|]. cbn [app]. constructor.
  - rewrite in_app_iff. intros [E|E]; [exact (Hx E)|]. exact (H x (or_introl eq_refl) E).
  - apply IH. intros y Hy. apply H. right. exact Hy.
Qed.

(** ** One table *)
Section Matvec.
  Context {F : Type} (o : ops F) (vars : string -> list nat -> F).
  Local Notation eval := (eval o vars).

  Lemma mapped_matvec_ok : forall (M table : gem F) nd nb vshape n,
    gshape M = [nd; nb] -> gshape table = nb :: vshape ->
    (forall x, In x (gfree M) -> x < n) -> (forall x, In x (gfree table) -> x < n) ->
    exists g, mapped_matvec M vshape table n = Ok (g, n + 1 + 1 + length vshape) /\
      gshape g = nd :: vshape /\ incl (gfree g) (gfree M ++ gfree table) /\
      forall env i v, length v = length vshape ->
        eval g env (i :: v) = fold_right (fadd o) (f0 o) (map (fun j => fmul o (eval M env [i; j]) (eval table env (j :: v))) (seq 0 nb)).
  Proof.
    intros M table nd nb vshape n HM Ht HfM Hft. unfold mapped_matvec. rewrite HM, Ht. cbn [hd].
    unfold fbind. rewrite !new_indices_eq. cbn [length].
    set (ii := (n, nd) : ix). set (jj := (n + 1, nb) : ix). set (z := n + 1 + 1).
    change (ixs n [nd]) with [ii]. change (ixs (n + 1) [nb]) with [jj].
    rewrite mk_indexed_free by (cbn [app map]; rewrite ixs_extents, Ht; reflexivity). cbn [bind].
    rewrite mk_indexed_free by (rewrite HM; reflexivity). cbn [bind].
    rewrite mk_product_ok by reflexivity. cbn [bind].
    rewrite mk_index_sum_ok; [|reflexivity|].
    2:{ intros x [<-|[]]. cbn [gfree]. rewrite !in_app_iff. right. right. rewrite mi_ids_free. left. reflexivity. }
    cbn [bind].
    assert (Hz : forall x, In x (map ix_id (ixs z vshape)) <-> z <= x < z + length vshape) by (intros; apply in_ixs_id).
    rewrite mk_component_tensor_ok; [|reflexivity|].
    2:{ intros x Hx. cbn [gfree]. apply in_remove_ids. rewrite !mi_ids_free, !in_app_iff. cbn [app map] in Hx |- *. destruct Hx as [<-|Hx].
        - split; [left; right; left; reflexivity|]. intros [E|[]]. cbn [jj ii ix_id fst] in E. lia.
        - split; [right; right; right; exact Hx|]. apply Hz in Hx. intros [E|[]]. cbn [jj ix_id fst] in E. unfold z in Hx. lia. }
    cbn [flift bind]. eexists. split; [reflexivity|]. split; [|split].
    - cbn [gshape app map]. rewrite ixs_extents. reflexivity.
    - intros x Hx. cbn [gfree] in Hx. apply in_remove_ids in Hx as [Hx Hn]. apply in_remove_ids in Hx as [Hx Hn'].
      rewrite !mi_ids_free, !in_app_iff in Hx. rewrite in_app_iff. cbn [app map] in *. cbn [In] in *. tauto.
    - intros env i v Hv. cbn [Gem.eval].
      set (env' := upds env ([ii] ++ ixs z vshape) (i :: v)). cbn [map cart ix_extent snd jj].
      rewrite flat_map_concat_map.
      assert (Hc : map (fun vs => fmul o (eval M (upds env' [(n + 1, nb)] vs) (map (gidx_val (upds env' [(n + 1, nb)] vs)) (map IFree ([ii] ++ [(n + 1, nb)]))))
                   (eval table (upds env' [(n + 1, nb)] vs) (map (gidx_val (upds env' [(n + 1, nb)] vs)) (map IFree ([(n + 1, nb)] ++ ixs z vshape)))))
                   (concat (map (fun x => map (cons x) [[]]) (seq 0 nb))) =
                 map (fun j => fmul o (eval M env [i; j]) (eval table env (j :: v))) (seq 0 nb)).
      { rewrite concat_map, map_map. cbn [map]. rewrite <- flat_map_concat_map.
        assert (Hsing : forall A B (f : A -> B) L, flat_map (fun x => [f x]) L = map f L) by (induction L; simpl; congruence).
        rewrite Hsing. apply map_ext. intros j.
        assert (Hnd : NoDup (map ix_id (([ii] ++ ixs z vshape) ++ [(n + 1, nb)]))).
        { rewrite map_app. apply NoDup_app_intro.
          - cbn [app map]. constructor; [|apply ixs_NoDup]. rewrite Hz. cbn [ii ix_id fst]. unfold z. lia.
          - constructor; [intros []|constructor].
          - intros x Hx [<-|[]]. cbn [ix_id fst] in Hx. cbn [app map] in Hx. destruct Hx as [E|E]; [cbn [ii ix_id fst] in E; lia|].
            apply Hz in E. unfold z in E. lia. }
        assert (Hup : upds env' [(n + 1, nb)] [j] = upds env (([ii] ++ ixs z vshape) ++ [(n + 1, nb)]) ((i :: v) ++ [j])).
        { rewrite upds_app; [reflexivity|]. rewrite app_length, ixs_length. cbn [length]. lia. }
        rewrite Hup. set (e2 := upds env _ _).
        assert (Hvals : map (fun k => e2 (ix_id k)) (([ii] ++ ixs z vshape) ++ [(n + 1, nb)]) = (i :: v) ++ [j]).
        { apply upds_vals; [exact Hnd|]. rewrite !app_length, ixs_length. cbn [length]. lia. }
        rewrite map_app in Hvals. apply app_inj_len in Hvals; [|rewrite map_length, app_length, ixs_length; cbn [length]; lia].
        destruct Hvals as [Hv1 Hv2]. cbn [app map] in Hv1, Hv2. injection Hv1 as Hi Hvv. injection Hv2 as Hj.
        assert (Hext : forall g idx, (forall x, In x (gfree g) -> x < n) -> eval g e2 idx = eval g env idx).
        { intros g idx Hg. apply eval_ext. intros x Hx. apply upds_notin. rewrite !map_app, !in_app_iff.
          cbn [map In]. rewrite Hz. specialize (Hg x Hx). cbn [ii ix_id fst]. unfold z. lia. }
        rewrite !Hext by assumption. cbn [app map gidx_val]. change (ix_id ii) with n. change (ix_id (n + 1, nb)) with (n + 1). change (e2 (ix_id (n + 1, nb))) with (e2 (n + 1)) in Hj. change (e2 (ix_id ii)) with (e2 n) in Hi. rewrite Hi, Hj.
        rewrite map_map. cbn [gidx_val]. rewrite Hvv. reflexivity. }
      rewrite <- Hc. reflexivity.
  Qed.
End Matvec.

(** ** Reduced elements, up to the degree *)
Section Reduced.
  Context {F : Type} (o : ops F) (l : leaf F).

  Definition full (l : leaf F) : leaf F :=
    mkLeaf (lf_kind l) (lf_cell l) (lf_degree l) (lf_formdegree l) (lf_edofs l) (lf_dim l) [lf_dim l] (lf_vshape l)
      (lf_mappings l) (lf_macro l) (lf_tab l).

  Lemma mapF_ext : forall A B (f g : A -> fresh B) L, (forall x n, In x L -> f x n = g x n) -> forall n, mapF f L n = mapF g L n.
  Proof.
    intros A B f g L. induction L as [|x L IH]; intros H n; [reflexivity|]. cbn [mapF]. unfold fbind.
    rewrite H by (left; reflexivity). destruct (g x n) as [[y n']|e]; [|reflexivity].
    rewrite IH by (intros; apply H; right; assumption). reflexivity.
  Qed.

  Lemma fbind_ext : forall A B (m m' : fresh A) (k k' : A -> fresh B) n,
    m n = m' n -> (forall a n', k a n' = k' a n') -> fbind m k n = fbind m' k' n.
  Proof. intros A B m m' k k' n H1 H2. unfold fbind. rewrite H1. destruct (m' n) as [[a n']|]; [apply H2|reflexivity]. Qed.

  Lemma fiat_alpha_full : forall d ps np alpha t n, lf_degree l = Dg d -> length (lf_ishape l) = 1 -> sum alpha <= d ->
    fiat_alpha o l ps np alpha t n = fiat_alpha o (full l) ps np alpha t n.
  Proof.
    intros d ps np alpha t n Hd Hl Ha. unfold fiat_alpha. cbn [full lf_dim lf_vshape lf_ishape].
    apply fbind_ext; [reflexivity|]. intros a n1. apply fbind_ext; [reflexivity|]. intros r n2. apply fbind_ext.
    - apply mapF_ext. intros x m _. unfold fiat_expr. cbn [full lf_degree lf_macro lf_dim lf_ishape]. rewrite Hd.
      assert (E : d <? sum alpha = false) by (apply Nat.ltb_ge; exact Ha). rewrite E. reflexivity.
    - intros es n3. destruct (lf_vshape l) as [|v vs]; [reflexivity|].
      apply fbind_ext; [reflexivity|]. intros be n4. unfold fbind. rewrite !new_indices_eq, !ixs_length, Hl. reflexivity.
  Qed.

  Lemma fiat_full : forall d order ps ent n, lf_degree l = Dg d -> length (lf_ishape l) = 1 -> order <= d ->
    fiat_basis_evaluation o l order ps ent n = fiat_basis_evaluation o (full l) order ps ent n.
  Proof.
    intros d order ps ent n Hd Hl Ho. unfold fiat_basis_evaluation.
    apply fbind_ext; [reflexivity|]. intros pts n1.
    change (fiat_tabulate o (full l)) with (fiat_tabulate o l). change (lf_cell (full l)) with (lf_cell l).
    apply mapF_ext. intros [alpha t] m Hin. unfold fbind. cbn [fst snd].
    rewrite (fiat_alpha_full d); trivial.
    unfold fiat_tabulate in Hin. apply in_map_iff in Hin as (a & E & Hin). injection E as <- _.
    apply in_flat_map in Hin as (k & Hk & Hin). apply in_seq in Hk. apply in_mis in Hin as [_ E]. lia.
  Qed.
End Reduced.

(** ** basis_evaluation *)
Lemma mapped_tabulation : forall F (o : ops F) (l : leaf F) nd G (T : G -> result (gem F)) geo M,
  fclose0 o (f0 o) = true -> lf_ishape l = [nd] -> Forall (lt 0) (lf_vshape l) -> fiat_polynomial o l ->
  T geo = Ok M -> gshape M = [nd; lf_dim l] ->
  forall vars order ps ent n,
  nd = lf_dim l \/ (exists d, lf_degree l = Dg d /\ order <= d) ->
  ps_ok ps -> (forall i, In i (ps_indices ps) -> ix_id i < n) -> (forall x, In x (gfree M) -> x < n) ->
  entity_of (topology (lf_cell l)) (entity_or_cell (lf_cell l) ent) ->
  psdim ps = dk_total (fst (entity_or_cell (lf_cell l) ent)) ->
  exists ts n', mapped_basis_evaluation o T l order ps ent (Some geo) n = Ok (ts, n') /\ n <= n' /\
    derivative_keys (spatial_dimension (lf_cell l)) order (map fst ts) /\
    forall alpha g, In (alpha, g) ts ->
      gshape g = nd :: lf_vshape l /\ incl (gfree g) (gfree M ++ map ix_id (ps_indices ps)) /\
      forall env i v, env_ok ps env -> i < nd -> in_shape (lf_vshape l) v ->
        eval o vars g env (i :: v) =
        fold_right (fadd o) (f0 o) (map (fun j => fmul o (eval o vars M env [i; j])
          (lf_tab l alpha (entity_or_cell (lf_cell l) ent) (pt_at ps env) j v)) (seq 0 (lf_dim l))).
Proof.
  intros F o l nd G T geo M Hc Hish Hvp Hpoly HT HM vars order ps ent n Hnd Hps Hn HnM Hent Hdim.
  assert (Htab : exists ts n', fiat_basis_evaluation o l order ps ent n = Ok (ts, n') /\ n <= n' /\
    derivative_keys (spatial_dimension (lf_cell l)) order (map fst ts) /\
    forall alpha g, In (alpha, g) ts ->
      gshape g = lf_dim l :: lf_vshape l /\ incl (gfree g) (map ix_id (ps_indices ps)) /\
      forall env i v, env_ok ps env -> i < lf_dim l -> in_shape (lf_vshape l) v ->
        eval o vars g env (i :: v) = lf_tab l alpha (entity_or_cell (lf_cell l) ent) (pt_at ps env) i v).
  { destruct Hnd as [->|(d & Hd & Ho)].
    - exact (fiat_tabulation F o l Hc Hish Hvp Hpoly vars order ps ent n Hps Hn Hent Hdim).
    - rewrite (fiat_full o l d) by (trivial; rewrite Hish; reflexivity).
      exact (fiat_tabulation F o (full l) Hc eq_refl Hvp Hpoly vars order ps ent n Hps Hn Hent Hdim). }
  destruct Htab as (ts & n1 & E & Hle & Hkeys & Hts).
  unfold mapped_basis_evaluation. unfold fbind at 1. unfold flift at 1. rewrite HT. cbn [bind].
  unfold fbind at 1. rewrite E.
  assert (Hgen : forall L m, n1 <= m -> incl L ts -> exists us m', mapF (fun at_ => x <~ mapped_matvec M (lf_vshape l) (snd at_) ;; fret (fst at_, x)) L m = Ok (us, m') /\
      m <= m' /\ map fst us = map fst L /\ forall alpha g, In (alpha, g) us -> gshape g = nd :: lf_vshape l /\
        incl (gfree g) (gfree M ++ map ix_id (ps_indices ps)) /\
        forall env i v, env_ok ps env -> i < nd -> in_shape (lf_vshape l) v ->
        eval o vars g env (i :: v) =
        fold_right (fadd o) (f0 o) (map (fun j => fmul o (eval o vars M env [i; j])
          (lf_tab l alpha (entity_or_cell (lf_cell l) ent) (pt_at ps env) j v)) (seq 0 (lf_dim l)))).
  { induction L as [|[alpha t] L IH]; intros m Hm Hin.
    - exists [], m. split; [reflexivity|]. split; [lia|]. split; [reflexivity|]. intros ? ? [].
    - destruct (Hts alpha t (Hin _ (or_introl eq_refl))) as (Hs & Hf & Hv).
      destruct (mapped_matvec_ok o vars M t nd (lf_dim l) (lf_vshape l) m HM Hs) as (g & Eg & Hgs & Hgf & Hge).
      { intros x Hx. specialize (HnM x Hx). lia. }
      { intros x Hx. apply Hf in Hx. apply in_map_iff in Hx as (q & <- & Hq). specialize (Hn q Hq). lia. }
      destruct (IH (m + 1 + 1 + length (lf_vshape l))) as (us & m' & E' & Hle' & Hk & Hus); [lia | intros x Hx; apply Hin; right; exact Hx|].
      exists ((alpha, g) :: us), m'. cbn [mapF]. unfold fbind in E' |- *. cbn [fst snd]. rewrite Eg. unfold fret at 1. rewrite E'.
      split; [reflexivity|]. split; [lia|]. split; [cbn [map fst]; rewrite Hk; reflexivity|].
      intros a h [Eq|H]; [|exact (Hus a h H)]. injection Eq as <- <-. split; [exact Hgs|]. split.
      { intros x Hx. apply Hgf in Hx. rewrite in_app_iff in *. destruct Hx as [Hx|Hx]; [left; exact Hx|right; apply Hf; exact Hx]. }
      intros env i v He Hi Hvv. rewrite Hge by (symmetry; exact (in_shape_length _ _ Hvv)).
      f_equal. apply map_ext_in. intros j Hj. apply in_seq in Hj. rewrite (Hv env j v He) by (trivial; lia). reflexivity. }
  destruct (Hgen ts n1 ltac:(lia) (incl_refl _)) as (us & m' & E' & Hle' & Hk & Hus).
  exists us, m'. split; [exact E'|]. split; [lia|]. split; [rewrite Hk; exact Hkeys|exact Hus].
Qed.

(** ** Matrices given entry by entry *)
Lemma list_tensor_T_ok : forall F (numbf ndof : nat) (V : nat -> nat -> gem F), 0 < numbf -> 0 < ndof ->
  (forall i j, i < numbf -> j < ndof -> gshape (V i j) = []) ->
  exists M, list_tensor_T numbf ndof V = Ok M /\ gshape M = [ndof; numbf] /\
    (forall x, In x (gfree M) -> exists i j, i < numbf /\ j < ndof /\ In x (gfree (V i j))) /\
    forall o vars env i j, i < ndof -> j < numbf -> eval o vars M env [i; j] = eval o vars (V j i) env [].
Proof.
  intros F numbf ndof V Hb Hd Hs. set (L := flat_map (fun j => map (fun i => V i j) (seq 0 numbf)) (seq 0 ndof)).
  assert (Hin : forall g, In g L -> exists i j, i < numbf /\ j < ndof /\ g = V i j).
  { intros g Hg. unfold L in Hg. apply in_flat_map in Hg as (j & Hj & Hg). apply in_map_iff in Hg as (i & <- & Hi).
    apply in_seq in Hi, Hj. exists i, j. split; [lia|]. split; [lia|reflexivity]. }
  assert (Hblk : forall m a, length (flat_map (fun j => map (fun i => V i j) (seq 0 numbf)) (seq a m)) = m * numbf).
  { induction m as [|m IH]; intros a; [reflexivity|]. cbn [seq flat_map]. rewrite app_length, map_length, seq_length, IH. lia. }
  assert (Hlen : length L = prod [ndof; numbf]) by (unfold L; rewrite Hblk; cbn; lia).
  unfold list_tensor_T. fold L. exists (GListTensor [ndof; numbf] L). split; [|split; [reflexivity|split]].
  - apply mk_list_tensor_ok; trivial.
    + cbn. nia.
    + apply Forall_forall. intros g Hg. destruct (Hin g Hg) as (i & j & Hi & Hj & ->). apply Hs; assumption.
  - intros x Hx. cbn [gfree] in Hx. apply in_flat_map in Hx as (g & Hg & Hx). destruct (Hin g Hg) as (i & j & Hi & Hj & ->).
    exists i, j. auto.
  - intros o vars env i j Hi Hj.
    assert (Hnth : forall m a k, k < m -> forall dd, nth (k * numbf + j) (flat_map (fun j => map (fun i => V i j) (seq 0 numbf)) (seq a m)) dd = V j (a + k)).
    { induction m as [|m IH]; intros a k Hk dd; [lia|]. cbn [seq flat_map]. destruct k as [|k].
      - rewrite app_nth1 by (rewrite map_length, seq_length; lia). cbn [Nat.mul Nat.add].
        rewrite (nth_indep _ dd (V 0 a)) by (rewrite map_length, seq_length; lia).
        rewrite (map_nth (fun i => V i a)), seq_nth by lia. rewrite Nat.add_0_r. reflexivity.
      - rewrite app_nth2 by (rewrite map_length, seq_length; nia). rewrite map_length, seq_length.
        replace (S k * numbf + j - numbf) with (k * numbf + j) by nia. rewrite IH by lia. f_equal. lia. }
    cbn [Gem.eval ravel_strides]. rewrite (proj2 (Nat.ltb_lt i ndof) Hi), (proj2 (Nat.ltb_lt j numbf) Hj). cbn [bind].
    replace (i * prod [numbf] + (j * prod [] + 0)) with (i * numbf + j) by (cbn; lia).
    assert (Hlt : i * numbf + j < length L) by (rewrite Hlen; cbn; nia).
    rewrite (nth_indep _ (f0 o) (eval o vars (V 0 0) env [])) by (rewrite map_length; exact Hlt).
    rewrite (map_nth (fun c => eval o vars c env [])). unfold L. rewrite Hnth by exact Hi. reflexivity.
Qed.

Lemma mapped_by_entries : forall F (o : ops F) (l : leaf F) nd G (V : G -> nat -> nat -> gem F) geo,
  fclose0 o (f0 o) = true -> lf_ishape l = [nd] -> Forall (lt 0) (lf_vshape l) -> fiat_polynomial o l ->
  0 < nd -> 0 < lf_dim l -> (forall i j, i < lf_dim l -> j < nd -> gshape (V geo i j) = []) ->
  forall vars order ps ent n,
  nd = lf_dim l \/ (exists d, lf_degree l = Dg d /\ order <= d) ->
  ps_ok ps -> (forall i, In i (ps_indices ps) -> ix_id i < n) ->
  (forall i j x, i < lf_dim l -> j < nd -> In x (gfree (V geo i j)) -> x < n) ->
  entity_of (topology (lf_cell l)) (entity_or_cell (lf_cell l) ent) ->
  psdim ps = dk_total (fst (entity_or_cell (lf_cell l) ent)) ->
  exists ts n', mapped_basis_evaluation o (fun g => list_tensor_T (lf_dim l) nd (V g)) l order ps ent (Some geo) n = Ok (ts, n') /\
    derivative_keys (spatial_dimension (lf_cell l)) order (map fst ts) /\
    forall alpha g, In (alpha, g) ts ->
      gshape g = nd :: lf_vshape l /\
      forall env k v, env_ok ps env -> k < nd -> in_shape (lf_vshape l) v ->
        eval o vars g env (k :: v) =
        fold_right (fadd o) (f0 o) (map (fun j => fmul o (eval o vars (V geo j k) env [])
          (lf_tab l alpha (entity_or_cell (lf_cell l) ent) (pt_at ps env) j v)) (seq 0 (lf_dim l))).
Proof.
  intros F o l nd G V geo Hc Hish Hvp Hpoly Hnd Hdim HV vars order ps ent n Hred Hps Hn HnV Hent Hpd.
  destruct (list_tensor_T_ok F (lf_dim l) nd (V geo) Hdim Hnd HV) as (M & EM & HM & HfM & HeM).
  destruct (mapped_tabulation F o l nd G (fun g => list_tensor_T (lf_dim l) nd (V g)) geo M Hc Hish Hvp Hpoly EM HM
              vars order ps ent n Hred Hps Hn) as (ts & n' & E & _ & K & H); trivial.
  { intros x Hx. destruct (HfM x Hx) as (i & j & Hi & Hj & Hx'). exact (HnV i j x Hi Hj Hx'). }
  exists ts, n'. split; [exact E|]. split; [exact K|]. intros alpha g Hg. destruct (H alpha g Hg) as (Hs & _ & He).
  split; [exact Hs|]. intros env k v Henv Hk Hv. rewrite (He env k v Henv Hk Hv). f_equal. apply map_ext_in. intros j Hj.
  apply in_seq in Hj. rewrite HeM by lia. reflexivity.
Qed.

Lemma mapped_missing : forall F (o : ops F) (l : leaf F) G (T : G -> result (gem F)) order ps ent n,
  mapped_basis_evaluation o T l order ps ent None n = Err AssertionError.
Proof. reflexivity. Qed.

(** ** Above the degree *)
Definition reduced_leaf : leaf Z :=
  mkLeaf KFiat I1 (Dg 1) (Some 0) [(DI 0, [(0, [0]); (1, [])]); (DI 1, [(0, [])])] 2 [1] [] ["affine"]%string false ztab1.
Definition vz (i j : nat) : gem Z := match i, j with 0, 0 => GLiteral (mkArr [] [3%Z]) | _, _ => GLiteral (mkArr [] [5%Z]) end.

Lemma reduced_leaf_poly : fiat_polynomial zops reduced_leaf.
Proof. destruct (ztab_poly (cg1 ztab1)) as (d & Hd & H); [left; reflexivity|]. exists d. split; [exact Hd | exact H]. Qed.

Lemma mapped_above_degree : exists (l : leaf Z) (T : unit -> result (gem Z)) M ps n,
  fiat_polynomial zops l /\ ps_ok ps /\ lf_ishape l = [1] /\ lf_dim l = 2 /\ T tt = Ok M /\ gshape M = [1; 2] /\
  (exists ts n', mapped_basis_evaluation zops T l 1 ps None (Some tt) n = Ok (ts, n')) /\
  mapped_basis_evaluation zops T l 2 ps None (Some tt) n = Err ValueError.
Proof.
  exists reduced_leaf, (fun _ => list_tensor_T 2 1 vz). eexists. exists (zline 0 [0; 1]%Z), 1.
  split; [exact reduced_leaf_poly|]. split. { constructor; [discriminate | reflexivity|]. cbn. intros p H. intuition subst; reflexivity. }
  split; [reflexivity|]. split; [reflexivity|]. split; [reflexivity|]. split; [reflexivity|].
  split; [eexists _, _; vm_compute; reflexivity|]. vm_compute. reflexivity.
Qed.
