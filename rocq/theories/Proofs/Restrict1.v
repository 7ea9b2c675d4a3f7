(** Restriction: the restriction relation and how it passes through sums,
    tensor, flattened and mixed elements. *)
From Coq Require Import String List Arith Lia Bool Permutation.
From Verif Require Import Model.Prelude Model.Cell Model.Element Model.EntityMaps Model.Gem Model.PointSet Model.Restricted.
From Verif Require Import Spec.Rowmajor Spec.EntityDofs Spec.Layout Spec.Tabulation Spec.Restricted.
From Verif Require Import Proofs.Lists Proofs.Cells Proofs.EntityDofs Proofs.EntityDofs2 Proofs.Layout Proofs.Flatten
  Proofs.Tree.
Import ListNotations.

(** ** Dofs as a function of the entity *)
Section Dofs.
  Context {F : Type}.
  Local Notation elt := (elt F).

  Definition dofs (e : elt) (k : dimkey) (i : nat) : list nat :=
    match entity_dofs e with Ok d => dof_at d k i | Err _ => [] end.

  Definition good (c : cell) (e : elt) : Prop := leaves_ok e /\ sensible e /\ cell_of e = Ok c.

  Lemma good_dofs : forall c e, good c e ->
    exists d, entity_dofs e = Ok d /\ edofs_ok (topology c) (space_dimension e) d.
  Proof. intros c e (L & S & E). exact (entity_dofs_main F e L S c E). Qed.

  Lemma entity_cnt : forall c (d : edofs) k i, keys_match (topology c) d ->
    (entity_of (topology c) (k, i) <-> In k (map fst (topology c)) /\ i < cnt d k).
  Proof.
    intros c d k i km. pose proof (topology_NoDup c) as tn. unfold entity_of. cbn [fst snd]. split.
    - intros (n & Hn & Hi). split; [apply in_map_iff; exists (k, n); auto|].
      rewrite (km_count_eq _ d tn km k n Hn). exact Hi.
    - intros (Hk & Hi). exists (cnt d k). split; [apply (km_count _ d tn km k Hk) | exact Hi].
  Qed.

  Lemma dofs_has : forall c e d k i l, good c e -> entity_dofs e = Ok d ->
    (has_dofs d k i l <-> entity_of (topology c) (k, i) /\ l = dofs e k i).
  Proof.
    intros c e d k i l G E. destruct (good_dofs c e G) as (d' & E' & [km _]). rewrite E in E'. injection E' as <-.
    rewrite (has_dofs_get _ _ _ _ _ (topology_NoDup c) km), (entity_cnt c d k i km). unfold dofs. rewrite E. tauto.
  Qed.

  Lemma dofs_lt : forall c e k i v, good c e -> entity_of (topology c) (k, i) -> In v (dofs e k i) ->
    v < space_dimension e.
  Proof.
    intros c e k i v G He Hv. destruct (good_dofs c e G) as (d & E & [km part]).
    assert (Hl : In (dofs e k i) (all_lists d)).
    { destruct (proj2 (dofs_has c e d k i _ G E) (conj He eq_refl)) as (row & Hr & Hi).
      unfold all_lists. apply in_flat_map. exists (k, row). split; [exact Hr|]. apply in_map_iff. exists (i, dofs e k i); auto. }
    unfold partitions in part. assert (Hs : In v (seq 0 (space_dimension e))).
    { eapply Permutation_in; [exact part|]. apply in_concat. exists (dofs e k i). auto. }
    apply in_seq in Hs. lia.
  Qed.

  Lemma dofs_cover : forall c e v, good c e -> v < space_dimension e ->
    exists k i, entity_of (topology c) (k, i) /\ In v (dofs e k i).
  Proof.
    intros c e v G Hv. destruct (good_dofs c e G) as (d & E & [km part]).
    assert (Hs : In v (concat (all_lists d))).
    { eapply Permutation_in; [symmetry; exact part|]. apply in_seq; lia. }
    apply in_concat in Hs as (l & Hl & Hin). unfold all_lists in Hl. apply in_flat_map in Hl as ((k, row) & Hr & Hl).
    apply in_map_iff in Hl as ((i, l') & <- & Hi).
    assert (Hh : has_dofs d k i l') by (exists row; auto).
    apply (dofs_has c e d k i l' G E) in Hh as (He & ->). exists k, i. auto.
  Qed.

  Lemma good_sub : forall c e c' e', good c e -> (forall s, subelt s e' -> subelt s e) ->
    (forall l, leaf_of l e' -> leaf_of l e) -> cell_of e' = Ok c' -> good c' e'.
  Proof.
    intros c e c' e' (L & S & E) Hs Hl E'. split; [|split; [|exact E']].
    - intros l H. apply L, Hl, H.
    - eapply sensible_sub; [exact S | exact Hs].
  Qed.

  Lemma enriched_cells : forall es c, cell_of (EEnriched es) = Ok c <-> es <> [] /\ Forall (fun e : elt => cell_of e = Ok c) es.
  Proof.
    intros es c. cbn [cell_of]. split.
    - intros E. apply bind_ok in E as (cs & Ecs & U). destruct (unique_ok _ _ _ _ cell_eqb_spec U) as [Hne U'].
      apply mapM_ok in Ecs. split.
      + intros ->. inversion Ecs; subst. apply Hne. reflexivity.
      + clear - Ecs U'. induction Ecs; inversion U'; subst; constructor; auto.
    - intros (Hne & H). destruct es as [|e es]; [congruence|]. clear Hne.
      rewrite (mapM_all_ok _ _ _ (fun _ => c)) by (intros x Hx; rewrite Forall_forall in H; apply H; exact Hx).
      cbn [bind map unique]. rewrite (proj2 (forallb_forall _ _)); [reflexivity|].
      intros x Hx. apply in_map_iff in Hx as (? & <- & _). destruct (cell_eqb_spec c c); congruence.
  Qed.

  Lemma list_eqb_nat_spec : forall a b : list nat, reflect (a = b) (list_eqb Nat.eqb a b).
  Proof. apply list_eqb_spec. intros; apply Nat.eqb_spec. Qed.

  Lemma enriched_shapes : forall es s, value_shape (EEnriched es) = Ok s <->
    es <> [] /\ Forall (fun e : elt => value_shape e = Ok s) es.
  Proof.
    intros es c. cbn [value_shape]. split.
    - intros E. apply bind_ok in E as (cs & Ecs & U). destruct (unique_ok _ _ _ _ list_eqb_nat_spec U) as [Hne U'].
      apply mapM_ok in Ecs. split.
      + intros ->. inversion Ecs; subst. apply Hne. reflexivity.
      + clear - Ecs U'. induction Ecs; inversion U'; subst; constructor; auto.
    - intros (Hne & H). destruct es as [|e es]; [congruence|]. clear Hne.
      rewrite (mapM_all_ok _ _ _ (fun _ => c)) by (intros x Hx; rewrite Forall_forall in H; apply H; exact Hx).
      cbn [bind map unique]. rewrite (proj2 (forallb_forall _ _)); [reflexivity|].
      intros x Hx. apply in_map_iff in Hx as (? & <- & _). destruct (list_eqb_nat_spec c c); congruence.
  Qed.

  Lemma good_enriched : forall c es, es <> [] -> Forall (good c) es -> good c (EEnriched es).
  Proof.
    intros c es Hne H. rewrite Forall_forall in H. split; [|split].
    - intros l Hl. inversion Hl; subst. eapply H; eassumption.
    - split; intros ? **; match goal with Hs : subelt _ _ |- _ => inversion Hs; subst end.
      + edestruct (H f) as (_ & (S1 & _) & _); eauto.
      + edestruct (H f) as (_ & (_ & S2) & _); eauto.
    - apply enriched_cells. split; [exact Hne|]. apply Forall_forall. intros x Hx. apply H, Hx.
  Qed.

  Lemma good_enriched_inv : forall c es, good c (EEnriched es) -> es <> [] /\ Forall (good c) es.
  Proof.
    intros c es G. assert (E := proj2 (proj2 G)). apply enriched_cells in E as [Hne E]. split; [exact Hne|].
    rewrite Forall_forall in *. intros x Hx. eapply good_sub; [exact G | intros; econstructor; eassumption.. | apply E, Hx].
  Qed.

  Definition total (es : list elt) : nat := sum (map space_dimension es).

  Lemma dofs_enriched : forall c es k i, good c (EEnriched es) -> entity_of (topology c) (k, i) ->
    dofs (EEnriched es) k i = shifted_blocks 0 (combine (map space_dimension es) (map (fun e => dofs e k i) es)).
  Proof.
    intros c es k i G He. destruct (good_dofs c _ G) as (d & Ed & _).
    destruct (proj2 (dofs_has c _ d k i _ G Ed) (conj He eq_refl)) as (row & Hr & Hi).
    destruct G as (L & S & E).
    destruct (enriched_layout F es d k i _ L S Ed (ex_intro _ row (conj Hr Hi))) as (ds & ls & Eds & Hls & ->).
    f_equal. f_equal. apply mapM_ok in Eds.
    assert (Gs := proj2 (good_enriched_inv c es (conj L (conj S E)))).
    clear - Eds Hls Gs. revert ls Hls. induction Eds as [|e d es ds Ee Eds IH]; intros ls Hls; inversion Hls as [|? l ? ls' H1 H2]; subst; [reflexivity|].
    inversion Gs as [|? ? G1 G2]; subst. cbn [map]. f_equal; [|apply IH; assumption].
    apply (dofs_has c e d k i l G1 Ee) in H1. apply H1.
  Qed.
End Dofs.

(* ------------------------------------------------------------------ *)
(** ** Blocks of numbers *)

Lemma shifted_blocks_add : forall bl a b, shifted_blocks (a + b) bl = map (Nat.add a) (shifted_blocks b bl).
Proof.
  induction bl as [|[n l] bl IH]; intros a b; cbn [shifted_blocks]; [reflexivity|].
  rewrite map_app, map_map, <- Nat.add_assoc, IH. f_equal. apply map_ext; intros; lia.
Qed.

Fixpoint blockf (bs : list (nat * (nat -> nat))) (j : nat) : nat :=
  match bs with
  | [] => 0
  | (n, t) :: r => if j <? n then t j else blockf r (j - n)
  end.

Lemma blockf_shifted : forall bs ls, Forall2 (fun (b : nat * (nat -> nat)) l => forall v : nat, In v l -> v < fst b) bs ls ->
  map (blockf bs) (shifted_blocks 0 (combine (map fst bs) ls)) = concat (map2 (fun b l => map (snd b) l) bs ls).
Proof.
  induction 1 as [|[n t] l bs ls Hl H IH]; [reflexivity|]. cbn [map combine shifted_blocks map2 concat fst snd] in *.
  rewrite map_app, map_map. f_equal.
  - apply map_ext_in. intros v Hv. cbn [blockf Nat.add]. apply Hl in Hv. apply Nat.ltb_lt in Hv. rewrite Hv. reflexivity.
  - replace (0 + n) with (n + 0) by lia. rewrite shifted_blocks_add, map_map, <- IH. apply map_ext. intros v.
    cbn [blockf]. replace (n + v <? n) with false by (symmetry; apply Nat.ltb_ge; lia). f_equal; lia.
Qed.

Lemma blockf_at : forall before b after i, i < fst b ->
  blockf (before ++ b :: after) (sum (map fst before) + i) = snd b i.
Proof.
  induction before as [|[m t'] before IH]; intros [n t] after i Hi; cbn [app map sum fst snd blockf] in *.
  - apply Nat.ltb_lt in Hi. cbn [Nat.add]. rewrite Hi. reflexivity.
  - replace (m + sum (map fst before) + i <? m) with false by (symmetry; apply Nat.ltb_ge; lia).
    replace (m + sum (map fst before) + i - m) with (sum (map fst before) + i) by lia. apply (IH (n, t)). exact Hi.
Qed.

Lemma sum_fold : forall l, fold_right Nat.add 0 l = sum l.
Proof. induction l as [|x l IH]; cbn; congruence. Qed.

Lemma flat_map_split : forall A B (f : A -> list B) l before y after,
  flat_map f l = before ++ y :: after ->
  exists l1 x l2 b1 b2, l = l1 ++ x :: l2 /\ f x = b1 ++ y :: b2 /\ before = flat_map f l1 ++ b1.
Proof.
  induction l as [|a l IH]; intros before y after E; cbn [flat_map] in E; [destruct before; discriminate|].
  destruct (le_lt_dec (length (f a)) (length before)) as [Hl|Hl].
  - assert (E1 : before = f a ++ skipn (length (f a)) before /\ flat_map f l = skipn (length (f a)) before ++ y :: after).
    { assert (X : f a = firstn (length (f a)) before).
      { apply (f_equal (firstn (length (f a)))) in E. rewrite firstn_app, Nat.sub_diag, firstn_all in E.
        cbn [firstn] in E. rewrite app_nil_r in E. rewrite E at 1. rewrite firstn_app.
        replace (length (f a) - length before) with 0 by lia. cbn [firstn]. apply app_nil_r. }
      split.
      - rewrite X at 1. symmetry. apply firstn_skipn.
      - apply (f_equal (skipn (length (f a)))) in E. rewrite skipn_app, skipn_all, Nat.sub_diag in E. cbn [skipn app] in E.
        rewrite E. rewrite skipn_app. replace (length (f a) - length before) with 0 by lia. reflexivity. }
    destruct E1 as [E1 E2]. destruct (IH _ _ _ E2) as (l1 & x & l2 & b1 & b2 & -> & Hx & Hb).
    exists (a :: l1), x, l2, b1, b2. split; [reflexivity|]. split; [exact Hx|]. rewrite E1, Hb. cbn [flat_map]. apply app_assoc.
  - exists [], a, l. assert (E1 : f a = before ++ skipn (length before) (f a) /\ y :: after = skipn (length before) (f a) ++ flat_map f l).
    { assert (X : before = firstn (length before) (f a)).
      { apply (f_equal (firstn (length before))) in E. rewrite firstn_app in E.
        replace (length before - length (f a)) with 0 in E by lia. cbn [firstn] in E. rewrite app_nil_r in E.
        rewrite firstn_app, Nat.sub_diag, firstn_all in E. cbn [firstn] in E. rewrite app_nil_r in E. congruence. }
      split.
      - rewrite X at 1. symmetry. apply firstn_skipn.
      - apply (f_equal (skipn (length before))) in E. rewrite skipn_app in E.
        replace (length before - length (f a)) with 0 in E by lia. cbn [skipn] in E.
        rewrite skipn_app, skipn_all, Nat.sub_diag in E. cbn [skipn app] in E. symmetry. exact E. }
    destruct E1 as [E1 E2]. destruct (skipn (length before) (f a)) as [|z b2] eqn:Eb.
    + exfalso. apply (f_equal (@length B)) in Eb. rewrite skipn_length in Eb. cbn [length] in Eb. lia.
    + cbn [app] in E2. injection E2 as <- E2. exists before, b2. auto.
Qed.

(* ------------------------------------------------------------------ *)
(** ** The relation *)
Section Relation.
  Context {F : Type} (o : ops F).
  Local Notation elt := (elt F).

  Record R (c : cell) (S : dimkey -> Prop) (e r : elt) (sigma : nat -> nat) : Prop := mkR {
    R_good : good c r;
    R_shape : exists s, value_shape e = Ok s /\ value_shape r = Ok s;
    R_pos : 0 < space_dimension r;
    R_dofs : forall k i, entity_of (topology c) (k, i) ->
      (S k -> map sigma (dofs r k i) = dofs e k i) /\ (~ S k -> dofs r k i = []);
    R_vals : forall alpha ent pt j v x, j < space_dimension r ->
      value_of o r alpha ent pt j v x -> value_of o e alpha ent pt (sigma j) v x
  }.

  Lemma R_lt : forall c (S : dimkey -> Prop) e r sigma j, good c e -> R c S e r sigma -> j < space_dimension r -> sigma j < space_dimension e.
  Proof.
    intros c S e r sigma j G HR Hj. destruct (lt_dec (sigma j) (space_dimension e)) as [H|H]; [exact H|]. exfalso.
    destruct (dofs_cover c r j (R_good _ _ _ _ _ HR) Hj) as (k & i & He & Hin).
    destruct (R_dofs _ _ _ _ _ HR k i He) as [H1 H2]. rewrite H2 in Hin; [exact Hin|].
    intros HS. apply H. apply (dofs_lt c e k i); [exact G | exact He|]. rewrite <- (H1 HS). apply in_map. exact Hin.
  Qed.

  Lemma value_enriched_inv : forall (es : list elt) alpha ent pt j v x, value_of o (EEnriched es) alpha ent pt j v x ->
    exists before e after i, es = before ++ e :: after /\ j = total before + i /\ i < space_dimension e /\
      value_of o e alpha ent pt i v x.
  Proof.
    intros es alpha ent pt j v x H. inversion H; subst. do 4 eexists. split; [reflexivity|].
    split; [unfold total; rewrite sum_fold; reflexivity|]. split; assumption.
  Qed.

  Lemma value_enriched : forall before (e : elt) after alpha ent pt i v x, value_of o e alpha ent pt i v x ->
    i < space_dimension e -> value_of o (EEnriched (before ++ e :: after)) alpha ent pt (total before + i) v x.
  Proof. intros. unfold total. rewrite <- sum_fold. apply vo_enriched; assumption. Qed.

  Lemma total_app : forall a b : list elt, total (a ++ b) = total a + total b.
  Proof. intros a b. unfold total. rewrite map_app. induction (map space_dimension a) as [|x l IH]; cbn; lia. Qed.

  Lemma total_cons : forall (a : elt) b, total (a :: b) = space_dimension a + total b.
  Proof. reflexivity. Qed.

  Lemma enriched_dimension : forall es : list elt, space_dimension (EEnriched es) = total es.
  Proof. reflexivity. Qed.

  (** Pieces of a sum with the numbers their functions get in [e]. *)
  Lemma sum_of_pieces : forall c (S : dimkey -> Prop) e s (ps : list (elt * (nat -> nat))), ps <> [] ->
    Forall (fun p => good c (fst p) /\ value_shape (fst p) = Ok s /\ 0 < space_dimension (fst p) /\
      forall alpha ent pt j v x, j < space_dimension (fst p) ->
        value_of o (fst p) alpha ent pt j v x -> value_of o e alpha ent pt (snd p j) v x) ps ->
    value_shape e = Ok s ->
    (forall k i, entity_of (topology c) (k, i) ->
       (S k -> concat (map (fun p => map (snd p) (dofs (fst p) k i)) ps) = dofs e k i) /\
       (~ S k -> Forall (fun p => dofs (fst p) k i = []) ps)) ->
    R c S e (EEnriched (map fst ps)) (blockf (map (fun p => (space_dimension (fst p), snd p)) ps)).
  Proof.
    intros c S e s ps Hne Hps Hs Hd. set (bs := map (fun p => (space_dimension (fst p), snd p)) ps).
    assert (G : good c (EEnriched (map fst ps))).
    { apply good_enriched; [destruct ps; [congruence | discriminate]|]. rewrite Forall_map.
      eapply Forall_impl; [|exact Hps]. cbn beta. intros p Hp; apply Hp. }
    split.
    - exact G.
    - exists s. split; [exact Hs|]. apply enriched_shapes. split; [destruct ps; [congruence | discriminate]|].
      rewrite Forall_map. eapply Forall_impl; [|exact Hps]. cbn beta. intros p Hp; apply Hp.
    - rewrite enriched_dimension. destruct ps as [|p ps]; [congruence|]. inversion Hps as [|? ? Hp _]; subst.
      cbn [map]. rewrite total_cons. destruct Hp as (_ & _ & Hp & _). lia.
    - intros k i He. destruct (Hd k i He) as [D1 D2]. rewrite (dofs_enriched c) by assumption.
      assert (E : map (blockf bs) (shifted_blocks 0 (combine (map space_dimension (map fst ps)) (map (fun e0 => dofs e0 k i) (map fst ps))))
                  = concat (map (fun p => map (snd p) (dofs (fst p) k i)) ps)).
      { replace (map space_dimension (map fst ps)) with (map fst bs) by (unfold bs; rewrite !map_map; reflexivity).
        rewrite blockf_shifted.
        - f_equal. unfold bs. rewrite map_map. clear. induction ps as [|p ps IH]; [reflexivity|].
          cbn [map map2 fst snd]. rewrite IH. reflexivity.
        - unfold bs. rewrite map_map, Forall2_map_l, Forall2_map_r. clear - Hps He.
          induction Hps as [|p ps Hp Hps IH]; constructor; [|exact IH]. cbn [fst]. intros v Hv.
          apply (dofs_lt c _ k i); [apply Hp | exact He | exact Hv]. }
      split; intros HS.
      + rewrite E. apply D1, HS.
      + clear - D2 HS. specialize (D2 HS). generalize 0. induction D2 as [|p ps Hp D2 IH]; intros a; [reflexivity|].
        cbn [map combine shifted_blocks]. rewrite Hp. cbn [map app]. apply IH.
    - intros alpha ent pt j v x Hj Hx.
      apply value_enriched_inv in Hx as (before & r & after & i & Es & -> & Hi & Hx).
      assert (Ex : exists pb p pa, ps = pb ++ p :: pa /\ map fst pb = before /\ fst p = r).
      { clear - Es. revert before Es. induction ps as [|p ps IH]; intros before Es; [destruct before; discriminate|].
        destruct before as [|b before]; cbn [map app] in Es; injection Es as <- Es.
        - exists [], p, ps. auto.
        - destruct (IH before Es) as (pb & q & pa & -> & <- & <-). exists (p :: pb), q, pa. auto. }
      destruct Ex as (pb & p & pa & -> & <- & <-).
      unfold bs. rewrite map_app. cbn [map].
      replace (total (map fst pb)) with (sum (map fst (map (fun p => (space_dimension (fst p), snd p)) pb)))
        by (unfold total; rewrite !map_map; reflexivity).
      rewrite blockf_at by exact Hi. cbn [snd].
      apply Forall_app in Hps as [_ Hps]. inversion Hps as [|? ? (_ & _ & _ & Hv) _]; subst. apply Hv; assumption.
  Qed.

  (* -------------------------------------------------------------- *)
  (** ** Flattening nested sums *)

  Lemma flat1_good : forall c (e : elt), good c e -> flat1 e <> [] /\ Forall (good c) (flat1 e).
  Proof.
    intros c e G. destruct e; try (split; [discriminate | constructor; [exact G | constructor]]).
    apply good_enriched_inv. exact G.
  Qed.

  Lemma flat_good : forall c es, es <> [] -> Forall (good c) es ->
    flat_map flat1 es <> [] /\ Forall (good c) (flat_map (@flat1 F) es).
  Proof.
    intros c es Hne H. split.
    - destruct es as [|e es]; [congruence|]. inversion H; subst. cbn [flat_map].
      destruct (flat1_good c e) as [N _]; [assumption|]. destruct (flat1 e); [congruence | discriminate].
    - clear Hne. induction H as [|e es He H IH]; [constructor|]. cbn [flat_map]. apply Forall_app. split; [|exact IH].
      apply flat1_good. exact He.
  Qed.

  Lemma mk_enriched_eq : forall es : list elt,
    mk_enriched es = match flat_map flat1 es with [e] => e | es' => EEnriched es' end.
  Proof. reflexivity. Qed.

  Lemma flat1_total : forall e : elt, total (flat1 e) = space_dimension e.
  Proof. intros e. destruct e; cbn [flat1]; try (unfold total; cbn [map sum]; lia). reflexivity. Qed.

  Lemma flat_total : forall es : list elt, total (flat_map flat1 es) = total es.
  Proof.
    induction es as [|e es IH]; [reflexivity|]. cbn [flat_map]. rewrite total_app, IH, flat1_total. reflexivity.
  Qed.

  Lemma blocks_app : forall A B a, length (fst A) = length (snd A) ->
    shifted_blocks a (combine (fst A ++ fst B) (snd A ++ snd B))
    = shifted_blocks a (combine (fst A) (snd A)) ++ shifted_blocks (a + sum (fst A)) (combine (fst B) (snd B)).
  Proof.
    intros [ns ls] [ms ks] a. cbn [fst snd]. revert ls a. induction ns as [|n ns IH]; intros [|l ls] a H; try discriminate H.
    - cbn [app combine shifted_blocks sum]. rewrite Nat.add_0_r. reflexivity.
    - cbn [app combine shifted_blocks sum]. rewrite IH by (injection H; auto). rewrite <- app_assoc, Nat.add_assoc. reflexivity.
  Qed.

  Lemma flat_blocks : forall c k i (es : list elt) a, entity_of (topology c) (k, i) -> Forall (good c) es ->
    shifted_blocks a (combine (map space_dimension (flat_map flat1 es)) (map (fun e => dofs e k i) (flat_map flat1 es)))
    = shifted_blocks a (combine (map space_dimension es) (map (fun e => dofs e k i) es)).
  Proof.
    intros c k i es a He H. revert a. induction H as [|e es Ge H IH]; intros a; [reflexivity|].
    cbn [flat_map]. rewrite !map_app.
    rewrite (blocks_app (map space_dimension (flat1 e), map (fun e => dofs e k i) (flat1 e))
                        (map space_dimension (flat_map flat1 es), map (fun e => dofs e k i) (flat_map flat1 es)))
      by (cbn [fst snd]; rewrite !map_length; reflexivity).
    cbn [fst snd]. fold (total (flat1 e)). rewrite flat1_total, IH. cbn [map combine shifted_blocks]. f_equal.
    replace a with (a + 0) at 1 by lia. rewrite shifted_blocks_add.
    assert (E : shifted_blocks 0 (combine (map space_dimension (flat1 e)) (map (fun e => dofs e k i) (flat1 e))) = dofs e k i).
    { destruct e; try (cbn [flat1 map combine shifted_blocks app]; rewrite app_nil_r; rewrite map_id; reflexivity).
      cbn [flat1]. symmetry. apply (dofs_enriched c); assumption. }
    rewrite E. reflexivity.
  Qed.

  Lemma mk_enriched_dimension : forall es : list elt, space_dimension (mk_enriched es) = total es.
  Proof.
    intros es. rewrite mk_enriched_eq, <- flat_total. destruct (flat_map flat1 es) as [|x [|y l]]; try reflexivity.
    rewrite total_cons. unfold total. cbn [map sum]. lia.
  Qed.

  Lemma mk_enriched_dofs : forall c es k i, es <> [] -> Forall (good c) es -> entity_of (topology c) (k, i) ->
    dofs (mk_enriched es) k i = dofs (EEnriched es : elt) k i.
  Proof.
    intros c es k i Hne H He. rewrite (dofs_enriched c) by (try apply good_enriched; assumption).
    rewrite <- (flat_blocks c k i es 0 He H). destruct (flat_good c es Hne H) as [N G].
    rewrite mk_enriched_eq. destruct (flat_map flat1 es) as [|x [|y l]]; [congruence | |].
    - cbn [map combine shifted_blocks]. rewrite app_nil_r, map_id. reflexivity.
    - apply (dofs_enriched c); [|exact He]. apply good_enriched; assumption.
  Qed.

  Lemma mk_enriched_good : forall c es, es <> [] -> Forall (good c) es -> good c (mk_enriched es : elt).
  Proof.
    intros c es Hne H. destruct (flat_good c es Hne H) as [N G]. rewrite mk_enriched_eq.
    destruct (flat_map flat1 es) as [|x [|y l]]; [congruence | inversion G; assumption | apply good_enriched; assumption].
  Qed.

  Lemma flat1_shape : forall s (e : elt), value_shape e = Ok s -> Forall (fun x => value_shape x = Ok s) (flat1 e).
  Proof.
    intros s e H. destruct e; try (cbn [flat1]; constructor; [exact H | constructor]). apply enriched_shapes in H. apply H.
  Qed.

  Lemma mk_enriched_shape : forall c s es, es <> [] -> Forall (good c) es -> Forall (fun e : elt => value_shape e = Ok s) es ->
    value_shape (mk_enriched es) = Ok s.
  Proof.
    intros c s es Hne G H. destruct (flat_good c es Hne G) as [N _].
    assert (H' : Forall (fun x : elt => value_shape x = Ok s) (flat_map flat1 es)).
    { clear - H. induction H as [|e es He H IH]; [constructor|]. cbn [flat_map]. apply Forall_app. split; [|exact IH].
      apply flat1_shape. exact He. }
    rewrite mk_enriched_eq. destruct (flat_map flat1 es) as [|x [|y l]]; [congruence | inversion H'; assumption |].
    apply enriched_shapes. split; assumption.
  Qed.

  Lemma flat_value : forall (es : list elt) before y after alpha ent pt i v x,
    flat_map flat1 es = before ++ y :: after -> i < space_dimension y -> value_of o y alpha ent pt i v x ->
    value_of o (EEnriched es) alpha ent pt (total before + i) v x.
  Proof.
    intros es before y after alpha ent pt i v x E Hi Hx.
    destruct (flat_map_split _ _ _ _ _ _ _ E) as (l1 & e & l2 & b1 & b2 & -> & Ee & ->).
    rewrite total_app, flat_total, <- Nat.add_assoc.
    assert (Hlt : total b1 + i < space_dimension e).
    { rewrite <- flat1_total, Ee, total_app, total_cons. lia. }
    apply value_enriched; [|exact Hlt]. destruct e; cbn [flat1] in Ee;
      try (destruct b1 as [|? [|? ?]]; try discriminate Ee; injection Ee as <- _; cbn; exact Hx).
    rewrite Ee. apply value_enriched; assumption.
  Qed.

  Lemma mk_enriched_value : forall (es : list elt) alpha ent pt j v x, j < space_dimension (mk_enriched es) ->
    value_of o (mk_enriched es) alpha ent pt j v x -> value_of o (EEnriched es) alpha ent pt j v x.
  Proof.
    intros es alpha ent pt j v x Hj. rewrite mk_enriched_eq in *.
    destruct (flat_map flat1 es) as [|y [|z l]] eqn:E; intros Hx.
    - apply value_enriched_inv in Hx as ([|? ?] & ? & ? & ? & Es & _); discriminate.
    - apply (flat_value es [] y [] alpha ent pt j v x E Hj Hx).
    - apply value_enriched_inv in Hx as (before & e & after & i & Es & -> & Hi & Hx).
      rewrite <- E in Es. apply (flat_value es before e after); assumption.
  Qed.

  Lemma R_mk_enriched : forall c (S : dimkey -> Prop) e rs sigma, R c S e (EEnriched rs) sigma -> R c S e (mk_enriched rs) sigma.
  Proof.
    intros c S e rs sigma HR. destruct (good_enriched_inv c rs (R_good _ _ _ _ _ HR)) as [Hne G]. split.
    - apply mk_enriched_good; assumption.
    - destruct (R_shape _ _ _ _ _ HR) as (s & Hs & Hr). exists s. split; [exact Hs|].
      apply (mk_enriched_shape c); [assumption.. |]. apply enriched_shapes in Hr. apply Hr.
    - rewrite mk_enriched_dimension. exact (R_pos _ _ _ _ _ HR).
    - intros k i He. rewrite (mk_enriched_dofs c) by assumption. apply (R_dofs _ _ _ _ _ HR k i He).
    - intros alpha ent pt j v x Hj Hx. apply (R_vals _ _ _ _ _ HR); [rewrite mk_enriched_dimension in Hj; exact Hj|].
      apply mk_enriched_value; assumption.
  Qed.
End Relation.
