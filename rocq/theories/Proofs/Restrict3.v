(** Restriction domains as codimensions, and the decompositions of a product's
    restriction. *)
From Coq Require Import String List Arith ZArith Lia Bool.
From Verif Require Import Model.Prelude Model.Cell Model.Element Model.Restricted.
From Verif Require Import Spec.Rowmajor Spec.EntityDofs Spec.Layout Spec.Restricted.
From Verif Require Import Proofs.Lists Proofs.Cells Proofs.Tables.
Import ListNotations.
Local Open Scope nat_scope.

(* ------------------------------------------------------------------ *)
(** ** Names *)

Lemma names_fun : forall s D a b, names s D a -> names s D b -> a = b.
Proof. intros s D a b Ha Hb. destruct Ha; inversion Hb; subst; reflexivity. Qed.

Definition name_dim (s : string) (D : nat) : option nat :=
  if String.eqb s "interior" then Some D
  else if String.eqb s "facet" then match D with S d => Some d | 0 => None end
  else if String.eqb s "face" then Some 2
  else if String.eqb s "edge" then Some 1
  else if String.eqb s "vertex" then Some 0 else None.

Lemma names_dim : forall s D n, names s D n <-> name_dim s D = Some n.
Proof.
  intros s D n. split.
  - intros H. destruct H; reflexivity.
  - unfold name_dim. destruct (String.eqb_spec s "interior") as [-> | _];
    [|destruct (String.eqb_spec s "facet") as [-> | _];
      [|destruct (String.eqb_spec s "face") as [-> | _];
        [|destruct (String.eqb_spec s "edge") as [-> | _];
          [|destruct (String.eqb_spec s "vertex") as [-> | _]]]]].
    + intros [= <-]; constructor.
    + destruct D; [discriminate|]. intros [= <-]. constructor.
    + intros [= <-]; constructor.
    + intros [= <-]; constructor.
    + intros [= <-]; constructor.
    + discriminate.
Qed.

Lemma selects_dec : forall s cl D d, {selects s cl D d} + {~ selects s cl D d}.
Proof.
  intros s cl D d. destruct (name_dim s D) as [n|] eqn:E.
  - destruct (le_dec d D) as [L|L]; [|right; intros (m & _ & H & _); contradiction].
    destruct (Nat.eq_dec d n) as [->|Hd].
    + left. exists n. rewrite names_dim. auto.
    + destruct cl; [|right; intros (m & Hm & _ & [->|[H _]]); [|discriminate];
                     apply names_dim in Hm; congruence].
      destruct (string_dec s "interior") as [->|Hs].
      * right. intros (m & Hm & _ & [->|(_ & H & _)]); [|congruence]. apply names_dim in Hm; congruence.
      * destruct (lt_dec d n) as [Hl|Hl].
        -- left. exists n. rewrite names_dim. auto 6.
        -- right. intros (m & Hm & _ & [->|(_ & _ & H)]); apply names_dim in Hm; [congruence|].
           assert (m = n) by congruence. lia.
  - right. intros (m & Hm & _). apply names_dim in Hm. congruence.
Qed.

Lemma some_dof_dec : forall (S : nat -> Prop) (d : edofs), (forall n, {S n} + {~ S n}) -> some_dof S d \/ ~ some_dof S d.
Proof.
  intros S d Sd.
  destruct (Exists_dec (fun kr : dimkey * list (nat * list nat) =>
              S (dk_total (fst kr)) /\ Exists (fun il => snd il <> []) (snd kr)) d) as [H|H].
  - intros [k row]. cbn [fst snd]. destruct (Sd (dk_total k)); [|right; tauto].
    destruct (Exists_dec (fun il : nat * list nat => snd il <> []) row) as [E|E]; [|left; tauto|right; tauto].
    intros [i l]. destruct l; [right; cbn; tauto | left; discriminate].
  - left. apply Exists_exists in H. destruct H as ((k & row) & Hin & Hs & Hr). apply Exists_exists in Hr.
    destruct Hr as ((i & l) & Hi & Hl). cbn [fst snd] in *. destruct l as [|v l]; [congruence|].
    exists k, i, v, (v :: l). split; [exists row; auto|]. split; [exact Hs | now left].
  - right. intros (k & i & v & l & (row & H1 & H2) & Hs & Hv). apply H, Exists_exists. exists (k, row).
    split; [exact H1|]. split; [exact Hs|]. apply Exists_exists. exists (i, l). split; [exact H2|].
    cbn. intros ->. contradiction.
Qed.

Lemma r_to_codim_names : forall s D n, names s D n -> r_to_codim s (Z.of_nat D) = Ok (Z.of_nat D - Z.of_nat n)%Z.
Proof.
  intros s D n H. destruct H; unfold r_to_codim; cbn [String.eqb Ascii.eqb Bool.eqb]; f_equal; lia.
Qed.

Lemma codim_to_r_names : forall c n, c <= n -> n <= 4 ->
  exists s, codim_to_r (Z.of_nat c) (Z.of_nat n) = Ok s /\ names s n (n - c) /\ (s = "interior"%string \/ n - c < n).
Proof.
  intros c n H1 H2. unfold codim_to_r.
  destruct (Z.eqb_spec (Z.of_nat c) 0) as [E|E].
  { exists "interior"%string. split; [reflexivity|]. replace (n - c) with n by lia. split; [constructor | now left]. }
  destruct (Z.eqb_spec (Z.of_nat c) 1) as [E1|E1].
  { exists "facet"%string. split; [reflexivity|]. destruct n as [|n]; [lia|].
    replace (S n - c) with n by lia. split; [constructor | right; lia]. }
  destruct (Z.eqb_spec (Z.of_nat n - Z.of_nat c) 0) as [E2|E2].
  { exists "vertex"%string. split; [reflexivity|]. replace (n - c) with 0 by lia. split; [constructor | right; lia]. }
  destruct (Z.eqb_spec (Z.of_nat n - Z.of_nat c) 1) as [E3|E3].
  { exists "edge"%string. split; [reflexivity|]. replace (n - c) with 1 by lia. split; [constructor | right; lia]. }
  destruct (Z.eqb_spec (Z.of_nat n - Z.of_nat c) 2) as [E4|E4].
  { exists "face"%string. split; [reflexivity|]. replace (n - c) with 2 by lia. split; [constructor | right; lia]. }
  lia.
Qed.

Lemma selects_only : forall s n m d, names s n m -> m <= n -> (selects s false n d <-> d = m).
Proof.
  intros s n m d H L. split.
  - intros (m' & Hm & _ & [->|[X _]]); [|discriminate]. eapply names_fun; eassumption.
  - intros ->. exists m. auto.
Qed.

(* ------------------------------------------------------------------ *)
(** ** Decompositions *)

Lemma all_within_ok : forall cs ns, length cs = length ns ->
  exists b, all_within (map Z.of_nat cs) (map DI ns) = Ok b /\ (b = true <-> Forall2 le cs ns).
Proof.
  induction cs as [|c cs IH]; intros [|n ns] H; try discriminate.
  - exists true. split; [reflexivity|]. split; [constructor | reflexivity].
  - cbn [map all_within]. destruct (Z.leb_spec (Z.of_nat c) (Z.of_nat n)) as [L|L].
    + destruct (IH ns) as (b & E & Hb); [injection H; auto|]. exists b. split; [exact E|]. rewrite Hb. split.
      * intros X. constructor; [lia | exact X].
      * intros X. inversion X; assumption.
    + exists false. split; [reflexivity|]. split; [discriminate|]. intros X. inversion X; lia.
Qed.

Lemma filterM_ok : forall A (p : A -> result bool) (q : A -> bool) l,
  (forall x, In x l -> p x = Ok (q x)) -> filterM p l = Ok (filter q l).
Proof.
  induction l as [|x l IH]; intros H; [reflexivity|]. cbn [filterM filter].
  rewrite (H x (or_introl eq_refl)). cbn [bind]. rewrite IH by (intros; apply H; now right).
  cbn [bind]. destruct (q x); reflexivity.
Qed.

Lemma filter_map : forall A B (f : A -> B) (p : B -> bool) l, filter p (map f l) = map f (filter (fun x => p (f x)) l).
Proof. induction l as [|x l IH]; [reflexivity|]. cbn [map filter]. rewrite IH. destruct (p (f x)); reflexivity. Qed.

Lemma map_of_nat_inj : forall a b, map Z.of_nat a = map Z.of_nat b -> a = b.
Proof.
  induction a as [|x a IH]; intros [|y b] H; try discriminate; [reflexivity|]. injection H as H1 H2.
  f_equal; [lia | auto].
Qed.

Lemma flat_mis_NoDup : forall m l, NoDup l -> NoDup (flat_map (mis m) l).
Proof.
  intros m l N. apply NoDup_flat_map; [exact N | intros; apply mis_NoDup|].
  intros i j a _ _ H1 H2. apply in_mis in H1, H2. lia.
Qed.

Lemma sum_le : forall cs ns, Forall2 le cs ns -> sum cs <= sum ns.
Proof. induction 1; cbn; lia. Qed.

(** The decompositions are the tuples of factor codimensions that belong to a
    selected dimension. *)
Lemma decompositions_ok : forall ns domain cl, valid domain (sum ns) ->
  exists decs, decompositions (sum ns) (map DI ns) domain cl = Ok (map (map Z.of_nat) decs) /\ NoDup decs /\
    forall cs, In cs decs <-> Forall2 le cs ns /\ selects domain cl (sum ns) (sum ns - sum cs).
Proof.
  intros ns domain cl (m & Hm & Lm). unfold decompositions. rewrite (r_to_codim_names _ _ _ Hm). cbn [bind].
  set (D := sum ns) in *. rewrite map_length.
  set (up := if cl && negb (String.eqb domain "interior") then D else D - m).
  assert (Hup : (1 + (if cl && negb (domain =? "interior")%string then Z.of_nat D else Z.of_nat D - Z.of_nat m))%Z
                = (1 + Z.of_nat up)%Z) by (unfold up; destruct (cl && _); lia).
  rewrite Hup. clear Hup.
  assert (Hlo : D - m <= up) by (unfold up; destruct (cl && _); lia).
  assert (Hr : rangeZ (Z.of_nat D - Z.of_nat m) (1 + Z.of_nat up) = map Z.of_nat (seq (D - m) (S up - (D - m)))).
  { unfold rangeZ. replace (Z.to_nat _) with (S up - (D - m)) by lia.
    rewrite <- (map_seq_shift nat (fun x => x) (D - m) (S up - (D - m))) || idtac.
    assert (G : forall n a b, (forall i, Z.of_nat D - Z.of_nat m + Z.of_nat (a + i) = Z.of_nat (b + i))%Z ->
              map (fun i => (Z.of_nat D - Z.of_nat m + Z.of_nat i)%Z) (seq a n) = map Z.of_nat (seq b n)).
    { induction n as [|n IH]; intros a b H; [reflexivity|]. cbn [seq map]. f_equal.
      - specialize (H 0). rewrite !Nat.add_0_r in H. exact H.
      - apply IH. intros i. specialize (H (S i)). rewrite <- !Nat.add_succ_comm in H. exact H. }
    apply G. intros i. lia. }
  rewrite Hr. clear Hr.
  set (cands := flat_map (mis (length ns)) (seq (D - m) (S up - (D - m)))).
  assert (Hc : flat_map (misZ (length ns)) (map Z.of_nat (seq (D - m) (S up - (D - m)))) = map (map Z.of_nat) cands).
  { unfold cands. rewrite flat_map_map, map_flat_map. apply flat_map_ext_in. intros x _.
    unfold misZ. destruct (Z.ltb_spec (Z.of_nat x) 0); [lia|]. now rewrite Nat2Z.id. }
  rewrite Hc. clear Hc.
  set (q := fun cs : list Z => match all_within cs (map DI ns) with Ok b => b | Err _ => false end).
  assert (Hin : forall cs, In cs cands <-> length cs = length ns /\ D - m <= sum cs <= up).
  { intros cs. unfold cands. rewrite in_flat_map. split.
    - intros (x & Hx & H). apply in_seq in Hx. apply in_mis in H. destruct H as [H1 <-]. split; [exact H1 | lia].
    - intros [H1 H2]. exists (sum cs). rewrite in_seq, in_mis. split; [lia | auto]. }
  rewrite (filterM_ok _ _ q).
  2:{ intros x Hx. apply in_map_iff in Hx. destruct Hx as (cs & <- & Hcs). apply Hin in Hcs.
      destruct (all_within_ok cs ns (proj1 Hcs)) as (b & E & _). unfold q. now rewrite E. }
  rewrite filter_map. eexists. split; [reflexivity|]. split.
  { apply NoDup_filter, flat_mis_NoDup, seq_NoDup. }
  intros cs. rewrite filter_In, Hin. split.
  - intros [[H1 H2] H3]. destruct (all_within_ok cs ns H1) as (b & E & Hb). unfold q in H3. rewrite E in H3.
    apply Hb in H3. split; [exact H3|]. exists m. split; [exact Hm|]. split; [lia|].
    assert (L := sum_le _ _ H3). fold D in L.
    unfold up in H2. destruct (String.eqb_spec domain "interior") as [->|Hd].
    + rewrite andb_false_r in H2. left. lia.
    + destruct cl; cbn [andb negb] in H2; [|left; lia].
      destruct (Nat.eq_dec (D - sum cs) m) as [|Hne]; [now left|]. right. split; [reflexivity|]. split; [exact Hd | lia].
  - intros [H3 (m' & Hm' & _ & Hs)]. assert (m' = m) by (eapply names_fun; eassumption). subst m'.
    assert (H1 := Forall2_length _ _ _ _ _ H3). assert (L := sum_le _ _ H3). fold D in L.
    split; [split; [exact H1|]|].
    + unfold up. destruct Hs as [Hs | (-> & Hd & Hs)].
      * destruct (cl && _); lia.
      * destruct (String.eqb_spec domain "interior"); [contradiction|]. cbn [andb negb]. lia.
    + destruct (all_within_ok cs ns H1) as (b & E & Hb). unfold q. rewrite E. now apply Hb.
Qed.

(* ------------------------------------------------------------------ *)
(** ** Dimensions of entities *)

Lemma topology_total : forall c k n, In (k, n) (topology c) -> dk_total k <= spatial_dimension c.
Proof.
  induction c as [d | cs IH | d] using cell_ind'; intros k n H.
  - cbn [topology] in H. unfold simplex_topology in H. apply in_map_iff in H. destruct H as (j & [= <- _] & Hj).
    apply in_seq in Hj. cbn. lia.
  - cbn [topology] in H. unfold product_topology in H. apply in_map_iff in H. destruct H as (kns & [= <- _] & Hk).
    apply in_cart in Hk. rewrite dk_total_DT. cbn [spatial_dimension]. apply sum_le.
    apply Forall2_map_l, Forall2_map_l, Forall2_map_r. apply (Forall2_map_r _ _ _ topology (fun x l => In x l)) in Hk.
    eapply Forall2_impl_in; [|exact Hk]. intros [k' n'] c _ Hc Hin. cbn [fst]. cbn in Hin.
    rewrite Forall_forall in IH. eapply IH; eassumption.
  - cbn [topology] in H. set (t := product_topology (repeat (simplex_topology 1) d)) in H.
    assert (Hk : In k (map fst (flatten_topology t))) by (apply in_map_iff; exists (k, n); auto).
    apply (proj2 (flatten_topology_keys t)) in Hk. destruct Hk as (m & -> & Hm). cbn [dk_total spatial_dimension].
    unfold totals in Hm. apply in_map_iff in Hm. destruct Hm as ((k' & n') & <- & H'). cbn [fst].
    unfold t, product_topology in H'. apply in_map_iff in H'. destruct H' as (kns & [= <- _] & Hk).
    apply in_cart in Hk. rewrite dk_total_DT, map_map.
    assert (G : forall d kns, Forall2 (fun x l => In x l) kns (repeat (simplex_topology 1) d) ->
              sum (map (fun x : dimkey * nat => dk_total (fst x)) kns) <= d).
    { clear. induction d as [|d IH]; intros kns H; inversion H; subst; [cbn; lia|]. cbn [map sum].
      match goal with X : In _ (simplex_topology 1) |- _ => unfold simplex_topology in X; cbn in X;
        destruct X as [<-|[<-|[]]] end; cbn [fst dk_total];
      match goal with X : Forall2 _ _ (repeat _ d) |- _ => apply IH in X end; cbn; lia. }
    apply G. exact Hk.
Qed.

Lemma get_dimension_spatial : forall c n, get_dimension c = DI n -> spatial_dimension c = n.
Proof. intros [d|cs|d] n H; cbn in H; try discriminate; injection H as <-; reflexivity. Qed.
