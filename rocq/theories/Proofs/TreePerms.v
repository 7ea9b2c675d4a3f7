(** Entity permutations of products and flattened elements. *)
From Coq Require Import List Arith Lia Bool Permutation Sorted.
From Verif Require Import Model.Prelude Model.Cell Model.Element Model.EntityMaps Model.Permutations.
From Verif Require Import Spec.Rowmajor Spec.EntityDofs Spec.Layout Spec.Permutations.
From Verif Require Import Proofs.Lists Proofs.Cells Proofs.Cubes Proofs.EntityDofs Proofs.EntityDofs2
  Proofs.Layout Proofs.Closure Proofs.Flatten Proofs.Perms.
Import ListNotations.

(* ------------------------------------------------------------------ *)
(** ** Look-up in dictionaries with values of any kind *)

Section Values.
  Context {V : Type} (dv : V).

  Definition inrow_ (row : list (nat * V)) (i : nat) : V :=
    match dict_get Nat.eqb row i with Ok l => l | Err _ => dv end.
  Definition val_at (d : edict V) (k : dimkey) (i : nat) : V := inrow_ (rowof d k) i.

  Lemma has_val_get : forall t (d : edict V) k i l, NoDup (map fst t) -> keys_match t d ->
    (has_dofs d k i l <-> In k (map fst t) /\ i < cnt d k /\ l = val_at d k i).
  Proof using.
    intros t d k i l tn km. split.
    - intros (row & Hr & Hi). assert (Hk := km_key t d tn km k row Hr). split; [exact Hk|].
      rewrite <- (km_rowof t d tn km k row Hr) in Hi.
      destruct (km_entry_inv t d tn km k i l Hk Hi) as [Hc G]. split; [exact Hc|].
      unfold val_at, inrow_. rewrite G. reflexivity.
    - intros (Hk & Hi & ->). destruct (km_row t d tn km k Hk) as [_ Hr].
      exists (rowof d k). split; [exact Hr|]. destruct (km_entry t d tn km k i Hk Hi) as (l & G & Hl).
      unfold val_at, inrow_; rewrite G. exact Hl.
  Qed.

  (** *** Flattening *)

  Lemma row_values_seq_ : forall (row : list (nat * V)) n, Permutation (map fst row) (seq 0 n) ->
    row_values row = map (inrow_ row) (seq 0 n).
  Proof using.
    intros row n P. unfold row_values.
    set (s := sorted (fun a b : nat * V => fst a <=? fst b) row).
    assert (Ps : Permutation s row) by apply sorted_perm.
    assert (E : map fst s = seq 0 n).
    { apply StronglySorted_lt_perm_eq.
      - apply StronglySorted_le_lt.
        + apply StronglySorted_map. apply (sorted_sorted (fun a b : nat * V => fst a <=? fst b)).
          * intros; apply leb_total_nat.
          * intros x y z; apply leb_trans_nat.
        + eapply Permutation_NoDup; [symmetry; rewrite Ps; exact P | apply seq_NoDup].
      - apply seq_StronglySorted.
      - rewrite Ps. exact P. }
    rewrite <- E, map_map. apply map_ext_in. intros [i l] H. cbn [fst snd]. unfold inrow_.
    rewrite (dict_in_get _ nat_eqb_spec row i l); [reflexivity | |].
    - eapply Permutation_NoDup; [symmetry; exact P | apply seq_NoDup].
    - eapply Permutation_in; [exact Ps | exact H].
  Qed.

  Lemma flat_rows_ents_ : forall t (d : edict V) k, NoDup (map fst t) -> keys_match t d ->
    flat_rows (sort_rows d) k = map (fun x => val_at d (fst x) (snd x)) (ents (sort_rows t) k).
  Proof using.
    intros t d k tn km. unfold flat_rows, ents. rewrite map_flat_map.
    assert (Pd : Permutation (sort_rows d) d) by apply sorted_perm.
    assert (Pt : Permutation (sort_rows t) t) by apply sorted_perm.
    assert (E := sort_rows_keys _ _ d t (proj1 km)).
    assert (Hd : forall kr, In kr (sort_rows d) -> In kr d) by (intros; eapply Permutation_in; eauto).
    assert (Ht : forall kn, In kn (sort_rows t) -> In kn t) by (intros; eapply Permutation_in; eauto).
    revert E Hd Ht. generalize (sort_rows t) as st. generalize (sort_rows d) as sd.
    induction sd as [|[K row] sd IH]; intros [|[K' n] st] E Hd Ht; try discriminate E; [reflexivity|].
    cbn [map fst] in E. injection E as <- E. cbn [flat_map fst snd]. f_equal.
    - destruct (dk_total K =? k); [|reflexivity]. rewrite map_map. cbn [fst snd].
      assert (HK : In (K, n) t) by (apply Ht; left; reflexivity).
      assert (HR : In (K, row) d) by (apply Hd; left; reflexivity).
      assert (Er := km_rowof t d tn km K row HR). assert (Cn := km_count_eq t d tn km K n HK).
      assert (Kk : In K (map fst t)) by (apply in_map_iff; exists (K, n); auto).
      destruct (km_count t d tn km K Kk) as [_ P]. rewrite Er, Cn in P.
      rewrite (row_values_seq_ row n P). apply map_ext. intros i. unfold val_at. rewrite Er. reflexivity.
    - apply IH; [exact E | |]; intros; [apply Hd | apply Ht]; right; assumption.
  Qed.

  Lemma flatten_values : forall c (d : edict V), keys_match (topology c) d ->
    (forall key i l, has_dofs (flatten_entities d) key i l ->
       exists k K I, key = DI k /\ unflatten_entity c (Some (k, i)) = Ok (K, I) /\ has_dofs d K I l) /\
    (forall k i K I l, unflatten_entity c (Some (k, i)) = Ok (K, I) -> has_dofs d K I l ->
       has_dofs (flatten_entities d) (DI k) i l).
  Proof using dv.
    intros c d km. assert (tn := topology_NoDup c).
    destruct (flatten_keys _ d) as [N I0]. split.
    - intros key i l (row & Hr & Hi).
      assert (Hk : In key (map fst (flatten_entities d))) by (apply in_map_iff; exists (key, row); auto).
      apply I0 in Hk as (k & -> & Hk).
      assert (G := dict_in_get _ dimkey_eqb_spec _ _ _ N Hr). rewrite flatten_get in G.
      destruct (existsb (Nat.eqb k) (totals d)); [|discriminate]. injection G as <-.
      apply nth_error_enumerate in Hi. rewrite (flat_rows_ents_ (topology c) d k tn km) in Hi.
      destruct (nth_error (ents (sort_rows (topology c)) k) i) as [[K I]|] eqn:E.
      2:{ apply nth_error_None in E. assert (i < length (map (fun x => val_at d (fst x) (snd x)) (ents (sort_rows (topology c)) k))) by (apply nth_error_Some; congruence). rewrite map_length in H; lia. }
      rewrite (map_nth_error _ _ _ E) in Hi. injection Hi as <-. cbn [fst snd].
      exists k, K, I. split; [reflexivity|]. split; [apply unflatten_some; exact E|].
      apply nth_error_In in E. apply ents_sorted_in in E as (_ & n & Hn & HI). cbn [fst snd] in *.
      apply (has_val_get (topology c)); [exact tn | exact km|]. split; [apply in_map_iff; exists (K, n); auto|].
      split; [|reflexivity]. rewrite (km_count_eq (topology c) d tn km K n Hn). exact HI.
    - intros k i K I l H Hh. apply unflatten_some in H.
      apply (has_val_get (topology c)) in Hh as (HK & HI & ->); [|exact tn | exact km].
      exists (enumerate (flat_rows (sort_rows d) k)). split.
      + apply (dict_get_in _ dimkey_eqb_spec). rewrite flatten_get.
        replace (existsb (Nat.eqb k) (totals d)) with true; [reflexivity|]. symmetry; apply existsb_eqb.
        assert (E := nth_error_In _ _ H). apply ents_sorted_in in E as (E & _).
        destruct (km_row (topology c) d tn km K HK) as [_ Hr]. unfold totals. apply in_map_iff. exists (K, rowof d K). auto.
      + apply nth_error_enumerate. rewrite (flat_rows_ents_ (topology c) d k tn km).
        rewrite (map_nth_error _ _ _ H). reflexivity.
  Qed.

  Lemma tcount_flat_rows_ : forall t (d : edict V), NoDup (map fst t) -> keys_match t d -> forall k,
    length (flat_rows d k) = tcount t k.
  Proof using.
    intros t d tn km k.
    assert (P : Permutation (map (fun kr => (fst kr, length (snd kr))) d) t).
    { apply NoDup_Permutation.
      - apply (NoDup_map_inv fst). rewrite map_map. cbn [fst].
        eapply km_NoDup; eassumption.
      - apply (NoDup_map_inv fst). exact tn.
      - intros [kk n]. split; intros H.
        + apply in_map_iff in H as ([k' row] & E & H). injection E as -> <-.
          destruct (proj2 km _ _ H) as (c & Hc & Pc). apply Permutation_length in Pc.
          rewrite map_length, seq_length in Pc. rewrite Pc. exact Hc.
        + apply in_map_iff. assert (Hk : In kk (map fst t)) by (apply in_map_iff; exists (kk, n); auto).
          destruct (km_row t d tn km kk Hk) as [_ Hr]. exists (kk, rowof d kk). split; [|exact Hr].
          cbn [fst snd]. f_equal. apply (km_count_eq t d tn km); exact H. }
    rewrite <- (tcount_perm _ _ k P). clear. unfold tcount, flat_rows. rewrite map_map. cbn [fst snd].
    induction d as [|[kk row] d IH]; simpl; [reflexivity|]. rewrite app_length, IH.
    destruct (dk_total kk =? k); [|reflexivity].
    rewrite (Permutation_length (row_values_perm _ row)), map_length. reflexivity.
  Qed.

  Lemma flatten_keys_match : forall c (d : edict V), cube_cell c -> keys_match (topology c) d ->
    keys_match (topology (Hypercube (spatial_dimension c))) (flatten_entities d).
  Proof using.
    intros c d Hc km. set (t := topology c) in *.
    assert (tn : NoDup (map fst t)) by apply topology_NoDup.
    destruct (flatten_cube c Hc) as [K KV]. fold t in K, KV.
    destruct (flatten_keys _ d) as [N I].
    destruct (flatten_topology_keys t) as [Nt It].
    assert (TP : Permutation (totals d) (totals t)).
    { unfold totals. rewrite <- !(map_map fst dk_total). apply Permutation_map. apply km. }
    assert (KK : forall k, In k (map fst (flatten_entities d)) <-> In k (map fst (flatten_topology t))).
    { intros k. rewrite I, It. split; intros (m & E & H); exists m; split; auto.
      - eapply Permutation_in; [exact TP | exact H].
      - eapply Permutation_in; [symmetry; exact TP | exact H]. }
    split.
    + apply NoDup_Permutation; [exact N | apply topology_NoDup |]. intros k. rewrite KK. apply K.
    + intros k row H. assert (Hk : In k (map fst (flatten_entities d))) by (apply in_map_iff; exists (k, row); auto).
      assert (Hk' := Hk). apply I in Hk as (m & -> & Hm).
      assert (G := dict_in_get _ dimkey_eqb_spec _ _ _ N H). rewrite flatten_get in G.
      destruct (existsb (Nat.eqb m) (totals d)) eqn:Ex; [|discriminate]. injection G as <-.
      exists (tcount t m). split.
      * apply KV. apply (dict_get_in _ dimkey_eqb_spec). rewrite flatten_topology_get.
        replace (existsb (Nat.eqb m) (totals t)) with true; [reflexivity|]. symmetry. apply existsb_eqb.
        eapply Permutation_in; [exact TP | exact Hm].
      * rewrite map_fst_enumerate. rewrite <- (tcount_flat_rows_ t d tn km m).
        rewrite (flat_rows_perm_length _ (sort_rows d) d m) by apply sorted_perm. reflexivity.
  Qed.
End Values.

(* ------------------------------------------------------------------ *)
(** ** Products *)

Section Product.
  Context {X : Type}.
  Local Notation omap := (list X).
  Variable tp : list cell -> list dimkey -> list omap -> omap.

  Local Notation pfac := (cell * edict omap)%type.
  Definition pfac_ok (x : pfac) := keys_match (topology (fst x)) (snd x).
  Definition pcounts (xs : list pfac) (dim : list dimkey) : list nat :=
    map2 (fun x k => cnt (snd x) k) xs dim.
  Definition maps_at (xs : list pfac) (dim : list dimkey) (ei : list nat) : list omap :=
    map2 (fun xk i => val_at [] (snd (fst xk)) (snd xk) i) (zip xs dim) ei.
  Definition prow (xs : list pfac) (dim : list dimkey) : list (nat * omap) :=
    enumerate (map (fun ei => tp (map fst xs) dim (maps_at xs dim ei))
                   (cart (map (seq 0) (pcounts xs dim)))).
  Definition pdict (xs : list pfac) : edict omap :=
    map (fun dim => (DT dim, prow xs dim)) (cart (map (fun c => map fst (topology c)) (map fst xs))).

  Lemma in_pdims : forall xs dim,
    In dim (cart (map (fun c => map fst (topology c)) (map (@fst cell (edict omap)) xs)))
    <-> Forall2 (fun x k => In k (map fst (topology (fst x)))) xs dim.
  Proof using.
    intros xs dim. rewrite in_cart, map_map. split; intros H.
    - apply Forall2_flip in H. rewrite Forall2_map_l in H. exact H.
    - apply Forall2_flip. rewrite Forall2_map_l. exact H.
  Qed.

  Lemma pcounts_topology : forall xs dim, Forall pfac_ok xs ->
    Forall2 (fun x k => In k (map fst (topology (fst x)))) xs dim ->
    In (DT dim, prod (pcounts xs dim)) (topology (TPCell (map fst xs))).
  Proof using.
    intros xs dim FO HD. assert (G := Forall2_Forall_l _ _ _ _ _ _ FO HD).
    cbn [topology]. unfold product_topology. apply in_map_iff.
    exists (map2 (fun x k => (k, cnt (snd x) k)) xs dim). split.
    - f_equal.
      + f_equal. clear - G. induction G as [|x k xs dim [_ _] G IH]; simpl; congruence.
      + f_equal. unfold pcounts. clear - G. induction G as [|x k xs dim [_ _] G IH]; simpl; congruence.
    - apply in_cart. clear - G. induction G as [|x k xs dim [ok Hk] G IH]; simpl; constructor; [|exact IH].
      apply (km_count _ _ (topology_NoDup _) ok k Hk).
  Qed.

  Lemma pdict_keys : forall xs, Forall pfac_ok xs ->
    keys_match (topology (TPCell (map fst xs))) (pdict xs).
  Proof using.
    intros xs FO. split.
    - cbn [topology]. rewrite map_fst_product_topology. unfold pdict. rewrite !map_map.
      rewrite (map_ext (fun x => fst (DT x, prow xs x)) DT) by reflexivity. reflexivity.
    - intros k row H. unfold pdict in H. apply in_map_iff in H as (dim & E & H).
      injection E as <- <-. apply in_pdims in H. exists (prod (pcounts xs dim)). split.
      + apply pcounts_topology; assumption.
      + unfold prow. rewrite map_fst_enumerate, map_length, cart_length, map_map.
        rewrite (map_ext _ (fun x => x)) by (intros; apply seq_length). rewrite map_id. reflexivity.
  Qed.

  Lemma maps_at_has : forall xs dim ei, Forall pfac_ok xs ->
    Forall2 (fun x k => In k (map fst (topology (fst x)))) xs dim ->
    in_shape (pcounts xs dim) ei ->
    Forall2 (fun x kem => has_dofs (snd x) (fst (fst kem)) (snd (fst kem)) (snd kem))
      xs (combine (combine dim ei) (maps_at xs dim ei)).
  Proof using.
    intros xs dim ei FO H. revert ei.
    induction H as [|x k xs dim Hk H IH]; intros ei Hei; inversion FO as [|? ? ok FO']; subst.
    - constructor.
    - cbn in Hei. inversion Hei as [|? i ? ei' Hi Hei']; subst. cbn. constructor; [|apply IH; assumption].
      cbn. apply (has_val_get [] (topology (fst x))); [apply topology_NoDup | exact ok|]. auto.
  Qed.

  (** Where the map of an entity of the product comes from. *)
  Lemma pdict_has : forall xs K I m, Forall pfac_ok xs -> has_dofs (pdict xs) K I m ->
    exists dim ei ms, K = DT dim /\ Forall2 (fun x k => In k (map fst (topology (fst x)))) xs dim /\
      factor_entity (map fst xs) (Some (K, I)) = Ok (combine dim ei) /\
      length ei = length xs /\ length ms = length xs /\
      Forall2 (fun x kem => has_dofs (snd x) (fst (fst kem)) (snd (fst kem)) (snd kem)) xs
        (combine (combine dim ei) ms) /\
      m = tp (map fst xs) dim ms.
  Proof using.
    intros xs K I m FO H.
    assert (km := pdict_keys xs FO). assert (tn := topology_NoDup (TPCell (map fst xs))).
    apply (has_val_get [] _ _ _ _ _ tn km) in H as (Hk & Hi & ->).
    cbn [topology] in Hk. rewrite map_fst_product_topology, map_map in Hk.
    apply in_map_iff in Hk as (dim & <- & Hdim). rewrite in_pdims in Hdim.
    assert (Ld : length xs = length dim) by (eapply Forall2_length; eassumption).
    assert (Hc : cnt (pdict xs) (DT dim) = prod (pcounts xs dim)).
    { eapply km_count_eq; [exact tn | exact km | apply pcounts_topology; assumption]. }
    rewrite Hc in Hi. set (ei := unravel_digits (pcounts xs dim) I).
    assert (Hei : in_shape (pcounts xs dim) ei) by (apply unravel_in_shape; exact Hi).
    assert (Lcn : length (pcounts xs dim) = length xs) by (unfold pcounts; apply map2_length; exact Ld).
    assert (Le : length ei = length xs) by (rewrite <- (in_shape_length _ _ Hei); exact Lcn).
    exists dim, ei, (maps_at xs dim ei). split; [reflexivity|]. split; [exact Hdim|]. split; [|split; [|split; [|split]]].
    - unfold factor_entity. cbn [fst snd]. rewrite map_length.
      replace (length dim =? length xs) with true by (symmetry; apply Nat.eqb_eq; lia). cbn [guard bind].
      assert (Es : mapM (fun cd : cell * dimkey => dict_get dimkey_eqb (topology (fst cd)) (snd cd)) (zip (map fst xs) dim)
                   = Ok (pcounts xs dim)).
      { assert (G := Forall2_Forall_l _ _ _ _ _ _ FO Hdim). clear - G.
        induction G as [|x k xs dim [ok Hk] G IH]; [reflexivity|].
        cbn [map zip mapM fst snd].
        rewrite (dict_in_get _ dimkey_eqb_spec _ _ _ (topology_NoDup _) (proj1 (km_count _ _ (topology_NoDup _) ok k Hk))).
        cbn [bind]. rewrite IH. reflexivity. }
      rewrite Es. cbn [bind]. unfold unravel_index.
      replace (I <? prod (pcounts xs dim)) with true by (symmetry; apply Nat.ltb_lt; exact Hi).
      cbn [bind]. rewrite zip_combine. reflexivity.
    - exact Le.
    - unfold maps_at. rewrite map2_length; rewrite zip_length_eq; auto; lia.
    - apply maps_at_has; assumption.
    - unfold val_at. rewrite (km_rowof _ _ tn km (DT dim) (prow xs dim)).
      2:{ apply in_map_iff. exists dim. split; [reflexivity|]. apply in_pdims; exact Hdim. }
      unfold prow, inrow_. rewrite cart_seq, map_map.
      rewrite (dict_get_enumerate _ _ I (tp (map fst xs) dim (maps_at xs dim (unravel_digits (pcounts xs dim) 0)))).
      + rewrite nth_map_seq with (f := fun x => tp (map fst xs) dim (maps_at xs dim (unravel_digits (pcounts xs dim) x))) by exact Hi.
        reflexivity.
      + rewrite map_length, seq_length. exact Hi.
  Qed.
End Product.

Section Compose.
  Context {O : Type}.
  Local Notation omap := (list (O * list nat)).
  Variable tp : list cell -> list dimkey -> list omap -> omap.
  Local Notation pfac := (cell * edict omap)%type.

  Lemma compose_ok : forall xs, Forall pfac_ok xs ->
    compose_permutations tp (map fst xs) (map snd xs) = Ok (pdict tp xs).
  Proof using.
    intros xs FO. unfold compose_permutations, pdict. apply mapM_all_ok. intros dim Hdim.
    apply in_pdims in Hdim. assert (L : length xs = length dim) by (eapply Forall2_length; eassumption).
    assert (G := Forall2_Forall_l _ _ _ _ _ _ FO Hdim).
    rewrite (mapM_zip _ _ _ _ _ snd (fun (x : pfac) k => rowof (snd x) k)).
    2:{ eapply Forall2_impl_in; [|exact G]. intros x k _ _ [ok Hk]; simpl.
        eapply km_row; [apply topology_NoDup | exact ok | exact Hk]. }
    cbn [bind].
    replace (map (fun m : list (nat * omap) => sorted Nat.leb (map fst m)) (map2 (fun (x : pfac) k => rowof (snd x) k) xs dim))
      with (map (seq 0) (pcounts xs dim)).
    2:{ unfold pcounts. clear - G. induction G as [|x k xs dim [ok Hk] G IH]; simpl; [reflexivity|].
        rewrite IH. f_equal. symmetry. apply sorted_perm_seq.
        eapply km_count; [apply topology_NoDup | exact ok | exact Hk]. }
    rewrite (mapM_all_ok _ _ _ (fun ei => (ei, tp (map fst xs) dim (maps_at xs dim ei)))).
    2:{ intros ei Hei. apply in_cart_seq in Hei. unfold in_shape, pcounts in Hei.
        rewrite map2_map, Forall2_map_l in Hei.
        rewrite (mapM_zip2 _ _ _ _ _ (fun (x : pfac) k => rowof (snd x) k)
                  (fun xk i => val_at [] (snd (fst xk)) (snd xk) i)); [reflexivity | exact L |].
        apply Forall_zip in G as [_ G].
        assert (G' := Forall2_Forall_l _ _ _ _ _ _ G Hei).
        eapply Forall2_impl_in; [|exact G']. simpl. intros [x k] i _ _ [[ok Hk] Hi]; simpl in *.
        destruct (km_entry _ _ (topology_NoDup _) ok k i Hk Hi) as (l & Gl & _).
        unfold val_at, inrow_. rewrite Gl. reflexivity. }
    cbn [bind]. rewrite sorted_id.
    - rewrite map_map. reflexivity.
    - rewrite cart_seq, map_map. apply StronglySorted_map_seq. intros i j _ Hij Hj. simpl.
      apply tuple_leb_ravel with (pcounts xs dim).
      + apply unravel_in_shape; lia.
      + apply unravel_in_shape; lia.
      + rewrite !ravel_unravel by lia. lia.
  Qed.
End Compose.
