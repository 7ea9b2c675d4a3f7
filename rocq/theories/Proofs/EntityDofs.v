(** The dof dictionaries of composite elements. *)
From Coq Require Import List Arith Lia Bool Permutation Sorted.
From Verif Require Import Model.Prelude Model.Cell Model.Element.
From Verif Require Import Spec.Rowmajor Spec.EntityDofs Proofs.Lists Proofs.Cells Proofs.Cubes.
Import ListNotations.

Section EltInd.
  Context {F : Type}.
  Variable P : elt F -> Prop.
  Hypothesis H1 : forall l, P (ELeaf l).
  Hypothesis H2 : forall fs, Forall P fs -> P (ETensorProduct fs).
  Hypothesis H3 : forall b s t, P b -> P (ETensor b s t).
  Hypothesis H4 : forall es, Forall P es -> P (EEnriched es).
  Hypothesis H5 : forall e s o, P e -> P (EMixedSub e s o).
  Hypothesis H6 : forall e, P e -> P (EFlattened e).
  Hypothesis H7 : forall e, P e -> P (EDiscontinuous e).
  Hypothesis H8 : forall e, P e -> P (EHDiv e).
  Hypothesis H9 : forall e, P e -> P (EHCurl e).
  Fixpoint elt_ind' (e : elt F) : P e :=
    let go := fix go (l : list (elt F)) : Forall P l :=
                match l with
                | [] => Forall_nil P
                | x :: r => Forall_cons x (elt_ind' x) (go r)
                end in
    match e with
    | ELeaf l => H1 l
    | ETensorProduct fs => H2 fs (go fs)
    | ETensor b s t => H3 b s t (elt_ind' b)
    | EEnriched es => H4 es (go es)
    | EMixedSub e s o => H5 e s o (elt_ind' e)
    | EFlattened e => H6 e (elt_ind' e)
    | EDiscontinuous e => H7 e (elt_ind' e)
    | EHDiv e => H8 e (elt_ind' e)
    | EHCurl e => H9 e (elt_ind' e)
    end.
End EltInd.

(* ------------------------------------------------------------------ *)
(** ** Total look-up *)

Definition rowof {V} (d : edict V) (k : dimkey) : list (nat * V) :=
  match dict_get dimkey_eqb d k with Ok r => r | Err _ => [] end.
Definition inrow (row : list (nat * list nat)) (i : nat) : list nat :=
  match dict_get Nat.eqb row i with Ok l => l | Err _ => [] end.
Definition dof_at (d : edofs) (k : dimkey) (i : nat) : list nat := inrow (rowof d k) i.
Definition cnt {V} (d : edict V) (k : dimkey) : nat := length (rowof d k).

Lemma Perm_NoDup : forall A (l l' : list A), Permutation l l' -> NoDup l' -> NoDup l.
Proof. intros A l l' P N. eapply Permutation_NoDup; [symmetry; exact P | exact N]. Qed.

Section Matched.
  Context {V : Type} (t : list (dimkey * nat)) (d : edict V).
  Hypothesis tn : NoDup (map fst t).
  Hypothesis km : keys_match t d.

  Lemma km_NoDup : NoDup (map fst d).
  Proof using All. eapply Perm_NoDup; [apply km | exact tn]. Qed.

  Lemma km_row : forall k, In k (map fst t) ->
    dict_get dimkey_eqb d k = Ok (rowof d k) /\ In (k, rowof d k) d.
  Proof using All.
    intros k Hk. unfold rowof.
    destruct (dict_get_some _ dimkey_eqb_spec d k) as [r Hr].
    { eapply Permutation_in; [symmetry; apply km | exact Hk]. }
    rewrite Hr. split; [reflexivity|]. apply (dict_get_in _ dimkey_eqb_spec). exact Hr.
  Qed.

  Lemma km_rowof : forall k row, In (k, row) d -> rowof d k = row.
  Proof using All.
    intros k row H. unfold rowof. rewrite (dict_in_get _ dimkey_eqb_spec d k row km_NoDup H). reflexivity.
  Qed.

  Lemma km_key : forall k row, In (k, row) d -> In k (map fst t).
  Proof using All.
    intros k row H. eapply Permutation_in; [apply km|]. apply in_map_iff; exists (k, row); auto.
  Qed.

  Lemma km_count : forall k, In k (map fst t) ->
    In (k, cnt d k) t /\ Permutation (map fst (rowof d k)) (seq 0 (cnt d k)).
  Proof using All.
    intros k Hk. destruct (km_row k Hk) as [_ Hin].
    destruct km as [_ K]. destruct (K _ _ Hin) as (c & Hc & P).
    assert (E : cnt d k = c).
    { unfold cnt. apply Permutation_length in P. rewrite map_length, seq_length in P. exact P. }
    rewrite E; auto.
  Qed.

  Lemma km_count_eq : forall k c, In (k, c) t -> cnt d k = c.
  Proof using All.
    intros k c H. assert (Hk : In k (map fst t)) by (apply in_map_iff; exists (k, c); auto).
    destruct (km_count k Hk) as [H' _].
    assert (G : dict_get dimkey_eqb t k = Ok c) by (apply (dict_in_get _ dimkey_eqb_spec); assumption).
    assert (G' : dict_get dimkey_eqb t k = Ok (cnt d k)) by (apply (dict_in_get _ dimkey_eqb_spec); assumption).
    congruence.
  Qed.

  Lemma km_row_NoDup : forall k, In k (map fst t) -> NoDup (map fst (rowof d k)).
  Proof using All. intros k Hk. eapply Perm_NoDup; [apply km_count; exact Hk | apply seq_NoDup]. Qed.

  Lemma km_entry : forall k i, In k (map fst t) -> i < cnt d k ->
    exists l, dict_get Nat.eqb (rowof d k) i = Ok l /\ In (i, l) (rowof d k).
  Proof using All.
    intros k i Hk Hi. destruct (dict_get_some _ nat_eqb_spec (rowof d k) i) as [l Hl].
    - eapply Permutation_in; [symmetry; apply km_count; exact Hk|]. apply in_seq; lia.
    - exists l; split; [exact Hl|]. apply (dict_get_in _ nat_eqb_spec); exact Hl.
  Qed.

  Lemma km_entry_inv : forall k i l, In k (map fst t) -> In (i, l) (rowof d k) ->
    i < cnt d k /\ dict_get Nat.eqb (rowof d k) i = Ok l.
  Proof using All.
    intros k i l Hk Hi. split.
    - assert (In i (seq 0 (cnt d k))).
      { eapply Permutation_in; [apply km_count; exact Hk|]. apply in_map_iff; exists (i, l); auto. }
      apply in_seq in H; lia.
    - apply (dict_in_get _ nat_eqb_spec); [apply km_row_NoDup; exact Hk | exact Hi].
  Qed.
End Matched.

Lemma has_dofs_get : forall t (d : edofs) k i l, NoDup (map fst t) -> keys_match t d ->
  (has_dofs d k i l <-> In k (map fst t) /\ i < cnt d k /\ l = dof_at d k i).
Proof.
  intros t d k i l tn km. split.
  - intros (row & Hr & Hi). assert (Hk := km_key t d tn km k row Hr). split; [exact Hk|].
    rewrite <- (km_rowof t d tn km k row Hr) in Hi.
    destruct (km_entry_inv t d tn km k i l Hk Hi) as [Hc G]. split; [exact Hc|].
    unfold dof_at, inrow. rewrite G. reflexivity.
  - intros (Hk & Hi & ->). destruct (km_row t d tn km k Hk) as [_ Hr].
    exists (rowof d k). split; [exact Hr|]. destruct (km_entry t d tn km k i Hk Hi) as (l & G & Hl).
    unfold dof_at, inrow; rewrite G. exact Hl.
Qed.

(** All dofs, entity by entity. *)
Definition dof_sum (t : list (dimkey * nat)) (d : edofs) : list nat :=
  flat_map (fun k => flat_map (dof_at d k) (seq 0 (cnt d k))) (map fst t).

Lemma row_concat : forall row, NoDup (map fst row) ->
  flat_map (inrow row) (map fst row) = concat (map snd row).
Proof.
  intros row ND. rewrite flat_map_map, flat_map_concat_map. f_equal.
  apply map_ext_in. intros [i l] H. unfold inrow. simpl.
  rewrite (dict_in_get _ nat_eqb_spec row i l ND H). reflexivity.
Qed.

Lemma concat_all_lists : forall (d : edofs),
  concat (all_lists d) = flat_map (fun kr => concat (map snd (snd kr))) d.
Proof.
  induction d as [|[k row] d IH]; simpl; [reflexivity|]. unfold all_lists in *; simpl.
  rewrite concat_app, IH. reflexivity.
Qed.

Lemma dof_sum_all : forall t d, NoDup (map fst t) -> keys_match t d ->
  Permutation (concat (all_lists d)) (dof_sum t d).
Proof.
  intros t d tn km. rewrite concat_all_lists. unfold dof_sum.
  assert (P : Permutation (map fst d) (map fst t)) by apply km.
  rewrite <- P. rewrite flat_map_map. apply flat_map_perm_fun. intros [k row] H. simpl.
  assert (Hk := km_key t d tn km k row H). rewrite <- (km_rowof t d tn km k row H).
  rewrite <- row_concat by (eapply km_row_NoDup; eassumption).
  apply flat_map_perm. eapply km_count; eassumption.
Qed.

Lemma dof_lt : forall t n d, NoDup (map fst t) -> edofs_ok t n d ->
  forall k i v, In k (map fst t) -> i < cnt d k -> In v (dof_at d k i) -> v < n.
Proof.
  intros t n d tn [km part] k i v Hk Hi Hv.
  assert (In v (seq 0 n)); [|apply in_seq in H; lia].
  eapply Permutation_in; [exact part|].
  eapply Permutation_in; [symmetry; apply dof_sum_all; eassumption|].
  unfold dof_sum. apply in_flat_map. exists k; split; [exact Hk|].
  apply in_flat_map. exists i; split; [apply in_seq; lia | exact Hv].
Qed.

(* ------------------------------------------------------------------ *)
(** ** Tensor products *)

Definition fac := (list (dimkey * nat) * nat * edofs)%type.
Definition ft (x : fac) := fst (fst x).
Definition fn (x : fac) := snd (fst x).
Definition fd (x : fac) := snd x.
Definition fac_ok (x : fac) := NoDup (map fst (ft x)) /\ edofs_ok (ft x) (fn x) (fd x).

Definition at_tuple (xs : list fac) (dim : list dimkey) (ei : list nat) : list (list nat) :=
  map2 (fun xk i => dof_at (fd (fst xk)) (snd xk) i) (zip xs dim) ei.
Definition counts (xs : list fac) (dim : list dimkey) : list nat :=
  map2 (fun x k => cnt (fd x) k) xs dim.
Definition product_row (xs : list fac) (dim : list dimkey) : list (nat * list nat) :=
  enumerate (map (fun ei => map (ravel (map fn xs)) (cart (at_tuple xs dim ei)))
                 (cart (map (seq 0) (counts xs dim)))).
Definition product_dofs (xs : list fac) : edofs :=
  map (fun dim => (DT dim, product_row xs dim)) (cart (map (fun x => map fst (ft x)) xs)).

Lemma mapM_zip : forall A B C D (f : A * B -> result C) (g : D -> A) (h : D -> B -> C) xs ks,
  Forall2 (fun x k => f (g x, k) = Ok (h x k)) xs ks ->
  mapM f (zip (map g xs) ks) = Ok (map2 h xs ks).
Proof.
  induction 1 as [|x k xs ks E H IH]; simpl; [reflexivity|]. rewrite E; simpl. rewrite IH. reflexivity.
Qed.

Lemma mapM_zip2 : forall A B C D (f : A * nat -> result C) (g : D -> B -> A) (h : D * B -> nat -> C) xs ks is_,
  length xs = length ks ->
  Forall2 (fun xk i => f (g (fst xk) (snd xk), i) = Ok (h xk i)) (zip xs ks) is_ ->
  mapM f (zip (map2 g xs ks) is_) = Ok (map2 h (zip xs ks) is_).
Proof.
  induction xs as [|x xs IH]; intros [|k ks] is_ L H; try discriminate L.
  - inversion H; reflexivity.
  - cbn [zip] in H. inversion H as [|a i l l' E H']; subst. cbn [zip map2 mapM].
    cbn [fst snd] in E. rewrite E. cbn [bind]. rewrite IH by (auto; simpl in L; lia). reflexivity.
Qed.

Lemma in_dims : forall xs dim,
  In dim (cart (map (fun x => map fst (ft x)) xs)) <-> Forall2 (fun x k => In k (map fst (ft x))) xs dim.
Proof.
  intros xs dim. rewrite in_cart. split; intros H.
  - apply Forall2_flip in H. rewrite Forall2_map_l in H. exact H.
  - apply Forall2_flip. rewrite Forall2_map_l. exact H.
Qed.

Lemma zip_length_eq : forall A B (a : list A) (b : list B), length a = length b -> length (zip a b) = length a.
Proof. induction a as [|x a IH]; intros [|y b] H; simpl in *; try lia. rewrite IH; lia. Qed.

Lemma in_ents : forall xs dim ei, length xs = length dim ->
  In ei (cart (map (seq 0) (counts xs dim)))
  <-> Forall2 (fun xk i => i < cnt (fd (fst xk)) (snd xk)) (zip xs dim) ei.
Proof.
  intros xs dim ei L. rewrite in_cart_seq. unfold in_shape, counts. rewrite map2_map, Forall2_map_l. reflexivity.
Qed.

Lemma Forall_zip : forall A B (P : A -> B -> Prop) xs ks,
  Forall2 P xs ks <-> length xs = length ks /\ Forall (fun xk => P (fst xk) (snd xk)) (zip xs ks).
Proof.
  induction xs as [|x xs IH]; intros [|k ks]; simpl; split; intros H.
  - auto.
  - constructor.
  - inversion H.
  - destruct H; lia.
  - inversion H.
  - destruct H; lia.
  - inversion H; subst. destruct (proj1 (IH ks)) as [L G]; [assumption|]. split; [lia|]. constructor; auto.
  - destruct H as [L G]. inversion G; subst. constructor; [assumption|]. apply IH; split; [lia | assumption].
Qed.

Lemma Forall2_Forall_l : forall A B (P : A -> B -> Prop) (Q : A -> Prop) xs ks,
  Forall Q xs -> Forall2 P xs ks -> Forall2 (fun x k => Q x /\ P x k) xs ks.
Proof. intros A B P Q xs ks F G; induction G; inversion F; subst; constructor; auto. Qed.

(** The members of the lists at a legal entity are legal multi-indices. *)
Lemma at_tuple_in_shape : forall xs dim ei vs,
  Forall fac_ok xs -> Forall2 (fun x k => In k (map fst (ft x))) xs dim ->
  Forall2 (fun xk i => i < cnt (fd (fst xk)) (snd xk)) (zip xs dim) ei ->
  In vs (cart (at_tuple xs dim ei)) -> in_shape (map fn xs) vs.
Proof.
  induction xs as [|x xs IH]; intros dim ei vs FO HD HE HV; inversion HD; subst; simpl in *.
  - inversion HE; subst. simpl in HV. destruct HV as [<-|[]]. constructor.
  - inversion HE; subst. simpl in HV. apply in_flat_map in HV as (v & Hv & HV).
    apply in_map_iff in HV as (vs' & <- & HV). inversion FO; subst. constructor.
    + match goal with F : fac_ok x |- _ => destruct F as [tn ok] end.
      eapply dof_lt; try eassumption.
    + eapply IH; eauto.
Qed.

Lemma zip_fst_map : forall A B C (f : A -> C) (a : list A) (b : list B),
  length a = length b -> map (fun ab => f (fst ab)) (zip a b) = map f a.
Proof. induction a as [|x a IH]; intros [|y b] L; simpl in *; try lia; [reflexivity|]. rewrite IH by lia. reflexivity. Qed.

Lemma productise_ok : forall xs, xs <> [] -> Forall fac_ok xs ->
  productise (map (fun x => map fst (ft x)) xs) (map fn xs) (map fd xs) = Ok (product_dofs xs).
Proof.
  intros xs NE FO. unfold productise, product_dofs. apply mapM_all_ok. intros dim Hdim.
  apply in_dims in Hdim. assert (L : length xs = length dim) by (eapply Forall2_length; eassumption).
  assert (G := Forall2_Forall_l _ _ _ _ _ _ FO Hdim).
  rewrite (mapM_zip _ _ _ _ _ fd (fun x k => rowof (fd x) k)).
  2:{ eapply Forall2_impl_in; [|exact G]. intros x k _ _ [[tn ok] Hk]; simpl.
      eapply km_row; [exact tn | apply ok | exact Hk]. }
  simpl.
  replace (map (fun topd : list (nat * list nat) => sorted Nat.leb (map fst topd)) (map2 (fun x k => rowof (fd x) k) xs dim))
    with (map (seq 0) (counts xs dim)).
  2:{ unfold counts. clear - G. induction G as [|x k xs dim [[tn ok] Hk] G IH]; simpl; [reflexivity|].
      rewrite IH. f_equal. symmetry. apply sorted_perm_seq. eapply km_count; [exact tn | apply ok | exact Hk]. }
  rewrite (mapM_all_ok _ _ _ (fun ei => (ei, map (ravel (map fn xs)) (cart (at_tuple xs dim ei))))).
  2:{ intros ei Hei. apply in_ents in Hei; [|exact L].
      rewrite (mapM_zip2 _ _ _ _ _ (fun x k => rowof (fd x) k)
                (fun xk i => dof_at (fd (fst xk)) (snd xk) i)); [|exact L|].
      2:{ apply Forall_zip in G as [_ G].
          assert (G' := Forall2_Forall_l _ _ _ _ _ _ G Hei).
          eapply Forall2_impl_in; [|exact G']. simpl. intros [x k] i _ _ [[[tn ok] Hk] Hi]; simpl in *.
          destruct (km_entry _ _ tn (proj1 ok) k i Hk Hi) as (l & Gl & _).
          unfold dof_at, inrow. rewrite Gl. reflexivity. }
      cbn [bind]. fold (at_tuple xs dim ei).
      assert (IS : forall vs, In vs (cart (at_tuple xs dim ei)) -> in_shape (map fn xs) vs)
        by (intros; eapply at_tuple_in_shape; eassumption).
      destruct (cart (at_tuple xs dim ei)) as [|v0 vr] eqn:E; [reflexivity|].
      change ((do vs <- mapM (ravel_multi_index (map fn xs)) (v0 :: vr) ;; Ok (ei, vs))
              = Ok (ei, map (ravel (map fn xs)) (v0 :: vr))).
      rewrite (mapM_all_ok _ _ (ravel_multi_index (map fn xs)) (ravel (map fn xs)) (v0 :: vr)); [reflexivity|].
      intros vs Hvs. unfold ravel_multi_index. destruct xs as [|x xs]; [congruence|].
      simpl map at 1. apply ravel_strides_ok. apply IS. exact Hvs. }
  simpl. rewrite sorted_id.
  - rewrite map_map. reflexivity.
  - rewrite cart_seq, map_map. apply StronglySorted_map_seq. intros i j _ Hij Hj. simpl.
    apply tuple_leb_ravel with (counts xs dim).
    + apply unravel_in_shape; lia.
    + apply unravel_in_shape; lia.
    + rewrite !ravel_unravel by lia. lia.
Qed.

Lemma product_topology_fac : forall xs,
  map fst (product_topology (map ft xs)) = map DT (cart (map (fun x => map fst (ft x)) xs)).
Proof. intros xs. rewrite map_fst_product_topology, map_map. reflexivity. Qed.

Lemma counts_in_topology : forall xs dim, Forall fac_ok xs ->
  Forall2 (fun x k => In k (map fst (ft x))) xs dim ->
  In (DT dim, prod (counts xs dim)) (product_topology (map ft xs)).
Proof.
  intros xs dim FO HD. assert (G := Forall2_Forall_l _ _ _ _ _ _ FO HD).
  unfold product_topology. apply in_map_iff.
  exists (map2 (fun x k => (k, cnt (fd x) k)) xs dim). split.
  - f_equal.
    + f_equal. clear - G. induction G as [|x k xs dim [_ _] G IH]; simpl; congruence.
    + f_equal. unfold counts. clear - G. induction G as [|x k xs dim [_ _] G IH]; simpl; congruence.
  - apply in_cart. clear - G. induction G as [|x k xs dim [[tn ok] Hk] G IH]; simpl; constructor; [|exact IH].
    apply (km_count _ _ tn (proj1 ok) k Hk).
Qed.

Lemma product_dofs_keys : forall xs, Forall fac_ok xs ->
  keys_match (product_topology (map ft xs)) (product_dofs xs).
Proof.
  intros xs FO. split.
  - rewrite product_topology_fac. unfold product_dofs. rewrite map_map. reflexivity.
  - intros k row H. unfold product_dofs in H. apply in_map_iff in H as (dim & E & H).
    injection E as <- <-. apply in_dims in H. exists (prod (counts xs dim)). split.
    + apply counts_in_topology; assumption.
    + unfold product_row. rewrite map_fst_enumerate, map_length, cart_length, map_map.
      rewrite (map_ext _ (fun x => x)) by (intros; apply seq_length). rewrite map_id. reflexivity.
Qed.

Lemma product_dofs_part : forall xs, Forall fac_ok xs ->
  partitions (prod (map fn xs)) (all_lists (product_dofs xs)).
Proof.
  intros xs FO. unfold partitions. rewrite concat_all_lists. unfold product_dofs.
  rewrite flat_map_map. simpl.
  transitivity (map (ravel (map fn xs))
    (flat_map (fun dim => flat_map (fun ei => cart (at_tuple xs dim ei)) (cart (map (seq 0) (counts xs dim))))
       (cart (map (fun x => map fst (ft x)) xs)))).
  { rewrite map_flat_map. apply flat_map_perm_fun. intros dim _.
    unfold product_row. rewrite map_snd_enumerate, <- flat_map_concat_map, map_flat_map. reflexivity. }
  rewrite <- map_ravel_cart_seq. apply Permutation_map.
  transitivity (flat_map (fun dim => cart (map2 (fun x k => flat_map (dof_at (fd x) k) (seq 0 (cnt (fd x) k))) xs dim))
       (cart (map (fun x => map fst (ft x)) xs))).
  { apply flat_map_perm_fun. intros dim Hdim. apply in_dims in Hdim.
    assert (L : length xs = length dim) by (eapply Forall2_length; eassumption).
    pose proof (cart_flat_map _ _ (map2 (fun x k => (seq 0 (cnt (fd x) k), fun i => dof_at (fd x) k i)) xs dim)) as C.
    rewrite !map2_map, !map_map in C. simpl in C.
    unfold counts. rewrite map2_map, !map_map in *. simpl.
    rewrite map2_map. rewrite <- C. apply Permutation_refl'. apply flat_map_ext_in. intros ei _.
    f_equal. unfold at_tuple. generalize (zip xs dim) as z. clear.
    induction z as [|[x k] z IH] in ei |- *; intros; [destruct ei; reflexivity|].
    destruct ei as [|i ei]; simpl; [reflexivity|]. rewrite IH. reflexivity. }
  pose proof (cart_flat_map _ _ (map (fun x => (map fst (ft x), fun k => flat_map (dof_at (fd x) k) (seq 0 (cnt (fd x) k)))) xs)) as C.
  rewrite !map_map in C. simpl in C.
  transitivity (cart (map (fun x : fac => flat_map (fun k => flat_map (dof_at (fd x) k) (seq 0 (cnt (fd x) k))) (map fst (ft x))) xs)).
  { rewrite <- C. apply Permutation_refl'. apply flat_map_ext_in. intros dim _. f_equal. clear.
    revert dim. induction xs as [|x xs IH]; intros [|k dim]; simpl; try reflexivity. rewrite IH. reflexivity. }
  apply cart_perm. rewrite map_map, Forall2_map_r, Forall2_map_l.
  clear C. induction FO as [|x xs [tn [km part]] FO IH]; constructor; [|exact IH].
  change (Permutation (dof_sum (ft x) (fd x)) (seq 0 (fn x))).
  rewrite <- dof_sum_all by assumption. exact part.
Qed.
