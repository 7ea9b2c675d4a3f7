(** The sample orientations meet what the theorems assume of FIAT. *)
From Coq Require Import List Arith Permutation Sorted Lia.
From Verif Require Import Model.Prelude Model.Cell Model.Element Model.EntityMaps Model.Permutations.
From Verif Require Import Spec.Rowmajor Spec.EntityDofs Spec.Layout Spec.Samples Spec.Permutations Spec.PermSamples.
From Verif Require Import Proofs.Lists Proofs.Cells Proofs.SampleFacts Proofs.DofProps.
Import ListNotations.

Lemma flat_map_swap A B C (f : A -> B -> C) l1 l2 :
  Permutation (flat_map (fun x => map (f x) l2) l1) (flat_map (fun y => map (fun x => f x y) l1) l2).
Proof.
  induction l1 as [|x l1 IH]; cbn.
  - induction l2 as [|y l2 IH]; cbn; [constructor | exact IH].
  - etransitivity; [apply Permutation_app_head; exact IH|]. clear IH.
    induction l2 as [|y l2 IH]; cbn; [constructor|]. constructor.
    rewrite <- IH. rewrite !app_assoc. apply Permutation_app_tail. apply Permutation_app_comm.
Qed.

Lemma flat_map_perm A B (f g : A -> list B) l l' :
  Permutation l l' -> (forall x, Permutation (f x) (g x)) -> Permutation (flat_map f l) (flat_map g l').
Proof.
  intros P H. etransitivity; [apply Permutation_flat_map; exact P|]. clear P.
  induction l' as [|x l' IH]; cbn; [constructor|]. apply Permutation_app; [apply H | exact IH].
Qed.

Lemma map_add_seq q k s : map (fun v => q + v) (seq s k) = seq (q + s) k.
Proof. revert s. induction k as [|k IH]; intros s; cbn; [reflexivity|]. rewrite IH. do 2 f_equal. lia. Qed.

Lemma grid_seq n m : flat_map (fun u => map (fun v => u * m + v) (seq 0 m)) (seq 0 n) = seq 0 (n * m).
Proof.
  induction n as [|n IH]; [reflexivity|].
  rewrite seq_S, flat_map_app, IH. cbn [flat_map]. rewrite app_nil_r, map_add_seq.
  replace (S n * m) with (n * m + m) by lia. rewrite seq_app. do 2 f_equal. lia.
Qed.

Lemma entry_permutes pa pb n m eo :
  permutes n pa -> permutes m pb ->
  permutes (n * m) (flat_map (fun u => map (fun v => match eo with 0 => u * length pb + v | _ => v * length pa + u end) pb) pa).
Proof.
  unfold permutes. intros Pa Pb.
  assert (La : length pa = n) by (apply Permutation_length in Pa; rewrite seq_length in Pa; exact Pa).
  assert (Lb : length pb = m) by (apply Permutation_length in Pb; rewrite seq_length in Pb; exact Pb).
  rewrite La, Lb. destruct eo as [|eo].
  - rewrite <- grid_seq. apply flat_map_perm; [exact Pa|]. intros u. apply Permutation_map. exact Pb.
  - rewrite flat_map_swap. rewrite Nat.mul_comm, <- grid_seq. apply flat_map_perm; [exact Pb|].
    intros v. apply Permutation_map. exact Pa.
Qed.


(** The maps of an interval entity. *)
Lemma vertex_map (m : list (ori * list nat)) : one_per [OI 0] m -> exists p, m = [(OI 0, p)].
Proof.
  intros [N H]. destruct m as [|[o p] m].
  - exfalso. apply (H (OI 0)). left; reflexivity.
  - assert (E : OI 0 = o) by (destruct (proj1 (H o) (or_introl eq_refl)) as [E|[]]; exact E). subst o.
    exists p. destruct m as [|[o' p'] m]; [reflexivity|]. exfalso.
    assert (E : OI 0 = o') by (destruct (proj1 (H o') (or_intror (or_introl eq_refl))) as [E|[]]; exact E). subst o'.
    cbn in N. inversion N as [|? ? N1 _]; subst. apply N1. left; reflexivity.
Qed.

Lemma interior_map (m : list (ori * list nat)) : one_per [OI 0; OI 1] m ->
  exists p q, m = [(OI 0, p); (OI 1, q)] \/ m = [(OI 1, q); (OI 0, p)].
Proof.
  intros [N H].
  assert (P : Permutation (map fst m) [OI 0; OI 1]).
  { apply NoDup_Permutation; [exact N | | exact H].
    repeat constructor; cbn; intuition discriminate. }
  apply Permutation_sym in P. apply Permutation_length_2_inv in P.
  destruct m as [|[o p] [|[o' q] [|]]]; cbn in P; destruct P as [E|E]; inversion E; subst.
  - exists p, q. left; reflexivity.
  - exists q, p. right; reflexivity.
Qed.

Ltac listed := repeat match goal with H : _ \/ _ |- _ => destruct H as [H|H] end.

Lemma interval_keys k : In k (map fst (topology I1)) -> k = DI 0 \/ k = DI 1.
Proof. cbn. intros [<-|[<-|[]]]; auto. Qed.

(** The four kinds of products of interval entities, their maps written out. *)
Lemma two_maps dim maps :
  Forall2 (fun c k => In k (map fst (topology c))) [I1; I1] dim ->
  Forall2 (fun ck m => one_per (oris (fst ck) (snd ck)) m) (combine [I1; I1] dim) maps ->
  exists k1 k2 m1 m2, dim = [k1; k2] /\ maps = [m1; m2] /\
    ((k1 = DI 0 /\ exists p, m1 = [(OI 0, p)]) \/
     (k1 = DI 1 /\ exists p q, m1 = [(OI 0, p); (OI 1, q)] \/ m1 = [(OI 1, q); (OI 0, p)])) /\
    ((k2 = DI 0 /\ exists p, m2 = [(OI 0, p)]) \/
     (k2 = DI 1 /\ exists p q, m2 = [(OI 0, p); (OI 1, q)] \/ m2 = [(OI 1, q); (OI 0, p)])).
Proof.
  intros Hd Hm. inversion Hd as [|? k1 ? d1 K1 Hd1]; subst. inversion Hd1 as [|? k2 ? d2 K2 Hd2]; subst.
  inversion Hd2; subst. cbn [combine] in Hm. inversion Hm as [|? m1 ? ms M1 Hm1]; subst.
  inversion Hm1 as [|? m2 ? ms2 M2 Hm2]; subst. inversion Hm2; subst. cbn [fst snd] in *.
  exists k1, k2, m1, m2. split; [reflexivity|]. split; [reflexivity|].
  apply interval_keys in K1. apply interval_keys in K2. split.
  - destruct K1 as [->| ->]; [left | right]; (split; [reflexivity|]); [apply vertex_map | apply interior_map]; exact M1.
  - destruct K2 as [->| ->]; [left | right]; (split; [reflexivity|]); [apply vertex_map | apply interior_map]; exact M2.
Qed.

Lemma one_per_sample dim maps :
  Forall2 (fun c k => In k (map fst (topology c))) [I1; I1] dim ->
  Forall2 (fun ck m => one_per (oris (fst ck) (snd ck)) m) (combine [I1; I1] dim) maps ->
  one_per (oris (TPCell [I1; I1]) (DT dim)) (tp_sample [I1; I1] dim maps).
Proof.
  intros Hd Hm. destruct (two_maps _ _ Hd Hm) as (k1 & k2 & m1 & m2 & -> & -> & C1 & C2). clear Hd Hm.
  destruct C1 as [[-> [p1 ->]]|[-> (p1 & q1 & [-> | ->])]];
    destruct C2 as [[-> [p2 ->]]|[-> (p2 & q2 & [-> | ->])]]; (split; [cbn; repeat constructor; cbn; intuition discriminate|]);
    intros o; cbn; split; intros H; listed; subst; try contradiction; auto 12.
Qed.

Lemma tp_entries dim m1 m2 o p : In (o, p) (tp_sample [I1; I1] dim [m1; m2]) ->
  exists eo a b pa pb, o = OT eo a b /\ In (OI a, pa) m1 /\ In (OI b, pb) m2 /\
    p = flat_map (fun u => map (fun v => match eo with 0 => u * length pb + v | _ => v * length pa + u end) pb) pa.
Proof.
  unfold tp_sample. destruct dim as [|k1 [|k2 [|]]]; try contradiction. intros H.
  apply in_flat_map in H as (eo & _ & H). apply in_flat_map in H as ([o1 pa] & H1 & H).
  apply in_flat_map in H as ([o2 pb] & H2 & H). destruct o1 as [x1|? ? ?], o2 as [x2|? ? ?]; try contradiction.
  destruct H as [H|[]]. injection H as <- <-. exists eo, x1, x2, pa, pb. auto.
Qed.

Lemma tp_sample_ok : tp_contract oris (fun _ => True) tp_sample [I1; I1].
Proof.
  intros dim maps Hd Hm. split; [apply one_per_sample; assumption|].
  intros ns Hn o p Hin _.
  destruct (two_maps _ _ Hd Hm) as (k1 & k2 & m1 & m2 & -> & -> & _).
  inversion Hn as [|? n1 ? ns1 N1 Hn1]; subst. inversion Hn1 as [|? n2 ? ns2 N2 Hn2]; subst. inversion Hn2; subst.
  apply tp_entries in Hin as (eo & a & b & pa & pb & -> & H1 & H2 & ->).
  cbn [fold_right]. rewrite Nat.mul_1_r. apply entry_permutes; [eapply N1; eauto | eapply N2; eauto].
Qed.

Lemma key_fun A B (m : list (A * B)) k v w : NoDup (map fst m) -> In (k, v) m -> In (k, w) m -> v = w.
Proof.
  induction m as [|[k' x] m IH]; cbn; [contradiction|]. intros N. inversion N as [|? ? N1 N2]; subst.
  intros [E|H] [E'|H'].
  - congruence.
  - injection E as -> ->. exfalso. apply N1. apply in_map_iff. exists (k, w). auto.
  - injection E' as -> ->. exfalso. apply N1. apply in_map_iff. exists (k, v). auto.
  - auto.
Qed.

Lemma grid_nth (pa pb : list nat) (n : nat) i j : i < length pa -> j < length pb ->
  nth_error (flat_map (fun u => map (fun v => u * n + v) pb) pa) (i * length pb + j)
  = Some (nth i pa 0 * n + nth j pb 0).
Proof.
  revert i. induction pa as [|u pa IH]; intros [|i] Hi Hj; cbn in Hi; try lia.
  - cbn [flat_map nth]. rewrite nth_error_app1 by (rewrite map_length; lia). cbn.
    rewrite nth_error_map, (nth_error_nth' pb 0) by exact Hj. reflexivity.
  - cbn [flat_map nth]. rewrite nth_error_app2 by (rewrite map_length; lia). rewrite map_length.
    replace (S i * length pb + j - length pb) with (i * length pb + j) by lia. apply IH; lia.
Qed.

Lemma join_sample_ok : join_contract oris tp_sample join_sample [I1; I1].
Proof.
  intros dim maps os ps p Hd Hm Hop Lo Lm Hin js Hjs.
  destruct (two_maps _ _ Hd Hm) as (k1 & k2 & m1 & m2 & -> & -> & _).
  assert (N : NoDup (map fst m1) /\ NoDup (map fst m2)).
  { cbn [combine] in Hm. inversion Hm as [|? ? ? ? M1 Hm1]; subst. inversion Hm1 as [|? ? ? ? M2 Hm2]; subst.
    split; [apply M1 | apply M2]. }
  destruct N as [N1 N2].
  apply tp_entries in Hin as (eo & a & b & pa & pb & Eo & H1 & H2 & ->).
  destruct os as [|[o1|? ? ?] [|[o2|? ? ?] [|]]]; try discriminate. injection Eo as <- -> ->.
  destruct ps as [|q1 [|q2 [|]]]; try discriminate. cbn [combine] in Hop.
  inversion Hop as [|? ? ? ? Q1 Hop1]; subst. inversion Hop1 as [|? ? ? ? Q2 Hop2]; subst.
  rewrite <- (key_fun _ _ _ _ _ _ N1 Q1 H1), <- (key_fun _ _ _ _ _ _ N2 Q2 H2) in *.
  inversion Hjs as [|? j1 ? js1 J1 Hjs1]; subst. inversion Hjs1 as [|? j2 ? js2 J2 Hjs2]; subst. inversion Hjs2; subst.
  cbn. rewrite ?Nat.mul_1_r, ?Nat.add_0_r. apply grid_nth; assumption.
Qed.

Lemma leaf_sample_ok : forall l : leaf unit, leaf_ok l -> leaf_contract oris (fun _ => True) lp_sample l.
Proof.
  intros l [[[K1 K2] _] _]. unfold leaf_contract, lp_sample. destruct (lf_cell l) as [[|[|n]]| |] eqn:Ec; try reflexivity.
  assert (R : forall k i m, has_dofs (map (fun kr : dimkey * list (nat * list nat) => (fst kr, map (fun il => (fst il,
            map (fun o => (OI o, match o with 0 => seq 0 (length (snd il)) | _ => rev (seq 0 (length (snd il))) end))
                (int_oris (fst kr)))) (snd kr))) (lf_edofs l)) k i m ->
            exists q, has_dofs (lf_edofs l) k i q /\
              m = map (fun o => (OI o, match o with 0 => seq 0 (length q) | _ => rev (seq 0 (length q)) end)) (int_oris k)).
  { intros k i m (row & Hr & Hi). apply in_map_iff in Hr as ([k' row'] & E & Hr). injection E as -> <-.
    cbn [fst snd] in Hi. apply in_map_iff in Hi as ([i' q] & E & Hi). injection E as -> <-.
    exists q. split; [exists row'; auto | reflexivity]. }
  split; [|split].
  - split.
    + rewrite map_map. cbn [fst]. exact K1.
    + intros k row Hr. apply in_map_iff in Hr as ([k' row'] & E & Hr). injection E as -> <-.
      cbn [fst snd]. rewrite map_map. cbn [fst]. apply K2; exact Hr.
  - intros k i m H. apply R in H as (q & _ & ->). unfold oris. split.
    + rewrite map_map. cbn [fst]. destruct k as [[|[|k]]|]; repeat constructor; cbn; intuition discriminate.
    + intros o. rewrite map_map. cbn [fst]. reflexivity.
  - intros k i q o p Hq (m & Hm & Hin) _. apply R in Hm as (q' & Hq' & ->).
    apply in_map_iff in Hin as (n & E & _). injection E as <- <-.
    assert (Eq : q' = q).
    { destruct Hq as (r1 & A1 & A2), Hq' as (r2 & B1 & B2). 
      assert (N : NoDup (map fst (lf_edofs l))).
      { eapply Permutation_NoDup; [symmetry; exact K1|]. cbn. repeat constructor; cbn; intuition discriminate. }
      rewrite <- (key_fun _ _ _ _ _ _ N A1 B1) in B2.
      destruct (K2 _ _ A1) as (c & _ & P).
      eapply key_fun; [| exact B2 | exact A2]. eapply Permutation_NoDup; [symmetry; exact P | apply seq_NoDup]. }
    subst q'. unfold permutes. destruct n; [reflexivity|]. symmetry. apply Permutation_rev.
Qed.

Lemma flat_sample_ok : flat_contract oris (fun _ => True) flat_sample (TPCell [I1; I1]).
Proof.
  assert (G : forall K, In K (map fst (topology (TPCell [I1; I1]))) ->
    NoDup (map (flat_sample K) (oris (TPCell [I1; I1]) K)) /\
    oris (Hypercube (spatial_dimension (TPCell [I1; I1]))) (DI (dk_total K)) = map (flat_sample K) (oris (TPCell [I1; I1]) K)).
  { intros K HK. cbn in HK. listed; try contradiction; subst K; cbn; (split; [|reflexivity]);
      repeat constructor; cbn; intuition discriminate. }
  intros K HK. destruct (G K HK) as [N E]. split; [|split].
  - intros o o' H H' Ef. revert N H H'. generalize (oris (TPCell [I1; I1]) K). intros l.
    induction l as [|x l IH]; cbn [map In]; [contradiction|]. intros N. inversion N as [|? ? N1 N2]; subst.
    intros [->|H] [->|H']; auto.
    + exfalso. apply N1. rewrite Ef. apply in_map; exact H'.
    + exfalso. apply N1. rewrite <- Ef. apply in_map; exact H.
  - intros o'. rewrite E, in_map_iff. split; intros (o & A & B); exists o; auto.
  - auto.
Qed.

(** Trees over intervals with products of two, flattened to quadrilaterals,
    and broken on intervals. *)
Definition interval_treeb (e : elt unit) : bool :=
  forallb (fun s => match s with
    | ETensorProduct fs => match mapM cell_of fs with
                           | Ok cs => list_eqb cell_eqb cs [I1; I1] | Err _ => true end
    | EFlattened p => match cell_of p with Ok c => cell_eqb c (TPCell [I1; I1]) | Err _ => true end
    | EDiscontinuous e' => match cell_of e' with Ok c => cell_eqb c I1 | Err _ => true end
    | _ => true end) (all_subs e).

Lemma sample_contract_ok : forall e, (forall l, leaf_of l e -> leaf_ok l) -> interval_treeb e = true -> sample_contract e.
Proof.
  intros e L H. unfold interval_treeb in H. rewrite forallb_forall in H. split; [|split; [|split]].
  - intros l Hl. apply leaf_sample_ok, L, Hl.
  - intros fs cs Hs Ec. specialize (H _ (all_subs_of _ _ _ Hs)). cbn beta iota in H. rewrite Ec in H.
    destruct (list_eqb_spec _ _ cell_eqb_spec cs [I1; I1]) as [E|]; [rewrite E; apply tp_sample_ok | discriminate].
  - intros p c Hs Ec. specialize (H _ (all_subs_of _ _ _ Hs)). cbn beta iota in H. rewrite Ec in H.
    destruct (cell_eqb_spec c (TPCell [I1; I1])) as [E|]; [rewrite E; apply flat_sample_ok | discriminate].
  - intros e' c Hs Ec. specialize (H _ (all_subs_of _ _ _ Hs)). cbn beta iota in H. rewrite Ec in H.
    destruct (cell_eqb_spec c I1) as [E0|]; [|discriminate]. rewrite E0. split; [exact interval_subentities|].
    intros k i l (row & Hr & Hi) Hin. cbn in Hr. destruct Hr as [E|[E|[]]]; injection E as <- <-; cbn in Hi; listed; try contradiction;
      injection Hi as <- <-; cbn in Hin; listed; try contradiction; try discriminate; auto.
Qed.
