(** Sobolev spaces of enriched elements. *)
From Coq Require Import String List ZArith Arith Bool Lia.
From Verif Require Import Model.Prelude Model.Registry Model.UflElement Spec.UflElement Proofs.Repr Proofs.Rebuild.
Import ListNotations.
Open Scope string_scope.

Definition spaces : list sobolev := [HInf; H2; H1; HDiv; HCurl; HEin; HDivDiv; HCurlDiv; L2].
Lemma in_spaces s : In s spaces.
Proof. destruct s; cbn; tauto. Qed.
Lemma forall_spaces (p : sobolev -> bool) : forallb p spaces = true -> forall s, p s = true.
Proof. intros H s. rewrite forallb_forall in H. apply H, in_spaces. Qed.
Lemma sobolev_spec a b : sobolev_eqb a b = true <-> a = b.
Proof. split; [|intros ->; now destruct b]. destruct a, b; intros H; (reflexivity || discriminate H). Qed.

Definition up (a b : sobolev) : bool := existsb (sobolev_eqb b) (a :: parents a).
Lemma up_in a b : up a b = true <-> In b (a :: parents a).
Proof.
  unfold up. rewrite existsb_exists. split.
  - intros (x & I & E). apply sobolev_spec in E as <-. exact I.
  - intros I. exists b. split; [exact I|now apply sobolev_spec].
Qed.
Lemma up_trans_checked : forallb (fun a => forallb (fun b => forallb (fun c => implb (up a b && up b c) (up a c)) spaces) spaces) spaces = true.
Proof. vm_compute. reflexivity. Qed.
Lemma up_trans a b c : up a b = true -> up b c = true -> up a c = true.
Proof.
  intros H K. pose proof (forall_spaces _ (forall_spaces _ (forall_spaces _ up_trans_checked a) b) c) as T. cbn beta in T.
  rewrite H, K in T. exact T.
Qed.
Lemma up_included a b : up a b = true <-> included a b.
Proof.
  split.
  - destruct a, b; intros H; try discriminate H; eauto 6 using included.
  - induction 1 as [s|s t u _ IH1 _ IH2| | | | | | | | |]; try reflexivity; [now destruct s|now apply (up_trans s t u)].
Qed.

(** The least upper bound. *)
Definition join (a b : sobolev) : sobolev := hd L2 (filter (fun c => up a c && up b c) spaces).
Lemma join_checked : forallb (fun a => forallb (fun b => forallb (fun c => Bool.eqb (up (join a b) c) (up a c && up b c)) spaces) spaces) spaces = true.
Proof. vm_compute. reflexivity. Qed.
Lemma up_join a b c : up (join a b) c = up a c && up b c.
Proof. apply eqb_prop. exact (forall_spaces _ (forall_spaces _ (forall_spaces _ join_checked a) b) c). Qed.
Lemma up_fold l : forall s c, up (fold_left join l s) c = forallb (fun t => up t c) (s :: l).
Proof.
  induction l as [|t l IH]; intros s c; cbn [fold_left]; [cbn; now rewrite andb_true_r|]. rewrite IH. cbn [forallb]. now rewrite up_join, andb_assoc.
Qed.
Lemma up_refl a : up a a = true.
Proof. now destruct a. Qed.

Definition pick (j s0 : sobolev) : result sobolev :=
  let intersect := filter (up j) (s0 :: parents s0) in
  match filter (fun s => negb (existsb (fun t => existsb (sobolev_eqb s) (parents t)) intersect)) intersect with
  | [s] => Ok s
  | _ => Err ValueError
  end.
Lemma pick_checked : forallb (fun s0 => forallb (fun j => implb (up s0 j) (match pick j s0 with Ok s => sobolev_eqb s j | Err _ => false end)) spaces) spaces = true.
Proof. vm_compute. reflexivity. Qed.
Lemma pick_join j s0 : up s0 j = true -> pick j s0 = Ok j.
Proof.
  intros U. pose proof (forall_spaces _ (forall_spaces _ pick_checked s0) j) as H. cbn beta in H. rewrite U in H. cbn [implb] in H.
  destruct (pick j s0) as [s|]; [|discriminate H]. apply sobolev_spec in H as ->. reflexivity.
Qed.
Lemma smallest_fold s l : smallest (s :: l) (fold_left join l s).
Proof.
  pose proof (up_fold l s (fold_left join l s)) as U. rewrite up_refl in U. symmetry in U. rewrite forallb_forall in U. split.
  - intros t I. apply up_included. now apply U.
  - intros u H. apply up_included. rewrite up_fold. apply forallb_forall. intros t I. apply up_included. now apply H.
Qed.
Lemma enriched_smallest l : l <> [] -> exists s, enriched_space l = Ok s /\ smallest l s.
Proof.
  destruct l as [|s0 l]; [now intros []|]. intros _. unfold enriched_space.
  destruct (forallb (sobolev_eqb s0) (s0 :: l)) eqn:E.
  - exists s0. split; [reflexivity|]. rewrite forallb_forall in E. split.
    + intros t I. apply E, sobolev_spec in I as <-. constructor.
    + intros u H. apply H. now left.
  - exists (fold_left join l s0). split; [|apply smallest_fold].
    rewrite <- (pick_join (fold_left join l s0) s0).
    + unfold pick. rewrite (filter_ext (fun s => forallb (existsb (sobolev_eqb s)) (map (fun s1 => s1 :: parents s1) (s0 :: l))) (up (fold_left join l s0))); [reflexivity|].
      intros c. now rewrite forallb_map, up_fold.
    + apply up_included. apply (smallest_fold s0 l). now left.
Qed.
Lemma predefined_all l : mapM predefined (map Predefined l) = Ok l.
Proof. induction l as [|s l IH]; [reflexivity|]. cbn [map mapM predefined bind]. now rewrite IH. Qed.
Lemma sequence_ok {A} (l : list A) : sequence (map (@Ok A) l) = Ok l.
Proof. unfold sequence. induction l as [|x l IH]; [reflexivity|]. cbn [map mapM bind]. now rewrite IH. Qed.
Lemma enriched_element nodal subs e l : mk_enriched nodal subs = Ok e -> map u_space subs = map (fun s => Ok (Predefined s)) l ->
  exists s, u_space e = Ok (Predefined s) /\ smallest l s.
Proof.
  intros H S. apply mk_enriched_inv in H as (a & e0 & rest & N & -> & _).
  destruct (enriched_smallest l) as (s & E & M). { intros ->. rewrite N in S. discriminate S. }
  exists s. split; [|exact M]. cbn [u_space]. rewrite S, <- (map_map Predefined (@Ok uspace)), sequence_ok. cbn [bind]. rewrite predefined_all. cbn [bind].
  now rewrite E.
Qed.

(** ** Replacing the sub-elements *)
Lemma zip_all l m : length l = length m -> forallb (fun ab => u_eqb (fst ab) (snd ab)) (zip l m) = true ->
  Forall2 (fun x y => u_eqb x y = true) l m.
Proof.
  revert m. induction l as [|x l IH]; intros [|y m] L H; try discriminate L; [constructor|]. cbn [zip forallb fst snd] in H.
  apply andb_true_iff in H as [H1 H2]. injection L as L. constructor; auto.
Qed.
Lemma eqb_refl e : u_eqb e e = true.
Proof. exact (proj1 Equality.eqb_equiv e). Qed.
Lemma reconstruct_elements e l e' : length l = length (u_subs e) -> reconstruct_from_elements e l = Ok e' ->
  Forall2 (fun x y => u_eqb x y = true) l (u_subs e').
Proof.
  intros L. unfold reconstruct_from_elements. destruct (forallb _ _) eqn:E; intros H.
  - injection H as <-. now apply zip_all.
  - apply mk_mixed_inv in H as (a & -> & _). cbn [u_subs]. clear. induction l as [|x l IH]; constructor; [apply eqb_refl|exact IH].
Qed.
