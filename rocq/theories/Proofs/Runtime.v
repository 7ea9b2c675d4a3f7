(** RuntimeTabulated: names and shapes of tables. *)
From Coq Require Import String Ascii List Arith Bool Lia DecimalString DecimalNat ZArith.
From Verif Require Import Model.Prelude Model.Gem Model.PointSet Model.Evaluation Model.Runtime.
From Verif Require Import Spec.Tabulation Proofs.GemEval.
Import ListNotations.

Lemma str_nat_inj m n : str_nat m = str_nat n -> m = n.
Proof.
  unfold str_nat. intros H. apply (f_equal NilEmpty.uint_of_string) in H. rewrite !NilEmpty.usu in H.
  injection H as H. apply (f_equal Nat.of_uint) in H. now rewrite !Unsigned.of_to in H.
Qed.

Notation chars := list_ascii_of_string.
Lemma chars_app s t : chars (s ++ t) = chars s ++ chars t.
Proof. induction s as [|c s IH]; cbn; [reflexivity|]. now rewrite IH. Qed.
Lemma chars_inj s t : chars s = chars t -> s = t.
Proof. intros H. rewrite <- (string_of_list_ascii_of_string s), H. apply string_of_list_ascii_of_string. Qed.

Definition bar : ascii := "_"%char.
Lemma digits_no_bar u : ~ In bar (chars (NilEmpty.string_of_uint u)).
Proof. induction u; cbn; [tauto|intros [H|H]; [discriminate H|contradiction]..]. Qed.
Lemma str_nat_no_bar n : ~ In bar (chars (str_nat n)).
Proof. apply digits_no_bar. Qed.

Lemma split_last {A} (x : A) l l' t t' : l ++ x :: t = l' ++ x :: t' -> ~ In x t -> ~ In x t' -> l = l' /\ t = t'.
Proof.
  revert l'. induction l as [|a l IH]; intros [|a' l'] H N N'; cbn in H.
  - injection H as ->. auto.
  - injection H as -> ->. destruct N. apply in_or_app. right. left. reflexivity.
  - injection H as -> <-. destruct N'. apply in_or_app. right. left. reflexivity.
  - injection H as -> H. destruct (IH l' H N N') as [-> ->]. auto.
Qed.
Lemma split_string s s' t t' : ~ In bar (chars t) -> ~ In bar (chars t') -> (s ++ "_" ++ t = s' ++ "_" ++ t')%string -> s = s' /\ t = t'.
Proof.
  intros N N' H. apply (f_equal chars) in H. rewrite !chars_app in H. cbn in H.
  destruct (split_last _ _ _ _ _ H N N') as [A B]. split; apply chars_inj; assumption.
Qed.
Lemma append_assoc s t u : (s ++ (t ++ u) = (s ++ t) ++ u)%string.
Proof. induction s as [|c s IH]; cbn; [reflexivity|]. now rewrite IH. Qed.
Lemma concat_one s : String.concat "" [s] = s.
Proof. reflexivity. Qed.

Theorem names_differ e e' a a' : length a = 1 -> length a' = 1 -> rt_name e a = rt_name e' a' -> e = e' /\ a = a'.
Proof.
  destruct a as [|n [|]]; try discriminate. destruct a' as [|n' [|]]; try discriminate. intros _ _.
  unfold rt_name. cbn [map]. rewrite !concat_one. intros H.
  set (r1 := match rt_restriction e with Whole => ""%string | Plus => _ | Minus => _ end) in H.
  set (r2 := match rt_restriction e' with Whole => ""%string | Plus => _ | Minus => _ end) in H.
  set (c1 := if rt_continuous e then "c"%string else _) in H.
  set (c2 := if rt_continuous e' then "c"%string else _) in H.
  rewrite !append_assoc in H. rewrite <- !(append_assoc _ "_" _) in H.
  assert (R : forall s, ~ In bar (chars match s with Whole => "" | Plus => "p" | Minus => "m" end)) by (intros []; cbn; intuition discriminate).
  assert (C : forall b : bool, ~ In bar (chars (if b then "c" else "d"))) by (intros []; cbn; intuition discriminate).
  apply split_string in H as [H Hr]; [|apply R|apply R].
  apply split_string in H as [H Hc]; [|apply C|apply C].
  apply split_string in H as [H Hs]; [|apply str_nat_no_bar|apply str_nat_no_bar].
  apply split_string in H as [H Ha]; [|apply str_nat_no_bar|apply str_nat_no_bar].
  apply split_string in H as [Hv Hd]; [|apply str_nat_no_bar|apply str_nat_no_bar].
  apply str_nat_inj in Hs, Ha, Hd. apply (f_equal chars) in Hv. cbn in Hv. injection Hv as Hv. apply chars_inj in Hv. subst r1 r2 c1 c2. destruct e as [d v s r c], e' as [d' v' s' r' c']. cbn in *. subst.
  assert (r = r') as -> by (destruct r, r'; cbn in Hr; congruence).
  assert (c = c') as -> by (destruct c, c'; cbn in Hc; congruence). auto.
Qed.

Lemma keys_1 order : flat_map (mis 1) (seq 0 (order + 1)) = map (fun d => [d]) (seq 0 (order + 1)).
Proof. induction (seq 0 (order + 1)) as [|d l IH]; [reflexivity|].
  change ([d] :: flat_map (mis 1) l = [d] :: map (fun d => [d]) l). now rewrite IH.
Qed.

Theorem runtime_tables F (e : runtime) order (ps : pset F) n : (forall i, In i (ps_indices ps) -> ix_id i < n) ->
  exists ts n', rt_basis_evaluation e order ps n = Ok (ts, n') /\ n <= n' /\ derivative_keys 1 order (map fst ts) /\
    forall alpha g, In (alpha, g) ts -> gshape g = [rt_degree e + 1] /\ incl (gfree g) (map ix_id (ps_indices ps)) /\
      forall o vars env i, eval o vars g env [i] = vars (rt_name e alpha) (map (fun j => env (ix_id j)) (ps_indices ps) ++ [i]).
Proof.
  intros Hn. unfold rt_basis_evaluation. rewrite keys_1.
  assert (K : derivative_keys 1 order (map (fun d => [d]) (seq 0 (order + 1)))).
  { split.
    - apply FinFun.Injective_map_NoDup; [intros x y H; congruence|apply seq_NoDup].
    - intros alpha. rewrite in_map_iff. split.
      + intros (d & <- & H). apply in_seq in H. cbn. lia.
      + intros [L S]. destruct alpha as [|d [|]]; try discriminate. exists d. split; [reflexivity|]. apply in_seq. cbn in S. lia. }
  assert (G : forall l m, n <= m -> exists ts m',
    mapF (fun alpha => fbind (partial_indexed (GVariable (rt_name e alpha) (map ix_extent (ps_indices ps) ++ [rt_space_dimension e])) (ps_indices ps))
            (fun x => fret (alpha, x))) l m = Ok (ts, m') /\ m <= m' /\ map fst ts = l /\
    forall alpha g, In (alpha, g) ts -> gshape g = [rt_degree e + 1] /\ incl (gfree g) (map ix_id (ps_indices ps)) /\
      forall (o : ops F) vars env i, eval o vars g env [i] = vars (rt_name e alpha) (map (fun j => env (ix_id j)) (ps_indices ps) ++ [i])).
  { induction l as [|alpha l IH]; intros m Hm.
    - exists [], m. split; [reflexivity|]. split; [lia|]. split; [reflexivity|]. intros ? ? [].
    - destruct (partial_indexed_ok F (GVariable (rt_name e alpha) (map ix_extent (ps_indices ps) ++ [rt_space_dimension e])) (ps_indices ps) [rt_space_dimension e] m)
        as (v & m1 & E1 & L1 & S1 & F1 & V1); [reflexivity|intros x []|intros i Hi; specialize (Hn i Hi); lia|].
      destruct (IH m1) as (ts & m' & E & L & Kt & V); [lia|].
      exists ((alpha, v) :: ts), m'. split.
      { cbn [mapF]. unfold fbind at 1 2. rewrite E1. unfold fret at 1. unfold fbind at 1. rewrite E. reflexivity. }
      split; [lia|]. split; [cbn; now rewrite Kt|].
      intros alpha' g [H|H]; [|exact (V alpha' g H)]. injection H as <- <-. split; [exact S1|]. split.
      + intros x Hx. apply F1 in Hx as [[]|Hx]. exact Hx.
      + intros o vars env i. rewrite (V1 o vars env [i]) by reflexivity. reflexivity. }
  destruct (G (map (fun d => [d]) (seq 0 (order + 1))) n) as (ts & n' & E & L & Kt & V); [lia|].
  exists ts, n'. rewrite Kt. auto.
Qed.

Theorem runtime_init line d v s r c : (exists e, mk_runtime line d v s r c = Ok e) <->
  line = true /\ v <> None /\ (r = None \/ r = Some "+"%string \/ r = Some "-"%string).
Proof.
  unfold mk_runtime. destruct line; cbn [guard bind].
  2:{ split; [intros [e H]; discriminate H|intros [H _]; discriminate H]. }
  destruct v as [v|].
  2:{ split; [intros [e H]; discriminate H|intros (_ & H & _); congruence]. }
  destruct r as [r|]; cbn [bind].
  2:{ split; [intros _|intros _; eexists; reflexivity]. repeat split; [discriminate|auto]. }
  destruct (String.eqb_spec r "+") as [->|Np]; cbn [bind].
  { split; [intros _|intros _; eexists; reflexivity]. repeat split; [discriminate|auto]. }
  destruct (String.eqb_spec r "-") as [->|Nm]; cbn [bind].
  { split; [intros _|intros _; eexists; reflexivity]. repeat split; [discriminate|auto]. }
  split; [intros [e H]; discriminate H|]. intros (_ & _ & [H|[H|H]]); congruence.
Qed.

Theorem names_point_sets : exists (e : runtime) (ps ps' : pset Z) sh sh' g g' n n',
  rt_basis_evaluation e 0 ps 2 = Ok ([([0], g)], n) /\ rt_basis_evaluation e 0 ps' 2 = Ok ([([0], g')], n') /\
  (exists mi js, g = GComponentTensor (GIndexed (GVariable (rt_name e [0]) sh) mi) js) /\
  (exists mi js, g' = GComponentTensor (GIndexed (GVariable (rt_name e [0]) sh') mi) js) /\ sh <> sh'.
Proof.
  exists (mkRuntime 1 "gl" 0 Whole true), (PPoints PGeneric 1 [[1%Z]; [2%Z]] [(0, 2)]), (PPoints PGeneric 1 [[1%Z]; [2%Z]; [3%Z]] [(1, 3)]), [2; 2], [3; 2].
  eexists _, _, _, _. split; [reflexivity|]. split; [reflexivity|].
  split; [eexists _, _; reflexivity|]. split; [eexists _, _; reflexivity|discriminate].
Qed.

Theorem runtime_outcome line d v s r c :
  (line = false -> mk_runtime line d v s r c = Err NotImplementedError) /\
  (line = true -> v = None -> mk_runtime line d v s r c = Err AssertionError) /\
  (line = true -> forall t, r = Some t -> t <> "+"%string -> t <> "-"%string -> mk_runtime line d v s r c = Err AssertionError) /\
  (forall e, mk_runtime line d v s r c = Ok e ->
     rt_degree e = d /\ v = Some (rt_variant e) /\ rt_shift_axes e = s /\ rt_continuous e = c /\
     r = match rt_restriction e with Whole => None | Plus => Some "+"%string | Minus => Some "-"%string end).
Proof.
  unfold mk_runtime. destruct line; cbn [guard bind]; [|repeat split; congruence].
  destruct v as [v|]; [|repeat split; congruence]. split; [discriminate|]. split; [discriminate|]. split.
  - intros _ t -> Np Nm. destruct (String.eqb_spec t "+") as [E|_]; [congruence|]. destruct (String.eqb_spec t "-") as [E|_]; [congruence|]. reflexivity.
  - intros e. destruct r as [t|]; cbn [bind]; [|intros H; injection H as <-; repeat split].
    destruct (String.eqb_spec t "+") as [->|Np]; cbn [bind]; [intros H; injection H as <-; repeat split|].
    destruct (String.eqb_spec t "-") as [->|Nm]; cbn [bind]; [intros H; injection H as <-; repeat split|discriminate].
Qed.
