(** Elements made again from the same data. *)
From Coq Require Import Ascii String List ZArith Arith Bool Lia.
From Verif Require Import Model.Prelude Model.Registry Model.UflElement Spec.Registry Spec.UflElement.
From Verif Require Import Proofs.Lists Proofs.Canonical Proofs.Repr Proofs.Equality.
Import ListNotations.
Open Scope string_scope.
Opaque builtins registered.

Definition twins (a b : uel) : Prop := u_attrs a = u_attrs b.

Lemma flat_map_map {A B C} (f : A -> B) (g : B -> list C) l : flat_map g (map f l) = flat_map (fun x => g (f x)) l.
Proof. induction l; cbn; congruence. Qed.
Lemma forallb_map {A B} (f : A -> B) (p : B -> bool) l : forallb p (map f l) = forallb (fun x => p (f x)) l.
Proof. induction l; cbn; congruence. Qed.
Lemma mapM_map {A B C} (f : A -> B) (g : B -> result C) l : mapM g (map f l) = mapM (fun x => g (f x)) l.
Proof. induction l as [|x l IH]; cbn [map mapM]; [reflexivity|]. now rewrite IH. Qed.
Lemma twins_map l l' : Forall2 twins l l' -> map u_attrs l = map u_attrs l'.
Proof. apply Forall2_map_eq. Qed.
Lemma repeat_map {A B} (f : A -> B) x n : map f (repeat x n) = repeat (f x) n.
Proof. induction n; cbn; congruence. Qed.

(** ** The attributes depend on those of the sub-elements only *)
Definition mixed_attrs_of (l : list attrs) (shape : option (list nat)) : result attrs :=
  let cells := flat_map (fun a => match at_cell a with None => [] | Some c => [c] end) l in
  do cell <- match cells with
             | [] => Ok None
             | c :: r => do! guard (forallb (ucell_eqb c) r) ValueError ;; Ok (Some c)
             end ;;
  do scheme <- match l with
               | [] => Ok None
               | a :: _ =>
                   do! guard (forallb (fun a' => opt_eqb String.eqb (at_scheme a') (at_scheme a)) l) ValueError ;;
                   Ok (at_scheme a)
               end ;;
  let shape := match shape with Some s => s | None => [sum (map (fun a => prod (at_shape a)) l)] end in
  let degrees := filter (fun d => negb (deg_eqb d DNone)) (map at_degree l) in
  do degree <- match degrees with [] => Ok DNone | _ => max_degree degrees end ;;
  Ok (mkAttrs "Mixed" cell degree scheme shape).
Lemma mixed_attrsE l s : mixed_attrs l s = mixed_attrs_of (map u_attrs l) s.
Proof.
  unfold mixed_attrs, mixed_attrs_of. rewrite flat_map_map, !map_map.
  destruct l as [|e l]; [reflexivity|]. cbn [map]. rewrite <- (map_cons u_attrs e l), forallb_map. reflexivity.
Qed.
Lemma mixed_attrs_cong l l' s : map u_attrs l = map u_attrs l' -> mixed_attrs l s = mixed_attrs l' s.
Proof. intros H. now rewrite !mixed_attrsE, H. Qed.

Lemma mk_mixed_cong l l' a : map u_attrs l = map u_attrs l' -> mk_mixed l = Ok (UMixed a l) -> mk_mixed l' = Ok (UMixed a l').
Proof.
  intros T. unfold mk_mixed. rewrite (mixed_attrs_cong l l' None T). intros H. binds H. cbn [bind]. now injection H as ->.
Qed.
Lemma mk_vector_cong s s' n a : twins s s' -> mk_vector s (Some n) = Ok (UVector a s n) -> mk_vector s' (Some n) = Ok (UVector a s' n).
Proof.
  unfold twins. intros T. unfold mk_vector, u_shape, u_cell, u_degree, u_scheme. rewrite <- T. cbn [bind].
  rewrite (mixed_attrs_cong (repeat s n) (repeat s' n)) by (rewrite !repeat_map; congruence). intros H. binds H. cbn [bind].
  injection H as <-. reflexivity.
Qed.
Lemma mk_tensor_cong s s' sh sa sy t n a : twins s s' -> mk_tensor s (Some sh) sa = Ok (UTensor a s sh sy t n) ->
  mk_tensor s' (Some sh) sa = Ok (UTensor a s' sh sy t n).
Proof.
  unfold twins. intros T. unfold mk_tensor. cbn [bind]. destruct (symmetry_of sh sa) as [y|]; [|discriminate]. cbn [bind].
  destruct (check_symmetry sh y); [|discriminate]. cbn [bind]. destruct (number_free y (compute_indices sh)) as [d m].
  destruct (number_symmetric y (compute_indices sh) d); [|discriminate]. cbn [bind].
  unfold u_shape, u_cell, u_degree, u_scheme. rewrite <- T.
  rewrite (mixed_attrs_cong (repeat s m) (repeat s' m)) by (rewrite !repeat_map; congruence). intros H. binds H. cbn [bind].
  injection H as <- -> -> ->. reflexivity.
Qed.
Lemma mk_tensor_product_cong l l' c a : map u_attrs l = map u_attrs l' -> mk_tensor_product l (Some c) = Ok (UTensorProduct a l c) ->
  mk_tensor_product l' (Some c) = Ok (UTensorProduct a l' c).
Proof.
  intros T. assert (D : map u_degree l = map u_degree l').
  { unfold u_degree. now rewrite <- (map_map u_attrs at_degree), T, map_map. }
  assert (S : flat_map u_shape l = flat_map u_shape l').
  { unfold u_shape. now rewrite <- (flat_map_map u_attrs at_shape), T, flat_map_map. }
  unfold mk_tensor_product. destruct l as [|x l], l' as [|x' l']; try discriminate. cbn [bind].
  rewrite <- D, <- S. intros H. binds H. cbn [bind]. injection H as <-. reflexivity.
Qed.

Definition enriched_attrs_of (nodal : bool) (elements : list attrs) : result attrs :=
  match elements with
  | [] => Err IndexError
  | e0 :: rest =>
      let cell := at_cell e0 in
      do! guard (forallb (fun e => opt_eqb ucell_eqb (at_cell e) cell) rest) ValueError ;;
      do degree <- match at_degree e0 with
                   | DInt _ => py_max (filter (fun d => negb (deg_eqb d DNone)) (map at_degree elements))
                   | _ =>
                       do rows <- mapM (fun e => match at_degree e with DTuple l => Ok l | _ => Err TypeError end) elements ;;
                       do l <- mapM py_max (columns (length (hd [] rows)) rows) ;;
                       Ok (DTuple l)
                   end ;;
      let schemes := flat_map (fun e => match at_scheme e with None => [] | Some s => [s] end) elements in
      let scheme := match schemes with [] => None | s :: _ => Some s end in
      do! guard (forallb (fun s => opt_eqb String.eqb (Some s) scheme) schemes) ValueError ;;
      let shape := at_shape e0 in
      do! guard (forallb (fun e => list_eqb Nat.eqb (at_shape e) shape) rest) ValueError ;;
      let class := if nodal then "NodalEnrichedElement" else "EnrichedElement" in
      Ok (mkAttrs class cell degree scheme shape)
  end.
Lemma mk_enrichedE nodal l : mk_enriched nodal l = do a <- enriched_attrs_of nodal (map u_attrs l) ;; Ok (UEnriched nodal a l).
Proof.
  unfold mk_enriched, enriched_attrs_of. destruct l as [|e l]; [reflexivity|]. cbn [map]. rewrite <- (map_cons u_attrs e l).
  rewrite !forallb_map, flat_map_map, mapM_map, map_map.
  change (fun x => at_degree (u_attrs x)) with u_degree. change (at_degree (u_attrs e)) with (u_degree e).
  change (at_cell (u_attrs e)) with (u_cell e). change (at_shape (u_attrs e)) with (u_shape e).
  change (fun e' => opt_eqb ucell_eqb (at_cell (u_attrs e')) (u_cell e)) with (fun e' => opt_eqb ucell_eqb (u_cell e') (u_cell e)).
  destruct (guard (forallb (fun e' => opt_eqb ucell_eqb (u_cell e') (u_cell e)) l) ValueError); [|reflexivity]. cbn [bind].
  change (fun x => match at_degree (u_attrs x) with DTuple l0 => Ok l0 | _ => Err TypeError end)
    with (fun x => match u_degree x with DTuple l0 => Ok l0 | _ => Err TypeError end).
  match goal with |- bind ?x _ = bind (bind ?y _) _ => change y with x; destruct x; [|reflexivity] end. cbn [bind].
  match goal with |- bind ?x _ = bind (bind ?y _) _ => change y with x; destruct x; [|reflexivity] end. cbn [bind].
  match goal with |- bind ?x _ = bind (bind ?y _) _ => change y with x; destruct x; [|reflexivity] end. reflexivity.
Qed.
Lemma mk_enriched_cong nodal l l' a : map u_attrs l = map u_attrs l' -> mk_enriched nodal l = Ok (UEnriched nodal a l) ->
  mk_enriched nodal l' = Ok (UEnriched nodal a l').
Proof. intros T. rewrite !mk_enrichedE, <- T. intros H. binds H. cbn [bind]. now injection H as ->. Qed.
Lemma wrapped_cong s s' : twins s s' -> wrapped_attrs s = wrapped_attrs s'.
Proof. unfold twins, wrapped_attrs, u_cell, u_degree, u_scheme. now intros ->. Qed.

(** ** Dictionaries *)
Lemma index_spec : forall a b : list nat, reflect (a = b) (index_eqb a b).
Proof. exact (list_eqb_spec _ _ nat_eqb_spec). Qed.
Definition keys {K V} (d : list (K * V)) : list K := map fst d.
Lemma dict_set_new {V} (d : list (list nat * V)) k v : ~ In k (keys d) -> dict_set index_eqb d k v = (d ++ [(k, v)])%list.
Proof.
  induction d as [|[k' v'] d IH]; [reflexivity|]. cbn [keys map fst In]. intros N. cbn [dict_set app].
  destruct (index_spec k k') as [->|_]; [now destruct N; left|]. rewrite IH; [reflexivity|]. intros I. apply N. now right.
Qed.
Lemma dict_set_nodup {V} (d : list (list nat * V)) k v : NoDup (keys d) -> NoDup (keys (dict_set index_eqb d k v)).
Proof.
  intros N. destruct (in_dec (list_eq_dec Nat.eq_dec) k (keys d)) as [I|I].
  - replace (keys (dict_set index_eqb d k v)) with (keys d); [exact N|]. clear N.
    induction d as [|[k' v'] d IH]; [destruct I|]. cbn [dict_set]. destruct (index_spec k k') as [->|M]; [reflexivity|].
    cbn [keys map fst]. f_equal. apply IH. destruct I as [E|I]; [now destruct M|exact I].
  - rewrite dict_set_new by exact I. unfold keys in *. rewrite map_app. cbn [map fst]. revert N I. generalize (map fst d). clear.
    intros l N I. apply NoDup_Add with (a := k) (l := l); [|now split]. rewrite <- (app_nil_r l) at 1. apply Add_app.
Qed.
Lemma dict_fold_self {V} (l : list (list nat * V)) : forall acc, NoDup (keys (acc ++ l)) ->
  fold_left (fun d ij => dict_set index_eqb d (fst ij) (snd ij)) l acc = (acc ++ l)%list.
Proof.
  induction l as [|[k v] l IH]; intros acc N; [now rewrite app_nil_r|]. cbn [fold_left fst snd].
  assert (E : (acc ++ (k, v) :: l)%list = ((acc ++ [(k, v)]) ++ l)%list) by (now rewrite <- app_assoc).
  rewrite dict_set_new; [|].
  - rewrite E in *. now apply IH.
  - unfold keys in N. rewrite map_app in N. cbn [map fst] in N. apply NoDup_remove_2 in N. intros I. apply N.
    apply in_app_iff. now left.
Qed.
Lemma dict_fold_nodup {V} (l : list (list nat * V)) : forall acc, NoDup (keys acc) ->
  NoDup (keys (fold_left (fun d ij => dict_set index_eqb d (fst ij) (snd ij)) l acc)).
Proof.
  induction l as [|[k v] l IH]; intros acc N; [exact N|]. cbn [fold_left fst snd]. now apply IH, dict_set_nodup.
Qed.
Lemma nodup_app {A} (l m : list A) : NoDup l -> NoDup m -> (forall x, In x l -> In x m -> False) -> NoDup (l ++ m)%list.
Proof.
  intros N M D. induction N as [|x l A1 N IH]; [exact M|]. cbn [app]. constructor.
  - rewrite in_app_iff. intros [J|J]; [now apply A1|]. exact (D x (or_introl eq_refl) J).
  - apply IH. intros y J K. exact (D y (or_intror J) K).
Qed.
Lemma auto_keys n : NoDup (keys (flat_map (fun i => flat_map (fun j => if Nat.ltb j i then [([i; j], [j; i])] else []) (seq 0 n)) (seq 0 n))).
Proof.
  assert (G : forall m s, NoDup (keys (flat_map (fun i => flat_map (fun j => if Nat.ltb j i then [([i; j], [j; i])] else []) (seq 0 n)) (seq s m)))).
  2: apply G.
  assert (R : forall i m s, NoDup (keys (flat_map (fun j => if Nat.ltb j i then [([i; j], [j; i])] else []) (seq s m))) /\
    forall k, In k (keys (flat_map (fun j => if Nat.ltb j i then [([i; j], [j; i])] else []) (seq s m))) -> exists j, k = [i; j] /\ s <= j).
  { intros i m. induction m as [|m IH]; intros s; cbn [seq flat_map].
    - split; [constructor|intros k []].
    - destruct (IH (S s)) as [N I]. destruct (Nat.ltb s i); cbn [app keys map fst].
      + split.
        * constructor; [|exact N]. intros J. apply I in J as (j & E & L). injection E as E. lia.
        * intros k [<-|J]; [eauto|]. apply I in J as (j & E & L). exists j. split; [exact E|lia].
      + split; [exact N|]. intros k J. apply I in J as (j & E & L). exists j. split; [exact E|lia]. }
  intros m. induction m as [|m IH]; intros s; cbn [seq flat_map]; [constructor|].
  unfold keys. rewrite map_app. destruct (R s n 0) as [N I].
  assert (D : forall k, In k (keys (flat_map (fun i => flat_map (fun j => if Nat.ltb j i then [([i; j], [j; i])] else []) (seq 0 n)) (seq (S s) m))) ->
    exists i j, k = [i; j] /\ S s <= i).
  { intros k J. unfold keys in J. apply in_map_iff in J as ([k' v'] & <- & J). apply in_flat_map in J as (i & Hi & J).
    apply in_seq in Hi. destruct (R i n 0) as [_ I']. assert (J' : In k' (keys (flat_map (fun j => if Nat.ltb j i then [([i; j], [j; i])] else []) (seq 0 n)))).
    { unfold keys. apply in_map_iff. now exists (k', v'). }
    apply I' in J' as (j & -> & _). exists i, j. split; [reflexivity|lia]. }
  apply nodup_app; [exact N|exact (IH (S s))|]. intros x J K. apply I in J as (j & -> & _). apply D in K as (i' & j' & E & L).
  injection E as E _. lia.
Qed.
Lemma symmetry_self sh s sy : symmetry_of sh s = Ok sy -> symmetry_of sh (SymDict sy) = Ok sy.
Proof.
  intros H. cbn [symmetry_of]. f_equal. apply (dict_fold_self sy []). cbn [app].
  destruct s as [| |l]; cbn [symmetry_of] in H.
  - injection H as <-. constructor.
  - destruct sh as [|m [|n [|]]]; try discriminate H. binds H. apply guard_true, Nat.eqb_eq in E as ->. injection H as <-. apply auto_keys.
  - injection H as <-. apply dict_fold_nodup. constructor.
Qed.

(** ** What each node is made of *)
Lemma mk_vector_self s dim n a : mk_vector s dim = Ok (UVector a s n) -> mk_vector s (Some n) = Ok (UVector a s n).
Proof.
  unfold mk_vector. intros H. destruct dim as [m|]; cbn [bind] in *.
  - binds H. injection H as <- <-. cbn [bind]. rewrite E. reflexivity.
  - destruct (u_cell s) as [c|]; [|discriminate H]. cbn [bind] in H. binds H. injection H as <- <-. rewrite E. reflexivity.
Qed.
Lemma mk_tensor_self s shape sa sh sy t n a : mk_tensor s shape sa = Ok (UTensor a s sh sy t n) ->
  mk_tensor s (Some sh) (SymDict sy) = Ok (UTensor a s sh sy t n).
Proof.
  intros H. unfold mk_tensor in *. destruct (match shape with Some sh => Ok sh | None => _ end) as [x|]; [|discriminate H]. cbn [bind] in *.
  destruct (symmetry_of x sa) as [y|] eqn:Y; [|discriminate H]. cbn [bind] in H.
  destruct (check_symmetry x y) eqn:C; [|discriminate H]. cbn [bind] in H.
  destruct (number_free y (compute_indices x)) as [d m] eqn:N.
  destruct (number_symmetric y (compute_indices x) d) eqn:M; [|discriminate H]. cbn [bind] in H.
  destruct (mixed_attrs _ _) eqn:A in H; [|discriminate H]. cbn [bind] in H. injection H as <- <- <- <- <-.
  rewrite (symmetry_self _ _ _ Y). cbn [bind]. rewrite C. cbn [bind]. rewrite N, M. cbn [bind]. rewrite A. reflexivity.
Qed.
Lemma mk_tensor_product_self l c cell a : mk_tensor_product l c = Ok (UTensorProduct a l cell) ->
  mk_tensor_product l (Some cell) = Ok (UTensorProduct a l cell).
Proof.
  unfold mk_tensor_product. destruct l as [|x l]; [discriminate|]. intros H. binds H. cbn [bind]. injection H as <- <-. reflexivity.
Qed.

(** Inversion of [built] at each class. *)
Definition made (e : uel) : Prop :=
  match e with
  | UFinite d c s v => exists f o k, mk_finite f c o k s v = Ok e
  | UMixed a l => Forall built l /\ mk_mixed l = Ok e
  | UVector a s n => built s /\ mk_vector s (Some n) = Ok e
  | UTensor a s sh sy t n => built s /\ mk_tensor s (Some sh) (SymDict sy) = Ok e
  | UTensorProduct a l c => Forall built l /\ mk_tensor_product l (Some c) = Ok e
  | UEnriched nodal a l => Forall built l /\ mk_enriched nodal l = Ok e
  | UHDiv a s => built s /\ mk_hdiv s = Ok e
  | UHCurl a s => built s /\ mk_hcurl s = Ok e
  | UWithMapping s m => built s /\ mk_with_mapping s m = Ok e
  | UBroken a s => built s /\ mk_broken s = Ok e
  | URestricted a s d => built s /\ mk_restricted s d = Ok e
  end.
Lemma built_made e : built e -> made e.
Proof.
  destruct 1 as [f c o k s v d c' s' v' H|es e B H|sub dim e B H|sub shape sym e B H|es c e B H|nodal es e B H
                 |sub e B H|sub e B H|sub m e B H|sub e B H|sub dom e B H].
  - pose proof H as H'. apply mk_finite_plain, plain_finite_inv in H' as (d0 & E & _). injection E as -> -> -> ->. cbn [made]. eauto.
  - pose proof H as H'. apply mk_mixed_inv in H' as (a & -> & _). now split.
  - pose proof H as H'. apply mk_vector_inv in H' as (n & a & -> & _). split; [exact B|]. now apply (mk_vector_self _ dim).
  - pose proof H as H'. apply mk_tensor_inv in H' as (a & sh & sy & t & n & -> & _). split; [exact B|]. now apply (mk_tensor_self _ shape sym).
  - pose proof H as H'. apply mk_tensor_product_inv in H' as (cell & -> & _). split; [exact B|]. now apply (mk_tensor_product_self _ c).
  - pose proof H as H'. apply mk_enriched_inv in H' as (a & e0 & rest & _ & -> & _). now split.
  - pose proof H as H'. apply mk_hdiv_inv in H' as (a & -> & _). now split.
  - pose proof H as H'. apply mk_hcurl_inv in H' as (a & -> & _). now split.
  - pose proof H as H'. apply mk_with_mapping_inv in H' as [-> _]. now split.
  - pose proof H as H'. apply mk_broken_inv in H' as ->. now split.
  - pose proof H as H'. apply mk_restricted_inv in H' as [-> _]. now split.
Qed.

(** ** Elements of the same data *)
Lemma describe_some f c o k d : describe_name f c o k = Ok d -> canonical builtins 3 f c o k = Some (Ok d).
Proof. unfold describe_name. destruct (canonical builtins 3 f c o k) as [r|]; congruence. Qed.
Lemma described_same f c o k d f' o' k' d' : describe_name f c o k = Ok d -> describe_name f' c o' k' = Ok d' ->
  ds_family d = ds_family d' -> ds_order d = ds_order d' -> same_element d d'.
Proof.
  intros H H' F O. apply describe_some, canonical_again in H as (x & H & S & _).
  apply describe_some, canonical_again in H' as (x' & H' & S' & _). rewrite F, O, H' in H. assert (x = x') as -> by congruence.
  unfold same_element in *. intuition congruence.
Qed.

Definition agree (a b : uel) : Prop := u_attrs a = u_attrs b /\ u_mapping a = u_mapping b /\ u_space a = u_space b.
Lemma agree_maps l l' : Forall2 agree l l' -> map u_attrs l = map u_attrs l' /\ map u_mapping l = map u_mapping l' /\
  map u_space l = map u_space l' /\ map u_cell l = map u_cell l'.
Proof.
  induction 1 as [|x y l l' (A & M & S) F (IA & IM & IS & IC)]; cbn [map]; [auto|]. repeat split; try congruence.
  f_equal; [unfold u_cell; congruence|exact IC].
Qed.
Lemma same_agree a b : same a b -> built a -> built b -> agree a b.
Proof.
  induction 1 as [d d' c s v F O|a a' l l' F IH|a a' e e' n h IH|a a' e e' sh sy t t' n n' h IH|a a' l l' c F IH|nodal a a' l l' F IH
                 |a a' e e' h IH|a a' e e' h IH|e e' m h IH|a a' e e' h IH|a a' e e' d h IH] using same_ind';
    intros A B; apply built_made in A, B; cbn [made] in A, B.
  - destruct A as (f & o & k & A), B as (f' & o' & k' & B).
    apply mk_finite_plain, plain_finite_inv in A as (x & E & A & _). injection E as <-.
    apply mk_finite_plain, plain_finite_inv in B as (x & E & B & _). injection E as <-.
    destruct (described_same _ _ _ _ _ _ _ _ _ A B F O) as (_ & _ & S1 & S2 & S3 & _).
    repeat split; cbn [u_attrs u_mapping u_space]; congruence.
  - destruct A as [A HA], B as [B HB].
    assert (G : Forall2 agree l l').
    { clear -IH A B. induction IH as [|x y l l' H IH IHl]; [constructor|]. inversion A; inversion B; subst. constructor; auto. }
    destruct (agree_maps _ _ G) as (GA & GM & GS & _). apply (mk_mixed_cong l l' a GA) in HA. rewrite HA in HB. injection HB as ->.
    repeat split. cbn [u_mapping]. now rewrite <- !(forallb_map u_mapping (fun s => String.eqb s "identity")), GM.
  - destruct A as [A HA], B as [B HB]. destruct (IH A B) as (GA & GM & GS).
    apply (mk_vector_cong e e' n a GA) in HA. rewrite HA in HB. injection HB as ->. repeat split. exact GM.
  - destruct A as [A HA], B as [B HB]. destruct (IH A B) as (GA & GM & GS).
    apply (mk_tensor_cong e e' _ _ _ _ _ _ GA) in HA. rewrite HA in HB. injection HB as -> -> ->. repeat split. cbn [u_mapping]. now rewrite GM.
  - destruct A as [A HA], B as [B HB].
    assert (G : Forall2 agree l l').
    { clear -IH A B. induction IH as [|x y l l' H IH IHl]; [constructor|]. inversion A; inversion B; subst. constructor; auto. }
    destruct (agree_maps _ _ G) as (GA & GM & GS & GC). apply (mk_tensor_product_cong l l' c a GA) in HA. rewrite HA in HB. injection HB as ->.
    split; [reflexivity|]. cbn [u_mapping u_space]. split.
    + now rewrite <- !(forallb_map u_mapping (fun s => String.eqb s "identity")), <- !(forallb_map u_mapping (fun s => String.eqb s "L2 Piola")), GM.
    + rewrite GS. destruct (sequence (map u_space l')) as [ss|]; [|reflexivity]. cbn [bind].
      destruct (mapM predefined ss) as [ps|]; [|reflexivity]. cbn [bind]. destruct ps as [|s0 ps]; [reflexivity|].
      destruct (forallb (sobolev_eqb s0) (s0 :: ps)); [reflexivity|]. do 2 f_equal.
      set (qs := s0 :: ps). clearbody qs. clear -GC. revert qs l' GC. induction l as [|x l IHl]; intros qs [|y l'] GC; try discriminate GC.
      * reflexivity.
      * injection GC as GX GC. destruct qs as [|q qs]; [reflexivity|]. cbn [map2]. rewrite GX. f_equal. now apply IHl.
  - destruct A as [A HA], B as [B HB].
    assert (G : Forall2 agree l l').
    { clear -IH A B. induction IH as [|x y l l' H IH IHl]; [constructor|]. inversion A; inversion B; subst. constructor; auto. }
    destruct (agree_maps _ _ G) as (GA & GM & GS & _). apply (mk_enriched_cong nodal l l' a GA) in HA. rewrite HA in HB. injection HB as ->.
    split; [reflexivity|]. cbn [u_mapping u_space]. split.
    + destruct l, l'; try discriminate GM; [reflexivity|]. now injection GM.
    + now rewrite GS.
  - destruct A as [A HA], B as [B HB]. destruct (IH A B) as (GA & GM & GS). unfold mk_hdiv in *. rewrite (wrapped_cong _ _ GA) in HA.
    binds HB. cbn [bind] in HA. injection HB as ->. injection HA as ->. repeat split.
  - destruct A as [A HA], B as [B HB]. destruct (IH A B) as (GA & GM & GS). unfold mk_hcurl in *. rewrite (wrapped_cong _ _ GA) in HA.
    binds HB. cbn [bind] in HA. injection HB as ->. injection HA as ->. repeat split.
  - destruct A as [A HA], B as [B HB]. destruct (IH A B) as (GA & GM & GS). repeat split.
    + cbn [u_attrs]. now rewrite GA.
    + cbn [u_space]. now rewrite GM, GS.
  - destruct A as [A HA], B as [B HB]. destruct (IH A B) as (GA & GM & GS). apply mk_broken_inv in HA, HB.
    unfold u_cell, u_degree, u_scheme, u_shape in HA, HB. rewrite GA in HA. assert (a = a') as <- by congruence. repeat split. exact GM.
  - destruct A as [A HA], B as [B HB]. destruct (IH A B) as (GA & GM & GS). apply mk_restricted_inv in HA as [HA _], HB as [HB _].
    unfold u_cell, u_degree, u_scheme, u_shape in HA, HB. rewrite GA in HA. assert (a = a') as <- by congruence. repeat split; [exact GM|]. cbn [u_space]. now rewrite GS.
Qed.

(** ** Everything FiniteElement returns is built *)
Lemma plain_built f c o k s v e : mk_finite f c o k s v = Ok e -> (exists d c' s' v', e = UFinite d c' s' v') -> built e.
Proof. intros H (d & c' & s' & v' & ->). exact (built_finite _ _ _ _ _ _ _ _ _ _ H). Qed.
Lemma kind_built f k o v e : on_kind f k o v = Ok e -> built e.
Proof.
  intros H. apply (plain_built f (Some (Named k)) o None None v); [exact H|]. apply plain_finite_inv in H as (d & -> & _). eauto.
Qed.
Lemma two_forall {A} (P : A -> Prop) x y : P x -> P y -> Forall P [x; y].
Proof. auto. Qed.
Lemma sequence_forall {A} (P : A -> Prop) l r : Forall (fun x => forall y, x = Ok y -> P y) l -> sequence l = Ok r -> Forall P r.
Proof.
  intros F. revert r. induction F as [|x l H F IH]; intros r S; unfold sequence in *; cbn [mapM] in S.
  - injection S as <-. constructor.
  - destruct x as [x|]; [|discriminate S]. cbn [bind] in S. binds S. injection S as <-. constructor; [now apply H|now apply IH].
Qed.
Lemma finite_on_built : forall c f o k s v e, finite_on f c o k s v = Ok e -> built e.
Proof.
  intros c. induction c as [n|cs IH] using ucell_ind'; intros f o k s v e H.
  - apply (plain_built f (Some (Named n)) o k s v); [exact H|]. apply plain_finite_inv in H as (d & -> & _). eauto.
  - pose proof H as W. cbn [finite_on] in H. destruct (describe_name f (Some (ProductCell cs)) o k) as [d|] eqn:D; [|discriminate H]. cbn [bind] in H.
    assert (Fac : forall g r, sequence (map (fun c' => finite_on (g c') c' (ds_order d) None None v) cs) = Ok r -> Forall built r).
    { intros g r. apply sequence_forall. apply Forall_forall. intros x I y ->. apply in_map_iff in I as (c' & E & I).
      rewrite Forall_forall in IH. exact (IH c' I _ _ _ _ _ _ E). }
    destruct (String.eqb (ds_family d) "RTCF" || String.eqb (ds_family d) "RTCE").
    { binds H. apply kind_built in E0, E2. apply built_tensor_product in E3; [|auto]. apply built_tensor_product in E4; [|auto].
      apply built_enriched in H; [exact H|]. destruct (String.eqb (ds_family d) "RTCF").
      - apply built_hdiv in E5, E6; auto.
      - apply built_hcurl in E5, E6; auto. }
    destruct (String.eqb (ds_family d) "NCF").
    { binds H. repeat match goal with K : on_kind _ _ _ _ = Ok _ |- _ => apply kind_built in K end.
      repeat match goal with K : mk_tensor_product _ _ = Ok _ |- _ => apply built_tensor_product in K; [|now auto] end.
      repeat match goal with K : mk_hdiv _ = Ok _ |- _ => apply built_hdiv in K; [|now auto] end.
      apply built_enriched in H; auto. }
    destruct (String.eqb (ds_family d) "NCE").
    { binds H. repeat match goal with K : on_kind _ _ _ _ = Ok _ |- _ => apply kind_built in K end.
      repeat match goal with K : mk_tensor_product _ _ = Ok _ |- _ => apply built_tensor_product in K; [|now auto] end.
      repeat match goal with K : mk_hcurl _ = Ok _ |- _ => apply built_hcurl in K; [|now auto] end.
      apply built_enriched in H; auto. }
    destruct (String.eqb (ds_family d) "Q"). { binds H. apply built_tensor_product in H; [exact H|]. exact (Fac _ _ E). }
    destruct (String.eqb (ds_family d) "DQ"). { binds H. apply built_tensor_product in H; [exact H|]. exact (Fac _ _ E). }
    destruct (String.eqb (ds_family d) "DQ L2"). { binds H. apply built_tensor_product in H; [exact H|]. exact (Fac _ _ E). }
    apply (plain_built f (Some (ProductCell cs)) o k s v); [exact W|]. apply plain_finite_inv in H as (x & -> & _). eauto.
Qed.
Lemma mk_finite_built f c o k s v e : mk_finite f c o k s v = Ok e -> built e.
Proof.
  destruct c as [c|]; [apply finite_on_built|]. intros H. apply (plain_built f None o k s v); [exact H|].
  apply plain_finite_inv in H as (d & -> & _). eauto.
Qed.

(** ** Reconstruction *)
Lemma describe_again f c o k d : describe_name f c o k = Ok d -> exists d', describe_name (ds_family d) c (ds_order d) None = Ok d' /\ same_element d d'.
Proof.
  intros H. apply describe_some, canonical_again in H as (x & H & S & _). exists x. split; [|exact S].
  unfold describe_name.
  rewrite (canonical_more builtins 1 3 _ _ _ _ _ ltac:(lia) H). reflexivity.
Qed.
Lemma finite_repr_same d d' c s v : ds_family d = ds_family d' -> ds_order d = ds_order d' -> finite_repr d c s v = finite_repr d' c s v.
Proof. unfold finite_repr. congruence. Qed.
Lemma plain_again f c o k s v d : plain_finite f c o k s v = Ok (UFinite d c s v) ->
  exists d', plain_finite (ds_family d) c (ds_order d) None s v = Ok (UFinite d' c s v) /\ same_element d d'.
Proof.
  intros H. apply plain_finite_inv in H as (x & E & H & Q). injection E as <-. apply describe_again in H as (d' & H & S).
  exists d'. split; [|exact S]. unfold plain_finite. rewrite H. cbn [bind].
  rewrite <- (finite_repr_same d d') by apply S. rewrite Q. reflexivity.
Qed.
Lemma finite_again f c o k s v d : mk_finite f c o k s v = Ok (UFinite d c s v) ->
  exists d', mk_finite (ds_family d) c (ds_order d) None s v = Ok (UFinite d' c s v) /\ same_element d d'.
Proof.
  intros H. pose proof H as P. apply mk_finite_plain in P. pose proof P as P'.
  apply plain_again in P as (d' & P & S). exists d'. split; [|exact S].
  apply plain_finite_inv in P' as (x & E & D & _). injection E as <-.
  destruct c as [[n|cs]|]; [exact P| |exact P]. cbn [mk_finite finite_on] in *. rewrite D in H. cbn [bind] in H.
  pose proof P as P2. apply plain_finite_inv in P2 as (x & E & D' & _). injection E as <-. rewrite D'. cbn [bind].
  destruct S as (F & O & _). rewrite <- F, <- O.
  assert (NE : forall es e, mk_enriched false es = Ok e -> forall d c s v, e <> UFinite d c s v).
  { intros es e K. apply mk_enriched_inv in K as (a & e0 & r & _ & -> & _). intros. discriminate. }
  assert (NP : forall es c e, mk_tensor_product es c = Ok e -> forall d c s v, e <> UFinite d c s v).
  { intros es c0 e K. apply mk_tensor_product_inv in K as (a & -> & _). intros. discriminate. }
  destruct (String.eqb (ds_family d) "RTCF" || String.eqb (ds_family d) "RTCE").
  { binds H. destruct (NE _ _ H _ _ _ _ eq_refl). }
  destruct (String.eqb (ds_family d) "NCF"). { binds H. destruct (NE _ _ H _ _ _ _ eq_refl). }
  destruct (String.eqb (ds_family d) "NCE"). { binds H. destruct (NE _ _ H _ _ _ _ eq_refl). }
  destruct (String.eqb (ds_family d) "Q"). { binds H. destruct (NP _ _ _ H _ _ _ _ eq_refl). }
  destruct (String.eqb (ds_family d) "DQ"). { binds H. destruct (NP _ _ _ H _ _ _ _ eq_refl). }
  destruct (String.eqb (ds_family d) "DQ L2"). { binds H. destruct (NP _ _ _ H _ _ _ _ eq_refl). }
  exact P.
Qed.

Definition remade (e e' : uel) : Prop := reconstruct no_kwargs e = Ok e' /\ same e e' /\ built e'.
Lemma remade_list l : Forall built l -> Forall (fun e => exists e', remade e e') l -> exists l',
  sequence (map (reconstruct no_kwargs) l) = Ok l' /\ Forall2 same l l' /\ Forall built l' /\ map u_attrs l = map u_attrs l'.
Proof.
  unfold sequence. intros B F. induction F as [|x l (x' & R & S & Bx) F IH]; cbn [map mapM]; [exists []; auto|].
  inversion B as [|? ? B1 B2]; subst. destruct (IH B2) as (l' & M & S' & B' & A). rewrite R, M. cbn [bind].
  exists (x' :: l'). repeat split; try constructor; auto. cbn [map]. f_equal; [|exact A]. exact (proj1 (same_agree x x' S B1 Bx)).
Qed.
Lemma reconstruct_same e : built e -> exists e', remade e e'.
Proof.
  intros B. induction B as [f c o k s v d c' s' v' H|es e B IH H|sub dim e B IH H|sub shape sym e B IH H|es c e B IH H|nodal es e B IH H
                 |sub e B IH H|sub e B IH H|sub m e B IH H|sub e B IH H|sub dom e B IH H] using built_ind'.
  - pose proof H as H'. apply mk_finite_plain, plain_finite_inv in H' as (d0 & E & _). injection E as <- -> -> ->.
    apply finite_again in H as (d' & H & S). exists (UFinite d' c s v). split; [exact H|]. split.
    + constructor; apply S.
    + exact (built_finite _ _ _ _ _ _ _ _ _ _ H).
  - destruct (remade_list es B IH) as (l' & M & S & B' & A). pose proof H as H'. apply mk_mixed_inv in H' as (a & -> & _).
    pose proof (mk_mixed_cong _ _ _ A H) as K. exists (UMixed a l'). unfold remade. cbn [reconstruct]. rewrite M. cbn [bind].
    split; [exact K|]. split; [now constructor|exact (built_mixed _ _ B' K)].
  - destruct IH as (s' & R & S & B'). pose proof H as H'. apply mk_vector_inv in H' as (n & a & E & _). rewrite E in H |- *. clear E a.
    apply mk_vector_self in H. apply (mk_vector_cong _ s') in H; [|exact (proj1 (same_agree _ _ S B B'))].
    eexists. unfold remade. cbn [reconstruct]. rewrite R. cbn [bind]. split; [exact H|]. split; [now constructor|exact (built_vector _ _ _ B' H)].
  - destruct IH as (s' & R & S & B'). pose proof H as H'. apply mk_tensor_inv in H' as (a & sh & sy & t & n & -> & _).
    apply mk_tensor_self in H. apply (mk_tensor_cong _ s') in H; [|exact (proj1 (same_agree _ _ S B B'))].
    eexists. unfold remade. cbn [reconstruct]. rewrite R. cbn [bind]. split; [exact H|]. split; [now constructor|exact (built_tensor _ _ _ _ B' H)].
  - destruct (remade_list es B IH) as (l' & M & S & B' & A). pose proof H as H'. apply mk_tensor_product_inv in H' as (cell & E & _).
    rewrite E in H |- *. clear E. apply mk_tensor_product_self in H. apply (mk_tensor_product_cong _ _ _ _ A) in H.
    eexists. unfold remade. cbn [reconstruct no_kwargs kw_family kw_cell kw_degree kw_scheme kw_variant kw_mapping or_else].
    fold no_kwargs. rewrite M. cbn [bind]. split; [exact H|]. split; [now constructor|exact (built_tensor_product _ _ _ B' H)].
  - destruct (remade_list es B IH) as (l' & M & S & B' & A). pose proof H as H'. apply mk_enriched_inv in H' as (a & e0 & rest & _ & -> & _).
    pose proof (mk_enriched_cong _ _ _ _ A H) as K. eexists. unfold remade. cbn [reconstruct]. rewrite M. cbn [bind].
    split; [exact K|]. split; [now constructor|exact (built_enriched _ _ _ B' K)].
  - destruct IH as (s' & R & S & B'). pose proof H as H'. apply mk_hdiv_inv in H' as (a & -> & W).
    rewrite (wrapped_cong _ s' (proj1 (same_agree _ _ S B B'))) in W. assert (K : mk_hdiv s' = Ok (UHDiv a s')) by (unfold mk_hdiv; now rewrite W).
    eexists. unfold remade. cbn [reconstruct]. rewrite R. cbn [bind]. split; [exact K|]. split; [now constructor|exact (built_hdiv _ _ B' K)].
  - destruct IH as (s' & R & S & B'). pose proof H as H'. apply mk_hcurl_inv in H' as (a & -> & W).
    rewrite (wrapped_cong _ s' (proj1 (same_agree _ _ S B B'))) in W. assert (K : mk_hcurl s' = Ok (UHCurl a s')) by (unfold mk_hcurl; now rewrite W).
    eexists. unfold remade. cbn [reconstruct]. rewrite R. cbn [bind]. split; [exact K|]. split; [now constructor|exact (built_hcurl _ _ B' K)].
  - destruct IH as (s' & R & S & B'). pose proof H as H'. apply mk_with_mapping_inv in H' as [-> N].
    assert (K : mk_with_mapping s' m = Ok (UWithMapping s' m)).
    { unfold mk_with_mapping. apply String.eqb_neq in N. now rewrite N. }
    eexists. unfold remade. cbn [reconstruct no_kwargs kw_family kw_cell kw_degree kw_scheme kw_variant kw_mapping or_else].
    fold no_kwargs. rewrite R. cbn [bind]. split; [exact K|]. split; [now constructor|exact (built_with_mapping _ _ _ B' K)].
  - destruct IH as (s' & R & S & B'). pose proof H as H'. apply mk_broken_inv in H' as ->.
    eexists. unfold remade. cbn [reconstruct]. rewrite R. cbn [bind]. split; [reflexivity|]. split; [now constructor|exact (built_broken _ _ B' eq_refl)].
  - destruct IH as (s' & R & S & B'). pose proof H as H'. apply mk_restricted_inv in H' as [-> I].
    eexists. unfold remade. cbn [reconstruct]. rewrite R. cbn [bind]. unfold mk_restricted in *. binds H. cbn [bind].
    split; [reflexivity|]. split; [now constructor|]. apply (built_restricted s' dom); [exact B'|]. unfold mk_restricted. rewrite E. reflexivity.
Qed.
