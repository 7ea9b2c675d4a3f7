(** Attributes of composite elements. *)
From Coq Require Import Ascii String List ZArith Arith Bool Lia.
From Verif Require Import Model.Prelude Model.Registry Model.UflElement Spec.UflElement Spec.Attributes.
From Verif Require Import Proofs.Lists Proofs.Repr Proofs.DegreeOrder.
Import ListNotations.
Open Scope list_scope.

(** ** Comparisons *)
Lemma ucell_eqb_eq : forall a b, ucell_eqb a b = true <-> a = b.
Proof.
  intros a. induction a as [k|l IH] using ucell_ind'; intros [k'|m]; cbn [ucell_eqb]; try (split; congruence).
  - unfold kind_eqb. rewrite String.eqb_eq. split; [|congruence]. intros H. f_equal. destruct k, k'; try discriminate H; reflexivity.
  - enough (H : (fix go (l m : list ucell) : bool :=
         match l, m with [], [] => true | x :: l, y :: m => ucell_eqb x y && go l m | _, _ => false end) l m = true <-> l = m).
    { rewrite H. split; congruence. }
    revert m. induction IH as [|x l Hx F IHl]; intros [|y m]; try (split; congruence).
    rewrite andb_true_iff, Hx, IHl. split; [intros [-> ->]; reflexivity|]. intros E. injection E as -> ->. auto.
Qed.
Lemma opt_eqb_eq {A} (eqb : A -> A -> bool) : (forall x y, eqb x y = true <-> x = y) -> forall a b, opt_eqb eqb a b = true <-> a = b.
Proof. intros H [x|] [y|]; cbn [opt_eqb]; try (split; congruence). rewrite H. split; congruence. Qed.
Lemma list_eqb_eq l m : list_eqb Nat.eqb l m = true <-> l = m.
Proof. destruct (list_eqb_spec _ _ nat_eqb_spec l m); split; congruence. Qed.
Lemma all_equal_head {A} (x : A) l : all_equal (x :: l) <-> Forall (fun y => y = x) l.
Proof.
  rewrite Forall_forall. split; intros H.
  - intros y Y. apply H; cbn; auto.
  - intros y z [<-|Y] [<-|Z]; auto; [symmetry; auto|]. rewrite (H y Y). symmetry. auto.
Qed.
Lemma defined_flat {A B} (f : A -> option B) (l : list A) :
  flat_map (fun e => match f e with None => [] | Some c => [c] end) l = defined (map f l).
Proof. induction l as [|x l IH]; [reflexivity|]. cbn [flat_map map defined]. rewrite IH. now destruct (f x). Qed.
Lemma forallb_cells c r : forallb (ucell_eqb c) r = true <-> all_equal (c :: r).
Proof.
  rewrite all_equal_head, forallb_forall, Forall_forall. split; intros H x X.
  - symmetry. now apply ucell_eqb_eq, H.
  - rewrite (H x X). now apply ucell_eqb_eq.
Qed.
Lemma forallb_same {A B} (eqb : B -> B -> bool) (f : A -> B) (E : forall x y, eqb x y = true <-> x = y) b l :
  forallb (fun e => eqb (f e) b) l = true <-> Forall (fun y => y = b) (map f l).
Proof.
  rewrite forallb_forall, Forall_forall. split; intros H x X.
  - apply in_map_iff in X as (y & <- & Y). now apply E, H.
  - apply E, H. now apply in_map.
Qed.

(** ** The degree of a mixed element *)
Definition deg (a : Z + list Z) : udeg := match a with inl z => DInt z | inr zs => DTuple (map DInt zs) end.
Lemma ints_ok l zs : mapM (fun x => match x with DInt z => Ok z | _ => Err TypeError end) l = Ok zs <-> l = map DInt zs.
Proof.
  revert zs. induction l as [|x l IH]; intros zs; cbn [mapM].
  - split; [now intros [= <-]|]. destruct zs; [reflexivity|discriminate].
  - destruct x as [|z|t]; cbn [bind]; [split; [discriminate|destruct zs; discriminate]| |split; [discriminate|destruct zs; discriminate]].
    destruct (mapM _ l) as [r|] eqn:E; cbn [bind].
    + split; [intros [= <-]; cbn [map]; f_equal; now apply IH|]. destruct zs as [|w zs]; [discriminate|]. cbn [map]. intros [= <- H].
      apply IH in H. injection H as ->. reflexivity.
    + split; [discriminate|]. destruct zs as [|w zs]; [discriminate|]. cbn [map]. intros [= <- H]. apply IH in H. discriminate H.
Qed.
Lemma ints_err l x : mapM (fun x => match x with DInt z => Ok z | _ => Err TypeError end) l = Err x -> x = TypeError /\ ~ Forall is_int l.
Proof.
  intros H. split.
  - induction l as [|y l IH]; cbn [mapM] in H; [discriminate H|]. destruct y as [|z|t]; cbn [bind] in H; [now injection H| |now injection H].
    destruct (mapM _ l); [discriminate H|]. apply IH. exact H.
  - intros F. assert (E : exists zs, l = map DInt zs).
    { induction F as [|y l [z ->] F IH]; [now exists []|]. cbn [mapM bind] in H. destruct IH as [zs ->]; [|now exists (z :: zs)].
      destruct (mapM _ l); [discriminate H|exact H]. }
    destruct E as [zs E]. apply ints_ok in E. congruence.
Qed.
Lemma as_array_ok d a : as_array d = Ok a <-> d = deg a.
Proof.
  destruct d as [|z|l]; cbn [as_array].
  - split; [discriminate|]. destruct a; discriminate.
  - split; [intros [= <-]; reflexivity|]. destruct a; [intros [= ->]; reflexivity|discriminate].
  - destruct (mapM _ l) as [zs|] eqn:E; cbn [bind].
    + apply ints_ok in E. subst. split; [intros [= <-]; reflexivity|]. destruct a as [|zs']; [discriminate|]. intros [= H].
      do 2 f_equal. clear -H. revert zs' H. induction zs as [|z zs IH]; intros [|w zs'] H; try discriminate H; [reflexivity|].
      injection H as -> H. f_equal. auto.
    + split; [discriminate|]. destruct a as [|zs']; [discriminate|]. intros [= ->]. assert (X := proj2 (ints_ok (map DInt zs') zs') eq_refl). congruence.
Qed.
Lemma arrays_ok l r : mapM as_array l = Ok r <-> l = map deg r.
Proof.
  rewrite mapM_ok. split.
  - induction 1 as [|d a l r H F IH]; [reflexivity|]. apply as_array_ok in H. cbn [map]. congruence.
  - intros ->. induction r; cbn [map]; constructor; auto. now apply as_array_ok.
Qed.
Lemma arrays_err l x : mapM as_array l = Err x -> x = TypeError /\ ~ Forall flat l.
Proof.
  induction l as [|d l IH]; cbn [mapM]; [discriminate|]. intros H. destruct (as_array d) as [a|y] eqn:E; cbn [bind] in H.
  - destruct (mapM as_array l); [discriminate H|]. destruct (IH H) as [-> N]. split; [reflexivity|]. intros F. now inversion F.
  - injection H as <-. destruct d as [|z|t]; cbn [as_array] in E; [|discriminate E|].
    + injection E as <-. split; [reflexivity|]. intros F. inversion F; subst. contradiction.
    + destruct (mapM _ t) as [|w] eqn:M; cbn [bind] in E; [discriminate E|]. injection E as <-. apply ints_err in M as [-> M].
      split; [reflexivity|]. intros F. inversion F; subst. now apply M.
Qed.
Definition grow (acc : result (Z + list Z)) (y : Z + list Z) : result (Z + list Z) := do a <- acc ;; maximum a y.
Lemma grow_err l x : fold_left grow l (Err x) = Err x.
Proof. induction l; [reflexivity|assumption]. Qed.
Lemma max_degreeE l : max_degree l = do arrays <- mapM as_array l ;;
  match arrays with [] => Err TypeError | x :: r => do m <- fold_left grow r (Ok x) ;; Ok (deg m) end.
Proof. reflexivity. Qed.

Lemma greatest_app l z y : greatest l z -> greatest (l ++ [y]) (Z.max z y).
Proof.
  intros [I G]. split.
  - apply in_or_app. destruct (Z.max_spec z y) as [[_ ->]|[_ ->]]; cbn; auto.
  - intros x X. apply in_app_iff in X as [X|[<-|[]]]; [specialize (G _ X)|]; lia.
Qed.
Lemma ints_of_length n zs : Forall (of_length n) (map DInt zs).
Proof. apply Forall_forall. intros x X. apply in_map_iff in X as (z & <- & _). exact I. Qed.
Lemma entries_ints i zs : Forall2 (entry i) (map DInt zs) zs.
Proof. induction zs; cbn [map]; constructor; auto. constructor. Qed.
Lemma all_ints zs : Forall is_int (map DInt zs).
Proof. apply Forall_forall. intros x X. apply in_map_iff in X as (z & <- & _). now exists z. Qed.
Lemma entry_one i d z : of_length 1 d -> entry 0 d z -> entry i d z.
Proof.
  intros O H. inversion H; subst; [constructor|constructor|]. destruct O as [_ O]. assert (L : length l = 1) by tauto.
  destruct l as [|x [|]]; try discriminate L. cbn in H0. injection H0 as ->. constructor.
Qed.
Lemma of_length_one n d : of_length 1 d -> of_length n d.
Proof. destruct d; cbn; auto. intros [F O]. split; [exact F|right; tauto]. Qed.
Lemma nth_deg (zs : list Z) i z : nth_error zs i = Some z -> nth_error (map DInt zs) i = Some (DInt z).
Proof. intros H. now apply map_nth_error. Qed.
Lemma nth_map {A B} (f : A -> B) l i y : nth_error (map f l) i = Some y -> exists x, nth_error l i = Some x /\ y = f x.
Proof.
  revert i. induction l as [|x l IH]; intros [|i] H; cbn in H; try discriminate H.
  - injection H as <-. now exists x.
  - now apply IH.
Qed.
Lemma nth_map2 {A B C} (f : A -> B -> C) l m i y : nth_error (map2 f l m) i = Some y ->
  exists a b, nth_error l i = Some a /\ nth_error m i = Some b /\ y = f a b.
Proof.
  revert m i. induction l as [|x l IH]; intros [|b m] [|i] H; cbn in H; try discriminate H.
  - injection H as <-. now exists x, b.
  - exact (IH _ _ H).
Qed.
Lemma map2_length' {A B C} (f : A -> B -> C) l m : length l = length m -> length (map2 f l m) = length l.
Proof. revert m. induction l as [|x l IH]; intros [|y m] H; try discriminate H; [reflexivity|]. cbn. f_equal. apply IH. now injection H. Qed.

Lemma map_DInt l m : map DInt l = map DInt m -> l = m.
Proof. revert m. induction l as [|x l IH]; intros [|y m] H; try discriminate H; [reflexivity|]. injection H as -> H. f_equal. auto. Qed.
Lemma mixed_int_inv ds z : mixed_degree ds (DInt z) -> exists zs, ds = map DInt zs /\ greatest zs z.
Proof. intros H. inversion H; subst. eauto. Qed.
Lemma mixed_tuple_inv ds zs : mixed_degree ds (DTuple (map DInt zs)) ->
  (exists l, In (DTuple l) ds /\ length l = length zs) /\ Forall (of_length (length zs)) ds /\
  (forall i z, nth_error zs i = Some z -> exists col, Forall2 (entry i) ds col /\ greatest col z).
Proof.
  remember (DTuple (map DInt zs)) as d eqn:E. intros H. destruct H as [| |ds ws L O C]; try discriminate E.
  injection E as E. apply map_DInt in E as ->. auto.
Qed.
Lemma mixed_step ds a y b : ds <> [] -> mixed_degree ds (deg a) -> maximum a y = Ok b -> mixed_degree (ds ++ [deg y]) (deg b).
Proof.
  intros N H M. destruct a as [x|l], y as [y|m]; cbn [maximum] in M.
  - injection M as <-. apply mixed_int_inv in H as (zs & -> & G). change (map DInt zs ++ [deg (inl y)]) with (map DInt zs ++ map DInt [y]). rewrite <- map_app.
    apply md_int. now apply greatest_app.
  - injection M as <-. apply mixed_int_inv in H as (zs & -> & G). cbn [deg]. apply md_tuple.
    + exists (map DInt m). split; [apply in_or_app; right; now left|]. now rewrite !map_length.
    + apply Forall_app. split; [apply ints_of_length|]. constructor; [|constructor]. cbn. rewrite !map_length. split; [apply all_ints|now left].
    + intros i z Z. apply nth_map in Z as (w & W & ->). exists (zs ++ [w]). split.
      * apply Forall2_app; [apply entries_ints|]. repeat constructor. now apply nth_deg.
      * now apply greatest_app.
  - injection M as <-. cbn [deg] in *. apply mixed_tuple_inv in H as ((l0 & I & L) & O & C). apply md_tuple; rewrite ?map_length.
    + exists l0. split; [apply in_or_app; now left|exact L].
    + apply Forall_app. split; [exact O|]. repeat constructor.
    + intros i z Z. apply nth_map in Z as (w & W & ->). destruct (C _ _ W) as (col & F & G). exists (col ++ [y]). split.
      * apply Forall2_app; [exact F|]. repeat constructor.
      * now apply greatest_app.
  - cbn [deg] in H. apply mixed_tuple_inv in H as ((l0 & I & L) & O & C).
    destruct (Nat.eqb_spec (length l) (length m)) as [Le|Ln].
    + injection M as <-. cbn [deg]. pose proof (map2_length' Z.max l m Le) as L2. apply md_tuple; rewrite ?L2.
      * exists l0. split; [apply in_or_app; now left|exact L].
      * apply Forall_app. split; [exact O|]. constructor; [|constructor]. cbn. rewrite map_length. split; [apply all_ints|left; congruence].
      * intros i z Z. apply nth_map2 in Z as (u & v & U & V & ->). destruct (C _ _ U) as (col & F & G). exists (col ++ [v]). split.
        -- apply Forall2_app; [exact F|]. repeat constructor. now apply nth_deg.
        -- now apply greatest_app.
    + assert (Case : (exists x, l = [x] /\ b = inr (map (Z.max x) m)) \/ (exists x, m = [x] /\ b = inr (map (fun y => Z.max y x) l))).
      { destruct l as [|x [|x' l]].
        - destruct m as [|y [|]]; try discriminate M. injection M as <-. right. eauto.
        - injection M as <-. left. eauto.
        - destruct m as [|y [|]]; try discriminate M. injection M as <-. right. eauto. }
      destruct Case as [(x & -> & ->)|(x & -> & ->)]; cbn [deg].
      * apply md_tuple; rewrite ?map_length.
        -- exists (map DInt m). split; [apply in_or_app; right; now left|]. now rewrite map_length.
        -- apply Forall_app. split.
           ++ eapply Forall_impl; [|exact O]. intros d. apply of_length_one.
           ++ constructor; [|constructor]. cbn. rewrite map_length. split; [apply all_ints|now left].
        -- intros i z Z. apply nth_map in Z as (w & W & ->). destruct (C 0 x eq_refl) as (col & F & G). exists (col ++ [w]). split.
           ++ apply Forall2_app; [|repeat constructor; now apply nth_deg].
              clear -F O. cbn [length] in O. induction F as [|d c ds col Hd F IH]; [constructor|]. inversion O; subst. constructor; [now apply entry_one|auto].
           ++ now apply greatest_app.
      * apply md_tuple; rewrite ?map_length.
        -- exists l0. split; [apply in_or_app; now left|exact L].
        -- apply Forall_app. split; [exact O|]. constructor; [|constructor]. cbn. split; [repeat constructor; now exists x|now right].
        -- intros i z Z. apply nth_map in Z as (w & W & ->). destruct (C _ _ W) as (col & F & G). exists (col ++ [x]). split.
           ++ apply Forall2_app; [exact F|]. repeat constructor.
           ++ now apply greatest_app.
Qed.
Lemma mixed_one a : mixed_degree [deg a] (deg a).
Proof.
  destruct a as [z|zs]; cbn [deg].
  - apply (md_int [z]). split; [now left|]. intros x [<-|[]]. lia.
  - apply md_tuple.
    + exists (map DInt zs). split; [now left|apply map_length].
    + constructor; [|constructor]. cbn. rewrite map_length. split; [apply all_ints|now left].
    + intros i z Z. exists [z]. split; [repeat constructor; now apply nth_deg|]. split; [now left|]. intros x [<-|[]]. lia.
Qed.
Lemma mixed_fold : forall r ds a m, ds <> [] -> mixed_degree ds (deg a) -> fold_left grow r (Ok a) = Ok m -> mixed_degree (ds ++ map deg r) (deg m).
Proof.
  induction r as [|y r IH]; intros ds a m N H K; cbn [fold_left map] in *.
  - injection K as <-. now rewrite app_nil_r.
  - unfold grow at 2 in K. cbn [bind] in K. destruct (maximum a y) as [b|] eqn:M; [|rewrite grow_err in K; discriminate K].
    change (ds ++ deg y :: map deg r) with (ds ++ ([deg y] ++ map deg r)). rewrite app_assoc. apply (IH _ b); [now destruct ds| |exact K].
    exact (mixed_step _ _ _ _ N H M).
Qed.
Lemma max_degree_mixed l d : max_degree l = Ok d -> mixed_degree l d.
Proof.
  rewrite max_degreeE. intros H. binds H. apply arrays_ok in E. subst l. destruct v as [|x r]; [discriminate H|]. binds H. injection H as <-.
  exact (mixed_fold r [deg x] x v ltac:(discriminate) (mixed_one x) E).
Qed.
Definition wide (n : nat) (a : Z + list Z) : Prop := match a with inl _ => True | inr l => length l = n \/ length l = 1 end.
Lemma wide_max n a b : wide n a -> wide n b -> exists m, maximum a b = Ok m /\ wide n m.
Proof.
  destruct a as [x|l], b as [y|m]; cbn [maximum wide]; intros A B.
  - eexists. split; [reflexivity|exact I].
  - eexists. split; [reflexivity|]. cbn. now rewrite map_length.
  - eexists. split; [reflexivity|]. cbn. now rewrite map_length.
  - destruct (Nat.eqb_spec (length l) (length m)) as [E|N].
    + eexists. split; [reflexivity|]. cbn. rewrite map2_length' by assumption. exact A.
    + destruct l as [|x [|x' l]].
      * destruct m as [|y [|]]; cbn [length] in *; [lia| |lia]. eexists. split; [reflexivity|]. cbn. lia.
      * eexists. split; [reflexivity|]. cbn. now rewrite map_length.
      * destruct m as [|y [|y' m]]; cbn [length] in *; [lia| |lia]. eexists. split; [reflexivity|]. cbn. rewrite map_length. lia.
Qed.
Lemma wide_fold n : forall r a, wide n a -> Forall (wide n) r -> exists m, fold_left grow r (Ok a) = Ok m.
Proof.
  induction r as [|y r IH]; intros a A F; cbn [fold_left]; [eauto|]. inversion F; subst. unfold grow at 2. cbn [bind].
  destruct (wide_max n a y) as (m & -> & W); [assumption..|]. now apply IH.
Qed.
Lemma of_length_wide n d : of_length n d -> exists a, d = deg a /\ wide n a.
Proof.
  destruct d as [|z|l]; cbn; [now intros []| |].
  - intros _. exists (inl z). now split.
  - intros [F L]. assert (E : exists zs, l = map DInt zs). { clear L. induction F as [|x l [z ->] F [zs ->]]; [now exists []|now exists (z :: zs)]. }
    destruct E as [zs ->]. exists (inr zs). split; [reflexivity|]. cbn. now rewrite map_length in L.
Qed.
Lemma max_degree_accepted l : l <> [] -> mixable l -> exists d, max_degree l = Ok d.
Proof.
  intros N (n & F). assert (E : exists r, l = map deg r /\ Forall (wide n) r).
  { clear N. induction F as [|d l H F (r & -> & W)]; [exists []; auto|]. apply of_length_wide in H as (a & -> & A). exists (a :: r). auto. }
  destruct E as (r & -> & W). rewrite max_degreeE. rewrite (proj2 (arrays_ok _ r) eq_refl). cbn [bind].
  destruct r as [|x r]; [now destruct N|]. inversion W; subst. destruct (wide_fold n r x) as [m ->]; [assumption..|]. cbn [bind]. eauto.
Qed.
Lemma max_degree_err l x : max_degree l = Err x -> (~ Forall flat l /\ x = TypeError) \/ l = [] \/ (Forall flat l /\ x = ValueError).
Proof.
  rewrite max_degreeE. intros H. destruct (mapM as_array l) as [r|y] eqn:E; cbn [bind] in H.
  - apply arrays_ok in E. right. destruct r as [|a r]; [left; assumption|right]. split.
    + subst l. apply Forall_forall. intros d D. apply in_map_iff in D as ([z|zs] & <- & _); cbn; [exact I|apply all_ints].
    + assert (K : forall r a y, fold_left grow r (Ok a) = Err y -> y = ValueError).
      { clear. induction r as [|b r IH]; intros a y H; cbn [fold_left] in H; [discriminate H|]. unfold grow at 2 in H. cbn [bind] in H.
        destruct (maximum a b) as [m|z] eqn:M; [now apply IH in H|]. rewrite grow_err in H. injection H as <-.
        destruct a as [|l], b as [|m]; cbn [maximum] in M; try discriminate M. destruct (Nat.eqb _ _); [discriminate M|].
        destruct l as [|? [|]], m as [|? [|]]; try discriminate M; now injection M. }
      destruct (fold_left grow r (Ok a)) eqn:F; cbn [bind] in H; [discriminate H|]. injection H as <-. now apply K in F.
  - injection H as <-. apply arrays_err in E as [-> E]. now left.
Qed.
Lemma mixed_mixable l d : mixed_degree l d -> mixable l.
Proof. intros H. destruct H as [|zs z G|ds zs _ O _]; [exists 0; constructor|exists 0; apply ints_of_length|now exists (length zs)]. Qed.
Lemma given_filter l : filter (fun d => negb (deg_eqb d DNone)) l = given l.
Proof. induction l as [|d l IH]; [reflexivity|]. cbn [filter given flat_map]. fold (given l). rewrite <- IH. now destruct d. Qed.

(** ** Mixed elements *)
Lemma mixed_attrs_defined es sh : mixed_attrs es sh =
  let cells := defined (map u_cell es) in
  do cell <- match cells with [] => Ok None | c :: r => do! guard (forallb (ucell_eqb c) r) ValueError ;; Ok (Some c) end ;;
  do scheme <- match es with
               | [] => Ok None
               | e :: _ => do! guard (forallb (fun e' => opt_eqb String.eqb (u_scheme e') (u_scheme e)) es) ValueError ;; Ok (u_scheme e)
               end ;;
  let degrees := given (map u_degree es) in
  do degree <- match degrees with [] => Ok DNone | _ => max_degree degrees end ;;
  Ok (mkAttrs "Mixed" cell degree scheme (match sh with Some s => s | None => [sum (map (fun e => prod (u_shape e)) es)] end)).
Proof. unfold mixed_attrs. rewrite defined_flat, given_filter. reflexivity. Qed.
Lemma schemes_equal e es : forallb (fun e' => opt_eqb String.eqb (u_scheme e') (u_scheme e)) (e :: es) = true <-> all_equal (map u_scheme (e :: es)).
Proof.
  rewrite (forallb_same (opt_eqb String.eqb) u_scheme (opt_eqb_eq _ String.eqb_eq)). cbn [map]. rewrite all_equal_head. split; [intros F; now inversion F|].
  intros F. now constructor.
Qed.
Lemma shape_total es : [sum (map (fun e => prod (u_shape e)) es)] = [total_size (map u_shape es)].
Proof.
  f_equal. assert (P : forall s, prod s = size s) by (induction s as [|n s IH]; [reflexivity|]; cbn [prod]; rewrite IH; reflexivity).
  induction es as [|e es IH]; [reflexivity|]. cbn [map sum total_size fold_right]. rewrite P. fold (total_size (map u_shape es)). lia.
Qed.
Lemma mixed_attrs_ok es sh a : mixed_attrs es sh = Ok a ->
  all_equal (defined (map u_cell es)) /\ all_equal (map u_scheme es) /\
  at_family a = "Mixed"%string /\ at_cell a = hd_error (defined (map u_cell es)) /\ at_scheme a = hd None (map u_scheme es) /\
  at_shape a = (match sh with Some s => s | None => [total_size (map u_shape es)] end) /\
  mixed_degree (given (map u_degree es)) (at_degree a).
Proof.
  rewrite mixed_attrs_defined. cbn zeta. rewrite shape_total. intros H. binds H. injection H as <-. cbn [at_family at_cell at_scheme at_shape at_degree].
  split; [|split; [|split; [reflexivity|split; [|split; [|split; [reflexivity|]]]]]].
  - destruct (defined (map u_cell es)) as [|c r]; [intros x y []|]. binds E. apply guard_true in E2. now apply forallb_cells.
  - destruct es as [|e es]; [intros x y []|]. binds E0. apply guard_true in E2. now apply schemes_equal.
  - destruct (defined (map u_cell es)) as [|c r]; [now injection E as <-|]. binds E. now injection E as <-.
  - destruct es as [|e es]; [now injection E0 as <-|]. binds E0. now injection E0 as <-.
  - destruct (given (map u_degree es)) as [|d r] eqn:G; [injection E1 as <-; constructor|]. now apply max_degree_mixed.
Qed.
Lemma mixed_attrs_accepted es sh : all_equal (defined (map u_cell es)) -> all_equal (map u_scheme es) -> mixable (given (map u_degree es)) ->
  exists a, mixed_attrs es sh = Ok a.
Proof.
  intros C S D. rewrite mixed_attrs_defined. cbn zeta.
  assert (exists c, match defined (map u_cell es) with [] => Ok None | c :: r => do! guard (forallb (ucell_eqb c) r) ValueError ;; Ok (Some c) end = Ok c) as [c ->].
  { destruct (defined (map u_cell es)) as [|c r]; [eauto|]. apply forallb_cells in C. rewrite C. cbn. eauto. }
  assert (exists s, match es with [] => Ok None
    | e :: _ => do! guard (forallb (fun e' => opt_eqb String.eqb (u_scheme e') (u_scheme e)) es) ValueError ;; Ok (u_scheme e) end = Ok s) as [s ->].
  { destruct es as [|e es]; [eauto|]. apply schemes_equal in S. rewrite S. cbn. eauto. }
  assert (exists d, match given (map u_degree es) with [] => Ok DNone | _ => max_degree (given (map u_degree es)) end = Ok d) as [d ->].
  { destruct (given (map u_degree es)) eqn:G; [eauto|]. rewrite <- G in *. apply max_degree_accepted; [rewrite G; discriminate|exact D]. }
  cbn [bind]. eauto.
Qed.
Lemma mixed_attrs_refused es sh :
  (~ all_equal (defined (map u_cell es)) \/ ~ all_equal (map u_scheme es) -> mixed_attrs es sh = Err ValueError) /\
  (all_equal (defined (map u_cell es)) -> all_equal (map u_scheme es) ->
    (~ Forall flat (given (map u_degree es)) -> mixed_attrs es sh = Err TypeError) /\
    (Forall flat (given (map u_degree es)) -> ~ mixable (given (map u_degree es)) -> mixed_attrs es sh = Err ValueError)).
Proof.
  rewrite mixed_attrs_defined. cbn zeta. split.
  - intros H. destruct (defined (map u_cell es)) as [|c r] eqn:D.
    + cbn [bind]. destruct H as [H|H]; [destruct H; intros ? ? []|]. destruct es as [|e es]; [destruct H; intros ? ? []|].
      rewrite <- schemes_equal in H. destruct (forallb _ (e :: es)); [now destruct H|reflexivity].
    + rewrite <- (forallb_cells c r) in H. destruct (forallb (ucell_eqb c) r); [|reflexivity]. cbn [guard bind].
      destruct H as [H|H]; [now destruct H|]. destruct es as [|e es]; [destruct H; intros ? ? []|].
      rewrite <- schemes_equal in H. destruct (forallb _ (e :: es)); [now destruct H|reflexivity].
  - intros C S.
    assert (exists c, match defined (map u_cell es) with [] => Ok None | c :: r => do! guard (forallb (ucell_eqb c) r) ValueError ;; Ok (Some c) end = Ok c) as [c ->].
    { destruct (defined (map u_cell es)) as [|c r]; [eauto|]. apply forallb_cells in C. rewrite C. cbn. eauto. }
    assert (exists s, match es with [] => Ok None
      | e :: _ => do! guard (forallb (fun e' => opt_eqb String.eqb (u_scheme e') (u_scheme e)) es) ValueError ;; Ok (u_scheme e) end = Ok s) as [s ->].
    { destruct es as [|e es]; [eauto|]. apply schemes_equal in S. rewrite S. cbn. eauto. }
    cbn [bind]. destruct (given (map u_degree es)) as [|d r] eqn:G.
    + split; [intros N; destruct N; constructor|]. intros _ N. destruct N. exists 0. constructor.
    + destruct (max_degree (d :: r)) as [m|x] eqn:M; cbn [bind].
      * apply max_degree_mixed, mixed_mixable in M. split; [|intros _ N; now destruct N]. intros N. destruct N.
        destruct M as [n F]. eapply Forall_impl; [|exact F]. intros [|z|t]; cbn; auto. now intros [? _].
      * apply max_degree_err in M as [[N ->]|[M|[F ->]]]; [|discriminate M|].
        -- split; [reflexivity|]. intros F. now destruct N.
        -- split; [|reflexivity]. intros N. now destruct N.
Qed.
Lemma all_equal_repeat {A} (x : A) n : all_equal (repeat x n).
Proof. intros y z Y Z. apply repeat_spec in Y, Z. congruence. Qed.
Lemma repeat_defined {A} (x : option A) n : defined (repeat x n) = match x with None => [] | Some y => repeat y n end.
Proof. destruct x as [x|]; induction n as [|n IH]; cbn [repeat defined]; auto. now rewrite IH. Qed.
Lemma repeat_given d n : given (repeat d n) = match d with DNone => [] | _ => repeat d n end.
Proof.
  unfold given. destruct d; (induction n as [|n IH]; [reflexivity|]); cbn [repeat flat_map app]; rewrite IH; reflexivity.
Qed.
Lemma map_repeat' {A B} (f : A -> B) x n : map f (repeat x n) = repeat (f x) n.
Proof. induction n as [|n IH]; [reflexivity|]. cbn [repeat map]. now rewrite IH. Qed.

(** Copies of one element. *)
Lemma copies_accepted sub n sh : flat_or_none (u_degree sub) -> exists a, mixed_attrs (repeat sub n) sh = Ok a.
Proof.
  intros F. apply mixed_attrs_accepted; rewrite map_repeat'.
  - rewrite repeat_defined. destruct (u_cell sub); [apply all_equal_repeat|intros ? ? []].
  - apply all_equal_repeat.
  - rewrite repeat_given. destruct (u_degree sub) as [|z|l].
    + exists 0. constructor.
    + exists 0. apply Forall_forall. intros x X. apply repeat_spec in X as ->. exact I.
    + exists (length l). apply Forall_forall. intros x X. apply repeat_spec in X as ->. split; [exact F|now left].
Qed.
Lemma copies_refused sub n sh : ~ flat_or_none (u_degree sub) -> mixed_attrs (repeat sub (S n)) sh = Err TypeError.
Proof.
  intros F. apply (proj2 (mixed_attrs_refused (repeat sub (S n)) sh)).
  - rewrite map_repeat', repeat_defined. destruct (u_cell sub); [apply all_equal_repeat|intros ? ? []].
  - rewrite map_repeat'. apply all_equal_repeat.
  - rewrite map_repeat', repeat_given. destruct (u_degree sub) as [|z|l]; [now destruct F|now destruct F|]. intros K. cbn [repeat] in K. inversion K; subst. now apply F.
Qed.
Lemma copies_attrs sub n sh a : mixed_attrs (repeat sub (S n)) sh = Ok a -> at_cell a = u_cell sub /\ at_scheme a = u_scheme sub.
Proof.
  intros H. apply mixed_attrs_ok in H as (_ & _ & _ & C & S & _). rewrite C, S, !map_repeat', repeat_defined. split; [|reflexivity].
  now destruct (u_cell sub).
Qed.

(** ** Sums *)
Lemma sum_ok l0 rows l : mapM py_max (columns (length l0) (l0 :: rows)) = Ok l -> sum_degree (map DTuple (l0 :: rows)) (DTuple l).
Proof.
  intros H. destruct (columns_spec (length l0) (l0 :: rows)) as (L & _ & N). pose proof (mapM_length _ _ _ _ _ H) as Le. apply mapM_ok in H. apply sd_tuple.
  - intros i Hi. destruct (nth_error (columns (length l0) (l0 :: rows)) i) as [col|] eqn:E; [|apply nth_error_None in E; lia].
    exists col. split; [now apply N|]. clear N L Le Hi. revert i E. induction H as [|c d cols l Hd F IH]; intros [|i] E; cbn in E; try discriminate E.
    + injection E as ->. exists d. split; [reflexivity|]. now apply max_topmost.
    + now apply IH.
  - destruct L as [L|(row & I & L)]; [exists l0; split; [now left|congruence]|]. exists row. split; [exact I|congruence].
Qed.
Lemma tuples_ok es rows : mapM (fun e => match u_degree e with DTuple l => Ok l | _ => Err TypeError end) es = Ok rows <-> map u_degree es = map DTuple rows.
Proof.
  rewrite mapM_ok. split.
  - induction 1 as [|e l es rows H F IH]; [reflexivity|]. cbn [map]. rewrite IH. destruct (u_degree e) as [|z|t]; [discriminate H|discriminate H|]. now injection H as ->.
  - revert rows. induction es as [|e es IH]; intros [|l rows] H; try discriminate H; [constructor|]. cbn [map] in H. injection H as E H.
    constructor; [now rewrite E|auto].
Qed.
Lemma tuples_err es x : mapM (fun e => match u_degree e with DTuple l => Ok l | _ => Err TypeError end) es = Err x ->
  x = TypeError /\ exists e, In e es /\ forall l, u_degree e <> DTuple l.
Proof.
  induction es as [|e es IH]; cbn [mapM]; [discriminate|]. intros H. destruct (u_degree e) as [|z|l] eqn:E; cbn [bind] in H.
  - injection H as <-. split; [reflexivity|]. exists e. split; [now left|]. congruence.
  - injection H as <-. split; [reflexivity|]. exists e. split; [now left|]. congruence.
  - destruct (mapM _ es); [discriminate H|]. destruct (IH H) as (-> & e' & I & N). split; [reflexivity|]. exists e'. split; [now right|exact N].
Qed.
(** The degree in the constructor of a sum. *)
Definition total_degree (es : list uel) : result udeg :=
  match es with
  | [] => Err IndexError
  | e0 :: _ =>
      match u_degree e0 with
      | DInt _ => py_max (filter (fun d => negb (deg_eqb d DNone)) (map u_degree es))
      | _ => do rows <- mapM (fun e => match u_degree e with DTuple l => Ok l | _ => Err TypeError end) es ;;
             do l <- mapM py_max (columns (length (hd [] rows)) rows) ;;
             Ok (DTuple l)
      end
  end.
Lemma given_ints ds : Forall int_or_none ds -> given ds = map DInt (ints_of ds).
Proof. induction 1 as [|d ds H F IH]; [reflexivity|]. unfold given, ints_of in *. cbn [flat_map]. rewrite IH. now destruct d. Qed.
Lemma given_in d ds : d <> DNone -> In d ds -> In d (given ds).
Proof. intros N I. apply in_flat_map. exists d. split; [exact I|]. destruct d; [now destruct N|now left|now left]. Qed.
Lemma given_some ds : Forall (fun d => d <> DNone) (given ds).
Proof. apply Forall_forall. intros x X. apply in_flat_map in X as (d & _ & X). destruct d; [destruct X|destruct X as [<-|[]]; discriminate|destruct X as [<-|[]]; discriminate]. Qed.
Lemma int_or_none_dec ds : Forall int_or_none ds \/ exists t, In (DTuple t) ds.
Proof.
  induction ds as [|d ds IH]; [now left|]. destruct d as [|z|t]; [| |right; exists t; now left];
    (destruct IH as [IH|[t T]]; [left; now constructor|right; exists t; now right]).
Qed.
Lemma total_degree_ok es d : total_degree es = Ok d -> sum_degree (map u_degree es) d.
Proof.
  destruct es as [|e0 es]; [discriminate|]. cbn [total_degree map]. destruct (u_degree e0) as [|x|l0] eqn:E; intros H.
  - cbn [mapM] in H. rewrite E in H. discriminate H.
  - rewrite given_filter in H. destruct (int_or_none_dec (map u_degree es)) as [F|[t T]].
    + cbn [given flat_map app] in H. fold (given (map u_degree es)) in H. rewrite given_ints in H by exact F.
      destruct (max_ints (ints_of (map u_degree es)) x) as (z & M & G). cbn [map] in M. rewrite M in H. injection H as <-. now apply sd_int.
    + rewrite max_clash in H; [discriminate H| | |].
      * exists x. apply given_in; [discriminate|now left].
      * exists t. apply given_in; [discriminate|now right].
      * apply given_some.
  - binds H. injection H as <-. pose proof (proj1 (tuples_ok (e0 :: es) v) E0) as K. cbn [map] in K. destruct v as [|r rows]; [discriminate K|]. rewrite E in K.
    rewrite K. cbn [hd] in E1. now apply sum_ok.
Qed.
Lemma total_degree_accepted es : summable (map u_degree es) -> exists d, total_degree es = Ok d.
Proof.
  intros S. destruct es as [|e0 es]; [inversion S|]. cbn [map] in S. cbn [total_degree].
  remember (u_degree e0 :: map u_degree es) as ds eqn:D. destruct S as [x ds F|l0 rows C].
  - injection D as E ->. rewrite <- E. rewrite given_filter. cbn [map]. rewrite <- E. cbn [given flat_map app]. fold (given (map u_degree es)). rewrite given_ints by exact F.
    destruct (max_ints (ints_of (map u_degree es)) x) as (z & M & _). cbn [map] in M. eauto.
  - cbn [map] in D. injection D as E D. rewrite <- E.
    rewrite (proj2 (tuples_ok (e0 :: es) (l0 :: rows))) by (cbn [map]; congruence). cbn [bind hd].
    destruct (columns_spec (length l0) (l0 :: rows)) as (_ & _ & N).
    assert (K : forall cols, (forall i col, nth_error cols i = Some col -> exists m, py_max col = Ok m) -> exists l, mapM py_max cols = Ok l).
    { clear. induction cols as [|c cols IH]; intros H; cbn [mapM]; [eauto|]. destruct (H 0 c eq_refl) as [m ->]. cbn [bind].
      destruct IH as [l ->]; [intros i col I; exact (H (S i) col I)|]. cbn [bind]. eauto. }
    destruct (K (columns (length l0) (l0 :: rows))) as [l ->]; [|cbn [bind]; eauto].
    intros i col H. apply N in H. apply max_accepted.
    + intros ->. inversion H.
    + assert (In' : forall x, In x col -> exists r, In r (l0 :: rows) /\ nth_error r i = Some x).
      { clear -H. induction H as [|r y rws col Hr F IH]; intros x X; [destruct X|]. destruct X as [<-|X]; [exists r; split; [now left|exact Hr]|].
        destruct (IH x X) as (r' & I & J). exists r'. split; [now right|exact J]. }
      intros x y X Y. apply In' in X as (r & R & X). apply In' in Y as (r' & R' & Y). exact (C _ _ _ _ _ R R' X Y).
Qed.
(** A number next to a tuple, nothing in front, or nothing next to a tuple. *)
Lemma total_degree_refused e0 es : (u_degree e0 = DNone \/ (exists z, u_degree e0 = DInt z) /\ (exists e t, In e es /\ u_degree e = DTuple t) \/
    (exists t, u_degree e0 = DTuple t) /\ (exists e, In e es /\ forall t, u_degree e <> DTuple t)) -> total_degree (e0 :: es) = Err TypeError.
Proof.
  cbn [total_degree]. intros [N|[[[z Z] (e & t & I & T)]|[[t0 T0] (e & I & N)]]].
  - rewrite N. cbn [mapM]. rewrite N. reflexivity.
  - rewrite Z, given_filter. apply max_clash.
    + exists z. apply given_in; [discriminate|]. rewrite <- Z. now left.
    + exists t. apply given_in; [discriminate|]. right. rewrite <- T. now apply in_map.
    + apply given_some.
  - rewrite T0. destruct (mapM _ _) as [rows|x] eqn:M; [|now apply tuples_err in M as [-> _]].
    apply tuples_ok in M. assert (J : In (u_degree e) (map DTuple rows)) by (rewrite <- M; apply in_map; now right).
    apply in_map_iff in J as (t & E & _). now destruct (N t).
Qed.
Lemma mk_enriched_total nodal e0 es : mk_enriched nodal (e0 :: es) =
  do! guard (forallb (fun e => opt_eqb ucell_eqb (u_cell e) (u_cell e0)) es) ValueError ;;
  do degree <- total_degree (e0 :: es) ;;
  let schemes := defined (map u_scheme (e0 :: es)) in
  do! guard (forallb (fun s => opt_eqb String.eqb (Some s) (hd_error schemes)) schemes) ValueError ;;
  do! guard (forallb (fun e => list_eqb Nat.eqb (u_shape e) (u_shape e0)) es) ValueError ;;
  Ok (UEnriched nodal (mkAttrs (if nodal then "NodalEnrichedElement" else "EnrichedElement")%string (u_cell e0) degree (hd_error schemes) (u_shape e0)) (e0 :: es)).
Proof. unfold mk_enriched, total_degree. rewrite defined_flat. reflexivity. Qed.
Lemma sum_cells e0 es : forallb (fun e => opt_eqb ucell_eqb (u_cell e) (u_cell e0)) es = true <-> all_equal (map u_cell (e0 :: es)).
Proof. rewrite (forallb_same (opt_eqb ucell_eqb) u_cell (opt_eqb_eq _ ucell_eqb_eq)). cbn [map]. now rewrite all_equal_head. Qed.
Lemma sum_shapes e0 es : forallb (fun e => list_eqb Nat.eqb (u_shape e) (u_shape e0)) es = true <-> all_equal (map u_shape (e0 :: es)).
Proof. rewrite (forallb_same (list_eqb Nat.eqb) u_shape list_eqb_eq). cbn [map]. now rewrite all_equal_head. Qed.
Lemma sum_schemes (l : list string) : forallb (fun s => opt_eqb String.eqb (Some s) (hd_error l)) l = true <-> all_equal l.
Proof.
  destruct l as [|s l]; [split; [intros _ ? ? []|reflexivity]|]. cbn [hd_error opt_eqb].
  rewrite (forallb_same String.eqb (fun x => x) String.eqb_eq), map_id, all_equal_head. split; [intros F; now inversion F|]. intros F. now constructor.
Qed.
Lemma enriched_ok nodal es e : mk_enriched nodal es = Ok e -> exists e0 rest, es = e0 :: rest /\
  all_equal (map u_cell es) /\ all_equal (defined (map u_scheme es)) /\ all_equal (map u_shape es) /\
  u_cell e = u_cell e0 /\ u_shape e = u_shape e0 /\ u_scheme e = hd_error (defined (map u_scheme es)) /\ sum_degree (map u_degree es) (u_degree e).
Proof.
  destruct es as [|e0 es]; [discriminate|]. rewrite mk_enriched_total. cbn zeta. intros H. binds H. injection H as <-. exists e0, es. split; [reflexivity|].
  apply guard_true in E, E1, E2. split; [now apply sum_cells|]. split; [now apply sum_schemes|]. split; [now apply sum_shapes|].
  repeat split. now apply total_degree_ok.
Qed.
Lemma enriched_accepted nodal es : all_equal (map u_cell es) -> all_equal (defined (map u_scheme es)) -> all_equal (map u_shape es) ->
  summable (map u_degree es) -> exists e, mk_enriched nodal es = Ok e.
Proof.
  intros C S H D. destruct es as [|e0 es]; [inversion D|]. rewrite mk_enriched_total. cbn zeta.
  rewrite (proj2 (sum_cells e0 es) C). cbn [guard bind]. destruct (total_degree_accepted _ D) as [d ->]. cbn [bind].
  rewrite (proj2 (sum_schemes _) S). cbn [guard bind]. rewrite (proj2 (sum_shapes e0 es) H). cbn [guard bind]. eauto.
Qed.
Lemma enriched_refused nodal e0 es :
  mk_enriched nodal [] = Err IndexError /\
  (~ all_equal (map u_cell (e0 :: es)) -> mk_enriched nodal (e0 :: es) = Err ValueError) /\
  (all_equal (map u_cell (e0 :: es)) ->
    (u_degree e0 = DNone \/ (exists z, u_degree e0 = DInt z) /\ (exists e t, In e es /\ u_degree e = DTuple t) \/
      (exists t, u_degree e0 = DTuple t) /\ (exists e, In e es /\ forall t, u_degree e <> DTuple t) -> mk_enriched nodal (e0 :: es) = Err TypeError) /\
    (summable (map u_degree (e0 :: es)) -> ~ all_equal (defined (map u_scheme (e0 :: es))) \/ ~ all_equal (map u_shape (e0 :: es)) ->
      mk_enriched nodal (e0 :: es) = Err ValueError)).
Proof.
  split; [reflexivity|]. rewrite mk_enriched_total. cbn zeta. split.
  - intros N. rewrite <- sum_cells in N. destruct (forallb _ es); [now destruct N|reflexivity].
  - intros C. rewrite (proj2 (sum_cells e0 es) C). cbn [guard bind]. split.
    + intros N. now rewrite total_degree_refused.
    + intros D N. destruct (total_degree_accepted _ D) as [d ->]. cbn [bind]. rewrite <- sum_schemes, <- sum_shapes in N.
      destruct (forallb _ (defined _)); [|reflexivity]. cbn [guard bind]. destruct (forallb _ es); [|reflexivity]. destruct N as [N|N]; now destruct N.
Qed.

(** ** Vectors and tensors *)
Lemma vector_ok sub dim e : mk_vector sub dim = Ok e -> exists n,
  (dim = Some n \/ dim = None /\ exists c, u_cell sub = Some c /\ n = ucell_dim c) /\
  u_attrs e = mkAttrs (at_family (u_attrs sub)) (u_cell sub) (u_degree sub) (u_scheme sub) (n :: u_shape sub).
Proof.
  intros H. apply mk_vector_inv in H as (n & a & -> & _ & D). exists n. split; [|reflexivity].
  destruct dim as [m|]; [left; congruence|right; auto].
Qed.
Lemma vector_accepted sub dim : flat_or_none (u_degree sub) -> (dim = None -> u_cell sub <> None) -> exists e, mk_vector sub dim = Ok e.
Proof.
  intros F D. unfold mk_vector. destruct dim as [n|]; cbn [bind].
  - destruct (copies_accepted sub n (Some (n :: u_shape sub)) F) as [a ->]. cbn [bind]. eauto.
  - destruct (u_cell sub) as [c|]; [|now destruct (D eq_refl)]. cbn [bind].
    destruct (copies_accepted sub (ucell_dim c) (Some (ucell_dim c :: u_shape sub)) F) as [a ->]. cbn [bind]. eauto.
Qed.
Lemma vector_refused sub : (u_cell sub = None -> mk_vector sub None = Err ValueError) /\
  (forall n, ~ flat_or_none (u_degree sub) -> mk_vector sub (Some (S n)) = Err TypeError).
Proof.
  split.
  - intros C. unfold mk_vector. now rewrite C.
  - intros n F. unfold mk_vector. cbn [bind]. now rewrite copies_refused.
Qed.
Lemma tensor_ok sub shape s e : mk_tensor sub shape s = Ok e -> exists sh,
  (shape = Some sh \/ shape = None /\ exists c, u_cell sub = Some c /\ sh = [ucell_dim c; ucell_dim c]) /\
  at_family (u_attrs e) = at_family (u_attrs sub) /\ u_degree e = u_degree sub /\
  (exists sym t n, e = UTensor (u_attrs e) sub sh sym t n /\ u_shape e = (match sym with [] => sh | _ => [size sh - length sym] end) ++ u_shape sub /\
    (0 < n -> u_cell e = u_cell sub /\ u_scheme e = u_scheme sub) /\ (n = 0 -> u_cell e = None /\ u_scheme e = None)).
Proof.
  assert (P : forall s, prod s = size s) by (induction s0 as [|n s0 IH]; [reflexivity|]; cbn [prod]; rewrite IH; reflexivity).
  intros H. apply mk_tensor_inv in H as (a & sh & sy & t & n & -> & _ & _ & _ & _ & D & a' & A & E). exists sh. cbn [u_attrs].
  split; [destruct shape as [x|]; [left; congruence|right; auto]|]. rewrite E. cbn [at_family]. split; [reflexivity|]. split; [reflexivity|].
  exists sy, t, n. split; [reflexivity|]. split; [unfold u_shape at 1; cbn [u_attrs at_shape]; now rewrite P|]. unfold u_cell, u_scheme. cbn [u_attrs at_cell at_scheme]. split.
  - intros N. destruct n as [|n]; [lia|]. exact (copies_attrs _ _ _ _ A).
  - intros ->. cbn in A. injection A as <-. split; reflexivity.
Qed.

(** ** Products *)
Lemma product_ok es c e : mk_tensor_product es c = Ok e -> es <> [] /\ exists cell,
  (c = Some cell \/ c = None /\ exists cs, cell = ProductCell cs /\ map u_cell es = map Some cs) /\
  u_attrs e = mkAttrs "TensorProductElement"%string (Some cell) (DTuple (map u_degree es)) None (concat (map u_shape es)) /\
  length (concat (map u_shape es)) <= 1.
Proof.
  intros H. apply mk_tensor_product_inv in H as (cell & -> & N & L & C). split; [exact N|]. exists cell. rewrite <- flat_map_concat_map. split; [|split; [reflexivity|exact L]].
  destruct c as [c|]; [left; congruence|right; auto].
Qed.
Lemma product_accepted es c : es <> [] -> length (concat (map u_shape es)) <= 1 -> (c = None -> Forall (fun e => u_cell e <> None) es) ->
  exists e, mk_tensor_product es c = Ok e.
Proof.
  intros N L C. unfold mk_tensor_product. destruct es as [|e0 es]; [now destruct N|].
  assert (X : exists cell, match c with None => do cs <- mapM (fun e => match u_cell e with None => Err ValueError | Some c => Ok c end) (e0 :: es) ;; Ok (ProductCell cs)
                              | Some c => Ok c end = Ok cell).
  { destruct c as [c|]; [eauto|]. specialize (C eq_refl). clear -C.
    enough (exists cs, mapM (fun e => match u_cell e with None => Err ValueError | Some c => Ok c end) (e0 :: es) = Ok cs) as [cs ->] by (cbn [bind]; eauto).
    induction C as [|e l H F [cs IH]]; cbn [mapM]; [eauto|]. destruct (u_cell e); [|now destruct H]. cbn [bind]. rewrite IH. cbn [bind]. eauto. }
  destruct X as [cell ->]. cbn [bind]. rewrite flat_map_concat_map. apply Nat.leb_le in L. rewrite L. cbn [guard bind]. eauto.
Qed.
Lemma product_refused es c : es = [] \/ 1 < length (concat (map u_shape es)) \/ (c = None /\ ~ Forall (fun e => u_cell e <> None) es) ->
  mk_tensor_product es c = Err ValueError.
Proof.
  unfold mk_tensor_product. destruct es as [|e0 es]; [reflexivity|]. intros [N|H]; [discriminate N|].
  assert (X : (c = None -> Forall (fun e => u_cell e <> None) (e0 :: es)) /\ (exists cell, match c with None => do cs <- mapM (fun e => match u_cell e with None => Err ValueError | Some c => Ok c end) (e0 :: es) ;; Ok (ProductCell cs)
                              | Some c => Ok c end = Ok cell) \/
     match c with None => do cs <- mapM (fun e => match u_cell e with None => Err ValueError | Some c => Ok c end) (e0 :: es) ;; Ok (ProductCell cs)
                              | Some c => Ok c end = Err ValueError).
  { destruct c as [c|]; [left; split; [discriminate|eauto]|]. clear H.
    assert (Y : (Forall (fun e => u_cell e <> None) (e0 :: es) /\ exists cs, mapM (fun e => match u_cell e with None => Err ValueError | Some c => Ok c end) (e0 :: es) = Ok cs) \/
      mapM (fun e => match u_cell e with None => Err ValueError | Some c => Ok c end) (e0 :: es) = Err ValueError).
    { generalize (e0 :: es). induction l as [|e l IH]; cbn [mapM]; [left; split; [constructor|eauto]|].
      destruct (u_cell e) eqn:E; [|now right]. cbn [bind]. destruct IH as [[F [cs ->]]| ->]; cbn [bind]; [left|now right].
      split; [constructor; [congruence|exact F]|eauto]. }
    destruct Y as [[F [cs ->]]| ->]; cbn [bind]; [left; split; [auto|eauto]|now right]. }
  destruct X as [[F [cell ->]]| ->]; [|reflexivity]. cbn [bind]. rewrite flat_map_concat_map.
  destruct (Nat.leb_spec (length (concat (map u_shape (e0 :: es)))) 1) as [L|L]; [|reflexivity].
  destruct H as [H|[E H]]; [lia|]. now destruct H; apply F.
Qed.

(** ** Wrappers *)
Lemma hdiv_spec sub : match u_cell sub with
  | None => mk_hdiv sub = Err AttributeError /\ mk_hcurl sub = Err AttributeError
  | Some c => exists e e', mk_hdiv sub = Ok e /\ mk_hcurl sub = Ok e' /\ u_attrs e = u_attrs e' /\
      u_attrs e = mkAttrs "TensorProductElement"%string (u_cell sub) (u_degree sub) (u_scheme sub) [ucell_dim c]
  end.
Proof.
  unfold mk_hdiv, mk_hcurl, wrapped_attrs. destruct (u_cell sub) as [c|]; [|split; reflexivity]. cbn [bind]. do 2 eexists. repeat split.
Qed.
Lemma restricted_spec sub dom : (In dom ["interior"; "facet"; "face"; "edge"; "vertex"; "reduced"]%string -> exists e, mk_restricted sub dom = Ok e /\
    u_attrs e = mkAttrs "RestrictedElement"%string (u_cell sub) (u_degree sub) (u_scheme sub) (u_shape sub)) /\
  (~ In dom ["interior"; "facet"; "face"; "edge"; "vertex"; "reduced"]%string -> mk_restricted sub dom = Err ValueError).
Proof.
  unfold mk_restricted. assert (X : existsb (String.eqb dom) valid_restriction_domains = true <-> In dom valid_restriction_domains).
  { rewrite existsb_exists. split; [intros (x & I & E); apply String.eqb_eq in E; congruence|]. intros I. exists dom. split; [exact I|apply String.eqb_refl]. }
  change ["interior"; "facet"; "face"; "edge"; "vertex"; "reduced"]%string with valid_restriction_domains.
  destruct (existsb _ _); split; intros H.
  - cbn [guard bind]. eexists. split; reflexivity.
  - destruct H. now apply X.
  - apply X in H. discriminate H.
  - reflexivity.
Qed.
Lemma with_mapping_spec sub m : m <> "symmetries"%string -> exists e, mk_with_mapping sub m = Ok e /\
  at_family (u_attrs e) = at_family (u_attrs sub) /\ u_cell e = u_cell sub /\ u_degree e = u_degree sub /\ u_scheme e = u_scheme sub.
Proof. intros N. unfold mk_with_mapping. apply String.eqb_neq in N. rewrite N. cbn [negb guard bind]. eexists. split; [reflexivity|]. repeat split. Qed.
Lemma with_mapping_refused sub : mk_with_mapping sub "symmetries" = Err ValueError.
Proof. reflexivity. Qed.
Lemma wrappers sub : (forall m, m <> "symmetries"%string -> exists e, mk_with_mapping sub m = Ok e /\
    at_family (u_attrs e) = at_family (u_attrs sub) /\ u_cell e = u_cell sub /\ u_degree e = u_degree sub /\ u_scheme e = u_scheme sub) /\
  mk_with_mapping sub "symmetries" = Err ValueError /\
  exists e, mk_broken sub = Ok e /\ u_attrs e = mkAttrs "BrokenElement"%string (u_cell sub) (u_degree sub) (u_scheme sub) (u_shape sub).
Proof. split; [intros m; apply with_mapping_spec|]. split; [apply with_mapping_refused|]. eexists. split; reflexivity. Qed.

Lemma mixed_ok es e : mk_mixed es = Ok e ->
  all_equal (defined (map u_cell es)) /\ all_equal (map u_scheme es) /\
  at_family (u_attrs e) = "Mixed"%string /\ u_cell e = hd_error (defined (map u_cell es)) /\ u_scheme e = hd None (map u_scheme es) /\
  u_shape e = [total_size (map u_shape es)] /\ mixed_degree (given (map u_degree es)) (u_degree e).
Proof. intros H. apply mk_mixed_inv in H as (a & -> & H). exact (mixed_attrs_ok es None a H). Qed.
Lemma mixed_accepted es : all_equal (defined (map u_cell es)) -> all_equal (map u_scheme es) -> mixable (given (map u_degree es)) -> exists e, mk_mixed es = Ok e.
Proof. intros C S D. unfold mk_mixed. destruct (mixed_attrs_accepted es None C S D) as [a ->]. cbn [bind]. eauto. Qed.
Lemma mixed_refused es :
  (~ all_equal (defined (map u_cell es)) \/ ~ all_equal (map u_scheme es) -> mk_mixed es = Err ValueError) /\
  (all_equal (defined (map u_cell es)) -> all_equal (map u_scheme es) ->
    (~ Forall flat (given (map u_degree es)) -> mk_mixed es = Err TypeError) /\
    (Forall flat (given (map u_degree es)) -> ~ mixable (given (map u_degree es)) -> mk_mixed es = Err ValueError)).
Proof.
  unfold mk_mixed. destruct (mixed_attrs_refused es None) as [A B]. split.
  - intros H. now rewrite A.
  - intros C S. destruct (B C S) as [T V]. split; intros H; [now rewrite T|]. intros N. now rewrite V.
Qed.
Lemma tensor_refused sub shape n : (u_cell sub = None -> forall s, mk_tensor sub None s = Err ValueError) /\
  (~ flat_or_none (u_degree sub) -> mk_tensor sub (Some (S n :: shape)) NoSym = Err TypeError \/ size (S n :: shape) = 0).
Proof.
  split.
  - intros C s. unfold mk_tensor. now rewrite C.
  - intros F. destruct (size (S n :: shape)) as [|m] eqn:Z; [now right|]. left. unfold mk_tensor. cbn [bind symmetry_of check_symmetry mapM].
    assert (N : number_free [] (compute_indices (S n :: shape)) = (fst (number_free [] (compute_indices (S n :: shape))), S m)).
    { assert (L : length (compute_indices (S n :: shape)) = S m).
      { rewrite <- Z. unfold compute_indices, size. generalize (S n :: shape). induction l as [|k l IH]; [reflexivity|]. cbn [map cart fold_right].
        rewrite <- IH. generalize (cart (map (seq 0) l)). intros c. clear. generalize 0. induction k as [|k IHk]; intros b; [reflexivity|]. cbn [seq flat_map]. rewrite app_length, map_length, (IHk (S b)). lia. }
      unfold number_free. rewrite <- L. generalize (compute_indices (S n :: shape)). intros l. rewrite surjective_pairing at 1. f_equal.
      assert (K : forall d k, snd (fold_left (fun acc i => let (d, n) := (acc : list (index * nat) * nat) in
               if dict_mem index_eqb ([] : symmetry) i then (d, n) else (dict_set index_eqb d i n, S n)) l (d, k)) = k + length l).
      { induction l as [|i l IH]; intros d k; cbn [fold_left length]; [cbn; lia|]. cbn [dict_mem existsb]. rewrite IH. lia. }
      now rewrite K. }
    rewrite N. generalize (fst (number_free [] (compute_indices (S n :: shape)))). intros d. clear N Z.
    assert (M : number_symmetric [] (compute_indices (S n :: shape)) d = Ok d).
    { unfold number_symmetric. generalize (compute_indices (S n :: shape)). induction l as [|i l IH]; [reflexivity|]. cbn [fold_left bind dict_get]. exact IH. }
    rewrite M. cbn [bind]. now rewrite copies_refused.
Qed.
