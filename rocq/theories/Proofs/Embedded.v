(** Embedded degrees. *)
From Coq Require Import Ascii String List ZArith Bool Lia.
From Verif Require Import Model.Prelude Model.Registry Model.UflElement Spec.Registry Spec.UflElement
  Proofs.Lists Proofs.Canonical Proofs.Repr Proofs.Rebuild.
Import ListNotations.
Open Scope list_scope.

(** ** Extremes of ints *)
Definition ext (t : bool) (l : list Z) (z : Z) : Prop := if t then greatest l z else least l z.
Definition extreme (t : bool) := if t then py_max else py_min.
Lemma ext_one t x : ext t [x] x.
Proof. destruct t; (split; [now left|]); intros y [->|[]]; lia. Qed.
Lemma ext_unique t l x y : ext t l x -> ext t l y -> x = y.
Proof. destruct t; intros [I H] [J G]; [specialize (H _ J); specialize (G _ I)|specialize (H _ J); specialize (G _ I)]; lia. Qed.
Definition pick2 (t : bool) (x y : Z) : Z := if t then (if Z.ltb x y then y else x) else (if Z.ltb y x then y else x).
Lemma ext_cons t x y l z : ext t (pick2 t x y :: l) z -> ext t (x :: y :: l) z.
Proof.
  destruct t; unfold pick2; intros [I H]; (split; [|]).
  - destruct (Z.ltb_spec x y); destruct I as [<-|I]; cbn; auto.
  - intros w W. destruct (Z.ltb_spec x y) as [L|L]; pose proof (H _ (or_introl eq_refl)); destruct W as [<-|[<-|W]]; try lia; apply H; cbn; auto.
  - destruct (Z.ltb_spec y x); destruct I as [<-|I]; cbn; auto.
  - intros w W. destruct (Z.ltb_spec y x) as [L|L]; pose proof (H _ (or_introl eq_refl)); destruct W as [<-|[<-|W]]; try lia; apply H; cbn; auto.
Qed.
Definition step (t : bool) (acc : result udeg) (y : udeg) : result udeg :=
  do b <- acc ;; do c <- (if t then deg_lt b y else deg_lt y b) ;; Ok (if c : bool then y else b).
Lemma extreme_fold t l : extreme t l = match l with [] => Err ValueError | x :: r => fold_left (step t) r (Ok x) end.
Proof. now destruct t. Qed.
Lemma step_err t l x : fold_left (step t) l (Err x) = Err x.
Proof. induction l as [|y l IH]; [reflexivity|]. exact IH. Qed.
Lemma step_ints t x y : step t (Ok (DInt x)) (DInt y) = Ok (DInt (pick2 t x y)).
Proof. destruct t; unfold step, pick2; cbn [bind deg_lt]; destruct (Z.ltb _ _); reflexivity. Qed.
Lemma fold_ints t : forall l x z, fold_left (step t) (map DInt l) (Ok (DInt x)) = Ok (DInt z) <-> ext t (x :: l) z.
Proof.
  induction l as [|y l IH]; intros x z; cbn [map fold_left].
  - split; [intros [= ->]; apply ext_one|]. intros H. now rewrite (ext_unique _ _ _ _ H (ext_one t x)).
  - rewrite step_ints, IH. split; [apply ext_cons|]. intros H.
    assert (G : exists w, ext t (pick2 t x y :: l) w).
    { clear. revert x y. induction l as [|u l IHl]; intros x y; [eexists; apply ext_one|].
      destruct (IHl (pick2 t x y) u) as [w W]. exists w. now apply ext_cons. }
    destruct G as [w W]. now rewrite (ext_unique _ _ _ _ H (ext_cons _ _ _ _ _ W)).
Qed.
Lemma fold_int t : forall l x z, fold_left (step t) l (Ok x) = Ok (DInt z) -> exists zs y, l = map DInt zs /\ x = DInt y.
Proof.
  induction l as [|y l IH]; intros x z H; cbn [fold_left] in H.
  - injection H as ->. now exists [], z.
  - destruct (step t (Ok x) y) as [w|er] eqn:S; [|rewrite step_err in H; discriminate H].
    apply IH in H as (zs & v & -> & ->). unfold step in S. cbn [bind] in S.
    destruct x as [|x|x], y as [|y|y]; try (destruct t; cbn [deg_lt bind] in S; discriminate S).
    + now exists (y :: zs), x.
    + exfalso. destruct t; match type of S with context [bind ?r _] => destruct r as [[|]|] end; discriminate S.
Qed.
Lemma extreme_int t l z : extreme t l = Ok (DInt z) <-> exists zs, l = map DInt zs /\ ext t zs z.
Proof.
  rewrite extreme_fold. split.
  - destruct l as [|x l]; [discriminate|]. intros H. pose proof H as H'. apply fold_int in H' as (zs & y & -> & ->).
    apply fold_ints in H. now exists (y :: zs).
  - intros (zs & -> & H). destruct zs as [|y zs]; [destruct t; destruct H as [[] _]|]. now apply fold_ints.
Qed.
Lemma sum_ints : forall l x, fold_left (fun acc y => do b <- acc ;;
    match b, y with DInt b, DInt y => Ok (DInt (b + y)) | _, _ => Err TypeError end) (map DInt l) (Ok (DInt x)) = Ok (DInt (x + total l)).
Proof.
  induction l as [|y l IH]; intros x; cbn [map fold_left bind]; [now rewrite Z.add_0_r|]. rewrite IH. cbn [total fold_right]. do 2 f_equal. unfold total. lia.
Qed.
Lemma sum_int l z : py_sum (map DInt l) = Ok (DInt z) <-> z = total l.
Proof. unfold py_sum. rewrite sum_ints. split; [intros [= <-]; lia|]. intros ->. do 2 f_equal. Qed.

(** ** One description *)
Lemma ext_app t l m x z : ext t l x -> ext t (x :: m) z -> ext t (l ++ m) z.
Proof.
  destruct t; intros [I H] [J G]; split.
  - apply in_app_iff. destruct J as [<-|J]; auto.
  - intros y Y. apply in_app_iff in Y as [Y|Y]; [|apply G; now right]. specialize (H _ Y). specialize (G _ (or_introl eq_refl)). lia.
  - apply in_app_iff. destruct J as [<-|J]; auto.
  - intros y Y. apply in_app_iff in Y as [Y|Y]; [|apply G; now right]. specialize (H _ Y). specialize (G _ (or_introl eq_refl)). lia.
Qed.
Lemma ext_exists t x l : exists z, ext t (x :: l) z.
Proof.
  revert x. induction l as [|u l IH]; intros x; [eexists; apply ext_one|]. destruct (IH (pick2 t x u)) as [w W]. exists w. now apply ext_cons.
Qed.
Lemma finite_int t d z : finite_bound (extreme t) d = Ok (DInt z) <-> exists l, described_degrees d = Some l /\ ext t l z.
Proof.
  assert (T : forall b l, extreme t (map DInt l) = Ok (DInt b) -> forall z,
     (match ds_embedded d with Order y => extreme t [DInt b; DInt y] | _ => Ok (DInt b) end) = Ok (DInt z) <->
     ext t (l ++ match ds_embedded d with Order y => [y] | _ => [] end) z).
  { intros b l H w. apply extreme_int in H as (zs & E & H). assert (l = zs) as <-.
    { clear -E. revert zs E. induction l as [|x l IH]; intros [|y zs]; cbn; try discriminate; [reflexivity|]. intros [= -> E]. f_equal. auto. }
    destruct (ds_embedded d) as [|y|].
    - rewrite app_nil_r. split; [now intros [= <-]|]. intros K. now rewrite (ext_unique _ _ _ _ H K).
    - change [DInt b; DInt y] with (map DInt [b; y]). split.
      + intros K. apply extreme_int in K as (zs & E' & K). destruct zs as [|? [|? [|]]]; try discriminate E'. injection E' as <- <-.
        now apply (ext_app t l [y] b).
      + intros K. apply extreme_int. exists [b; y]. split; [reflexivity|]. destruct (ext_exists t b [y]) as [w' W].
        now rewrite (ext_unique _ _ _ _ K (ext_app t l [y] b w' H W)).
    - rewrite app_nil_r. split; [now intros [= <-]|]. intros K. now rewrite (ext_unique _ _ _ _ H K). }
  unfold finite_bound, described_degrees. destruct (ds_order d) as [|x|l].
  - cbn [bind]. split; [discriminate|]. now intros (l & [=] & _).
  - cbn [bind]. rewrite (T x [x]).
    + cbn [app]. split; [eauto|]. now intros (l & [= <-] & H).
    + apply extreme_int. exists [x]. split; [reflexivity|apply ext_one].
  - destruct l as [|x l].
    + rewrite extreme_fold. cbn [map bind]. split; [discriminate|]. now intros (m & [=] & _).
    + destruct (ext_exists t x l) as [b B]. assert (E : extreme t (map DInt (x :: l)) = Ok (DInt b)) by (apply extreme_int; eauto).
      rewrite E. cbn [bind]. rewrite (T b (x :: l) E). cbn [app]. split; [eauto|]. now intros (m & [= <-] & H).
Qed.

(** ** Trees *)
Definition stripped (e : uel) : uel := match bare e with URestricted _ t _ => t | b => b end.
Lemma through_bare t : forall s m, embedded t (UWithMapping s m) = embedded t (stripped s).
Proof.
  induction s using uel_ind'; intros m0; try reflexivity. change (stripped (UWithMapping s m)) with (stripped s). rewrite <- (IHs m).
  cbn [embedded]. destruct (inner_element s); reflexivity.
Qed.
Section Strip.
  Variable P : uel -> Prop.
  Hypothesis HF : forall d c s v, P (UFinite d c s v).
  Hypothesis HM : forall a l, Forall P l -> P (UMixed a l).
  Hypothesis HV : forall a e n, P e -> P (UVector a e n).
  Hypothesis HT : forall a e sh sy t n, P e -> P (UTensor a e sh sy t n).
  Hypothesis HP : forall a l c, P (UTensorProduct a l c).
  Hypothesis HE : forall b a l, Forall P l -> P (UEnriched b a l).
  Hypothesis HD : forall a e, P e -> P (UHDiv a e).
  Hypothesis HC : forall a e, P e -> P (UHCurl a e).
  Hypothesis HW : forall e m, P (stripped e) -> P (UWithMapping e m).
  Hypothesis HB : forall a e, P e -> P (UBroken a e).
  Hypothesis HR : forall a e d, P e -> P (URestricted a e d).
  Lemma strip_ind e : P e.
  Proof.
    assert (H : P e /\ P (stripped e)); [|apply H].
    assert (F : forall l, Forall (fun e => P e /\ P (stripped e)) l -> Forall P l) by (intros l; apply Forall_impl; tauto).
    induction e using uel_ind'.
    - split; apply HF.
    - split; apply HM; auto.
    - split; apply HV; tauto.
    - split; apply HT; tauto.
    - split; apply HP.
    - split; apply HE; auto.
    - split; apply HD; tauto.
    - split; apply HC; tauto.
    - change (stripped (UWithMapping e m)) with (stripped e). split; [apply HW|]; tauto.
    - split; apply HB; tauto.
    - split; [apply HR|]; tauto.
  Qed.
End Strip.
Lemma built_stripped e : built e -> built (stripped e).
Proof.
  induction e using uel_ind'; try exact (fun H => H).
  - intros B. apply built_made in B as [B _]. auto.
  - intros B. apply built_made in B as [B _]. auto.
Qed.
Lemma sequence_ints (f : uel -> result udeg) l zs : sequence (map f l) = Ok (map DInt zs) <-> Forall2 (fun e z => f e = Ok (DInt z)) l zs.
Proof.
  unfold sequence. revert zs. induction l as [|e l IH]; intros zs; cbn [map mapM].
  - split; [intros [= H]; destruct zs; [constructor|discriminate H]|]. intros H. inversion H. reflexivity.
  - split.
    + intros H. binds H. destruct zs as [|z zs]; [discriminate H|]. injection H as -> ->. constructor; [exact E|]. now apply IH.
    + intros H. inversion H as [|? z ? zs' H1 H2]; subst. rewrite H1. cbn [bind]. apply IH in H2. rewrite H2. reflexivity.
Qed.
Definition measured (e : uel) : Prop := built e -> forall lo hi,
  (embedded_subdegree e = Ok (DInt lo) /\ embedded_superdegree e = Ok (DInt hi)) <-> bounds e lo hi.
Definition combined (f : bool -> list uel -> result udeg) := forall t l, f t l = do m <- sequence (map (embedded t) l) ;; extreme t m.
Lemma combined_int t l z : (do m <- sequence (map (embedded t) l) ;; extreme t m) = Ok (DInt z) <->
  exists zs, Forall2 (fun e z => embedded t e = Ok (DInt z)) l zs /\ ext t zs z.
Proof.
  split.
  - intros H. binds H. apply extreme_int in H as (zs & -> & H). exists zs. split; [|exact H]. now apply sequence_ints.
  - intros (zs & F & H). apply sequence_ints in F. rewrite F. cbn [bind]. apply extreme_int. eauto.
Qed.
Lemma combined_bounds l lo hi : Forall measured l -> Forall built l ->
  ((do m <- sequence (map (embedded false) l) ;; extreme false m) = Ok (DInt lo) /\
   (do m <- sequence (map (embedded true) l) ;; extreme true m) = Ok (DInt hi)) <->
  exists bs, Forall2 (fun e b => bounds e (fst b) (snd b)) l bs /\ least (map fst bs) lo /\ greatest (map snd bs) hi.
Proof.
  intros M B. rewrite !combined_int. split.
  - intros ((zs & F & H) & (ws & G & K)). exists (combine zs ws).
    assert (Q : Forall2 (fun e b => bounds e (fst b) (snd b)) l (combine zs ws) /\ map fst (combine zs ws) = zs /\ map snd (combine zs ws) = ws).
    { clear H K. revert ws G. induction F as [|e z l zs E F IH]; intros ws G; inversion G as [|? w ? ws' E' G']; subst; [split; [constructor|now split]|].
      inversion M as [|? ? M1 M2]; subst. inversion B as [|? ? B1 B2]; subst. destruct (IH M2 B2 _ G') as (Q1 & Q2 & Q3).
      cbn [combine map fst snd]. repeat split; [|congruence|congruence]. constructor; [|exact Q1]. cbn [fst snd]. apply (M1 B1). now split. }
    destruct Q as (Q1 & -> & ->). split; [exact Q1|]. now split.
  - intros (bs & F & H & K). split; [exists (map fst bs)|exists (map snd bs)]; (split; [|assumption]); clear H K;
      (induction F as [|e b l bs E F IH]; cbn [map]; constructor; inversion M as [|? ? M1 M2]; subst; inversion B as [|? ? B1 B2]; subst; [apply (M1 B1) in E; tauto|auto]).
Qed.
Lemma repeat_ints t x n z : 0 < n -> (extreme t (repeat x n) = Ok (DInt z) <-> x = DInt z).
Proof.
  intros N. rewrite extreme_int. destruct n as [|n]; [lia|]. split.
  - intros (zs & E & H). destruct zs as [|y zs]; [discriminate E|]. cbn [repeat map] in E. injection E as -> E. f_equal.
    assert (A : forall w, In w zs -> w = y).
    { intros w W. apply (in_map DInt) in W. rewrite <- E in W. apply repeat_spec in W. now injection W as ->. }
    destruct t; destruct H as [[<-|I] _]; auto; symmetry; auto.
  - intros ->. exists (repeat z (S n)). split; [now rewrite repeat_map|]. destruct t; (split; [now left|]); intros w W; apply repeat_spec in W; lia.
Qed.
Lemma copies_int t e n z : (match n with 0 => Err ValueError | _ => do x <- embedded t e ;; extreme t (repeat x n) end) = Ok (DInt z) <->
  0 < n /\ embedded t e = Ok (DInt z).
Proof.
  destruct n as [|n]; [split; [discriminate|intros [H _]; lia]|]. split.
  - intros H. destruct (embedded t e) as [x|er]; [|discriminate H]. cbn [bind] in H. apply repeat_ints in H as ->; [|lia]. split; [lia|reflexivity].
  - intros [_ ->]. cbn [bind]. apply repeat_ints; [lia|reflexivity].
Qed.
Lemma degrees_bounds e : measured e.
Proof.
  induction e using strip_ind; intros B lo hi; pose proof (built_made _ B) as Md; cbn [made] in Md.
  - unfold embedded_subdegree, embedded_superdegree. cbn [embedded]. rewrite (finite_int false), (finite_int true). split.
    + intros ((l & D & L) & (l' & D' & L')). rewrite D in D'. injection D' as <-. now apply (bounds_finite d c s v l).
    + intros K. inversion K; subst. split; eauto.
  - destruct Md as [Bl _]. transitivity (exists bs, Forall2 (fun e b => bounds e (fst b) (snd b)) l bs /\ least (map fst bs) lo /\ greatest (map snd bs) hi).
    + now apply combined_bounds.
    + split; [intros (bs & F & L & G); now apply (bounds_mixed a l bs)|]. intros K. inversion K; subst. eauto.
  - destruct Md as [Bs _]. unfold embedded_subdegree, embedded_superdegree. cbn [embedded].
    change py_min with (extreme false). change py_max with (extreme true). rewrite !copies_int. specialize (IHe Bs lo hi). split.
    + intros ((N & E1) & (_ & E2)). constructor; [exact N|]. apply IHe. now split.
    + intros K. inversion K; subst. tauto.
  - destruct Md as [Bs _]. unfold embedded_subdegree, embedded_superdegree. cbn [embedded].
    change py_min with (extreme false). change py_max with (extreme true). rewrite !copies_int. specialize (IHe Bs lo hi). split.
    + intros ((N & E1) & (_ & E2)). constructor; [exact N|]. apply IHe. now split.
    + intros K. inversion K; subst. tauto.
  - destruct Md as [Bl Mk]. apply mk_tensor_product_inv in Mk as (cell & E & _). injection E as -> _. unfold embedded_subdegree, embedded_superdegree.
    cbn [embedded at_degree]. change py_min with (extreme false). rewrite extreme_int. split.
    + intros ((zs & E & L) & S). rewrite E in S. apply sum_int in S as ->. now constructor.
    + intros K. inversion K as [| | | | |? ? ? zs ? E L| | | | |]; subst. rewrite E. split; [eauto|]. now apply sum_int.
  - destruct Md as [Bl _]. transitivity (exists bs, Forall2 (fun e b => bounds e (fst b) (snd b)) l bs /\ least (map fst bs) lo /\ greatest (map snd bs) hi).
    + now apply combined_bounds.
    + split; [intros (bs & F & L & G); now apply (bounds_enriched b a l bs)|]. intros K. inversion K; subst. eauto.
  - destruct Md as [Bs _]. specialize (IHe Bs lo hi). change (embedded_subdegree e = Ok (DInt lo) /\ embedded_superdegree e = Ok (DInt hi) <-> bounds (UHDiv a e) lo hi).
    rewrite IHe. split; [now constructor|]. intros K. now inversion K.
  - destruct Md as [Bs _]. specialize (IHe Bs lo hi). change (embedded_subdegree e = Ok (DInt lo) /\ embedded_superdegree e = Ok (DInt hi) <-> bounds (UHCurl a e) lo hi).
    rewrite IHe. split; [now constructor|]. intros K. now inversion K.
  - destruct Md as [Bs _]. unfold embedded_subdegree, embedded_superdegree. rewrite !through_bare.
    specialize (IHe (built_stripped _ Bs) lo hi). unfold embedded_subdegree, embedded_superdegree in IHe. rewrite IHe. split; [now constructor|]. intros K. now inversion K.
  - destruct Md as [Bs _]. specialize (IHe Bs lo hi). change (embedded_subdegree e = Ok (DInt lo) /\ embedded_superdegree e = Ok (DInt hi) <-> bounds (UBroken a e) lo hi).
    rewrite IHe. split; [now constructor|]. intros K. now inversion K.
  - destruct Md as [Bs Mk]. apply mk_restricted_inv in Mk as (E & _). injection E as ->. unfold embedded_subdegree, embedded_superdegree. cbn [embedded at_degree]. split.
    + intros [H1 H2]. injection H1 as H1. injection H2 as H2. rewrite H1 in H2. injection H2 as <-. now constructor.
    + intros K. inversion K as [| | | | | | | | |? ? ? ? D|]; subst. rewrite D. now split.
Qed.

(** ** Order of the bounds *)
Lemma scalar_ranges d : registered d -> fd_rank d = 0 -> exists lo hi, fd_range d = Some (Some lo, hi) /\ (0 <= lo)%Z.
Proof.
  intros R K. unfold registered in R.
  assert (A : forallb (fun c => match c with
                | Element _ _ 0 _ _ (Some (Some lo, _)) _ => Z.leb 0 lo
                | Element _ _ 0 _ _ _ _ => false
                | _ => true end) builtin_calls = true) by (vm_compute; reflexivity).
  rewrite forallb_forall in A. apply A in R. rewrite K in R. destruct (fd_range d) as [[[lo|] hi]|]; try discriminate R.
  exists lo, hi. split; [reflexivity|]. now apply Z.leb_le.
Qed.
Lemma scalar_degree e z : built e -> u_shape e = [] -> u_degree e = DInt z -> (0 <= z)%Z.
Proof.
  intros B. induction B as [f c o k s v d c' s' v' H|es e B IH H|sub dim e B IH H|sub shape sym e B IH H|es c e B IH H|nodal es e B IH H
                 |sub e B IH H|sub e B IH H|sub m e B IH H|sub e B IH H|sub dom e B IH H] using built_ind'; intros S D.
  - apply mk_finite_plain, plain_finite_inv in H as (d0 & E & Ds & _). injection E as <- -> -> ->.
    unfold describe_name in Ds. destruct (canonical builtins 3 f c o k) as [r|] eqn:C; [|discriminate Ds]. subst r.
    apply canonical_ok in C as (fd & R & (_ & A & _ & _ & _ & Sh & _)). unfold u_shape in S. unfold u_degree in D. cbn [u_attrs at_shape at_degree] in S, D.
    assert (K : fd_rank fd = 0). { unfold shape_of in Sh. destruct c as [c|]; [|tauto]. rewrite S in Sh. destruct (fd_rank fd); [reflexivity|discriminate Sh]. }
    destruct (scalar_ranges fd R K) as (lo & hi & Rg & Z0). unfold order_allowed in A. destruct (ds_order d) as [|y|]; try discriminate D.
    injection D as ->. destruct A as (lo' & hi' & E & W & _). rewrite Rg in E. injection E as <- <-. cbn in W. lia.
  - apply mk_mixed_inv in H as (a & -> & A). unfold mixed_attrs in A. binds A. injection A as <-. discriminate S.
  - apply mk_vector_inv in H as (n & a & -> & _). discriminate S.
  - apply mk_tensor_inv in H as (a & sh & sy & t & n & -> & _ & _ & _ & _ & _ & a' & _ & ->).
    unfold u_shape in S. unfold u_degree in D. cbn [u_attrs at_shape at_degree] in S, D. destruct sy; [|discriminate S].
    apply app_eq_nil in S as [_ S]. auto.
  - apply mk_tensor_product_inv in H as (cell & -> & _). discriminate D.
  - unfold mk_enriched in H. destruct es as [|e0 rest]; [discriminate H|]. binds H. injection H as <-.
    unfold u_shape in S. unfold u_degree in D. cbn [u_attrs at_shape at_degree] in S, D. fold (u_shape e0) in S.
    apply guard_true in E2. rewrite forallb_forall in E2.
    assert (All : forall e, In e (e0 :: rest) -> u_shape e = []).
    { intros e [<-|I]; [exact S|]. apply E2 in I. rewrite S in I. destruct (u_shape e); [reflexivity|discriminate I]. }
    destruct (u_degree e0) as [|x|l] eqn:D0; [now binds E0; subst; try discriminate| |binds E0; injection E0 as <-; discriminate D].
    subst v0. apply (extreme_int true) in E0 as (zs & Ez & [I _]). apply (in_map DInt) in I. rewrite <- Ez in I. apply filter_In in I as [I _].
    apply in_map_iff in I as (e & De & I). rewrite Forall_forall in IH. exact (IH e I (All e I) De).
  - apply mk_hdiv_inv in H as (a & -> & W). unfold wrapped_attrs in W. destruct (u_cell sub); [|discriminate W]. injection W as <-. discriminate S.
  - apply mk_hcurl_inv in H as (a & -> & W). unfold wrapped_attrs in W. destruct (u_cell sub); [|discriminate W]. injection W as <-. discriminate S.
  - apply mk_with_mapping_inv in H as (-> & _). apply IH; [|exact D]. unfold u_shape in *. cbn [u_attrs at_shape] in S. unfold mapped_shape in S.
    destruct (at_cell _); [|exact S]. destruct (_ || _); [discriminate S|]. destruct (_ || _); [discriminate S|exact S].
  - apply mk_broken_inv in H as ->. now apply IH.
  - apply mk_restricted_inv in H as (-> & _). now apply IH.
Qed.
Lemma scalar_total l zs : Forall built l -> map u_degree l = map DInt zs -> length (flat_map u_shape l) = 0 -> (0 <= total zs)%Z.
Proof.
  revert zs. induction l as [|e l IH]; intros [|z zs] B D S; try discriminate D; [reflexivity|]. inversion B; subst. cbn [map] in D. injection D as D1 D2.
  cbn [flat_map] in S. rewrite app_length in S. cbn [total fold_right]. fold (total zs). specialize (IH zs ltac:(assumption) D2 ltac:(lia)).
  assert (0 <= z)%Z; [|lia]. apply (scalar_degree e); auto. destruct (u_shape e); [reflexivity|cbn in S; lia].
Qed.
Lemma factor_total l zs : l <> [] -> Forall built l -> map u_degree l = map DInt zs -> length (flat_map u_shape l) <= 1 -> exists x, In x zs /\ (x <= total zs)%Z.
Proof.
  revert zs. induction l as [|e l IH]; intros [|z zs] N B D S; try discriminate D; [now destruct N|]. inversion B; subst. cbn [map] in D. injection D as D1 D2.
  cbn [flat_map] in S. rewrite app_length in S. cbn [total fold_right]. fold (total zs). destruct (u_shape e) as [|n r] eqn:Sh.
  - pose proof (scalar_degree e z ltac:(assumption) Sh D1) as Z0. destruct l as [|e' l].
    + destruct zs; [|discriminate D2]. exists z. split; [now left|cbn; lia].
    + destruct (IH zs ltac:(discriminate) ltac:(assumption) D2 S) as (x & I & L). exists x. split; [now right|lia].
  - exists z. split; [now left|]. cbn [length] in S. pose proof (scalar_total l zs ltac:(assumption) D2 ltac:(lia)). lia.
Qed.
Lemma bounds_le e : built e -> forall lo hi, bounds e lo hi -> (lo <= hi)%Z.
Proof.
  revert e.
  assert (X : forall l bs lo hi, Forall (fun e => built e -> forall lo hi, bounds e lo hi -> (lo <= hi)%Z) l -> Forall built l ->
     Forall2 (fun e b => bounds e (fst b) (snd b)) l bs -> least (map fst bs) lo -> greatest (map snd bs) hi -> (lo <= hi)%Z).
  { intros l bs lo hi P B F [I _] [_ G]. apply in_map_iff in I as (b & <- & I).
    assert (fst b <= snd b)%Z.
    { clear G. induction F as [|e b' l bs E F IH]; [destruct I|]. inversion P; subst. inversion B; subst. destruct I as [->|I]; auto. }
    specialize (G (snd b) (in_map snd _ _ I)). lia. }
  intros e. induction e using strip_ind; intros B lo hi K; pose proof (built_made _ B) as Md; cbn [made] in Md.
  - inversion K as [? ? ? ? l ? ? D [I1 L1] [I2 L2]| | | | | | | | | |]; subst. auto.
  - destruct Md as [Bl _]. inversion K; subst. eauto.
  - destruct Md as [Bs _]. inversion K; subst. auto.
  - destruct Md as [Bs _]. inversion K; subst. auto.
  - destruct Md as [Bl Mk]. apply mk_tensor_product_inv in Mk as (cell & _ & N & S & _). inversion K as [| | | | |? ? ? zs ? E [_ L]| | | | |]; subst.
    destruct (factor_total l zs N Bl E S) as (x & I & T). specialize (L _ I). lia.
  - destruct Md as [Bl _]. inversion K; subst. eauto.
  - destruct Md as [Bs _]. inversion K; subst. auto.
  - destruct Md as [Bs _]. inversion K; subst. auto.
  - destruct Md as [Bs _]. inversion K; subst. apply IHe; [now apply built_stripped|assumption].
  - destruct Md as [Bs _]. inversion K; subst. auto.
  - inversion K; subst. lia.
Qed.
