(** Python's order of degrees, the greatest degree, columns. *)
From Coq Require Import Ascii String List ZArith Arith Bool Lia.
From Verif Require Import Model.Prelude Model.Registry Model.UflElement Spec.UflElement Spec.Attributes.
From Verif Require Import Proofs.Lists Proofs.Repr.
Import ListNotations.
Open Scope list_scope.

Section DegreeInduction.
  Variable P : udeg -> Prop.
  Hypothesis HN : P DNone.
  Hypothesis HI : forall z, P (DInt z).
  Hypothesis HT : forall l, Forall P l -> P (DTuple l).
  Fixpoint udeg_ind' (d : udeg) : P d :=
    match d with
    | DNone => HN
    | DInt z => HI z
    | DTuple l => HT l ((fix all (l : list udeg) : Forall P l :=
        match l with [] => Forall_nil P | x :: l => Forall_cons x (udeg_ind' x) (all l) end) l)
    end.
End DegreeInduction.

Lemma deg_eqb_eq : forall a b, deg_eqb a b = true <-> a = b.
Proof.
  intros a. induction a as [|x|l IH] using udeg_ind'; intros [|y|m]; cbn [deg_eqb]; try (split; congruence).
  - rewrite Z.eqb_eq. split; congruence.
  - enough (H : (fix go (l m : list udeg) : bool :=
         match l, m with [], [] => true | x :: l, y :: m => deg_eqb x y && go l m | _, _ => false end) l m = true <-> l = m).
    { rewrite H. split; congruence. }
    revert m. induction IH as [|x l Hx F IHl]; intros [|y m]; try (split; congruence).
    rewrite andb_true_iff, Hx, IHl. split; [intros [-> ->]; reflexivity|]. intros E. injection E as -> ->. auto.
Qed.
Lemma deg_eqb_spec a b : reflect (a = b) (deg_eqb a b).
Proof. apply iff_reflect. symmetry. apply deg_eqb_eq. Qed.

(** ** The order *)
Lemma app_same {A} (l : list A) x a y b : l ++ x :: a = l ++ y :: b -> x = y /\ a = b.
Proof. intros H. apply app_inv_head in H. now injection H. Qed.
Lemma below_inv l m : below (DTuple l) (DTuple m) ->
  (exists x r, m = l ++ x :: r) \/ (exists p x y a b, below x y /\ l = p ++ x :: a /\ m = p ++ y :: b).
Proof. intros H. inversion H; subst; [left; eauto|right]. do 5 eexists. eauto. Qed.
Lemma comparable_inv l m : comparable (DTuple l) (DTuple m) ->
  (exists r, m = l ++ r) \/ (exists r, l = m ++ r) \/ (exists p x y a b, x <> y /\ comparable x y /\ l = p ++ x :: a /\ m = p ++ y :: b).
Proof. intros H. inversion H; subst; [left; eauto|right; left; eauto|right; right]. do 5 eexists. eauto. Qed.
Lemma below_irreflexive : forall a, ~ below a a.
Proof.
  intros a. induction a as [|z|l IH] using udeg_ind'; intros H.
  - inversion H.
  - inversion H. lia.
  - apply below_inv in H as [(x & r & E)|(p & x & y & a & b & Hx & E & E')].
    + apply (f_equal (@length _)) in E. rewrite app_length in E. cbn in E. lia.
    + rewrite E in E'. apply app_same in E' as [-> ->]. rewrite Forall_forall in IH. apply (IH y); [|exact Hx]. rewrite E. apply in_or_app. right. now left.
Qed.
Lemma below_head x y l m : x <> y -> below (DTuple (x :: l)) (DTuple (y :: m)) <-> below x y.
Proof.
  intros N. split.
  - intros H. apply below_inv in H as [(z & r & E)|(p & u & v & a & b & Hx & E & E')].
    + injection E as -> _. now destruct N.
    + destruct p as [|w p]; injection E as -> _; injection E' as -> _; [exact Hx|now destruct N].
  - intros H. exact (below_entry [] _ _ _ _ H).
Qed.
Lemma below_tail x l m : below (DTuple (x :: l)) (DTuple (x :: m)) <-> below (DTuple l) (DTuple m).
Proof.
  split; intros H; apply below_inv in H as [(z & r & E)|(p & u & v & a & b & Hx & E & E')].
  - injection E as ->. constructor.
  - destruct p as [|w p]; cbn in E, E'; inversion E; inversion E'.
    + subst. now apply below_irreflexive in Hx.
    + subst. now constructor.
  - subst. exact (below_prefix (x :: l) z r).
  - subst. exact (below_entry (x :: p) u v a b Hx).
Qed.
Lemma below_nil l : below (DTuple l) (DTuple []) -> False.
Proof. intros H. apply below_inv in H as [(z & r & E)|(p & u & v & a & b & Hx & E & E')]; [destruct l; discriminate E|destruct p; discriminate E']. Qed.
Lemma below_trans : forall b a c, below a b -> below b c -> below a c.
Proof.
  intros b. induction b as [|x|m IH] using udeg_ind'; intros a c H K.
  - inversion K.
  - inversion H; subst. inversion K; subst. constructor. lia.
  - destruct a as [| |l]; try (inversion H; fail). destruct c as [| |n]; try (inversion K; fail).
    revert l n H K. induction IH as [|y m Hy F IHm]; intros l n H K; [now apply below_nil in H|].
    destruct n as [|z n]; [now apply below_nil in K|]. destruct l as [|x l]; [exact (below_prefix [] z n)|].
    destruct (deg_eqb_spec x y) as [->|Nx], (deg_eqb_spec y z) as [<-|Nz].
    + rewrite below_tail in *. eauto.
    + rewrite below_head in * by assumption. assumption.
    + rewrite below_head in * by assumption. assumption.
    + rewrite below_head in H by assumption. rewrite below_head in K by assumption.
      assert (B : below x z) by eauto. assert (x <> z) by (intros ->; now apply below_irreflexive in B).
      now rewrite below_head.
Qed.
Lemma comparable_head x y l m : x <> y -> comparable (DTuple (x :: l)) (DTuple (y :: m)) -> comparable x y.
Proof.
  intros N H. apply comparable_inv in H as [(r & E)|[(r & E)|(p & u & v & a & b & Nx & Hx & E & E')]].
  - injection E as -> _. now destruct N.
  - injection E as -> _. now destruct N.
  - destruct p as [|w p]; injection E as -> _; injection E' as -> _; [exact Hx|now destruct N].
Qed.
Lemma comparable_tail x l m : comparable (DTuple (x :: l)) (DTuple (x :: m)) -> comparable (DTuple l) (DTuple m).
Proof.
  intros H. apply comparable_inv in H as [(r & E)|[(r & E)|(p & u & v & a & b & Nx & Hx & E & E')]].
  - injection E as ->. constructor.
  - injection E as ->. constructor.
  - destruct p as [|w p]; cbn in E, E'; inversion E; inversion E'; subst; [now destruct Nx|now constructor].
Qed.
Lemma deg_lt_spec : forall a b, match deg_lt a b with
  | Ok true => below a b
  | Ok false => ~ below a b
  | Err x => x = TypeError /\ ~ comparable a b
  end.
Proof.
  intros a. induction a as [|x|l IH] using udeg_ind'; intros [|y|m]; cbn [deg_lt]; try (split; [reflexivity|intros H; inversion H]; fail).
  - destruct (Z.ltb_spec x y); [now constructor|]. intros K. inversion K. lia.
  - revert m. induction IH as [|x l Hx F IHl]; intros [|y m].
    + intros K. now apply below_nil in K.
    + exact (below_prefix [] y m).
    + intros K. now apply below_nil in K.
    + destruct (deg_eqb_spec x y) as [->|N].
      * specialize (IHl m). destruct ((fix go (l m : list udeg) : result bool :=
         match l, m with _, [] => Ok false | [], _ :: _ => Ok true | x :: l, y :: m => if deg_eqb x y then go l m else deg_lt x y end) l m) as [[|]|].
        -- now apply below_tail.
        -- now rewrite below_tail.
        -- destruct IHl as [E C]. split; [exact E|]. intros K. now apply comparable_tail in K.
      * specialize (Hx y). destruct (deg_lt x y) as [[|]|].
        -- now apply below_head.
        -- now rewrite below_head.
        -- destruct Hx as [E C]. split; [exact E|]. intros K. now apply comparable_head in K.
Qed.

(** ** The greatest *)
Definition better (acc : result udeg) (y : udeg) : result udeg :=
  do b <- acc ;; do c <- deg_lt b y ;; Ok (if c : bool then y else b).
Lemma better_err l x : fold_left better l (Err x) = Err x.
Proof. induction l; [reflexivity|assumption]. Qed.
Lemma py_maxE x l : py_max (x :: l) = fold_left better l (Ok x).
Proof. reflexivity. Qed.
Lemma fold_topmost : forall l x m, fold_left better l (Ok x) = Ok m -> topmost (x :: l) m /\ (m = x \/ below x m).
Proof.
  induction l as [|y l IH]; intros x m H; cbn [fold_left] in H.
  - injection H as <-. split; [|now left]. split; [now left|]. intros y [<-|[]]. apply below_irreflexive.
  - unfold better at 2 in H. cbn [bind] in H. pose proof (deg_lt_spec x y) as S. destruct (deg_lt x y) as [[|]|]; cbn [bind] in H.
    + apply IH in H as [[I T] M]. assert (B : below x m) by (destruct M as [->|M]; [exact S|exact (below_trans _ _ _ S M)]).
      split; [|now right]. split; [now right|]. intros z [<-|Z]; [|now apply T].
      intros C. exact (below_irreflexive _ (below_trans _ _ _ B C)).
    + apply IH in H as [[I T] M]. split; [|exact M]. split; [destruct I as [|I]; [now left|now right; right]|].
      intros z [<-|[<-|Z]]; [apply T; now left| |apply T; now right].
      intros C. destruct M as [->|M]; [exact (S C)|exact (S (below_trans _ _ _ M C))].
    + rewrite better_err in H. discriminate H.
Qed.
Lemma max_topmost l m : py_max l = Ok m -> topmost l m.
Proof. destruct l as [|x l]; [discriminate|]. rewrite py_maxE. intros H. now apply fold_topmost in H. Qed.
Lemma max_accepted l : l <> [] -> (forall x y, In x l -> In y l -> comparable x y) -> exists m, py_max l = Ok m.
Proof.
  destruct l as [|x l]; [now destruct 1|]. intros _. rewrite py_maxE. revert x. induction l as [|y l IH]; intros x C; cbn [fold_left]; [eauto|].
  unfold better at 2. cbn [bind]. pose proof (deg_lt_spec x y) as S. destruct (deg_lt x y) as [b|]; cbn [bind].
  - destruct b; apply IH; intros u v U V; apply C; cbn in *; intuition.
  - destruct S as [_ []]. apply C; cbn; auto.
Qed.
Lemma max_ints : forall l x, exists z, py_max (map DInt (x :: l)) = Ok (DInt z) /\ greatest (x :: l) z.
Proof.
  intros l x. destruct (max_accepted (map DInt (x :: l))) as [m M]; [discriminate| |].
  - intros u v U V. apply in_map_iff in U as (? & <- & _). apply in_map_iff in V as (? & <- & _). constructor.
  - pose proof (max_topmost _ _ M) as [I T]. apply in_map_iff in I as (z & <- & I). exists z. split; [exact M|]. split; [exact I|].
    intros y Y. destruct (Z.le_gt_cases y z) as [|G]; [assumption|]. destruct (T (DInt y)); [now apply in_map|]. constructor. lia.
Qed.
(** A number and a tuple. *)
Lemma max_clash : forall l, (exists z, In (DInt z) l) -> (exists t, In (DTuple t) l) -> Forall (fun d => d <> DNone) l -> py_max l = Err TypeError.
Proof.
  intros l Hz Ht N. destruct l as [|x l]; [destruct Hz as [? []]|]. rewrite py_maxE.
  assert (K : forall l x, Forall (fun d => d <> DNone) (x :: l) ->
    (exists y, In y l /\ match x with DInt _ => exists t, y = DTuple t | _ => exists z, y = DInt z end) -> fold_left better l (Ok x) = Err TypeError).
  { clear. induction l as [|y l IH]; intros x N (w & W & K); [destruct W|]. cbn [fold_left]. unfold better at 2. cbn [bind].
    inversion N as [|? ? Nx Nl]; subst. inversion Nl as [|? ? Ny Nl']; subst.
    pose proof (deg_lt_spec x y) as S. destruct (deg_lt x y) as [b|e] eqn:E; cbn [bind].
    - destruct W as [->|W].
      + destruct x as [|x|x]; [now destruct Nx|destruct K as [t ->]; discriminate E|destruct K as [z ->]; discriminate E].
      + assert (T : match x, y with DInt _, DInt _ => True | DTuple _, DTuple _ => True | _, _ => False end).
        { destruct x, y; try discriminate E; exact I. }
        apply IH; [constructor; [destruct b; assumption|assumption]|]. exists w. split; [exact W|].
        destruct b; [|exact K]. destruct x, y; try contradiction; exact K.
    - destruct S as [-> _]. apply better_err. }
  destruct x as [|x|x]; [inversion N; congruence| |].
  - apply K; [exact N|]. destruct Ht as [t [T|T]]; [discriminate T|]. eauto.
  - apply K; [exact N|]. destruct Hz as [z [Z|Z]]; [discriminate Z|]. eauto.
Qed.

(** ** Columns *)
Lemma heads_ok {A} (rows : list (list A)) l :
  sequence (map (fun r => match r with [] => Err ValueError | x :: r => Ok (x, r) end) rows) = Ok l ->
  rows = map (fun xr => fst xr :: snd xr) l.
Proof.
  unfold sequence. revert l. induction rows as [|r rows IH]; intros l H; cbn [map mapM] in H; [now injection H as <-|].
  destruct r as [|x r]; [discriminate H|]. cbn [bind] in H. binds H. injection H as <-. cbn [map fst snd]. f_equal. now apply IH.
Qed.
Lemma heads_err {A} (rows : list (list A)) x :
  sequence (map (fun r => match r with [] => Err ValueError | x :: r => Ok (x, r) end) rows) = Err x -> In [] rows.
Proof.
  unfold sequence. induction rows as [|r rows IH]; intros H; cbn [map mapM] in H; [discriminate H|].
  destruct r as [|y r]; [now left|]. cbn [bind] in H. right. apply IH. destruct (mapM _ _); [discriminate H|]. now injection H as ->.
Qed.
Lemma columns_spec {A} : forall fuel (rows : list (list A)), 
  (length (columns fuel rows) = fuel \/ exists row, In row rows /\ length row = length (columns fuel rows)) /\
  Forall (fun row => length (columns fuel rows) <= length row) rows /\
  forall i col, nth_error (columns fuel rows) i = Some col -> Forall2 (fun row x => nth_error row i = Some x) rows col.
Proof.
  induction fuel as [|n IH]; intros rows; cbn [columns].
  - split; [now left|]. split; [apply Forall_forall; intros; cbn; lia|]. intros [|i] col H; discriminate H.
  - destruct (sequence _) as [l|x] eqn:E.
    + apply heads_ok in E. destruct (IH (map snd l)) as (L & Le & N). cbn [length]. split; [|split].
      * destruct L as [L|(row & I & L)]; [left; now rewrite L|right]. apply in_map_iff in I as ((x & r) & <- & I). exists (x :: r).
        split; [subst rows; apply in_map_iff; now exists (x, r)|]. cbn [length snd] in *. now rewrite L.
      * subst rows. apply Forall_forall. intros row I. apply in_map_iff in I as ((x & r) & <- & I). cbn [fst snd length].
        rewrite Forall_forall in Le. specialize (Le r). apply le_n_S, Le. apply in_map_iff. now exists (x, r).
      * intros i col H. subst rows. destruct i as [|i]; cbn [nth_error] in H.
        -- injection H as <-. clear. induction l; cbn [map]; constructor; auto.
        -- apply N in H. clear -H. remember (map snd l) as m eqn:E. revert l E. induction H as [|r x m col Hx F IHf]; intros l E; destruct l; try discriminate E; cbn [map]; [constructor|].
           injection E as -> ->. constructor; [exact Hx|]. now apply IHf.
    + apply heads_err in E. split; [right; exists []; auto|]. split; [apply Forall_forall; intros; cbn; lia|]. intros [|i] col H; discriminate H.
Qed.
