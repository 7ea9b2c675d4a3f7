(** The construction of direct serendipity functions respects every relation
    between two kinds of numbers that their operations respect. *)
From Coq Require Import List Arith Lia.
From Verif Require Import Model.Prelude Model.Gem Model.Serendipity.
Import ListNotations.

Lemma Forall2_length : forall X Y (R : X -> Y -> Prop) l m, Forall2 R l m -> length l = length m.
Proof. induction 1; cbn; congruence. Qed.
Arguments Forall2_length {X Y R l m}.

Section Rel.
  Context {A B : Type} (o1 : ops A) (o2 : ops B) (T : A -> B -> Prop).
  Hypothesis T0 : T (f0 o1) (f0 o2).
  Hypothesis T1 : T (f1 o1) (f1 o2).
  Hypothesis Tadd : forall a b x y, T a x -> T b y -> T (fadd o1 a b) (fadd o2 x y).
  Hypothesis Tmul : forall a b x y, T a x -> T b y -> T (fmul o1 a b) (fmul o2 x y).
  Hypothesis Tsub : forall a b x y, T a x -> T b y -> T (fsub o1 a b) (fsub o2 x y).
  Hypothesis Topp : forall a x, T a x -> T (fopp o1 a) (fopp o2 x).
  Hypothesis Tdiv : forall a b x y, T a x -> T b y -> T (fdiv o1 a b) (fdiv o2 x y).

  Definition Tp (a : A * A) (b : B * B) : Prop := T (fst a) (fst b) /\ T (snd a) (snd b).
  Definition Tf (f : A * A -> A) (g : B * B -> B) : Prop := forall a b, Tp a b -> T (f a) (g b).
  Context (vs1 : nat -> A * A) (vs2 : nat -> B * B).
  Hypothesis Tvs : forall i, i < 4 -> Tp (vs1 i) (vs2 i).
  Lemma edge_ends : forall e, fst (quad_edge e) < 4 /\ snd (quad_edge e) < 4.
  Proof using. intros e. unfold quad_edge, quad_edges. do 4 (destruct e as [|e]; [cbn; lia|]). destruct e; cbn; lia. Qed.
  Lemma Tfst : forall e, Tp (vs1 (fst (quad_edge e))) (vs2 (fst (quad_edge e))).
  Proof using Tvs. intros e. apply Tvs, edge_ends. Qed.
  Lemma Tsnd : forall e, Tp (vs1 (snd (quad_edge e))) (vs2 (snd (quad_edge e))).
  Proof using Tvs. intros e. apply Tvs, edge_ends. Qed.
  Ltac vert := first [apply Tfst | apply Tsnd | apply Tvs; lia].


  Lemma map_rel : forall X Y Z (R : Y -> Z -> Prop) (f : X -> Y) (g : X -> Z) l,
    (forall x, In x l -> R (f x) (g x)) -> Forall2 R (map f l) (map g l).
  Proof using. induction l as [|x l IH]; cbn; intros H; constructor; auto. Qed.
  Lemma flat_map_rel : forall X Y Z (R : Y -> Z -> Prop) (f : X -> list Y) (g : X -> list Z) l,
    (forall x, In x l -> Forall2 R (f x) (g x)) -> Forall2 R (flat_map f l) (flat_map g l).
  Proof using. induction l as [|x l IH]; cbn; intros H; [constructor|]. apply Forall2_app; auto. Qed.
  Lemma map2_rel : forall X1 X2 Y Z (Q : X1 -> X2 -> Prop) (R : Y -> Z -> Prop) (f : X1 -> Y) (g : X2 -> Z) l m,
    Forall2 Q l m -> (forall x y, Q x y -> R (f x) (g y)) -> Forall2 R (map f l) (map g m).
  Proof using. intros X1 X2 Y Z Q R f g l m H K. induction H; cbn; constructor; auto. Qed.
  Lemma nth_rel : forall X Y (R : X -> Y -> Prop) l m, Forall2 R l m -> forall d e, R d e -> forall i, R (nth i l d) (nth i m e).
  Proof using. intros X Y R l m H. induction H; intros d e D [|i]; cbn; auto. Qed.
  Lemma hd_rel : forall X Y (R : X -> Y -> Prop) l m, Forall2 R l m -> forall d e, R d e -> R (hd d l) (hd e m).
  Proof using. intros X Y R l m H d e D. destruct H; cbn; auto. Qed.
  Lemma last_rel : forall X Y (R : X -> Y -> Prop) l m, Forall2 R l m -> forall d e, R d e -> R (last l d) (last m e).
  Proof using. intros X Y R l m H d e D. induction H as [|x y l m Hx H IH]; cbn; auto. destruct H; auto. Qed.
  Lemma fold_rel : forall X X' Y Y' (Q : X -> X' -> Prop) (R : Y -> Y' -> Prop) f g l m, Forall2 Q l m ->
    (forall x x' y y', Q x x' -> R y y' -> R (f y x) (g y' x')) -> forall a b, R a b -> R (fold_left f l a) (fold_left g m b).
  Proof using. intros X X' Y Y' Q R f g l m H K. induction H; cbn; intros a b D; auto. Qed.
  Lemma fold_same : forall X Y Y' (R : Y -> Y' -> Prop) f g (l : list X),
    (forall x y y', R y y' -> R (f y x) (g y' x)) -> forall a b, R a b -> R (fold_left f l a) (fold_left g l b).
  Proof using. intros X Y Y' R f g l K. induction l; cbn; intros a0 b D; auto. Qed.
  Lemma zip_rel : forall X X' Y Y' (Q : X -> X' -> Prop) (R : Y -> Y' -> Prop) l l' m m', Forall2 Q l l' -> Forall2 R m m' ->
    Forall2 (fun a b => Q (fst a) (fst b) /\ R (snd a) (snd b)) (zip l m) (zip l' m').
  Proof using. intros X X' Y Y' Q R l l' m m' H. revert m m'. induction H; intros m m' K; [constructor|]. destruct K; cbn; constructor; auto. Qed.
  Lemma strike_rel : forall X Y (R : X -> Y -> Prop) l m i, Forall2 R l m -> Forall2 R (strike i l) (strike i m).
  Proof using.
    intros X Y R l m i H. unfold strike. apply Forall2_app.
    - revert i. induction H; intros [|i]; cbn; auto.
    - generalize (S i). clear i. induction H; intros [|i]; cbn [skipn]; auto.
  Qed.

  Lemma nm_rel : forall n, T (nm o1 n) (nm o2 n).
  Proof using T0 T1 Tadd. induction n; cbn [nm]; auto. Qed.
  Lemma pw_rel : forall a x n, T a x -> T (pw o1 a n) (pw o2 x n).
  Proof using T1 Tmul. induction n; cbn [pw]; auto. Qed.
  Lemma total_rel : forall l m, Forall2 T l m -> T (total o1 l) (total o2 m).
  Proof using T0 Tadd. intros l m H. unfold total. eapply fold_rel; [exact H| |exact T0]. intros; apply Tadd; assumption. Qed.

  (** Newton's polynomials. *)
  Lemma dd_column_rel : forall nds nds' j col col', Forall2 T nds nds' -> Forall2 T col col' ->
    Forall2 T (dd_column o1 nds j col) (dd_column o2 nds' j col').
  Proof using T0 Tsub Tdiv.
    intros nds nds' j col col' Hn Hc. unfold dd_column. rewrite (Forall2_length Hn). apply map_rel. intros i _.
    apply Tdiv; apply Tsub; apply nth_rel; assumption.
  Qed.
  Lemma dd_from_rel : forall nds nds', Forall2 T nds nds' -> forall k j col col', Forall2 T col col' ->
    Forall2 T (dd_from o1 nds j k col) (dd_from o2 nds' j k col').
  Proof using T0 Tsub Tdiv.
    intros nds nds' Hn. induction k as [|k IH]; intros j col col' Hc; cbn [dd_from]; constructor.
    - apply hd_rel; assumption.
    - apply IH. apply dd_column_rel; assumption.
  Qed.
  Definition Tr (a : result A) (b : result B) : Prop :=
    match a, b with Ok x, Ok y => T x y | Err x, Err y => x = y | _, _ => False end.
  Lemma newton_poly_rel : forall nds nds' fs fs' x x', Forall2 T nds nds' -> Forall2 T fs fs' -> T x x' ->
    Tr (newton_poly o1 nds fs x) (newton_poly o2 nds' fs' x').
  Proof using T0 Tadd Tmul Tsub Tdiv.
    intros nds nds' fs fs' x x' Hn Hf Hx. unfold newton_poly, newton_dd.
    rewrite (Forall2_length Hn), (Forall2_length Hf).
    destruct (Nat.eqb (length nds') (length fs')); [|reflexivity]. cbn [guard bind].
    destruct (negb (Nat.eqb (length nds') 0)); [|reflexivity]. cbn [guard bind Tr].
    pose proof (dd_from_rel nds nds' Hn (length nds') 0 fs fs' Hf) as HD. unfold newton_horner. rewrite (Forall2_length HD).
    apply fold_same; [|apply last_rel; [exact HD | exact T0]].
    intros i y y' Hy. apply Tadd; [apply Tmul; [exact Hy|apply Tsub; [exact Hx|]]|]; apply nth_rel; assumption.
  Qed.

  (** Geometry. *)
  Lemma padd_rel : forall a b x y, Tp a x -> Tp b y -> Tp (padd o1 a b) (padd o2 x y).
  Proof using Tadd. intros a b x y [? ?] [? ?]. split; apply Tadd; assumption. Qed.
  Lemma psub_rel : forall a b x y, Tp a x -> Tp b y -> Tp (psub o1 a b) (psub o2 x y).
  Proof using Tsub. intros a b x y [? ?] [? ?]. split; apply Tsub; assumption. Qed.
  Lemma pscale_rel : forall a b x y, T a x -> Tp b y -> Tp (pscale o1 a b) (pscale o2 x y).
  Proof using Tmul. intros a b x y ? [? ?]. split; apply Tmul; assumption. Qed.
  Lemma pdiv_rel : forall a b x y, Tp a x -> T b y -> Tp (pdiv o1 a b) (pdiv o2 x y).
  Proof using Tdiv. intros a b x y [? ?] ?. split; apply Tdiv; assumption. Qed.
  Lemma pdot_rel : forall a b x y, Tp a x -> Tp b y -> T (pdot o1 a b) (pdot o2 x y).
  Proof using Tadd Tmul. intros a b x y [? ?] [? ?]. apply Tadd; apply Tmul; assumption. Qed.
  Lemma ts_rel : forall e, Tp (ts o1 vs1 e) (ts o2 vs2 e).
  Proof using Tsub Tvs. intros e. apply psub_rel; vert. Qed.
  Lemma ns_rel : forall e, Tp (ns o1 vs1 e) (ns o2 vs2 e).
  Proof using Tsub Topp Tvs.
    intros e. unfold ns. destruct (ts_rel e) as [H K]. destruct ((e =? 0) || (e =? 3))%bool; split; cbn [fst snd]; auto.
  Qed.
  Lemma xstars_rel : forall e, Tp (xstars o1 vs1 e) (xstars o2 vs2 e).
  Proof using T0 T1 Tadd Tdiv Tvs. intros e. apply pdiv_rel; [apply padd_rel; vert | apply nm_rel]. Qed.
  Lemma lams_rel : forall e, Tf (lams o1 vs1 e) (lams o2 vs2 e).
  Proof using T0 T1 Tadd Tmul Tsub Topp Tdiv Tvs. intros e a b H. apply pdot_rel; [apply psub_rel; [exact H | apply xstars_rel] | apply ns_rel]. Qed.
  Lemma RV_rel : Tf (RV o1 vs1) (RV o2 vs2).
  Proof using T0 T1 Tadd Tmul Tsub Topp Tdiv Tvs. intros a b H. apply Tdiv; [apply Tsub | apply Tadd]; apply lams_rel; exact H. Qed.
  Lemma RH_rel : Tf (RH o1 vs1) (RH o2 vs2).
  Proof using T0 T1 Tadd Tmul Tsub Topp Tdiv Tvs. intros a b H. apply Tdiv; [apply Tsub | apply Tadd]; apply lams_rel; exact H. Qed.

  Ltac step := first
    [ assumption | apply T0 | apply T1 | vert | apply nm_rel | apply pw_rel
    | apply lams_rel | apply RV_rel | apply RH_rel | apply xstars_rel | apply ts_rel
    | apply padd_rel | apply psub_rel | apply pscale_rel | apply pdiv_rel | apply pdot_rel
    | apply Tdiv | apply Tsub | apply Tadd | apply Tmul | apply Topp
    | (split; cbn [fst snd]) ].
  Ltac go := repeat step.

  (** Degree 1. *)
  Lemma xi_rel : forall e, Tf (xi o1 vs1 e) (xi o2 vs2 e).
  Proof using T0 T1 Tadd Tmul Tsub Topp Tdiv Tvs.
    intros e a b H. unfold xi. go.
    - destruct (Nat.even (e + 1)); go.
    - destruct (e / 2 =? 0); go.
  Qed.
  Lemma ds1_r_rel : Tf (ds1_r o1 vs1) (ds1_r o2 vs2).
  Proof using T0 T1 Tadd Tmul Tsub Topp Tdiv Tvs. intros a b H. unfold ds1_r. go. Qed.
  Lemma ds1_R_rel : Tf (ds1_R o1 vs1) (ds1_R o2 vs2).
  Proof using T0 T1 Tadd Tmul Tsub Topp Tdiv Tvs.
    intros a b H. unfold ds1_R. apply Tsub; [apply ds1_r_rel; exact H|]. apply total_rel. apply map_rel. intros i _.
    apply Tmul; [apply ds1_r_rel; apply xstars_rel | apply xi_rel; exact H].
  Qed.
  Lemma quarter_rel : forall a b, Tp a b -> Tp (quarter o1 a) (quarter o2 b).
  Proof using T0 T1 Tadd Tmul Topp. intros a b [H K]. unfold quarter. split; cbn [fst snd]; go. Qed.
  Lemma lam03_rel : Tf (lam03 o1 vs1) (lam03 o2 vs2).
  Proof using T0 T1 Tadd Tmul Tsub Topp Tdiv Tvs. intros a b H. unfold lam03. apply pdot_rel; [go | apply quarter_rel; go]. Qed.
  Lemma lam12_rel : Tf (lam12 o1 vs1) (lam12 o2 vs2).
  Proof using T0 T1 Tadd Tmul Tsub Topp Tdiv Tvs. intros a b H. unfold lam12. apply pdot_rel; [go | apply quarter_rel; go]. Qed.
  Lemma phitilde_rel : forall i, Tf (phitilde o1 vs1 i) (phitilde o2 vs2 i).
  Proof using T0 T1 Tadd Tmul Tsub Topp Tdiv Tvs.
    intros i a b H. unfold phitilde. destruct i as [|[|[|i]]]; repeat first [apply lam03_rel | apply lam12_rel | apply ds1_R_rel | step].
  Qed.
  Lemma ds1_sym_rel : Forall2 Tf (ds1_sym o1 vs1) (ds1_sym o2 vs2).
  Proof using T0 T1 Tadd Tmul Tsub Topp Tdiv Tvs. apply map_rel. intros i Hi a b H. apply in_seq in Hi. apply Tdiv; apply phitilde_rel; [exact H | vert]. Qed.

  (** Degree r. *)
  Context (r : nat).
  Lemma bubble_rel : Tf (bubble o1 vs1) (bubble o2 vs2).
  Proof using T0 T1 Tadd Tmul Tsub Topp Tdiv Tvs. intros a b H. unfold bubble. go. Qed.
  Lemma centre_rel : Tp (centre o1 vs1) (centre o2 vs2).
  Proof using T0 T1 Tadd Tdiv Tvs. unfold centre. split; cbn [fst snd]; (apply Tdiv; [apply total_rel, map_rel; intros i Hi; apply in_seq in Hi; vert | apply nm_rel]). Qed.
  Lemma dx0_rel : Tp (dx0 o1 vs1 r) (dx0 o2 vs2 r).
  Proof using T0 T1 Tadd Tsub Tdiv Tvs. unfold dx0. apply pdiv_rel; [apply psub_rel; vert | apply nm_rel]. Qed.
  Lemma dx1_rel : Tp (dx1 o1 vs1 r) (dx1 o2 vs2 r).
  Proof using T0 T1 Tadd Tsub Tdiv Tvs. unfold dx1. apply pdiv_rel; [apply psub_rel; vert | apply nm_rel]. Qed.
  Lemma tv_rel : Tp (tv0 o1 vs1 r) (tv0 o2 vs2 r) /\ Tp (tv1 o1 vs1 r) (tv1 o2 vs2 r) /\ Tp (tv2 o1 vs1 r) (tv2 o2 vs2 r).
  Proof using T0 T1 Tadd Tmul Tsub Tdiv Tvs.
    pose proof dx0_rel. pose proof dx1_rel. unfold tv0, tv1, tv2.
    split; [|split]; repeat first [assumption | apply padd_rel | apply pscale_rel | vert | apply nm_rel].
  Qed.
  Lemma bary_rel : forall q, Tf (bary o1 vs1 r q) (bary o2 vs2 r q).
  Proof using T0 T1 Tadd Tmul Tsub Topp Tdiv Tvs.
    intros q a b [Ha Hb]. destruct tv_rel as ([? ?] & [? ?] & [? ?]). unfold bary. destruct q as [|[|q]]; go.
  Qed.
  Lemma lattice_node_rel : forall t, Tp (lattice_node o1 vs1 r t) (lattice_node o2 vs2 r t).
  Proof using T0 T1 Tadd Tmul Tsub Tdiv Tvs.
    intros [[i j] k]. destruct tv_rel as (? & ? & ?). unfold lattice_node.
    repeat first [assumption | apply pdiv_rel | apply padd_rel | apply pscale_rel | apply nm_rel].
  Qed.
  Lemma lag_rel : forall t, Tf (lag o1 vs1 r t) (lag o2 vs2 r t).
  Proof using T0 T1 Tadd Tmul Tsub Topp Tdiv Tvs.
    intros [[i j] k] a b H. unfold lag. apply fold_same; [|exact T1]. intros q y y' Hy. apply fold_same; [|exact Hy].
    intros p z z' Hz. repeat first [apply bary_rel | step].
  Qed.
  Lemma internal_nodes_rel : Forall2 Tp (internal_nodes o1 vs1 r) (internal_nodes o2 vs2 r).
  Proof using T0 T1 Tadd Tmul Tsub Tdiv Tvs.
    unfold internal_nodes. destruct (r <? 4); [constructor|]. destruct (r =? 4); [constructor; [apply centre_rel | constructor]|].
    apply map_rel. intros t _. apply lattice_node_rel.
  Qed.
  Lemma internal_bfs_rel : Forall2 Tf (internal_bfs o1 vs1 r) (internal_bfs o2 vs2 r).
  Proof using T0 T1 Tadd Tmul Tsub Topp Tdiv Tvs.
    unfold internal_bfs. destruct (r <? 4); [constructor|]. destruct (r =? 4).
    - constructor; [|constructor]. intros a b H. apply Tdiv; apply bubble_rel; [exact H | apply centre_rel].
    - apply map_rel. intros t _ a b H. pose proof (lattice_node_rel t).
      repeat first [apply lag_rel | apply bubble_rel | step].
  Qed.
  Lemma Rs_rel : forall e, Tf (Rs o1 vs1 e) (Rs o2 vs2 e).
  Proof using T0 T1 Tadd Tmul Tsub Topp Tdiv Tvs. intros e a b H. unfold Rs. destruct e as [|[|[|e]]]; go. Qed.
  Lemma nodes1d_rel : Forall2 T (nodes1d o1 r) (nodes1d o2 r).
  Proof using T0 T1 Tadd Tdiv. apply map_rel. intros i _. apply Tdiv; apply nm_rel. Qed.
  Lemma tunnel_R_rel : forall e, Tf (tunnel_R o1 vs1 e) (tunnel_R o2 vs2 e).
  Proof using T0 T1 Tadd Tmul Tsub Topp Tdiv Tvs. intros e a b H. unfold tunnel_R. go. Qed.
  Lemma edge_nodes_rel : forall e, Forall2 Tp (edge_nodes o1 vs1 r e) (edge_nodes o2 vs2 r e).
  Proof using T0 T1 Tadd Tmul Tsub Tdiv Tvs.
    intros e. unfold edge_nodes. eapply map2_rel; [exact nodes1d_rel|]. intros x y H.
    unfold edge_start, edge_end. split; cbn [fst snd]; repeat first [assumption | apply Tadd | apply Tmul | apply Tsub | vert].
  Qed.
  Lemma nodalize_rel : forall f g, Tf f g -> Tf (nodalize o1 vs1 r f) (nodalize o2 vs2 r g).
  Proof using T0 T1 Tadd Tmul Tsub Topp Tdiv Tvs.
    intros f g Hf a b H. unfold nodalize. apply Tsub; [apply Hf; exact H|]. apply total_rel.
    eapply map2_rel; [exact (zip_rel _ _ _ _ _ _ _ _ _ _ internal_bfs_rel internal_nodes_rel)|].
    intros x y [Hx Hy]. apply Tmul; [apply Hf; exact Hy | apply Hx; exact H].
  Qed.
  Lemma edge_bf2_rel : forall e, Tf (edge_bf2 o1 vs1 r e) (edge_bf2 o2 vs2 r e).
  Proof using T0 T1 Tadd Tmul Tsub Topp Tdiv Tvs.
    intros e a b H. unfold edge_bf2.
    assert (E : Tf (fun x => fmul o1 (fmul o1 (lams o1 vs1 (adjacent0 e) x) (lams o1 vs1 (adjacent1 e) x)) (Rs o1 vs1 e x))
                   (fun x => fmul o2 (fmul o2 (lams o2 vs2 (adjacent0 e) x) (lams o2 vs2 (adjacent1 e) x)) (Rs o2 vs2 e x))).
    { intros x y K. repeat first [apply Rs_rel | step]. }
    apply Tdiv; [apply (nodalize_rel _ _ E); exact H | apply E; apply xstars_rel].
  Qed.
  Lemma edge_p_rel : forall e i, Tf (edge_p o1 vs1 r e i) (edge_p o2 vs2 r e i).
  Proof using T0 T1 Tadd Tmul Tsub Topp Tdiv Tvs.
    intros e i a b H. unfold edge_p, edge_start, edge_end.
    match goal with |- T (match ?p with _ => _ end) (match ?q with _ => _ end) => assert (E : Tr p q) end.
    { apply newton_poly_rel.
      - apply strike_rel, nodes1d_rel.
      - eapply map2_rel; [apply strike_rel, edge_nodes_rel|]. intros x y K.
        repeat first [apply tunnel_R_rel | step].
      - go. }
    destruct (newton_poly o1 _ _ _), (newton_poly o2 _ _ _); cbn in E; try contradiction; [exact E | exact T0].
  Qed.
  Lemma edge_prebf_rel : forall e i, Tf (edge_prebf o1 vs1 r e i) (edge_prebf o2 vs2 r e i).
  Proof using T0 T1 Tadd Tmul Tsub Topp Tdiv Tvs.
    intros e i a b H. unfold edge_prebf. repeat first [apply edge_p_rel | apply Rs_rel | apply tunnel_R_rel | step].
  Qed.
  Lemma edge_bf_rel : forall e i, Tf (edge_bf o1 vs1 r e i) (edge_bf o2 vs2 r e i).
  Proof using T0 T1 Tadd Tmul Tsub Topp Tdiv Tvs.
    intros e i a b H. unfold edge_bf, edge_node. apply Tdiv; apply nodalize_rel; try apply edge_prebf_rel; [exact H|].
    apply nth_rel; [apply edge_nodes_rel | split; exact T0].
  Qed.
  Lemma edge_bfs_rel : forall e, Forall2 Tf (edge_bfs o1 vs1 r e) (edge_bfs o2 vs2 r e).
  Proof using T0 T1 Tadd Tmul Tsub Topp Tdiv Tvs.
    intros e. unfold edge_bfs. destruct (r =? 2); [constructor; [apply edge_bf2_rel | constructor]|].
    rewrite (Forall2_length nodes1d_rel). apply map_rel. intros i _. apply edge_bf_rel.
  Qed.
  Lemma vertex_prebf_rel : forall v, Tf (vertex_prebf o1 vs1 r v) (vertex_prebf o2 vs2 r v).
  Proof using T0 T1 Tadd Tmul Tsub Topp Tdiv Tvs.
    intros v a b H. unfold vertex_prebf. apply fold_same; [|go]. intros e y y' Hy.
    eapply fold_rel; [exact (zip_rel _ _ _ _ _ _ _ _ _ _ (edge_nodes_rel e) (edge_bfs_rel e))| |exact Hy].
    intros x x' z z' [Hx Hf] Hz. repeat first [apply Hf | step].
  Qed.
  Lemma vertex_bf_rel : forall v, v < 4 -> Tf (vertex_bf o1 vs1 r v) (vertex_bf o2 vs2 r v).
  Proof using T0 T1 Tadd Tmul Tsub Topp Tdiv Tvs.
    intros v Hv a b H. unfold vertex_bf. apply Tdiv; [apply nodalize_rel; [apply vertex_prebf_rel | exact H] | apply vertex_prebf_rel; vert].
  Qed.
  Lemma ds_sym_rel : Forall2 Tf (ds_sym o1 vs1 r) (ds_sym o2 vs2 r).
  Proof using T0 T1 Tadd Tmul Tsub Topp Tdiv Tvs.
    unfold ds_sym. destruct (r =? 1); [exact ds1_sym_rel|]. unfold dsr_sym. apply Forall2_app; [|apply Forall2_app].
    - apply map_rel. intros v Hv. apply in_seq in Hv. apply vertex_bf_rel. lia.
    - apply flat_map_rel. intros e _. apply edge_bfs_rel.
    - exact internal_bfs_rel.
  Qed.
End Rel.
