(** Finite sums over lists and over multi-indices. *)
From Coq Require Import String List Arith Lia Bool Permutation Ring.
From Verif Require Import Model.Prelude Model.Gem.
From Verif Require Import Spec.Rowmajor.
From Verif Require Import Proofs.Lists Proofs.Closure Proofs.GemEval.
Import ListNotations.

Lemma cart_app : forall A (l1 l2 : list (list A)),
  cart (l1 ++ l2) = flat_map (fun x => map (app x) (cart l2)) (cart l1).
Proof.
  induction l1 as [|l l1 IH]; intros l2; cbn [app cart flat_map].
  - rewrite app_nil_r, map_id. reflexivity.
  - rewrite flat_map_flat_map. apply flat_map_ext. intros a. rewrite IH, map_flat_map, flat_map_map.
    apply flat_map_ext. intros x. rewrite map_map. reflexivity.
Qed.

Section Sums.
  Context {F : Type} (o : ops F).
  Context (R : ring_theory (f0 o) (f1 o) (fadd o) (fmul o) (fsub o) (fopp o) eq).
  Add Ring FR : R.
  Local Notation fsum := (fsum o).
  Local Notation "0" := (f0 o). Local Notation "1" := (f1 o).
  Local Infix "+" := (fadd o). Local Infix "*" := (fmul o).

  Lemma fsum_app : forall a b, fsum (a ++ b) = fsum a + fsum b.
  Proof using R.
    induction a as [|x a IH]; intros b; unfold Gem.fsum in *; simpl; [clear -R; ring | rewrite IH; clear -R; ring].
  Qed.

  Lemma fsum_flat_map : forall A (f : A -> list F) l, fsum (flat_map f l) = fsum (map (fun x => fsum (f x)) l).
  Proof using R.
    induction l as [|x l IH]; [reflexivity|]. cbn [flat_map map]. rewrite fsum_app, IH. reflexivity.
  Qed.

  Lemma fsum_mul_l : forall A (f : A -> F) c l, fsum (map (fun x => c * f x) l) = c * fsum (map f l).
  Proof using R.
    induction l as [|x l IH]; unfold Gem.fsum in *; simpl; [clear -R; ring | rewrite IH; clear -R; ring].
  Qed.
  Lemma fsum_mul_r : forall A (f : A -> F) c l, fsum (map (fun x => f x * c) l) = fsum (map f l) * c.
  Proof using R.
    induction l as [|x l IH]; unfold Gem.fsum in *; simpl; [clear -R; ring | rewrite IH; clear -R; ring].
  Qed.
  Lemma fsum_add : forall A (f g : A -> F) l, fsum (map (fun x => f x + g x) l) = fsum (map f l) + fsum (map g l).
  Proof using R.
    induction l as [|x l IH]; unfold Gem.fsum in *; simpl; [clear -R; ring | rewrite IH; clear -R; ring].
  Qed.
  Lemma fsum_0 : forall A (l : list A), fsum (map (fun _ => 0) l) = 0.
  Proof using R.
    induction l as [|x l IH]; unfold Gem.fsum in *; simpl; [reflexivity | rewrite IH; clear -R; ring].
  Qed.
  Lemma fsum_ext : forall A (f g : A -> F) l, (forall x, In x l -> f x = g x) -> fsum (map f l) = fsum (map g l).
  Proof using Type. intros A f g l H. f_equal. apply map_ext_in. exact H. Qed.

  Lemma fsum_swap : forall A B (f : A -> B -> F) la lb,
    fsum (map (fun a => fsum (map (f a) lb)) la) = fsum (map (fun b => fsum (map (fun a => f a b) la)) lb).
  Proof using R.
    intros A B f la lb. induction la as [|a la IH]; cbn [map].
    - unfold Gem.fsum at 1. cbn [fold_right]. symmetry. apply fsum_0.
    - change (fsum (map (f a) lb) + fsum (map (fun a => fsum (map (f a) lb)) la)
        = fsum (map (fun b => f a b + fsum (map (fun a => f a b) la)) lb)).
      rewrite IH, fsum_add. reflexivity.
  Qed.

  Lemma fsum_perm : forall l l', Permutation l l' -> fsum l = fsum l'.
  Proof using R.
    unfold Gem.fsum. induction 1; simpl; [reflexivity | congruence | clear -R; ring | congruence].
  Qed.

  (** Products of sums. *)
  Lemma fsum_product : forall A B (f : A -> F) (g : B -> F) la lb,
    fsum (flat_map (fun a => map (fun b => f a * g b) lb) la) = fsum (map f la) * fsum (map g lb).
  Proof using R.
    intros A B f g la lb. rewrite fsum_flat_map. rewrite <- fsum_mul_r. apply fsum_ext. intros a _. apply fsum_mul_l.
  Qed.

  (** Only one summand. *)
  Lemma fsum_single : forall A (eq_dec : forall x y : A, {x = y} + {x <> y}) (f : A -> F) l a,
    NoDup l -> In a l -> fsum (map (fun x => if eq_dec x a then f x else 0) l) = f a.
  Proof using R.
    intros A eq_dec f l a Hn Ha. induction Hn as [|x l Hx Hn IH]; [destruct Ha|]. cbn [map].
    change (fsum (?u :: ?v)) with (u + fsum v).
    assert (E : (if eq_dec x a then f x else 0) + fsum (map (fun x => if eq_dec x a then f x else 0) l) = f a); [|exact E].
    destruct (eq_dec x a) as [->|Hne].
    - rewrite (fsum_ext _ _ (fun _ => 0)).
      + rewrite fsum_0. clear -R; ring.
      + intros y Hy. destruct (eq_dec y a) as [->|]; [contradiction | reflexivity].
    - destruct Ha as [->|Ha]; [congruence|]. rewrite (IH Ha). clear -R; ring.
  Qed.
  Lemma fsum_none : forall A (f : A -> F) l, (forall x, In x l -> f x = 0) -> fsum (map f l) = 0.
  Proof using R. intros A f l H. rewrite (fsum_ext _ f (fun _ => 0) l H). apply fsum_0. Qed.
End Sums.

Lemma cart_NoDup : forall A (ls : list (list A)), Forall (@NoDup A) ls -> NoDup (cart ls).
Proof.
  intros A ls H. induction H as [|l ls Hl H IH]; cbn [cart]; [repeat constructor; auto|].
  induction Hl as [|x l Hx Hl IHl]; cbn [flat_map]; [constructor|].
  apply NoDup_app_intro; [| exact IHl |].
  - apply FinFun.Injective_map_NoDup; [intros a b E; congruence | exact IH].
  - intros t Ht Ht'. apply in_map_iff in Ht as (r & <- & _). apply in_flat_map in Ht' as (y & Hy & Ht').
    apply in_map_iff in Ht' as (r' & E & _). injection E as -> _. contradiction.
Qed.

Lemma cart_seq_NoDup : forall s, NoDup (cart (map (seq 0) s)).
Proof. intros s. apply cart_NoDup. apply Forall_forall. intros l H. apply in_map_iff in H as (d & <- & _). apply seq_NoDup. Qed.
