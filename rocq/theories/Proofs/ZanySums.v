(** Matrices that are filled step by step: sums over their rows. *)
From mathcomp Require Import all_ssreflect all_algebra ring.
From Verif Require Import Model.Gem Model.Zany Spec.Algebra Proofs.Determinant.
From Coq Require Lia PeanoNat.
Set Implicit Arguments.
Unset Strict Implicit.
Unset Printing Implicit Defensive.
Import GRing.Theory.
Local Open Scope ring_scope.

Lemma eqbE m n : Nat.eqb m n = (m == n).
Proof.
case: eqP => [->|h]; first exact: PeanoNat.Nat.eqb_refl.
exact/PeanoNat.Nat.eqb_neq.
Qed.
Lemma lebE m n : Nat.leb m n = (m <= n)%N.
Proof.
apply/idP/idP => [h|/leP h]; first by apply/leP; exact/PeanoNat.Nat.leb_le.
exact/PeanoNat.Nat.leb_le.
Qed.
Lemma ltbE m n : Nat.ltb m n = (m < n)%N.
Proof. exact: lebE. Qed.
Definition natE := (eqbE, lebE, ltbE).

Lemma combE n k : comb n k = 'C(n, k).
Proof.
elim: n k => [|n IH] [|k] //.
by rewrite binS /= !IH plusE addnC.
Qed.

Section Rows.
Variable F : fieldType.
Local Notation o := (ring_ops F).
Implicit Types (V : mtx (F := F)) (r x : nat -> F).

Lemma numE n : num o n = n%:R.
Proof. by elim: n => [//|n IH] /=; rewrite IH mulrS. Qed.

(** A row with one entry replaced. *)
Definition rowput r j c : nat -> F := fun k => if (k == j)%N then c else r k.

Lemma put_row V i j c k : put V i j c i k = rowput (V i) j c k.
Proof. by rewrite /put /rowput eqbE eqxx /= eqbE. Qed.

Lemma put_other V i j c i' k : i' != i -> put V i j c i' k = V i' k.
Proof. by move=> h; rewrite /put eqbE (negbTE h). Qed.

Lemma sum_rowput N r j c x : (j < N)%N ->
  \sum_(k < N) rowput r j c k * x k = (c - r j) * x j + \sum_(k < N) r k * x k.
Proof.
move=> hj; rewrite (bigD1 (Ordinal hj)) //= [in RHS](bigD1 (Ordinal hj)) //= /rowput eqxx.
rewrite addrA -mulrDl subrK; congr (_ + _); apply: eq_bigr => k hk.
have -> : (k == j :> nat) = (k == Ordinal hj) by [].
by rewrite (negbTE hk).
Qed.

Lemma sum_rowput_out N r j c x : (N <= j)%N -> \sum_(k < N) rowput r j c k * x k = \sum_(k < N) r k * x k.
Proof.
move=> hj; apply: eq_bigr => k _; rewrite /rowput; case: eqP => // e.
by move: (ltn_ord k); rewrite e ltnNge hj.
Qed.

Lemma sum_identity N i x : (i < N)%N -> \sum_(k < N) identity o i k * x k = x i.
Proof.
move=> hi; rewrite (bigD1 (Ordinal hi)) //= big1 ?addr0 => [|k hk].
  by rewrite /identity eqbE eqxx /= mul1r.
rewrite /identity eqbE; case: eqP => [e|_]; last by rewrite mul0r.
by case/eqP: hk; apply/val_inj.
Qed.

Lemma sum_identity_out N i x : (N <= i)%N -> \sum_(k < N) identity o i k * x k = 0.
Proof.
move=> hi; rewrite big1 // => k _; rewrite /identity eqbE; case: eqP => [e|_]; last by rewrite mul0r.
by move: (ltn_ord k); rewrite -e ltnNge hi.
Qed.

(** Rows with entries in one group of columns. *)
Lemma sum_group N m v (g : nat -> F) x : (0 < m)%N -> (v.+1 * m <= N)%N ->
  \sum_(k < N) (if (k %/ m == v)%N then g (k %% m)%N else 0) * x k = \sum_(b < m) g b * x (v * m + b)%N.
Proof.
move=> hm hN.
rewrite -(big_mkord xpredT (fun k => (if (k %/ m == v)%N then g (k %% m)%N else 0) * x k)).
rewrite (@big_cat_nat _ _ _ (v * m)) //=; last by apply: leq_trans hN; rewrite leq_mul2r leqnSn orbT.
rewrite (@big_cat_nat _ _ _ (v.+1 * m) (v * m)) //=; last by rewrite leq_mul2r leqnSn orbT.
rewrite [X in X + _]big_nat_cond big1 ?add0r => [|k /andP[/andP[_ hk] _]]; last first.
  by rewrite -ltn_divLR // in hk; rewrite (ltn_eqF hk) mul0r.
rewrite [X in _ + X]big_nat_cond [X in _ + X]big1 ?addr0 => [|k /andP[/andP[hk _] _]]; last first.
  by rewrite -leq_divRL // in hk; rewrite (gtn_eqF hk) mul0r.
rewrite -{1}[(v * m)%N]add0n mulSn big_addn addnK big_mkord; apply: eq_bigr => b _.
by rewrite addnC divnMDl // divn_small // addn0 eqxx modnMDl modn_small.
Qed.

(** Loops that fill disjoint groups of rows. *)
Lemma fold_rows (step : mtx -> nat -> mtx) (R : nat -> pred nat) (rowf : nat -> nat -> (nat -> F) -> nat -> F) :
  (forall V e i j, ~~ R e i -> step V e i j = V i j) ->
  (forall V e i j, R e i -> step V e i j = rowf e i (V i) j) ->
  (forall e i r r', r =1 r' -> rowf e i r =1 rowf e i r') ->
  (forall e e' i, R e i -> R e' i -> e = e') ->
  forall n V i j,
    ((forall e, (e < n)%N -> ~~ R e i) -> List.fold_left step (List.seq 0 n) V i j = V i j) /\
    (forall e, (e < n)%N -> R e i -> List.fold_left step (List.seq 0 n) V i j = rowf e i (V i) j).
Proof.
move=> hout hin hext hdis n V i j.
have hseq m : List.seq 0 m.+1 = List.seq 0 m ++ [:: m].
  by rewrite -[X in List.seq 0 X]addn1 -plusE List.seq_app.
elim: n j => [|n IH] j; first by split.
rewrite hseq List.fold_left_app /=; split=> [h|e he hR].
  rewrite hout ?h //; apply: (proj1 (IH j)) => e he; apply: h; exact: leqW.
move: he; rewrite ltnS leq_eqVlt => /orP[/eqP e1|he].
  subst e; rewrite hin //; apply: hext => k; apply: (proj1 (IH k)) => e he.
  by apply/negP => hR'; move: he; rewrite (hdis _ _ _ hR' hR) ltnn.
rewrite hout; first exact: (proj2 (IH j) e he hR).
by apply/negP => hR'; move: he; rewrite (hdis _ _ _ hR' hR) ltnn.
Qed.
End Rows.
