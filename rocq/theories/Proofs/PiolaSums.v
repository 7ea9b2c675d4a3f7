(** Sums over rows of arrays that are zero outside a block, and what follows
    from a square array that relates dofs. *)
From mathcomp Require Import all_ssreflect all_algebra ring zify.
From Verif Require Import Model.Prelude Model.Gem Model.Zany Model.PiolaElements Spec.Algebra Spec.PiolaElements.
From Verif Require Import Proofs.PiolaArrays.
Set Implicit Arguments.
Unset Strict Implicit.
Unset Printing Implicit Defensive.
Import GRing.Theory Num.Theory.
Local Open Scope ring_scope.

Lemma divE i n : (0 < n)%N -> Nat.div i n = (i %/ n)%N.
Proof.
move=> hn; symmetry; apply: (PeanoNat.Nat.div_unique i n _ (i %% n)).
  by apply/ltP; rewrite ltn_mod.
by rewrite multE plusE mulnC -divn_eq.
Qed.
Lemma modE i n : (0 < n)%N -> Nat.modulo i n = (i %% n)%N.
Proof.
move=> hn; symmetry; apply: (PeanoNat.Nat.mod_unique i n (i %/ n)).
  by apply/ltP; rewrite ltn_mod.
by rewrite multE plusE mulnC -divn_eq.
Qed.

Section Sums.
Variable F : realFieldType.
Local Notation o := (ring_ops F).

Lemma identityE i j : identity o i j = (i == j)%:R.
Proof. rewrite /identity; case: (PeanoNat.Nat.eqb_spec i j) => [->|/eqP/negbTE ->] //; by rewrite eqxx. Qed.

Lemma sum_window N s k (f : nat -> F) : (s + k <= N)%N ->
  (forall j, (j < N)%N -> ~~ (s <= j < s + k)%N -> f j = 0) -> \sum_(j < N) f j = \sum_(q < k) f (s + q)%N.
Proof.
move=> hN h0; rewrite -(big_mkord xpredT f) -(big_mkord xpredT (fun q => f (s + q)%N)).
rewrite (@big_cat_nat _ _ _ s) //=; last lia.
rewrite (@big_cat_nat _ _ _ (s + k) s) //=; last lia.
rewrite big_nat big1 ?add0r => [|j hj]; last by apply: h0; lia.
rewrite [X in _ + X]big_nat [X in _ + X]big1 ?addr0 => [|j hj]; last by apply: h0; lia.
rewrite -{1}[s]add0n big_addn addKn; apply: eq_bigr => q _; by rewrite addnC.
Qed.

Lemma sum_identity N i (x : nat -> F) : (i < N)%N -> \sum_(j < N) (i == j)%:R * x j = x i.
Proof.
move=> hi; rewrite (@sum_window N i 1 (fun j => (i == j)%:R * x j)) ?addn1 //.
  by rewrite big_ord1 addn0 eqxx mul1r.
move=> j _ h; have -> : (i == j) = false; last by rewrite mul0r.
by apply/eqP => e; lia.
Qed.

Lemma facet_sum n R nb N (x : nat -> F) i : (0 < n)%N -> (n * nb <= N)%N -> (i < n * nb)%N ->
  \sum_(j < N) facet_entry o n R i j * x j =
  if (i %% n == 0)%N then x i else \sum_(q < n) R (i %/ n)%N (i %% n).-1 q * x (n * (i %/ n) + q)%N.
Proof.
move=> hn hN hi; rewrite /facet_entry divE // modE //.
have hb : (i %/ n < nb)%N by rewrite ltn_divLR // mulnC.
have hi2 := divn_eq i n; have hm : (i %% n < n)%N by rewrite ltn_mod.
case: (PeanoNat.Nat.eqb_spec (i %% n) 0) => [->|h] /=.
  under eq_bigr => j _ do rewrite identityE.
  by rewrite sum_identity //; lia.
move/eqP/negbTE: (h) => ->.
rewrite (@sum_window N (n * (i %/ n)) n (fun j => (if between (n * (i %/ n)) (n * (i %/ n) + n) j
  then R (i %/ n)%N (i %% n - 1)%N (j - n * (i %/ n))%N else identity o i j) * x j)).
- apply: eq_bigr => q _; congr (_ * _).
  have -> : between (n * (i %/ n)) (n * (i %/ n) + n) (n * (i %/ n) + q) = true.
    by apply/betweenP; have := ltn_ord q; lia.
  by congr (R _ _ _); lia.
- nia.
- move=> j hj hw.
  have -> : between (n * (i %/ n)) (n * (i %/ n) + n) j = false by apply/between_false; lia.
  rewrite identityE; have -> : (i == j) = false by apply/eqP => e; nia.
  by rewrite mul0r.
Qed.

(** ** From a square array *)
Section Square.
Variables (field : Type) (ok : field -> Prop) (combine : nat -> (nat -> F) -> (nat -> field) -> field).
Variables (numbf ndof : nat) (ref phys : nat -> field -> F) (pre : field -> field) (M V : nat -> nat -> F).
Hypothesis hle : (ndof <= numbf)%N.
Hypothesis hV : forall u i, ok u -> (i < numbf)%N -> ref i (pre u) = \sum_(j < numbf) V i j * phys j u.
Hypothesis hM : forall i l, (i < numbf)%N -> (l < ndof)%N -> M l i = V i l.
Hypothesis hlin : forall i a phi, (i < numbf)%N -> phys i (combine numbf a phi) = \sum_(j < numbf) a j * phys i (phi j).

Lemma square_relates : relates ok numbf ndof ref phys pre M.
Proof.
move=> u hu h0 i hi; rewrite hV //.
rewrite (@sum_window numbf 0 ndof (fun j => V i j * phys j u)) ?add0n //.
  by apply: eq_bigr => q _; rewrite hM // add0n.
by move=> j hj h; rewrite h0 ?mulr0 //; lia.
Qed.

Lemma square_nodal : makes_nodal ok combine numbf ndof ref phys pre M.
Proof.
move=> phi hok hn l i hl hi.
pose A : 'M[F]_numbf := \matrix_(i, j) V i j.
pose D : 'M[F]_numbf := \matrix_(k, j) phys k (phi j).
have hAD : A *m D = 1%:M.
  apply/matrixP => p q; rewrite !mxE -(hn p q) // hV //; last exact: hok.
  by apply: eq_bigr => j _; rewrite !mxE.
have hDA := mulmx1C hAD.
have hl' : (l < numbf)%N by exact: leq_trans hl hle.
rewrite hlin //.
have := congr1 (fun B : 'M[F]_numbf => B (Ordinal hi) (Ordinal hl')) hDA; rewrite !mxE /= => <-.
by apply: eq_bigr => j _; rewrite !mxE /= hM // mulrC.
Qed.
End Square.

(** Row by row. *)
Section Rows.
Variables (field : Type) (combine : nat -> (nat -> F) -> (nat -> field) -> field).
Variables (numbf ndof : nat) (ref phys : nat -> field -> F) (pre : field -> field) (M : nat -> nat -> F).
Hypothesis hle : (ndof <= numbf)%N.
Definition okrow (i : nat) (w : nat -> F) : Prop :=
  exists w' : nat -> F, (forall l, (l < ndof)%N -> w' l = w l) /\ forall u, ref i (pre u) = \sum_(j < numbf) w' j * phys j u.
Lemma okrow_ext i w w' : (forall j, w j = w' j) -> okrow i w -> okrow i w'.
Proof. by move=> e [v [h1 h2]]; exists v; split=> // l hl; rewrite -e h1. Qed.
Hypothesis hrows : forall i, (i < numbf)%N -> okrow i (fun l => M l i).
Hypothesis hlin : forall i a phi, (i < numbf)%N -> phys i (combine numbf a phi) = \sum_(j < numbf) a j * phys i (phi j).

Lemma rows_square : exists V : nat -> nat -> F,
  (forall u i, True -> (i < numbf)%N -> ref i (pre u) = \sum_(j < numbf) V i j * phys j u) /\
  (forall i l, (i < numbf)%N -> (l < ndof)%N -> M l i = V i l).
Proof.
have /fin_all_exists [V hV] : forall i : 'I_numbf, exists w' : nat -> F,
    (forall l, (l < ndof)%N -> w' l = M l i) /\ forall u, ref i (pre u) = \sum_(j < numbf) w' j * phys j u.
  by move=> i; apply: hrows.
exists (fun i j => if insub i is Some i' then V i' j else 0); split.
- by move=> u i _ hi; rewrite (insubT (fun i => (i < numbf)%N) hi) (hV (Sub i hi)).2.
- by move=> i l hi hl; rewrite (insubT (fun i => (i < numbf)%N) hi) (hV (Sub i hi)).1.
Qed.

Lemma rows_relates : relates (fun _ => True) numbf ndof ref phys pre M.
Proof. by have [V [hV hM]] := rows_square; apply: (square_relates hle hV). Qed.
Lemma rows_nodal : makes_nodal (fun _ => True) combine numbf ndof ref phys pre M.
Proof. by have [V [hV hM]] := rows_square; apply: (square_nodal hle hV). Qed.
End Rows.

(** A sum over the members of a list. *)
Lemma sum_members N (G : seq nat) (f : nat -> F) : uniq G -> (forall i, i \in G -> (i < N)%N) ->
  (forall j, (j < N)%N -> j \notin G -> f j = 0) -> \sum_(j < N) f j = \sum_(b < size G) f (nth 0%N G b).
Proof.
move=> hu hlt h0; rewrite -(big_mkord xpredT f) -(big_mkord xpredT (fun b => f (nth 0%N G b))) -(big_nth 0%N xpredT f).
rewrite big_nat -big_nat (bigID (fun j => j \in G)) /= [X in _ + X]big_nat_cond [X in _ + X]big1 ?addr0; last first.
  by move=> j /andP [/andP [_ hj] hG]; apply: h0.
rewrite -big_filter; apply: perm_big; apply: uniq_perm => //.
  by rewrite filter_uniq // /index_iota iota_uniq.
move=> j; rewrite mem_filter mem_index_iota; case: (boolP (j \in G)) => //= hj; exact: hlt.
Qed.

Lemma sum_spread N k (T : nat -> nat) (r x : nat -> F) : (forall b, (b < k)%N -> (T b < N)%N) ->
  \sum_(j < N) (\sum_(b < k) (T b == j)%:R * r b) * x j = \sum_(b < k) r b * x (T b).
Proof.
move=> hT; under eq_bigr => j _ do rewrite mulr_suml.
rewrite exchange_big; apply: eq_bigr => b _ /=.
under eq_bigr => j _ do rewrite -mulrA.
by rewrite (@sum_identity N (T b) (fun j => r b * x j)) // hT.
Qed.
End Sums.
