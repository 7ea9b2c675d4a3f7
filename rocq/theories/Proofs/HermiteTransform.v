(** The transformation of Hermite elements. *)
From mathcomp Require Import all_ssreflect all_algebra ring.
From SsrMultinomials Require Import mpoly.
From Verif Require Import Model.Gem Model.Piola Model.Zany Spec.Algebra Spec.Polynomials Spec.Zany.
From Verif Require Import Proofs.Determinant Proofs.Polynomials Proofs.ZanySums Proofs.VertexTransform Proofs.EdgeRows Proofs.ZanyNodal.
From mathcomp Require Import zify.
Set Implicit Arguments.
Unset Strict Implicit.
Unset Printing Implicit Defensive.
Import GRing.Theory Num.Theory.
Local Open Scope ring_scope.

Section Hermite.
Variable F : realFieldType.
Local Notation o := (ring_ops F).
Local Notation M := (mtx (F := F)).

(** Setting the entries of a block one by one. *)
Lemma put_rows (V : M) s t (B : nat -> F) r d i j : 
  List.fold_left (fun V k => put V r (t + k)%coq_nat (B k)) (List.seq s d) V i j =
  if (i == r) && (t + s <= j < t + s + d)%N then B (j - t)%N else V i j.
Proof.
elim: d s V => [|d IH] s V /=.
  by rewrite addn0 [(_ <= _ < _)%N](_ : _ = false) ?andbF //; lia.
rewrite IH /put !eqbE plusE; case: eqP => //= hi.
have [->|hj] := eqVneq j (t + s)%N.
  rewrite ifF; last by lia.
  by rewrite ifT ?addKn //; lia.
have -> : (t + s.+1 <= j < t + s.+1 + d)%N = (t + s <= j < t + s + d.+1)%N by lia.
by case: ifP.
Qed.

Lemma put_blocks (V : M) s r t (B : nat -> nat -> F) e d i j :
  List.fold_left (fun V a => List.fold_left (fun V k => put V (r + a)%coq_nat (t + k)%coq_nat (B a k)) (List.seq 0 d) V) (List.seq s e) V i j =
  if (r + s <= i < r + s + e)%N && (t <= j < t + d)%N then B (i - r)%N (j - t)%N else V i j.
Proof.
elim: e s V => [|e IH] s V /=.
  by rewrite addn0 [(_ <= _ < _)%N](_ : _ = false) //; lia.
rewrite IH put_rows plusE addn0.
have [->|hj] := eqVneq i (r + s)%N.
  rewrite [(_ <= _ < _ + e)%N](_ : _ = false); last by lia.
  rewrite [(_ <= _ < _ + e.+1)%N](_ : _ = true); last by lia.
  by rewrite /= addKn.
have -> : (r + s.+1 <= i < r + s.+1 + e)%N = (r + s <= i < r + s + e.+1)%N by lia.
by [].
Qed.

Section Closed.
Variables (n : nat) (Js : nat -> M) (h : nat -> F).
Definition hblock v a b : F := if (0 < a)%N && (0 < b)%N then Js v a.-1 b.-1 / h v else identity o a b.
Definition hermite_step (acc : M * nat) (i : nat) : M * nat :=
  let (V, cur) := acc in
  let cur := S cur in
  let V := List.fold_left (fun V j => List.fold_left (fun V k => put V (Nat.add cur j) (Nat.add cur k) (fdiv o (Js i j k) (h i))) (List.seq 0 n) V) (List.seq 0 n) V in
  (V, Nat.add cur n).

Lemma hermite_closed m :
  (List.fold_left hermite_step (List.seq 0 m) (identity o, 0%N)).2 = (m * n.+1)%N /\
  forall i j, (List.fold_left hermite_step (List.seq 0 m) (identity o, 0%N)).1 i j =
    if ((i < m * n.+1) && (i %/ n.+1 == j %/ n.+1))%N then hblock (i %/ n.+1)%N (i %% n.+1)%N (j %% n.+1)%N else identity o i j.
Proof.
elim: m => [|m [IHs IH]]; first by split=> [//|i j]; rewrite mul0n.
rewrite seq_last List.fold_left_app /=.
case E : (List.fold_left _ _ _) IHs IH => [V s] /= -> IH; clear E s.
split; first by rewrite !plusE mulSn; lia.
move=> i j.
etransitivity; first exact: (put_blocks V 0 (m * n.+1).+1 (m * n.+1).+1 (fun a k => fdiv o (Js m a k) (h m)) n n i j).
rewrite addn0 IH.
have -> : ((m * n.+1).+1 + n = m * n.+1 + n.+1)%N by lia.
rewrite -(addn1 (m * n.+1)) !in_group //.
rewrite -!ltn_divLR // ltnS.
have hi := divn_eq i n.+1; have hj := divn_eq j n.+1.
have ha := ltn_pmod i (ltn0Sn n); have hb := ltn_pmod j (ltn0Sn n).
rewrite /identity !eqbE.
have hid : (i == j)%N = ((i %/ n.+1 == j %/ n.+1) && (i %% n.+1 == j %% n.+1))%N.
  apply/eqP/andP => [->|[/eqP e /eqP e']] //; by rewrite hi hj e e'.
rewrite hid.
have sub : (i %/ n.+1 == m)%N -> (i - (m * n.+1 + 1) = i %% n.+1 - 1)%N.
  by move=> /eqP e; rewrite {1}hi e subnDl.
have sub' : (j %/ n.+1 == m)%N -> (j - (m * n.+1 + 1) = j %% n.+1 - 1)%N.
  by move=> /eqP e; rewrite {1}hj e subnDl.
move: sub sub' ha hb; clear hi hj hid.
move: (i %/ n.+1)%N (i %% n.+1)%N (j %/ n.+1)%N (j %% n.+1)%N => qi a qj b sub sub' ha hb.
case: (eqVneq qi m) => [e|hq] /=; last by rewrite (ltn_neqAle qi) hq.
subst qi; rewrite ltnn leqnn /= (eq_sym m) sub // ; case: (eqVneq qj m) => [e|hq] /=; last by rewrite !andbF.
subst qj; rewrite ?sub // ?sub' // /hblock /identity !eqbE ?subn1.
have -> : [&& (0 < a <= n)%N, (0 < b)%N & (b < n.+1)%N] = (0 < a)%N && (0 < b)%N by lia.
by [].
Qed.
End Closed.

Variables (n : nat) (c : simplex (F := F)) (g : geometry (F := F)) (q : polymap F n).
Hypothesis hdim : sx_dim c = n.
Hypothesis hnv : List.length (sx_vertices c) = n.+1.
Hypothesis hJ : forall v (i j : 'I_n), (v <= n)%N ->
  jacobian_at g (List.nth v (sx_vertices c) nil) i j = jacobian q (@vertex_of F n c v) i j.
Hypothesis hh : forall v, (v <= n)%N -> cell_size g v != 0.

Lemma hermiteE i j : hermite_transformation o c g i j =
  if ((i < n.+1 * n.+1) && (i %/ n.+1 == j %/ n.+1))%N
  then hblock (fun v => List.nth v (List.map (jacobian_at g) (sx_vertices c)) (fun _ _ => 0)) (cell_size g) (i %/ n.+1)%N (i %% n.+1)%N (j %% n.+1)%N
  else identity o i j.
Proof.
rewrite /hermite_transformation hdim plusE addn1.
exact: (proj2 (hermite_closed n (fun v => List.nth v (List.map (jacobian_at g) (sx_vertices c)) (fun _ _ => 0)) (cell_size g) n.+1)).
Qed.

Lemma hermite_relation N (f : nat -> {mpoly F[n]}) inner i : (n.+1 * n.+1 <= N)%N -> (i < N)%N ->
  hermite_dof (@vertex_of F n c) (fun _ => 1) (fun v => pull q (f v)) inner i =
  \sum_(j < N) hermite_transformation o c g j i *
    hermite_dof (fun v => image q (@vertex_of F n c v)) (cell_size g) f inner j.
Proof.
move=> hN hi; set D := hermite_dof (fun v => image q (@vertex_of F n c v)) _ _ _.
case: (leqP (n.+1 * n.+1) i) => hin.
  rewrite (eq_bigr (fun j : 'I_N => identity o i j * D j)); last first.
    move=> j _; congr (_ * _); rewrite hermiteE /identity !eqbE (eq_sym i).
    case: ifP => // /andP[h1 /eqP h2]; exfalso; move: h1; rewrite -ltn_divLR // h2 ltn_divLR //.
    by rewrite ltnNge hin.
  rewrite sum_identity // /D /hermite_dof ifF; last by apply/negbTE; rewrite -ltnNge -ltnS ltnS leq_divRL.
  by rewrite ifF //; apply/negbTE; rewrite -ltnNge -ltnS ltnS leq_divRL.
have hv : (i %/ n.+1 <= n)%N by rewrite -ltnS ltn_divLR.
set v := (i %/ n.+1)%N in hv *; set a := (i %% n.+1)%N.
have ha : (a < n.+1)%N by rewrite /a ltn_pmod.
pose B d := hblock (fun v => List.nth v (List.map (jacobian_at g) (sx_vertices c)) (fun _ _ => 0)) (cell_size g) v d a.
rewrite (eq_bigr (fun j : 'I_N => (if (j %/ n.+1 == v)%N then B (j %% n.+1)%N else 0) * D j)); last first.
  move=> j _; congr (_ * _); rewrite hermiteE -/v -/a.
  case: (eqVneq (j %/ n.+1)%N v) => [e|hne].
    by rewrite -ltn_divLR // e ltnS hv.
  rewrite andbF /identity eqbE; case: eqP => // e; by case/eqP: hne; rewrite e.
rewrite sum_group //; last by apply: leq_trans hN; rewrite leq_mul2r ltnS hv orbT.
have hDv d : (d < n.+1)%N -> D (v * n.+1 + d)%N = (if (d == 0)%N then 1 else cell_size g v) * jet (f v) (image q (@vertex_of F n c v)) d.
  by move=> hd; rewrite /D /hermite_dof divnMDl // divn_small // addn0 hv modnMDl modn_small.
have hJv (i' j' : 'I_n) : List.nth v (List.map (jacobian_at g) (sx_vertices c)) (fun _ _ => 0) i' j' = jacobian q (@vertex_of F n c v) i' j'.
  rewrite -hJ // (List.nth_indep _ _ (jacobian_at g nil)) ?List.map_nth //.
  by rewrite List.map_length hnv; apply/leP.
have hiv : i = (v * n.+1 + a)%N by rewrite /v /a -divn_eq.
have -> : hermite_dof (@vertex_of F n c) (fun _ => 1) (fun v => pull q (f v)) inner i = jet (pull q (f v)) (@vertex_of F n c v) a.
  by rewrite /hermite_dof -/v -/a hv; case: ifP => _; rewrite mul1r.
rewrite big_ord_recl hDv // eqxx mul1r.
case: (posnP a) => a0.
  rewrite a0 big1 ?addr0 => [|d _]; last by rewrite /B /hblock a0 andbF /identity eqbE mul0r.
  by rewrite /B /hblock a0 /= /identity eqbE eqxx mul1r !jet0 pull_eval.
have ha' : (a.-1 < n)%N by lia.
rewrite {1}/B /hblock /= /identity eqbE ifF; last by lia.
rewrite mul0r add0r.
have -> : jet (pull q (f v)) (@vertex_of F n c v) a = (pull q (f v))^`M(Ordinal ha').@[@vertex_of F n c v].
  by rewrite -jet1 /= prednK.
rewrite chain_rule_at; apply: eq_bigr => d _.
have eb : bump 0 d = d.+1 by [].
have hd1 : (d.+1 < n.+1)%N by rewrite ltnS ltn_ord.
rewrite eb hDv // (jet1 _ _ d) /B /hblock /= a0 /=.
rewrite (hJv d (Ordinal ha')) mulrA; congr (_ * _).
by rewrite divfK ?hh.
Qed.

Lemma hermite_nodal_proof N (phi : nat -> nat -> {mpoly F[n]}) (innerR innerT : (nat -> {mpoly F[n]}) -> nat -> F) :
  (n.+1 * n.+1 <= N)%N ->
  (forall f k, innerR (fun v => pull q (f v)) k = innerT f k) ->
  (forall a k, innerT (fun v => \sum_(j < N) a j *: phi j v) k = \sum_(j < N) a j * innerT (phi j) k) ->
  (forall i j, (i < N)%N -> (j < N)%N ->
    let f v := pull q (phi j v) in hermite_dof (@vertex_of F n c) (fun _ => 1) f (innerR f) i = (i == j)%:R) ->
  forall i l, (i < N)%N -> (l < N)%N ->
    let f v := \sum_(j < N) hermite_transformation o c g l j *: phi j v in
    hermite_dof (fun v => image q (@vertex_of F n c v)) (cell_size g) f (innerT f) i = (i == l)%:R.
Proof.
move=> hN hin hlin href k l hk hl.
pose D j i := hermite_dof (fun v => image q (@vertex_of F n c v)) (cell_size g) (phi j) (innerT (phi j)) i.
transitivity (\sum_(j < N) D j k * hermite_transformation o c g l j).
  rewrite /D /hermite_dof; case: ifP => _.
    rewrite (jet_comb _ _ (fun j => phi j _)) mulr_sumr; apply: eq_bigr => j _.
    by rewrite [RHS]mulrC mulrCA.
  by rewrite hlin; apply: eq_bigr => j _; rewrite mulrC.
apply: (inverse_sides (A := fun k j => D j k) (V := fun j l => hermite_transformation o c g l j)) => // i j hi hj.
rewrite -href // /D -hermite_relation //.
by rewrite /hermite_dof; case: ifP => // _; rewrite hin.
Qed.
End Hermite.
