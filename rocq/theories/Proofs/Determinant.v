(** determinant and adjugate compute determinants and adjugates. *)
From mathcomp Require Import all_ssreflect all_algebra.
From Coq Require Lia.
From Verif Require Import Model.Gem Model.Piola Spec.Algebra.
Set Implicit Arguments.
Unset Strict Implicit.
Unset Printing Implicit Defensive.
Import GRing.Theory.
Local Open Scope ring_scope.

Lemma nth_without A k (l : list A) j d : (k < length l)%N ->
  List.nth j (without k l) d = List.nth (bump k j) l d.
Proof.
move=> hk; rewrite /without /bump.
have hf : length (List.firstn k l) = k by rewrite List.firstn_length_le //; apply/leP; exact: ltnW.
case: leqP => h.
  rewrite List.app_nth2; last by rewrite hf; apply/leP.
  rewrite hf minusE add1n -{2}(subnKC h); move: (j - k)%N => m.
  elim: k l hk {hf h} => [|k IH] [|x l] hk //.
  by rewrite addSn /=; apply: IH.
rewrite List.app_nth1; last by rewrite hf; apply/ltP.
rewrite add0n; clear hf hk; elim: k j l h => [|k IH] [|j] [|x l] //= h.
by apply: IH.
Qed.

Lemma length_without A k (l : list A) : (k < length l)%N -> length (without k l) = (length l).-1.
Proof.
move=> hk; rewrite /without List.app_length List.firstn_length_le; last by apply/leP; exact: ltnW.
rewrite List.skipn_length; move: hk => /ltP; move: (length l) => n hk. Lia.lia.
Qed.

Section Det.
Variable R : comUnitRingType.
Local Notation o := (ring_ops R).
Local Notation det := (determinant o).

Lemma alternateE k (x : R) : alternate o k x = (-1) ^+ k * x.
Proof.
rewrite /alternate -signr_odd; have -> : Nat.even k = ~~ odd k.
  elim/ltn_ind: k => -[//|[//|k] IH]; rewrite -[Nat.even _]/(Nat.even k) IH /= ?negbK //; exact: ltnW.
by case: (odd k); rewrite /= ?expr1 ?expr0 ?mulN1r ?mul1r.
Qed.

Lemma matrix_minor n (A : list (list R)) (j : 'I_n.+1) : array_shape n.+1 n.+1 A ->
  row' ord0 (col' j (matrix_of n.+1 n.+1 A)) = matrix_of n n (List.map (without j) (List.tl A)).
Proof.
case: A => [|r A] [//= [hl] hf]; apply/matrixP => i k; rewrite !mxE lift0.
rewrite (@List.nth_indep _ (List.map _ A) i nil (without j nil)); last first.
  by rewrite List.map_length hl; apply/ltP.
rewrite List.map_nth nth_without //.
have hi : List.In (List.nth i A nil) A by apply: List.nth_In; rewrite hl; apply/ltP.
by rewrite (proj1 (List.Forall_forall _ _) (List.Forall_inv_tail hf) _ hi).
Qed.

Lemma minor_shape n (A : list (list R)) j : (j < n.+1)%N -> array_shape n.+1 n.+1 A ->
  array_shape n n (List.map (without j) (List.tl A)).
Proof.
case: A => [|r A] hj [//= [hl] hf]; split; first by rewrite List.map_length.
apply/List.Forall_forall => x /List.in_map_iff [y [<- hy]].
have e := proj1 (List.Forall_forall _ _) (List.Forall_inv_tail hf) _ hy.
by rewrite length_without e.
Qed.

Lemma tl_without (A : list (list R)) : List.map (@List.tl R) A = List.map (without 0) A.
Proof. by apply: List.map_ext => -[]. Qed.

Lemma fold_left_sum (I : Type) (f : I -> R) l a :
  List.fold_left (fun s j => s + f j) l a = a + \sum_(j <- l) f j.
Proof.
elim: l a => [|x l IH] a /=; first by rewrite big_nil addr0.
by rewrite IH big_cons addrA.
Qed.

Lemma seq_iota a n : List.seq a n = iota a n.
Proof. by elim: n a => //= n IH a; rewrite IH. Qed.

Lemma determinant_step n (A : list (list R)) : det n.+3 A =
  entry o A 0 0 * det n.+2 (List.map (without 0) (List.tl A)) +
  \sum_(j <- iota 1 n.+2) (alternate o j (entry o A 0 j) * det n.+2 (List.map (without j) (List.tl A))).
Proof.
rewrite -tl_without -seq_iota.
rewrite -(fold_left_sum (fun j => alternate o j (entry o A 0 j) * det n.+2 (List.map (without j) (List.tl A)))).
by [].
Qed.

Lemma determinantE n A : array_shape n n A -> det n A = \det (matrix_of n n A).
Proof.
elim: n A => [|[|[|n]] IH] A hA.
- by rewrite det_mx00.
- by rewrite (expand_det_row _ ord0) big_ord1 /cofactor det_mx00 !mxE /= addn0 expr0 !mulr1.
- rewrite (expand_det_row _ ord0) !big_ord_recl big_ord0 /cofactor !(@matrix_minor 1 A) // !det_mx11 !mxE /=.
  case: A hA => [|[|a [|b [|? ?]]] [|[|c [|d [|? ?]]] [|? ?]]] [//= _ hf]; (try by have := List.Forall_inv hf); (try by have := List.Forall_inv (List.Forall_inv_tail hf)).
  by rewrite /entry /= addr0 expr0 mul1r expr1 mulN1r mulrN.
rewrite determinant_step (expand_det_row _ ord0) big_ord_recl /cofactor.
have -> : (-1) ^+ (@ord0 n.+2 + @ord0 n.+2) = 1 :> R by rewrite expr0.
rewrite mul1r.
congr (_ * _ + _).
- by rewrite mxE.
- rewrite IH; last exact: minor_shape.
  by rewrite (@matrix_minor _ _ ord0).
- have -> : iota 1 n.+2 = map S (iota 0 n.+2) by rewrite -[1%N]addn0 iotaDl; apply: eq_map => i; rewrite add1n.
  rewrite big_map -[iota 0 n.+2]/(index_iota 0 n.+2) big_mkord.
  apply: eq_bigr => i _; rewrite alternateE mxE IH; last first.
    by apply: minor_shape => //; rewrite ltnS ltn_ord.
  rewrite (@matrix_minor _ _ (lift ord0 i)) // lift0 add0n.
  by rewrite mulrA [_ ^+ _ * _]mulrC.
Qed.

Lemma matrix_minor2 n (A : list (list R)) (i j : 'I_n.+1) : array_shape n.+1 n.+1 A ->
  row' i (col' j (matrix_of n.+1 n.+1 A)) = matrix_of n n (List.map (without j) (without i A)).
Proof.
move=> [hl hf]; apply/matrixP => k l; rewrite !mxE /=.
have hk : (k < length (without i A))%N by rewrite length_without hl //=.
rewrite (@List.nth_indep _ (List.map _ _) k nil (without j nil)); last first.
  by rewrite List.map_length; apply/ltP.
have hi : List.In (List.nth (bump i k) A nil) A.
  apply: List.nth_In; rewrite hl; apply/ltP; exact: (ltn_ord (lift i k)).
rewrite List.map_nth (@nth_without _ i A k) ?hl // nth_without //.
by rewrite (proj1 (List.Forall_forall _ _) hf _ hi).
Qed.

Lemma in_without B k (l : list B) x : List.In x (without k l) -> List.In x l.
Proof.
rewrite /without => /List.in_app_iff [h|h].
  by rewrite -(List.firstn_skipn k l); apply/List.in_app_iff; left.
by rewrite -(List.firstn_skipn k.+1 l); apply/List.in_app_iff; right.
Qed.

Lemma minor_shape2 n (A : list (list R)) i j : (i < n.+1)%N -> (j < n.+1)%N -> array_shape n.+1 n.+1 A ->
  array_shape n n (List.map (without j) (without i A)).
Proof.
move=> hi hj [hl hf]; split; first by rewrite List.map_length length_without hl.
apply/List.Forall_forall => x /List.in_map_iff [y [<- hy0]]; have hy := in_without hy0.
have e := proj1 (List.Forall_forall _ _) hf _ hy.
by rewrite length_without e.
Qed.

Lemma nth_map_seq B (f : nat -> B) n i d : (i < n)%N -> List.nth i (List.map f (List.seq 0 n)) d = f i.
Proof.
move=> h; rewrite (@List.nth_indep _ _ i d (f 0%N)); last by rewrite List.map_length List.seq_length; apply/ltP.
by rewrite List.map_nth List.seq_nth //; apply/ltP.
Qed.

Lemma adjugate_shape n A : array_shape n n (adjugate o n A).
Proof.
split; first by rewrite /adjugate List.map_length List.seq_length.
apply/List.Forall_forall => x /List.in_map_iff [y [<- _]].
by rewrite List.map_length List.seq_length.
Qed.

Lemma adjugateE n A : array_shape n n A -> matrix_of n n (adjugate o n A) = \adj (matrix_of n n A).
Proof.
case: n => [|n] hA; apply/matrixP => i j; first by case: i.
rewrite !mxE /adjugate /cofactor nth_map_seq // nth_map_seq // alternateE minusE subn1 [n.+1.-1]/=.
rewrite determinantE; last exact: minor_shape2.
by rewrite matrix_minor2.
Qed.

Lemma adjugate_inverse n A : array_shape n n A ->
  matrix_of n n A *m matrix_of n n (adjugate o n A) = (det n A)%:M /\
  matrix_of n n (adjugate o n A) *m matrix_of n n A = (det n A)%:M /\
  (det n A \is a GRing.unit -> (det n A)^-1 *: matrix_of n n (adjugate o n A) = invmx (matrix_of n n A)).
Proof.
move=> hA; rewrite adjugateE // determinantE //; split; first exact: mul_mx_adj.
split; first exact: mul_adj_mx.
by move=> hu; rewrite /invmx unitmxE hu.
Qed.

Lemma rows_shape n (J : nat -> nat -> R) :
  array_shape n n (List.map (fun i => List.map (fun j => J i j) (List.seq 0 n)) (List.seq 0 n)).
Proof.
split; first by rewrite List.map_length List.seq_length.
apply/List.Forall_forall => x /List.in_map_iff [y [<- _]].
by rewrite List.map_length List.seq_length.
Qed.

Lemma rows_matrix n (J : nat -> nat -> R) :
  matrix_of n n (List.map (fun i => List.map (fun j => J i j) (List.seq 0 n)) (List.seq 0 n)) = table_of n n J.
Proof. by apply/matrixP => i j; rewrite !mxE nth_map_seq // nth_map_seq. Qed.

(** piola_inverse inverts the contravariant Piola map. *)
Lemma piola_inverseE n (J : nat -> nat -> R) : \det (table_of n n J) \is a GRing.unit ->
  matrix_of n n (piola_inverse o n J) *m ((\det (table_of n n J))^-1 *: table_of n n J) = 1%:M.
Proof.
move=> hu; rewrite /piola_inverse adjugateE; last exact: rows_shape.
by rewrite rows_matrix -scalemxAr mul_adj_mx scale_scalar_mx mulVr.
Qed.
End Det.
