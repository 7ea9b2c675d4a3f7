(** Newton interpolation. *)
From Coq Require List.
From mathcomp Require Import all_ssreflect all_algebra.
From mathcomp Require Import zify ring.
From Verif Require Import Model.Prelude Model.Gem Model.Serendipity Spec.Partial.
Set Implicit Arguments.
Unset Strict Implicit.
Unset Printing Implicit Defensive.
Import GRing.Theory.
Local Open Scope ring_scope.

(** ** Lists of the standard library as sequences *)
Lemma listE_map (A B : Type) (f : A -> B) l : List.map f l = map f l.
Proof. by elim: l => //= a l ->. Qed.
Lemma listE_nth (A : Type) (d : A) l n : List.nth n l d = nth d l n.
Proof. by elim: l n => [|a l IH] [|n] //=. Qed.
Lemma listE_seq a n : List.seq a n = iota a n.
Proof. by elim: n a => //= n IH a; rewrite IH. Qed.
Lemma listE_rev (A : Type) (l : seq A) : List.rev l = rev l.
Proof. by elim: l => //= a l ->; rewrite rev_cons -cats1. Qed.
Lemma listE_length (A : Type) (l : seq A) : length l = size l.
Proof. by elim: l => //= a l ->. Qed.
Lemma listE_fold_left (A B : Type) (f : B -> A -> B) l b : List.fold_left f l b = foldl f b l.
Proof. by elim: l b => //=. Qed.
Lemma listE_last (A : Type) (d : A) l : List.last l d = last d l.
Proof. by elim: l d => //= a l IH d; case: l IH => //= b l IH; rewrite (IH d) . Qed.

Section Newton.
  Variable F : fieldType.
  Variable nds : seq F.
  Hypothesis uniq_nds : uniq nds.
  Let x i := nds`_i.
  Let n := size nds.

  Section Values.
    Variable f : nat -> F.
    (** Divided differences. *)
    Fixpoint dd (j i : nat) : F :=
      if j is j'.+1 then (dd j' i.+1 - dd j' i) / (x (i + j) - x i) else f i.
    (** Neville's scheme. *)
    Fixpoint nev (j i : nat) : {poly F} :=
      if j is j'.+1 then (x (i + j) - x i)^-1 *: (('X - (x i)%:P) * nev j' i.+1 - ('X - (x (i + j))%:P) * nev j' i)
      else (f i)%:P.

    Lemma x_neq i j : (i < n)%N -> (j < n)%N -> i != j -> x i - x j != 0.
    Proof. by move=> Hi Hj Hij; rewrite subr_eq0 /x nth_uniq. Qed.

    Lemma size_nev j i : (size (nev j i) <= j.+1)%N.
    Proof.
      elim: j i => [|j IH] i /=; first by rewrite size_polyC leq_b1.
      apply: leq_trans (size_scale_leq _ _) _. apply: leq_trans (size_add _ _) _. rewrite size_opp geq_max.
      apply/andP; split; apply: leq_trans (size_mul_leq _ _) _; rewrite size_XsubC /=; exact: IH.
    Qed.

    Lemma nevE j i k : (i + j < n)%N -> (i <= k <= i + j)%N -> (nev j i).[x k] = f k.
    Proof.
      elim: j i k => [|j IH] i k Hn Hk /=.
        rewrite hornerC. by have -> : k = i by apply/eqP; rewrite eqn_leq; move: Hk; rewrite addn0 andbC.
      have Hne : x (i + j.+1) - x i != 0 by apply: x_neq => //; lia.
      rewrite hornerZ !hornerE.
      case: (altP (k =P i)) => [->|Hki].
        rewrite (IH i) //; [|lia|lia]. rewrite subrr mul0r sub0r -mulNr opprB mulKf //.
      case: (altP (k =P (i + j.+1)%N)) => [->|Hkj].
        rewrite (IH i.+1) //; [|lia|lia]. rewrite subrr mul0r subr0 mulKf //.
      rewrite (IH i.+1) //; [|lia|lia]. rewrite (IH i) //; [|lia|lia].
      rewrite -mulrBl. have -> : x k - x i - (x k - x (i + j.+1)) = x (i + j.+1) - x i by ring.
      by rewrite mulKf.
    Qed.

    Lemma coef_nev j i : (nev j i)`_j = dd j i.
    Proof.
      elim: j i => [|j IH] i /=; first by rewrite coefC eqxx.
      rewrite coefZ coefB !mulrBl !coefB ![in X in _ * X]coefXM /= !coefCM !IH.
      rewrite !(nth_default 0 (size_nev _ _)) !mulr0 !subr0. by rewrite mulrC mulrBl.
    Qed.

    (** The polynomial with Newton's coefficients. *)
    Definition newton m : {poly F} := \sum_(j < m) dd j 0 *: \prod_(k < j) ('X - (x k)%:P).

    Lemma size_prodX m : size (\prod_(k < m) ('X - (x k)%:P)) = m.+1.
    Proof. by rewrite size_prod_XsubC -[index_enum _]enumT size_enum_ord. Qed.

    Lemma nev_newton m : (m < n)%N -> nev m 0 = newton m.+1.
    Proof.
      elim: m => [|m IH] Hm.
        by rewrite /newton big_ord_recl big_ord0 addr0 big_ord0 /= alg_polyC.
      rewrite /newton big_ord_recr -/(newton m.+1). rewrite -(IH (ltnW Hm)).
      set D := dd _ _. set P := \prod_(_ < _) _.
      apply/eqP; rewrite -subr_eq0 opprD addrA; apply/eqP.
      set Q := _ - _.
      have HDE : (nev m.+1 0)`_m.+1 = D by rewrite coef_nev.
      have Hs : (size Q <= m.+1)%N.
        have Hs2 : (size Q <= m.+2)%N.
          rewrite /Q. apply: leq_trans (size_add _ _) _. rewrite size_opp geq_max. apply/andP; split.
            apply: leq_trans (size_add _ _) _. rewrite size_opp geq_max size_nev. exact: (leq_trans (size_nev _ _)).
          apply: leq_trans (size_scale_leq _ _) _. by rewrite size_prodX.
        have Hc : Q`_m.+1 = 0.
          rewrite /Q !coefB HDE coefZ (nth_default 0 (size_nev m 0)) subr0.
          have -> : P`_m.+1 = 1.
            have /monicP := monic_prod_XsubC (index_enum [finType of 'I_m.+1]) xpredT (fun k : 'I_m.+1 => x k).
            by rewrite lead_coefE size_prodX.
          by rewrite mulr1 subrr.
        move: Hs2; rewrite leq_eqVlt => /orP[/eqP E|//].
        have : lead_coef Q = 0 by rewrite lead_coefE E.
        by move/eqP; rewrite lead_coef_eq0 => /eqP ->; rewrite size_poly0.
      apply: (@roots_geq_poly_eq0 _ _ [seq x k | k <- iota 0 m.+1]).
      - apply/allP => y /mapP[k]; rewrite mem_iota => /andP[_ Hk] ->. rewrite rootE /Q.
        have E1 := @nevE m.+1 0 k ltac:(lia) ltac:(lia). have E2 := @nevE m 0 k ltac:(lia) ltac:(lia).
        move: (nev m.+1 0) (nev m 0) E1 E2 => N1 N2 E1 E2. rewrite !hornerE E1 E2 subrr sub0r oppr_eq0 mulf_eq0. apply/orP; right.
        by rewrite /P (bigD1 (Ordinal (ltac:(lia) : (k < m.+1)%N))) //= hornerM !hornerE subrr mul0r eqxx.
      - rewrite map_inj_in_uniq ?iota_uniq // => i j. rewrite !mem_iota => Hi Hj E. apply/eqP. apply/negPn/negP => Hij.
        have := @x_neq i j ltac:(lia) ltac:(lia) Hij. by rewrite E subrr eqxx.
      - by rewrite size_map size_iota.
    Qed.

    Lemma newton_interpolates m k : (m < n)%N -> (k <= m)%N -> (newton m.+1).[x k] = f k.
    Proof. by move=> Hm Hk; rewrite -nev_newton // nevE //; lia. Qed.
    Lemma size_newton m : (m < n)%N -> (size (newton m.+1) <= m.+1)%N.
    Proof. by move=> Hm; rewrite -nev_newton // size_nev. Qed.

    (** Newton's coefficients by Horner's rule. *)
    Lemma horner_newton m y :
      foldl (fun res i => res * (y - x i) + dd i 0) (dd m 0) (rev (iota 0 m)) = (newton m.+1).[y].
    Proof.
      suff H : forall c, foldl (fun res i => res * (y - x i) + dd i 0) c (rev (iota 0 m))
                         = (newton m).[y] + c * \prod_(k < m) (y - x k).
        rewrite H /newton big_ord_recr /= hornerD hornerZ horner_prod. congr (_ + _ * _).
        by apply: eq_bigr => k _; rewrite !hornerE.
      elim: m => [|m IH] c; first by rewrite /newton !big_ord0 hornerC mulr1 add0r.
      have -> : iota 0 m.+1 = iota 0 m ++ [:: m] by rewrite -addn1 iotaD.
      rewrite rev_cat /= IH /newton !big_ord_recr /= hornerD hornerZ horner_prod.
      have -> : \prod_(k < m) ('X - (x k)%:P).[y] = \prod_(k < m) (y - x k) by apply: eq_bigr => k _; rewrite !hornerE.
      move: (\prod_(k < m) (y - x k)) => B. rewrite -!addrA; congr (_ + _). rewrite mulrDl -mulrA [(y - _) * B]mulrC addrC. by [].
    Qed.
  End Values.

  (** ** The program *)
  Variable fs : seq F.
  Hypothesis size_fs : size fs = n.
  Hypothesis n_gt0 : (0 < n)%N.
  Let f i := fs`_i.
  Let O := partial_ops F.
  Let S := @Some F.

  Lemma nth_some l i : (i < size l)%N -> nth (Some 0) (map S l) i = Some (l`_i).
  Proof. by move=> H; rewrite (nth_map 0). Qed.

  Lemma dd_column_some j :
    dd_column O (map S nds) j.+1 (map (fun i => S (dd f j i)) (iota 0 (n - j))) = map (fun i => S (dd f j.+1 i)) (iota 0 (n - j.+1)).
  Proof.
    rewrite /dd_column listE_map listE_seq listE_length size_map -/n !minusE. apply/eq_in_map => i. rewrite mem_iota add0n => Hi.
    rewrite !listE_nth !plusE. have Hf0 : f0 O = Some 0 by []. rewrite Hf0 !nth_some -/n; [|lia|lia].
    rewrite !(nth_map 0%N) ?size_iota; [|lia|lia]. rewrite !nth_iota; [|lia|lia]. rewrite !add0n /=.
    have Hne : x (i + j.+1) - x i != 0 by apply: x_neq => //; lia. by rewrite -/(x _) -/(x _) (negbTE Hne).
  Qed.

  Lemma dd_from_some k j : (j + k <= n)%N ->
    dd_from O (map S nds) j k (map (fun i => S (dd f j i)) (iota 0 (n - j))) = map (fun i => S (dd f i 0)) (iota j k).
  Proof.
    elim: k j => [|k IH] j Hk //=. congr (_ :: _).
      by have -> : (n - j = (n - j).-1.+1)%N by lia.
    rewrite dd_column_some IH //; lia.
  Qed.

  Lemma newton_dd_some : newton_dd O (map S nds) (map S fs) = Ok (map (fun i => S (dd f i 0)) (iota 0 n)).
  Proof.
    rewrite /newton_dd !listE_length !size_map size_fs -/n PeanoNat.Nat.eqb_refl /=.
    have -> : PeanoNat.Nat.eqb n 0 = false by apply/PeanoNat.Nat.eqb_neq; lia. rewrite /=.
    rewrite -[in RHS](dd_from_some (k := n) (j := 0)); last lia.
    congr (Ok (dd_from _ _ _ _ _)). rewrite subn0 -size_fs -[in LHS](mkseq_nth 0 fs) /mkseq -map_comp. by [].
  Qed.

  Lemma newton_poly_some y : newton_poly O (map S nds) (map S fs) (Some y) = Ok (Some (newton f n).[y]).
  Proof.
    rewrite /newton_poly newton_dd_some /=. congr Ok. rewrite /newton_horner listE_fold_left listE_rev listE_length listE_seq size_map size_iota listE_last minusE subn1.
    rewrite -[in RHS](prednK n_gt0) -horner_newton.
    have -> : last (f0 O) [seq S (dd f i 0) | i <- iota 0 n] = Some (dd f n.-1 0).
      by rewrite -[in X in iota _ X](prednK n_gt0) -addn1 iotaD map_cat last_cat.
    have : all (fun i => i < n)%N (rev (iota 0 n.-1)).
      apply/allP => i; rewrite mem_rev mem_iota; lia.
    elim: (rev _) (dd f n.-1 0) => [|i l IH] c //= /andP[Hi Hl]. rewrite -IH // !listE_nth. have Hf0 : f0 O = Some 0 by [].
    rewrite Hf0 nth_some // (nth_map 0%N) ?size_iota // nth_iota //.
  Qed.
End Newton.

(** The errors of newton_dd. *)
Lemma newton_poly_lengths (F : Type) (o : ops F) nds fs x : size fs <> size nds -> newton_poly o nds fs x = Err ValueError.
Proof.
  move=> H. rewrite /newton_poly /newton_dd !listE_length.
  have -> // : PeanoNat.Nat.eqb (size nds) (size fs) = false. apply/PeanoNat.Nat.eqb_neq. congruence.
Qed.
Lemma newton_poly_empty (F : Type) (o : ops F) x : newton_poly o [::] [::] x = Err IndexError.
Proof. by []. Qed.

(** Interpolation with division by zero undefined. *)
Lemma newton_poly_interpolates (F : fieldType) (nds fs : seq F) :
  uniq nds -> size fs = size nds -> (0 < size nds)%N ->
  exists p : {poly F}, [/\ (size p <= size nds)%N, forall i, (i < size nds)%N -> p.[nds`_i] = fs`_i
    & forall y, newton_poly (partial_ops F) (map Some nds) (map Some fs) (Some y) = Ok (Some p.[y])].
Proof.
  move=> U Hs Hn. exists (newton nds (fun i => fs`_i) (size nds)). split.
  - rewrite -(prednK Hn). apply: size_newton => //. by rewrite ltn_predL.
  - move=> i Hi. rewrite -(prednK Hn). rewrite newton_interpolates //; lia.
  - move=> y. exact: newton_poly_some.
Qed.
