(** Numbers of the nodes, traces of the direct serendipity functions of degree at
    least 2 and reproduction of quadratic polynomials. *)
From Coq Require List.
From mathcomp Require Import all_ssreflect all_algebra.
From mathcomp Require Import zify ring.
From Verif Require Import Model.Prelude Model.Gem Model.Serendipity Spec.Partial Spec.Serendipity Proofs.Newton Proofs.SerendipityGeometry Proofs.SerendipityInner Proofs.SerendipityEdges Proofs.SerendipityNodal Proofs.SerendipityRegular Proofs.SerendipityTrace.
Set Implicit Arguments.
Unset Strict Implicit.
Unset Printing Implicit Defensive.
Import Order.TTheory GRing.Theory Num.Theory.
Local Open Scope ring_scope.

Section Numbers.
  Variable r : nat.
  Hypothesis r_ge2 : (2 <= r)%N.
  Local Notation names := (names r).
  Local Notation good := (good r).

  Lemma index_seq a n k : (k < n)%N -> index (a + k)%N (iota a n) = k.
  Proof. move=> Hk. rewrite -{1}(nth_iota 0%N a Hk) index_uniq ?iota_uniq ?size_iota //. Qed.
  Lemma namesE : names = map V (iota 0 4) ++ ([seq E 0 k | k <- iota 1 (r - 1)] ++ [seq E 1 k | k <- iota 1 (r - 1)]
      ++ [seq E 2 k | k <- iota 1 (r - 1)] ++ [seq E 3 k | k <- iota 1 (r - 1)]) ++ map I (lat r).
  Proof. by rewrite /SerendipityNodal.names /= cats0. Qed.
  Definition num (n : node) : nat :=
    match n with inl (inl i) => i | inl (inr (e, k)) => 4 + e * (r - 1) + k.-1 | inr t => 4 + 4 * (r - 1) + index t (lat r) end%N.
  Lemma mem_names n : good n -> n \in names.
  Proof.
    rewrite /SerendipityNodal.names mem_cat mem_cat. case: n => [[i|[e k]]|t] Hn.
    - by apply/or3P; apply: Or31; apply/mapP; exists i => //; rewrite mem_iota.
    - apply/or3P; apply: Or32; apply/allpairsPdep; exists e, k. rewrite !mem_iota. case/andP: Hn => He Hk. split=> //; lia.
    - by apply/or3P; apply: Or33; apply/mapP; exists t.
  Qed.
  Lemma nth_num n : good n -> nth (V 0) names (num n) = n.
  Proof.
    rewrite namesE. have N4 X m : nth (V 0) (map V (iota 0 4) ++ X) (4 + m) = nth (V 0) X m by [].
    case: n => [[i|[e k]]|t] Hn.
    - by case: (edges4 Hn) => ->.
    - case/andP: Hn => He Hk.
      have N c : nth (V 0) [seq E c k | k <- iota 1 (r - 1)] k.-1 = E c k.
        rewrite (nth_map 0%N) ?size_iota; last lia. rewrite nth_iota; last lia. by have -> : (1 + k.-1 = k)%N by lia.
      have S c : size [seq E c k | k <- iota 1 (r - 1)] = (r - 1)%N by rewrite size_map size_iota.
      have -> : num (inl (inr (e, k))) = (4 + (e * (r - 1) + k.-1))%N by rewrite /num addnA.
      rewrite N4 !nth_cat !size_cat !S.
      case: (edges4 He) => ->; rewrite ?mul0n ?mul1n ?add0n.
      + by rewrite ifT ?ifT ?N //; lia.
      + rewrite ifT; last lia. rewrite ifF; last lia. rewrite ifT; last lia. have -> : (r - 1 + k.-1 - (r - 1) = k.-1)%N by lia. exact: N.
      + rewrite ifT; last lia. rewrite ifF; last lia. rewrite ifF; last lia. rewrite ifT; last lia.
        have -> : (2 * (r - 1) + k.-1 - (r - 1) - (r - 1) = k.-1)%N by lia. exact: N.
      + rewrite ifT; last lia. rewrite ifF; last lia. rewrite ifF; last lia. rewrite ifF; last lia.
        have -> : (3 * (r - 1) + k.-1 - (r - 1) - (r - 1) - (r - 1) = k.-1)%N by lia. exact: N.
    - have S c : size [seq E c k | k <- iota 1 (r - 1)] = (r - 1)%N by rewrite size_map size_iota.
      have -> : num (inr t) = (4 + (4 * (r - 1) + index t (lat r)))%N by rewrite /num addnA.
      rewrite N4 nth_cat !size_cat !S ifF; last lia.
      have -> : (4 * (r - 1) + index t (lat r) - (r - 1 + (r - 1 + (r - 1 + (r - 1)))) = index t (lat r))%N by lia.
      rewrite (nth_map (0, 0, 0)%N) ?index_mem // nth_index //.
  Qed.
  Lemma num_nth i : (i < size names)%N -> num (nth (V 0) names i) = i.
  Proof.
    move=> Hi. have Hm := mem_nth (V 0) Hi. have Hg := good_names r_ge2 Hm.
    have L : (num (nth (V 0) names i) < size names)%N.
      rewrite ltnNge. apply/negP => Hs. have E0 := nth_num Hg. rewrite nth_default // in E0.
      move: Hs. rewrite -E0 leqNgt => /negP[]. by rewrite namesE size_cat.
    have := nth_num Hg => /eqP. by rewrite nth_uniq ?uniq_names // => /eqP.
  Qed.
  Lemma index_edge e n : good n -> (e < 4)%N ->
    (num n \in edge_dofs r e) = (spot r e n != None) /\ forall j, spot r e n = Some j -> index (num n) (edge_dofs r e) = j.
  Proof.
    move=> Hn He. rewrite /edge_dofs.
    have T4 : (tail e < 4)%N := tail_lt He. have H4 : (head e < 4)%N := head_lt He.
    have TH : tail e != head e by case: (edges4 He) => ->.
    have below4 c i : (i < 4)%N -> (4 + c <= i)%N = false by lia.
    have below4' c i k : (i < 4)%N -> (4 + c + k == i)%N = false by lia.
    case: n Hn => [[i|[f k]]|t] Hn.
    - have Hi : (i < 4)%N := Hn.
      rewrite [num _]/= in_cons mem_cat mem_iota mem_seq1 [spot _ _ _]/=. split.
        rewrite below4 //=.
        by case: (i == tail e); case: (i == head e).
      move=> j. case: (altP (i =P tail e)) => [-> [<-]|Hit]; first by rewrite /= eqxx.
      case: (altP (i =P head e)) => // Eh [<-]. rewrite Eh in Hit *. rewrite [index _ _]/= eq_sym (negbTE Hit) index_cat mem_iota size_iota.
      rewrite below4 //=. rewrite /= eqxx. lia.
    - case/andP: (Hn) => Hf Hk. rewrite [num _]/= [spot _ _ _]/= in_cons mem_cat mem_iota mem_seq1.
      have E1 : (4 + f * (r - 1) + k.-1 == tail e)%N = false := below4' _ _ _ T4.
      have E2 : (4 + f * (r - 1) + k.-1 == head e)%N = false := below4' _ _ _ H4.
      rewrite E1 E2 orbF /=.
      have E3 : ((4 + e * (r - 1) <= 4 + f * (r - 1) + k.-1 < 4 + e * (r - 1) + (r - 1)) = (f == e))%N.
        by case: (edges4 He) => ->; case: (edges4 Hf) => ->; lia.
      rewrite E3. split; first by case: eqP. move=> j. case: eqP => // Ef [<-]. rewrite Ef in E1 E3 *.
      rewrite eq_sym E1 index_cat mem_iota E3 eqxx. rewrite index_seq; lia.
    - rewrite [num _]/= [spot _ _ _]/= in_cons mem_cat mem_iota mem_seq1. split=> //.
      rewrite !below4' // orbF [_ || _]/=. transitivity false => //. move: (index t (lat r)) => x. by case: (edges4 He) => ->; lia.
  Qed.
End Numbers.

Section Conforming.
  Variables (F : realFieldType) (v : nat -> point F) (s : F) (r : nat).
  Hypothesis convex : turns v s.
  Hypothesis r_ge2 : (2 <= r)%N.
  Hypothesis regular : forall e, (e < 4)%N -> edge_regular v r e.
  Local Notation O := (partial_ops F).
  Local Notation sv := (sv v).
  Local Notation pt_on := (pt_on v).
  Local Notation names := (names r).
  Local Notation basis := (basis v r).
  Local Notation good := (good r).

  Lemma spot_onto e k : (e < 4)%N -> (k <= r)%N -> exists2 n, good n & spot r e n = Some k.
  Proof.
    move=> He Hk. have TH : tail e != head e by case: (edges4 He) => ->.
    case: (k =P 0%N) => [->|k0]; first by exists (V (tail e)); [exact: tail_lt|rewrite /= eqxx].
    case: (k =P r) => [->|kr]; first by exists (V (head e)); [exact: head_lt|rewrite /= eq_sym (negbTE TH) eqxx].
    exists (E e k); last by rewrite /= eqxx. rewrite /SerendipityNodal.good /= He /=. lia.
  Qed.
  Lemma spot_inj e n m k : (e < 4)%N -> good n -> good m -> spot r e n = Some k -> spot r e m = Some k -> n = m.
  Proof.
    move=> He. have TH : tail e != head e by case: (edges4 He) => ->.
    case: n => [[i|[f a]]|t] //; case: m => [[j|[g b]]|u] // Hn Hm /=.
    - case: (i =P tail e) => [->|_] => [[<-]|].
        case: (j =P tail e) => [->|_] //. case: (j =P head e) => // _ [H]. move: r_ge2. by rewrite H.
      case: (i =P head e) => // -> [<-]. case: (j =P tail e) => [_ [H]|_]; first by move: r_ge2; rewrite -H.
      by case: (j =P head e) => [->|].
    - move: Hm => /andP[_ Hb]. case: eqP => _; [|case: eqP => // _]; move=> [<-]; case: eqP => // _ [E0]; move: Hb; lia.
    - move: Hn => /andP[_ Hb]. case: eqP => // _ [<-]. case: eqP => _; [|case: eqP => // _]; move=> [E0]; move: Hb; lia.
    - by case: eqP => // -> [<-]; case: eqP => // -> [->].
  Qed.
  Lemma basis_trace e n j t : good n -> (e < 4)%N -> spot r e n = Some j -> r = 2%N \/ parallelogram v -> 0 <= t <= 1 ->
    ev (basis n) (pt_on e t) = (lagrange F r j).[t].
  Proof.
    move=> Hn He Hj Hr Ht. have [p Sp Hp] := basis_trace_some convex r_ge2 regular Hn He Hj Hr.
    have [Jr _] := spot_place v r_ge2 Hn He Hj.
    rewrite Hp //. suff -> : p = lagrange F r j by [].
    apply/eqP. rewrite -subr_eq0. apply/negPn/negP => N0.
    have Ur : uniq [seq tk F r k | k <- iota 0 r.+1] by rewrite map_inj_uniq ?iota_uniq //; exact: tk_inj.
    have := max_poly_roots N0 _ Ur. rewrite size_map size_iota.
    have -> : all (root (p - lagrange F r j)) [seq tk F r k | k <- iota 0 r.+1].
      apply/allP => _ /mapP[k Hk ->]. have Kr : (k <= r)%N by move: Hk; rewrite mem_iota; lia.
      rewrite /root !hornerE lagrange_node // -Hp; last first.
        rewrite /tk divr_ge0 ?ler0n //= ler_pdivr_mulr ?mul1r ?ler_nat // ltr0n. lia.
      have [m Hm Hs] := spot_onto He Kr. have [_ <-] := spot_place v r_ge2 Hm He Hs.
      rewrite /ev (basis_nodal convex) //= subr_eq0. suff -> : (n == m) = (j == k) by [].
      apply/eqP/eqP => [E0|E0]; first by move: Hj Hs; rewrite E0 => -> [].
      by apply: (spot_inj He Hn Hm Hj); rewrite E0.
    move=> /(_ isT) /leq_trans /(_ (size_add _ _)). rewrite size_opp.
    have := size_lagrange F r_ge2 Jr. move: Sp => Sp Sl; rewrite leq_max => /orP[] L; [move: (leq_trans L Sp)|move: (leq_trans L Sl)]; by rewrite ltnn.
  Qed.

  Lemma dsr_conforming : r = 2%N \/ parallelogram v -> conforming (dsr_sym O sv r) v r.
  Proof.
    move=> Hr e i t He Hi Ht. move: Hi. rewrite dsr_symE size_map => Hi. rewrite (nth_map (V 0)) //.
    have Hg := good_names r_ge2 (mem_nth (V 0) Hi). have [I1 I2] := index_edge r_ge2 Hg He.
    rewrite (num_nth r_ge2 Hi) in I1 I2. rewrite -/(pt_on e t) (basis_defined convex) //; last exact: pt_on_placed. congr Some. rewrite I1.
    case Hs: (spot r e _) => [j|]; first by rewrite (basis_trace Hg He Hs) // (I2 _ Hs).
    by apply: (basis_trace_none convex).
  Qed.
  Lemma dsr_defined P i : in_quad v P -> (i < size (dsr_sym O sv r))%N -> exists y, nth (fun=> None) (dsr_sym O sv r) i (somep P) = Some y.
  Proof.
    move=> HP. rewrite dsr_symE size_map => Hi. rewrite (nth_map (V 0)) //. have Hg := good_names r_ge2 (mem_nth (V 0) Hi).
    eexists. apply: (basis_defined convex) => //. exact: in_quad_placed.
  Qed.
End Conforming.

(** Where the node of a dof lies. *)
Section Location.
  Variables (F : realFieldType) (v : nat -> point F).
  Lemma node_vertex r i : (i < 4)%N -> nth (0, 0) (nodes v r) i = v i.
  Proof. by move=> Hi; case: (edges4 Hi) => ->. Qed.
  Lemma node_edge r e k : (2 <= r)%N -> (e < 4)%N -> (k < r - 1)%N -> nth (0, 0) (nodes v r) (4 + e * (r - 1) + k) = edge_point v r e k.+1.
  Proof.
    move=> Hr He Hk. have Hg : good r (E e k.+1) by rewrite /= He /=; lia.
    rewrite nodesE. have Hn := nth_num Hr Hg. have Hm := mem_names Hr Hg.
    have L : (4 + e * (r - 1) + k < size (names r))%N.
      rewrite -[(4 + _ + k)%N]/(num r (E e k.+1)). rewrite -(nth_index (V 0) Hm) num_nth ?index_mem //.
    by rewrite (nth_map (V 0)) // -[(4 + _ + k)%N]/(num r (E e k.+1)) Hn.
  Qed.
  Lemma node_inner s r d : turns v s -> (2 <= r)%N -> (4 + 4 * (r - 1) <= d < size (nodes v r))%N -> inside v s (nth (0, 0) (nodes v r) d).
  Proof.
    move=> Hc Hr /andP[Hd1 Hd2]. move: Hd2. rewrite nodesE size_map => Hd2. rewrite (nth_map (V 0)) //.
    have Hg := good_names Hr (mem_nth (V 0) Hd2). have Hn := num_nth Hr Hd2.
    move: Hg Hn. case: (nth _ _ _) => [[i|[e k]]|t] Hg Hn.
    - move: Hd1. rewrite -Hn /=. have : (i < 4)%N := Hg. lia.
    - move: Hd1. rewrite -Hn /=. case/andP: Hg => He Hk. by case: (edges4 He) => ->; lia.
    - exact: (inode_inside Hc).
  Qed.
End Location.
