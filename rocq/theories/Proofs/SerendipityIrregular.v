(** Where the normalisation of the edge functions fails. *)
From Coq Require List.
From mathcomp Require Import all_ssreflect all_algebra.
From mathcomp Require Import zify ring.
From Verif Require Import Model.Prelude Model.Gem Model.Serendipity Spec.Partial Spec.Serendipity Proofs.Newton Proofs.SerendipityGeometry Proofs.SerendipityInner Proofs.SerendipityEdges Proofs.SerendipityNodal Proofs.SerendipityRegular.
Set Implicit Arguments.
Unset Strict Implicit.
Unset Printing Implicit Defensive.
Import Order.TTheory GRing.Theory Num.Theory.
Local Open Scope ring_scope.

Section Irregular.
  Variables (F : realFieldType) (v : nat -> point F) (s : F) (r : nat).
  Hypothesis convex : turns v s.
  Hypothesis r_ge3 : (3 <= r)%N.
  Local Notation O := (partial_ops F).
  Local Notation sv := (sv v).
  Local Notation lam := (lam v).
  Local Notation op := opposite_edge.
  Local Notation enode := (edge_point v r).
  Let r_ge2 : (2 <= r)%N. Proof. lia. Qed.

  Lemma div_zero (x : option F) : fdiv O x (Some 0) = None.
  Proof. by case: x => //= a; rewrite eqxx. Qed.

  Lemma normaliser_eq0 e i (p q : {poly F}) : (e < 4)%N -> (0 < i < r)%N -> (size p <= r - 2)%N -> (size q <= r - 2)%N ->
    (forall k, (0 < k < r)%N -> k != i -> p.[tk F r k] = pv v r e k) ->
    (forall k, (0 < k < r)%N -> q.[k%:R / r%:R] * `|turn (v (tail_nb e)) (v (head_nb e)) (enode e k)| = edge_ratio v r e k ^+ (r - 2)) ->
    lam (op e) (enode e i) * p.[tk F r i] + tun v e (enode e i) ^+ (r - 2) = 0.
  Proof.
    move=> He Hi Sp Sq Hp Hq. have [[_ _ H2] [_ _ N2] _ _] := edge_facts He.
    have {}Hq k : (0 < k < r)%N -> q.[tk F r k] * (s * lam (op e) (enode e k)) = tun v e (enode e k) ^+ (r - 2).
      by move=> Hk; rewrite -(opposite_abs convex r_ge2) // -(edge_ratio_tun convex r_ge2) // -Hq.
    suff -> : p = - s *: q by rewrite hornerZ -(Hq i Hi); ring.
    apply/eqP. rewrite -subr_eq0. apply/negPn/negP => N0.
    have Ur : uniq [seq tk F r k | k <- idx r i] by rewrite map_inj_uniq ?uniq_idx //; exact: tk_inj.
    have := max_poly_roots N0 _ Ur. rewrite size_map (size_idx r_ge2 r_ge3 He Hi).
    have -> : all (root (p - - s *: q)) [seq tk F r k | k <- idx r i].
      apply/allP => _ /mapP[k Hk ->]. move: Hk. rewrite (mem_idx r_ge2 r_ge3 He Hi) => /andP[Hk Hki].
      have L := enode1' convex r_ge2 He H2 Hk N2.
      rewrite /root hornerD hornerN hornerZ Hp // /pv -(Hq k Hk) mulN1r. apply/eqP. field. exact: L.
    move=> /(_ isT) /leq_trans /(_ (size_add _ _)). rewrite size_opp leq_max => /orP[] L.
      by move: (leq_trans L Sp); rewrite ltnn.
    by move: (leq_trans L (leq_trans (size_scale_leq _ _) Sq)); rewrite ltnn.
  Qed.

  Lemma irregular_undefined e i x : (e < 4)%N -> (0 < i < r)%N ->
    (exists q : {poly F}, (size q <= r - 2)%N /\
      forall k, (0 < k < r)%N -> q.[k%:R / r%:R] * `|turn (v (tail_nb e)) (v (head_nb e)) (enode e k)| = edge_ratio v r e k ^+ (r - 2)) ->
    emod v r e i x = None.
  Proof.
    move=> He Hi [q [Sq Hq]]. have [[L0 L1 L2] _ _ _] := edge_facts He.
    rewrite /emod. have -> : r == 2%N = false by lia.
    have [p [Sp Ip Ep]] := edge_p_some convex r_ge2 r_ge3 He Hi.
    pose g n := lam (adjacent0 e) (place v r n) * lam (adjacent1 e) (place v r n)
       * (lam (op e) (place v r n) * p.[par v e (place v r n)] + tun v e (place v r n) ^+ (r - 2) * rs v e (place v r n)).
    have Hf m : good r m -> edge_prebf O sv r e i.-1 (somep (place v r m)) = Some (g m).
      move=> Hm. have HP := good_placed convex r_ge2 Hm.
      by rewrite /edge_prebf Ep !lams_some // (tunnel_some He HP) (Rs_some He HP) pw_some minusE.
    have Gi : good r (E e i) by rewrite /= He Hi.
    have Hnode : edge_node O sv r e i.-1 = somep (place v r (E e i)).
      rewrite /edge_node edge_nodesE // listE_nth (nth_map (0, 0)) ?size_map ?size_iota; last lia.
      rewrite (nth_map 0%N) ?size_iota; last lia. rewrite nth_iota; last lia. have -> : (1 + i.-1 = i)%N by lia. by [].
    have Hint t : t \in lat r -> edge_prebf O sv r e i.-1 (somep (inode v r t)) = Some (g (I t)) by move=> Ht; exact: (Hf (I t)).
    rewrite /edge_bf Hnode (nodalize_boundary convex Hint (Hf _ Gi)); last exact: bub_enode.
    suff -> : g (E e i) = 0 by exact: div_zero.
    rewrite /g (rs_own He (good_placed convex r_ge2 Gi)); last exact: enode0.
    rewrite mulr1 /= (par_along convex) // [X in _ * X](normaliser_eq0 He Hi Sp Sq Ip Hq). exact: mulr0.
  Qed.

  (** A nodal basis means that all edges are regular. *)
  Lemma nodal_regular : nodal (dsr_sym O sv r) (nodes v r) -> forall e, (e < 4)%N -> edge_regular v r e.
  Proof.
    rewrite dsr_symE nodesE => -[_ H] e He Hq.
    have Hm : E e 1 \in names r.
      rewrite /names mem_cat mem_cat. apply/or3P; apply: Or32. apply/allpairsPdep. exists e, 1%N. rewrite !mem_iota. split=> //; lia.
    have := H (index (E e 1) (names r)) (index (E e 1) (names r)). rewrite size_map index_mem Hm => /(_ isT isT).
    rewrite (nth_map (V 0)) ?index_mem // nth_index //.
    by rewrite -[basis _ _ _]/(emod v r e 1) irregular_undefined //; lia.
  Qed.
End Irregular.

(** Over real numbers (and all real closed fields) there is a convex quadrilateral
    where an edge is not regular for degree 4. *)
Section Witness.
  Variable R : rcfType.
  Implicit Type u : R.
  Definition kite u (i : nat) : point R := nth (0, 0) [:: (0, 0); (5%:R, 0); (0, 5%:R); (u, 1)] i.

  Lemma kite_root : exists2 u : R, 14%:R < u < 15%:R & 35%:R * u ^+ 2 - 545%:R * u + 438%:R = 0.
  Proof.
    pose p : {poly R} := 35%:R *: 'X^2 - 545%:R *: 'X + 438%:R%:P.
    have Hp x : p.[x] = 35%:R * x ^+ 2 - 545%:R * x + 438%:R by rewrite /p hornerD hornerD hornerN !hornerZ hornerXn hornerX hornerC.
    have P2 : p.[14%:R] < 0.
      rewrite Hp (_ : _ + _ = - 332%:R); last by ring. by rewrite oppr_lt0 ltr0n.
    have P3 : 0 < p.[15%:R].
      rewrite Hp (_ : _ + _ = 138%:R); last by ring. by rewrite ltr0n.
    have [x Hx Rx] : exists2 x : R, x \in `[14%:R, 15%:R] & root p x.
      by apply: poly_ivt; rewrite ?ler_nat // (ltW P2) (ltW P3).
    exists x; last by rewrite -Hp; exact/eqP.
    move: Hx. rewrite in_itv /= => /andP[H2 H3]. rewrite !lt_neqAle H2 H3 !andbT.
    apply/andP; split; apply/eqP => E0; move: Rx; rewrite /root; [rewrite -E0|rewrite E0].
      by rewrite (lt_eqF P2). by rewrite (gt_eqF P3).
  Qed.

  Lemma above u n : 14%:R < u -> (n < 14)%N -> 0 < u - n%:R.
  Proof. by move=> Hu Hn; rewrite subr_gt0 (lt_trans _ Hu) // ltr_nat. Qed.
  Lemma kite_turns u : 14%:R < u -> turns (kite u) 1.
  Proof.
    move=> Hu. split; first by left. have U0 : 0 < u by rewrite -[u]subr0 (above (n := 0)).
    split; rewrite mul1r /turn /kite /=.
    - by rewrite (_ : _ - _ = 25%:R) ?ltr0n //; ring.
    - by rewrite (_ : _ - _ = 5%:R) ?ltr0n //; ring.
    - rewrite (_ : _ - _ = 5%:R * (u - 4%:R)); last by ring. by rewrite mulr_gt0 ?ltr0n // above.
    - rewrite (_ : _ - _ = 5%:R * u); last by ring. by rewrite mulr_gt0 ?ltr0n.
  Qed.
  Lemma kite_irregular u : 14%:R < u -> 35%:R * u ^+ 2 - 545%:R * u + 438%:R = 0 -> ~ edge_regular (kite u) 4 0.
  Proof.
    move=> Hu Eu Hr. apply: Hr.
    have n1 : u - 1%:R != 0 by rewrite lt0r_neq0 // above.
    have n2 : u - 2%:R != 0 by rewrite lt0r_neq0 // above.
    have n3 : u - 3%:R != 0 by rewrite lt0r_neq0 // above.
    have N n : (0 < n)%N -> (n%:R : R) != 0 by move=> Hn; rewrite pnatr_eq0 -lt0n.
    have m4 := N 4%N isT. have m5 := N 5%N isT. have m9 := N 9%N isT. have m16 := N 16%N isT. have m6 := N 6%N isT. have m64 := N 64%N isT.
    pose y1 : R := (80%:R * (u - 1%:R))^-1. pose y2 : R := 4%:R / (45%:R * (u - 2%:R)).
    pose q : {poly R} := y1%:P + (4%:R * (y2 - y1)) *: ('X - (4%:R^-1)%:P).
    exists q. split.
      apply: leq_trans (size_add _ _) _. rewrite geq_max (leq_trans (size_polyC_leq1 _)) //=.
      apply: leq_trans (size_scale_leq _ _) _. by rewrite size_XsubC.
    have Hq t : q.[t] = y1 + (4%:R * (y2 - y1)) * (t - 4%:R^-1) by rewrite /q hornerD hornerZ hornerD hornerN hornerX !hornerC.
    have T1 k : (0 < k < 4)%N -> `|turn (kite u 2) (kite u 3) (edge_point (kite u) 4 0 k)| = 5%:R * (u - k%:R).
      move=> Hk. rewrite /turn /edge_point /along /kite /=.
      rewrite (_ : _ - _ = - (5%:R * (u - k%:R))); last by field.
      rewrite normrN gtr0_norm // mulr_gt0 ?ltr0n // above //. lia.
    have T2 k : (0 < k < 4)%N -> `|turn (kite u 0) (kite u 2) (edge_point (kite u) 4 0 k)| = 25%:R * k%:R / 4%:R.
      move=> Hk. rewrite /turn /edge_point /along /kite /=.
      rewrite (_ : _ - _ = - (25%:R * k%:R / 4%:R)); last by field.
      rewrite normrN ger0_norm // divr_ge0 ?mulr_ge0 ?ler0n //.
    have T3 k : (0 < k < 4)%N -> `|turn (kite u 1) (kite u 3) (edge_point (kite u) 4 0 k)| = 5%:R * (4 - k)%:R / 4%:R.
      move=> Hk. rewrite /turn /edge_point /along /kite /=.
      rewrite (_ : _ - _ = 5%:R * (4 - k)%:R / 4%:R); last by rewrite natrB; [field|lia].
      rewrite ger0_norm // divr_ge0 ?mulr_ge0 ?ler0n //.
    move=> k Hk. rewrite /edge_ratio. rewrite [`|turn (kite u (tail_nb 0)) _ _|]T1 // [`|turn (kite u (tail 0)) _ _|]T2 // [`|turn (kite u (head 0)) _ _|]T3 // Hq.
    have [E0|E0|E0] : [\/ k = 1%N, k = 2%N | k = 3%N] by case: k Hk => [|[|[|[|k]]]] // _; [apply: Or31|apply: Or32|apply: Or33].
    - rewrite E0 /y1 /y2 -[(4 - 2)%N]/2%N -[(4 - 1)%N]/3%N. by field; rewrite ?n1 ?n2 ?N.
    - rewrite E0 /y1 /y2 -[(4 - 2)%N]/2%N. by field; rewrite ?n1 ?n2 ?N.
    - rewrite E0 /y1 /y2 -[(4 - 2)%N]/2%N -[(4 - 3)%N]/1%N. apply/eqP. rewrite -subr_eq0.
      rewrite (_ : _ - _ = (35%:R * u ^+ 2 - 545%:R * u + 438%:R) / (576%:R * ((u - 1%:R) * (u - 2%:R)))); first by rewrite Eu mul0r.
      by field; rewrite ?n1 ?n2 ?N.
  Qed.
End Witness.
