(** When the edge functions of the direct serendipity elements can be normalised. *)
From mathcomp Require Import all_ssreflect all_algebra.
From mathcomp Require Import zify ring.
From Verif Require Import Model.Prelude Model.Gem Model.Serendipity Spec.Partial Spec.Serendipity Proofs.Newton Proofs.SerendipityGeometry Proofs.SerendipityInner Proofs.SerendipityEdges Proofs.SerendipityNodal.
Set Implicit Arguments.
Unset Strict Implicit.
Unset Printing Implicit Defensive.
Import Order.TTheory GRing.Theory Num.Theory.
Local Open Scope ring_scope.

Section Regular.
  Variable F : realFieldType.
  Variable v : nat -> point F.
  Variable s : F.
  Hypothesis convex : turns v s.
  Local Notation lam := (lam v).
  Local Notation a0 := adjacent0.
  Local Notation a1 := adjacent1.
  Local Notation op := opposite_edge.
  Implicit Types P : point F.
  Definition pt_on e t : point F := along (v (tail e)) (v (head e)) t.

  Lemma edge_tables e : (e < 4)%N ->
    [/\ a0 e = nth 0%N [:: 2; 2; 0; 0]%N e, a1 e = nth 0%N [:: 3; 3; 1; 1]%N e & op e = nth 0%N [:: 1; 0; 3; 2]%N e].
  Proof. by move=> He; case: (edges4 He) => ->. Qed.

  Definition al e : F := s * lam (a0 e) (v (head e)).
  Definition be e : F := s * lam (a1 e) (v (tail e)).
  Definition opA e : F := s * lam (op e) (v (tail e)).
  Definition opB e : F := s * lam (op e) (v (head e)).
  Lemma al_gt0 e : (e < 4)%N -> 0 < al e.
  Proof. by move=> He; apply: (lam_vertex1 convex); case: (edges4 He) => ->. Qed.
  Lemma be_gt0 e : (e < 4)%N -> 0 < be e.
  Proof. by move=> He; apply: (lam_vertex1 convex); case: (edges4 He) => ->. Qed.
  Lemma opA_gt0 e : (e < 4)%N -> 0 < opA e.
  Proof. by move=> He; apply: (lam_vertex1 convex); case: (edges4 He) => ->. Qed.
  Lemma opB_gt0 e : (e < 4)%N -> 0 < opB e.
  Proof. by move=> He; apply: (lam_vertex1 convex); case: (edges4 He) => ->. Qed.
  Lemma areas e : (e < 4)%N -> opA e + be e = opB e + al e.
  Proof.
    move=> He; rewrite /opA /opB /al /be; have [-> -> ->] := edge_tables He; rewrite /tail /head.
    by case: (edges4 He) => ->; rewrite /= /turn; ring.
  Qed.
  Lemma a0_on e t : (e < 4)%N -> s * lam (a0 e) (pt_on e t) = al e * t.
  Proof.
    move=> He. have [[H0 _ _] _ _ _] := edge_facts He. rewrite /pt_on lam_along // /al.
    rewrite (@lam_vertex0 _ v (a0 e) (tail e)) ?mulr0 ?add0r //; [ring|exact: tail_lt|by case: (edges4 He) => ->].
  Qed.
  Lemma a1_on e t : (e < 4)%N -> s * lam (a1 e) (pt_on e t) = be e * (1 - t).
  Proof.
    move=> He. have [[_ H1 _] _ _ _] := edge_facts He. rewrite /pt_on lam_along // /be.
    rewrite (@lam_vertex0 _ v (a1 e) (head e)) ?mulr0 ?addr0 //; [ring|exact: head_lt|by case: (edges4 He) => ->].
  Qed.
  Lemma op_on e t : (e < 4)%N -> s * lam (op e) (pt_on e t) = opA e * (1 - t) + opB e * t.
  Proof. move=> He. have [[_ _ H2] _ _ _] := edge_facts He. rewrite /pt_on lam_along // /opA /opB. ring. Qed.
  Lemma tun_on e t : (e < 4)%N -> tun v e (pt_on e t) = (al e * t - be e * (1 - t)) / (al e * t + be e * (1 - t)).
  Proof.
    move=> He. rewrite -a0_on // -a1_on // /tun -mulrBr -mulrDr. rewrite -mulf_div divff ?mul1r //. exact: (s_neq0 convex).
  Qed.

  (** What irregular means. *)
  Lemma irregular r e (q : {poly F}) : (2 <= r)%N -> (e < 4)%N ->
    (forall i, (0 < i < r)%N ->
          q.[i%:R / r%:R] * `|turn (v (tail_nb e)) (v (head_nb e)) (edge_point v r e i)| = edge_ratio v r e i ^+ (r - 2)) ->
    forall i, (0 < i < r)%N -> let t := i%:R / r%:R in
      q.[t] * (opA e * (1 - t) + opB e * t) = ((al e * t - be e * (1 - t)) / (al e * t + be e * (1 - t))) ^+ (r - 2).
  Proof.
    move=> r2 He H i Hi t. have := H i Hi.
    by rewrite (opposite_abs convex r2 He Hi) (edge_ratio_tun convex r2 He Hi) [s * _]op_on // [tun _ _ _]tun_on.
  Qed.

  Lemma regular2 e : edge_regular v 2 e.
  Proof.
    move=> [q [Sq H]]. have E : q = 0 by apply/eqP; rewrite -size_poly_leq0.
    have := H 1%N isT. rewrite E horner0 mul0r => /esym/eqP. by rewrite oner_eq0.
  Qed.

  Lemma cubic_bound (x y T : F) : 0 < x -> 0 < y -> x < T -> y < T -> (x + y) * (13%:R * (x * y) - 2%:R * x ^+ 2 - 2%:R * y ^+ 2) < 18%:R * (x * y) * T.
  Proof.
    move=> Hx Hy HxT HyT.
    have Hxy : 0 < x * y by apply: mulr_gt0. have H2 : x + y < 2%:R * T.
      have -> : 2%:R * T = T + T by ring. exact: ltr_add.
    apply: (@le_lt_trans _ _ ((x + y) * (9%:R * (x * y)))).
      rewrite ler_pmul2l; last exact: addr_gt0.
      rewrite -subr_ge0. have -> : 9%:R * (x * y) - (13%:R * (x * y) - 2%:R * x ^+ 2 - 2%:R * y ^+ 2) = 2%:R * (x - y) ^+ 2 by ring.
      by apply: mulr_ge0; [exact: ler0n|exact: sqr_ge0].
    have -> : 18%:R * (x * y) * T = 2%:R * T * (9%:R * (x * y)) by ring.
    rewrite ltr_pmul2r //. by apply: mulr_gt0; rewrite ?ltr0n.
  Qed.

  Lemma regular3 e : (e < 4)%N -> edge_regular v 3 e.
  Proof.
    move=> He [q [Sq H]]. have {}H := irregular (r := 3) isT He H.
    have [c Eq] : exists c, q = c%:P by exists q`_0; apply: size1_polyC.
    have := H 1%N isT. have := H 2%N isT. rewrite /= Eq !hornerC {H}.
    have Hx := al_gt0 He. have Hy := be_gt0 He. have HA := opA_gt0 He. have HB := opB_gt0 He. have HT := areas He.
    move: (al e) (be e) (opA e) (opB e) Hx Hy HA HB HT => x y A B Hx Hy HA HB HT.
    have H3 : (3%:R : F) != 0 by rewrite pnatr_eq0.
    have -> : (x * (2%:R / 3%:R) - y * (1 - 2%:R / 3%:R)) / (x * (2%:R / 3%:R) + y * (1 - 2%:R / 3%:R)) = (2%:R * x - y) / (2%:R * x + y).
      have -> : x * (2%:R / 3%:R) - y * (1 - 2%:R / 3%:R) = (2%:R * x - y) / 3%:R by field.
      have -> : x * (2%:R / 3%:R) + y * (1 - 2%:R / 3%:R) = (2%:R * x + y) / 3%:R by field.
      by rewrite -mulf_div divff ?mulr1 // invr_eq0.
    have -> : (x * (1 / 3%:R) - y * (1 - 1 / 3%:R)) / (x * (1 / 3%:R) + y * (1 - 1 / 3%:R)) = (x - 2%:R * y) / (x + 2%:R * y).
      have -> : x * (1 / 3%:R) - y * (1 - 1 / 3%:R) = (x - 2%:R * y) / 3%:R by field.
      have -> : x * (1 / 3%:R) + y * (1 - 1 / 3%:R) = (x + 2%:R * y) / 3%:R by field.
      by rewrite -mulf_div divff ?mulr1 // invr_eq0.
    rewrite !expr1 => E2 E1.
    have D1 : x + 2%:R * y != 0 by apply: lt0r_neq0; rewrite addr_gt0 // mulr_gt0 ?ltr0n.
    have D2 : 2%:R * x + y != 0 by apply: lt0r_neq0; rewrite addr_gt0 // mulr_gt0 ?ltr0n.
    have K : (x - 2%:R * y) * (2%:R * x + y) * (A + 2%:R * B) = (2%:R * x - y) * (x + 2%:R * y) * (2%:R * A + B).
      have F1 : c * (2%:R * A + B) * (x + 2%:R * y) = 3%:R * (x - 2%:R * y).
        have -> : x - 2%:R * y = (x - 2%:R * y) / (x + 2%:R * y) * (x + 2%:R * y) by rewrite divfK.
        rewrite -E1. by field.
      have F2 : c * (A + 2%:R * B) * (2%:R * x + y) = 3%:R * (2%:R * x - y).
        have -> : 2%:R * x - y = (2%:R * x - y) / (2%:R * x + y) * (2%:R * x + y) by rewrite divfK.
        rewrite -E2. by field.
      apply: (mulfI H3).
      have -> : 3%:R * ((x - 2%:R * y) * (2%:R * x + y) * (A + 2%:R * B)) = 3%:R * (x - 2%:R * y) * ((2%:R * x + y) * (A + 2%:R * B)) by ring.
      have -> : 3%:R * ((2%:R * x - y) * (x + 2%:R * y) * (2%:R * A + B)) = 3%:R * (2%:R * x - y) * ((x + 2%:R * y) * (2%:R * A + B)) by ring.
      rewrite -F1 -F2. ring.
    have EA : A = B + x - y by rewrite -HT addrK.
    have := @cubic_bound x y (B + x) Hx Hy. rewrite ltr_addr HB => /(_ isT). rewrite -HT ltr_addr HA => /(_ isT).
    rewrite HT => Hlt. move: K. rewrite EA => K.
    have : (x + y) * (13%:R * (x * y) - 2%:R * x ^+ 2 - 2%:R * y ^+ 2) = 18%:R * (x * y) * (B + x).
      have Z : forall a b a' b' : F, a = b -> a' - b' = a - b -> a' = b'.
        by move=> a b a' b' ->; rewrite subrr => /eqP; rewrite subr_eq0 => /eqP.
      apply: (Z _ _ _ _ K). ring.
    by move=> E; rewrite E ltxx in Hlt.
  Qed.

  (** Parallelograms. *)
  Lemma par_sides e : parallelogram v -> (e < 4)%N -> [/\ al e = be e, opA e = opB e & opA e = al e].
  Proof.
    move=> [H1 H2] He.
    have E1 : (v 3%N).1 = (v 1%N).1 - (v 0%N).1 + (v 2%N).1 by rewrite H1 subrK.
    have E2 : (v 3%N).2 = (v 1%N).2 - (v 0%N).2 + (v 2%N).2 by rewrite H2 subrK.
    rewrite /al /be /opA /opB; have [-> -> ->] := edge_tables He; rewrite /tail /head.
    by case: (edges4 He) => ->; rewrite /= /turn ?E1 ?E2; split; ring.
  Qed.
  Lemma tun_par e t : parallelogram v -> (e < 4)%N -> tun v e (pt_on e t) = 2%:R * t - 1.
  Proof.
    move=> Hp He. have [E _ _] := par_sides Hp He. rewrite tun_on // -E -mulrBr -mulrDr.
    have H := lt0r_neq0 (al_gt0 He). rewrite -mulf_div divff // mul1r. have -> : t + (1 - t) = 1 by ring. rewrite divr1. ring.
  Qed.
  Lemma regular_par r e : parallelogram v -> (2 <= r)%N -> (e < 4)%N -> edge_regular v r e.
  Proof.
    move=> Hp r2 He [q [Sq H]]. have {}H := irregular r2 He H.
    have [Eb EA EO] := par_sides Hp He. have H0 := lt0r_neq0 (al_gt0 He).
    pose p := al e *: q - ('X *+ 2 - 1) ^+ (r - 2).
    have S1 : size ('X *+ 2 - 1 : {poly F}) = 2%N.
      have -> : 'X *+ 2 - 1 = 2%:R *: 'X + (-1)%:P :> {poly F} by rewrite polyCN -scaler_nat.
      rewrite -mul_polyC size_MXaddC. have -> : (2%:R%:P == 0 :> {poly F}) = false by rewrite polyC_eq0 pnatr_eq0.
      by rewrite size_polyC pnatr_eq0.
    have S2 : size (('X *+ 2 - 1 : {poly F}) ^+ (r - 2)) = (r - 1)%N.
      have := size_exp ('X *+ 2 - 1 : {poly F}) (r - 2). rewrite S1 /= mul1n.
      have : size (('X *+ 2 - 1 : {poly F}) ^+ (r - 2)) != 0%N by rewrite size_poly_eq0 expf_neq0 // -size_poly_eq0 S1. move: (size _) => z; clear -r2; lia.
    have P0 : p = 0.
      apply: (@roots_geq_poly_eq0 _ _ [seq tk F r k | k <- iota 1 (r - 1)]).
      - apply/allP => x /mapP[k]. rewrite mem_iota => Hk ->. have Hk' : (0 < k < r)%N by lia.
        rewrite rootE /p hornerD hornerN hornerZ horner_exp !hornerE. have := H k Hk'. rewrite /tk /=.
        move: (k%:R / r%:R) => t. rewrite -EA EO -mulrDr subrK mulr1 -Eb -mulrBr -mulrDr. have -> : t + (1 - t) = 1 by ring.
        rewrite mulr1 [al e * _ / _]mulrC mulKf // [q.[t] * _]mulrC => ->.
        have -> : t - (1 - t) = t + t - 1 by ring. by rewrite subrr.
      - rewrite map_inj_uniq ?iota_uniq //. exact: tk_inj.
      - rewrite size_map size_iota /p. apply: leq_trans (size_add _ _) _. rewrite size_opp geq_max S2 leqnn andbT.
        apply: leq_trans (size_scale_leq _ _) _. by apply: leq_trans Sq _; lia.
    have Eq : al e *: q = ('X *+ 2 - 1) ^+ (r - 2) by apply/eqP; rewrite -subr_eq0 -/p P0 eqxx.
    have : size (al e *: q) = (r - 1)%N by rewrite Eq S2.
    have := leq_trans (size_scale_leq (al e) q) Sq. move: (size _) => z; clear -r2; lia.
  Qed.
End Regular.
