(** The direct serendipity functions of degree 2 reproduce all quadratic
    polynomials, on every convex quadrilateral. *)
From Coq Require List.
From mathcomp Require Import all_ssreflect all_algebra.
From mathcomp Require Import zify ring.
From Verif Require Import Model.Prelude Model.Gem Model.Serendipity Spec.Partial Spec.Serendipity Proofs.Newton Proofs.SerendipityGeometry Proofs.SerendipityInner Proofs.SerendipityEdges Proofs.SerendipityNodal Proofs.SerendipityRegular Proofs.SerendipityTrace.
Set Implicit Arguments.
Unset Strict Implicit.
Unset Printing Implicit Defensive.
Import Order.TTheory GRing.Theory Num.Theory.
Local Open Scope ring_scope.

(** Values of an interpolant. *)
Section Interpolant.
  Variable F : realFieldType.
  Implicit Types (f : point F -> F) (P : point F).
  Lemma interpolant_in (T : eqType) (b : T -> option F * option F -> option F) (x : T -> point F) (l : seq T) f P (g : T -> F) :
    {in l, forall t, b t (somep P) = Some (g t)} -> interpolant (map b l) (map x l) f P = Some (\sum_(t <- l) f (x t) * g t).
  Proof.
    rewrite /interpolant. elim: l => [|t l IH] H; first by rewrite big_nil.
    rewrite /= IH ?H ?big_cons ?mem_head // => u Hu. by apply: H; rewrite inE Hu orbT.
  Qed.
End Interpolant.

Section Areas.
  Variables (F : realFieldType) (v : nat -> point F) (s : F).
  Hypothesis convex : turns v s.
  Local Notation lam := (lam v).
  Implicit Types P : point F.

  (** Twice the signed areas of the triangles at the vertices 0, 1, 3, 2. *)
  Definition K0 : F := turn (v 2%N) (v 0%N) (v 1%N).
  Definition K1 : F := turn (v 0%N) (v 1%N) (v 3%N).
  Definition K2 : F := turn (v 3%N) (v 2%N) (v 0%N).
  Definition K3 : F := turn (v 1%N) (v 3%N) (v 2%N).
  Lemma K_neq0 : [/\ K0 != 0, K1 != 0, K2 != 0 & K3 != 0].
  Proof. by have [_ [H0 H1 H3 H2]] := convex; split; apply: (pos_neq0 (s := s)). Qed.
  Lemma K_sum : K0 + K3 = K1 + K2.
  Proof. rewrite /K0 /K1 /K2 /K3 /turn; ring. Qed.
  Lemma K_sum_neq0 : K0 + K3 != 0 /\ K1 + K2 != 0.
  Proof.
    have [_ [H0 H1 H3 H2]] := convex. have : K0 + K3 != 0; last by move=> H; split=> //; rewrite -K_sum.
    by apply: (sum_neq0 (s := s)) => //; rewrite ?H0 //; apply: ltW.
  Qed.
  Lemma lam_vertices :
    [/\ [/\ lam 0 (v 0) = 0, lam 0 (v 1) = 0, lam 0 (v 2) = K0 & lam 0 (v 3) = K1],
        [/\ lam 1 (v 0) = K2, lam 1 (v 1) = K3, lam 1 (v 2) = 0 & lam 1 (v 3) = 0],
        [/\ lam 2 (v 0) = 0, lam 2 (v 1) = K0, lam 2 (v 2) = 0 & lam 2 (v 3) = K2]
      & [/\ lam 3 (v 0) = K1, lam 3 (v 1) = 0, lam 3 (v 2) = K3 & lam 3 (v 3) = 0]].
  Proof. by do 2!split; rewrite /= /K0 /K1 /K2 /K3 /turn; ring. Qed.

  (** All affine functions are combinations of three of the line functions. *)
  Lemma affine_lam (c : nat -> F) P :
    linear c P = (linear c (v 2) - linear c (v 0) * K3 / K1) / K0 * lam 0 P + linear c (v 1) / K0 * lam 2 P + linear c (v 0) / K1 * lam 3 P.
  Proof.
    have [k0 k1 _ _] := K_neq0. apply: (mulIf k0). apply: (mulIf k1).
    have -> : ((linear c (v 2) - linear c (v 0) * K3 / K1) / K0 * lam 0 P + linear c (v 1) / K0 * lam 2 P + linear c (v 0) / K1 * lam 3 P) * K0 * K1
            = (linear c (v 2) * K1 - linear c (v 0) * K3) * lam 0 P + linear c (v 1) * lam 2 P * K1 + linear c (v 0) * lam 3 P * K0.
      by field; rewrite k0 k1.
    rewrite /linear /= /K0 /K1 /K3 /turn. ring.
  Qed.
  Lemma lam1_lam P : lam 1 P = - (K2 * K3 / (K1 * K0)) * lam 0 P + K3 / K0 * lam 2 P + K2 / K1 * lam 3 P.
  Proof.
    have [k0 k1 _ _] := K_neq0. apply: (mulIf k0). apply: (mulIf k1).
    have -> : (- (K2 * K3 / (K1 * K0)) * lam 0 P + K3 / K0 * lam 2 P + K2 / K1 * lam 3 P) * K0 * K1
            = - (K2 * K3) * lam 0 P + K3 * lam 2 P * K1 + K2 * lam 3 P * K0.
      by field; rewrite k0 k1.
    rewrite /= /K0 /K1 /K2 /K3 /turn. ring.
  Qed.
  (** All quadratic polynomials are combinations of products of two. *)
  Lemma quadratic_lam (c : nat -> F) : exists d : nat -> F, forall P,
    quadratic c P = d 0%N * (lam 0 P * lam 1 P) + d 1%N * (lam 2 P * lam 3 P) + d 2%N * (lam 1 P * lam 3 P) + d 3%N * (lam 1 P * lam 2 P)
                  + d 4%N * (lam 0 P * lam 3 P) + d 5%N * (lam 0 P * lam 2 P).
  Proof.
    have [k0 k1 k2 k3] := K_neq0.
    have [u Hu] : exists u : nat -> F, forall P, 1 = u 0%N * lam 0 P + u 1%N * lam 2 P + u 2%N * lam 3 P.
      pose g n : F := (n == 0%N)%:R. exists (nth 0 [:: (linear g (v 2) - linear g (v 0) * K3 / K1) / K0; linear g (v 1) / K0; linear g (v 0) / K1]) => P.
      rewrite /= -affine_lam /linear /g /=. ring.
    have [x Hx] : exists x : nat -> F, forall P, P.1 = x 0%N * lam 0 P + x 1%N * lam 2 P + x 2%N * lam 3 P.
      pose g n : F := (n == 1%N)%:R. exists (nth 0 [:: (linear g (v 2) - linear g (v 0) * K3 / K1) / K0; linear g (v 1) / K0; linear g (v 0) / K1]) => P.
      rewrite /= -affine_lam /linear /g /=. ring.
    have [y Hy] : exists y : nat -> F, forall P, P.2 = y 0%N * lam 0 P + y 1%N * lam 2 P + y 2%N * lam 3 P.
      pose g n : F := (n == 2%N)%:R. exists (nth 0 [:: (linear g (v 2) - linear g (v 0) * K3 / K1) / K0; linear g (v 1) / K0; linear g (v 0) / K1]) => P.
      rewrite /= -affine_lam /linear /g /=. ring.
    pose form (a b : nat -> F) (i j : nat) := if i == j then a i * b i else a i * b j + a j * b i.
    pose h i j := c 0%N * form u u i j + c 1%N * form u x i j + c 2%N * form u y i j + c 3%N * form x x i j + c 4%N * form x y i j + c 5%N * form y y i j.
    have Hh P : quadratic c P = h 0%N 0%N * lam 0 P ^+ 2 + h 1%N 1%N * lam 2 P ^+ 2 + h 2%N 2%N * lam 3 P ^+ 2
                              + h 0%N 1%N * (lam 0 P * lam 2 P) + h 0%N 2%N * (lam 0 P * lam 3 P) + h 1%N 2%N * (lam 2 P * lam 3 P).
      have -> : quadratic c P = c 0%N * (1 * 1) + c 1%N * (1 * P.1) + c 2%N * (1 * P.2) + c 3%N * (P.1 * P.1) + c 4%N * (P.1 * P.2) + c 5%N * (P.2 * P.2)
        by rewrite /quadratic; ring.
      rewrite {1 2 3 4}(Hu P) (Hx P) (Hy P) /h /form /=. move: (lam 0 P) (lam 2 P) (lam 3 P) => l0 l2 l3. ring.
    pose a := - (K2 * K3 / (K1 * K0)). pose b := K3 / K0. pose e := K2 / K1.
    have a0 : a != 0 by rewrite oppr_eq0 mulf_neq0 // ?invr_eq0 ?mulf_neq0.
    have b0 : b != 0 by rewrite mulf_neq0 // invr_eq0.
    have e0 : e != 0 by rewrite mulf_neq0 // invr_eq0.
    move: Hh. move: (h 0 0)%N (h 1 1)%N (h 2 2)%N (h 0 1)%N (h 0 2)%N (h 1 2)%N => h00 h11 h22 h01 h02 h12 Hh.
    exists (nth 0 [:: h00 / a; h12 - h11 / b * e - h22 / e * b; h22 / e; h11 / b; h02 - h00 / a * e - h22 / e * a; h01 - h00 / a * b - h11 / b * a]) => P.
    rewrite Hh lam1_lam -/a -/b -/e. cbn [nth].
    move: (lam 0 P) (lam 2 P) (lam 3 P) => l0 l2 l3. move: a b e a0 b0 e0 => a b e a0 b0 e0. field. by rewrite a0 b0 e0.
  Qed.
End Areas.

Section Reproduction.
  Variables (F : realFieldType) (v : nat -> point F) (s : F).
  Hypothesis convex : turns v s.
  Local Notation O := (partial_ops F).
  Local Notation sv := (sv v).
  Local Notation lam := (lam v).
  Implicit Types P : point F.
  Local Notation mid e := (edge_point v 2 e 1).

  (** The edge functions. *)
  Definition side e P : F := lam (adjacent0 e) P * lam (adjacent1 e) P.
  Lemma emod2 e P : (e < 4)%N -> placed v s P -> emod v 2 e 1 (somep P) = Some (side e P * rs v e P / side e (mid e)).
  Proof.
    move=> He HP. have [[L0 L1 L2] [N0 N1 N2] _ _] := edge_facts He.
    have H1 : (0 < 1 < 2)%N by [].
    have Hm := enode_placed convex (isT : (2 <= 2)%N) He H1.
    have Hf Q : placed v s Q -> (fun x => fmul O (fmul O (lams O sv (adjacent0 e) x) (lams O sv (adjacent1 e) x)) (Rs O sv e x)) (somep Q)
      = Some (side e Q * rs v e Q).
      by move=> HQ; cbn beta; rewrite !lams_some // (Rs_some He HQ).
    have Hx : xstars O sv e = somep (mid e) by rewrite xstars_some // /edge_point mul1r.
    rewrite /emod eqxx /edge_bf2. cbn zeta.
    rewrite (nodalize_some convex (g := fun=> 0) _ (Hf P HP)); last by move=> t; rewrite in_nil.
    have -> : lat 2 = [::] by [].
    rewrite big_nil subr0 Hx. have := Hf _ Hm. cbn beta => ->. rewrite (rs_own He Hm) ?mulr1 ?div_some //; last exact: enode0.
    by rewrite mulf_neq0 // (enode1' convex).
  Qed.

  Lemma regular_2 e : (e < 4)%N -> edge_regular v 2 e.
  Proof. by move=> _; exact: regular2. Qed.

  Lemma reproduces2 c P : placed v s P -> interpolant (dsr_sym O sv 2) (nodes v 2) (quadratic c) P = Some (quadratic c P).
  Proof.
    move=> HP. have r2 : (2 <= 2)%N by []. have R2 := regular_2.
    have [k0 k1 k2 k3] := K_neq0 convex.
    rewrite dsr_symE nodesE.
    rewrite (@interpolant_in _ _ _ _ _ _ _ (fun n => ev (basis v 2 n) P)); last first.
      move=> n Hn. apply: (basis_defined convex) => //. exact: good_names Hn.
    congr Some. have [d Hd] := quadratic_lam convex c.
    have HE e : (e < 4)%N -> ev (emod v 2 e 1) P = side e P * rs v e P / side e (mid e).
      by move=> He; rewrite /ev emod2.
    have HV i : (i < 4)%N -> ev (vertex_bf O sv 2 i) P = (vpre v i P - \sum_(e <- adj i) vpre v i (mid e) * ev (emod v 2 e 1) P) / vpre v i (v i).
      move=> Hi. rewrite /ev (vertex_form convex r2 R2 Hi HP). have -> : lat 2 = [::] by []. rewrite big_nil subr0 /=.
      congr (_ / _). rewrite /vsum. congr (_ - _). apply: eq_bigr => e _. have -> : iota 1 (2 - 1) = [:: 1%N] by []. by rewrite big_seq1.
    have -> : names 2 = [:: V 0; V 1; V 2; V 3; E 0 1; E 1 1; E 2 1; E 3 1] by [].
    have lam_mid f e : (f < 4)%N -> lam f (mid e) = (lam f (v (tail e)) + lam f (v (head e))) / 2%:R.
      move=> Hf. rewrite /edge_point lam_along // mul1r. have H2 : (2%:R : F) != 0 by apply: nat_neq0. by field.
    have [[a0 a1 a2 a3] [b0 b1 b2 b3] [c0 c1 c2 c3] [d0 d1 d2 d3]] := lam_vertices v.
    have S_neq0 e : (e < 4)%N -> side e (mid e) != 0.
      move=> He. have [[L0 L1 _] [N0 N1 _] _ _] := edge_facts He. by rewrite mulf_neq0 // (enode1' convex).
    have Erel e : (e < 4)%N -> adjacent0 e = adjacent0 (opposite_edge e) -> adjacent1 e = adjacent1 (opposite_edge e) -> opposite_edge (opposite_edge e) = e ->
        (opposite_edge e < 4)%N ->
        side e (mid e) * ev (emod v 2 e 1) P + side (opposite_edge e) (mid (opposite_edge e)) * ev (emod v 2 (opposite_edge e) 1) P = side e P.
      move=> He A0 A1 OO Ho. rewrite !HE //.
      have -> : side (opposite_edge e) P = side e P by rewrite /side A0 A1.
      have Ha := across_neq0 He HP. rewrite /rs OO. move: (S_neq0 _ He) (S_neq0 _ Ho). move: (side e (mid e)) (side (opposite_edge e) (mid (opposite_edge e))) => x y Hx Hy.
      field. by rewrite Hx Hy [lam (opposite_edge e) P + _]addrC Ha.
    have R0 := Erel 0%N isT erefl erefl erefl isT. have R1 := Erel 2%N isT erefl erefl erefl isT.
    rewrite !big_cons big_nil -[basis v 2 (V 0)]/(vertex_bf O sv 2 0) -[basis v 2 (V 1)]/(vertex_bf O sv 2 1) -[basis v 2 (V 2)]/(vertex_bf O sv 2 2)
      -[basis v 2 (V 3)]/(vertex_bf O sv 2 3) -[basis v 2 (E 0 1)]/(emod v 2 0 1) -[basis v 2 (E 1 1)]/(emod v 2 1 1)
      -[basis v 2 (E 2 1)]/(emod v 2 2 1) -[basis v 2 (E 3 1)]/(emod v 2 3 1) !HV // /adj. cbn [nth]. rewrite !big_cons !big_nil.
    move: R0 R1. rewrite -[opposite_edge 0]/1%N -[opposite_edge 2]/3%N.
    move: (ev (emod v 2 0 1) P) (ev (emod v 2 1 1) P) (ev (emod v 2 2 1) P) (ev (emod v 2 3 1) P) => E0 E1 E2 E3.
    rewrite /side -[adjacent0 0]/2%N -[adjacent1 0]/3%N -[adjacent0 2]/0%N -[adjacent1 2]/1%N -[adjacent0 1]/2%N -[adjacent1 1]/3%N -[adjacent0 3]/0%N -[adjacent1 3]/1%N.
    move=> R0 R1. rewrite !Hd -R0 -R1 /vpre /off0 /off1. cbn [nth].
    rewrite -[place v 2 (V 0)]/(v 0) -[place v 2 (V 1)]/(v 1) -[place v 2 (V 2)]/(v 2) -[place v 2 (V 3)]/(v 3)
      -[place v 2 (E 0 1)]/(mid 0) -[place v 2 (E 1 1)]/(mid 1) -[place v 2 (E 2 1)]/(mid 2) -[place v 2 (E 3 1)]/(mid 3).
    rewrite !lam_mid // /tail /head. cbn [nth].
    rewrite a0 a1 a2 a3 b0 b1 b2 b3 c0 c1 c2 c3 d0 d1 d2 d3.
    move: (K0 v) (K1 v) (K2 v) (K3 v) k0 k1 k2 k3 (lam 0 P) (lam 1 P) (lam 2 P) (lam 3 P) => A B C D HA HB HC HD l0 l1 l2 l3.
    have H2 : (2%:R : F) != 0 by apply: nat_neq0. field. by rewrite HA HB HC HD.
  Qed.
  Lemma reproduces2_quad c P : in_quad v P -> interpolant (dsr_sym O sv 2) (nodes v 2) (quadratic c) P = Some (quadratic c P).
  Proof. move=> HP. apply: reproduces2. exact: in_quad_placed. Qed.
End Reproduction.
