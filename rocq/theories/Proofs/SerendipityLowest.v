(** The direct serendipity functions of degree 1. *)
From Coq Require List.
From mathcomp Require Import all_ssreflect all_algebra.
From mathcomp Require Import zify ring.
From Verif Require Import Model.Prelude Model.Gem Model.Serendipity Spec.Partial Spec.Serendipity Proofs.Newton Proofs.SerendipityGeometry Proofs.SerendipityInner Proofs.SerendipityEdges Proofs.SerendipityNodal Proofs.SerendipityRegular Proofs.SerendipityTrace Proofs.SerendipityQuadratic.
Set Implicit Arguments.
Unset Strict Implicit.
Unset Printing Implicit Defensive.
Import Order.TTheory GRing.Theory Num.Theory.
Local Open Scope ring_scope.

Section Lowest.
  Variables (F : realFieldType) (v : nat -> point F) (s : F).
  Hypothesis convex : turns v s.
  Local Notation O := (partial_ops F).
  Local Notation sv := (sv v).
  Local Notation lam := (lam v).
  Implicit Types P : point F.
  Local Notation mid e := (edge_point v 2 e 1).
  Local Notation K0 := (K0 v).
  Local Notation K1 := (K1 v).
  Local Notation K2 := (K2 v).
  Local Notation K3 := (K3 v).

  Lemma side_mid e : (e < 4)%N -> side v e (mid e) != 0.
  Proof.
    move=> He. have [[L0 L1 _] [N0 N1 _] _ _] := edge_facts He. by rewrite mulf_neq0 // (enode1' convex).
  Qed.
  Lemma mid_placed e : (e < 4)%N -> placed v s (mid e).
  Proof. by move=> He; apply: (enode_placed convex). Qed.
  Lemma xstars_mid e : (e < 4)%N -> xstars O sv e = somep (mid e).
  Proof. by move=> He; rewrite xstars_some // /edge_point mul1r. Qed.

  Definition xe e P : F := side v e P * rs v e P / side v e (mid e).
  Lemma xi_some e P : (e < 4)%N -> placed v s P -> xi O sv e (somep P) = Some (xe e P).
  Proof.
    move=> He HP. have H2 : (2%:R : F) != 0 by apply: nat_neq0.
    have Sm := side_mid He. have Hm := mid_placed He.
    have Em (a b c : F) x y : a + b != 0 -> x != 0 -> y != 0 ->
      fdiv O (fdiv O (fdiv O (Some (c * (1 + -1 * ((a - b) / (a + b))))) (Some x)) (Some y)) (Some 2%:R) = Some (c * (b / (a + b)) / (x * y)).
      move=> H Hx Hy. rewrite !div_some //. congr Some. field. by rewrite H Hx Hy.
    have Ep (a b c : F) x y : a + b != 0 -> x != 0 -> y != 0 ->
      fdiv O (fdiv O (fdiv O (Some (c * (1 + 1 * ((a - b) / (a + b))))) (Some x)) (Some y)) (Some 2%:R) = Some (c * (a / (b + a)) / (x * y)).
      move=> H Hx Hy. rewrite !div_some //. congr Some. field. by rewrite [b + a]addrC H Hx Hy.
    case: HP => _ HV HH. move: Sm. rewrite /side mulf_eq0 negb_or => /andP[S0 S1].
    pose X e i j R sg := fdiv O (fdiv O (fdiv O (fmul O (fmul O (lams O sv i (somep P)) (lams O sv j (somep P))) (fadd O (f1 O) (fmul O sg R)))
                        (lams O sv i (xstars O sv e))) (lams O sv j (xstars O sv e))) (nm O 2).
    have XE : xi O sv e (somep P) = match e with
        | 0%N => X 0%N 2%N 3%N (RV O sv (somep P)) (fopp O (f1 O))
        | 1%N => X 1%N 2%N 3%N (RV O sv (somep P)) (f1 O)
        | 2%N => X 2%N 0%N 1%N (RH O sv (somep P)) (fopp O (f1 O))
        | _ => X 3%N 0%N 1%N (RH O sv (somep P)) (f1 O)
        end by case: (edges4 He) => ->.
    rewrite XE /X /xe /side /rs.
    case: (edges4 He) S0 S1 => -> S0 S1; rewrite xstars_mid // /RV /RH !lams_some // !nm_some;
    cbn [fadd fsub fmul fopp f1 partial_ops lift2 omap].
    - rewrite (div_some _ HV). exact: Em.
    - rewrite (div_some _ HV). exact: Ep.
    - rewrite (div_some _ HH). exact: Em.
    - rewrite (div_some _ HH). exact: Ep.
  Qed.

  Definition rr P : F := lam 1 P * lam 3 P / K2 / K1 - lam 0 P * lam 3 P / K0 / K3 + lam 0 P * lam 2 P / K1 / K2 - lam 1 P * lam 2 P / K3 / K0.
  Lemma ds1_r_some P : ds1_r O sv (somep P) = Some (rr P).
  Proof.
    have [k0 k1 k2 k3] := K_neq0 convex. have [[a0 a1 a2 a3] [b0 b1 b2 b3] [c0 c1 c2 c3] [d0 d1 d2 d3]] := lam_vertices v.
    rewrite /ds1_r /SerendipityGeometry.sv -/sv !lams_some // a2 a3 b0 b1 c1 c3 d0 d2. cbn [fadd fsub fmul partial_ops lift2].
    by rewrite !div_some.
  Qed.
  Definition RR P : F := rr P - \sum_(e <- iota 0 4) rr (mid e) * xe e P.
  Lemma ds1_R_some P : placed v s P -> ds1_R O sv (somep P) = Some (RR P).
  Proof.
    move=> HP. rewrite /ds1_R ds1_r_some listE_map listE_seq.
    rewrite (@total_map _ _ _ (fun e => rr (mid e) * xe e P)) // => e. rewrite mem_iota => He.
    by rewrite xstars_mid // ds1_r_some xi_some.
  Qed.

  Definition L03 P : F := turn (v 0) (v 3) P.
  Definition L12 P : F := turn (v 1) (v 2) P.
  Lemma lam03_some P : lam03 O sv (somep P) = Some (L03 P).
  Proof. rewrite /lam03 /L03 /turn /pdot /psub /quarter /=. congr Some. ring. Qed.
  Lemma lam12_some P : lam12 O sv (somep P) = Some (L12 P).
  Proof. rewrite /lam12 /L12 /turn /pdot /psub /quarter /=. congr Some. ring. Qed.
  Lemma diagonals : [/\ L12 (v 0) = K0, L12 (v 3) = - K3, L03 (v 1) = - K1 & L03 (v 2) = K2].
  Proof. by split; rewrite /L12 /L03 /SerendipityQuadratic.K0 /SerendipityQuadratic.K1 /SerendipityQuadratic.K2 /SerendipityQuadratic.K3 /turn; ring. Qed.

  Definition half P : F := (1 + RR P) / 2%:R.
  Definition pre (i : nat) P : F :=
    match i with
    | 0%N => L12 P + K3 * half P
    | 1%N => L03 P - K2 * (1 - half P)
    | 2%N => L03 P + K1 * (1 - half P)
    | _ => L12 P - K0 * half P
    end.
  Lemma phitilde_some i P : (i < 4)%N -> placed v s P -> phitilde O sv i (somep P) = Some (pre i P).
  Proof.
    move=> Hi HP. have H2 : (2%:R : F) != 0 by apply: nat_neq0. have [g0 g3 g1 g2] := diagonals.
    rewrite /pre /half. case: (edges4 Hi) => ->; rewrite /phitilde ds1_R_some // ?lam03_some ?lam12_some ?g0 ?g1 ?g2 ?g3 !nm_some;
    cbn [fadd fsub fmul f1 partial_ops lift2]; rewrite div_some //; cbn [fsub partial_ops lift2]; congr Some; by field.
  Qed.

  (** ** On the edges *)
  Local Notation pt_on := (pt_on v).
  Lemma lam_pt f e t : (f < 4)%N -> lam f (pt_on e t) = (1 - t) * lam f (v (tail e)) + t * lam f (v (head e)).
  Proof. by move=> Hf; rewrite /SerendipityRegular.pt_on lam_along. Qed.
  Lemma mid_pt e : mid e = pt_on e (1 / 2%:R).
  Proof. by []. Qed.
  Definition kk e : F := nth 0 [:: K0 * K1; K2 * K3; K0 * K2; K1 * K3] e.
  Lemma kk_neq0 e : (e < 4)%N -> kk e != 0.
  Proof. have [k0 k1 k2 k3] := K_neq0 convex. by move=> He; case: (edges4 He) => ->; rewrite /kk; cbn [nth]; rewrite mulf_neq0. Qed.
  Lemma side_edge e t : (e < 4)%N -> side v e (pt_on e t) = kk e * (t * (1 - t)).
  Proof.
    move=> He. have [[L0 L1 L2] _ _ _] := edge_facts He. rewrite /side !lam_pt //.
    have [[a0 a1 a2 a3] [b0 b1 b2 b3] [c0 c1 c2 c3] [d0 d1 d2 d3]] := lam_vertices v. rewrite /tail /head /kk.
    case: (edges4 He) => ->; cbn [nth].
    - rewrite -[adjacent0 0]/2%N -[adjacent1 0]/3%N c0 c1 d0 d1. ring.
    - rewrite -[adjacent0 1]/2%N -[adjacent1 1]/3%N c2 c3 d2 d3. ring.
    - rewrite -[adjacent0 2]/0%N -[adjacent1 2]/1%N a0 a2 b0 b2. ring.
    - rewrite -[adjacent0 3]/0%N -[adjacent1 3]/1%N a1 a3 b1 b3. ring.
  Qed.
  Lemma xe_edge e f t : (e < 4)%N -> (f < 4)%N -> 0 <= t <= 1 -> xe f (pt_on e t) = if f == e then 4%:R * t * (1 - t) else 0.
  Proof.
    move=> He Hf Ht. have HP := pt_on_placed convex He Ht. have E0 := lam_on v t He.
    have [[L0 L1 L2] _ _ Hall] := edge_facts Hf. case: (altP (f =P e)) => [Efe|Hfe].
    - rewrite /xe. rewrite -Efe in HP E0 *. rewrite (rs_own Hf HP E0) mulr1 mid_pt !side_edge //.
      have H2 : (2%:R : F) != 0 by apply: nat_neq0. have H4 : (4%:R : F) != 0 by apply: nat_neq0.
      have := kk_neq0 Hf. move: (kk f) => k Hk. have -> : 1 / 2%:R * (1 - 1 / 2%:R) = 4%:R^-1 :> F by field; rewrite ?H2 ?H4.
      field. by rewrite ?H4 ?Hk.
    - have := Hall e He. rewrite eq_sym (negbTE Hfe) /= => /or3P[] /eqP Ee; rewrite /xe /side.
      + by rewrite rs_opposite ?mulr0 ?mul0r // -Ee.
      + by rewrite -Ee E0 !mul0r.
      + by rewrite -Ee E0 mulr0 !mul0r.
  Qed.
  Lemma half_edge e t : (e < 4)%N -> 0 <= t <= 1 -> half (pt_on e t) = if (e == 0%N) || (e == 2%N) then 1 - t else t.
  Proof.
    move=> He Ht. rewrite /half /RR (eq_big_seq (fun f => rr (mid f) * if f == e then 4%:R * t * (1 - t) else 0)); last first.
      move=> f. rewrite mem_iota => Hf. by rewrite xe_edge.
    rewrite (bigD1_seq e) ?iota_uniq ?mem_iota //= eqxx big1 ?addr0; last by move=> f /negbTE ->; rewrite mulr0.
    rewrite mid_pt. have H2 : (2%:R : F) != 0 by apply: nat_neq0. have [k0 k1 k2 k3] := K_neq0 convex.
    have [[a0 a1 a2 a3] [b0 b1 b2 b3] [c0 c1 c2 c3] [d0 d1 d2 d3]] := lam_vertices v.
    rewrite /rr !lam_pt // /tail /head. case: (edges4 He) => ->; cbn [nth eqn orb]; rewrite ?a0 ?a1 ?a2 ?a3 ?b0 ?b1 ?b2 ?b3 ?c0 ?c1 ?c2 ?c3 ?d0 ?d1 ?d2 ?d3;
    move: K0 K1 K2 K3 k0 k1 k2 k3 => k0 k1 k2 k3 n0 n1 n2 n3.
    - have -> : (0%N == 0%N) || (0%N == 2%N) = true by []. by field; rewrite ?H2 ?n0 ?n1 ?n2 ?n3.
    - have -> : (1%N == 0%N) || (1%N == 2%N) = false by []. by field; rewrite ?H2 ?n0 ?n1 ?n2 ?n3.
    - have -> : (2%N == 0%N) || (2%N == 2%N) = true by []. by field; rewrite ?H2 ?n0 ?n1 ?n2 ?n3.
    - have -> : (3%N == 0%N) || (3%N == 2%N) = false by []. by field; rewrite ?H2 ?n0 ?n1 ?n2 ?n3.
  Qed.

  (** ** The functions *)
  Definition own (i : nat) : F := nth 0 [:: K0 + K3; - (K1 + K2); K1 + K2; - (K0 + K3)] i.
  Lemma own_neq0 i : (i < 4)%N -> own i != 0.
  Proof.
    have [n0 n1] := K_sum_neq0 convex. by move=> Hi; case: (edges4 Hi) => ->; rewrite /own; cbn [nth]; rewrite ?oppr_eq0.
  Qed.
  Lemma pt_on0 e : pt_on e 0 = v (tail e).
  Proof. by rewrite /SerendipityRegular.pt_on /along !mul0r !addr0; case: (v _). Qed.
  Lemma pt_on1 e : pt_on e 1 = v (head e).
  Proof. by rewrite /SerendipityRegular.pt_on /along !mul1r ![_ + (_ - _)]addrC !subrK; case: (v _). Qed.
  Lemma turn_along (a b c d : point F) t : turn a b (along c d t) = (1 - t) * turn a b c + t * turn a b d.
  Proof. by rewrite /turn /along /=; ring. Qed.
  Lemma L_vertices : [/\ L12 (v 1) = 0, L12 (v 2) = 0, L03 (v 0) = 0 & L03 (v 3) = 0].
  Proof. by split; rewrite /L12 /L03 /turn; ring. Qed.
  Lemma pre_edge e i t : (e < 4)%N -> (i < 4)%N -> 0 <= t <= 1 ->
    pre i (pt_on e t) = own i * (if i == tail e then 1 - t else if i == head e then t else 0).
  Proof.
    move=> He Hi Ht. have [g0 g3 g1 g2] := diagonals. have [z1 z2 z0 z3] := L_vertices.
    rewrite /pre !half_edge // /L12 /L03 /SerendipityRegular.pt_on !turn_along -/(L12 (v (tail e))) -/(L12 (v (head e))) -/(L03 (v (tail e))) -/(L03 (v (head e))) /own /tail /head.
    case: (edges4 He) => ->; case: (edges4 Hi) => ->; cbn [nth eqn orb]; rewrite ?g0 ?g1 ?g2 ?g3 ?z0 ?z1 ?z2 ?z3 /=; ring.
  Qed.
  Lemma pre_own i : (i < 4)%N -> pre i (v i) = own i.
  Proof.
    move=> Hi. have T : 0 <= (0 : F) <= 1 by rewrite lexx ler01. have U : 0 <= (1 : F) <= 1 by rewrite lexx ler01.
    case: (edges4 Hi) => ->.
    - by have := @pre_edge 0%N 0%N 0 isT isT T; rewrite pt_on0 /= subr0 mulr1.
    - by have := @pre_edge 0%N 1%N 1 isT isT U; rewrite pt_on1 /= mulr1.
    - by have := @pre_edge 1%N 2%N 0 isT isT T; rewrite pt_on0 /= subr0 mulr1.
    - by have := @pre_edge 1%N 3%N 1 isT isT U; rewrite pt_on1 /= mulr1.
  Qed.
  Lemma ds1_some i P : (i < 4)%N -> placed v s P -> nth (fun=> None) (ds1_sym O sv) i (somep P) = Some (pre i P / own i).
  Proof.
    move=> Hi HP. rewrite /ds1_sym listE_map listE_seq (nth_map 0%N) ?size_iota // nth_iota // add0n.
    rewrite phitilde_some // -[sv i]/(somep (v i)) phitilde_some //; last exact: vertex_placed.
    by rewrite pre_own // div_some // own_neq0.
  Qed.
  Lemma size_ds1 : size (ds1_sym O sv) = 4%N.
  Proof. by []. Qed.

  Lemma ds1_conforming : conforming (ds1_sym O sv) v 1.
  Proof.
    move=> e i t He. rewrite size_ds1 => Hi Ht. rewrite -/(pt_on e t) ds1_some //; last exact: pt_on_placed.
    congr Some. rewrite pre_edge // mulrC mulKf ?own_neq0 //.
    have E0 : edge_dofs 1 e = [:: tail e; head e] by [].
    have TH : tail e != head e by case: (edges4 He) => ->.
    have I0 : iota 0 2 = [:: 0; 1]%N by [].
    rewrite E0 !inE /=. case: (altP (i =P tail e)) => [->|Hne]; [rewrite eqxx|rewrite [tail e == i]eq_sym (negbTE Hne)].
      rewrite /lagrange I0 !big_cons big_nil /= mulr1 !hornerE. by field; rewrite ?oner_eq0.
    case: (altP (i =P head e)) => [->|Hne']; last by [].
    rewrite eqxx /lagrange I0 !big_cons big_nil /= mulr1 !hornerE. by field; rewrite ?oner_eq0.
  Qed.
  Lemma ds1_nodal : nodal (ds1_sym O sv) (nodes v 1).
  Proof.
    have N : nodes v 1 = [:: v 0; v 1; v 2; v 3]%N by [].
    rewrite N. split=> // i j Hi Hj. have -> : nth (0, 0) [:: v 0; v 1; v 2; v 3]%N j = v j by case: (edges4 Hj) => ->.
    rewrite ds1_some //; last exact: vertex_placed. congr Some.
    have T : 0 <= (0 : F) <= 1 by rewrite lexx ler01. have U : 0 <= (1 : F) <= 1 by rewrite lexx ler01.
    have n0 := own_neq0 Hi. apply: (mulIf n0). rewrite divfK //.
    case: (edges4 Hj) => ->.
    - rewrite -(pt_on0 0) pre_edge //. case: (edges4 Hi) => -> /=; by rewrite ?subr0 ?mulr1 ?mulr0 ?mul1r ?mul0r.
    - rewrite -(pt_on1 0) pre_edge //. case: (edges4 Hi) => -> /=; by rewrite ?subrr ?mulr1 ?mulr0 ?mul1r ?mul0r.
    - rewrite -(pt_on0 1) pre_edge //. case: (edges4 Hi) => -> /=; by rewrite ?subr0 ?mulr1 ?mulr0 ?mul1r ?mul0r.
    - rewrite -(pt_on1 1) pre_edge //. case: (edges4 Hi) => -> /=; by rewrite ?subrr ?mulr1 ?mulr0 ?mul1r ?mul0r.
  Qed.
  Lemma ds1_defined P i : in_quad v P -> (i < size (ds1_sym O sv))%N -> exists y, nth (fun=> None) (ds1_sym O sv) i (somep P) = Some y.
  Proof. move=> HP. rewrite size_ds1 => Hi. eexists. apply: ds1_some => //. exact: in_quad_placed. Qed.
  Lemma ds1_reproduces c P : in_quad v P -> interpolant (ds1_sym O sv) (nodes v 1) (linear c) P = Some (linear c P).
  Proof.
    move=> /(in_quad_placed convex) HP.
    have -> : ds1_sym O sv = map (nth (fun=> None) (ds1_sym O sv)) (iota 0 4) by [].
    have -> : nodes v 1 = map v (iota 0 4) by [].
    rewrite (@interpolant_in _ _ _ _ _ _ _ (fun i => pre i P / own i)); last by move=> i; rewrite mem_iota => Hi; exact: ds1_some.
    congr Some. rewrite !big_cons big_nil /pre /own. cbn [nth].
    have [n0 n1] := K_sum_neq0 convex. move: (half P) => h. apply: (mulIf n0). have KS := K_sum v. move: n1. rewrite -KS => n1.
    have -> : forall a b c d x y z w : F, (a * (x / (K0 + K3)) + (b * (y / - (K0 + K3)) + (c * (z / (K0 + K3)) + (d * (w / - (K0 + K3)) + 0)))) * (K0 + K3) = a * x - b * y + c * z - d * w.
      move=> *. by field; rewrite ?n0.
    rewrite /L12 /L03 /linear /SerendipityQuadratic.K0 /SerendipityQuadratic.K1 /SerendipityQuadratic.K2 /SerendipityQuadratic.K3 /turn. ring.
  Qed.
End Lowest.
