(** The edge functions of the direct serendipity elements. *)
From Coq Require List.
From mathcomp Require Import all_ssreflect all_algebra.
From mathcomp Require Import zify ring.
From Verif Require Import Model.Prelude Model.Gem Model.Serendipity Spec.Partial Spec.Serendipity Proofs.Newton Proofs.SerendipityGeometry Proofs.SerendipityInner.
Set Implicit Arguments.
Unset Strict Implicit.
Unset Printing Implicit Defensive.
Import Order.TTheory GRing.Theory Num.Theory.
Local Open Scope ring_scope.

(** ** Striking an entry out *)
Lemma strikeS (A : Type) i (a : A) l : strike i.+1 (a :: l) = a :: strike i l.
Proof. by []. Qed.
Lemma strike0 (A : Type) (a : A) l : strike 0 (a :: l) = l.
Proof. by []. Qed.
Lemma strike_nil (A : Type) i : strike i [::] = [::] :> seq A.
Proof. by case: i. Qed.
Lemma strike_map (A B : Type) (f : A -> B) i l : strike i (map f l) = map f (strike i l).
Proof.
  elim: l i => [|a l IH] [|i]; rewrite ?map_cons ?strike_nil ?strike0 ?strikeS //. by rewrite IH.
Qed.
Lemma mem_strike (T : eqType) (l : seq T) i x0 x : uniq l -> (i < size l)%N ->
  (x \in strike i l) = (x \in l) && (x != nth x0 l i).
Proof.
  elim: l i => [|a l IH] // [|i]; rewrite cons_uniq => /andP[Ha U] Hi.
    rewrite strike0 inE /=; case: eqP => [->|_]; last by rewrite andbT. by rewrite (negbTE Ha).
  rewrite strikeS !inE IH //=. case: eqP => [->|_] //=.
  apply/esym/eqP => E. by move: Ha; rewrite E mem_nth.
Qed.
Lemma strike_sub (T : eqType) (l : seq T) i : {subset strike i l <= l}.
Proof.
  elim: l i => [|b l IH] [|i] x; rewrite ?strike_nil ?strike0 ?strikeS ?inE //; first by move=> ->; rewrite orbT.
  by move=> /orP[->//|/IH ->]; rewrite orbT.
Qed.
Lemma strike_uniq (T : eqType) (l : seq T) i : uniq l -> uniq (strike i l).
Proof.
  elim: l i => [|a l IH] [|i]; rewrite ?strike_nil ?strike0 ?strikeS ?cons_uniq // => /andP[Ha U] //.
  rewrite IH // andbT. apply/negP => /strike_sub H. by rewrite H in Ha.
Qed.
Lemma size_strike (T : Type) (l : seq T) i : (i < size l)%N -> size (strike i l) = (size l).-1.
Proof.
  elim: l i => [|a l IH] // [|i] Hi; first by rewrite strike0. rewrite strikeS /= IH //. by case: l Hi {IH}.
Qed.

Section Edges.
  Variable F : realFieldType.
  Variable v : nat -> point F.
  Variable s : F.
  Hypothesis convex : turns v s.
  Variable r : nat.
  Hypothesis r_ge2 : (2 <= r)%N.
  Local Notation O := (partial_ops F).
  Local Notation sv := (sv v).
  Local Notation lam := (lam v).
  Local Notation a0 := adjacent0.
  Local Notation a1 := adjacent1.
  Local Notation op := opposite_edge.
  Implicit Types P : point F.

  Lemma edge_facts e : (e < 4)%N ->
    [/\ [/\ a0 e < 4, a1 e < 4 & op e < 4]%N, [/\ a0 e != e, a1 e != e & op e != e],
        [/\ a0 e != op e, a1 e != op e & a0 e != a1 e]
      & forall f, (f < 4)%N -> [|| f == e, f == op e, f == a0 e | f == a1 e]].
  Proof. by move=> He; case: (edges4 He) => ->; split=> // f Hf; case: (edges4 Hf) => ->. Qed.
  Lemma vertex_side e i : (e < 4)%N -> (i < 4)%N -> lies i (a0 e) || lies i (a1 e).
  Proof. by move=> He Hi; case: (edges4 He) => ->; case: (edges4 Hi) => ->. Qed.

  (** ** Ratios *)
  Definition tun e P : F := (lam (a0 e) P - lam (a1 e) P) / (lam (a0 e) P + lam (a1 e) P).
  Definition rs e P : F := lam (op e) P / (lam e P + lam (op e) P).

  Lemma sides_neq0 e P : (e < 4)%N -> placed v s P -> lam (a0 e) P + lam (a1 e) P != 0.
  Proof. by move=> He [_ H1 H2]; case: (edges4 He) => ->. Qed.
  Lemma across_neq0 e P : (e < 4)%N -> placed v s P -> lam e P + lam (op e) P != 0.
  Proof. by move=> He [_ H1 H2]; case: (edges4 He) => -> //; rewrite addrC. Qed.
  Lemma tunnel_some e P : (e < 4)%N -> placed v s P -> tunnel_R O sv e (somep P) = Some (tun e P).
  Proof.
    move=> He HP. have [[H0 H1 _] _ _ _] := edge_facts He. rewrite /tunnel_R !lams_some //.
    cbn [fadd fsub partial_ops lift2]. by rewrite div_some // sides_neq0.
  Qed.
  Lemma Rs_some e P : (e < 4)%N -> placed v s P -> Rs O sv e (somep P) = Some (rs e P).
  Proof.
    move=> He HP. have H2 : (2%:R : F) != 0 by apply: nat_neq0.
    have Em (a b : F) : a + b != 0 -> fdiv O (fsub O (Some 1) (fdiv O (fsub O (Some a) (Some b)) (fadd O (Some a) (Some b)))) (Some 2%:R) = Some (b / (a + b)).
      move=> H. cbn [fadd fsub partial_ops lift2]. rewrite div_some //. cbn [fadd fsub partial_ops lift2]. rewrite div_some //.
      congr Some. field. by rewrite H.
    have Ep (a b : F) : a + b != 0 -> fdiv O (fadd O (Some 1) (fdiv O (fsub O (Some a) (Some b)) (fadd O (Some a) (Some b)))) (Some 2%:R) = Some (a / (a + b)).
      move=> H. cbn [fadd fsub partial_ops lift2]. rewrite div_some //. cbn [fadd fsub partial_ops lift2]. rewrite div_some //.
      congr Some. field. by rewrite H.
    case: HP => _ H01 H23. rewrite /rs.
    case: (edges4 He) => ->; rewrite /Rs /RV /RH !lams_some // nm_some -[f1 O]/(Some (1 : F)).
    - by rewrite Em.
    - by rewrite Ep // -[op 1]/0%N [lam 1 P + _]addrC.
    - by rewrite Em.
    - by rewrite Ep // -[op 3]/2%N [lam 3 P + _]addrC.
  Qed.
  Lemma rs_own e P : (e < 4)%N -> placed v s P -> lam e P = 0 -> rs e P = 1.
  Proof. by move=> He HP E; have := across_neq0 He HP; rewrite /rs E add0r => H; rewrite divff. Qed.
  Lemma rs_opposite e P : lam (op e) P = 0 -> rs e P = 0.
  Proof. by move=> E; rewrite /rs E mul0r. Qed.

  (** ** Nodes *)
  Definition tk (k : nat) : F := k%:R / r%:R.
  Local Notation enode := (edge_point v r).
  Lemma r_neq0 : r%:R != 0 :> F. Proof. by apply: nat_neq0; lia. Qed.
  Lemma tk_gt0 k : (0 < k < r)%N -> 0 < tk k.
  Proof. by move=> H; rewrite /tk divr_gt0 ?ltr0n //; lia. Qed.
  Lemma tk_lt1 k : (0 < k < r)%N -> tk k < 1.
  Proof. by move=> H; rewrite /tk ltr_pdivr_mulr ?ltr0n ?mul1r ?ltr_nat //; lia. Qed.
  Lemma tk_inj : injective tk.
  Proof. by move=> i j /(mulIf (invr_neq0 r_neq0)) /eqP; rewrite eqr_nat => /eqP. Qed.
  Lemma enode_placed e k : (e < 4)%N -> (0 < k < r)%N -> placed v s (enode e k).
  Proof. by move=> He Hk; apply: (edge_placed convex) => //; [exact: tk_gt0|exact: tk_lt1]. Qed.
  Lemma enode0 e k : (e < 4)%N -> lam e (enode e k) = 0.
  Proof. by move=> He; exact: lam_edge0. Qed.
  Lemma enode1 e k f : (e < 4)%N -> (f < 4)%N -> (0 < k < r)%N -> f != e -> 0 < s * lam f (enode e k).
  Proof. by move=> He Hf Hk H; apply: (lam_edge1 convex) => //; [exact: tk_gt0|exact: tk_lt1]. Qed.
  Lemma enode1' e k f : (e < 4)%N -> (f < 4)%N -> (0 < k < r)%N -> f != e -> lam f (enode e k) != 0.
  Proof. move=> *. apply: (pos_neq0 (s := s)). exact: enode1. Qed.

  Lemma nodes1dE : nodes1d O r = map Some (map tk (iota 1 (r - 1))).
  Proof.
    rewrite /nodes1d listE_map listE_seq minusE -map_comp. apply/eq_in_map => k _.
    by rewrite !nm_some div_some // r_neq0.
  Qed.
  Lemma edge_nodesE e : (e < 4)%N -> edge_nodes O sv r e = map (@somep F) (edge_points v r e).
  Proof.
    move=> He. rewrite /edge_nodes nodes1dE listE_map /edge_points -!map_comp. apply: eq_map => k.
    by case: (edges4 He) => ->.
  Qed.

  (** Parameter along an edge. *)
  Definition dir e : point F := ((v (head e)).1 - (v (tail e)).1, (v (head e)).2 - (v (tail e)).2).
  Definition par e P : F :=
    ((P.1 - (v (tail e)).1) * (dir e).1 + (P.2 - (v (tail e)).2) * (dir e).2) / ((dir e).1 ^+ 2 + (dir e).2 ^+ 2).
  Lemma dir_neq0 e : (e < 4)%N -> (dir e).1 ^+ 2 + (dir e).2 ^+ 2 != 0.
  Proof.
    move=> He. apply/negP; rewrite paddr_eq0 ?sqr_ge0 // !sqrf_eq0 => /andP[/eqP E1 /eqP E2].
    have [[H0 _ _] _ _ _] := edge_facts He.
    have := @lam_vertex1 _ _ _ convex (a0 e) (head e) H0 (head_lt He).
    have := @lam_vertex0 _ v (a0 e) (tail e) H0 (tail_lt He).
    have -> : v (head e) = v (tail e).
      move: E1 E2; rewrite /dir /=; case: (v (head e)) (v (tail e)) => x y [x' y'] /= /eqP; rewrite subr_eq0 => /eqP -> /eqP.
      by rewrite subr_eq0 => /eqP ->.
    have [-> ->] : lies (tail e) (a0 e) /\ ~~ lies (head e) (a0 e) by case: (edges4 He) => ->.
    by move=> -> //; rewrite mulr0 ltxx => /(_ isT).
  Qed.
  Lemma par_along e t : (e < 4)%N -> par e (along (v (tail e)) (v (head e)) t) = t.
  Proof.
    move=> He. have H := dir_neq0 He. rewrite /par /along /=. rewrite -[_.1 - _]/((dir e).1) -[(v (head e)).2 - _]/((dir e).2).
    field. exact: H.
  Qed.

  (** ** The correcting polynomial, r >= 3 *)
  Section Higher.
    Hypothesis r_ge3 : (3 <= r)%N.
    Variables (e i : nat).
    Hypothesis He : (e < 4)%N.
    Hypothesis Hi : (0 < i < r)%N.
    Definition idx : seq nat := strike i.-1 (iota 1 (r - 1)).
    Lemma mem_idx k : (k \in idx) = (0 < k < r)%N && (k != i).
    Proof.
      rewrite /idx (mem_strike 0%N) ?iota_uniq ?size_iota //; last lia. rewrite mem_iota nth_iota; last lia.
      have -> : (1 + i.-1 = i)%N by lia. congr (_ && _). lia.
    Qed.
    Lemma size_idx : size idx = (r - 2)%N.
    Proof. rewrite /idx size_strike size_iota; lia. Qed.
    Lemma uniq_idx : uniq idx.
    Proof. exact: strike_uniq (iota_uniq _ _). Qed.
    Definition pv k : F := - 1 * tun e (enode e k) ^+ (r - 2) / lam (op e) (enode e k).

    Lemma edge_p_some : exists p : {poly F},
      [/\ (size p <= r - 2)%N, forall k, (0 < k < r)%N -> k != i -> p.[tk k] = pv k
        & forall P, edge_p O sv r e i.-1 (somep P) = Some p.[par e P]].
    Proof.
      have [[H0 H1 H2] [N0 N1 N2] _ _] := edge_facts He.
      have [p [Sp Ip Ep]] := @newton_poly_interpolates F (map tk idx) (map pv idx)
        ltac:(rewrite map_inj_uniq; [exact: uniq_idx|exact: tk_inj]) ltac:(by rewrite !size_map) ltac:(rewrite size_map size_idx; lia).
      rewrite size_map size_idx in Sp Ip. exists p. split=> // [k Hk Hki|P].
      - have Hm : k \in idx by rewrite mem_idx Hk Hki.
        have Hx : (index k idx < size idx)%N by rewrite index_mem.
        have := Ip (index k idx). rewrite !(nth_map 0%N) // !nth_index // => -> //. by rewrite -size_idx.
      - rewrite /edge_p nodes1dE edge_nodesE // /edge_points !strike_map -/idx listE_map.
        have G k : (0 < k < r)%N -> fdiv O (fmul O (fopp O (f1 O)) (pw O (tunnel_R O sv e (somep (enode e k))) (r - 2)%coq_nat)) (lams O sv (op e) (somep (enode e k))) = Some (pv k).
          move=> Hk. rewrite tunnel_some ?lams_some //; last exact: enode_placed. rewrite pw_some minusE. cbn [fopp fmul f1 partial_ops omap obind oapp lift2].
          by rewrite div_some // enode1'.
        set pvs := (X in newton_poly _ _ X _). have -> : pvs = map Some (map pv idx).
          rewrite /pvs -!map_comp. apply/eq_in_map => k. rewrite mem_idx => /andP[Hk _]. exact: G.
        set X := fdiv _ _ _. suff -> : X = Some (par e P) by rewrite Ep.
        have Hd := dir_neq0 He. rewrite /X. cbn [pdot somep fst snd fmul fadd fsub partial_ops lift2 ts psub].
        have -> : (quad_edge e).1 = tail e by case: (edges4 He) => ->. have -> : (quad_edge e).2 = head e by case: (edges4 He) => ->.
        rewrite /edge_start /edge_end.
        have -> : (quad_edge e).1 = tail e by case: (edges4 He) => ->. have -> : (quad_edge e).2 = head e by case: (edges4 He) => ->.
        rewrite /SerendipityGeometry.sv /somep. cbn [fst snd lift2 fsub fadd fmul partial_ops].
        rewrite -[(v (head e)).1 - _]/((dir e).1) -[(v (head e)).2 - _]/((dir e).2).
        have E : (v (head e)).1 * (dir e).1 + (v (head e)).2 * (dir e).2 - ((v (tail e)).1 * (dir e).1 + (v (tail e)).2 * (dir e).2) = (dir e).1 ^+ 2 + (dir e).2 ^+ 2.
          by rewrite /dir /=; ring.
        rewrite E div_some // /par. congr (Some (_ / _)). ring.
    Qed.
  End Higher.
End Edges.
