(** The theorems on direct serendipity elements put together. *)
From Coq Require List.
From mathcomp Require Import all_ssreflect all_algebra.
From mathcomp Require Import zify ring.
From Verif Require Import Model.Prelude Model.Gem Model.Serendipity Spec.Partial Spec.Serendipity Proofs.Newton Proofs.SerendipityGeometry Proofs.SerendipityInner Proofs.SerendipityEdges Proofs.SerendipityNodal Proofs.SerendipityRegular Proofs.SerendipityTrace Proofs.SerendipityConform Proofs.SerendipityQuadratic Proofs.SerendipityPoly Proofs.SerendipityLowest Proofs.SerendipityIrregular.
Set Implicit Arguments.
Unset Strict Implicit.
Unset Printing Implicit Defensive.
Import Order.TTheory GRing.Theory Num.Theory.
Local Open Scope ring_scope.

Section Main.
  Variables (F : realFieldType) (v : nat -> point F) (r : nat).
  Hypothesis convex : convex_quad v.
  Local Notation fs := (ds_sym (partial_ops F) (fun i => somep (v i)) r).

  Lemma ds_high : (2 <= r)%N -> fs = dsr_sym (partial_ops F) (sv v) r.
  Proof. by rewrite /ds_sym; case: PeanoNat.Nat.eqb_spec => [->|]. Qed.
  Lemma ds_low : r = 1%N -> fs = ds1_sym (partial_ops F) (sv v).
  Proof. by rewrite /ds_sym => ->. Qed.
  Lemma degree_split : (1 <= r)%N -> r = 1%N \/ (2 <= r)%N.
  Proof. lia. Qed.
  Lemma ds_regular : (2 <= r)%N -> (r <= 3)%N \/ parallelogram v -> forall e, (e < 4)%N -> edge_regular v r e.
  Proof.
    have [s Hs] := convex. move=> Hr [H3|Hp] e He; last exact: (regular_par (s := s)).
    have [->|->] : r = 2%N \/ r = 3%N by lia. exact: regular2. exact: (regular3 (s := s)).
  Qed.

  Lemma ds_nodal_iff : (2 <= r)%N -> nodal fs (nodes v r) <-> forall e, (e < 4)%N -> edge_regular v r e.
  Proof.
    have [s Hs] := convex. move=> Hr. rewrite ds_high //. split; last by move=> H; exact: (dsr_nodal (s := s)).
    have [->|H3] : r = 2%N \/ (3 <= r)%N by lia.
      by move=> _ e _; exact: regular2.
    exact: (nodal_regular (s := s)).
  Qed.
  Lemma ds_nodal : (1 <= r)%N -> (r <= 3)%N \/ parallelogram v -> nodal fs (nodes v r).
  Proof.
    move=> /degree_split [E|Hr] H; last by apply/ds_nodal_iff => //; exact: ds_regular.
    have [s Hs] := convex. rewrite ds_low // E. exact: (ds1_nodal (s := s)).
  Qed.
  Lemma ds_defined : (1 <= r)%N -> r = 1%N \/ (forall e, (e < 4)%N -> edge_regular v r e) ->
    forall P, in_quad v P -> List.Forall (fun f => exists y, f (somep P) = Some y) fs.
  Proof.
    have [s Hs] := convex. move=> H1 H P HP. apply/List.Forall_forall => f /(List.In_nth _ _ (fun=> None)) [i [Hi <-]].
    have {}Hi : (i < size fs)%N by apply/ssrnat.ltP. rewrite listE_nth. move: Hi.
    have [E|Hr] := degree_split H1.
      by rewrite ds_low //; exact: (ds1_defined (s := s)).
    case: H => [E|H]; first by move: Hr; rewrite E.
    by rewrite ds_high //; exact: (dsr_defined (s := s)).
  Qed.
  Lemma ds_conforming : (1 <= r)%N -> (r <= 2)%N \/ parallelogram v -> conforming fs v r.
  Proof.
    have [s Hs] := convex. move=> /degree_split [E|Hr] H; first by rewrite ds_low // E; exact: (ds1_conforming (s := s)).
    rewrite ds_high //. apply: (dsr_conforming (s := s)) => //.
      by apply: ds_regular => //; case: H => H; [left; lia|right].
    case: H => H; [left; lia|by right].
  Qed.
  Lemma inside_within s P : turns v s -> inside v s P -> within v P.
  Proof.
    move=> Hs HP e He.
    have Sg : turn (v (tail e)) (v (head e)) P * turn (v (tail e)) (v (head e)) (v (tail_nb e)) = (s * lam v e P) * (s * lam v e (v (tail_nb e))).
      have S1 : s * s = 1 by case: Hs => [[->|->] _]; rewrite ?mulrNN mulr1.
      have -> : (s * lam v e P) * (s * lam v e (v (tail_nb e))) = (s * s) * (lam v e P * lam v e (v (tail_nb e))) by ring.
      rewrite S1 mul1r. rewrite /tail /head /tail_nb /lam. case: (edges4 He) => ->; cbn [nth]; rewrite /turn; ring.
    rewrite Sg mulr_gt0 ?HP // (lam_vertex1 Hs) //; by case: (edges4 He) => ->.
  Qed.
  Lemma ds_node_inner d : (2 <= r)%N -> (4 + 4 * (r - 1) <= d < size (nodes v r))%N -> within v (nth (0, 0) (nodes v r) d).
  Proof. have [s Hs] := convex. move=> Hr Hd. apply: (inside_within Hs). exact: node_inner. Qed.
  Lemma ds_nodes : (2 <= r)%N -> dsr_nodes (partial_ops F) (fun i => somep (v i)) r = map (@somep F) (nodes v r).
  Proof. have [s Hs] := convex. move=> Hr. exact: dsr_nodesE. Qed.
End Main.

Section Reproduce.
  Variables (F : realFieldType) (v : nat -> point F).
  Hypothesis convex : convex_quad v.
  Lemma ds_linear c P : in_quad v P -> interpolant (ds_sym (partial_ops F) (fun i => somep (v i)) 1) (nodes v 1) (linear c) P = Some (linear c P).
  Proof. have [s Hs] := convex. exact: (ds1_reproduces Hs). Qed.
  Lemma ds_quadratic c P : in_quad v P -> interpolant (ds_sym (partial_ops F) (fun i => somep (v i)) 2) (nodes v 2) (quadratic c) P = Some (quadratic c P).
  Proof. have [s Hs] := convex. exact: (reproduces2_quad Hs). Qed.
  Lemma polynomial1 (c : nat -> nat -> F) P : polynomial 1 c P = linear (fun k => nth 0 [:: c 0%N 0%N; c 1%N 0%N; c 0%N 1%N] k) P.
  Proof.
    transitivity ((c 0%N 0%N * P.1 ^+ 0 * P.2 ^+ 0 + (c 0%N 1%N * P.1 ^+ 0 * P.2 ^+ 1 + 0)) + ((c 1%N 0%N * P.1 ^+ 1 * P.2 ^+ 0 + 0) + 0)).
      by rewrite /polynomial !big_ord_recl !big_ord0.
    rewrite /linear /=. ring.
  Qed.
  Lemma polynomial2 (c : nat -> nat -> F) P :
    polynomial 2 c P = quadratic (fun k => nth 0 [:: c 0%N 0%N; c 1%N 0%N; c 0%N 1%N; c 2%N 0%N; c 1%N 1%N; c 0%N 2%N] k) P.
  Proof.
    transitivity ((c 0%N 0%N * P.1 ^+ 0 * P.2 ^+ 0 + (c 0%N 1%N * P.1 ^+ 0 * P.2 ^+ 1 + (c 0%N 2%N * P.1 ^+ 0 * P.2 ^+ 2 + 0))) + ((c 1%N 0%N * P.1 ^+ 1 * P.2 ^+ 0 + (c 1%N 1%N * P.1 ^+ 1 * P.2 ^+ 1 + 0)) + ((c 2%N 0%N * P.1 ^+ 2 * P.2 ^+ 0 + 0) + 0))).
      by rewrite /polynomial !big_ord_recl !big_ord0.
    rewrite /quadratic /=. ring.
  Qed.
  Lemma interpolant_ext fs nds (f g : point F -> F) P : (forall Q, f Q = g Q) -> interpolant fs nds f P = interpolant fs nds g P.
  Proof. move=> E. rewrite /interpolant. by elim: (seq.zip fs nds) => //= ab l ->; rewrite E. Qed.
  Lemma ds_polynomials r : (1 <= r)%N -> (r <= 2)%N \/ parallelogram v -> forall c P, in_quad v P ->
    interpolant (ds_sym (partial_ops F) (fun i => somep (v i)) r) (nodes v r) (polynomial r c) P = Some (polynomial r c P).
  Proof.
    move=> H1 H c P HP. have [E|[E|H3]] : r = 1%N \/ r = 2%N \/ (3 <= r)%N by lia.
    - by rewrite E (interpolant_ext _ _ _ (polynomial1 c)) ds_linear // polynomial1.
    - by rewrite E (interpolant_ext _ _ _ (polynomial2 c)) ds_quadratic // polynomial2.
    - case: H => [H|H]; first lia. have [s Hs] := convex. rewrite ds_high; last lia.
      apply: (reproduces Hs) => //. exact: in_quad_placed.
  Qed.
End Reproduce.

Section Refute.
  Variable R : rcfType.
  Lemma ds_nodal_refuted : exists v : nat -> point R, convex_quad v /\
    forall x, List.nth 4 (ds_sym (partial_ops R) (fun i => somep (v i)) 4) (fun=> Some 0) x = None.
  Proof.
    have [u /andP[Hu _] Eu] := kite_root R. have Hs := kite_turns Hu. exists (kite u). split; first by exists 1.
    move=> x. have Hi := kite_irregular Hu Eu.
    rewrite ds_high // dsr_symE listE_nth (nth_map (V 0)) //.
    rewrite -[nth _ _ _]/(E 0 1).
    case: (@emod R (kite u) 4 0 1 x =P None) => // N. case: Hi => H. apply: N. exact: (irregular_undefined Hs).
  Qed.
End Refute.

(** A square and a trapezium with a common edge. *)
Definition square (i : nat) : point [realFieldType of rat] := nth (0, 0) [:: (-1, 0); (0, 0); (-1, 1); (0, 1)] i.
Definition trapezium (i : nat) : point [realFieldType of rat] := nth (0, 0) [:: (0, 0); (1, 0); (0, 1); (2%:R, 1)] i.
Lemma square_convex : convex_quad square.
Proof. by exists 1; split; [left|]. Qed.
Lemma trapezium_convex : convex_quad trapezium.
Proof. by exists 1; split; [left|]. Qed.
Lemma common_edge : square 1 = trapezium 0 /\ square 3 = trapezium 2.
Proof. by []. Qed.

Lemma ds_conforming_refuted : exists v w : nat -> point [realFieldType of rat], exists p : point [realFieldType of rat],
  [/\ convex_quad v, convex_quad w, v 1%N = w 0%N /\ v 3%N = w 2%N, p = along (v 1%N) (v 3%N) (1 / 2%:R)
    & edge_point v 3 3 1 = edge_point w 3 2 1
      /\ List.nth 10 (ds_sym (partial_ops [fieldType of rat]) (fun i => somep (v i)) 3) (fun=> None) (somep p)
         <> List.nth 8 (ds_sym (partial_ops [fieldType of rat]) (fun i => somep (w i)) 3) (fun=> None) (somep p)].
Proof.
  exists square, trapezium, (0, 1 / 2%:R). split; [exact: square_convex|exact: trapezium_convex|exact: common_edge|by []|].
  split; first by []. apply/eqP. vm_cast_no_check (erefl true).
Qed.
Lemma ds_unity_refuted : exists (v : nat -> point [realFieldType of rat]) (p : point [realFieldType of rat]),
  [/\ convex_quad v, in_quad v p & interpolant (ds_sym (partial_ops [fieldType of rat]) (fun i => somep (v i)) 3) (nodes v 3) (fun=> 1) p = Some (719%:R / 720%:R)].
Proof.
  exists trapezium, (0, 1 / 2%:R). split; first exact: trapezium_convex.
    by exists (1 / 2%:R), 0, (1 / 2%:R), 0.
  apply/eqP. vm_cast_no_check (erefl true).
Qed.
