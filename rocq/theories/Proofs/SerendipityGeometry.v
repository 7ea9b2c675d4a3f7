(** Convex quadrilaterals and the line functions of the direct serendipity elements. *)
From Coq Require List.
From mathcomp Require Import all_ssreflect all_algebra.
From mathcomp Require Import zify ring.
From Verif Require Import Model.Prelude Model.Gem Model.Serendipity Spec.Partial Spec.Serendipity Proofs.Newton.
Set Implicit Arguments.
Unset Strict Implicit.
Unset Printing Implicit Defensive.
Import Order.TTheory GRing.Theory Num.Theory.
Local Open Scope ring_scope.

(** ** Arithmetic with undefined numbers *)
Section Arithmetic.
  Variable F : fieldType.
  Local Notation O := (partial_ops F).
  Lemma div_some (a b : F) : b != 0 -> fdiv O (Some a) (Some b) = Some (a / b).
  Proof. by move=> H; rewrite /= (negbTE H). Qed.
  Lemma nm_some n : nm O n = Some n%:R.
  Proof. by elim: n => //= n ->; rewrite /= mulrS. Qed.
  Lemma pw_some x n : pw O (Some x) n = Some (x ^+ n).
  Proof. by elim: n => //= n ->; rewrite /= exprS. Qed.
  Lemma total_some l : total O (map Some l) = Some (\sum_(x <- l) x).
  Proof.
    rewrite /total listE_fold_left /=.
    suff H : forall c, foldl (lift2 +%R) (Some c) (map Some l) = Some (c + \sum_(x <- l) x) by rewrite H add0r.
    elim: l => [|x l IH] c /=; first by rewrite big_nil addr0. by rewrite IH big_cons addrA.
  Qed.
  Lemma total_map (T : eqType) (f : T -> option F) (g : T -> F) (l : seq T) :
    (forall t, t \in l -> f t = Some (g t)) -> total O (map f l) = Some (\sum_(t <- l) g t).
  Proof. move=> H. have -> : map f l = map Some (map g l) by rewrite -map_comp; apply/eq_in_map => t /H. by rewrite total_some big_map. Qed.
End Arithmetic.

Section Quad.
  Variable F : realFieldType.
  Variable v : nat -> point F.
  Local Notation O := (partial_ops F).
  Definition sv (i : nat) : option F * option F := somep (v i).
  Implicit Types P : point F.

  Lemma nat_neq0 n : (0 < n)%N -> n%:R != 0 :> F.
  Proof. by move=> H; rewrite pnatr_eq0 -lt0n. Qed.

  (** ** The line functions *)
  Definition lam (e : nat) P : F :=
    match e with
    | 0%N => turn (v 0) (v 1) P
    | 1%N => turn (v 3) (v 2) P
    | 2%N => turn (v 2) (v 0) P
    | _ => turn (v 1) (v 3) P
    end.

  Lemma edges4 e : (e < 4)%N -> [\/ e = 0%N, e = 1%N, e = 2%N | e = 3%N].
  Proof. by case: e => [|[|[|[|]]]] // _; [apply: Or41|apply: Or42|apply: Or43|apply: Or44]. Qed.

  Lemma xstars_some e : (e < 4)%N -> xstars O sv e = somep (along (v (tail e)) (v (head e)) 2%:R^-1).
  Proof.
    move=> He. have H2 : (2%:R : F) != 0 by apply: nat_neq0.
    rewrite /xstars /pdiv /padd !nm_some /sv. cbn [fst snd somep].
    rewrite !div_some // /somep /along /=.
    rewrite /tail /head. case: (edges4 He) => ->; rewrite /=; congr (Some _, Some _); by field.
  Qed.

  Lemma lams_some e P : (e < 4)%N -> lams O sv e (somep P) = Some (lam e P).
  Proof.
    move=> He. have H2 : (2%:R : F) != 0 by apply: nat_neq0.
    rewrite /lams xstars_some //.
    rewrite /tail /head. case: (edges4 He) => ->; rewrite /= /turn; congr Some; by field.
  Qed.

  Lemma lam_along e a b t : (e < 4)%N -> lam e (along a b t) = (1 - t) * lam e a + t * lam e b.
  Proof. by move=> He; case: (edges4 He) => ->; rewrite /= /turn /=; ring. Qed.

  (** ** Position of points *)
  Variable s : F.
  Definition turns : Prop := (s = 1 \/ s = -1) /\
      [/\ 0 < s * turn (v 2%N) (v 0%N) (v 1%N), 0 < s * turn (v 0%N) (v 1%N) (v 3%N),
          0 < s * turn (v 1%N) (v 3%N) (v 2%N) & 0 < s * turn (v 3%N) (v 2%N) (v 0%N)].
  Hypothesis convex : turns.

  Definition lies (i e : nat) : bool := (i == tail e) || (i == head e).

  Lemma lam_vertex0 e i : (e < 4)%N -> (i < 4)%N -> lies i e -> lam e (v i) = 0.
  Proof.
    move=> He Hi; rewrite /lies /tail /head. case: (edges4 He) => ->; case: (edges4 Hi) => -> //= _; rewrite /turn; ring.
  Qed.
  Lemma lam_vertex1 e i : (e < 4)%N -> (i < 4)%N -> ~~ lies i e -> 0 < s * lam e (v i).
  Proof.
    have [_ [k0 k1 k3 k2]] := convex.
    have E0 : turn (v 0%N) (v 1%N) (v 2%N) = turn (v 2%N) (v 0%N) (v 1%N) by rewrite /turn; ring.
    have E2 : turn (v 2%N) (v 0%N) (v 3%N) = turn (v 3%N) (v 2%N) (v 0%N) by rewrite /turn; ring.
    have E1 : turn (v 1%N) (v 3%N) (v 0%N) = turn (v 0%N) (v 1%N) (v 3%N) by rewrite /turn; ring.
    have E3 : turn (v 3%N) (v 2%N) (v 1%N) = turn (v 1%N) (v 3%N) (v 2%N) by rewrite /turn; ring.
    by move=> He Hi; case: (edges4 He) => ->; case: (edges4 Hi) => -> //= _; rewrite ?E0 ?E1 ?E2 ?E3.
  Qed.
  Lemma lam_vertex_ge0 e i : (e < 4)%N -> (i < 4)%N -> 0 <= s * lam e (v i).
  Proof.
    move=> He Hi. case: (boolP (lies i e)) => H; first by rewrite lam_vertex0 // mulr0.
    exact: ltW (lam_vertex1 He Hi H).
  Qed.

  (** [P] is on the closed quadrilateral and not on two opposite edges. *)
  Definition placed P : Prop :=
    [/\ forall e, (e < 4)%N -> 0 <= s * lam e P, lam 0 P + lam 1 P != 0 & lam 2 P + lam 3 P != 0].
  Definition inside P : Prop := forall e, (e < 4)%N -> 0 < s * lam e P.

  Lemma s_neq0 : s != 0.
  Proof. by case: convex => [[->|->] _]; rewrite ?oppr_eq0 oner_eq0. Qed.
  Lemma sum_neq0 (x y : F) : 0 <= s * x -> 0 <= s * y -> (0 < s * x) || (0 < s * y) -> x + y != 0.
  Proof.
    move=> Hx Hy H. have : 0 < s * (x + y).
      by rewrite mulrDr; case/orP: H => H; [apply: ltr_paddr|apply: ltr_paddl].
    by move=> Hs; apply/eqP => E; move: Hs; rewrite E mulr0 ltxx.
  Qed.
  Lemma pos_neq0 (x : F) : 0 < s * x -> x != 0.
  Proof. by move=> H; apply/eqP => E; move: H; rewrite E mulr0 ltxx. Qed.

  Lemma inside_placed P : inside P -> placed P.
  Proof.
    move=> H; split; first by move=> e He; apply/ltW/H.
    - by apply: sum_neq0; rewrite ?H //; apply/ltW/H.
    - by apply: sum_neq0; rewrite ?H //; apply/ltW/H.
  Qed.
  Lemma vertex_placed i : (i < 4)%N -> placed (v i).
  Proof.
    move=> Hi; split; first by move=> e He; apply: lam_vertex_ge0.
    - apply: sum_neq0; [exact: lam_vertex_ge0|exact: lam_vertex_ge0|].
      by case: (edges4 Hi) => E; apply/orP; first [left; apply: lam_vertex1; rewrite ?E //; fail | right; apply: lam_vertex1; rewrite ?E].
    - apply: sum_neq0; [exact: lam_vertex_ge0|exact: lam_vertex_ge0|].
      by case: (edges4 Hi) => E; apply/orP; first [left; apply: lam_vertex1; rewrite ?E //; fail | right; apply: lam_vertex1; rewrite ?E].
  Qed.

  (** Points between the ends of an edge. *)
  Section EdgePoint.
    Variables (e : nat) (t : F).
    Hypothesis He : (e < 4)%N.
    Hypothesis t0 : 0 < t.
    Hypothesis t1 : t < 1.
    Let P := along (v (tail e)) (v (head e)) t.
    Lemma tail_lt : (tail e < 4)%N. Proof. by case: (edges4 He) => ->. Qed.
    Lemma head_lt : (head e < 4)%N. Proof. by case: (edges4 He) => ->. Qed.
    Lemma lam_edge0 : lam e P = 0.
    Proof.
      rewrite /P lam_along // !lam_vertex0 ?tail_lt ?head_lt //; rewrite ?mulr0 ?addr0 //; by rewrite /lies eqxx ?orbT.
    Qed.
    Lemma lam_edge1 f : (f < 4)%N -> f != e -> 0 < s * lam f P.
    Proof.
      move=> Hf Hfe. have u0 : 0 < 1 - t by rewrite subr_gt0.
      have Ht := tail_lt. have Hh := head_lt.
      rewrite /P lam_along // mulrDr !(mulrCA s).
      have [H|H] : ~~ lies (tail e) f \/ ~~ lies (head e) f.
        move: Hf Hfe. by case: (edges4 He) => ->; case: f => [|[|[|[|]]]] //= _ _; auto.
      - apply: ltr_paddr; first by apply: mulr_ge0; [exact: ltW|exact: lam_vertex_ge0].
        by apply: mulr_gt0 => //; exact: lam_vertex1.
      - apply: ltr_paddl; first by apply: mulr_ge0; [exact: ltW|exact: lam_vertex_ge0].
        by apply: mulr_gt0 => //; exact: lam_vertex1.
    Qed.
    Lemma edge_placed : placed P.
    Proof.
      have G f : (f < 4)%N -> 0 <= s * lam f P.
        move=> Hf; case: (altP (f =P e)) => [->|H]; first by rewrite lam_edge0 mulr0. exact/ltW/lam_edge1.
      split=> //; apply: sum_neq0; rewrite ?G //; apply/orP.
      - by case: (edges4 He) => E; first [left; apply: lam_edge1; rewrite ?E //; fail | right; apply: lam_edge1; rewrite ?E].
      - by case: (edges4 He) => E; first [left; apply: lam_edge1; rewrite ?E //; fail | right; apply: lam_edge1; rewrite ?E].
    Qed.
  End EdgePoint.
End Quad.
