(** The inner nodes and basis functions of the direct serendipity elements. *)
From Coq Require List.
From mathcomp Require Import all_ssreflect all_algebra.
From mathcomp Require Import zify ring.
From Verif Require Import Model.Prelude Model.Gem Model.Serendipity Spec.Partial Spec.Serendipity Proofs.Newton Proofs.SerendipityGeometry.
Set Implicit Arguments.
Unset Strict Implicit.
Unset Printing Implicit Defensive.
Import Order.TTheory GRing.Theory Num.Theory.
Local Open Scope ring_scope.

(** ** The lattice *)
Lemma rev_iota0 m : rev (iota 0 m.+1) = [seq (m - k)%N | k <- iota 0 m.+1].
Proof.
  apply: (@eq_from_nth _ 0%N) => [|i]; rewrite size_rev ?size_map // size_iota => Hi.
  rewrite nth_rev ?size_iota // (nth_map 0%N) ?size_iota // !nth_iota //; lia.
Qed.
Lemma listE_flat_map (A B : Type) (f : A -> seq B) l : List.flat_map f l = flatten (map f l).
Proof. by elim: l => //= a l ->. Qed.

Definition triples (r : nat) : seq (nat * nat * nat) :=
  [seq (r - 4 - n, n - k, k)%N | n <- iota 0 (r - 4).+1, k <- iota 0 n.+1].

Lemma latticeE r : lattice r = triples r.
Proof.
  rewrite /lattice listE_flat_map listE_rev listE_seq minusE plusE addn1 rev_iota0 -map_comp /triples.
  congr flatten. apply/eq_in_map => n. rewrite mem_iota => Hn.
  rewrite [LHS]listE_map listE_rev listE_seq ?minusE ?plusE addn1. have -> : (r - 4 - (r - 4 - n) = n)%N by lia.
  rewrite rev_iota0 -map_comp. apply/eq_in_map => k. rewrite mem_iota => Hk /=.
  congr (_, _, _); lia.
Qed.
Lemma mem_triples r t : (t \in triples r) = (t.1.1 + t.1.2 + t.2 == r - 4)%N.
Proof.
  case: t => [[i j] k] /=. apply/allpairsPdep/eqP.
  - move=> [n [k' [Hn Hk [-> -> ->]]]]. move: Hn Hk; rewrite !mem_iota. lia.
  - move=> H. exists (j + k)%N, k. rewrite !mem_iota. split; [lia|lia|]. congr (_, _, _); lia.
Qed.
Lemma uniq_triples r : uniq (triples r).
Proof.
  apply: allpairs_uniq_dep; first exact: iota_uniq.
    by move=> n _; exact: iota_uniq.
  move=> [n k] [n' k'] /allpairsPdep[n1 [k1 [H1 H2 [-> ->]]]] /allpairsPdep[n2 [k2 [H3 H4 [-> ->]]]] /=.
  move: H1 H2 H3 H4. rewrite !mem_iota => H1 H2 H3 H4 [E1 E2 E3]. subst k2. have -> // : n1 = n2 by lia.
Qed.

Section Inner.
  Variable F : realFieldType.
  Variable v : nat -> point F.
  Variable s : F.
  Hypothesis convex : turns v s.
  Variable r : nat.
  Local Notation O := (partial_ops F).
  Local Notation sv := (sv v).
  Implicit Types P : point F.

  Definition lat : seq (nat * nat * nat) := if (r < 4)%N then [::] else triples r.
  Definition inode (t : nat * nat * nat) : point F := if r == 4%N then mean v else lattice_point v r t.1.2.+1 t.2.+1.

  Lemma mem_lat t : t \in lat -> (4 <= r)%N /\ (t.1.1 + t.1.2 + t.2 = r - 4)%N.
  Proof. by rewrite /lat; case: ltnP => // H; rewrite mem_triples => /eqP. Qed.
  Lemma uniq_lat : uniq lat.
  Proof. by rewrite /lat; case: ltnP => // H; exact: uniq_triples. Qed.

  Lemma inner_points_lat : inner_points v r = map inode lat.
  Proof.
    rewrite /inner_points /lat. case: ltnP => // Hr. case: eqP => [E|Hne]; first by rewrite /inode E.
    rewrite /triples map_flatten -map_comp. have -> : (r - 3 = (r - 4).+1)%N by lia.
    congr flatten. apply: eq_map => n /=. congr (_ :: _).
      by rewrite /inode; case: eqP.
    rewrite -map_comp. apply: eq_map => k /=. by rewrite /inode; case: eqP.
  Qed.

  Lemma inode_inside t : t \in lat -> inside v s (inode t).
  Proof.
    move=> /mem_lat[Hr Ht]. rewrite /inode. case: eqP => [E|Hne].
    - move=> e He. have -> : s * lam v e (mean v) = (s * lam v e (v 0%N) + s * lam v e (v 1%N) + s * lam v e (v 2%N) + s * lam v e (v 3%N)) / 4%:R.
        by case: (edges4 He) => ->; rewrite /= /turn /mean /=; field.
      have G i : (i < 4)%N -> 0 <= s * lam v e (v i) by move=> Hi; exact: (lam_vertex_ge0 convex).
      apply: divr_gt0; last by rewrite ltr0n.
      case: (edges4 He) => E'; subst e.
      + apply: ltr_paddr; first exact: G. apply: ltr_paddl; last exact: (lam_vertex1 convex). by apply: addr_ge0; exact: G.
      + apply: ltr_paddr; first exact: G. apply: ltr_paddr; first exact: G. apply: ltr_paddl; first exact: G. exact: (lam_vertex1 convex).
      + apply: ltr_paddr; first exact: G. apply: ltr_paddr; first exact: G. apply: ltr_paddl; first exact: G. exact: (lam_vertex1 convex).
      + apply: ltr_paddr; first exact: G. apply: ltr_paddl; last exact: (lam_vertex1 convex). by apply: addr_ge0; exact: G.
    - move=> e He. set j := t.1.2 in Ht *. set k := t.2 in Ht *.
      have Hd : (r - 2)%:R != 0 :> F by apply: nat_neq0; lia.
      set al := j.+1%:R / (r - 2)%:R : F. set be := k.+1%:R / (r - 2)%:R : F.
      have -> : s * lam v e (lattice_point v r j.+1 k.+1) = (1 - al - be) * (s * lam v e (v 0%N)) + al * (s * lam v e (v 1%N)) + be * (s * lam v e (v 2%N)).
        by rewrite /lattice_point -/al -/be; case: (edges4 He) => ->; rewrite /= /turn /=; ring.
      have G i : (i < 4)%N -> 0 <= s * lam v e (v i) by move=> Hi; exact: (lam_vertex_ge0 convex).
      have Hal : 0 < al by rewrite divr_gt0 ?ltr0n //; lia.
      have Hbe : 0 < be by rewrite divr_gt0 ?ltr0n //; lia.
      have Hga : 0 <= 1 - al - be.
        have -> : 1 - al - be = ((r - 2)%:R - (j.+1%:R + k.+1%:R)) / (r - 2)%:R by rewrite /al /be; field.
        rewrite divr_ge0 ?ler0n // subr_ge0 -natrD ler_nat. lia.
      have G0 : 0 <= (1 - al - be) * (s * lam v e (v 0%N)) by apply: mulr_ge0 => //; exact: G.
      have G1 : 0 <= al * (s * lam v e (v 1%N)) by apply: mulr_ge0; [exact: ltW|exact: G].
      have G2 : 0 <= be * (s * lam v e (v 2%N)) by apply: mulr_ge0; [exact: ltW|exact: G].
      case: (edges4 He) => E; subst e.
      + apply: ltr_paddl; first exact: addr_ge0. apply: mulr_gt0 => //. exact: (lam_vertex1 convex).
      + apply: ltr_paddr => //. apply: ltr_paddl => //. apply: mulr_gt0 => //. exact: (lam_vertex1 convex).
      + apply: ltr_paddr => //. apply: ltr_paddl => //. apply: mulr_gt0 => //. exact: (lam_vertex1 convex).
      + apply: ltr_paddl; first exact: addr_ge0. apply: mulr_gt0 => //. exact: (lam_vertex1 convex).
  Qed.

  (** ** The model's nodes *)
  Lemma centre_some : centre O sv = somep (mean v).
  Proof.
    rewrite /centre !listE_map (@total_map _ _ _ (fun i => (v i).1)) // (@total_map _ _ _ (fun i => (v i).2)) // nm_some.
    have H4 : (4%:R : F) != 0 by apply: nat_neq0.
    rewrite !div_some // /somep /mean /= !big_cons !big_nil. congr (Some (_ / _), Some (_ / _)); ring.
  Qed.

  Section Lattice.
    Hypothesis r_gt4 : (4 < r)%N.
    Let d : F := (r - 4)%:R.
    Lemma r2E : (r - 2)%:R = d + 2%:R :> F. Proof. by rewrite /d -(natrD F _ 2); congr (_%:R); lia. Qed.
    Lemma r3E : (r - 3)%:R = d + 1 :> F. Proof. by rewrite /d -(natrD F _ 1); congr (_%:R); lia. Qed.
    Lemma d0 : d != 0. Proof. by apply: nat_neq0; lia. Qed.
    Lemma d2 : d + 2%:R != 0. Proof. by rewrite -r2E; apply: nat_neq0; lia. Qed.
    Let X1 : F := ((v 1%N).1 - (v 0%N).1) / (d + 2%:R).
    Let Y1 : F := ((v 1%N).2 - (v 0%N).2) / (d + 2%:R).
    Let X2 : F := ((v 2%N).1 - (v 0%N).1) / (d + 2%:R).
    Let Y2 : F := ((v 2%N).2 - (v 0%N).2) / (d + 2%:R).
    Lemma dx0_some : dx0 O sv r = somep (X1, Y1).
    Proof. by rewrite /dx0 /pdiv minusE nm_some r2E /psub /sv; cbn [fst snd somep]; rewrite !div_some ?d2. Qed.
    Lemma dx1_some : dx1 O sv r = somep (X2, Y2).
    Proof. by rewrite /dx1 /pdiv minusE nm_some r2E /psub /sv; cbn [fst snd somep]; rewrite !div_some ?d2. Qed.
    Lemma tv0_some : tv0 O sv r = somep ((v 0%N).1 + X1 + X2, (v 0%N).2 + Y1 + Y2).
    Proof. by rewrite /tv0 dx0_some dx1_some. Qed.
    Lemma tv1_some : tv1 O sv r = somep ((v 0%N).1 + (d + 1) * X1 + X2, (v 0%N).2 + (d + 1) * Y1 + Y2).
    Proof. by rewrite /tv1 dx0_some dx1_some minusE nm_some r3E. Qed.
    Lemma tv2_some : tv2 O sv r = somep ((v 0%N).1 + X1 + (d + 1) * X2, (v 0%N).2 + Y1 + (d + 1) * Y2).
    Proof. by rewrite /tv2 dx0_some dx1_some minusE nm_some r3E. Qed.

    Lemma lattice_node_some i j k : (i + j + k = r - 4)%N ->
      lattice_node O sv r (i, j, k) = somep (lattice_point v r j.+1 k.+1).
    Proof.
      move=> H. rewrite /lattice_node tv0_some tv1_some tv2_some !nm_some minusE /pdiv.
      have Ei : i%:R = d - j%:R - k%:R :> F by rewrite /d -H !natrD; ring.
      have Hd := d0. have Hd2 := d2. cbn [fst snd padd pscale somep fadd fmul partial_ops lift2]. rewrite !div_some //.
      rewrite /lattice_point /somep /= r2E Ei -/d /X1 /X2 /Y1 /Y2 -(add1n j) -(add1n k) !natrD.
      congr (Some _, Some _); field; exact/andP.
    Qed.

    (** Coordinates in the basis of the lattice. *)
    Let D : F := turn (v 0%N) (v 1%N) (v 2%N).
    Lemma D0 : D != 0.
    Proof.
      apply: (pos_neq0 (s := s)). exact: (lam_vertex1 convex (e := 0) (i := 2)).
    Qed.
    Definition bar (q : nat) P : F :=
      let b1 := ((d + 2%:R) * turn (v 0%N) P (v 2%N) / D - 1) / d in
      let b2 := ((d + 2%:R) * turn (v 0%N) (v 1%N) P / D - 1) / d in
      match q with 0%N => 1 - b1 - b2 | 1%N => b1 | _ => b2 end.

    Lemma bary_some q P : bary O sv r q (somep P) = Some (bar q P).
    Proof.
      have Hd := d0. have Hd2 := d2. have HD := D0.
      rewrite /bary tv0_some tv1_some tv2_some.
      cbn [fst snd padd psub pscale somep fadd fmul fsub fopp f1 partial_ops lift2 omap obind oapp].
      set y12 := (v 0%N).2 + (d + 1) * Y1 + Y2 - _. set x21 := (v 0%N).1 + X1 + (d + 1) * X2 - ((v 0%N).1 + (d + 1) * X1 + X2).
      set x02 := (v 0%N).1 + X1 + X2 - _. set y02 := (v 0%N).2 + Y1 + Y2 - _. set det := y12 * x02 + x21 * y02.
      have Edet : det = d ^+ 2 * D / (d + 2%:R) ^+ 2 by rewrite /det /y12 /x21 /x02 /y02 /D /turn /X1 /X2 /Y1 /Y2; field.
      have Hdet : det != 0 by rewrite Edet !mulf_neq0 ?invr_neq0 ?expf_neq0.
      rewrite !div_some //. cbn [lift2].
      rewrite Edet. case: q => [|[|q]]; rewrite /bar; congr Some; move: HD; rewrite /y12 /x21 /x02 /y02 /X1 /X2 /Y1 /Y2 /D /turn => HD; field; by apply/and3P; split.
    Qed.

    Lemma bar_lattice q i j k : (i + j + k = r - 4)%N ->
      d * bar q (lattice_point v r j.+1 k.+1) = (nth k [:: i; j] q)%:R.
    Proof.
      have Hd := d0. have Hd2 := d2. have HD := D0. move=> H.
      have Ei : i%:R = d - j%:R - k%:R :> F by rewrite /d -H !natrD; ring.
      have E1 : turn (v 0%N) (lattice_point v r j.+1 k.+1) (v 2%N) = j.+1%:R / (d + 2%:R) * D.
        by rewrite /D /turn /lattice_point r2E /=; field.
      have E2 : turn (v 0%N) (v 1%N) (lattice_point v r j.+1 k.+1) = k.+1%:R / (d + 2%:R) * D.
        by rewrite /D /turn /lattice_point r2E /=; field.
      rewrite /bar E1 E2. case: q => [|[|q]] /=; rewrite ?nth_nil ?Ei; rewrite -?(add1n j) -?(add1n k) ?natrD; field; rewrite ?Hd ?Hd2 ?HD //.
    Qed.

    (** Lagrange polynomials of the lattice. *)
    Definition comp (t : nat * nat * nat) (q : nat) : nat := nth t.2 [:: t.1.1; t.1.2] q.
    Definition lagF (t : nat * nat * nat) P : F :=
      \prod_(q < 3) \prod_(p < comp t q) ((d * bar q P - p%:R) / ((comp t q)%:R - p%:R)).

    Lemma foldl_prod (f : nat -> option F) (g : nat -> F) l c :
      (forall p, p \in l -> f p = Some (g p)) ->
      foldl (fun cur p => fmul O cur (f p)) (Some c) l = Some (c * \prod_(p <- l) g p).
    Proof.
      elim: l c => [|p l IH] c H /=; first by rewrite big_nil mulr1.
      rewrite (H p) ?mem_head //= IH ?big_cons ?mulrA // => p' Hp'. by apply: H; rewrite inE Hp' orbT.
    Qed.

    Lemma lag_some t P : lag O sv r t (somep P) = Some (lagF t P).
    Proof.
      case: t => [[i j] k]. rewrite /lag.
      have G q c : (q < 3)%N -> List.fold_left (fun cur p => fmul O cur (fdiv O (fsub O (fmul O (nm O (r - 4)%coq_nat) (bary O sv r q (somep P))) (nm O p)) (fsub O (nm O (List.nth q [:: i; j; k] 0%N)) (nm O p)))) (List.seq 0 (List.nth q [:: i; j; k] 0%N)) (Some c)
        = Some (c * \prod_(p < comp (i, j, k) q) ((d * bar q P - p%:R) / ((comp (i, j, k) q)%:R - p%:R))).
        move=> Hq. rewrite listE_fold_left listE_seq listE_nth.
        have -> : nth 0%N [:: i; j; k] q = comp (i, j, k) q by case: q Hq => [|[|[|]]].
        set n := comp _ _. rewrite (@foldl_prod _ (fun p => (d * bar q P - p%:R) / (n%:R - p%:R))).
          congr (Some (_ * _)). by rewrite -{1}[n]subn0 -/(index_iota 0 n) big_mkord.
        move=> p. rewrite mem_iota => Hp. rewrite bary_some minusE !nm_some. cbn [fmul fsub partial_ops lift2].
        rewrite div_some // subr_eq0 eqr_nat. lia.
      cbn [List.fold_left List.seq]. rewrite -[f1 O]/(Some (1 : F)) !G // /lagF !big_ord_recl [X in _ * (_ * (_ * X))]big_ord0 mul1r mulr1 -mulrA. by [].
    Qed.

    Lemma lagF_node t t' : (t.1.1 + t.1.2 + t.2 = r - 4)%N -> (t'.1.1 + t'.1.2 + t'.2 = r - 4)%N ->
      lagF t (lattice_point v r t'.1.2.+1 t'.2.+1) = (t == t')%:R.
    Proof.
      move=> H H'.
      have E : lagF t (lattice_point v r t'.1.2.+1 t'.2.+1)
                 = \prod_(q < 3) \prod_(p < comp t q) (((comp t' q)%:R - p%:R) / ((comp t q)%:R - p%:R)).
        rewrite /lagF. apply: eq_bigr => q' _; apply: eq_bigr => p _. by rewrite (bar_lattice _ H').
      rewrite E. case: eqP => [->|Hne].
      - apply: big1 => q _. apply: big1 => p _. rewrite divff // subr_eq0 eqr_nat. by have := ltn_ord p; lia.
      - have [q Hq] : exists q : 'I_3, (comp t' q < comp t q)%N.
          case: t t' H H' Hne {E} => [[i j] k] [[i' j'] k'] /= H H' Hne.
          case: (ltnP i' i) => Hi; first by exists (inord 0); rewrite inordK.
          case: (ltnP j' j) => Hj; first by exists (inord 1); rewrite inordK.
          case: (ltnP k' k) => Hk; first by exists (inord 2); rewrite inordK.
          exfalso. apply: Hne. congr (_, _, _); lia.
        by rewrite (bigD1 q) //= (bigD1 (Ordinal Hq)) //= subrr !mul0r.
    Qed.
  End Lattice.

  (** ** The inner basis functions *)
  Definition bub P : F := lam v 0 P * lam v 1 P * lam v 2 P * lam v 3 P.
  Lemma bubble_some P : bubble O sv (somep P) = Some (bub P).
  Proof. by rewrite /bubble !lams_some. Qed.
  Lemma bub_inside P : inside v s P -> bub P != 0.
  Proof. by move=> H; rewrite /bub !mulf_neq0 //; apply: (pos_neq0 (s := s)); exact: H. Qed.
  Lemma bub_edge e P : (e < 4)%N -> lam v e P = 0 -> bub P = 0.
  Proof. by move=> He; case: (edges4 He) => -> E; rewrite /bub E ?mulr0 ?mul0r. Qed.

  Definition lagF' (t : nat * nat * nat) P : F := if r == 4%N then 1 else lagF t P.
  Definition ibf t P : F := lagF' t P * bub P / (lagF' t (inode t) * bub (inode t)).
  Definition imod t : pt -> option F :=
    if r == 4%N then fun x => fdiv O (bubble O sv x) (bubble O sv (centre O sv))
    else fun x => fdiv O (fmul O (lag O sv r t x) (bubble O sv x)) (fmul O (lag O sv r t (lattice_node O sv r t)) (bubble O sv (lattice_node O sv r t))).

  Lemma internal_nodesE : internal_nodes O sv r = map (@somep F) (map inode lat).
  Proof.
    rewrite /internal_nodes /lat. case: PeanoNat.Nat.ltb_spec => [/ssrnat.ltP ->//|/ssrnat.leP Hr]. rewrite ltnNge Hr /=.
    case: PeanoNat.Nat.eqb_spec => [E|Hne]; first by rewrite E centre_some /inode E.
    rewrite listE_map latticeE -map_comp. apply/eq_in_map => t. rewrite mem_triples => /eqP H.
    case: t H => [[i j] k] H. rewrite lattice_node_some //; last lia. rewrite /= /inode; case: eqP => //.
  Qed.
  Lemma internal_bfsE : internal_bfs O sv r = map imod lat.
  Proof.
    rewrite /internal_bfs /lat. case: PeanoNat.Nat.ltb_spec => [/ssrnat.ltP ->//|/ssrnat.leP Hr]. rewrite ltnNge Hr.
    case: PeanoNat.Nat.eqb_spec => [E|Hne]; first by rewrite /imod E.
    rewrite listE_map latticeE. apply: eq_map => t. by rewrite /imod; case: (r =P 4%N).
  Qed.
  Lemma lagF'_node t t' : t \in lat -> t' \in lat -> lagF' t (inode t') = (t == t')%:R.
  Proof.
    move=> Ht Ht'. have [Hr H] := mem_lat Ht. have [_ H'] := mem_lat Ht'. rewrite /lagF' /inode. case: (r =P 4%N) => E.
      case: t t' H H' {Ht Ht'} => [[i j] k] [[i' j'] k'] /=. rewrite E => H H'.
      have -> : (i, j, k) = (i', j', k') by congr (_, _, _); lia. by rewrite eqxx.
    apply: lagF_node => //. lia.
  Qed.
  Lemma imod_some t P : t \in lat -> imod t (somep P) = Some (ibf t P).
  Proof.
    move=> Ht. have [Hr H] := mem_lat Ht. have Hb := bub_inside (inode_inside Ht). have Hl := lagF'_node Ht Ht.
    rewrite eqxx in Hl. rewrite /ibf Hl /imod /lagF'. move: Hb. rewrite /inode. case: (r =P 4%N) => E Hb.
      by rewrite centre_some !bubble_some div_some // !mul1r.
    have r4 : (4 < r)%N by lia. move: Hl; rewrite /lagF' /inode; case: (r =P 4%N) => // _ Hl.
    have -> : lattice_node O sv r t = somep (lattice_point v r t.1.2.+1 t.2.+1).
      case: t H {Ht Hb Hl} => [[i j] k] H. by rewrite lattice_node_some.
    rewrite !lag_some // !bubble_some Hl. cbn [fmul partial_ops lift2]. by rewrite mul1r div_some.
  Qed.
  Lemma ibf_node t t' : t \in lat -> t' \in lat -> ibf t (inode t') = (t == t')%:R.
  Proof.
    move=> Ht Ht'. rewrite /ibf !lagF'_node // eqxx mul1r. case: eqP => [->|_]; last by rewrite !mul0r.
    by rewrite mul1r divff // (bub_inside (inode_inside Ht')).
  Qed.
  Lemma ibf_boundary t P : bub P = 0 -> ibf t P = 0.
  Proof. by move=> H; rewrite /ibf H mulr0 mul0r. Qed.

  (** ** Vanishing at the inner nodes *)
  Lemma zip_map (T A B : Type) (f : T -> A) (g : T -> B) l : Prelude.zip (map f l) (map g l) = map (fun t => (f t, g t)) l.
  Proof. by elim: l => //= t l ->. Qed.

  Variable f : option F * option F -> option F.
  Variable g : nat * nat * nat -> F.
  Hypothesis fg : forall t, t \in lat -> f (somep (inode t)) = Some (g t).
  Lemma nodalize_some P y : f (somep P) = Some y ->
    nodalize O sv r f (somep P) = Some (y - \sum_(t <- lat) g t * ibf t P).
  Proof.
    move=> Hf. rewrite /nodalize internal_nodesE internal_bfsE -map_comp zip_map listE_map -map_comp.
    rewrite (@total_map _ _ _ (fun t => g t * ibf t P)); first by rewrite Hf.
    move=> t Ht /=. by rewrite fg // imod_some.
  Qed.
  Lemma nodalize_boundary P y : f (somep P) = Some y -> bub P = 0 -> nodalize O sv r f (somep P) = Some y.
  Proof.
    move=> Hf Hb. rewrite (nodalize_some Hf) big1 ?subr0 // => t _. by rewrite ibf_boundary // mulr0.
  Qed.
  Lemma nodalize_inner t : t \in lat -> nodalize O sv r f (somep (inode t)) = Some 0.
  Proof.
    move=> Ht. rewrite (nodalize_some (fg Ht)) (bigD1_seq t) ?uniq_lat //= ibf_node // eqxx mulr1.
    rewrite big_seq_cond big1 ?addr0 ?subrr // => t' /andP[Ht' Hne]. by rewrite ibf_node // (negbTE Hne) mulr0.
  Qed.
End Inner.
