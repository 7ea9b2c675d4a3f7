(** Values of the direct serendipity functions on the whole quadrilateral, and on
    its edges. *)
From Coq Require List.
From mathcomp Require Import all_ssreflect all_algebra.
From mathcomp Require Import zify ring.
From Verif Require Import Model.Prelude Model.Gem Model.Serendipity Spec.Partial Spec.Serendipity Proofs.Newton Proofs.SerendipityGeometry Proofs.SerendipityInner Proofs.SerendipityEdges Proofs.SerendipityNodal Proofs.SerendipityRegular.
Set Implicit Arguments.
Unset Strict Implicit.
Unset Printing Implicit Defensive.
Import Order.TTheory GRing.Theory Num.Theory.
Local Open Scope ring_scope.

Section Trace.
  Variable F : realFieldType.
  Variable v : nat -> point F.
  Variable s : F.
  Hypothesis convex : turns v s.
  Variable r : nat.
  Hypothesis r_ge2 : (2 <= r)%N.
  Hypothesis regular : forall e, (e < 4)%N -> edge_regular v r e.
  Local Notation O := (partial_ops F).
  Local Notation sv := (sv v).
  Local Notation lam := (lam v).
  Local Notation a0 := adjacent0.
  Local Notation a1 := adjacent1.
  Local Notation op := opposite_edge.
  Local Notation enode := (edge_point v r).
  Local Notation lat := (lat r).
  Local Notation emod := (emod v r).
  Local Notation pt_on := (pt_on v).
  Implicit Types P : point F.

  Definition ev (f : option F * option F -> option F) P : F := odflt 0 (f (somep P)).

  (** ** Points of the quadrilateral *)
  Lemma in_quad_placed P : in_quad v P -> placed v s P.
  Proof.
    move=> [w0 [w1 [w2 [w3 [[g0 g1 g2 g3] [E1 Ex Ey]]]]]].
    have L e : (e < 4)%N -> s * lam e P = w0 * (s * lam e (v 0%N)) + w1 * (s * lam e (v 1%N)) + w2 * (s * lam e (v 2%N)) + w3 * (s * lam e (v 3%N)).
      move=> He. have E0 : w0 = 1 - w1 - w2 - w3 by rewrite -E1; ring.
      by case: (edges4 He) => ->; rewrite /= /turn Ex Ey E0; ring.
    have G e : (e < 4)%N -> 0 <= s * lam e P.
      by move=> He; rewrite L // !addr_ge0 // mulr_ge0 // (lam_vertex_ge0 convex).
    have S (x y : nat) : (x < 4)%N -> (y < 4)%N -> (forall i, (i < 4)%N -> 0 < s * lam x (v i) + s * lam y (v i)) -> lam x P + lam y P != 0.
      move=> Hx Hy Hp. apply: (pos_neq0 (s := s)). rewrite mulrDr !L //.
      have -> : forall a b c d a' b' c' d' : F, w0 * a + w1 * b + w2 * c + w3 * d + (w0 * a' + w1 * b' + w2 * c' + w3 * d')
         = w0 * (a + a') + w1 * (b + b') + w2 * (c + c') + w3 * (d + d') by move=> *; ring.
      have [m m0 Hm] : exists2 m, 0 < m & forall i, (i < 4)%N -> m <= s * lam x (v i) + s * lam y (v i).
        pose h i := s * lam x (v i) + s * lam y (v i).
        exists (Num.min (Num.min (h 0%N) (h 1%N)) (Num.min (h 2%N) (h 3%N))).
          by rewrite !lt_minr !Hp.
        by move=> i Hi; case: (edges4 Hi) => ->; rewrite !le_minl lexx ?orbT.
      apply: (lt_le_trans m0). have -> : m = w0 * m + w1 * m + w2 * m + w3 * m by rewrite -!mulrDl E1 mul1r.
      by rewrite !ler_add // ler_wpmul2l // Hm.
    split=> //; apply: S => // i Hi.
    - case: (edges4 Hi) => ->; first [apply: ltr_paddl; [exact: (lam_vertex_ge0 convex)|exact: (lam_vertex1 convex)] | apply: ltr_paddr; [exact: (lam_vertex_ge0 convex)|exact: (lam_vertex1 convex)]].
    - case: (edges4 Hi) => ->; first [apply: ltr_paddl; [exact: (lam_vertex_ge0 convex)|exact: (lam_vertex1 convex)] | apply: ltr_paddr; [exact: (lam_vertex_ge0 convex)|exact: (lam_vertex1 convex)]].
  Qed.
  Lemma pt_on_placed e t : (e < 4)%N -> 0 <= t <= 1 -> placed v s (pt_on e t).
  Proof.
    move=> He /andP[t0 t1]. apply: in_quad_placed.
    pose w i : F := if i == tail e then 1 - t else if i == head e then t else 0.
    exists (w 0%N), (w 1%N), (w 2%N), (w 3%N). rewrite /w /SerendipityRegular.pt_on /along /tail /head.
    have u0 : 0 <= 1 - t by rewrite subr_ge0.
    by case: (edges4 He) => -> /=; split; split=> //; ring.
  Qed.
  Lemma lam_on e t : (e < 4)%N -> lam e (pt_on e t) = 0.
  Proof. by move=> He; exact: lam_edge0. Qed.

  (** ** Edge functions *)
  Lemma edge_prebf_placed e i P : (3 <= r)%N -> (e < 4)%N -> (0 < i < r)%N -> placed v s P ->
    edge_prebf O sv r e i.-1 (somep P) = Some (ev (edge_prebf O sv r e i.-1) P).
  Proof.
    move=> r3 He Hi HP. have [[L0 L1 L2] _ _ _] := edge_facts He. have [p [_ _ Ep]] := edge_p_some convex r_ge2 r3 He Hi.
    rewrite /ev /edge_prebf Ep !lams_some // (tunnel_some He HP) (Rs_some He HP) pw_some //.
  Qed.
  Lemma edge_prebf_form e i : (3 <= r)%N -> (e < 4)%N -> (0 < i < r)%N -> exists2 p : {poly F}, (size p <= r - 2)%N &
    forall P, placed v s P -> ev (edge_prebf O sv r e i.-1) P =
      lam (a0 e) P * lam (a1 e) P * (lam (op e) P * p.[par v e P] + tun v e P ^+ (r - 2) * rs v e P).
  Proof.
    move=> r3 He Hi. have [[L0 L1 L2] _ _ _] := edge_facts He. have [p [Sp _ Ep]] := edge_p_some convex r_ge2 r3 He Hi.
    exists p => // P HP. by rewrite /ev /edge_prebf Ep !lams_some // (tunnel_some He HP) (Rs_some He HP) pw_some minusE.
  Qed.

  (** Dividing after nodalize, at any point. *)
  Lemma nodalize_placed (f : option F * option F -> option F) P :
    (forall Q, placed v s Q -> f (somep Q) = Some (ev f Q)) -> placed v s P ->
    nodalize O sv r f (somep P) = Some (ev f P - \sum_(t <- lat) ev f (inode v r t) * ibf v r t P).
  Proof.
    move=> Hf HP. apply: (nodalize_some convex); last exact: Hf.
    move=> t Ht. apply: Hf. exact: inside_placed (inode_inside convex Ht).
  Qed.

  Lemma emod_form e i : (e < 4)%N -> (0 < i < r)%N -> exists (h : point F -> F) (c : F) (w : nat * nat * nat -> F),
    [/\ forall P, placed v s P -> emod e i (somep P) = Some ((h P - \sum_(t <- lat) w t * ibf v r t P) / c),
        forall P f, placed v s P -> (f < 4)%N -> f != e -> lam f P = 0 -> h P = 0
      & r = 2%N \/ parallelogram v -> exists2 p : {poly F}, (size p <= r.+1)%N & forall t, 0 <= t <= 1 -> h (pt_on e t) = p.[t]].
  Proof.
    move=> He Hi. have [[L0 L1 L2] [N0 N1 N2] [M0 M1 M2] Hall] := edge_facts He.
    have Gi : good r (E e i) by rewrite /= He Hi.
    have pos0 := enode1' convex r_ge2 He L0 Hi N0. have pos1 := enode1' convex r_ge2 He L1 Hi N1.
    have lam0E t : lam (a0 e) (pt_on e t) = (s * al v s e) * t by rewrite -mulrA -a0_on // mulrA (s_sq convex) mul1r.
    have lam1E t : lam (a1 e) (pt_on e t) = (s * be v s e) * (1 - t) by rewrite -mulrA -a1_on // mulrA (s_sq convex) mul1r.
    have lam2E t : lam (op e) (pt_on e t) = (s * opA v s e) * (1 - t) + (s * opB v s e) * t.
      have -> : s * opA v s e * (1 - t) + s * opB v s e * t = s * (opA v s e * (1 - t) + opB v s e * t) by ring.
      by rewrite -op_on // mulrA (s_sq convex) mul1r.
    pose P0 : {poly F} := (s * al v s e) *: 'X. pose P1 : {poly F} := (s * be v s e) *: (1 - 'X).
    have S01 : (size (P0 * P1)%R <= 3)%N.
      apply: leq_trans (size_mul_leq _ _) _. have A0 : (size P0 <= 2)%N by apply: leq_trans (size_scale_leq _ _) _; rewrite size_polyX.
      have A1 : (size P1 <= 2)%N by apply: leq_trans (size_scale_leq _ _) _; rewrite -opprB size_opp size_XsubC.
      by move: A0 A1; move: (size P0) (size P1) => z0 z1; clear; lia.
    have H01 t : (P0 * P1).[t] = lam (a0 e) (pt_on e t) * lam (a1 e) (pt_on e t) by rewrite lam0E lam1E hornerM !hornerZ !hornerE.
    rewrite /SerendipityNodal.emod. case: eqP => [Er|Hr].
    - exists (fun P => lam (a0 e) P * lam (a1 e) P * rs v e P), (lam (a0 e) (enode e i) * lam (a1 e) (enode e i)), (fun=> 0). split.
      + move=> P HP. have Ei : i = 1%N by move: Hi; rewrite Er; lia.
        pose f := (fun x => fmul O (fmul O (lams O sv (a0 e) x) (lams O sv (a1 e) x)) (Rs O sv e x)).
        have Hf Q : placed v s Q -> f (somep Q) = Some (lam (a0 e) Q * lam (a1 e) Q * rs v e Q).
          move=> HQ. rewrite /f !lams_some // (Rs_some He HQ) //.
        have Hx : xstars O sv e = somep (enode e 1) by rewrite xstars_some // /edge_point Er mul1r.
        rewrite -[edge_bf2 _ _ _ _ _]/(fdiv O (nodalize O sv r f (somep P)) (f (xstars O sv e))) Hx. rewrite (nodalize_placed _ HP); last by move=> Q HQ; rewrite /ev Hf.
        rewrite [f (somep (enode e 1))]Hf; last by rewrite -Ei; exact: (good_placed convex r_ge2 Gi).
        rewrite (rs_own He (enode_placed convex r_ge2 He (_ : (0 < 1 < r)%N))); [|by rewrite Er|exact: enode0].
        rewrite mulr1 div_some -?Ei ?mulf_neq0 // /ev Hf //. congr (Some ((_ - _) / _)).
        by rewrite /SerendipityInner.lat Er /= !big_nil.
      + move=> P f HP Hf Hfe Ef. have := Hall f Hf. rewrite (negbTE Hfe) /= => /or3P[] /eqP E0.
        * by rewrite rs_opposite ?mulr0 // -E0.
        * by rewrite -E0 Ef !mul0r.
        * by rewrite -E0 Ef mulr0 mul0r.
      + move=> _. exists (P0 * P1); first by rewrite Er.
        move=> t Ht. rewrite H01 (rs_own He (pt_on_placed He Ht)) ?mulr1 //. exact: lam_on.
    - have r3 : (3 <= r)%N by lia. have [p Sp Ep] := edge_prebf_form r3 He Hi.
      exists (ev (edge_prebf O sv r e i.-1)), (ev (edge_prebf O sv r e i.-1) (enode e i)), (fun t => ev (edge_prebf O sv r e i.-1) (inode v r t)).
      split.
      + move=> P HP.
        have Hnode : edge_node O sv r e i.-1 = somep (enode e i).
          rewrite /edge_node edge_nodesE // listE_nth (nth_map (0, 0)) ?size_map ?size_iota; last lia.
          rewrite (nth_map 0%N) ?size_iota; last lia. rewrite nth_iota; last lia. have -> : (1 + i.-1 = i)%N by lia. by [].
        have Hf := edge_prebf_placed r3 He Hi. have Hn := enode_placed convex r_ge2 He Hi.
        rewrite /edge_bf Hnode !(nodalize_placed (Hf)) //. rewrite [in X in fdiv _ _ X]big1 ?subr0; last first.
          by move=> t _; rewrite ibf_boundary ?mulr0 // bub_enode.
        rewrite div_some // Ep //.
        (* the normaliser *)
        have := emod_nodal convex r_ge2 regular He Hi Gi. rewrite /SerendipityNodal.emod. move/eqP/negbTE: Hr => ->.
        rewrite /edge_bf Hnode !(nodalize_placed (Hf)) //. rewrite big1 ?subr0; last first.
          by move=> t _; rewrite ibf_boundary ?mulr0 // bub_enode.
        rewrite -Ep //. by rewrite /=; case: ifP => //= /negbT.
      + move=> P f HP Hf Hfe Ef. rewrite Ep //. have := Hall f Hf. rewrite (negbTE Hfe) /= => /or3P[] /eqP E0.
        * by rewrite rs_opposite -?E0 // Ef mul0r mulr0 addr0 mulr0.
        * by rewrite -E0 Ef !mul0r.
        * by rewrite -E0 Ef mulr0 mul0r.
      + case=> // Hp. pose P2 : {poly F} := (s * opA v s e) *: (1 - 'X) + (s * opB v s e) *: 'X.
        have S2 : (size P2 <= 2)%N.
          apply: leq_trans (size_add _ _) _. rewrite geq_max. apply/andP; split; apply: leq_trans (size_scale_leq _ _) _.
            by rewrite -opprB size_opp size_XsubC. by rewrite size_polyX.
        pose P3 : {poly F} := (2%:R *: 'X - 1) ^+ (r - 2).
        have S3 : (size P3 <= r - 1)%N.
          have := size_exp (2%:R *: 'X - 1 : {poly F}) (r - 2).
          have : (size (2%:R *: 'X - 1 : {poly F})%R <= 2)%N.
            apply: leq_trans (size_add _ _) _. rewrite geq_max size_opp size_poly1 andbT. apply: leq_trans (size_scale_leq _ _) _. by rewrite size_polyX.
          rewrite -/P3. set X2 := (_ - 1)%R. move: (size X2) (size P3) => z z'. case: z => [|[|[|z]]] //; clear -r3; rewrite /=; lia.
        exists (P0 * P1 * (P2 * p + P3)).
          apply: leq_trans (size_mul_leq _ _) _.
          have S4 : (size (P2 * p + P3)%R <= r - 1)%N.
            apply: leq_trans (size_add _ _) _. rewrite geq_max S3 andbT. apply: leq_trans (size_mul_leq _ _) _.
            move: S2 Sp. move: (size P2) (size p) => z z'. clear -r3; lia.
          move: S4 S01. move: (size (P0 * P1)) (size (P2 * p + P3)) => z z'. clear -r3; lia.
        move=> t Ht. have HP := pt_on_placed He Ht.
        rewrite Ep // (rs_own He HP) ?lam_on // mulr1 hornerM H01 hornerD hornerM horner_exp.
        rewrite (tun_par convex _ Hp He) [par _ _ _](par_along convex) // lam2E. congr (_ * (_ * _ + _)); by rewrite !hornerE.
  Qed.

  Lemma emod_defined e i P : (e < 4)%N -> (0 < i < r)%N -> placed v s P -> emod e i (somep P) = Some (ev (emod e i) P).
  Proof. by move=> He Hi HP; have [h [c [w [H _ _]]]] := emod_form He Hi; rewrite /ev H. Qed.
  Lemma emod_vanish e i P f : (e < 4)%N -> (0 < i < r)%N -> placed v s P -> (f < 4)%N -> f != e -> lam f P = 0 -> ev (emod e i) P = 0.
  Proof.
    move=> He Hi HP Hf Hfe Ef. have [h [c [w [H H0 _]]]] := emod_form He Hi. rewrite /ev H //= (H0 P f) //.
    rewrite big1 ?subr0 ?mul0r // => t _. rewrite ibf_boundary ?mulr0 //. exact: (bub_edge Hf).
  Qed.
  Lemma emod_trace e i : (e < 4)%N -> (0 < i < r)%N -> r = 2%N \/ parallelogram v ->
    exists2 p : {poly F}, (size p <= r.+1)%N & forall t, 0 <= t <= 1 -> ev (emod e i) (pt_on e t) = p.[t].
  Proof.
    move=> He Hi Hr. have [h [c [w [H _ H2]]]] := emod_form He Hi. have [p Sp Ep] := H2 Hr.
    exists (c^-1 *: p); first exact: leq_trans (size_scale_leq _ _) Sp.
    move=> t Ht. have HP := pt_on_placed He Ht. rewrite /ev H //= hornerZ -Ep // big1 ?subr0; first by rewrite mulrC.
    move=> t' _. rewrite ibf_boundary ?mulr0 //. apply: (bub_edge He). exact: lam_on.
  Qed.

  (** ** Vertex functions *)
  Lemma adj_lt i e : (i < 4)%N -> e \in adj i -> (e < 4)%N.
  Proof. by move=> Hi; case: (edges4 Hi) => -> /=; rewrite !inE => /orP[] /eqP ->. Qed.
  Lemma off_lt i : (i < 4)%N -> (off0 i < 4)%N /\ (off1 i < 4)%N.
  Proof. by move=> Hi; case: (edges4 Hi) => ->. Qed.
  Definition vsum i P : F := vpre v i P - \sum_(e <- adj i) \sum_(k <- iota 1 (r - 1)) vpre v i (enode e k) * ev (emod e k) P.
  Lemma vertex_prebf_placed i P : (i < 4)%N -> placed v s P -> vertex_prebf O sv r i (somep P) = Some (vsum i P).
  Proof.
    move=> Hi HP. have A4 e : e \in adj i -> (e < 4)%N by exact: adj_lt.
    have [B0 B1] := off_lt Hi.
    have E1 : List.nth 0 (vertex_off_edges i) 0%N = off0 i by case: (edges4 Hi) => ->.
    have E2 : List.nth 1 (vertex_off_edges i) 0%N = off1 i by case: (edges4 Hi) => ->.
    have E3 : vertex_adj_edges i = adj i by case: (edges4 Hi) => ->.
    rewrite /vertex_prebf E1 E2 E3 listE_fold_left /vsum.
    rewrite !lams_some // -[fmul O (Some _) _]/(Some (vpre v i P)).
    elim: (adj i) (vpre v i P) A4 => [|e l IH] c A4; first by rewrite /= big_nil subr0.
    have He : (e < 4)%N by apply: A4; rewrite mem_head.
    rewrite big_cons /= listE_fold_left edge_nodesE //; rewrite edge_bfsE /edge_points -map_comp zip_map2.
    have -> : forall l' c', all (fun k => 0 < k < r)%N l' ->
      foldl (fun prebf nb => fsub O prebf (fmul O (fmul O (lams O sv (off0 i) nb.1) (lams O sv (off1 i) nb.1)) (nb.2 (somep P))))
        (Some c') [seq (((@somep F) \o enode e) t, emod e t) | t <- l'] = Some (c' - \sum_(k <- l') vpre v i (enode e k) * ev (emod e k) P).
      elim=> [|k l' IH'] c'; first by rewrite /= big_nil subr0.
      move=> /andP[Hk Hl']. rewrite map_cons. cbn [foldl fst snd]. rewrite (lams_some v (e := off0 i)) // (lams_some v (e := off1 i)) // emod_defined // big_cons.
      rewrite [fsub O _ _]/= -/(vpre v i _) IH' //. by rewrite opprD addrA.
    - rewrite IH ?opprD ?addrA // => f Hf. apply: A4. by rewrite inE Hf orbT.
    - apply/allP => k. rewrite mem_iota. lia.
  Qed.
  Lemma vsum_own i : (i < 4)%N -> vsum i (v i) = vpre v i (v i).
  Proof.
    move=> Hi. have := vertex_prebf_placed Hi (vertex_placed convex Hi).
    have Gi : good r (V i) by [].
    rewrite -[v i]/(place v r (V i)) (vertex_prebf_some convex r_ge2 regular Hi Gi) => -[<-].
    rewrite big1 ?subr0 // => e _. rewrite big1 // => k _. by rewrite mulr0.
  Qed.
  Local Notation vbf i := (vertex_bf O sv r i).
  Lemma vertex_form i P : (i < 4)%N -> placed v s P ->
    vbf i (somep P) = Some ((vsum i P - \sum_(t <- lat) vsum i (inode v r t) * ibf v r t P) / vpre v i (v i)).
  Proof.
    move=> Hi HP. rewrite /vertex_bf. rewrite (vertex_prebf_placed Hi (vertex_placed convex Hi)) vsum_own //.
    rewrite (nodalize_some convex (g := fun t => vsum i (inode v r t)) _ (vertex_prebf_placed Hi HP)); last first.
      move=> t Ht. apply: vertex_prebf_placed => //. exact: inside_placed (inode_inside convex Ht).
    by rewrite div_some // (vpre_own convex).
  Qed.
  Lemma vertex_defined i P : (i < 4)%N -> placed v s P -> vbf i (somep P) = Some (ev (vbf i) P).
  Proof. by move=> Hi HP; rewrite /ev vertex_form. Qed.
  Lemma vertex_boundary i e P : (i < 4)%N -> placed v s P -> (e < 4)%N -> lam e P = 0 -> ev (vbf i) P = vsum i P / vpre v i (v i).
  Proof.
    move=> Hi HP He E0. rewrite /ev vertex_form //= big1 ?subr0 // => t _. by rewrite ibf_boundary ?mulr0 //; exact: (bub_edge He).
  Qed.
  Lemma vertex_vanish i P e : (i < 4)%N -> placed v s P -> (e < 4)%N -> e \notin adj i -> lam e P = 0 -> ev (vbf i) P = 0.
  Proof.
    move=> Hi HP He Ha E0. rewrite (vertex_boundary Hi HP He E0) /vsum.
    have -> : vpre v i P = 0.
      rewrite /vpre. have : (e == off0 i) || (e == off1 i) by move: Ha; case: (edges4 Hi) => ->; case: (edges4 He) => ->.
      by case/orP => /eqP <-; rewrite E0 ?mul0r ?mulr0.
    rewrite big_seq big1 ?subr0 ?mul0r // => f Hf. rewrite big_seq big1 // => k. rewrite mem_iota => Hk.
    rewrite (emod_vanish (f := e)) ?mulr0 //; [exact: adj_lt Hf|lia|]. by apply/eqP => Ee; rewrite Ee Hf in Ha.
  Qed.
  Lemma vertex_trace i e : (i < 4)%N -> (e < 4)%N -> e \in adj i -> r = 2%N \/ parallelogram v ->
    exists2 p : {poly F}, (size p <= r.+1)%N & forall t, 0 <= t <= 1 -> ev (vbf i) (pt_on e t) = p.[t].
  Proof.
    move=> Hi He Ha Hr. have [B0 B1] := off_lt Hi.
    have [q Hq] : exists q : nat -> {poly F}, forall k, (0 < k < r)%N -> (size (q k) <= r.+1)%N /\ forall t, 0 <= t <= 1 -> ev (emod e k) (pt_on e t) = (q k).[t].
      have H n : exists q : nat -> {poly F}, forall k, (0 < k < r)%N -> (k < n)%N -> (size (q k) <= r.+1)%N /\ forall t, 0 <= t <= 1 -> ev (emod e k) (pt_on e t) = (q k).[t].
        elim: n => [|n [q Hq]]; first by exists (fun=> 0).
        case: (boolP (0 < n < r)%N) => Hn.
          have [p Sp Ep] := emod_trace He Hn Hr. exists (fun k => if k == n then p else q k) => k Hk Hkn.
          case: eqP => [->//|Hne]. apply: Hq => //. lia.
        exists q => k Hk Hkn. apply: Hq => //. have : k != n by apply: contra Hn => /eqP <-. lia.
      have [q Hq] := H r. exists q => k Hk. apply: Hq => //. lia.
    pose L f : {poly F} := lam f (v (tail e)) *: (1 - 'X) + lam f (v (head e)) *: 'X.
    have SL f : (size (L f) <= 2)%N.
      apply: leq_trans (size_add _ _) _. rewrite geq_max. apply/andP; split; apply: leq_trans (size_scale_leq _ _) _.
        by rewrite -opprB size_opp size_XsubC. by rewrite size_polyX.
    have HL f t : (f < 4)%N -> (L f).[t] = lam f (pt_on e t) by move=> Hf; rewrite /SerendipityRegular.pt_on lam_along // !hornerE; ring.
    exists ((vpre v i (v i))^-1 *: (L (off0 i) * L (off1 i) - \sum_(k <- iota 1 (r - 1)) vpre v i (enode e k) *: q k)).
      apply: leq_trans (size_scale_leq _ _) _. apply: leq_trans (size_add _ _) _. rewrite size_opp geq_max. apply/andP; split.
        apply: leq_trans (size_mul_leq _ _) _. move: (SL (off0 i)) (SL (off1 i)). move: (size _) (size (L (off1 i))) => z z'. clear -r_ge2; lia.
      rewrite big_seq. apply: (big_ind (fun p : {poly F} => size p <= r.+1)%N); first by rewrite size_poly0.
        move=> p p' Sp Sp'. apply: leq_trans (size_add _ _) _. by rewrite geq_max Sp.
      move=> k. rewrite mem_iota => Hk. apply: leq_trans (size_scale_leq _ _) _. by have [] := Hq k ltac:(lia).
    move=> t Ht. have HP := pt_on_placed He Ht. rewrite (vertex_boundary Hi HP He (lam_on _ He)) hornerZ mulrC. congr (_ * _).
    rewrite /vsum hornerD hornerN hornerM !HL // -/(vpre v i _). congr (_ - _).
    rewrite (bigD1_seq e) //=; last by case: (edges4 Hi) => ->.
    rewrite [X in _ + X]big_seq_cond [X in _ + X]big1 ?addr0; last first.
      move=> f /andP[Hf Hfe]. rewrite big_seq big1 // => k. rewrite mem_iota => Hk.
      rewrite (emod_vanish (f := e)) ?mulr0 //; [exact: adj_lt Hf|lia|by rewrite eq_sym|exact: lam_on].
    rewrite horner_sum. apply: eq_big_seq => k. rewrite mem_iota => Hk. rewrite hornerZ.
    by have [_ ->] := Hq k ltac:(lia).
  Qed.

  (** ** All functions *)
  Local Notation basis := (basis v r).
  Lemma basis_defined n P : good r n -> placed v s P -> basis n (somep P) = Some (ev (basis n) P).
  Proof.
    case: n => [[i|[e k]]|t] Hn HP.
    - exact: vertex_defined.
    - by case/andP: Hn => He Hk; exact: emod_defined.
    - by rewrite /ev /SerendipityNodal.basis (imod_some convex).
  Qed.
  (** The place of a node on an edge. *)
  Definition spot (e : nat) (n : node) : option nat :=
    match n with
    | inl (inl i) => if i == tail e then Some 0%N else if i == head e then Some r else None
    | inl (inr (f, k)) => if f == e then Some k else None
    | inr _ => None
    end.
  Lemma basis_trace_none e n t : good r n -> (e < 4)%N -> 0 <= t <= 1 -> spot e n = None -> ev (basis n) (pt_on e t) = 0.
  Proof.
    move=> Hn He Ht. have HP := pt_on_placed He Ht. have L0 := lam_on t He. case: n Hn => [[i|[f k]]|t'] Hn /=.
    - move=> H. apply: (vertex_vanish (e := e)) => //. move: H Hn. by case: (edges4 He) => ->; case: i => [|[|[|[|i]]]].
    - case: eqP => // Hfe _. case/andP: Hn => Hf Hk. apply: (emod_vanish (f := e)) => //. by apply/eqP => E0; apply: Hfe.
    - move=> _. rewrite /ev (imod_some convex) //= ibf_boundary //. exact: (bub_edge He).
  Qed.
  Lemma basis_trace_some e n k : good r n -> (e < 4)%N -> spot e n = Some k -> r = 2%N \/ parallelogram v ->
    exists2 p : {poly F}, (size p <= r.+1)%N & forall t, 0 <= t <= 1 -> ev (basis n) (pt_on e t) = p.[t].
  Proof.
    move=> Hn He H Hr. case: n Hn H => [[i|[f k']]|t'] Hn //= H.
    - apply: vertex_trace => //. move: H Hn. by case: (edges4 He) => ->; case: i => [|[|[|[|i]]]].
    - case/andP: Hn => Hf Hk. move: H. case: eqP => // <- _. exact: emod_trace.
  Qed.

  Lemma lagrange_node j k : (j <= r)%N -> (k <= r)%N -> (lagrange F r j).[tk F r k] = (j == k)%:R.
  Proof.
    move=> Hj Hk. rewrite /lagrange horner_prod. case: eqP => [<-|Hne].
    - apply: big1_seq => k' /andP[Hk' _]. rewrite hornerZ !hornerE mulVf // subr_eq0.
      apply/eqP => /(@tk_inj F r r_ge2) E0. by rewrite E0 eqxx in Hk'.
    - rewrite (big_rem k); last by rewrite mem_iota; lia.
      have -> : (k != j) = true by apply/eqP => Ek; apply: Hne. rewrite hornerZ !hornerE. rewrite -[k%:R / r%:R]/(tk F r k) subrr mulr0. exact: mul0r.
  Qed.
  Lemma size_lagrange j : (j <= r)%N -> (size (lagrange F r j) <= r.+1)%N.
  Proof.
    move=> Hj. rewrite /lagrange -big_filter. set l := filter _ _.
    have Sl : (size l <= r)%N.
      have C := count_predC (pred1 j) (iota 0 r.+1). have P : (0 < count (pred1 j) (iota 0 r.+1))%N.
        by rewrite -has_count; apply/hasP; exists j; [rewrite mem_iota; lia|exact: eqxx].
      rewrite size_filter (eq_count (a2 := predC (pred1 j))) //. move: C P. rewrite size_iota.
      move: (count _ _) (count (predC _) _) => z z'. clear; lia.
    apply: (@leq_trans (size l).+1) => //. elim: l {Sl} => [|k l IH]; first by rewrite big_nil size_poly1.
    rewrite big_cons. apply: leq_trans (size_mul_leq _ _) _.
    have : (size ((j%:R / r%:R - k%:R / r%:R)^-1 *: ('X - (k%:R / r%:R)%:P) : {poly F})%R <= 2)%N.
      by apply: leq_trans (size_scale_leq _ _) _; rewrite size_XsubC.
    move: IH. rewrite [size (k :: l)]/=. set p := \prod_(_ <- _) _. set X1 := (_ *: _)%R. move: (size p) (size X1) (size l) => z z' z''. clear; rewrite /=; lia.
  Qed.

  (** A node of the quadrilateral in the place [k] of edge [e]. *)
  Lemma spot_place e n k : good r n -> (e < 4)%N -> spot e n = Some k -> (k <= r)%N /\ place v r n = pt_on e (tk F r k).
  Proof.
    have r0 := r_neq0 F r_ge2.
    case: n => [[i|[f k']]|t'] //= Hn He.
    - case: eqP => [-> [<-]|_].
        split=> //. by rewrite /SerendipityRegular.pt_on /along /tk !mul0r !addr0; case: (v _).
      case: eqP => // -> [<-]. split=> //. rewrite /SerendipityRegular.pt_on /along /tk divff // !mul1r ![_ + (_ - _)]addrC !subrK.
      by case: (v _).
    - case: eqP => // -> [<-]. case/andP: Hn => _ Hk. split=> //. lia.
  Qed.
End Trace.
