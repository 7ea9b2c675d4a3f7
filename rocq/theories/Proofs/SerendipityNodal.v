(** Nodality of the direct serendipity bases of degree at least 2. *)
From Coq Require List.
From mathcomp Require Import all_ssreflect all_algebra.
From mathcomp Require Import zify ring.
From Verif Require Import Model.Prelude Model.Gem Model.Serendipity Spec.Partial Spec.Serendipity Proofs.Newton Proofs.SerendipityGeometry Proofs.SerendipityInner Proofs.SerendipityEdges.
Set Implicit Arguments.
Unset Strict Implicit.
Unset Printing Implicit Defensive.
Import Order.TTheory GRing.Theory Num.Theory.
Local Open Scope ring_scope.

Section Nodal.
  Variable F : realFieldType.
  Variable v : nat -> point F.
  Variable s : F.
  Hypothesis convex : turns v s.
  Variable r : nat.
  Hypothesis r_ge2 : (2 <= r)%N.
  Hypothesis regular : forall e, (e < 4)%N -> edge_regular v r e.
  Local Notation O := (partial_ops F).
  Local Notation sv := (sv v).
  Local Notation lam := (lam v).
  Local Notation a0 := adjacent0.
  Local Notation a1 := adjacent1.
  Local Notation op := opposite_edge.
  Local Notation enode := (edge_point v r).
  Local Notation lat := (lat r).
  Implicit Types P : point F.

  (** ** Names of the nodes *)
  Definition node : eqType := [eqType of nat + (nat * nat) + (nat * nat * nat)].
  Definition V (i : nat) : node := inl (inl i).
  Definition E (e k : nat) : node := inl (inr (e, k)).
  Definition I (t : nat * nat * nat) : node := inr t.
  Definition place (n : node) : point F :=
    match n with inl (inl i) => v i | inl (inr (e, k)) => enode e k | inr t => inode v r t end.
  Definition good (n : node) : bool :=
    match n with inl (inl i) => (i < 4)%N | inl (inr (e, k)) => (e < 4)%N && (0 < k < r)%N | inr t => t \in lat end.

  Lemma good_placed n : good n -> placed v s (place n).
  Proof.
    case: n => [[i|[e k]]|t] /=.
    - exact: (vertex_placed convex).
    - by case/andP=> He Hk; apply: (enode_placed convex).
    - by move=> Ht; apply/inside_placed/(inode_inside convex).
  Qed.
  Lemma bub_vertex i : (i < 4)%N -> bub v (v i) = 0.
  Proof.
    move=> Hi. have [e He Hl] : exists2 e, (e < 4)%N & lies i e by case: (edges4 Hi) => ->; [exists 0%N|exists 0%N|exists 1%N|exists 1%N].
    apply: (bub_edge (e := e)) => //. exact: lam_vertex0.
  Qed.
  Lemma bub_enode e k : (e < 4)%N -> bub v (enode e k) = 0.
  Proof. by move=> He; apply: (bub_edge He); exact: enode0. Qed.

  (** ** Edge functions *)
  Lemma abs_lam e f k : (e < 4)%N -> (f < 4)%N -> (0 < k < r)%N -> f != e -> `|lam f (enode e k)| = s * lam f (enode e k).
  Proof.
    move=> He Hf Hk Hfe. have H := enode1 convex r_ge2 He Hf Hk Hfe. rewrite -(gtr0_norm H) normrM.
    have -> : `|s| = 1 by case: convex => [[->|->] _]; rewrite ?normrN normr1. by rewrite mul1r.
  Qed.
  Lemma s_sq : s * s = 1.
  Proof. by case: convex => [[->|->] _]; rewrite ?mulrNN mulr1. Qed.
  Lemma turn_swap (a b p : point F) : `|turn a b p| = `|turn b a p|.
  Proof. by rewrite -normrN; congr `| _ |; rewrite /turn; ring. Qed.
  Lemma edge_ratio_tun e k : (e < 4)%N -> (0 < k < r)%N -> edge_ratio v r e k = tun v e (enode e k).
  Proof.
    move=> He Hk. have [[H0 H1 _] [N0 N1 _] _ _] := edge_facts He.
    have E0 : `|turn (v (tail e)) (v (tail_nb e)) (enode e k)| = `|lam (a0 e) (enode e k)|.
      case: (edges4 He) => -> //; exact: turn_swap.
    have E1 : `|turn (v (head e)) (v (head_nb e)) (enode e k)| = `|lam (a1 e) (enode e k)|.
      case: (edges4 He) => -> //; exact: turn_swap.
    rewrite /edge_ratio E0 E1 !abs_lam // /tun -mulrBr -mulrDr.
    have Hs := sides_neq0 He (enode_placed convex r_ge2 He Hk). have s0 := s_neq0 convex.
    by rewrite -mulf_div divff // mul1r.
  Qed.
  Lemma opposite_abs e k : (e < 4)%N -> (0 < k < r)%N ->
    `|turn (v (tail_nb e)) (v (head_nb e)) (enode e k)| = s * lam (op e) (enode e k).
  Proof.
    move=> He Hk. have [[_ _ H2] [_ _ N2] _ _] := edge_facts He. rewrite -abs_lam //.
    case: (edges4 He) => -> //; exact: turn_swap.
  Qed.

  Lemma normaliser_neq0 e i (p : {poly F}) : (e < 4)%N -> (0 < i < r)%N -> (size p <= r - 2)%N ->
    (forall k, (0 < k < r)%N -> k != i -> p.[tk F r k] = pv v r e k) ->
    lam (op e) (enode e i) * p.[tk F r i] + tun v e (enode e i) ^+ (r - 2) != 0.
  Proof.
    move=> He Hi Sp Hp. apply/eqP => E0. apply: (regular He). exists (- s *: p). split.
      exact: leq_trans (size_scale_leq _ _) Sp.
    have [[_ _ H2] [_ _ N2] _ _] := edge_facts He.
    move=> k Hk. rewrite opposite_abs // edge_ratio_tun // hornerZ.
    have -> : - s * p.[k%:R / r%:R] * (s * lam (op e) (enode e k)) = - (s * s) * (lam (op e) (enode e k) * p.[tk F r k]) by rewrite /tk; ring.
    rewrite s_sq. case: (altP (k =P i)) => [->|Hki].
      by rewrite mulNr mul1r; apply/eqP; rewrite eq_sym -addr_eq0 addrC E0.
    rewrite Hp // /pv. field. exact: (enode1' convex).
  Qed.

  (** The function of node [i] on edge [e]. *)
  Definition emod (e i : nat) : option F * option F -> option F :=
    if r == 2%N then edge_bf2 O sv r e else edge_bf O sv r e i.-1.
  Lemma edge_bfsE e : edge_bfs O sv r e = map (emod e) (iota 1 (r - 1)).
  Proof.
    rewrite /edge_bfs /emod. case: PeanoNat.Nat.eqb_spec => [->//|/eqP/negbTE Hr]. rewrite Hr.
    rewrite /nodes1d listE_map listE_length size_map !listE_seq size_iota minusE.
    by rewrite -[1%N]/(1 + 0)%N iotaDl -map_comp.
  Qed.

  (** What a function looks like at the nodes before normalising. *)
  Lemma normalised (f : option F * option F -> option F) (g : node -> F) n0 (c : F) :
    (forall n, good n -> f (somep (place n)) = Some (g n)) ->
    (forall n, good n -> (if n is inr _ then False else True) -> g n = if n == n0 then c else 0) -> c != 0 ->
    (if n0 is inr _ then False else True) ->
    forall n, good n -> fdiv O (nodalize O sv r f (somep (place n))) (Some c) = Some (n == n0)%:R.
  Proof.
    move=> Hf Hg Hc H0 n Hn.
    have Hi t : t \in lat -> f (somep (inode v r t)) = Some (g (I t)) by move=> Ht; exact: (Hf (I t)).
    case: n Hn => [[i|[e k]]|t] Hn.
    - rewrite (nodalize_boundary convex Hi (Hf _ Hn)) ?div_some //; last exact: bub_vertex.
      rewrite Hg //. by case: eqP; rewrite ?mul0r ?divff.
    - rewrite (nodalize_boundary convex Hi (Hf _ Hn)) ?div_some //; last by case/andP: Hn => He _; exact: bub_enode.
      rewrite Hg //. by case: eqP; rewrite ?mul0r ?divff.
    - rewrite (nodalize_inner convex Hi) // div_some // mul0r. by case: n0 H0 {Hg}.
  Qed.

  Lemma sides_vanish e n : (e < 4)%N -> good n -> (if n is inr _ then False else True) ->
    (forall k, n <> E e k) -> (forall k, n <> E (op e) k) -> lam (a0 e) (place n) * lam (a1 e) (place n) = 0.
  Proof.
    move=> He Hn H1 H2 H3. have [[L0 L1 L2] _ _ Hall] := edge_facts He.
    case: n Hn H1 H2 H3 => [[i|[f k]]|t] //= Hn _ H2 H3.
    - have := vertex_side He Hn. by case/orP => H; rewrite (lam_vertex0 v _ _ H) ?mulr0 ?mul0r.
    - case/andP: Hn => Hf Hk. have := Hall f Hf. case/or4P => /eqP Ef.
      + by case: (H2 k); rewrite Ef.
      + by case: (H3 k); rewrite Ef.
      + by rewrite Ef enode0 ?mul0r // -Ef.
      + by rewrite Ef [lam (a1 e) _]enode0 ?mulr0 // -Ef.
  Qed.

  Lemma emod_nodal e i n : (e < 4)%N -> (0 < i < r)%N -> good n -> emod e i (somep (place n)) = Some (n == E e i)%:R.
  Proof.
    move=> He Hi Hn. have [[L0 L1 L2] [N0 N1 N2] [M0 M1 M2] Hall] := edge_facts He.
    have pos0 := enode1' convex r_ge2 He L0 Hi N0. have pos1 := enode1' convex r_ge2 He L1 Hi N1.
    rewrite /emod. case: eqP => [Er|Hr].
    - have Ei : i = 1%N by move: Hi; rewrite Er; lia. rewrite Ei in pos0 pos1 *.
      pose g n := lam (a0 e) (place n) * lam (a1 e) (place n) * rs v e (place n).
      have Hf m : good m -> (fun x => fmul O (fmul O (lams O sv (a0 e) x) (lams O sv (a1 e) x)) (Rs O sv e x)) (somep (place m)) = Some (g m).
        move=> Hm. cbn beta. rewrite !lams_some // (Rs_some He (good_placed Hm)) //.
      have Hx : xstars O sv e = somep (place (E e 1)).
        by rewrite xstars_some // /= /edge_point Er mul1r.
      have G1 : good (E e 1) by rewrite /= He Er.
      rewrite /edge_bf2. cbn zeta. rewrite [X in fdiv _ _ X](_ : _ = Some (g (E e 1))); last by rewrite Hx Hf.
      have Hown : lam e (place (E e 1)) = 0 by exact: enode0.
      apply: (normalised (g := g)) => //.
      + move=> m Hm H1. case: eqP => [->//|Hne].
        rewrite /g. case: m Hm H1 Hne => [[j|[f k]]|t] // Hm _ Hne.
        * by rewrite sides_vanish ?mul0r.
        * case/andP: (Hm) => Hf' Hk. have := Hall f Hf'. have Ek : k = 1%N by move: Hk; rewrite Er; lia. subst k.
          case/or4P => /eqP Ef; subst f => //.
          -- by rewrite rs_opposite ?mulr0 //; exact: enode0.
          -- by rewrite sides_vanish ?mul0r // => k [Ek]; [move/eqP: N0; rewrite Ek|move/eqP: M0; rewrite Ek].
          -- by rewrite sides_vanish ?mul0r // => k [Ek]; [move/eqP: N1; rewrite Ek|move/eqP: M1; rewrite Ek].
      + rewrite /g (rs_own He (good_placed G1) Hown) mulr1 mulf_neq0 //.
    - have r3 : (3 <= r)%N by lia.
      have [p [Sp Ip Ep]] := edge_p_some convex r_ge2 r3 He Hi.
      pose g n := lam (a0 e) (place n) * lam (a1 e) (place n) * (lam (op e) (place n) * p.[par v e (place n)] + tun v e (place n) ^+ (r - 2) * rs v e (place n)).
      have Hf m : good m -> edge_prebf O sv r e i.-1 (somep (place m)) = Some (g m).
        move=> Hm. rewrite /edge_prebf Ep !lams_some // (tunnel_some He (good_placed Hm)) (Rs_some He (good_placed Hm)) pw_some minusE //.
      have Gi : good (E e i) by rewrite /= He Hi.
      have Hnode : edge_node O sv r e i.-1 = somep (place (E e i)).
        rewrite /edge_node edge_nodesE // listE_nth (nth_map (0, 0)) ?size_map ?size_iota; last lia.
        rewrite (nth_map 0%N) ?size_iota; last lia. rewrite nth_iota; last lia. have -> : (1 + i.-1 = i)%N by lia. by [].
      have Hint t : t \in lat -> edge_prebf O sv r e i.-1 (somep (inode v r t)) = Some (g (I t)) by move=> Ht; exact: (Hf (I t)).
      rewrite /edge_bf Hnode (nodalize_boundary convex Hint (Hf _ Gi)); last exact: bub_enode.
      have own k : (0 < k < r)%N -> g (E e k) = lam (a0 e) (enode e k) * lam (a1 e) (enode e k) * (lam (op e) (enode e k) * p.[tk F r k] + tun v e (enode e k) ^+ (r - 2)).
        move=> Hk. have Gk : good (E e k) by rewrite /= He Hk.
        rewrite /g (rs_own He (good_placed Gk)); last exact: enode0. by rewrite mulr1 /= (par_along convex).
      apply: (normalised (g := g)) => //.
      + move=> m Hm H1. case: eqP => [->//|Hne]. case: m Hm H1 Hne => [[j|[f k]]|t] // Hm _ Hne.
        * by rewrite /g sides_vanish ?mul0r.
        * case/andP: (Hm) => Hf' Hk. have := Hall f Hf'. case/or4P => /eqP Ef; subst f => //.
          -- rewrite own // Ip //; last by apply/eqP => Eki; apply: Hne; rewrite Eki.
             rewrite /pv. have := enode1' convex r_ge2 He L2 Hk N2. move: (lam (op e) _) => l Hl.
             have -> : l * (-1 * tun v e (enode e k) ^+ (r - 2) / l) + tun v e (enode e k) ^+ (r - 2) = 0 by field.
             by rewrite mulr0.
          -- have O0 : lam (op e) (place (E (op e) k)) = 0 by exact: enode0.
             by rewrite /g rs_opposite // O0 mul0r mulr0 addr0 mulr0.
          -- by rewrite /g sides_vanish ?mul0r // => k' [Ek]; [move/eqP: N0; rewrite Ek|move/eqP: M0; rewrite Ek].
          -- by rewrite /g sides_vanish ?mul0r // => k' [Ek]; [move/eqP: N1; rewrite Ek|move/eqP: M1; rewrite Ek].
      + rewrite own // !mulf_neq0 //. exact: normaliser_neq0.
  Qed.

  (** ** Vertex functions *)
  Definition off0 (i : nat) : nat := nth 0%N [:: 1; 1; 0; 0]%N i.
  Definition off1 (i : nat) : nat := nth 0%N [:: 3; 2; 3; 2]%N i.
  Definition adj (i : nat) : seq nat := nth [::] [:: [:: 0; 2]; [:: 0; 3]; [:: 1; 2]; [:: 1; 3]]%N i.
  Definition vpre (i : nat) (P : point F) : F := lam (off0 i) P * lam (off1 i) P.

  Lemma zip_map2 (T A B : Type) (f : T -> A) (g : T -> B) l : Prelude.zip (map f l) (map g l) = map (fun t => (f t, g t)) l.
  Proof. by elim: l => //= t l ->. Qed.

  Lemma vertex_prebf_some i n : (i < 4)%N -> good n ->
    vertex_prebf O sv r i (somep (place n))
    = Some (vpre i (place n) - \sum_(e <- adj i) \sum_(k <- iota 1 (r - 1)) vpre i (enode e k) * (n == E e k)%:R).
  Proof.
    move=> Hi Hn.
    have A4 e : e \in adj i -> (e < 4)%N by case: (edges4 Hi) => -> /=; rewrite !inE => /orP[] /eqP ->.
    have B4 : (off0 i < 4)%N /\ (off1 i < 4)%N by case: (edges4 Hi) => ->.
    have E1 : List.nth 0 (vertex_off_edges i) 0%N = off0 i by case: (edges4 Hi) => ->.
    have E2 : List.nth 1 (vertex_off_edges i) 0%N = off1 i by case: (edges4 Hi) => ->.
    have E3 : vertex_adj_edges i = adj i by case: (edges4 Hi) => ->.
    rewrite /vertex_prebf E1 E2 E3 listE_fold_left. case: B4 => B0 B1.
    rewrite !lams_some // -[fmul O (Some _) _]/(Some (vpre i (place n))).
    elim: (adj i) (vpre i (place n)) A4 => [|e l IH] c A4; first by rewrite /= big_nil subr0.
    rewrite big_cons /= listE_fold_left edge_nodesE // ?A4 ?mem_head //; rewrite edge_bfsE /edge_points -map_comp zip_map2.
    have He : (e < 4)%N by apply: A4; rewrite mem_head.
    have -> : forall l' c', all (fun k => 0 < k < r)%N l' ->
      foldl (fun prebf nb => fsub O prebf (fmul O (fmul O (lams O sv (off0 i) nb.1) (lams O sv (off1 i) nb.1)) (nb.2 (somep (place n)))))
        (Some c') [seq (((@somep F) \o enode e) t, emod e t) | t <- l'] = Some (c' - \sum_(k <- l') vpre i (enode e k) * (n == E e k)%:R).
      elim=> [|k l' IH'] c'; first by rewrite /= big_nil subr0.
      move=> /andP[Hk Hl']. rewrite map_cons. cbn [foldl fst snd]. rewrite (lams_some v (e := off0 i)) // (lams_some v (e := off1 i)) // emod_nodal // big_cons.
      rewrite [fsub O _ _]/= -/(vpre i _) IH' //. by rewrite opprD addrA.
    - rewrite IH ?opprD ?addrA // => f Hf. apply: A4. by rewrite inE Hf orbT.
    - apply/allP => k. rewrite mem_iota. lia.
  Qed.

  Lemma vpre_edge i e k : (i < 4)%N -> (e < 4)%N -> e \notin adj i -> vpre i (enode e k) = 0.
  Proof.
    move=> Hi He H. rewrite /vpre. have : (e == off0 i) || (e == off1 i).
      by move: H; case: (edges4 Hi) => ->; case: (edges4 He) => ->.
    case/orP => /eqP <-; by rewrite enode0 // ?mul0r ?mulr0.
  Qed.
  Lemma vpre_vertex i j : (i < 4)%N -> (j < 4)%N -> i != j -> vpre i (v j) = 0.
  Proof.
    move=> Hi Hj H. rewrite /vpre. have [B0 B1] : (off0 i < 4)%N /\ (off1 i < 4)%N by case: (edges4 Hi) => ->.
    have : lies j (off0 i) || lies j (off1 i) by move: H; case: (edges4 Hi) => ->; case: (edges4 Hj) => ->.
    by case/orP => HL; rewrite (lam_vertex0 v _ _ HL) // ?mul0r ?mulr0.
  Qed.
  Lemma vpre_own i : (i < 4)%N -> vpre i (v i) != 0.
  Proof.
    move=> Hi. rewrite /vpre. apply: mulf_neq0; apply: (pos_neq0 (s := s)); apply: (lam_vertex1 convex) => //; by case: (edges4 Hi) => ->.
  Qed.

  Lemma vertex_nodal i n : (i < 4)%N -> good n -> vertex_bf O sv r i (somep (place n)) = Some (n == V i)%:R.
  Proof.
    move=> Hi Hn.
    pose g n := vpre i (place n) - \sum_(e <- adj i) \sum_(k <- iota 1 (r - 1)) vpre i (enode e k) * (n == E e k)%:R.
    have gV j : (j < 4)%N -> g (V j) = vpre i (v j).
      move=> Hj. rewrite /g big1 ?subr0 // => e _. rewrite big1 // => k _. by rewrite mulr0.
    have Hf m : good m -> vertex_prebf O sv r i (somep (place m)) = Some (g m) by move=> Hm; exact: vertex_prebf_some.
    rewrite /vertex_bf [X in fdiv _ _ X](_ : _ = Some (vpre i (v i))).
      apply: (normalised (g := g)) => //; last exact: vpre_own.
      move=> m Hm H1. case: m Hm H1 => [[j|[f k]]|t] // Hm _.
      - rewrite gV //. case: (altP (V j =P V i)) => [[->]//|H]. apply: vpre_vertex => //. by apply/eqP => Eji; move/eqP: H; rewrite Eji.
      - rewrite -[inl (inr _) == _]/false /g. case/andP: (Hm) => Hf' Hk. case: (boolP (f \in adj i)) => Ha.
        + have U : uniq (adj i) by case: (edges4 Hi) => ->.
          rewrite (bigD1_seq f) //= (bigD1_seq k) ?iota_uniq ?mem_iota //=; last lia.
          rewrite eqxx mulr1 big1 ?addr0; last first.
            move=> k' Hk'. rewrite (_ : _ == _ = false) ?mulr0 //. apply/negbTE/eqP => -[] Ek. by rewrite Ek eqxx in Hk'.
          rewrite big1 ?addr0 ?subrr // => e' He'. rewrite big1 // => k' _.
          rewrite (_ : _ == _ = false) ?mulr0 //. apply/negbTE/eqP => -[] Ee. by rewrite Ee eqxx in He'.
        + rewrite [place _]/= vpre_edge // big_seq big1 ?subr0 // => e He. rewrite big1 // => k' _.
          rewrite (_ : _ == _ = false) ?mulr0 //. apply/negbTE/eqP => -[] Ee. by rewrite Ee He in Ha.
    by rewrite (Hf (V i)) ?gV.
  Qed.

  (** ** All of them *)
  Lemma listE_app (A : Type) (a b : seq A) : app a b = a ++ b.
  Proof. by []. Qed.
  Definition names : seq node :=
    map V (iota 0 4) ++ flatten [seq [seq E e k | k <- iota 1 (r - 1)] | e <- iota 0 4] ++ map I lat.
  Definition basis (n : node) : option F * option F -> option F :=
    match n with inl (inl i) => vertex_bf O sv r i | inl (inr (e, k)) => emod e k | inr t => imod v r t end.

  Lemma good_names n : n \in names -> good n.
  Proof.
    rewrite /names mem_cat mem_cat => /or3P[/mapP[i]|/allpairsPdep[e [k [He Hk ->]]]|/mapP[t Ht ->]] //.
    - by rewrite mem_iota => Hi ->.
    - move: He Hk; rewrite !mem_iota /=. lia.
  Qed.
  Lemma uniq_names : uniq names.
  Proof.
    rewrite /names cat_uniq [in X in [&& _, _ & X]]cat_uniq. apply/and3P; split; first by rewrite map_inj_uniq ?iota_uniq // => i j [].
      apply/hasPn => n. rewrite mem_cat => /orP[/allpairsPdep[e [k [_ _ ->]]]|/mapP[t _ ->]]; by apply/mapP => -[].
    apply/and3P; split.
    - apply: (@allpairs_uniq_dep _ _ _ (fun e k => E e k)); [exact: iota_uniq|move=> *; exact: iota_uniq|].
      by move=> [e k] [e' k'] _ _ [-> ->].
    - apply/hasPn => n /mapP[t _ ->]. by apply/allpairsPdep => -[e [k [_ _]]].
    - rewrite map_inj_uniq ?uniq_lat // => t t' [] //.
  Qed.
  Lemma basis_nodal n m : good n -> good m -> basis n (somep (place m)) = Some (n == m)%:R.
  Proof.
    case: n => [[i|[e k]]|t] Hn Hm; rewrite [in RHS]eq_sym /basis.
    - exact: vertex_nodal.
    - by case/andP: Hn => He Hk; exact: emod_nodal.
    - case: m Hm => [[i|[e k]]|t'] Hm; rewrite (imod_some convex) //.
      + by rewrite ibf_boundary // bub_vertex.
      + by case/andP: Hm => He _; rewrite ibf_boundary // bub_enode.
      + rewrite /place (ibf_node convex) //. by rewrite eq_sym.
  Qed.
  Lemma dsr_symE : dsr_sym O sv r = map basis names.
  Proof.
    rewrite /dsr_sym !listE_app /names map_cat map_cat listE_map listE_flat_map listE_seq internal_bfsE map_flatten -!map_comp.
    congr (_ ++ (_ ++ _)). congr flatten. apply: eq_map => e. by rewrite edge_bfsE /= -map_comp.
  Qed.
  Lemma nodesE : nodes v r = map place names.
  Proof.
    rewrite /nodes /names map_cat map_cat inner_points_lat map_flatten -!map_comp. congr (_ ++ (_ ++ _)).
    congr flatten. apply: eq_map => e. by rewrite /edge_points /= -map_comp.
  Qed.
  Lemma dsr_nodesE : dsr_nodes O sv r = map (@somep F) (nodes v r).
  Proof.
    rewrite /dsr_nodes !listE_app /nodes map_cat map_cat internal_nodesE -inner_points_lat listE_flat_map listE_seq map_flatten.
    rewrite listE_map. congr (_ ++ (_ ++ _)). congr flatten. rewrite -map_comp. apply/eq_in_map => e. rewrite mem_iota => He.
    by rewrite edge_nodesE.
  Qed.

  Lemma dsr_nodal : nodal (dsr_sym O sv r) (nodes v r).
  Proof.
    rewrite dsr_symE nodesE. split; first by rewrite !size_map.
    rewrite size_map => i j Hi Hj. rewrite !(nth_map (V 0)) // basis_nodal; [|by apply: good_names; rewrite mem_nth..].
    by rewrite nth_uniq ?uniq_names.
  Qed.
End Nodal.
