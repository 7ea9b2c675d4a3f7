(** The tables of direct serendipity elements contain the functions and their derivatives. *)
From Coq Require Import String ZArith.
From Coq Require List.
From mathcomp Require Import all_ssreflect all_algebra.
From mathcomp Require Import zify ring.
From Verif Require Import Model.Prelude Model.Cell Model.Element Model.Gem Model.PointSet Model.Evaluation Model.Sympy2Gem
  Model.PointEvaluation Model.Serendipity Model.SerendipityEvaluation.
From Verif Require Import Spec.Partial Spec.Algebra Spec.Sympy Spec.Tabulation Spec.PointEvaluation Spec.Serendipity Spec.SerendipityEvaluation.
From Verif Require Import Proofs.SerendipityDofs Proofs.SerendipityRel Proofs.SerendipityTab Proofs.SerendipityDeriv Proofs.SerendipityMain Proofs.Newton.
Set Implicit Arguments.
Unset Strict Implicit.
Unset Printing Implicit Defensive.
Import GRing.Theory Num.Theory.
Local Open Scope ring_scope.

Section Values.
  Variable F : realFieldType.
  Implicit Types (v : nat -> point F) (p : point F).

  Lemma assign_x v p : assign v p "x" = Some p.1. Proof. by []. Qed.
  Lemma assign_y v p : assign v p "y" = Some p.2. Proof. by []. Qed.
  Lemma set_x v p h t : set_symbol (assign v p) "x" h t = assign v (h, p.2) t.
  Proof. rewrite /set_symbol /assign String.eqb_sym. cbn -[String.eqb]. by case: (String.eqb t "x"). Qed.
  Lemma set_y v p h t : set_symbol (assign v p) "y" h t = assign v (p.1, h) t.
  Proof. rewrite /set_symbol /assign String.eqb_sym. cbn -[String.eqb]. by case: (String.eqb_spec t "y") => [->|_]. Qed.
  Lemma rvalue_ext (rho sigma : string -> option F) e : rho =1 sigma -> rvalue rho e = rvalue sigma e.
  Proof. by move=> H; elim: e => //= [a -> b ->|a -> b ->|a -> b ->|a ->|a -> b ->]. Qed.

  (** The functions. *)
  Lemma basis_values v r : List.Forall2 (fun e f => forall p, rvalue (assign v p) e = f (somep p))
    (ds_basis r) (ds_sym (partial_ops F) (fun i => somep (v i)) r).
  Proof.
    have H p : List.Forall2 (fun e f => rvalue (assign v p) (e xx_symbols) = f (somep p))
        (ds_sym rops vs_symbols r) (ds_sym (partial_ops F) (fun i => somep (v i)) r).
    { have K : List.Forall2 (Tf (fun e x => rvalue (assign v p) e = x)) (ds_sym rops vs_symbols r) (ds_sym (partial_ops F) (fun i => somep (v i)) r).
      - apply: ds_sym_rel => //=; try by move=> a b x y -> ->.
        + by move=> a x ->.
        + move=> i Hi. have {Hi} : (i < 4)%N by lia. by case: i => [|[|[|[|]]]] // _; split.
      - elim: K => [|e f l m He _ IH]; constructor=> //. by apply: He; split. }
    rewrite /ds_basis.
    elim: (ds_sym rops vs_symbols r) (ds_sym (partial_ops F) (fun i => somep (v i)) r) H => [|e l IH] [|f m] H.
    - by constructor.
    - by move: (H (0, 0)) => K; inversion K.
    - by move: (H (0, 0)) => K; inversion K.
    - constructor; first by move=> p; move: (H p) => K; inversion K.
      by apply: IH => p; move: (H p) => K; inversion K.
  Qed.

  Definition derivative (alpha : seq nat) (e : rexpr) : rexpr :=
    derive_all (List.concat (List.map (fun xa => List.repeat xa.1 xa.2) (List.combine xx_names alpha))) e.
  Lemma appE (T : Type) (l m : seq T) : List.app l m = l ++ m.
  Proof. by []. Qed.
  Lemma repeat_last (T : Type) (x : T) k : List.repeat x k.+1 = List.repeat x k ++ [:: x].
  Proof. by elim: k => //= k ->. Qed.
  Lemma derivative_x a e : derivative [:: a.+1; 0%N] e = derive "x" (derivative [:: a; 0%N] e).
  Proof. by rewrite /derivative /derive_all /xx_names; cbn [List.combine List.map List.concat fst snd]; rewrite repeat_last !appE !cats0 foldl_cat. Qed.
  Lemma derivative_y a b e : derivative [:: a; b.+1] e = derive "y" (derivative [:: a; b] e).
  Proof. rewrite /derivative /derive_all /xx_names; cbn [List.combine List.map List.concat fst snd]; by rewrite repeat_last !appE !cats0 !foldl_cat. Qed.
  Lemma derivative_slopes v e : partial_derivatives (fun p => rvalue (assign v p) e) (fun alpha p => rvalue (assign v p) (derivative alpha e)).
  Proof.
    split=> // [a|a b] p y Hy; rewrite ?derivative_x ?derivative_y.
    - have [d [Hd [P [Q [Q0 H]]]]] := expands_ok (assign_x v p) Hy. exists d; split=> //; exists P, Q; split=> // h Qh.
      rewrite -(H h Qh). apply: rvalue_ext => t. by rewrite set_x.
    - have [d [Hd [P [Q [Q0 H]]]]] := expands_ok (assign_y v p) Hy. exists d; split=> //; exists P, Q; split=> // h Qh.
      rewrite -(H h Qh). apply: rvalue_ext => t. by rewrite set_y.
  Qed.

  Lemma derivatives_defined (f : point F -> option F) D p y a b : partial_derivatives f D -> f p = Some y -> exists d, D [:: a; b] p = Some d.
  Proof.
    move=> [H0 Hx Hy] Hf. elim: b => [|b [d Hd]]; last by have [d' [E _]] := Hy a b p d Hd; exists d'.
    elim: a => [|a [d Hd]]; first by exists y; rewrite H0. by have [d' [E _]] := Hx a p d Hd; exists d'.
  Qed.
End Values.

Section Tables.
  Variable F : realFieldType.
  Local Notation O := (ring_ops F).
  Variables (xo : xops F) (ofZ : Z -> F) (nan : F) (fn : string -> list F -> F) (diff : rexpr -> list string -> snode F).
  Hypothesis HF : functions_ok O xo fn.
  Hypothesis eq_0 : xeq xo 0 0 = true.
  Hypothesis neq_1 : xeq xo 1 0 = false.
  Hypothesis Hdiff : differentiates xo ofZ nan diff.

  Lemma ring_ops_theory : Ring_theory.ring_theory (f0 O) (f1 O) (fadd O) (fmul O) (fsub O) (fopp O) eq.
  Proof.
    constructor=> /=; [exact: add0r|exact: addrC|exact: addrA|exact: mul1r|exact: mulrC|exact: mulrA|exact: mulrDl|by []|exact: subrr].
  Qed.

  Lemma ds_tables r order ps ent cm pts n n1 : (1 <= r)%N -> maps_points cm ps ent pts n n1 ->
    exists ts n', ds_basis_evaluation O ofZ nan fn diff r order ps ent (Some cm) n = Ok (ts, n') /\ (n <= n')%N /\
      derivative_keys 2 order (List.map fst ts) /\
      forall alpha g, List.In (alpha, g) ts -> gshape g = [:: ds_space_dimension r] /\
        List.incl (gfree g) (gfree (physical_vertices cm) ++ gfree pts ++ [seq ix_id j | j <- ps_indices ps]) /\
        forall vars env i, (i < ds_space_dimension r)%N ->
          let v := vertices_at vars env (physical_vertices cm) in
          let f p := List.nth i (ds_sym (partial_ops F) (fun j => somep (v j)) r) (fun=> None) (somep p) in
          exists D, partial_derivatives f D /\ forall y, D alpha (point_at vars env pts (ps_indices ps)) = Some y -> eval O vars g env [:: i] = y.
  Proof.
    move=> Hr [Hv [Hp /leP Hn] Hs Hf' Hi'].
    have Hf x : List.In x (gfree pts) -> (x < n1)%coq_nat by move=> /Hf' /ltP.
    have Hi i : List.In i (ps_indices ps) -> (ix_id i < n1)%coq_nat by move=> /Hi' /ltP.
    have := @ds_tabulation F O xo ofZ nan fn diff ring_ops_theory HF eq_0 neq_1 (fun alpha e rho => rvalue rho (derivative alpha e)) _ _
      r order ps ent cm pts n n1 _ Hv Hp Hn Hs Hf Hi.
    case=> [e alpha bound|e alpha rho y| |ts [n' [E [Hn' [Hk HG]]]]].
    - by apply: (proj1 (Hdiff e _)).
    - by apply: (proj2 (Hdiff e _)).
    - by apply/leP.
    exists ts, n'; split=> //; split; first exact/leP; split=> // alpha g Hg. have [Sg [Fg Vg]] := HG alpha g Hg. split=> //; split=> // vars env i Hi2 v f.
    pose e := List.nth i (ds_basis r) (RNat 0).
    have He p : rvalue (assign v p) e = f p.
    { rewrite /e /f. have := basis_values v r.
      have : (i < List.length (ds_basis r))%N.
      { rewrite /ds_basis List.map_length ds_count //. by apply/leP. }
      elim: {+}i (ds_basis r) (ds_sym _ _ _) => [|j IH] [|e' l] m //= H K; inversion K as [|? f' ? m' H1 H2]; subst => //=. by apply: IH. }
    exists (fun alpha p => rvalue (assign v p) (derivative alpha e)); split.
    - have [D0 D1 D2] := derivative_slopes v e. by split=> // p; rewrite D0 He.
    - move=> y Hy. apply: (Vg vars env i y) => //. by apply/ltP.
  Qed.

  Variables (r order : nat) (ps : pset F) (ent : option (dimkey * nat)) (cm : mapping F) (pts : gem F) (n n1 : nat).
  Hypothesis Hr : (1 <= r)%N.
  Hypothesis Hm : maps_points cm ps ent pts n n1.
  Lemma ds_inside : exists ts n', ds_basis_evaluation O ofZ nan fn diff r order ps ent (Some cm) n = Ok (ts, n') /\
      forall alpha g vars env i, List.In (alpha, g) ts -> (i < ds_space_dimension r)%N ->
        let v := vertices_at vars env (physical_vertices cm) in
        let p := point_at vars env pts (ps_indices ps) in
        let f p := List.nth i (ds_sym (partial_ops F) (fun j => somep (v j)) r) (fun=> None) (somep p) in
        convex_quad v -> r = 1%N \/ (forall e, (e < 4)%N -> edge_regular v r e) -> in_quad v p ->
        exists D, partial_derivatives f D /\ D alpha p = Some (eval O vars g env [:: i]).
  Proof.
    have [ts [n' [E [_ [[_ Hk] HG]]]]] := ds_tables order Hr Hm. exists ts, n'; split=> // alpha g vars env i Hg Hi v p f Hc Hreg Hq.
    have [_ [_ /(_ vars env i Hi) [D [HD HV]]]] := HG alpha g Hg. exists D; split=> //.
    have [y Hy] : exists y, f p = Some y.
    { have /List.Forall_forall H := ds_defined Hc Hr Hreg Hq. apply: H. apply: List.nth_In. rewrite ds_count; exact/leP. }
    have [La _] : List.length alpha = 2%N /\ (List.fold_right Nat.add 0%N alpha <= order)%coq_nat.
    { apply/Hk. exact: (List.in_map fst _ _ Hg). }
    case: alpha La Hg HV => [|a [|b [|]]] // _ Hg HV.
    have [d Hd] := derivatives_defined a b HD Hy. by rewrite (HV d Hd).
  Qed.

  Lemma ds_identity : exists ts n', ds_basis_evaluation O ofZ nan fn diff r order ps ent (Some cm) n = Ok (ts, n') /\
      forall g vars env i j, List.In ([:: 0; 0]%N, g) ts -> (i < ds_space_dimension r)%N -> (j < ds_space_dimension r)%N ->
        let v := vertices_at vars env (physical_vertices cm) in
        convex_quad v -> (r <= 3)%N \/ parallelogram v -> point_at vars env pts (ps_indices ps) = nth (0, 0) (nodes v r) j ->
        eval O vars g env [:: i] = (i == j)%:R.
  Proof.
    have [ts [n' [E [_ [[_ Hk] HG]]]]] := ds_tables order Hr Hm. exists ts, n'; split=> // g vars env i j Hg Hi Hj v Hc Hp Ep.
    have [_ [_ /(_ vars env i Hi) [D [[HD _ _] HV]]]] := HG _ g Hg. apply: HV. rewrite HD Ep.
    have [Hs Hn] := ds_nodal Hc Hr Hp.
    have Es : size (nodes v r) = ds_space_dimension r by rewrite -Hs; apply: ds_count; apply/leP.
    by rewrite -(Hn i j) ?Es // listE_nth.
  Qed.
End Tables.

Lemma ds_no_mapping : forall (F : Type) (o : ops F) (ofZ : Z -> F) nan fn diff r order ps ent n,
  ds_basis_evaluation o ofZ nan fn diff r order ps ent None n = Err AttributeError.
Proof. by []. Qed.
Lemma ds_no_point : forall (F : Type) r order (x : gem F) ent n, ds_point_evaluation r order x ent n = Err NotImplementedError.
Proof. by []. Qed.
