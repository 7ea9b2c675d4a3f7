(** The samples meet the contracts. *)
From Coq Require Import String ZArith.
From mathcomp Require Import all_ssreflect all_algebra.
From mathcomp Require Import zify ring.
From Verif Require Import Model.Prelude Model.Cell Model.Gem Model.PointSet Model.Sympy2Gem Model.SerendipityEvaluation.
From Verif Require Import Spec.Partial Spec.Algebra Spec.Sympy Spec.PointEvaluation Spec.Serendipity Spec.SerendipityEvaluation
  Spec.SerendipitySamples Proofs.SerendipityMain.
Set Implicit Arguments.
Unset Strict Implicit.
Unset Printing Implicit Defensive.
Import GRing.Theory Num.Theory.
Local Open Scope ring_scope.
Local Notation Q := [realFieldType of rat].

Lemma sample_functions : functions_ok (ring_ops Q) sample_xops sample_fn.
Proof. constructor=> // x. by rewrite /nonzero negbK. Qed.

Lemma occurs_derive s t e : occurs t (derive s e) -> occurs t e.
Proof.
  elim: e => //= [u|a IHa b IHb|a IHa b IHb|a IHa b IHb|a IHa b IHb]; try tauto.
  by case: (String.eqb s u).
Qed.
Lemma occurs_derivative l t e : occurs t (derive_all l e) -> occurs t e.
Proof. by elim: l e => [|s l IH] e //= /IH /occurs_derive. Qed.
Lemma expression_translatable (bound : string -> Prop) e : (forall s, occurs s e -> bound s) -> translatable bound (expression_of e).
Proof.
  elim: e => /= [n|s|a IHa b IHb|a IHa b IHb|a IHa b IHb|a IHa|a IHa b IHb] H; repeat (constructor=> //; auto);
    try (apply: IHa; auto); try (apply: IHb; auto).
Qed.
Lemma ofZ_nat n : sample_ofZ (Z.of_nat n) = n%:R.
Proof. by case: n => //= n; rewrite SuccNat2Pos.id_succ. Qed.
Lemma expression_value (rho : string -> option rat) e y : rvalue rho e = Some y ->
  smean (ring_ops Q) sample_xops sample_ofZ 0 rho (expression_of e) = Some (VNum y).
Proof.
  elim: e y => /= [n|s|a IHa b IHb|a IHa b IHb|a IHa b IHb|a IHa|a IHa b IHb] y.
  - by case=> <-; rewrite ofZ_nat.
  - by move=> ->.
  - case Ea: (rvalue rho a) => [ya|] //; case Eb: (rvalue rho b) => [yb|] // -[<-]. by rewrite (IHa _ Ea) (IHb _ Eb) /= addr0.
  - case Ea: (rvalue rho a) => [ya|] //; case Eb: (rvalue rho b) => [yb|] // -[<-]. by rewrite (IHa _ Ea) (IHb _ Eb) /= mulr1.
  - case Ea: (rvalue rho a) => [ya|] //; case Eb: (rvalue rho b) => [yb|] // -[<-]. by rewrite (IHa _ Ea) (IHb _ Eb) /= addr0 mulr1 mulN1r.
  - case Ea: (rvalue rho a) => [ya|] // -[<-]. by rewrite (IHa _ Ea) /= mulr1 mulN1r.
  - case Ea: (rvalue rho a) => [ya|] //; case Eb: (rvalue rho b) => [yb|] //; case: eqP => // _ -[<-].
    by rewrite (IHa _ Ea) (IHb _ Eb) /= mulr1.
Qed.
Lemma sample_differentiates : differentiates (F := [fieldType of rat]) sample_xops sample_ofZ 0 sample_diff.
Proof.
  move=> e l; split=> [bound H|rho y /expression_value //].
  by apply: expression_translatable => s /occurs_derivative; auto.
Qed.
Lemma sample_maps : maps_points (F := Q) sample_mapping sample_points None
  (GLiteral (mkArr [:: 2; 2]%N [:: 3%:R / 4%:R; 1 / 2%:R; 3%:R / 2%:R; 1 / 2%:R])) 1 1.
Proof.
  by split=> // i [<-|].
Qed.
Lemma sample_node : convex_quad trapezium /\
  (forall i, (i < 4)%N -> vertices_at (F := Q) (fun _ _ => 0) (fun=> 1%N) (physical_vertices sample_mapping) i = trapezium i) /\
  (3%:R / 2%:R, 1 / 2%:R) = nth (0, 0) (nodes trapezium 2) 7 /\ in_quad trapezium (3%:R / 4%:R, 1 / 2%:R).
Proof.
  split; first exact: trapezium_convex. split; first by case=> [|[|[|[|]]]].
  split; first by apply/eqP; vm_compute. by exists (1 / 4%:R), (1 / 4%:R), (1 / 4%:R), (1 / 4%:R).
Qed.
Lemma documented_points : exists (cm : mapping rat) (ps : pset rat) (pts : gem rat) (n n1 : nat),
  [/\ gshape (physical_vertices cm) = [:: 4; 2]%N, physical_points cm ps None n = Ok (pts, n1), gshape pts = [:: 2]%N,
      gfree pts = [seq ix_id j | j <- ps_indices ps]
    & forall diff r order, ds_basis_evaluation (ring_ops Q) sample_ofZ 0 sample_fn diff r order ps None (Some cm) n = Err ValueError].
Proof.
  exists (mkMapping (fun ps _ => ps_expression ps) (physical_vertices sample_mapping)),
    (PPoints PGeneric 2 [:: [:: 0; 0]; [:: 1; 0]; [:: 0; 1]] [:: (0, 3)%N]).
  by do 3 eexists; split; last by move=> diff r order; instantiate (1 := 1%N).
Qed.
