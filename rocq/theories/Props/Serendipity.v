(** Direct serendipity elements: C35, C36, C37, C55. *)
From mathcomp Require Import all_ssreflect all_algebra.
From Verif Require Import Model.Prelude Model.Gem Model.Serendipity Spec.Partial Spec.Serendipity.
From Verif Require Import Proofs.Newton Proofs.SerendipityConform Proofs.SerendipityMain.
Set Implicit Arguments.
Unset Strict Implicit.
Unset Printing Implicit Defensive.
Import GRing.Theory Num.Theory.
Local Open Scope ring_scope.

(** * C35: where the nodes of the dofs are *)

Theorem C35_vertex_nodes : forall (F : realFieldType) (v : nat -> point F) (r i : nat),
  (i < 4)%N -> nth (0, 0) (nodes v r) i = v i.
Proof. exact node_vertex. Qed.
Print Assumptions C35_vertex_nodes.
Theorem C35_edge_nodes : forall (F : realFieldType) (v : nat -> point F) (r e k : nat),
  (2 <= r)%N -> (e < 4)%N -> (k < r - 1)%N -> nth (0, 0) (nodes v r) (4 + e * (r - 1) + k) = edge_point v r e k.+1.
Proof. exact node_edge. Qed.
Print Assumptions C35_edge_nodes.
Theorem C35_inner_nodes : forall (F : realFieldType) (v : nat -> point F) (r : nat), convex_quad v ->
  forall d, (2 <= r)%N -> (4 + 4 * (r - 1) <= d < size (nodes v r))%N -> within v (nth (0, 0) (nodes v r) d).
Proof. exact ds_node_inner. Qed.
Print Assumptions C35_inner_nodes.
(** These are the points the code returns next to the functions. *)
Theorem C35_nodes : forall (F : realFieldType) (v : nat -> point F) (r : nat), convex_quad v -> (2 <= r)%N ->
  dsr_nodes (partial_ops F) (fun i => somep (v i)) r = map (@somep F) (nodes v r).
Proof. exact ds_nodes. Qed.
Print Assumptions C35_nodes.
Example C35_nodes_trapezium : nodes trapezium 3 =
  [:: (0, 0); (1, 0); (0, 1); (2%:R, 1); (1 / 3%:R, 0); (2%:R / 3%:R, 0); (2%:R / 3%:R, 1); (4%:R / 3%:R, 1);
      (0, 1 / 3%:R); (0, 2%:R / 3%:R); (4%:R / 3%:R, 1 / 3%:R); (5%:R / 3%:R, 2%:R / 3%:R)].
Proof. by apply/eqP; vm_compute. Qed.

(** * C36: the basis is nodal *)

(** Arithmetic is exact and division by zero is undefined. *)
Theorem C36_nodal_iff : forall (F : realFieldType) (v : nat -> point F) (r : nat), convex_quad v -> (2 <= r)%N ->
  nodal (ds_sym (partial_ops F) (fun i => somep (v i)) r) (nodes v r) <-> forall e, (e < 4)%N -> edge_regular v r e.
Proof. exact ds_nodal_iff. Qed.
Print Assumptions C36_nodal_iff.
Theorem C36_nodal : forall (F : realFieldType) (v : nat -> point F) (r : nat), convex_quad v -> (1 <= r)%N ->
  (r <= 3)%N \/ parallelogram v -> nodal (ds_sym (partial_ops F) (fun i => somep (v i)) r) (nodes v r).
Proof. exact ds_nodal. Qed.
Print Assumptions C36_nodal.
Theorem C36_defined : forall (F : realFieldType) (v : nat -> point F) (r : nat), convex_quad v -> (1 <= r)%N ->
  r = 1%N \/ (forall e, (e < 4)%N -> edge_regular v r e) ->
  forall p, in_quad v p ->
  List.Forall (fun f => exists y, f (somep p) = Some y) (ds_sym (partial_ops F) (fun i => somep (v i)) r).
Proof. exact ds_defined. Qed.
Print Assumptions C36_defined.

(** The condition on the edges is not empty: over the real algebraic numbers (or
    any real closed field) there is a convex quadrilateral on which an edge function
    of degree 4 is nowhere defined. *)
Theorem C36_nodal_refuted : forall R : rcfType, exists v : nat -> point R, convex_quad v /\
  forall x, List.nth 4 (ds_sym (partial_ops R) (fun i => somep (v i)) 4) (fun=> Some 0) x = None.
Proof. exact ds_nodal_refuted. Qed.
Print Assumptions C36_nodal_refuted.

Example C36_trapezium : convex_quad trapezium /\ nodal (ds_sym (partial_ops [fieldType of rat]) (fun i => somep (trapezium i)) 3) (nodes trapezium 3).
Proof. split; [exact: trapezium_convex|]. apply: C36_nodal; [exact: trapezium_convex|by []|by left]. Qed.
Example C36_square : parallelogram square /\ nodal (ds_sym (partial_ops [fieldType of rat]) (fun i => somep (square i)) 6) (nodes square 6).
Proof. split; [by []|]. apply: C36_nodal; [exact: square_convex|by []|by right]. Qed.
Example C36_trapezium_value :
  List.nth 4 (ds_sym (partial_ops [fieldType of rat]) (fun i => somep (trapezium i)) 3) (fun=> None) (somep (1 / 3%:R, 0)) = Some 1.
Proof. by apply/eqP; vm_compute. Qed.

(** * C37: Newton's interpolation *)

Theorem C37_newton_poly : forall (F : fieldType) (nds fs : seq F),
  uniq nds -> size fs = size nds -> (0 < size nds)%N ->
  exists p : {poly F}, [/\ (size p <= size nds)%N, forall i, (i < size nds)%N -> p.[nds`_i] = fs`_i
    & forall y, newton_poly (partial_ops F) (map Some nds) (map Some fs) (Some y) = Ok (Some p.[y])].
Proof. exact newton_poly_interpolates. Qed.
Print Assumptions C37_newton_poly.
Theorem C37_lengths : forall (F : Type) (o : ops F) nds fs x, size fs <> size nds -> newton_poly o nds fs x = Err ValueError.
Proof. exact newton_poly_lengths. Qed.
Print Assumptions C37_lengths.
Theorem C37_no_nodes : forall (F : Type) (o : ops F) x, newton_poly o [::] [::] x = Err IndexError.
Proof. exact newton_poly_empty. Qed.
Print Assumptions C37_no_nodes.
Example C37_cubes : uniq ([:: 0; 1; 2%:R; 3%:R] : seq rat) /\
  newton_poly (partial_ops [fieldType of rat]) (map Some [:: 0; 1; 2%:R; 3%:R]) (map Some [:: 0; 1; 8%:R; 27%:R]) (Some (1 / 2%:R))
  = Ok (Some (1 / 8%:R)).
Proof. split; by []. Qed.

(** * C55: continuity and polynomials *)

(** On each edge the functions depend on the nodes of this edge only. *)
Theorem C55_conforming : forall (F : realFieldType) (v : nat -> point F) (r : nat), convex_quad v -> (1 <= r)%N ->
  (r <= 2)%N \/ parallelogram v -> conforming (ds_sym (partial_ops F) (fun i => somep (v i)) r) v r.
Proof. exact ds_conforming. Qed.
Print Assumptions C55_conforming.
Theorem C55_linear : forall (F : realFieldType) (v : nat -> point F), convex_quad v -> forall c p, in_quad v p ->
  interpolant (ds_sym (partial_ops F) (fun i => somep (v i)) 1) (nodes v 1) (linear c) p = Some (linear c p).
Proof. exact ds_linear. Qed.
Print Assumptions C55_linear.
Theorem C55_quadratic : forall (F : realFieldType) (v : nat -> point F), convex_quad v -> forall c p, in_quad v p ->
  interpolant (ds_sym (partial_ops F) (fun i => somep (v i)) 2) (nodes v 2) (quadratic c) p = Some (quadratic c p).
Proof. exact ds_quadratic. Qed.
Print Assumptions C55_quadratic.
(** All polynomials of the degree of the element. *)
Theorem C55_polynomials : forall (F : realFieldType) (v : nat -> point F), convex_quad v -> forall r : nat, (1 <= r)%N ->
  (r <= 2)%N \/ parallelogram v -> forall c p, in_quad v p ->
  interpolant (ds_sym (partial_ops F) (fun i => somep (v i)) r) (nodes v r) (polynomial r c) p = Some (polynomial r c p).
Proof. exact ds_polynomials. Qed.
Print Assumptions C55_polynomials.

(** From degree 3 on both fail on quadrilaterals that are not parallelograms. *)
Theorem C55_conforming_refuted : exists v w : nat -> point [realFieldType of rat], exists p : point [realFieldType of rat],
  [/\ convex_quad v, convex_quad w, v 1%N = w 0%N /\ v 3%N = w 2%N, p = along (v 1%N) (v 3%N) (1 / 2%:R)
    & edge_point v 3 3 1 = edge_point w 3 2 1
      /\ List.nth 10 (ds_sym (partial_ops [fieldType of rat]) (fun i => somep (v i)) 3) (fun=> None) (somep p)
         <> List.nth 8 (ds_sym (partial_ops [fieldType of rat]) (fun i => somep (w i)) 3) (fun=> None) (somep p)].
Proof. exact ds_conforming_refuted. Qed.
Print Assumptions C55_conforming_refuted.
Theorem C55_unity_refuted : exists (v : nat -> point [realFieldType of rat]) (p : point [realFieldType of rat]),
  [/\ convex_quad v, in_quad v p & interpolant (ds_sym (partial_ops [fieldType of rat]) (fun i => somep (v i)) 3) (nodes v 3) (fun=> 1) p = Some (719%:R / 720%:R)].
Proof. exact ds_unity_refuted. Qed.
Print Assumptions C55_unity_refuted.

Example C55_trapezium : in_quad trapezium (1 / 2%:R, 1 / 2%:R) /\
  interpolant (ds_sym (partial_ops [fieldType of rat]) (fun i => somep (trapezium i)) 2) (nodes trapezium 2) (fun p => p.1 * p.2) (1 / 2%:R, 1 / 2%:R)
  = Some (1 / 4%:R).
Proof.
  split; last by apply/eqP; vm_compute.
  by exists (1 / 4%:R), (1 / 4%:R), (3%:R / 8%:R), (1 / 8%:R).
Qed.
Definition quintic (i j : nat) : rat := if (i == 3)%N && (j == 2)%N then 1 else 0.
Example C55_square : [/\ parallelogram square, in_quad square (- (1 / 2%:R), 1 / 3%:R),
    polynomial 5 quintic (- (1 / 2%:R), 1 / 3%:R) = - (1 / 72%:R) :> rat
  & interpolant (ds_sym (partial_ops [fieldType of rat]) (fun i => somep (square i)) 5) (nodes square 5) (polynomial 5 quintic) (- (1 / 2%:R), 1 / 3%:R)
    = Some (polynomial 5 quintic (- (1 / 2%:R), 1 / 3%:R))].
Proof.
  have HP : in_quad square (- (1 / 2%:R), 1 / 3%:R) by exists (1 / 3%:R), (1 / 3%:R), (1 / 6%:R), (1 / 6%:R).
  have HS : parallelogram square by [].
  split; [exact: HS|exact: HP| |].
  - by rewrite /polynomial !big_ord_recl !big_ord0.
  - exact (C55_polynomials square_convex (r := 5) isT (or_intror HS) quintic HP).
Qed.
