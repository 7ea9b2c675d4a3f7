(** Tabulation of direct serendipity elements: C58. *)
From Coq Require Import String ZArith.
From Coq Require List.
From mathcomp Require Import all_ssreflect all_algebra.
From Verif Require Import Model.Prelude Model.Cell Model.Gem Model.PointSet Model.Sympy2Gem Model.Serendipity Model.SerendipityEvaluation.
From Verif Require Import Spec.Partial Spec.Algebra Spec.Sympy Spec.Tabulation Spec.PointEvaluation Spec.Serendipity
  Spec.SerendipityEvaluation Spec.SerendipitySamples.
From Verif Require Import Proofs.SerendipityDeriv Proofs.SerendipityMain Proofs.SerendipityValues Proofs.SerendipitySamples.
Set Implicit Arguments.
Unset Strict Implicit.
Unset Printing Implicit Defensive.
Import GRing.Theory Num.Theory.
Local Open Scope ring_scope.

(** * C58: tables of direct serendipity elements *)

(** One table for each derivative up to the order; the entries are the derivatives
    of the functions (C35 to C37, C55) on the physical cell at the physical point. *)
Theorem C58_tabulation : forall (F : realFieldType) (xo : xops F) (ofZ : Z -> F) (nan : F) (fn : string -> list F -> F)
    (diff : rexpr -> list string -> snode F),
  functions_ok (ring_ops F) xo fn -> xeq xo 0 0 = true -> xeq xo 1 0 = false -> differentiates xo ofZ nan diff ->
  forall r order ps ent cm pts n n1, (1 <= r)%N -> maps_points cm ps ent pts n n1 ->
  exists ts n', ds_basis_evaluation (ring_ops F) ofZ nan fn diff r order ps ent (Some cm) n = Ok (ts, n') /\ (n <= n')%N /\
    derivative_keys 2 order (List.map fst ts) /\
    forall alpha g, List.In (alpha, g) ts -> gshape g = [:: ds_space_dimension r] /\
      List.incl (gfree g) (gfree (physical_vertices cm) ++ gfree pts ++ [seq ix_id j | j <- ps_indices ps]) /\
      forall vars env i, (i < ds_space_dimension r)%N ->
        let v := vertices_at vars env (physical_vertices cm) in
        let f p := List.nth i (ds_sym (partial_ops F) (fun j => somep (v j)) r) (fun=> None) (somep p) in
        exists D, partial_derivatives f D /\
          forall y, D alpha (point_at vars env pts (ps_indices ps)) = Some y -> eval (ring_ops F) vars g env [:: i] = y.
Proof. exact ds_tables. Qed.
Print Assumptions C58_tabulation.

(** Inside the quadrilateral all of them are defined. *)
Theorem C58_inside : forall (F : realFieldType) (xo : xops F) (ofZ : Z -> F) (nan : F) (fn : string -> list F -> F)
    (diff : rexpr -> list string -> snode F),
  functions_ok (ring_ops F) xo fn -> xeq xo 0 0 = true -> xeq xo 1 0 = false -> differentiates xo ofZ nan diff ->
  forall r order ps ent cm pts n n1, (1 <= r)%N -> maps_points cm ps ent pts n n1 ->
  exists ts n', ds_basis_evaluation (ring_ops F) ofZ nan fn diff r order ps ent (Some cm) n = Ok (ts, n') /\
    forall alpha g vars env i, List.In (alpha, g) ts -> (i < ds_space_dimension r)%N ->
      let v := vertices_at vars env (physical_vertices cm) in
      let p := point_at vars env pts (ps_indices ps) in
      let f p := List.nth i (ds_sym (partial_ops F) (fun j => somep (v j)) r) (fun=> None) (somep p) in
      convex_quad v -> r = 1%N \/ (forall e, (e < 4)%N -> edge_regular v r e) -> in_quad v p ->
      exists D, partial_derivatives f D /\ D alpha p = Some (eval (ring_ops F) vars g env [:: i]).
Proof. exact ds_inside. Qed.
Print Assumptions C58_inside.

(** At the nodes the table of values is the identity. *)
Theorem C58_nodal : forall (F : realFieldType) (xo : xops F) (ofZ : Z -> F) (nan : F) (fn : string -> list F -> F)
    (diff : rexpr -> list string -> snode F),
  functions_ok (ring_ops F) xo fn -> xeq xo 0 0 = true -> xeq xo 1 0 = false -> differentiates xo ofZ nan diff ->
  forall r order ps ent cm pts n n1, (1 <= r)%N -> maps_points cm ps ent pts n n1 ->
  exists ts n', ds_basis_evaluation (ring_ops F) ofZ nan fn diff r order ps ent (Some cm) n = Ok (ts, n') /\
    forall g vars env i j, List.In ([:: 0; 0]%N, g) ts -> (i < ds_space_dimension r)%N -> (j < ds_space_dimension r)%N ->
      let v := vertices_at vars env (physical_vertices cm) in
      convex_quad v -> (r <= 3)%N \/ parallelogram v -> point_at vars env pts (ps_indices ps) = nth (0, 0) (nodes v r) j ->
      eval (ring_ops F) vars g env [:: i] = (i == j)%:R.
Proof. exact ds_identity. Qed.
Print Assumptions C58_nodal.

(** The rules of differentiation, for any rational expression: wherever it has a
    value so has its derivative, and this is the slope. *)
Theorem C58_rules : forall (F : fieldType) (s : string) (rho : string -> option F) (x : F) (e : rexpr) (y : F),
  rho s = Some x -> rvalue rho e = Some y ->
  exists d, rvalue rho (derive s e) = Some d /\
    exists P Q : {poly F}, Q.[0] != 0 /\
      forall h, Q.[h] != 0 -> rvalue (set_symbol rho s (x + h)) e = Some (y + h * d + h ^+ 2 * (P.[h] / Q.[h])).
Proof. exact expands_ok. Qed.
Print Assumptions C58_rules.

(** Without a coordinate mapping there is no tabulation, and none at symbolic points. *)
Theorem C58_no_mapping : forall (F : Type) (o : ops F) (ofZ : Z -> F) nan fn diff r order ps ent n,
  ds_basis_evaluation o ofZ nan fn diff r order ps ent None n = Err AttributeError.
Proof. exact ds_no_mapping. Qed.
Print Assumptions C58_no_mapping.
Theorem C58_symbolic_point : forall (F : Type) r order (x : gem F) ent n,
  ds_point_evaluation r order x ent n = Err NotImplementedError.
Proof. exact ds_no_point. Qed.
Print Assumptions C58_symbolic_point.

(** The points must come with the axes of the point set in front.  The docstring of
    [physical_points] asks for a vector with the indices of the point set free. *)
Theorem C58_documented_points_refuted : exists (cm : mapping rat) (ps : pset rat) (pts : gem rat) (n n1 : nat),
  [/\ gshape (physical_vertices cm) = [:: 4; 2]%N, physical_points cm ps None n = Ok (pts, n1), gshape pts = [:: 2]%N,
      gfree pts = [seq ix_id j | j <- ps_indices ps]
    & forall diff r order,
        ds_basis_evaluation (ring_ops [realFieldType of rat]) sample_ofZ 0 sample_fn diff r order ps None (Some cm) n = Err ValueError].
Proof. exact documented_points. Qed.
Print Assumptions C58_documented_points_refuted.

(** The map [(X, Y) |-> (X + X Y, Y)] takes the unit square to a trapezium. *)
Definition C58_run (r : nat) := ds_basis_evaluation (ring_ops [realFieldType of rat]) sample_ofZ 0 sample_fn sample_diff r 1%N sample_points None (Some sample_mapping) 1%N.
Example C58_contracts :
  [/\ functions_ok (ring_ops [realFieldType of rat]) sample_xops sample_fn,
      differentiates (F := [fieldType of rat]) sample_xops sample_ofZ 0 sample_diff
    & maps_points (F := [realFieldType of rat]) sample_mapping sample_points None
        (GLiteral (mkArr [:: 2; 2]%N [:: 3%:R / 4%:R; 1 / 2%:R; 3%:R / 2%:R; 1 / 2%:R])) 1 1].
Proof. split; [exact: sample_functions | exact: sample_differentiates | exact: sample_maps]. Qed.

(** The entries at the point [q] of the set. *)
Definition C58_entries (r q : nat) : list (list nat * list rat) :=
  match C58_run r with
  | Ok (ts, _) => [seq (t.1, [seq eval (ring_ops [realFieldType of rat]) (fun _ _ => 0) t.2 (fun=> q) [:: i] | i <- iota 0 (ds_space_dimension r)]) | t <- ts]
  | Err _ => [::]
  end.
Example C58_trapezium : C58_entries 2 1 =
  [:: ([:: 0; 0]%N, [:: 0; 0; 0; 0; 0; 0; 0; 1]);
      ([:: 1; 0]%N, [:: 2%:R; 2%:R; 1 / 4%:R; 1 / 4%:R; - 4%:R; - (1 / 2%:R); - (2%:R / 3%:R); 2%:R / 3%:R]);
      ([:: 0; 1]%N, [:: - 2%:R; - 3%:R; - (1 / 4%:R); 3%:R / 4%:R; 4%:R; 1 / 2%:R; 2%:R / 3%:R; - (2%:R / 3%:R)])].
Proof. by apply/eqP; vm_compute. Qed.
Example C58_trapezium_node : convex_quad trapezium /\
  (forall i, (i < 4)%N -> vertices_at (F := [realFieldType of rat]) (fun _ _ => 0) (fun=> 1%N) (physical_vertices sample_mapping) i = trapezium i) /\
  (3%:R / 2%:R, 1 / 2%:R) = nth (0, 0) (nodes trapezium 2) 7 /\ in_quad trapezium (3%:R / 4%:R, 1 / 2%:R).
Proof. exact sample_node. Qed.
