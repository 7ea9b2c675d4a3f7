(** Orientation maps of quadrature rules: C59. *)
From Coq Require Import String List Arith Bool ZArith QArith Qcanon Lia Permutation.
From Verif Require Import Model.Prelude Model.Cell Model.Element Model.Gem Model.PointSet Model.Evaluation Model.Quadrature Model.Orientation.
From Verif Require Import Spec.Rowmajor Spec.Tabulation Spec.Quadrature Spec.QSamples Spec.Orientation Spec.OrientSamples.
From Verif Require Import Proofs.Quad Proofs.Quad2 Proofs.QuadFacts Proofs.Orient Proofs.OrientFacts.
Import ListNotations.
Local Open Scope nat_scope.

(** Apart from the maps the rules are those of C19-C20. *)
Theorem C59_rules : forall F (gl : cell -> nat -> frule F) sch macro c d s n,
  make_quadrature (plain_line gl) (plain_scheme sch) macro c d s n
  = match o_make gl sch macro c d s n with Ok (r, n') => Ok (o_rule r, n') | Err e => Err e end.
Proof. exact (fun F => @make_forget F). Qed.
Print Assumptions C59_rules.

(** One index and one map for each axis of the cell, in order; a ValueError if one
    is missing. *)
Theorem C59_one_map_per_axis : forall F (o : ops F) gl sch macro move, fiat_orientable o move gl sch ->
  forall c d s n r n', no_empty_product c -> o_make gl sch macro c d s n = Ok (r, n') ->
  Forall2 axis_rule (leaves r) (axes c) /\
  ps_indices (q_point_set (o_rule r)) = flat_map (fun l => ps_indices (q_point_set (o_rule l))) (leaves r) /\
  (forall ms, intrinsic_maps r = Ok (map Some ms) <-> Forall2 (fun l m => o_io l = [Some m]) (leaves r) ms) /\
  (intrinsic_maps r = Err ValueError <-> exists l, In l (leaves r) /\ o_io l = [None]) /\
  (forall l, intrinsic_maps r = Ok l -> exists ms, l = map Some ms).
Proof. exact (fun F => @one_map_per_axis F). Qed.
Print Assumptions C59_one_map_per_axis.

(** The point with the permuted indices is the reoriented point, and has the same
    weight. *)
Theorem C59_moves : forall F (o : ops F) vars gl sch macro move, fiat_orientable o move gl sch ->
  ring_theory (f0 o) (f1 o) (fadd o) (fmul o) (fsub o) (fopp o) eq ->
  forall c d s n r n', no_empty_product c -> o_make gl sch macro c d s n = Ok (r, n') ->
  forall ms ios, intrinsic_maps r = Ok (map Some ms) -> Forall2 (fun m io => io < length m) ms ios ->
  forall env env', env_ok (q_point_set (o_rule r)) env ->
    index_values r env' = reorient ms ios (index_values r env) ->
    env_ok (q_point_set (o_rule r)) env' /\
    pt_at (q_point_set (o_rule r)) env' = move_axes move (axes c) ios (pt_at (q_point_set (o_rule r)) env) /\
    exists w, q_weight (o_rule r) = Ok w /\ eval o vars w env' [] = eval o vars w env [].
Proof. exact (fun F => @rule_moves F). Qed.
Print Assumptions C59_moves.

(** So the rule gives the same for a function and for the function reoriented. *)
Theorem C59_invariant : forall F (o : ops F) vars gl sch macro move, fiat_orientable o move gl sch ->
  ring_theory (f0 o) (f1 o) (fadd o) (fmul o) (fsub o) (fopp o) eq ->
  forall c d s n r n', no_empty_product c -> o_make gl sch macro c d s n = Ok (r, n') ->
  forall ms ios, intrinsic_maps r = Ok (map Some ms) -> Forall2 (fun m io => io < length m) ms ios ->
  exists w, q_weight (o_rule r) = Ok w /\ forall f env,
    quad o vars (q_point_set (o_rule r)) w (fun p => f (move_axes move (axes c) ios p)) env
    = quad o vars (q_point_set (o_rule r)) w f env.
Proof. exact (fun F => @quad_invariant F). Qed.
Print Assumptions C59_invariant.

(** Axis permutations are those of the cell, or of the product a quadrilateral is
    treated as. *)
Theorem C59_extrinsic : forall F E (extrinsic : cell -> E) (gl : cell -> nat -> frule F) sch macro c d s n r n',
  o_make gl sch macro c d s n = Ok (r, n') ->
  o_ref_el r = Some (oriented_cell c) /\ extrinsic_map extrinsic r = Ok (extrinsic (oriented_cell c)).
Proof.
  exact (fun F E extrinsic gl sch macro c d s n r n' H =>
    conj (make_ref_el gl sch macro c d s n r n' H)
         (extrinsic_of F E extrinsic r _ (make_ref_el gl sch macro c d s n r n' H))).
Qed.
Print Assumptions C59_extrinsic.

(** A rule made without a cell and maps has neither. *)
Theorem C59_unset : forall F E (extrinsic : cell -> E) (ps : pset F) w r, mk_orule ps w None [None] = Ok r ->
  extrinsic_map extrinsic r = Err ValueError /\ intrinsic_maps r = Err ValueError.
Proof. exact (fun F E => unset F E). Qed.
Print Assumptions C59_unset.

(** F35: given as a generator, the factors of a product are used up before their
    maps are collected; there is no error but an empty tuple of maps. *)
Theorem C59_generator_refuted : exists (rs : list (orule Qc)) c ms,
  Forall2 (fun r m => intrinsic_maps r = Ok [Some m]) rs ms /\ length ms = 2 /\
  intrinsic_maps (mk_otensor (Again rs) c) = Ok (map Some ms) /\
  intrinsic_maps (mk_otensor (Once rs) c) = Ok [] /\
  q_point_set (o_rule (mk_otensor (Once rs) c)) = q_point_set (o_rule (mk_otensor (Again rs) c)).
Proof.
  exists (leaves square_rule), None, [[[0; 1]; [1; 0]]; [[0; 1]; [1; 0]]].
  split; [repeat constructor|]. repeat split.
Qed.
Print Assumptions C59_generator_refuted.

(** Two by two points on a quadrilateral; turning the first axis round sends the
    point (1/4, 3/4) to (3/4, 3/4). *)
Example C59_square :
  o_make pieces centre no_macro (Hypercube 2) (QInt 2) "default" 0 = Ok (square_rule, 2) /\
  (exists ms, intrinsic_maps square_rule = Ok (map Some ms) /\ length ms = 2 /\
     let env x := match x with 0 => 0 | _ => 1 end in let env' (x : nat) := 1 in
     index_values square_rule env' = reorient ms [1; 0] (index_values square_rule env) /\
     pt_at (q_point_set (o_rule square_rule)) env = [odd_over 0 2; odd_over 1 2] /\
     pt_at (q_point_set (o_rule square_rule)) env' = [odd_over 1 2; odd_over 1 2]) /\
  (forall p, move_axes flip (axes (Hypercube 2)) [1; 0] p = map (fun x => 1 - x)%Qc (firstn 1 p) ++ skipn 1 p) /\
  exists w, q_weight (o_rule square_rule) = Ok w /\ forall vars f env,
    quad qops vars (q_point_set (o_rule square_rule)) w (fun p => f (move_axes flip (axes (Hypercube 2)) [1; 0] p)) env
    = quad qops vars (q_point_set (o_rule square_rule)) w f env.
Proof.
  assert (H : o_make pieces centre no_macro (Hypercube 2) (QInt 2) "default" 0 = Ok (square_rule, 2)) by reflexivity.
  split; [exact H|]. split; [|split].
  - exists [[[0; 1]; [1; 0]]; [[0; 1]; [1; 0]]]. repeat split.
  - intros [|x [|y p]]; reflexivity.
  - destruct (C59_invariant Qc qops (fun _ _ => 0%Qc) pieces centre no_macro flip samples_orientable qc_ring
      (Hypercube 2) (QInt 2) "default"%string 0 square_rule 2 (ne_hypercube 2) H [[[0; 1]; [1; 0]]; [[0; 1]; [1; 0]]] [1; 0] eq_refl) as (w & Ew & _).
    { repeat constructor. }
    exists w. split; [exact Ew|]. intros vars f env.
    destruct (C59_invariant Qc qops vars pieces centre no_macro flip samples_orientable qc_ring
      (Hypercube 2) (QInt 2) "default"%string 0 square_rule 2 (ne_hypercube 2) H [[[0; 1]; [1; 0]]; [[0; 1]; [1; 0]]] [1; 0] eq_refl) as (w' & Ew' & V).
    { repeat constructor. }
    rewrite Ew in Ew'. injection Ew' as <-. apply V.
Qed.

(** No map on the triangle, so none for the prism; its cell is known. *)
Example C59_prism : exists r,
  o_make pieces centre no_macro (TPCell [Simplex 2; Simplex 1]) (QInt 2) "default" 0 = Ok (r, 2) /\
  axes (TPCell [Simplex 2; Simplex 1]) = [Simplex 2; Simplex 1] /\
  intrinsic_maps r = Err ValueError /\ map o_io (leaves r) = [[None]; [Some [[0; 1]; [1; 0]]]] /\
  extrinsic_map (fun c => c) r = Ok (TPCell [Simplex 2; Simplex 1]).
Proof. eexists. repeat split; reflexivity. Qed.

Example C59_hand_made : exists r, mk_orule (PPoints PGeneric 1 [[half]] [(0, 1)]) [1%Qc] None [None] = Ok r /\
  intrinsic_maps r = Err ValueError /\ extrinsic_map (fun c => c) r = Err ValueError.
Proof. eexists. repeat split. Qed.
