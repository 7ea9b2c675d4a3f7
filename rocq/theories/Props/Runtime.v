(** Elements tabulated at run time: C39. *)
From Coq Require Import String List Arith Lia ZArith.
From Verif Require Import Model.Prelude Model.Gem Model.PointSet Model.Evaluation Model.Runtime Spec.Tabulation.
From Verif Require Import Proofs.Runtime.
Import ListNotations.

(** Names determine the element and the derivative. *)
Theorem C39_names : forall e e' alpha alpha', length alpha = 1 -> length alpha' = 1 ->
  rt_name e alpha = rt_name e' alpha' -> e = e' /\ alpha = alpha'.
Proof. exact names_differ. Qed.
Print Assumptions C39_names.

(** The tables have the advertised shape; their entries are those of the array
    with this name, point indices first. *)
Theorem C39_tables : forall F (e : runtime) order (ps : pset F) n, (forall i, In i (ps_indices ps) -> ix_id i < n) ->
  exists ts n', rt_basis_evaluation e order ps n = Ok (ts, n') /\ n <= n' /\ derivative_keys 1 order (map fst ts) /\
    forall alpha g, In (alpha, g) ts -> gshape g = [rt_degree e + 1] /\ incl (gfree g) (map ix_id (ps_indices ps)) /\
      forall o vars env i, eval o vars g env [i] = vars (rt_name e alpha) (map (fun j => env (ix_id j)) (ps_indices ps) ++ [i]).
Proof. exact runtime_tables. Qed.
Print Assumptions C39_tables.

Theorem C39_arguments : forall line d v s r c, (exists e, mk_runtime line d v s r c = Ok e) <->
  line = true /\ v <> None /\ (r = None \/ r = Some "+"%string \/ r = Some "-"%string).
Proof. exact runtime_init. Qed.
Print Assumptions C39_arguments.
Theorem C39_construction : forall line d v s r c,
  (line = false -> mk_runtime line d v s r c = Err NotImplementedError) /\
  (line = true -> v = None -> mk_runtime line d v s r c = Err AssertionError) /\
  (line = true -> forall t, r = Some t -> t <> "+"%string -> t <> "-"%string -> mk_runtime line d v s r c = Err AssertionError) /\
  (forall e, mk_runtime line d v s r c = Ok e ->
     rt_degree e = d /\ v = Some (rt_variant e) /\ rt_shift_axes e = s /\ rt_continuous e = c /\
     r = match rt_restriction e with Whole => None | Plus => Some "+"%string | Minus => Some "-"%string end).
Proof. exact runtime_outcome. Qed.
Print Assumptions C39_construction.
Example C39_minus : mk_runtime true 2 (Some "gll"%string) 1 (Some "-"%string) true = Ok (mkRuntime 2 "gll" 1 Minus true) /\
  mk_runtime true 2 (Some "gll"%string) 1 (Some "x"%string) true = Err AssertionError.
Proof. split; reflexivity. Qed.

(** The point set is not part of the name. *)
Theorem C39_point_sets_refuted : exists (e : runtime) (ps ps' : pset Z) sh sh' g g' n n',
  rt_basis_evaluation e 0 ps 2 = Ok ([([0], g)], n) /\ rt_basis_evaluation e 0 ps' 2 = Ok ([([0], g')], n') /\
  (exists mi js, g = GComponentTensor (GIndexed (GVariable (rt_name e [0]) sh) mi) js) /\
  (exists mi js, g' = GComponentTensor (GIndexed (GVariable (rt_name e [0]) sh') mi) js) /\ sh <> sh'.
Proof. exact names_point_sets. Qed.
Print Assumptions C39_point_sets_refuted.

(** Underscores in the variant do no harm. *)
Example C39_variants :
  rt_name (mkRuntime 2 "a_3" 1 Plus true) [0] = "rt_a_3_2_0_1_c_p"%string /\
  rt_name (mkRuntime 3 "a" 2 Plus true) [0] <> rt_name (mkRuntime 2 "a_3" 2 Plus true) [0].
Proof. split; [reflexivity|discriminate]. Qed.
Example C39_table_shape : exists g n, rt_basis_evaluation (mkRuntime 2 "gll" 0 Whole false) 1 (PPoints (F := Z) PGeneric 1 [[1%Z]; [2%Z]] [(0, 2)]) 5
  = Ok (g, n) /\ map fst g = [[0]; [1]] /\ map (fun x => gshape (snd x)) g = [[3]; [3]].
Proof. eexists _, _. split; [reflexivity|]. split; reflexivity. Qed.
