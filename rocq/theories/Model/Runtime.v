(** RuntimeTabulated, finat/runtime_tabulated.py. *)
From Coq Require Import String List Arith Bool DecimalString.
From Verif Require Import Model.Prelude Model.Gem Model.PointSet Model.Evaluation.
Import ListNotations.
Open Scope fresh_scope.

(** [str(n)]. *)
Definition str_nat (n : nat) : string := NilEmpty.string_of_uint (Nat.to_uint n).

(** Restriction: None, '+', '-'. *)
Inductive side := Whole | Plus | Minus.

Record runtime := mkRuntime {
  rt_degree : nat; rt_variant : string; rt_shift_axes : nat; rt_restriction : side; rt_continuous : bool
}.

(** RuntimeTabulated.__init__, finat/runtime_tabulated.py:17-45.  [line]: whether
    [cell.get_shape() == LINE].  Simplification: degree and shift_axes are natural
    numbers and continuous is a bool by type, so two of the assertions hold. *)
Definition mk_runtime (line : bool) (degree : nat) (variant : option string) (shift_axes : nat)
    (restriction : option string) (continuous : bool) : result runtime :=
  do! guard line NotImplementedError ;;
  match variant with
  | None => Err AssertionError
  | Some v =>
      do r <- match restriction with
              | None => Ok Whole
              | Some s => if String.eqb s "+" then Ok Plus else if String.eqb s "-" then Ok Minus else Err AssertionError
              end ;;
      Ok (mkRuntime degree v shift_axes r continuous)
  end.

(** RuntimeTabulated.space_dimension, index_shape,
    finat/runtime_tabulated.py:65-66, 100-102. *)
Definition rt_space_dimension (e : runtime) : nat := rt_degree e + 1.

(** The name of a table, finat/runtime_tabulated.py:85-93. *)
Definition rt_name (e : runtime) (alpha : list nat) : string :=
  ("rt_" ++ rt_variant e ++ "_" ++ str_nat (rt_degree e) ++ "_" ++ String.concat "" (map str_nat alpha) ++ "_"
   ++ str_nat (rt_shift_axes e) ++ "_" ++ (if rt_continuous e then "c" else "d") ++ "_"
   ++ match rt_restriction e with Whole => "" | Plus => "p" | Minus => "m" end)%string.

(** RuntimeTabulated.basis_evaluation, finat/runtime_tabulated.py:68-95; the
    dimension of the cell is 1.  [entity] and [coordinate_mapping] are not used. *)
Definition rt_basis_evaluation {F} (e : runtime) (order : nat) (ps : pset F) : fresh (tables (F := F)) :=
  let shape := map ix_extent (ps_indices ps) ++ [rt_space_dimension e] in
  mapF (fun alpha => x <~ partial_indexed (GVariable (rt_name e alpha) shape) (ps_indices ps) ;; fret (alpha, x))
    (flat_map (mis 1) (seq 0 (order + 1))).
