(** C66: symmetries and components of mixed elements. *)
From Coq Require Import String List Arith ZArith Bool Lia.
From Verif Require Import Model.Prelude Model.Registry Model.UflElement Model.UflOperators Model.UflSymmetry
  Spec.Registry Spec.Rowmajor Spec.UflElement Spec.UflSymmetry Proofs.UflSymmetry Proofs.Rebuild.
Import ListNotations.
Open Scope list_scope.

(** In the vector of all values of a mixed element, a component is represented by another
    exactly if it is so in the part both belong to. *)
Theorem C66_symmetry value_shape e parts sh :
  match e with UMixed _ _ | UVector _ _ _ => True | _ => False end ->
  Forall2 (fun s p => value_shape s = Ok (fst p) /\ u_symmetry s = Ok (snd p)) (u_subs e) parts -> Forall proper parts -> value_shape e = Ok sh ->
  (prod sh = sizes parts -> exists sm, mixed_symmetry value_shape e = Ok sm /\ NoDup (map fst sm) /\
     forall a b, In (a, b) sm <-> exists m n, a = [m] /\ b = [n] /\ represented parts m n) /\
  (prod sh <> sizes parts -> mixed_symmetry value_shape e = Err ValueError).
Proof. exact (mixed_symmetries value_shape e parts sh). Qed.
Print Assumptions C66_symmetry.

(** The symmetry of a part that is not itself mixed; without an answer there is none for the whole. *)
Theorem C66_own e : u_symmetry e =
  match unrestricted e with UMixed _ _ | UVector _ _ _ => Err TypeError | UTensor _ _ _ sym _ _ => Ok sym | _ => Ok [] end.
Proof. exact (own_symmetry e). Qed.
Print Assumptions C66_own.
Theorem C66_failure value_shape e before s after parts sh x :
  match e with UMixed _ _ | UVector _ _ _ => True | _ => False end -> u_subs e = before ++ s :: after ->
  Forall2 (fun s p => value_shape s = Ok (fst p) /\ u_symmetry s = Ok (snd p)) before parts -> Forall proper parts ->
  value_shape s = Ok sh -> u_symmetry s = Err x -> mixed_symmetry value_shape e = Err x.
Proof. exact (mixed_symmetry_fails value_shape e before s after parts sh x). Qed.
Print Assumptions C66_failure.

(** Elements in the plane for the examples and the shapes of their values. *)
Definition leaf (f s : string) (k : Z) (sp : sobolev) (m : string) : uel :=
  UFinite (mkDescription f (Some s) (Order k) (if String.eqb m "identity" then [] else [2]) sp m (Order k)) (Some (Named Triangle)) None None.
Definition p1 : uel := leaf "Lagrange" "CG" 1 H1 "identity".
Definition p2 : uel := leaf "Lagrange" "CG" 2 H1 "identity".
Definition rt : uel := leaf "Raviart-Thomas" "RT" 1 HDiv "contravariant Piola".
Definition on_triangle (f : string) (k : Z) : result uel := mk_finite f (Some (Named Triangle)) (Order k) None None None.
Lemma p1_built : built p1. Proof. assert (H : on_triangle "CG" 1 = Ok p1) by (vm_compute; reflexivity). exact (mk_finite_built _ _ _ _ _ _ _ H). Qed.
Lemma p2_built : built p2. Proof. assert (H : on_triangle "CG" 2 = Ok p2) by (vm_compute; reflexivity). exact (mk_finite_built _ _ _ _ _ _ _ H). Qed.
Lemma rt_built : built rt. Proof. assert (H : on_triangle "RT" 1 = Ok rt) by (vm_compute; reflexivity). exact (mk_finite_built _ _ _ _ _ _ _ H). Qed.
Fixpoint planar (e : uel) : list nat :=
  match e with
  | UFinite d _ _ _ => ds_shape d
  | UMixed _ l => [fold_right (fun s n => prod (planar s) + n) 0 l]
  | UVector _ s n => n :: planar s
  | UTensor _ s sh _ _ _ => sh ++ planar s
  | _ => []
  end.
Definition get (r : result uel) : uel := match r with Ok e => e | Err _ => p1 end.
Definition stress : uel := get (mk_tensor p1 None AutoSym).
Definition velocity : uel := get (mk_vector p2 None).
Lemma stress_built : built stress. Proof. apply (built_tensor p1 None AutoSym); [exact p1_built|vm_compute; reflexivity]. Qed.
Lemma velocity_built : built velocity. Proof. apply (built_vector p2 None); [exact p2_built|vm_compute; reflexivity]. Qed.

(** Pressure, a symmetric stress, pressure: components 0, 1..4, 5. *)
Example C66_stress :
  let e := get (mk_mixed [p2; stress; p2]) in
  planar e = [6] /\ u_symmetry stress = Ok [([1; 0], [0; 1])] /\
  mixed_symmetry (fun s => Ok (planar s)) e = Ok [([3], [2])] /\
  represented [([], []); ([2; 2], [([1; 0], [0; 1])]); ([], [])] 3 2 /\
  Forall proper [([], []); ([2; 2], [([1; 0], [0; 1])]); ([], [])].
Proof.
  cbv zeta. split; [vm_compute; reflexivity|]. split; [vm_compute; reflexivity|]. split; [vm_compute; reflexivity|]. split.
  - exists [([], [])], ([2; 2], [([1; 0], [0; 1])]), [([], [])], [1; 0], [0; 1]. repeat split. left. reflexivity.
  - assert (P : proper ([], [])) by (split; [constructor|intros c d []]). repeat (apply Forall_cons || apply Forall_nil); try exact P. split.
    + cbn. constructor; [intros []|constructor].
    + intros c d [H|[]]. injection H as <- <-. cbn [fst snd]. unfold in_shape. split; repeat constructor.
Qed.
Example C66_restricted : u_symmetry (get (mk_restricted stress "interior")) = Ok [([1; 0], [0; 1])] /\ u_symmetry velocity = Err TypeError.
Proof. split; vm_compute; reflexivity. Qed.

(** The symmetries of Taylor and Hood's element cannot be asked for. *)
Theorem C66_taylor_hood_refuted : exists e, built e /\ (exists a, e = UMixed a [velocity; p1]) /\
  mixed_symmetry (fun s => Ok (planar s)) e = Err TypeError.
Proof.
  exists (get (mk_mixed [velocity; p1])). split; [|split; [eexists; reflexivity|reflexivity]].
  apply (built_mixed [velocity; p1]); [repeat constructor; [exact velocity_built|exact p1_built]|vm_compute; reflexivity].
Qed.
Print Assumptions C66_taylor_hood_refuted.
(** Nor those of a mixed element with a symmetric tensor of vectors. *)
Theorem C66_tensor_values_refuted : exists t e, built t /\ built e /\ (exists a, e = UMixed a [t]) /\
  u_symmetry t = Ok [([1; 0], [0; 1])] /\ planar t = [2; 2; 2] /\
  mixed_symmetry (fun s => Ok (planar s)) e = Err IndexError.
Proof.
  exists (get (mk_tensor rt None AutoSym)), (get (mk_mixed [get (mk_tensor rt None AutoSym)])).
  assert (B : built (get (mk_tensor rt None AutoSym))) by (apply (built_tensor rt None AutoSym); [exact rt_built|vm_compute; reflexivity]).
  split; [exact B|]. split; [apply (built_mixed [get (mk_tensor rt None AutoSym)]); [repeat constructor; exact B|vm_compute; reflexivity]|].
  split; [eexists; reflexivity|]. repeat split.
Qed.
Print Assumptions C66_tensor_values_refuted.

(** The degree of a component, and whether it is constant in each cell, cannot be asked for,
    although its element is found. *)
Theorem C66_components e c : is_mixed e -> component_degree e (Some c) = Err TypeError /\ component_constant e c = Err TypeError.
Proof. exact (components_missing e c). Qed.
Print Assumptions C66_components.
Theorem C66_components_refuted : exists e c i s, built e /\ is_mixed e /\ extract_reference_component e c = Ok (i, s) /\
  component_degree e None = Ok (DInt 2) /\ u_degree s = DInt 1 /\ component_degree e (Some c) = Err TypeError.
Proof.
  exists (get (mk_mixed [p2; p1])), [1%Z], [], p1. split.
  { apply (built_mixed [p2; p1]); [repeat constructor; [exact p2_built|exact p1_built]|vm_compute; reflexivity]. }
  repeat split.
Qed.
Print Assumptions C66_components_refuted.
