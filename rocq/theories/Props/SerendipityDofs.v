(** Direct serendipity elements, numbering of the dofs: C35 (with Props.Serendipity). *)
From Coq Require Import List Arith Lia ZArith.
From Verif Require Import Model.Prelude Model.Cell Model.Element Model.Gem Model.Serendipity Spec.EntityDofs Spec.ZSamples.
From Verif Require Import Proofs.SerendipityDofs.
Import ListNotations.

(** The dictionary partitions the dofs over the entities of the quadrilateral. *)
Theorem C35_entity_dofs : forall r, 1 <= r ->
  edofs_ok (topology (Hypercube 2)) (ds_space_dimension r) (ds_entity_dofs r).
Proof. exact ds_dofs_ok. Qed.
Print Assumptions C35_entity_dofs.
Example C35_entity_dofs_cubic : ds_space_dimension 3 = 12 /\
  ds_entity_dofs 3 = [(DI 0, [(0, [0]); (1, [1]); (2, [2]); (3, [3])]);
                      (DI 1, [(0, [4; 5]); (1, [6; 7]); (2, [8; 9]); (3, [10; 11])]);
                      (DI 2, [(0, [])])].
Proof. split; reflexivity. Qed.

(** One dof per vertex, [r - 1] per edge, [(r - 2) (r - 3) / 2] inside, in this
    order. *)
Theorem C35_placement : forall r, 1 <= r -> ds_entity_dofs r =
  [(DI 0, map (fun i => (i, [i])) (seq 0 4));
   (DI 1, map (fun i => (i, seq (4 + i * (r - 1)) (r - 1))) (seq 0 4));
   (DI 2, [(0, seq (4 + 4 * (r - 1)) (ds_space_dimension r - (4 + 4 * (r - 1))))])].
Proof. exact ds_dofs_shape. Qed.
Print Assumptions C35_placement.
Theorem C35_dimension : forall r, 1 <= r ->
  2 * ds_space_dimension r = 2 * (4 + 4 * (r - 1)) + (r - 2) * (r - 3).
Proof. exact dimension_split. Qed.
Print Assumptions C35_dimension.
Example C35_dimension_small : map ds_space_dimension [1; 2; 3; 4; 5; 6] = [4; 8; 12; 17; 23; 30].
Proof. reflexivity. Qed.

(** Exactly that many functions are made. *)
Theorem C35_functions : forall F (o : ops F) vs r, 1 <= r -> length (ds_sym o vs r) = ds_space_dimension r.
Proof. exact @ds_count. Qed.
Print Assumptions C35_functions.
Example C35_functions_quintic : length (ds_sym zops (fun i => (Z.of_nat (i mod 2), Z.of_nat (i / 2))) 5) = 23.
Proof. apply (C35_functions Z zops _ 5). lia. Qed.
