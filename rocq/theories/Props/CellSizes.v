(** Property C68, continued: cells that have different sizes at a common vertex. *)
From mathcomp Require Import all_ssreflect all_algebra.
From Verif Require Import Model.Prelude Model.Cell Model.Zany Model.PiolaElements.
From Verif Require Import Spec.Algebra Spec.PiolaElements Spec.PiolaSamples Spec.PiolaConformity Proofs.PiolaShapes Proofs.CellSizes.
Local Open Scope ring_scope.
Local Notation Q := [realFieldType of rat].

(** Without the condition on cell sizes [C68_arnold_winther] fails: two cells
    with a common edge, cubic bases and coefficients that agree for the dofs at
    its ends and on it, for which the fields times the normal differ. *)
Theorem C68_arnold_winther_sizes_refuted : exists (K K' : pcell Q 1 (mfield Q 1)) M M' (a a' : nat -> rat),
  [/\ mbased cell2 21 3 (vertex_edge_nodes 2) K, mbased cell2 21 3 (vertex_edge_nodes 2) K' & same_facet (pfacet cell2 K 0) (pfacet cell2 K' 1)] /\
  aw_transformation (ring_ops Q) 21 21 cell2 (pgeo K) = Ok M /\ aw_transformation (ring_ops Q) 21 21 cell2 (pgeo K') = Ok M' /\
  (forall k, (k <= 1)%N -> same_from a (3 * facet_vertex cell2 0 k) a' (3 * facet_vertex cell2 1 k) 3) /\
  same_from a (9 + 0 * 4) a' (9 + 1 * 4) 4 /\
  ~ traction_continuous (pfacet cell2 K 0) (mfield_of 21 21 M K a) (mfield_of 21 21 M' K' a') 0 0.
Proof. exact sizes_matter. Qed.
Print Assumptions C68_arnold_winther_sizes_refuted.
