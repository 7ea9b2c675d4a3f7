(** Matrix fields on cells whose sizes at common vertices differ. *)
From mathcomp Require Import all_ssreflect all_algebra ring.
From SsrMultinomials Require Import mpoly.
From Verif Require Import Model.Prelude Model.Gem Model.Cell Model.Element Model.Zany Model.PiolaElements.
From Verif Require Import Spec.Algebra Spec.Polynomials Spec.PiolaElements Spec.PiolaSamples Spec.PiolaConformity.
From Verif Require Import Proofs.Determinant Proofs.PiolaFacts Proofs.Polynomials Proofs.PiolaFields Proofs.PiolaMatrices Proofs.PiolaSamples.
From Verif Require Import Proofs.PiolaConformity Proofs.PiolaConformity2 Proofs.PiolaNeighbours Proofs.PiolaShapes.
Set Implicit Arguments.
Unset Strict Implicit.
Unset Printing Implicit Defensive.
Import GRing.Theory Num.Theory.
Local Open Scope ring_scope.
Local Notation Q := [realFieldType of rat].

(** The second triangle of Proofs/PiolaNeighbours.v, with twice the size at the
    first end of the common edge. *)
Definition g2s : geometry (F := rat) := mkGeometry (fun _ => at_ table2') (fun _ => 8%:R)
  (fun v => nth 1 [:: 4%:R; 5%:R; 3%:R] v) (fun _ _ => 0) (fun _ _ => 0) (fun _ _ => 0) (fun _ => 1).
Lemma g2s_provides : @provides Q 1 g2s J2'.
Proof.
have [h1 [h2 [h3 _]]] := g2'_provides; split; first exact: h1.
split; first exact: h2.
split; first exact: h3.
by case=> [|[|[|v]]].
Qed.

Lemma same_ends k : (k <= 1)%N ->
  same_from (left_vertices 2) (3 * facet_vertex cell2 0 k) (right_vertices 2) (3 * facet_vertex cell2 1 k) 3.
Proof.
case: k => [|[|k]] hk; last by [].
- by move=> r hr; case: r hr => [|[|[|r]]] hr; [vm_compute|vm_compute|vm_compute|].
- by move=> r hr; case: r hr => [|[|[|r]]] hr; [vm_compute|vm_compute|vm_compute|].
Qed.

Lemma plain_dof (K : pcell Q 1 (mfield Q 1)) M a i : mbased cell2 21 3 (vertex_edge_nodes 2) K ->
  transforms_matrices cell2 (pgeo K) (pmatrix K) (porigin K) 21 21 (vertex_edge_nodes 2) M -> (i < 21)%N ->
  mdof (physical_place (pmatrix K) (porigin K) (@cell_facet Q 1 cell2) (cell_size (pgeo K)) (mpreimage (pmatrix K) (porigin K)))
    (vertex_edge_nodes 2 i) (mfield_of 21 21 M K a) = a i.
Proof.
move=> hK hM hi; rewrite (mfield_dof (fun i _ => vertex_edge_linear 2 i) a hK hM hi) hi; by [].
Qed.

Lemma vertex_dof J b X h back p v x i j (s : mfield Q 1) :
  mdof (physical_place J b X h back) (MVertex p v x i j) s = h v ^+ 2 * (s p i j).@[image (affine J b) x].
Proof. by []. Qed.
Lemma node0 : vertex_edge_nodes 2 0 = MVertex 0 0 (@cell_vertex Q 1 cell2 0) 0 0.
Proof. by []. Qed.
Lemma node1 : vertex_edge_nodes 2 1 = MVertex 0 0 (@cell_vertex Q 1 cell2 0) 0 1.
Proof. by []. Qed.
Lemma node3 : vertex_edge_nodes 2 3 = MVertex 0 1 (@cell_vertex Q 1 cell2 1) 0 0.
Proof. by []. Qed.
Lemma node4 : vertex_edge_nodes 2 4 = MVertex 0 1 (@cell_vertex Q 1 cell2 1) 0 1.
Proof. by []. Qed.
Lemma size1 : cell_size g2 1 = 2%:R.
Proof. by []. Qed.
Lemma size0 : cell_size g2s 0 = 4%:R.
Proof. by []. Qed.
Lemma left3 : left_vertices 2 3 = 1.
Proof. by []. Qed.
Lemma left4 : left_vertices 2 4 = 2%:R.
Proof. by []. Qed.
Lemma right0 : right_vertices 2 0 = 1.
Proof. by []. Qed.
Lemma right1 : right_vertices 2 1 = 2%:R.
Proof. by []. Qed.

Lemma two (G : 'I_2 -> rat) : \sum_k G k = G 0 + G 1.
Proof. by rewrite !big_ord_recl big_ord0 addr0; congr (G _ + G _); apply: val_inj. Qed.
Lemma normal_of field (K : pcell Q 1 field) : pmatrix K = J2 -> porigin K = b2 ->
  fnormal (pfacet cell2 K 0) 0 0 = 12%:R /\ fnormal (pfacet cell2 K 0) 1 0 = 2%:R.
Proof.
move=> e2 e3; rewrite fnormal2 /pfacet !mxE e2 e3 !affine_image !two !mxE.
by split; apply/eqP; vm_compute.
Qed.
Lemma clash (s t s' t' : rat) : 2%:R ^+ 2 * s = 1 -> 2%:R ^+ 2 * t = 2%:R -> 4%:R ^+ 2 * s' = 1 -> 4%:R ^+ 2 * t' = 2%:R ->
  s * 12%:R + t * 2%:R = s' * 12%:R + t' * 2%:R -> False.
Proof.
move=> h1 h2 h3 h4 h.
have e : 4%:R * (12%:R * (2%:R ^+ 2 * s) + 2%:R * (2%:R ^+ 2 * t)) = 12%:R * (4%:R ^+ 2 * s') + 2%:R * (4%:R ^+ 2 * t') :> rat.
  have -> : 12%:R * (4%:R ^+ 2 * s') + 2%:R * (4%:R ^+ 2 * t') = 16%:R * (s' * 12%:R + t' * 2%:R) :> rat by ring.
  by rewrite -h; ring.
by move/eqP: e; rewrite h1 h2 h3 h4; vm_compute.
Qed.
Lemma traction_clash (X : facet Q 1) (S S' : mfield Q 1) : fnormal X 0 0 = 12%:R -> fnormal X 1 0 = 2%:R ->
  2%:R ^+ 2 * (S 0%N 0 0).@[X 0%N] = 1 -> 2%:R ^+ 2 * (S 0%N 0 1).@[X 0%N] = 2%:R ->
  4%:R ^+ 2 * (S' 0%N 0 0).@[X 0%N] = 1 -> 4%:R ^+ 2 * (S' 0%N 0 1).@[X 0%N] = 2%:R ->
  (mvalue S 0 (facet_point X (fun _ => 0)) *m fnormal X) 0 0 = (mvalue S' 0 (facet_point X (fun _ => 0)) *m fnormal X) 0 0 -> False.
Proof.
move=> n0 n1 h1 h2 h3 h4.
have at0 : forall i, (facet_point X (fun _ => 0)) i = X 0%N i by move=> i; rewrite /facet_point big_ord1 mul0r addr0.
rewrite [in LHS]mxE [in RHS]mxE !two n0 n1 ![mvalue _ _ _ _ _]mxE !(meval_eq _ at0); exact: clash.
Qed.

Lemma sizes_matter : exists (K K' : pcell Q 1 (mfield Q 1)) M M' (a a' : nat -> rat),
  [/\ mbased cell2 21 3 (vertex_edge_nodes 2) K, mbased cell2 21 3 (vertex_edge_nodes 2) K' & same_facet (pfacet cell2 K 0) (pfacet cell2 K' 1)] /\
  aw_transformation (ring_ops Q) 21 21 cell2 (pgeo K) = Ok M /\ aw_transformation (ring_ops Q) 21 21 cell2 (pgeo K') = Ok M' /\
  (forall k, (k <= 1)%N -> same_from a (3 * facet_vertex cell2 0 k) a' (3 * facet_vertex cell2 1 k) 3) /\
  same_from a (9 + 0 * 4) a' (9 + 1 * 4) 4 /\
  ~ traction_continuous (pfacet cell2 K 0) (mfield_of 21 21 M K a) (mfield_of 21 21 M' K' a') 0 0.
Proof.
have [K [e1 e2 e3 hK]] := cubic_cells b2 g2_provides.
have [K' [e1' e2' e3' hK']] := cubic_cells b2' g2s_provides.
have hl i : (i < 21)%N -> _ := fun _ => vertex_edge_linear 2 i.
have [M [eM hM]] := PiolaMatrices.aw_transforms b2 cell2_fiat g2_provides (leqnn 21) (leqnn 21) hl.
have [M' [eM' hM']] := PiolaMatrices.aw_transforms b2' cell2_fiat g2s_provides (leqnn 21) (leqnn 21) hl.
have hm : same_facet (pfacet cell2 K 0) (pfacet cell2 K' 1) by exact: neighbours2.
exists K, K', M, M', (left_vertices 2), (right_vertices 2); split; first by split.
split; first by rewrite e1; exact: eM.
split; first by rewrite e1'; exact: eM'.
split; first exact: same_ends.
split; first exact: (@same_edges 2).
have T : transforms_matrices cell2 (pgeo K) (pmatrix K) (porigin K) 21 21 (vertex_edge_nodes 2) M by rewrite e1 e2 e3; exact: hM.
have T' : transforms_matrices cell2 (pgeo K') (pmatrix K') (porigin K') 21 21 (vertex_edge_nodes 2) M' by rewrite e1' e2' e3'; exact: hM'.
have d0 := plain_dof (left_vertices 2) hK T (isT : (3 < 21)%N); rewrite node3 vertex_dof e1 size1 left3 in d0.
have d1 := plain_dof (left_vertices 2) hK T (isT : (4 < 21)%N); rewrite node4 vertex_dof e1 size1 left4 in d1.
have d0' := plain_dof (right_vertices 2) hK' T' (isT : (0 < 21)%N); rewrite node0 vertex_dof e1' size0 right0 in d0'.
have d1' := plain_dof (right_vertices 2) hK' T' (isT : (1 < 21)%N); rewrite node1 vertex_dof e1' size0 right1 in d1'.
move=> h; have := congr1 (fun v : 'cV[rat]_2 => v 0 0) (h (fun _ => 0)).
move: d0 d1 d0' d1'.
set S := mfield_of _ _ M _ _; set S' := mfield_of _ _ M' _ _.
have [n0 n1] := normal_of e2 e3.
have p0 q : q.@[image (affine (pmatrix K) (porigin K)) (@cell_vertex Q 1 cell2 1)] = q.@[pfacet cell2 K 0 0%N] :> rat by [].
have p1 q : q.@[image (affine (pmatrix K') (porigin K')) (@cell_vertex Q 1 cell2 0)] = q.@[pfacet cell2 K 0 0%N] :> rat.
  by apply: meval_eq => i; rewrite (hm 0%N i isT).
rewrite !p0 !p1; exact: (traction_clash n0 n1).
Qed.
