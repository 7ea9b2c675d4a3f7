(** The transformations ask for the Jacobian matrix at the barycentre only. *)
From mathcomp Require Import all_ssreflect all_algebra.
From Verif Require Import Model.Prelude Model.Gem Model.Cell Model.Element Model.Piola Model.Zany Model.PiolaElements.
From Verif Require Import Spec.Algebra Spec.Zany Spec.ZanySamples Spec.Barycentre Proofs.ZanySamples.
Set Implicit Arguments.
Unset Strict Implicit.
Unset Printing Implicit Defensive.
Import GRing.Theory.
Local Open Scope ring_scope.

Section Barycentre.
Variable F : fieldType.
Let o := ring_ops F.

Lemma sum_seq (l : seq nat) (h : nat -> F) : List.fold_right (fun i s => fadd o (h i) s) (f0 o) l = \sum_(i <- l) h i.
Proof. by elim: l => [|x l IH]; rewrite ?big_nil // big_cons -IH. Qed.
Lemma lnth (T : Type) (d : T) (l : seq T) i : List.nth i l d = nth d l i.
Proof. by elim: l i => [|x l IH] [|i] //=. Qed.
Lemma lseq s n : List.seq s n = iota s n.
Proof. by elim: n s => [|n IH] s //=; rewrite IH. Qed.
Lemma number n : num o n = n%:R :> F.
Proof. by elim: n => [//|n IH] /=; rewrite IH mulrS. Qed.
Lemma llength (T : Type) (l : seq T) : length l = size l. Proof. by []. Qed.

Lemma coordinate (V : seq (seq F)) i : fsum o (length V) (fun v => List.nth i (List.nth v V nil) (f0 o)) = \sum_(x <- V) x`_i.
Proof.
rewrite /fsum sum_seq lseq llength [RHS](big_nth nil) /index_iota subn0.
by apply: eq_bigr => v _; rewrite !lnth.
Qed.
Lemma centreE (c : scell (F := F)) : centre o c = mean_point (sc_vertices c) (sc_dim c).
Proof. by rewrite /centre /mean_point -lseq; apply: List.map_ext => i; rewrite /corner_of coordinate number. Qed.
Lemma barycentreE (c : simplex (F := F)) : barycentre o c = mean_point (sx_vertices c) (sx_dim c).
Proof. by rewrite /barycentre /mean_point -lseq; apply: List.map_ext => i; rewrite /vertex coordinate number. Qed.

Local Notation lin c g := (linearised g (mean_point (sc_vertices c) (sc_dim c))).
Local Notation slin c g := (linearised g (mean_point (sx_vertices c) (sx_dim c))).
Implicit Types (c : scell (F := F)) (s : simplex (F := F)) (g : geometry (F := F)).
Lemma facet_lin c k g : facet_transform o c k g = facet_transform o c k (lin c g).
Proof. by rewrite /facet_transform centreE. Qed.
Lemma evaluation_lin c g : evaluation_transform o c g = evaluation_transform o c (lin c g).
Proof. by rewrite /evaluation_transform centreE. Qed.
Lemma jm_lin N n c g : jm_transformation o N n c g = jm_transformation o N n c (lin c g).
Proof. by rewrite /jm_transformation -facet_lin. Qed.
Lemma awnc_lin N n c g : awnc_transformation o N n c g = awnc_transformation o N n c (lin c g).
Proof. by rewrite /awnc_transformation -facet_lin. Qed.
Lemma aw_lin N n c g : aw_transformation o N n c g = aw_transformation o N n c (lin c g).
Proof. by rewrite /aw_transformation -facet_lin -evaluation_lin. Qed.
Lemma hz_lin N d v c g : hz_transformation o N d v c g = hz_transformation o N d v c (lin c g).
Proof. by rewrite /hz_transformation -facet_lin -evaluation_lin. Qed.
Lemma mtw_lin N n e c g : mtw_transformation o N n e c g = mtw_transformation o N n e c (lin c g).
Proof. by rewrite /mtw_transformation centreE. Qed.
Lemma as_lin N e h c g : as_transformation o N e h c g = as_transformation o N e h c (lin c g).
Proof. by rewrite /as_transformation centreE. Qed.
Lemma bubble_lin N n b e h c g : bubble_transformation o N n b e h c g = bubble_transformation o N n b e h c (lin c g).
Proof. by rewrite /bubble_transformation centreE. Qed.

Lemma vertex_lin V k s g : vertex_transform o V k s g = vertex_transform o V k s (slin s g).
Proof. by rewrite /vertex_transform barycentreE. Qed.
Lemma edge_lin V v e s g a : edge_transform o V v e s g a = edge_transform o V v e s (slin s g) a.
Proof. by rewrite /edge_transform barycentreE. Qed.
Lemma argyris_lin d v a s g : argyris_transformation o d v a s g = argyris_transformation o d v a s (slin s g).
Proof. by rewrite /argyris_transformation -vertex_lin -edge_lin barycentreE. Qed.
Lemma bell_lin s g : bell_transformation o s g = bell_transformation o s (slin s g).
Proof. by rewrite /bell_transformation -vertex_lin barycentreE. Qed.
Lemma hct_lin d a s g : hct_transformation o d a s g = hct_transformation o d a s (slin s g).
Proof. by rewrite /hct_transformation -vertex_lin -edge_lin. Qed.
Lemma reduced_lin s g : reduced_hct_transformation o s g = reduced_hct_transformation o s (slin s g).
Proof. by rewrite /reduced_hct_transformation -vertex_lin barycentreE. Qed.
Lemma ps12_lin a s g : mean_point (sx_vertices s) (sx_dim s) = [:: 3%:R^-1; 3%:R^-1] ->
  powell_sabin12_transformation o a s g = powell_sabin12_transformation o a s (slin s g).
Proof.
move=> h; have e : [:: fdiv o (f1 o) (num o 3); fdiv o (f1 o) (num o 3)] = mean_point (sx_vertices s) (sx_dim s).
  by rewrite h number -[fdiv _ _ _]/(1 / 3%:R) mul1r.
by rewrite /powell_sabin12_transformation -edge_lin e.
Qed.
Lemma morley_lin g : morley_transformation o g = morley_transformation o (linearised g [:: 3%:R^-1; 3%:R^-1]).
Proof.
have e : [:: fdiv o (f1 o) (num o 3); fdiv o (f1 o) (num o 3)] = [:: 3%:R^-1; 3%:R^-1].
  by rewrite number -[fdiv _ _ _]/(1 / 3%:R) mul1r.
by rewrite /morley_transformation e.
Qed.
Lemma ufc_mean : mean_point [:: [:: 0; 0]; [:: 1; 0]; [:: 0; 1]] 2 = [:: 3%:R^-1; 3%:R^-1] :> seq F.
Proof. by rewrite /mean_point /= !big_cons !big_nil /= !(addr0, add0r) !div1r. Qed.

Lemma all_matrices c g N ndof degree variant : [/\ jm_transformation o N ndof c g = jm_transformation o N ndof c (lin c g),
  awnc_transformation o N ndof c g = awnc_transformation o N ndof c (lin c g), aw_transformation o N ndof c g = aw_transformation o N ndof c (lin c g) &
  hz_transformation o N degree variant c g = hz_transformation o N degree variant c (lin c g)].
Proof. by split; [exact: jm_lin|exact: awnc_lin|exact: aw_lin|exact: hz_lin]. Qed.
Lemma all_vectors c g N ndof bfs dofs deriv : [/\ mtw_transformation o N ndof dofs c g = mtw_transformation o N ndof dofs c (lin c g),
  as_transformation o N dofs deriv c g = as_transformation o N dofs deriv c (lin c g) &
  bubble_transformation o N ndof bfs dofs deriv c g = bubble_transformation o N ndof bfs dofs deriv c (lin c g)].
Proof. by split; [exact: mtw_lin|exact: as_lin|exact: bubble_lin]. Qed.
Lemma all_scalars s g degree variant avg :
  [/\ argyris_transformation o degree variant avg s g = argyris_transformation o degree variant avg s (slin s g),
  bell_transformation o s g = bell_transformation o s (slin s g), hct_transformation o degree avg s g = hct_transformation o degree avg s (slin s g) &
  reduced_hct_transformation o s g = reduced_hct_transformation o s (slin s g)].
Proof. by split; [exact: argyris_lin|exact: bell_lin|exact: hct_lin|exact: reduced_lin]. Qed.
End Barycentre.

Lemma ps12_elsewhere : exists (c : simplex (F := rat)) (g : geometry (F := rat)) i j, fiat_triangle c /\
  powell_sabin12_transformation (ring_ops _) false c g i j <>
  powell_sabin12_transformation (ring_ops _) false c (linearised g (mean_point (sx_vertices c) (sx_dim c))) i j.
Proof.
exists triangle345, (mkGeometry (fun x i j => (i == j)%:R + x`_0) (fun _ => 1) (fun _ => 1) (fun _ _ => 0) (fun _ _ => 0) (fun _ _ => 0) (fun _ => 1)), 1%N, 1%N.
split; first exact: triangle345_fiat.
have -> : mean_point (sx_vertices triangle345) (sx_dim triangle345) = [:: 1; 4%:R / 3%:R].
  by rewrite /mean_point /= !big_cons !big_nil; congr [:: _; _]; apply/eqP; vm_compute.
by move/eqP; vm_compute.
Qed.
