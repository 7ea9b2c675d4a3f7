(** Two triangles and two tetrahedra that share facets. *)
From mathcomp Require Import all_ssreflect all_algebra ring.
From SsrMultinomials Require Import mpoly.
From Verif Require Import Model.Prelude Model.Cell Model.Element Model.Zany Model.PiolaElements.
From Verif Require Import Spec.Algebra Spec.Polynomials Spec.EntityDofs Spec.PiolaElements Spec.PiolaSamples Spec.PiolaConformity.
From Verif Require Import Proofs.Determinant Proofs.PiolaFacts Proofs.Polynomials Proofs.PiolaFields Proofs.PiolaSamples Proofs.PiolaCells.
Set Implicit Arguments.
Unset Strict Implicit.
Unset Printing Implicit Defensive.
Import GRing.Theory Num.Theory.
Local Open Scope ring_scope.
Local Notation Q := [realFieldType of rat].

(** Edge 1 of this triangle is edge 0 of the one of Spec/PiolaSamples.v; its
    sizes at the ends are those of the other. *)
Definition table2' := [:: [:: 2%:R; - qq 1 2]; [:: 4%:R; 3%:R]] : seq (seq rat).
Definition J2' : 'M[rat]_2 := \matrix_(i, j) at_ table2' i j.
Definition g2' : geometry (F := rat) := mkGeometry (fun _ => at_ table2') (fun _ => 8%:R)
  (fun v => nth 1 [:: 2%:R; 5%:R; 3%:R] v) (fun _ _ => 0) (fun _ _ => 0) (fun _ _ => 0) (fun _ => 1).
Definition b2' : point Q 2 := fun i => if i == 0 then 7%:R else 2%:R.

Lemma g2'_provides : @provides Q 1 g2' J2'.
Proof.
have hd : \det J2' = 8%:R by rewrite det2 !mxE; apply/eqP; vm_compute.
split; first by rewrite hd.
split; first by move=> u i j; rewrite !mxE.
split; first by move=> u; rewrite hd.
by case=> [|[|[|v]]].
Qed.

Lemma neighbours2 field (K K' : pcell Q 1 field) : pmatrix K = J2 -> porigin K = b2 -> pmatrix K' = J2' -> porigin K' = b2' ->
  same_facet (pfacet cell2 K 0) (pfacet cell2 K' 1).
Proof.
move=> e1 e2 e3 e4 k i hk; rewrite /pfacet e1 e2 e3 e4 !affine_image !big_ord_recl !big_ord0 !mxE.
by case: k hk => [|[|k]] // _; elim/ord2: i; apply/eqP; vm_compute.
Qed.

(** Facet 3 of this tetrahedron is facet 0 of the other. *)
Definition table3' := [:: [:: 1; -1; 4%:R]; [:: 1; 1; 3%:R]; [:: -1; 1; 6%:R]] : seq (seq rat).
Definition J3' : 'M[rat]_3 := \matrix_(i, j) at_ table3' i j.
Definition g3' := geometry_of table3' 20%:R.
Definition b3' : point Q 3 := fun i => nth 0 [:: 1; 1; 3%:R] i.

Lemma g3'_provides : @provides Q 2 g3' J3'.
Proof.
have hd : \det J3' = 20%:R by rewrite det3 !mxE; apply/eqP; vm_compute.
split; first by rewrite hd.
split; first by move=> u i j; rewrite !mxE.
split; first by move=> u; rewrite hd.
by case=> [|[|[|[|v]]]].
Qed.
Lemma ord3 (P : 'I_3 -> Prop) : P 0 -> P 1 -> P (1 + 1) -> forall k, P k.
Proof.
move=> h0 h1 h2; case; case=> [|[|[|k]]] // h; [move: h0|move: h1|move: h2]; congr P; exact: val_inj.
Qed.
Lemma neighbours3 field (K K' : pcell Q 2 field) : pmatrix K = J3 -> porigin K = b3 -> pmatrix K' = J3' -> porigin K' = b3' ->
  same_facet (pfacet cell3 K 0) (pfacet cell3 K' 3).
Proof.
move=> e1 e2 e3 e4 k i hk; rewrite /pfacet e1 e2 e3 e4 !affine_image !big_ord_recl !big_ord0 !mxE.
by case: k hk => [|[|[|k]]] // _; elim/ord3: i; apply/eqP; vm_compute.
Qed.

(** Coefficients that agree on a facet and nowhere else. *)
Definition left_of (s k : nat) (i : nat) : rat := if (s <= i < s + k)%N then (i - s).+1%:R else i.+2%:R ^+ 2.
Definition right_of (s k : nat) (i : nat) : rat := if (s <= i < s + k)%N then (i - s).+1%:R else - i%:R.
Lemma same_coefficients s s' k : same_from (left_of s k) s (right_of s' k) s' k.
Proof. by move=> r hr; rewrite /left_of /right_of !leq_addr !ltn_add2l hr !addKn. Qed.

(** The dofs of the cells of Proofs/PiolaCells.v. *)
Definition other_dof m (k : nat) : mfield Q m -> rat := @inner_entry m k.
Lemma corner_nodes_linear m i : mlinear (facets_first m.+2 m.+1 id (fun _ => @corner_value Q m) (fun k => MOther (@other_dof m k)) i).
Proof.
rewrite /facets_first /mfacet_node /facet_node; case: ifP => _; last exact: inner_mlinear.
case: ifP => _; exact: corner_linear.
Qed.
Lemma mtw_nodes_linear i : vlinear (mtw_nodes Q i).
Proof. by rewrite /mtw_nodes; case: ifP => _; exact: corner_linear. Qed.
Lemma mtw_nodes_facets f l : has_dofs mtw_dofs (DI 1) f l -> exists a r p lam, l = a :: r /\ List.In a.+1 r /\
  mtw_nodes Q a = Normal p f lam /\ mtw_nodes Q a.+1 = Tangential p f lam 0.
Proof.
case=> row [hr hl]; case: hr => [[//]|[[er]|[[//]|[]]]].
by rewrite -er in hl; case: hl => [[<- <-]|[[<- <-]|[[<- <-]|[]]]]; do 4!eexists; (split; [reflexivity|]); (split; [left; reflexivity|]);
  split; reflexivity.
Qed.
Lemma mtw_nodes_shared i : (i < 9)%N -> shared (mtw_nodes Q i) \/
  exists f a r, has_dofs mtw_dofs (DI 1) f (a :: r) /\ i = a.+1.
Proof.
do 9?[case: i => [|i]]; move=> // _; try (by left).
- right; exists 0%N, 0%N, [:: 1; 2]%N; split=> //; eexists; split; [right; left; reflexivity|by left].
- right; exists 1%N, 3%N, [:: 4; 5]%N; split=> //; eexists; split; [right; left; reflexivity|by right; left].
- right; exists 2%N, 6%N, [:: 7; 8]%N; split=> //; eexists; split; [right; left; reflexivity|by right; right; left].
Qed.
Definition mtw_normal (f k : nat) : nat := (f * 3 + k * 2)%N.
Lemma mtw_normals g k : (g <= 2)%N -> (k < 2)%N -> (mtw_normal g k < 9)%N /\ mtw_nodes Q (mtw_normal g k) = Normal g g (corner_value k).
Proof. by case: g => [|[|[|g]]] // _; case: k => [|[|k]]. Qed.
