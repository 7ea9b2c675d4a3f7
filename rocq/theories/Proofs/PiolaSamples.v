(** The sample elements meet the conditions. *)
From mathcomp Require Import all_ssreflect all_algebra ring.
From SsrMultinomials Require Import mpoly.
From Verif Require Import Model.Prelude Model.Gem Model.Cell Model.Element Model.Zany Model.PiolaElements.
From Verif Require Import Spec.Algebra Spec.Polynomials Spec.EntityDofs Spec.PiolaElements Spec.PiolaSamples.
From Verif Require Import Proofs.SampleFacts Proofs.PiolaFacts Proofs.Polynomials Proofs.PiolaFields Proofs.PiolaVectors.
Set Implicit Arguments.
Unset Strict Implicit.
Unset Printing Implicit Defensive.
Import GRing.Theory Num.Theory.
Local Open Scope ring_scope.
Local Notation Q := [realFieldType of rat].

Lemma cell2_fiat : @fiat_cell Q 1 cell2.
Proof.
split=> //; split=> //; split.
- by case=> [|[|[|f]]] // _; rewrite fnormal2; apply/eqP => /colP h; [have := h 0|have := h 0|have := h 1]; rewrite !mxE => /eqP; vm_compute.
- by move=> _; case=> [|[|[|f]]] // _; apply/eqP; vm_compute.
Qed.
Lemma detJ2 : \det J2 = 6%:R.
Proof. by rewrite det2 !mxE; apply/eqP; vm_compute. Qed.
Lemma g2_provides : @provides Q 1 g2 J2.
Proof.
split; first by rewrite detJ2.
split; first by move=> u i j; rewrite !mxE.
split; first by move=> u; rewrite detJ2.
by case=> [|[|[|v]]].
Qed.

Lemma cell3_fiat : @fiat_cell Q 2 cell3.
Proof.
split=> //; split=> //; split=> //.
by case=> [|[|[|[|f]]]] // _; rewrite fnormal3; apply/eqP => /colP h;
  [have := h 0|have := h 0|have := h 1|have := h (1 + 1)]; rewrite !mxE => /eqP; vm_compute.
Qed.
Lemma detJ3 : \det J3 = 4%:R.
Proof. by rewrite det3 !mxE; apply/eqP; vm_compute. Qed.
Lemma g3_provides : @provides Q 2 g3 J3.
Proof.
split; first by rewrite detJ3.
split; first by move=> u i j; rewrite !mxE.
split; first by move=> u; rewrite detJ3.
by case=> [|[|[|[|v]]]].
Qed.

Lemma value_linear m x : is_linear (@value_at m x).
Proof. by move=> a f g; rewrite /value_at mevalD mevalZ. Qed.

(** ** The quadratic fields *)
Lemma br_edofs : edofs_ok (topology (Simplex 2)) 12 br_dofs.
Proof. exact: edofs_okb_ok. Qed.
Lemma mtw_edofs : edofs_ok (topology (Simplex 2)) 9 mtw_dofs.
Proof. exact: edofs_okb_ok. Qed.
Lemma as_edofs : edofs_ok (topology (Simplex 2)) 15 as_dofs.
Proof. exact: edofs_okb_ok. Qed.

Lemma br_linear i : vlinear (br_sense i).
Proof. by rewrite /br_sense; do 2?[case: ifP => _ //]; exact: value_linear. Qed.

Lemma ord2 (P : 'I_2 -> Prop) : P 0 -> P 1 -> forall k, P k.
Proof.
move=> h0 h1 k; case: k => [[|[|k]] hk] //.
- by have -> : Ordinal hk = 0 by apply: val_inj.
- by have -> : Ordinal hk = 1 by apply: val_inj.
Qed.

Lemma pair_block (sense : nat -> vnode Q 1) i p x : sense i = Component p x 0 -> sense i.+1 = Component p x 1 ->
  forall l, blocks sense l -> blocks sense (i :: i.+1 :: l).
Proof.
move=> h0 h1 l hl; apply: (@component_block _ _ _ [:: i; i.+1] p x) => //.
exact: ord2.
Qed.

Lemma br_blocks k e l : has_dofs br_dofs k e l -> k <> DI 1 -> blocks br_sense l.
Proof.
case=> row [hr hl] hk; case: hr => [[ek er]|[[ek _]|[[ek er]|[]]]].
- rewrite -er in hl; case: hl => [[_ <-]|[[_ <-]|[[_ <-]|[]]]];
    (apply: pair_block; [by rewrite /br_sense /=|by rewrite /br_sense /=|exact: no_block]).
- by case: hk.
- rewrite -er in hl; case: hl => [[_ <-]|[]]; exact: no_block.
Qed.

Lemma br_small k e l x : has_dofs br_dofs k e l -> List.In x l -> k <> DI 1 -> (x < 9)%N.
Proof.
case=> row [hr hl] hx hk; case: hr => [[ek er]|[[ek _]|[[ek er]|[]]]].
- by rewrite -er in hl; move: hx; case: hl => [[_ <-]|[[_ <-]|[[_ <-]|[]]]]; case=> [<-|[<-|[]]].
- by case: hk.
- by rewrite -er in hl; move: hx; case: hl => [[_ <-]|[]].
Qed.

Lemma br_facets f l : has_dofs br_dofs (DI 1) f l -> exists T, l = (6 + f)%N :: T /\ (6 + f < 9)%N /\
  (forall x, List.In x T -> (9 <= x)%N) /\ size T = 1%N /\ br_sense (6 + f) = Normal 0 f (value_at (fun _ => qq 1 2)) /\
  forall k, (k < 1)%N -> br_sense (nth 0%N T k) = Tangential 0 f (value_at (fun _ => qq 1 2)) k.
Proof.
case=> row [hr hl]; case: hr => [[//]|[[er]|[[//]|[]]]].
rewrite -er in hl; case: hl => [[<- <-]|[[<- <-]|[[<- <-]|[]]]]; eexists; (split; [reflexivity|]);
  (split; [by []|]); (split; [by move=> x [<-|[]]|]); (split; [by []|]); (split; [by []|]); by case.
Qed.

(** ** Their basis *)
Definition bary_num (i : nat) (x y : rat) : rat :=
  let l2 := qq 1 12 * y - qq 1 6 in let l1 := qq 1 6 * x - qq 1 18 * y - qq 1 18 in
  if (i == 0)%N then 1 - l1 - l2 else if (i == 1)%N then l1 else l2.
Definition lagrange_num (j : nat) (x y : rat) : rat :=
  if (j < 3)%N then 2%:R * (bary_num j x y * bary_num j x y) - bary_num j x y
  else 4%:R * (bary_num (nth 0 [:: 1; 0; 0] (j - 3))%N x y * bary_num (nth 0 [:: 2; 2; 1] (j - 3))%N x y).
Lemma bary_numE i x : (bary2 i).@[x] = bary_num i (x 0) (x 1).
Proof.
rewrite /bary2 /bary_num; case: ifP => _; [|case: ifP => _]; rewrite ?(mevalN, mevalB, mevalD, mevalZ, mevalXU, mevalC) ?mulNr //.
Qed.
Lemma lagrange_numE j x : (lagrange2 j).@[x] = lagrange_num j (x 0) (x 1).
Proof.
rewrite /lagrange2 /lagrange_num; case: ifP => _; rewrite ?(mevalB, mevalZ, mevalM) !bary_numE //.
Qed.

(** The functional of the preimage's value that a dof is. *)
Definition br_point (i : nat) : seq rat :=
  nth [::] [:: [:: 0; 0]; [:: 0; 0]; [:: 3%:R; 0]; [:: 3%:R; 0]; [:: 0; 4%:R]; [:: 0; 4%:R];
    [:: qq 3 2; 2%:R]; [:: 0; 2%:R]; [:: qq 3 2; 0]; [:: qq 3 2; 2%:R]; [:: 0; 2%:R]; [:: qq 3 2; 0]] i.
Definition br_functional (i : nat) : seq rat :=
  nth [::] [:: [:: 1; 0]; [:: 0; 1]; [:: 1; 0]; [:: 0; 1]; [:: 1; 0]; [:: 0; 1];
    [:: 4%:R; 3%:R]; [:: 4%:R; 0]; [:: 0; - 3%:R]; [:: - 3%:R; 4%:R]; [:: 0; 4%:R]; [:: 3%:R; 0]] i.
Definition spot (i : nat) : point Q 2 := fun k => nth 0 (br_point i) k.

Lemma chart_value (X : facet Q 1) y (f : {mpoly rat[2]}) :
  (chart X f).@[y] = f.@[fun i => X 0%N i + ftangent X 0 i 0 * y 0].
Proof.
rewrite /chart comp_mpoly_meval; apply: meval_eq => i.
rewrite tnth_map tnth_ord_tuple mevalD mevalC raddf_sum /= big_ord1 mevalZ mevalXU //.
Qed.

Lemma br_ref i u : (i < 12)%N -> vdof (reference_place (vfield Q 1) (@cell_facet Q 1 cell2)) (br_sense i) u =
  nth 0 (br_functional i) 0 * (u 0%N 0).@[spot i] + nth 0 (br_functional i) 1 * (u 0%N 1).@[spot i].
Proof.
move=> hi.
have E : forall x y : point Q 2, x 0 = y 0 -> x 1 = y 1 -> forall p : {mpoly rat[2]}, p.@[x] = p.@[y].
  by move=> x y h0 h1 p; apply: meval_eq; apply: ord2.
have two : forall (G : 'I_2 -> {mpoly rat[2]}) x, (\sum_k G k).@[x] = (G 0).@[x] + (G 1).@[x].
  by move=> G x; rewrite raddf_sum /= !big_ord_recl big_ord0 addr0; congr ((G _).@[_] + (G _).@[_]); apply: val_inj.
do 6?[case: i hi => [_|i hi]; first by
  rewrite /br_sense /= ?mul0r ?mul1r ?add0r ?addr0; apply: E; apply/eqP; vm_compute].
do 6?[case: i hi => [_|i hi]; first by
  rewrite /br_sense /= /value_at chart_value two !mevalZ; congr (_ * _ + _ * _);
  [rewrite ?fnormal2 !mxE; apply/eqP; vm_compute|apply: E; rewrite !mxE; apply/eqP; vm_compute|
   rewrite ?fnormal2 !mxE; apply/eqP; vm_compute|apply: E; rewrite !mxE; apply/eqP; vm_compute]].
by [].
Qed.

Definition br_check (i j : nat) : bool :=
  let x := br_point i in let a := br_functional i in let w := br_vector j in
  let X := 2%:R * nth 0 x 0 + nth 0 x 1 + 1 in let Y := 3%:R * nth 0 x 1 + 2%:R in
  let s := lagrange_num (if (j < 6)%N then (j %/ 2)%N else (3 + (j - 6) %% 3)%N) X Y in
  nth 0 a 0 * (s * (3%:R * nth 0 w 0 - nth 0 w 1)) + nth 0 a 1 * (s * (2%:R * nth 0 w 1)) == (i == j)%:R.
Lemma br_checked : all (fun i => all (br_check i) (iota 0 12)) (iota 0 12).
Proof. by vm_compute. Qed.

Lemma br_nodal i j : (i < 12)%N -> (j < 12)%N ->
  vdof (reference_place (vfield Q 1) (@cell_facet Q 1 cell2)) (br_sense i) (vpreimage J2 b2 (br_basis j)) = (i == j)%:R.
Proof.
move=> hi hj; rewrite br_ref //.
have hv p k : (vpreimage J2 b2 (br_basis j) p k).@[spot i] = (vback J2 (vvalue (br_basis j) p (image (affine J2 b2) (spot i)))) k 0.
  by rewrite -vvalue_back mxE.
rewrite !hv /vback.
have eJ : \det J2 *: invmx J2 = \adj J2 by rewrite /invmx unitmxE detJ2 /= scalerA mulfV // scale1r.
rewrite scalemxAl eJ.
have a00 : \adj J2 0 0 = 3%:R by rewrite mxE /cofactor det_mx11 !mxE; apply/eqP; vm_compute.
have a01 : \adj J2 0 1 = - 1 by rewrite mxE /cofactor det_mx11 !mxE; apply/eqP; vm_compute.
have a10 : \adj J2 1 0 = 0 by rewrite mxE /cofactor det_mx11 !mxE; apply/eqP; vm_compute.
have a11 : \adj J2 1 1 = 2%:R by rewrite mxE /cofactor det_mx11 !mxE; apply/eqP; vm_compute.
have two (G : 'I_2 -> rat) : \sum_k G k = G 0 + G 1.
  by rewrite !big_ord_recl big_ord0 addr0; congr (G _ + G _); apply: val_inj.
have eI : image (affine J2 b2) (spot i) 0 = 2%:R * nth 0 (br_point i) 0 + nth 0 (br_point i) 1 + 1.
  by rewrite affine_image two !mxE /spot /b2 /= mul1r.
have eI1 : image (affine J2 b2) (spot i) 1 = 3%:R * nth 0 (br_point i) 1 + 2%:R.
  by rewrite affine_image two !mxE /spot /b2 /= mul0r add0r.
have := allP (allP br_checked i _) j; rewrite !mem_iota /= add0n hi hj => /(_ isT isT) /eqP <-.
rewrite -eI -eI1 -lagrange_numE.
rewrite mxE two a00 a01 [X in _ + _ * X]mxE two a10 a11 !mxE !mevalZ.
move: (meval _ _) => s; rewrite /=.
have h3 (a v w t : rat) : a * (v * t) - w * t = t * (a * v - w) by rewrite mulrA -mulrBl mulrC.
have h2 (a v t : rat) : a * (v * t) = t * (a * v) by rewrite mulrA mulrC.
by rewrite mul0r add0r mulN1r; congr (_ * _ + _ * _); [exact: h3|exact: h2].
Qed.

(** ** The others *)
Definition inner_value (i : nat) (u : vfield Q 1) : rat := (u 0%N 0).@[fun _ => i%:R].
Definition inner_entry m (i : nat) (s : mfield Q m) : rat := (s 0%N 0 0).@[fun _ => i%:R].
Lemma inner_linear i : vlinear (Other (inner_value i)).
Proof.
move=> N a phi u h; rewrite /inner_value h raddf_sum /=; by apply: eq_bigr => j _; rewrite mevalZ.
Qed.
Lemma inner_mlinear m i : mlinear (MOther (@inner_entry m i)).
Proof.
move=> N a phi u h; rewrite /inner_entry h raddf_sum /=; by apply: eq_bigr => j _; rewrite mevalZ.
Qed.

Lemma mtw_linear i : vlinear (mtw_sense inner_value i).
Proof. by rewrite /mtw_sense; case: ifP => _; [case: ifP => _; exact: value_linear|exact: inner_linear]. Qed.
Lemma mtw_facets f l : has_dofs mtw_dofs (DI 1) f l -> exists a r p lam, l = a :: r /\ List.In a.+1 r /\
  mtw_sense inner_value a = Normal p f lam /\ mtw_sense inner_value a.+1 = Tangential p f lam 0.
Proof.
case=> row [hr hl]; case: hr => [[//]|[[er]|[[//]|[]]]].
by rewrite -er in hl; case: hl => [[<- <-]|[[<- <-]|[[<- <-]|[]]]]; do 4!eexists; (split; [reflexivity|]); (split; [left; reflexivity|]);
  split; reflexivity.
Qed.
Lemma mtw_shared i : (i < 12)%N -> shared (mtw_sense inner_value i) \/
  exists f a r, has_dofs mtw_dofs (DI 1) f (a :: r) /\ i = a.+1.
Proof.
have h f a r row : List.In (DI 1, row) mtw_dofs -> List.In (f, (a :: r)) row -> has_dofs mtw_dofs (DI 1) f (a :: r) by exists row.
do 12?[case: i => [|i]]; move=> // _; try (by left).
- right; exists 0%N, 0%N, [:: 1; 2]%N; split=> //; eexists; split; [right; left; reflexivity|by left].
- right; exists 1%N, 3%N, [:: 4; 5]%N; split=> //; eexists; split; [right; left; reflexivity|by right; left].
- right; exists 2%N, 6%N, [:: 7; 8]%N; split=> //; eexists; split; [right; left; reflexivity|by right; right; left].
Qed.

Lemma as_linear i : vlinear (as_sense i).
Proof. by rewrite /as_sense; case: ifP => _ //; case: ifP => _. Qed.
Lemma as_blocks k e l : has_dofs as_dofs k e l -> blocks as_sense l.
Proof.
case=> row [hr hl]; case: hr => [[ek er]|[[ek er]|[[ek er]|[]]]]; rewrite -er in hl.
- case: hl => [[_ <-]|[[_ <-]|[[_ <-]|[]]]];
    (apply: pair_block; [by rewrite /as_sense /=|by rewrite /as_sense /=|]);
    (apply: divergence_block; [by rewrite /as_sense /=|exact: no_block]).
- case: hl => [[_ <-]|[[_ <-]|[[_ <-]|[]]]];
    (apply: pair_block; [by rewrite /as_sense /=|by rewrite /as_sense /=|exact: no_block]).
- case: hl => [[_ <-]|[]]; exact: no_block.
Qed.

(** Functionals on facets: values at different points. *)
Definition lam_at m (f k : nat) : on_facet Q m := value_at (fun _ => qq k.+1 (f + 5)).
Lemma facets_linear m nf K pf rest i : (forall j, mlinear (rest j)) -> mlinear (facets_first nf K pf (@lam_at m) rest i).
Proof.
move=> h; rewrite /facets_first /mfacet_node /facet_node; case: ifP => _ //; case: ifP => _; exact: value_linear.
Qed.
Lemma vertices_linear X pv rest i : (forall j, mlinear (rest j)) -> mlinear (@vertices_first Q X pv rest i).
Proof. by move=> h; rewrite /vertices_first /component; case: ifP => _ //; case: ifP => _ //; case: ifP. Qed.
