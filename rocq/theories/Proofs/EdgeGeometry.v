(** Traces and normal derivatives on the edges of a triangle under an affine
    map. *)
From mathcomp Require Import all_ssreflect all_algebra ring.
From SsrMultinomials Require Import mpoly.
From Verif Require Import Model.Gem Model.Piola Model.Zany Spec.Algebra Spec.Polynomials Spec.Zany.
From Verif Require Import Proofs.Determinant Proofs.PiolaFacts Proofs.Polynomials Proofs.Integrals Proofs.ZanySums Proofs.VertexTransform.
Set Implicit Arguments.
Unset Strict Implicit.
Unset Printing Implicit Defensive.
Import GRing.Theory Num.Theory.
Local Open Scope ring_scope.

Section Ext.
Variables (F : fieldType) (n : nat).
Implicit Types (f : {mpoly F[n]}) (p t : point F n).

Lemma line_ext f p p' t t' : p =1 p' -> t =1 t' -> line f p t = line f p' t'.
Proof.
move=> hp ht; elim/mpoly_induction: f => [c|i|f g hf hg|f g hf hg].
- by rewrite !lineC.
- by rewrite !lineX hp ht.
- by rewrite !lineD hf hg.
- by rewrite !lineMM hf hg.
Qed.

Lemma along_ext f t t' : t =1 t' -> along f t = along f t'.
Proof. by move=> h; apply: eq_bigr => i _; rewrite h. Qed.

Lemma along_lin f (x y : F) t t' : along f (fun i => x * t i + y * t' i) = x *: along f t + y *: along f t'.
Proof.
rewrite /along !scaler_sumr -big_split; apply: eq_bigr => i _ /=.
by rewrite scalerDl !scalerA.
Qed.

Lemma pull_along J b f t : along (pull (affine J b) f) t = pull (affine J b) (along f (fun i => \sum_j J i j * t j)).
Proof.
rewrite /along /pull raddf_sum /=.
under eq_bigr do rewrite -/(pull _ _) affine_chain scaler_sumr.
rewrite exchange_big; apply: eq_bigr => j _ /=.
rewrite linearZ /= scaler_suml; apply: eq_bigr => i _.
by rewrite scalerA mulrC.
Qed.

Lemma jet_ext f p p' a : p =1 p' -> jet f p a = jet f p' a.
Proof.
move=> h; rewrite /jet /jets; have e k : k.@[p] = k.@[p'] :> F by apply: meval_eq.
rewrite !e; congr (nth 0 (_ :: _ ++ _) a); apply: eq_map => i; exact: e.
Qed.
End Ext.

(** ** Jacobi polynomials at the end points *)
Section Jacobi.
Variable F : fieldType.
Lemma jacobi_right a k : (jacobi F a k).[1] = 'C(k + a, k)%:R.
Proof.
rewrite /jacobi horner_sum big_ord_recl big1 ?addr0 => [|i _].
  by rewrite subn0 bin0 scale1r expr0 mul1r hornerZ hornerXn expr1n mulr1.
by rewrite !hornerZ hornerM horner_exp hornerD hornerN hornerC hornerX subrr exprS !(mul0r, mulr0).
Qed.

Lemma jacobi_left a k : (jacobi F a k).[0] = (-1) ^+ k * 'C(k + a, k)%:R.
Proof.
rewrite /jacobi horner_sum big_ord_recr big1 ?add0r => [|i _] /=.
  rewrite subnn bin0 scale1r expr0 mulr1 hornerZ horner_exp hornerD hornerN hornerC hornerX.
  by rewrite !add0r mulrC.
by rewrite !hornerZ hornerM hornerXn -(prednK (n := k - i)) ?subn_gt0 // exprS !(mul0r, mulr0).
Qed.

Lemma jacobi0 a : jacobi F a 0 = 1.
Proof. by rewrite /jacobi big_ord1 subnn !bin0 !scale1r expr0 mul1r. Qed.
End Jacobi.

Section Edge.
Variable F : realFieldType.
Local Notation o := (ring_ops F).
Variables (c : simplex (F := F)) (g : geometry (F := F)) (J : 'I_2 -> 'I_2 -> F) (b : point F 2).
Hypothesis hc : fiat_triangle c.
Hypothesis hg : provides g c J b.
Variable weights : nat -> F.
Local Notation q := (affine J b).
Local Notation R := (reference c).
Local Notation T := (physical c q (physical_edge_lengths g) (cell_size g) weights).
Local Notation L := (physical_edge_lengths g).
Implicit Types f : pieces F.

Definition nt e := normal_tangential_transform o c (jacobian_at g (barycentre o c)) (detJ_at g (barycentre o c)) e.
Definition bnn e := (nt e).1.1.
Definition bnt e := (nt e).1.2.

Lemma tangent_mapped e i : tangent T e i = \sum_j J i j * tangent R e j.
Proof.
rewrite /tangent /= !affine_image opprD addrACA subrr addr0 -sumrN -big_split; apply: eq_bigr => j _ /=.
by rewrite mulrBr.
Qed.

Lemma edge_ends e : (e < 3)%N -> edge c e = (first e, second e).
Proof. by case: hc => _ [_ [h _]]; rewrite /edge h; case: e => [|[|[|e]]]. Qed.

Lemma tangent_model e (i : 'I_2) : (e < 3)%N -> edge_tangent o c e i = tangent R e i.
Proof. by move=> he; rewrite /edge_tangent edge_ends. Qed.

Lemma nt_tangent e (i : 'I_2) : (e < 3)%N -> (nt e).2 i = tangent T e i.
Proof.
move=> he; rewrite tangent_mapped sum2 -!tangent_model // /nt /normal_tangential_transform /= /matvec /fsum /= addr0.
by case: hg => _ [hJ _]; rewrite (hJ _ i 0) (hJ _ i 1).
Qed.

Lemma ntE (K : mtx (F := F)) d e : normal_tangential_transform o c K d e =
  let t := edge_tangent o c e in
  let Jn i := K i 0%N * t 1%N + K i 1%N * - t 0%N in
  let Jt i := K i 0%N * t 0%N + K i 1%N * t 1%N in
  (d / (Jt 0%N * Jt 0%N + Jt 1%N * Jt 1%N) * sx_norm c t,
   (Jn 0%N * Jt 0%N + Jn 1%N * Jt 1%N) / (Jt 0%N * Jt 0%N + Jt 1%N * Jt 1%N) / sx_norm c t,
   fun i => K i 0%N * t 0%N + (K i 1%N * t 1%N + 0)).
Proof. by rewrite /normal_tangential_transform /dot /matvec /fsum /= !addr0. Qed.

Lemma length_pos e : (e < 3)%N -> 0 < L e.
Proof. by move=> he; case: hg => _ [_ [_ [_ h]]]; case: (h _ he). Qed.

Lemma length_sq e : (e < 3)%N -> L e ^+ 2 = tangent T e 0 ^+ 2 + tangent T e 1 ^+ 2.
Proof. by move=> he; case: hg => _ [_ [_ [_ h]]]; case: (h _ he) => _ [-> _]. Qed.

Lemma normal_mapped e i : (e < 3)%N ->
  \sum_j J i j * normal R e j = bnn e * L e * normal T e i + bnt e * tangent T e i.
Proof.
move=> he; rewrite sum2.
have hL := length_pos he; have hL2 := length_sq he.
have [hl hl2] : 0 < sx_norm c (edge_tangent o c e) /\ sx_norm c (edge_tangent o c e) ^+ 2 = tangent R e 0 ^+ 2 + tangent R e 1 ^+ 2.
  case: hc => _ [_ [_ h]]; have [h1 h2] := h _ he; split=> //.
  by rewrite h2 -!tangent_model // !expr2.
have nR0 : normal R e 0 = tangent R e 1 / sx_norm c (edge_tangent o c e).
  by rewrite -tangent_model.
have nR1 : normal R e 1 = - tangent R e 0 / sx_norm c (edge_tangent o c e).
  by rewrite -tangent_model.
have e0 : edge_tangent o c e 0%N = tangent R e 0 by rewrite -tangent_model.
have e1 : edge_tangent o c e 1%N = tangent R e 1 by rewrite -tangent_model.
have hJ (k j : 'I_2) : jacobian_at g (barycentre o c) k j = J k j by case: hg => _ [h _].
have hd : detJ_at g (barycentre o c) = J 0 0 * J 1 1 - J 0 1 * J 1 0 by case: hg => _ [_ [h _]].
have ht (k : 'I_2) : tangent T e k = J k 0 * tangent R e 0 + J k 1 * tangent R e 1 by rewrite tangent_mapped sum2.
have -> : bnt e = ((J 0 0 * tangent R e 1 - J 0 1 * tangent R e 0) * tangent T e 0 + (J 1 0 * tangent R e 1 - J 1 1 * tangent R e 0) * tangent T e 1) / L e ^+ 2 / sx_norm c (edge_tangent o c e).
  rewrite hL2 /bnt /nt ntE; cbv beta zeta; cbn [fst snd].
  rewrite (hJ 0 0) (hJ 0 1) (hJ 1 0) (hJ 1 1) e0 e1 !ht; congr (_ / _ / _); ring.
have -> : bnn e = (J 0 0 * J 1 1 - J 0 1 * J 1 0) / L e ^+ 2 * sx_norm c (edge_tangent o c e).
  rewrite hL2 /bnn /nt ntE; cbv beta zeta; cbn [fst snd].
  rewrite (hJ 0 0) (hJ 0 1) (hJ 1 0) (hJ 1 1) e0 e1 !ht hd; congr (_ / _ * _); ring.
have hT : normal T e i = clockwise (tangent T e) i / L e by [].
rewrite hT nR0 nR1.
move: (L e) (sx_norm c _) hL hl hL2 hl2 => l n hL hl hL2 hl2.
have hLn : l != 0 by apply: lt0r_neq0. 
have hln : n != 0 by apply: lt0r_neq0.
have h : (J i 0 * tangent R e 1 - J i 1 * tangent R e 0) * l ^+ 2 =
  (J 0 0 * J 1 1 - J 0 1 * J 1 0) * n ^+ 2 * clockwise (tangent T e) i +
  ((J 0 0 * tangent R e 1 - J 0 1 * tangent R e 0) * tangent T e 0 + (J 1 0 * tangent R e 1 - J 1 1 * tangent R e 0) * tangent T e 1) * tangent T e i.
  by case: (ord2 i) => ->; rewrite hL2 hl2 /clockwise /= !ht; ring.
apply: (mulIf (mulf_neq0 hln (expf_neq0 2 hLn))).
transitivity ((J i 0 * tangent R e 1 - J i 1 * tangent R e 0) * l ^+ 2); first by field.
by rewrite h; field; rewrite hLn hln.
Qed.

Lemma trace_pull f e : trace R (pulled q f) e = trace T f e.
Proof.
rewrite /trace /pulled line_pull; apply: line_ext => // i.
by rewrite tangent_mapped.
Qed.

Lemma flux_pull f e : (e < 3)%N -> flux R (pulled q f) e = (bnn e * L e) *: flux T f e + bnt e *: (trace T f e)^`().
Proof.
move=> he; rewrite /trace line_deriv /flux /pulled pull_along line_pull -!lineZ -lineD -along_lin.
rewrite (along_ext _ (fun i => normal_mapped i he)).
by apply: line_ext => // i; rewrite tangent_mapped.
Qed.

(** ** The edge dofs *)
Lemma flux_integral f e (phi : {poly F}) : (e < 3)%N ->
  integral (flux R (pulled q f) e * phi) = bnn e * L e * integral (flux T f e * phi) + bnt e * integral ((trace T f e)^`() * phi).
Proof. by move=> he; rewrite flux_pull // mulrDl integralD -!scalerAl !integralZ. Qed.

Lemma flux_moment f e vorder k : (e < 3)%N ->
  integral (flux R (pulled q f) e * jacobi F vorder k) =
  bnn e * (L e * integral (flux T f e * jacobi F vorder k)) +
  'C(k + vorder, k)%:R * bnt e * (trace T f e).[1] +
  - ((-1) ^+ k * 'C(k + vorder, k)%:R) * bnt e * (trace T f e).[0] -
  bnt e * integral (trace T f e * (jacobi F vorder k)^`()).
Proof. by move=> he; rewrite flux_integral // by_parts jacobi_right jacobi_left; move: ((-1) ^+ k) ('C(k + vorder, k)%:R : F) => s z; move: _.[1] _.[0] (integral _) (integral (trace _ _ _ * _)) (bnn _) (bnt _) (L _) => *; ring. Qed.

Lemma trace_left f e : (trace T f e).[0] = jet (f e) (corner T (first e)) 0.
Proof. by rewrite line_eval; apply: meval_eq => i; rewrite mul0r addr0. Qed.
Lemma trace_right f e : (trace T f e).[1] = jet (f e) (corner T (second e)) 0.
Proof. by rewrite line_eval; apply: meval_eq => i; rewrite mul1r /tangent addrC subrK. Qed.

Lemma deriv_at f e v s : (forall i, corner T (first e) i + s * tangent T e i = corner T v i) ->
  (trace T f e)^`().[s] = \sum_(i < 2) tangent T e i * jet (f e) (corner T v) i.+1.
Proof.
move=> h; rewrite line_deriv line_eval (meval_eq _ h) /along (big_morph _ (mevalD _) (meval0 _)).
by apply: eq_bigr => i _; rewrite mevalZ jet1.
Qed.

Lemma pairs2 : pairs 2 = [:: (0, 0); (0, 1); (1, 1)].
Proof.
apply: (inj_map (f := fun p : 'I_2 * 'I_2 => (val p.1, val p.2))).
  by move=> [i j] [i' j'] /= [/val_inj -> /val_inj ->].
by rewrite upper_pairsE.
Qed.

Lemma second_at f e v s : (forall i, corner T (first e) i + s * tangent T e i = corner T v i) ->
  (trace T f e)^`()^`().[s] = tangent T e 0 * tangent T e 0 * jet (f e) (corner T v) 3 +
     2%:R * tangent T e 0 * tangent T e 1 * jet (f e) (corner T v) 4 +
     tangent T e 1 * tangent T e 1 * jet (f e) (corner T v) 5.
Proof.
move=> h; rewrite !line_deriv line_eval (meval_eq _ h) /along (big_morph _ (mevalD _) (meval0 _)).
rewrite sum2 !sum2 !mevalZ !mderivD !mderivZ !mevalD !mevalZ.
have hj p : (p < 3)%N -> jet (f e) (corner T v) (3 + p)%N = (f e)^`M((nth (0, 0) (pairs 2) p).1)^`M((nth (0, 0) (pairs 2) p).2).@[corner T v].
  by move=> hp; rewrite (jet2 _ _ (0, 0)) // pairs2.
rewrite (hj 0%N) // (hj 1%N) // (hj 2%N) // pairs2 /=.
have -> : (f e)^`M(1)^`M(0) = (f e)^`M(0)^`M(1) by rewrite mderiv_comm.
move: (tangent T e 0) (tangent T e 1) (f e)^`M(0)^`M(0).@[_] (f e)^`M(0)^`M(1).@[_] (f e)^`M(1)^`M(1).@[_] => *; ring.
Qed.
End Edge.
