(** A reference basis gives the functions of every cell: composition with the
    inverse of the map. *)
From mathcomp Require Import all_ssreflect all_algebra ring.
From SsrMultinomials Require Import mpoly.
From Verif Require Import Model.Gem Model.Zany Spec.Algebra Spec.Polynomials Spec.Zany Spec.Conformity.
From Verif Require Import Proofs.PiolaFacts Proofs.Polynomials Proofs.Integrals Proofs.VertexTransform Proofs.EdgeGeometry Proofs.ZanyNodal Proofs.Conformity.
Set Implicit Arguments.
Unset Strict Implicit.
Unset Printing Implicit Defensive.
Import GRing.Theory Num.Theory.
Local Open Scope ring_scope.

Section Degrees.
Variables (F : fieldType) (n : nat).
Implicit Types p r : {mpoly F[n]}.

Lemma degM p r k l : (msize p <= k.+1)%N -> (msize r <= l.+1)%N -> (msize (p * r) <= (k + l).+1)%N.
Proof.
case: (eqVneq p 0) => [->|hp]; first by rewrite mul0r msize0.
case: (eqVneq r 0) => [->|hr]; first by rewrite mulr0 msize0.
rewrite msizeM // => h1 h2; apply: (@leq_trans (k.+1 + l.+1).-1); last by rewrite addSn addnS.
by rewrite -!subn1 leq_sub2r // leq_add.
Qed.

Lemma degX p k m : (msize p <= k.+1)%N -> (msize (p ^+ m) <= (m * k).+1)%N.
Proof.
move=> h; elim: m => [|m IH]; first by rewrite expr0 msize1.
by rewrite exprS mulSn; apply: degM.
Qed.

Lemma degD p r k : (msize p <= k)%N -> (msize r <= k)%N -> (msize (p + r) <= k)%N.
Proof. by move=> h1 h2; apply: (leq_trans (msizeD_le _ _)); rewrite geq_max h1 h2. Qed.

Lemma degZ c p k : (msize p <= k)%N -> (msize (c *: p) <= k)%N.
Proof. by apply: leq_trans; apply: mmeasureZ_le. Qed.

Lemma deg_var i : (msize ('X_i : {mpoly F[n]}) <= 2)%N.
Proof. by rewrite msizeX mdeg1. Qed.

Lemma degC c k : (msize (c%:MP : {mpoly F[n]}) <= k.+1)%N.
Proof. by rewrite msizeC; case: (c != 0). Qed.

Lemma deg_sum (I : Type) (s : seq I) (P : pred I) (f : I -> {mpoly F[n]}) k :
  (forall i, P i -> (msize (f i) <= k)%N) -> (msize (\sum_(i <- s | P i) f i) <= k)%N.
Proof. by move=> h; apply: (big_ind (fun p => msize p <= k)%N) => //; [rewrite msize0|move=> p r; apply: degD]. Qed.

Lemma affine_deg J b (i : 'I_n) : (msize (tnth (affine J b) i : {mpoly F[n]}) <= 2)%N.
Proof.
rewrite tnth_mktuple; apply: degD; last exact: degC.
by apply: deg_sum => j _; apply/degZ/deg_var.
Qed.

Lemma pull_deg J b (f : {mpoly F[n]}) : (msize (pull (affine J b) f) <= msize f)%N.
Proof.
rewrite /pull comp_mpolyE big_seq; apply: deg_sum => m hm; apply: degZ.
apply: (@leq_trans (mdeg m).+1); last exact: msize_mdeg_lt.
rewrite mdegE; elim: (index_enum _) => [|i s IH]; first by rewrite !big_nil msize1.
rewrite !big_cons; apply: degM => //.
by rewrite -[X in (_ <= X.+1)%N]muln1; apply/degX/affine_deg.
Qed.

(** The inverse of an affine map. *)
Lemma pull_inverse (J J' : 'I_n -> 'I_n -> F) b f : (forall i j, \sum_k J' i k * J k j = (i == j)%:R) ->
  pull (affine J b) (pull (affine J' (fun i => - \sum_k J' i k * b k)) f) = f.
Proof.
move=> h; rewrite /pull; elim/mpoly_induction: f => [c|i|f g hf hg|f g hf hg].
- by rewrite !comp_mpolyC.
- rewrite comp_mpolyXU -tnth_nth tnth_mktuple comp_mpolyD comp_mpolyC raddf_sum /=.
  under eq_bigr do rewrite linearZ /= comp_mpolyXU -tnth_nth tnth_mktuple scalerDr scaler_sumr.
  rewrite big_split /= -addrA [X in _ + X](_ : _ = 0) ?addr0; last first.
    rewrite mpolyCN; apply/eqP; rewrite subr_eq0 raddf_sum /=; apply/eqP; apply: eq_bigr => k _.
    by rewrite -mul_mpolyC mpolyCM.
  rewrite exchange_big /=; under eq_bigr => j _.
    under eq_bigr do rewrite scalerA.
    rewrite -scaler_suml h; over.
  rewrite (bigD1 i) //= eqxx scale1r big1 ?addr0 // => j hj.
  by rewrite eq_sym (negbTE hj) scale0r.
- by rewrite !comp_mpolyD hf hg.
- by rewrite !rmorphM /= hf hg.
Qed.

Lemma image_inverse (J J' : 'I_n -> 'I_n -> F) b x i : (forall i j, \sum_k J' i k * J k j = (i == j)%:R) ->
  image (affine J' (fun i => - \sum_k J' i k * b k)) (image (affine J b) x) i = x i.
Proof.
move=> h; rewrite affine_image.
under eq_bigr do rewrite affine_image mulrDr mulr_sumr.
rewrite big_split /= addrK exchange_big /=.
under eq_bigr => j _.
  under eq_bigr do rewrite mulrA.
  rewrite -mulr_suml h; over.
rewrite (bigD1 i) //= eqxx mul1r big1 ?addr0 // => j hj.
by rewrite eq_sym (negbTE hj) mul0r.
Qed.
End Degrees.

Section Transport.
Variable F : realFieldType.
Local Notation o := (ring_ops F).

Lemma pull_zero_jets (J : 'I_2 -> 'I_2 -> F) b (d : {mpoly F[2]}) nj y : (nj <= 6)%N -> zero_jets d nj (image (affine J b) y) ->
  (nj = 1%N \/ nj = 3%N \/ nj = 6%N) -> zero_jets (pull (affine J b) d) nj y.
Proof.
move=> _ h hn.
have z0 : (pull (affine J b) d).@[y] = 0.
  by rewrite pull_eval -jet0; apply: h; case: hn => [->|[->|->]].
have z1 i : (3 <= nj)%N -> (pull (affine J b) d)^`M(i).@[y] = 0.
  by move=> h3; rewrite gradient_jet big1 // => j _; rewrite (first_zero j h3 h) mulr0.
have z2 i j : nj = 6%N -> (pull (affine J b) d)^`M(i)^`M(j).@[y] = 0.
  move=> h6; rewrite hessian_jet big1 // => k _; rewrite big1 // => l _.
  by rewrite second_zero ?mulr0 // -h6.
case=> [|[|[|k]]] hk; first by rewrite jet0.
- by rewrite (jet1 _ _ (0 : 'I_2)) z1 //; case: hn hk => [->|[->|->]].
- by rewrite (jet1 _ _ (1 : 'I_2)) z1 //; case: hn hk => [->|[->|->]].
- have h6 : nj = 6%N by case: hn hk => [->|[->|]].
  rewrite -[k.+3]/(3 + k)%N (jet2 _ _ (0, 0)) ?z2 // pairs2.
  by move: hk; rewrite h6.
Qed.

(** The inverse of the Jacobian. *)
Definition inverse2 (J : 'I_2 -> 'I_2 -> F) (i j : 'I_2) : F :=
  (if i == 0 then (if j == 0 then J 1 1 else - J 0 1) else (if j == 0 then - J 1 0 else J 0 0)) / (J 0 0 * J 1 1 - J 0 1 * J 1 0).

Lemma inverse2E J : J 0 0 * J 1 1 - J 0 1 * J 1 0 != 0 -> forall i j, \sum_k inverse2 J i k * J k j = (i == j)%:R.
Proof.
move=> h i j; rewrite sum2 /inverse2.
by case: (ord2 i) => ->; case: (ord2 j) => -> /=; field.
Qed.

Definition back (J : 'I_2 -> 'I_2 -> F) (b : point F 2) : polymap F 2 :=
  affine (inverse2 J) (fun i => - \sum_k inverse2 J i k * b k).

Lemma transport (c : simplex (F := F)) w g J b N nj d (ref : pieces F -> nat -> F) (Phi : nat -> pieces F) :
  (nj = 1%N \/ nj = 3%N \/ nj = 6%N) -> provides g c J b ->
  (forall f f' i, (forall e, f e = f' e) -> ref f i = ref f' i) ->
  (forall j, (j < N)%N -> smooth (reference c) (Phi j) nj) ->
  (forall j e, (j < N)%N -> (e < 3)%N -> (msize (Phi j e) <= d)%N) ->
  nodal N ref Phi ->
  based c w N nj d ref (Cell g J b (fun j => pulled (back J b) (Phi j))).
Proof.
move=> hn hg hext hs hd hnod; have h0 : J 0 0 * J 1 1 - J 0 1 * J 1 0 != 0 by case: hg.
have hinv := inverse2E h0.
split=> //; split; last split.
- move=> j hj e v k he hv hev hk; rewrite /=; apply/eqP; rewrite -subr_eq0 -jet_sub; apply/eqP.
  rewrite /pulled /back.
  have -> : pull (affine (inverse2 J) (fun i => - \sum_k0 inverse2 J i k0 * b k0)) (Phi j e) -
     pull (affine (inverse2 J) (fun i => - \sum_k0 inverse2 J i k0 * b k0)) (Phi j (edge_at v)) =
     pull (affine (inverse2 J) (fun i => - \sum_k0 inverse2 J i k0 * b k0)) (Phi j e - Phi j (edge_at v)) by rewrite /pull comp_mpolyB.
  apply: (pull_zero_jets (nj := nj)) => //; first by case: hn => [->|[->|->]].
  move=> k' hk'; rewrite /map_of /= (jet_ext _ _ (fun i => image_inverse b _ i hinv)).
  by rewrite jet_sub (hs j hj e v k' he hv hev hk') subrr.
- by move=> j e hj he; apply: (leq_trans (pull_deg _ _ _)); apply: hd.
- move=> i j hi hj; rewrite -(hnod i j hi hj); apply: hext => e.
  by rewrite /pulled /= /map_of /back pull_inverse.
Qed.
End Transport.
