(** Vertex dofs: the blocks written by _vertex_transform. *)
From mathcomp Require Import all_ssreflect all_algebra ring.
From SsrMultinomials Require Import mpoly.
From Verif Require Import Model.Gem Model.Zany Spec.Algebra Spec.Polynomials Spec.Zany.
From Verif Require Import Proofs.Determinant Proofs.Polynomials Proofs.ZanySums.
From mathcomp Require Import zify.
Set Implicit Arguments.
Unset Strict Implicit.
Unset Printing Implicit Defensive.
Import GRing.Theory Num.Theory.
Local Open Scope ring_scope.

Lemma in_group m voff i lo hi : (0 < voff)%N -> (hi <= voff)%N ->
  ((m * voff + lo <= i) && (i < m * voff + hi))%N = ((i %/ voff == m) && ((lo <= i %% voff) && (i %% voff < hi)))%N.
Proof.
move=> hv hhi; rewrite {1 2}(divn_eq i voff).
have ha := ltn_pmod i hv; move: (i %/ voff)%N (i %% voff)%N ha => q a ha.
case: (ltngtP q m) => h /=.
- have : (q * voff + a < m * voff)%N.
    by apply: (@leq_trans (q.+1 * voff)); rewrite ?leq_mul2r ?h ?orbT // mulSn addnC ltn_add2r.
  move=> h2; apply/negbTE; rewrite negb_and -ltnNge; apply/orP; left.
  by apply: (leq_trans h2); rewrite leq_addr.
- apply/negbTE; rewrite negb_and -!leqNgt; apply/orP; right.
  apply: (@leq_trans (q * voff)); last by rewrite leq_addr.
  apply: (@leq_trans (m.+1 * voff)); last by rewrite leq_mul2r h orbT.
  by rewrite mulSn addnC leq_add2r.
- by rewrite h leq_add2l ltn_add2l.
Qed.

Lemma seq_last m : List.seq 0 m.+1 = List.seq 0 m ++ [:: m].
Proof. by rewrite -[X in List.seq 0 X]addn1 -plusE List.seq_app. Qed.

Section Vertex.
Variable F : realFieldType.
Local Notation o := (ring_ops F).

Section Closed.
Variables (n hd : nat) (J : mtx (F := F)).
Let voff := (1 + n + hd)%N.

Definition vblock (a b : nat) : F :=
  if ((0 < a <= n) && (0 < b <= n))%N then J b.-1 a.-1
  else if ((n < a < voff) && (n < b < voff))%N then hessian_block o n J (a - n.+1)%N (b - n.+1)%N
  else identity o a b.

Definition vertex_step (acc : mtx (F := F) * nat) (_ : nat) : mtx * nat :=
  let (V, s) := acc in
  let s := S s in
  let V := block V s n (gradient_block J) in
  let s := Nat.add s n in
  let V := block V s hd (hessian_block o n J) in
  (V, Nat.add s hd).

Lemma vertex_closed m : 
  (List.fold_left vertex_step (List.seq 0 m) (identity o, 0%N)).2 = (m * voff)%N /\
  forall i j, (List.fold_left vertex_step (List.seq 0 m) (identity o, 0%N)).1 i j =
    if ((i < m * voff) && (i %/ voff == j %/ voff))%N then vblock (i %% voff)%N (j %% voff)%N else identity o i j.
Proof.
elim: m => [|m [IHs IH]]; first by split=> [//|i j]; rewrite mul0n.
rewrite seq_last List.fold_left_app /=.
case E : (List.fold_left _ _ _) IHs IH => [V s] /= -> IH; clear E s.
rewrite !plusE; split; first by rewrite mulSn /voff; lia.
move=> i j.
have hv : (0 < voff)%N by [].
rewrite /block /gradient_block !natE !plusE !minusE.
have e1 : ((m * voff).+1 + n = m * voff + (1 + n))%N by lia.
have e2 : ((m * voff).+1 + n + hd = m * voff + voff)%N by rewrite /voff; lia.
rewrite -!andbA !(andbA (_ <= i)%N) e2 e1 -(addn1 (m * voff)).
rewrite -[((m * voff + n).+1)%N]addnS !in_group // ?leq_addr // IH.
rewrite -!ltn_divLR // ltnS.
have hi := divn_eq i voff; have hj := divn_eq j voff.
have ha := ltn_pmod i hv; have hb := ltn_pmod j hv.
rewrite /identity !eqbE.
have hid : (i == j)%N = ((i %/ voff == j %/ voff) && (i %% voff == j %% voff))%N.
  apply/eqP/andP => [->|[/eqP e /eqP e']] //; by rewrite hi hj e e'.
rewrite hid.
have sub lo : (i %/ voff == m)%N -> (i - (m * voff + lo) = i %% voff - lo)%N.
  by move=> /eqP e; rewrite {1}hi e subnDl.
have sub' lo : (j %/ voff == m)%N -> (j - (m * voff + lo) = j %% voff - lo)%N.
  by move=> /eqP e; rewrite {1}hj e subnDl.
move: sub sub' ha hb; clear hi hj hid.
move: (i %/ voff)%N (i %% voff)%N (j %/ voff)%N (j %% voff)%N => qi a qj b sub sub' ha hb.
case: (eqVneq qi m) => [e|hq] /=; last first.
  by rewrite (ltn_neqAle qi) hq.
subst qi; rewrite ltnn leqnn /= (eq_sym m) sub // ; case: (eqVneq qj m) => [e|hq] /=; last first.
  by rewrite !andbF.
subst qj; rewrite !sub' ?sub // /vblock /identity !eqbE ha hb !andbT !subn1.
rewrite !ltnS.
by case: (ltnP n a) => h1; case: (ltnP n b) => h2; rewrite ?andbF ?andbT //=.
Qed.
End Closed.

Definition hessians (vorder n : nat) : nat := if (vorder < 2)%N then 0%N else Nat.div (n * (n + 1))%coq_nat 2.

Lemma vertex_transformE vorder (c : simplex) (g : geometry) i j :
  let n := sx_dim c in
  let hd := hessians vorder n in
  let voff := (1 + n + hd)%N in
  vertex_transform o (identity o) vorder c g i j =
    if ((i < List.length (sx_vertices c) * voff) && (i %/ voff == j %/ voff))%N
    then vblock n hd (jacobian_at g (barycentre o c)) (i %% voff)%N (j %% voff)%N else identity o i j.
Proof.
move=> n hd voff; rewrite /vertex_transform ltbE -/n -/(hessians vorder n) -/hd.
exact: (proj2 (vertex_closed n hd (jacobian_at g (barycentre o c)) (List.length (sx_vertices c)))).
Qed.

Lemma sum_vertex_row vorder (c : simplex) (g : geometry) N v a (x : nat -> F) :
  let n := sx_dim c in
  let hd := hessians vorder n in
  let voff := (1 + n + hd)%N in
  (v < List.length (sx_vertices c))%N -> (a < voff)%N -> (List.length (sx_vertices c) * voff <= N)%N ->
  \sum_(k < N) vertex_transform o (identity o) vorder c g (v * voff + a)%N k * x k =
  \sum_(b < voff) vblock n hd (jacobian_at g (barycentre o c)) a b * x (v * voff + b)%N.
Proof.
move=> n hd voff hv ha hN.
have hq : ((v * voff + a) %/ voff = v)%N by rewrite divnMDl // divn_small // addn0.
have hm : ((v * voff + a) %% voff = a)%N by rewrite modnMDl modn_small.
rewrite -(@sum_group _ N voff v (vblock n hd (jacobian_at g (barycentre o c)) a)) //; last first.
  by apply: leq_trans hN; rewrite leq_mul2r hv orbT.
apply: eq_bigr => k _; congr (_ * _); rewrite vertex_transformE -/n -/hd -/voff hq hm.
rewrite -ltn_divLR // hq hv /= eq_sym; case: eqP => // h.
by rewrite /identity eqbE; case: eqP => // e; case: h; rewrite -e hq.
Qed.

(** ** Jets *)
Lemma flat_mapE A B (h : A -> seq B) l : List.flat_map h l = flatten [seq h x | x <- l].
Proof. by elim: l => //= x l ->. Qed.

Lemma iota_from i n : (i <= n)%N -> iota i (n - i) = [seq k <- iota 0 n | (i <= k)%N].
Proof.
move=> hi; rewrite -{2}(subnKC hi) iotaD filter_cat add0n.
have -> : [seq k <- iota 0 i | (i <= k)%N] = [::].
  by apply/eqP; rewrite -(negbK (_ == _)) -has_filter; apply/negP => /hasP[k]; rewrite mem_iota /= add0n => h; rewrite leqNgt h.
by apply/esym/all_filterP/allP => k; rewrite mem_iota => /andP[].
Qed.

Lemma upper_pairsE n : [seq (val p.1, val p.2) | p <- pairs n] = upper_pairs n.
Proof.
rewrite /upper_pairs flat_mapE seq_iota /pairs filter_flatten map_flatten; congr flatten.
rewrite -val_enum_ord -!map_comp; apply: eq_map => i /=.
rewrite filter_map -map_comp /=.
rewrite seq_iota -[in RHS](map_id (iota i (n - i)%coq_nat)) minusE.
rewrite iota_from; last exact: ltnW.
by rewrite -[List.map]/@map -val_enum_ord [RHS]/= (filter_map (@nat_of_ord n)) -2![in RHS]map_comp.
Qed.

Lemma size_upper n : List.length (upper_pairs n) = Nat.div (n * (n + 1))%coq_nat 2.
Proof.
rewrite -[List.length _]/(size _) /upper_pairs flat_mapE size_flatten /seq.shape -map_comp sumnE big_map seq_iota.
have -> : (\sum_(i <- iota 0 n) (size \o (fun i => List.map (pair i) (List.seq i (n - i)%coq_nat))) i = \sum_(0 <= i < n) (n - i))%N.
  by rewrite /index_iota subn0; apply: eq_bigr => i _ /=; rewrite -[size _]/(List.length _) List.map_length List.seq_length.
have h : (2 * (\sum_(0 <= i < n) (n - i)) = n * (n + 1))%N.
  elim: n => [|n IH]; first by rewrite big_geq.
  rewrite big_nat_recl // subn0 (eq_bigr (fun i => n - i)%N) //.
  by rewrite mulnDr IH; lia.
rewrite multE -h mulnC; exact/esym/PeanoNat.Nat.div_mul.
Qed.

Lemma size_pairs n : size (pairs n) = Nat.div (n * (n + 1))%coq_nat 2.
Proof. by rewrite -(size_map (fun p => (val p.1, val p.2))) upper_pairsE -size_upper. Qed.

Section Jet.
Variables (n : nat) (J : 'I_n -> 'I_n -> F) (b : point F n).
Local Notation q := (affine J b).

Lemma gradient_jet f i x : (pull q f)^`M(i).@[x] = \sum_j J j i * f^`M(j).@[image q x].
Proof. by rewrite chain_rule_at; apply: eq_bigr => j _; rewrite affine_jacobian. Qed.

Lemma hessian_jet f i j x : (pull q f)^`M(i)^`M(j).@[x] =
  \sum_m \sum_k J m i * J k j * f^`M(m)^`M(k).@[image q x].
Proof.
rewrite affine_chain (big_morph _ (mderivD j) (mderiv0 _ j)) (big_morph _ (mevalD x) (meval0 x)); apply: eq_bigr => m _.
rewrite mderivZ mevalZ affine_chain (big_morph _ (mevalD x) (meval0 x)) mulr_sumr; apply: eq_bigr => k _.
by rewrite mevalZ pull_eval mulrA.
Qed.

(** Sums over all pairs of a symmetric array are sums over the pairs [i <= j]. *)
Lemma sum_pairs (A S : 'I_n -> 'I_n -> F) : (forall i j, S i j = S j i) ->
  \sum_m \sum_k A m k * S m k = \sum_(p <- pairs n) (if p.1 == p.2 then A p.1 p.2 else A p.1 p.2 + A p.2 p.1) * S p.1 p.2.
Proof.
move=> hS; rewrite /pairs big_filter [in RHS]big_mkcond big_allpairs_dep /= big_enum /=.
under [RHS]eq_bigr do rewrite big_enum /= -big_mkcond /=.
have split1 m : \sum_k A m k * S m k = \sum_(k : 'I_n | (m <= k)%N) A m k * S m k + \sum_(k : 'I_n | (k < m)%N) A m k * S m k.
  rewrite (bigID (fun k : 'I_n => (m <= k)%N)) /=; congr (_ + _); apply: eq_bigl => k; by rewrite ltnNge.
rewrite (eq_bigr _ (fun m _ => split1 m)) big_split /=.
rewrite [X in _ + X](exchange_big_dep xpredT) //= -big_split /=; apply: eq_bigr => m _.
rewrite (bigD1 m) //= [in RHS](bigD1 m) //= eqxx -addrA; congr (_ + _).
rewrite [X in _ + X](eq_bigl (fun k : 'I_n => (m <= k)%N && (k != m))); last first.
  by move=> k /=; rewrite ltn_neqAle andbC eq_sym.
rewrite -big_split /=; apply: eq_bigr => k /andP[_ hk].
by rewrite eq_sym (negbTE hk) mulrDl (hS k m).
Qed.

Lemma jet0 (f : {mpoly F[n]}) x : jet f x 0 = f.@[x] :> F.
Proof. by []. Qed.

Lemma jet1 (f : {mpoly F[n]}) x (i : 'I_n) : jet f x i.+1 = f^`M(i).@[x] :> F.
Proof. by rewrite /jet /jets /= nth_cat size_map size_enum_ord ltn_ord (nth_map i) ?size_enum_ord // nth_ord_enum. Qed.

Lemma jet2 (f : {mpoly F[n]}) x d p : (p < size (pairs n))%N ->
  jet f x (n.+1 + p)%N = f^`M((nth d (pairs n) p).1)^`M((nth d (pairs n) p).2).@[x] :> F.
Proof.
move=> hp; rewrite /jet /jets addSn /= nth_cat size_map size_enum_ord ltnNge leq_addr /= addKn.
by rewrite (nth_map d).
Qed.

Lemma nth_upper d p : (p < size (pairs n))%N ->
  List.nth p (upper_pairs n) (0, 0)%N = (val (nth d (pairs n) p).1, val (nth d (pairs n) p).2).
Proof.
move=> hp; rewrite -upper_pairsE.
have h (A : Type) (l : seq A) (e : A) k : List.nth k l e = nth e l k by elim: l k => [|? ? IH] [] //=.
by rewrite h (nth_map d).
Qed.

Variables (K : mtx (F := F)) (hd : nat).
Hypothesis hK : forall i j : 'I_n, K i j = J i j.
Hypothesis hhd : (hd = 0)%N \/ hd = size (pairs n).

Lemma vblock_off i j : ((i == 0) || (j == 0) || (i <= n) && (n < j) || (n < i) && (j <= n))%N ->
  vblock n hd K i j = if (i == j)%N then 1 else 0.
Proof.
move=> h; rewrite /vblock; have -> : ((0 < i <= n) && (0 < j <= n))%N = false by lia.
have -> : ((n < i < 1 + n + hd) && (n < j < 1 + n + hd))%N = false by lia.
by rewrite /identity eqbE.
Qed.

Lemma vblock_jet f x a : (a < 1 + n + hd)%N ->
  \sum_(c < 1 + n + hd) vblock n hd K a c * jet f (image q x) c = jet (pull q f) x a.
Proof.
move=> ha; rewrite big_split_ord big_split_ord big_ord1 /=.
case: a ha => [|a] ha.
  rewrite vblock_off // eqxx mul1r big1 ?addr0; last by move=> i _; rewrite vblock_off // mul0r.
  rewrite big1 ?addr0; last by move=> i _; rewrite vblock_off // mul0r.
  by rewrite !jet0 pull_eval.
case: (ltnP a n) => han.
  rewrite [X in X + _ + _](_ : _ = 0) ?add0r; last by rewrite vblock_off // mul0r.
  rewrite [X in _ + X]big1 ?addr0; last first.
    move=> p _; rewrite vblock_off; last by lia.
    case: eqP => [e|_]; last by rewrite mul0r.
    by exfalso; lia.
  rewrite (jet1 (pull q f) x (Ordinal han)) gradient_jet; apply: eq_bigr => i _.
  rewrite /vblock /= add1n (jet1 _ _ i); congr (_ * _).
  have -> : ((a < n) && (i < n))%N = true by rewrite han ltn_ord.
  by rewrite -(hK i (Ordinal han)).
have hp : (a - n < hd)%N by lia.
have e : hd = size (pairs n) by case: hhd => // e; move: hp; rewrite e.
have hp' : (a - n < size (pairs n))%N by rewrite -e.
have d : ('I_n * 'I_n)%type by case: (pairs n) hp' => //.
rewrite [X in X + _ + _](_ : _ = 0) ?add0r; last by rewrite vblock_off // mul0r.
rewrite big1 ?add0r; last first.
  move=> i _; have hi := ltn_ord i; rewrite vblock_off; last by lia.
  case: eqP => [e'|_]; last by rewrite mul0r.
  by exfalso; lia.
have -> : (a.+1 = n.+1 + (a - n))%N by lia.
rewrite (jet2 _ _ d) // hessian_jet; set pq := nth d (pairs n) (a - n).
rewrite (@sum_pairs (fun m k => J m pq.1 * J k pq.2) (fun m k => f^`M(m)^`M(k).@[image q x])); last first.
  by move=> i j; rewrite mderiv_comm.
rewrite (big_nth d) big_mkord -e; apply: eq_bigr => c _.
have hc : (c < size (pairs n))%N by rewrite -e.
rewrite add1n (jet2 _ _ d) //; congr (_ * _).
rewrite /vblock; have -> : ((0 < n.+1 + (a - n) <= n) && (0 < n.+1 + c <= n))%N = false by lia.
have -> : ((n < n.+1 + (a - n) < 1 + n + hd) && (n < n.+1 + c < 1 + n + hd))%N = true by have := ltn_ord c; lia.
rewrite !addKn /hessian_block !(nth_upper d) // eqbE -/pq !hK.
have -> : (val (nth d (pairs n) c).1 == val (nth d (pairs n) c).2)%N = ((nth d (pairs n) c).1 == (nth d (pairs n) c).2) by [].
by case: eqP => [->|_]; rewrite ?numE /=; field.
Qed.
End Jet.
End Vertex.
