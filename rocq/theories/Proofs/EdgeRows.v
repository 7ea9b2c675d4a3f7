(** Matrices filled row by row, and the scaling of columns. *)
From mathcomp Require Import all_ssreflect all_algebra ring.
From SsrMultinomials Require Import mpoly.
From Verif Require Import Model.Gem Model.Piola Model.Zany Spec.Algebra Spec.Polynomials Spec.Zany.
From Verif Require Import Proofs.Determinant Proofs.PiolaFacts Proofs.Polynomials Proofs.Integrals Proofs.ZanySums Proofs.VertexTransform Proofs.EdgeGeometry.
From mathcomp Require Import zify.
Set Implicit Arguments.
Unset Strict Implicit.
Unset Printing Implicit Defensive.
Import GRing.Theory Num.Theory.
Local Open Scope ring_scope.

Section Folds.
Lemma fold_leftE (A B : Type) (f : A -> B -> A) l a : List.fold_left f l a = foldl f a l.
Proof. by elim: l a => //= x l IH a. Qed.

Lemma foldl_eq (A B : Type) (f f' : A -> B -> A) l a : (forall a x, f a x = f' a x) -> foldl f a l = foldl f' a l.
Proof. by move=> h; elim: l a => //= x l IH a; rewrite h IH. Qed.

Lemma foldl_map (A B C : Type) (f : A -> B -> A) (h : C -> B) l a : foldl f a (map h l) = foldl (fun a x => f a (h x)) a l.
Proof. by elim: l a => //= x l IH a. Qed.

Lemma foldl_flatten (A B : Type) (f : A -> B -> A) ls a : foldl f a (flatten ls) = foldl (foldl f) a ls.
Proof. by elim: ls a => //= l ls IH a; rewrite foldl_cat IH. Qed.
End Folds.

Section Rows.
Variable F : realFieldType.
Local Notation o := (ring_ops F).
Local Notation M := (mtx (F := F)).
Implicit Types (V : M) (r : nat -> F) (l : seq (nat * F)).

Definition puts_row r l : nat -> F := foldl (fun r p => rowput r p.1 p.2) r l.
Definition puts V s l : M := foldl (fun V p => put V s p.1 p.2) V l.
Definition fills V (ls : seq (nat * seq (nat * F))) : M := foldl (fun V p => puts V p.1 p.2) V ls.

Lemma puts_row_ext r r' l : r =1 r' -> puts_row r l =1 puts_row r' l.
Proof.
elim: l r r' => [//|p l IH] r r' h; apply: IH => k; by rewrite /rowput h.
Qed.

Lemma puts_in V s l j : puts V s l s j = puts_row (V s) l j.
Proof.
elim: l V => [//|p l IH] V; rewrite /puts /= -/(puts _ _ _) IH.
apply: puts_row_ext => k; exact: put_row.
Qed.

Lemma puts_out V s l i j : i != s -> puts V s l i j = V i j.
Proof.
move=> h; elim: l V => [//|p l IH] V; by rewrite /puts /= -/(puts _ _ _) IH put_other.
Qed.

Lemma fills_out V ls i j : i \notin map fst ls -> fills V ls i j = V i j.
Proof.
elim: ls V => [//|[s l] ls IH] V; rewrite /= in_cons negb_or => /andP[h1 h2].
by rewrite /fills /= -/(fills _ _) IH // puts_out.
Qed.

Lemma fills_in V ls s l j : uniq (map fst ls) -> (s, l) \in ls -> fills V ls s j = puts_row (V s) l j.
Proof.
elim: ls V => [//|[s' l'] ls IH] V /= /andP[h1 h2]; rewrite in_cons /fills /= -/(fills _ _) => /orP[/eqP[-> ->]|h].
  by rewrite fills_out // puts_in.
rewrite IH //; apply: puts_row_ext => k; rewrite puts_out //.
by apply: contraNneq h1 => <-; apply/mapP; exists (s, l).
Qed.

Lemma sum_puts N r l (x : nat -> F) : uniq (map fst l) -> all (fun p => p.1 < N)%N l -> (forall p, p \in l -> r p.1 = 0) ->
  \sum_(k < N) puts_row r l k * x k = \sum_(p <- l) p.2 * x p.1 + \sum_(k < N) r k * x k.
Proof.
elim: l r => [|p l IH] r /=; first by rewrite big_nil add0r.
move=> /andP[hp hu] /andP[hN ha] h0; rewrite big_cons /puts_row /= -/(puts_row _ _) IH //.
  by rewrite sum_rowput // h0 ?mem_head // subr0 addrCA addrA.
move=> p' hp'; rewrite /rowput; case: eqP => [e|_]; last by rewrite h0 // in_cons hp' orbT.
by case/negP: hp; rewrite -e; apply/mapP; exists p'.
Qed.

Lemma sum_base N s B (x : nat -> F) : (s < N)%N -> \sum_(k < N) rowput (identity o s) s B k * x k = B * x s.
Proof. by move=> h; rewrite sum_rowput // sum_identity // /identity eqbE eqxx /=; ring. Qed.

Lemma identity_off i j : i != j -> identity o i j = 0.
Proof. by rewrite /identity eqbE => /negbTE ->. Qed.

(** ** Scaling of columns *)
Definition unscaled (g : geometry (F := F)) (voff m j : nat) : F :=
  if (j < m * voff)%N then (weight (cell_size g (j %/ voff)%N) (j %% voff)%N)^-1 else 1.

Lemma scale_step (g : geometry (F := F)) voff m j : (0 < voff)%N ->
  unscaled g voff m.+1 j = if (j %/ voff == m)%N then (weight (cell_size g m) (j %% voff)%N)^-1 else unscaled g voff m j.
Proof.
move=> hv; rewrite /unscaled -!ltn_divLR // ltnS leq_eqVlt.
by case: eqP => [->|].
Qed.

Lemma condition2E V voff (c : simplex) (g : geometry (F := F)) i j : sx_dim c = 2%N -> (3 <= voff)%N ->
  condition2 o V voff c g i j = V i j * unscaled g voff (List.length (sx_vertices c)) j.
Proof.
move=> hd hv; rewrite /condition2; elim: (List.length _) => [|m IH].
  by rewrite /unscaled mul0n ltn0 mulr1.
have hv0 : (0 < voff)%N by apply: leq_trans hv.
rewrite seq_last List.fold_left_app /= {1 2}/scale IH hd !natE ?plusE ?multE scale_step // !(mulnC voff).
rewrite -!addnA (addn1 m) mulSn (addnC voff).
have h1 := in_group m j 1 hv0 (hv : 1 + 2 <= voff)%N.
have h3 := in_group m j (1 + 2) hv0 (leqnn voff).
rewrite h1 h3; case: eqP => [e|_] /=; last by [].
rewrite /unscaled -ltn_divLR // e ltnn mulr1 ltn_pmod // andbT /weight.
case: (j %% voff)%N => [|[|[|k]]] //=; rewrite ?invr1 ?mulr1 ?mul1r //.
Qed.

Lemma condition1E V voff (c : simplex) (g : geometry (F := F)) i j : sx_dim c = 2%N -> voff = 3%N ->
  condition1 o V voff c g i j = V i j * unscaled g voff (List.length (sx_vertices c)) j.
Proof.
move=> hd hv; rewrite /condition1; elim: (List.length _) => [|m IH].
  by rewrite /unscaled mul0n ltn0 mulr1.
have hv0 : (0 < voff)%N by rewrite hv.
have hv3 : (1 + 2 <= voff)%N by rewrite hv.
rewrite seq_last List.fold_left_app /= {1}/scale IH hd !natE !plusE !multE scale_step // !(mulnC voff).
rewrite -!addnA.
rewrite (in_group m j 1 hv0 hv3); case: eqP => [e|_] /=; last by [].
rewrite /unscaled -ltn_divLR // e ltnn mulr1 /weight.
have := ltn_pmod j hv0; rewrite hv.
case: (j %% 3)%N => [|[|[|k]]] //=; rewrite ?invr1 ?mulr1 ?mul1r //.
Qed.
End Rows.

(** ** Numbering *)
Section Numbering.
Variable F : realFieldType.
Variables (nv ne : nat) (vd ed : nat -> nat -> F) (inner : nat -> F).
Local Notation num := (numbered nv ne vd ed inner).

Lemma numbered_vertex v a : (v < 3)%N -> (a < nv)%N -> num (v * nv + a)%N = vd v a.
Proof.
move=> hv ha; have hn : (0 < nv)%N by apply: leq_ltn_trans ha.
rewrite /numbered; have -> : (v * nv + a < 3 * nv)%N.
  by case: v hv => [|[|[|v]]] // _; lia.
by rewrite divnMDl // divn_small // addn0 modnMDl modn_small.
Qed.

Lemma numbered_edge e k : (e < 3)%N -> (k < ne)%N -> num (3 * nv + e * ne + k)%N = ed e k.
Proof.
move=> hv ha; have hn : (0 < ne)%N by apply: leq_ltn_trans ha.
rewrite /numbered -addnA ltnNge leq_addr /= addKn; have -> : (e * ne + k < 3 * ne)%N.
  by case: e hv => [|[|[|e]]] // _; lia.
by rewrite divnMDl // divn_small // addn0 modnMDl modn_small.
Qed.

Lemma numbered_inner k : num (3 * nv + 3 * ne + k)%N = inner k.
Proof. by rewrite /numbered -addnA ltnNge leq_addr /= addKn ltnNge leq_addr /= addKn. Qed.

(** Every number belongs to a vertex, to an edge or to the interior. *)
Lemma numbered_cases i : 
  (exists v a, [/\ (v < 3)%N, (a < nv)%N & i = (v * nv + a)%N]) \/
  (exists e k, [/\ (e < 3)%N, (k < ne)%N & i = (3 * nv + e * ne + k)%N]) \/
  (exists k, i = (3 * nv + 3 * ne + k)%N).
Proof.
case: (ltnP i (3 * nv)) => h1.
  left; exists (i %/ nv)%N, (i %% nv)%N.
  have hn : (0 < nv)%N by case: nv h1 => //; rewrite muln0 ltn0.
  by rewrite ltn_divLR // ltn_pmod // -divn_eq.
right; case: (ltnP (i - 3 * nv) (3 * ne)) => h2; last by right; exists (i - (3 * nv + 3 * ne))%N; lia.
left; exists ((i - 3 * nv) %/ ne)%N, ((i - 3 * nv) %% ne)%N.
have hn : (0 < ne)%N by case: ne h2 => //; rewrite muln0 ltn0.
by rewrite ltn_divLR // ltn_pmod // -addnA -divn_eq subnKC.
Qed.
End Numbering.
