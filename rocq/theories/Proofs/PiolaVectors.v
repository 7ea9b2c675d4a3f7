(** Basis transformations of vector-valued elements. *)
From Coq Require Import String.
From mathcomp Require Import all_ssreflect all_algebra ring zify.
From SsrMultinomials Require Import mpoly.
From Verif Require Import Model.Prelude Model.Gem Model.Cell Model.Element Model.Mapped Model.Piola Model.Zany Model.PiolaElements.
From Verif Require Import Spec.Algebra Spec.Polynomials Spec.EntityDofs Spec.PiolaElements.
From Verif Require Import Proofs.MappedDofs Proofs.PiolaFields Proofs.PiolaArrays Proofs.PiolaSums Proofs.PiolaMatrices.
From Verif Require Import Proofs.PiolaLists Proofs.PiolaBubbles.
Set Implicit Arguments.
Unset Strict Implicit.
Unset Printing Implicit Defensive.
Import GRing.Theory Num.Theory.
Local Open Scope ring_scope.

Lemma nthE (T : Type) (d : T) l k : List.nth k l d = nth d l k.
Proof. by elim: l k => [|x l IH] [|k] //=. Qed.
Lemma InE (l : seq nat) i : List.In i l <-> i \in l.
Proof.
elim: l => [//|x l IH] /=; rewrite inE; split.
- by case=> [->|/IH ->]; rewrite ?eqxx ?orbT.
- by case/orP => [/eqP ->|h]; [left|right; apply/IH].
Qed.
Lemma NoDupE (l : seq nat) : List.NoDup l <-> uniq l.
Proof.
elim: l => [|x l IH] /=; first by split=> // _; constructor.
split.
- move=> h; inversion h; subst; apply/andP; split; last by apply/IH.
  by apply/negP => /InE.
- case/andP => h1 h2; constructor; last by apply/IH.
  by move/InE; apply/negP.
Qed.

Section Vectors.
Variables (F : realFieldType) (m : nat).
Local Notation n := m.+1.
Local Notation o := (ring_ops F).
Variables (c : scell (F := F)) (g : geometry (F := F)) (J : 'M[F]_n) (b : point F n).
Hypothesis hcell : fiat_cell m c.
Hypothesis hg : provides g J.
Variables (numbf ndof : nat) (sense : nat -> vnode F m).
Hypothesis hle : (ndof <= numbf)%N.
Hypothesis hlin : forall i, (i < numbf)%N -> vlinear (sense i).
Let X := @cell_facet F m c.
Let vref i u := vdof (reference_place (vfield F m) X) (sense i) u.
Let vphys i u := vdof (physical_place J b X (cell_size g) (vpreimage J b)) (sense i) u.
Let okr := okrow numbf ndof vref vphys (vpreimage J b).

Lemma members_row i (G : seq nat) (w : nat -> F) : uniq G -> (forall j, j \in G -> (j < ndof)%N) ->
  (forall j, (j < ndof)%N -> j \notin G -> w j = 0) ->
  (forall u, vref i (vpreimage J b u) = \sum_(q < size G) w (nth 0%N G q) * vphys (nth 0%N G q) u) -> okr i w.
Proof.
move=> hu hlt h0 hr; exists (fun j => if (j < ndof)%N then w j else 0); split=> [l ->//|u].
rewrite hr (@sum_members F numbf G (fun j => (if (j < ndof)%N then w j else 0) * vphys j u)) //.
- by apply: eq_bigr => q _; rewrite hlt // mem_nth.
- by move=> j /hlt hj; apply: leq_trans hle.
- by move=> j _ hj; case: ifP => h; rewrite ?h0 // mul0r.
Qed.

Lemma single_row i (w : nat -> F) : (i < ndof)%N -> (forall j, (j < ndof)%N -> j <> i -> w j = 0) ->
  (forall u, vref i (vpreimage J b u) = w i * vphys i u) -> okr i w.
Proof.
move=> hi h0 hr; apply: (@members_row i [:: i]) => //.
- by move=> j; rewrite inE => /eqP ->.
- by move=> j hj; rewrite inE => /eqP; apply: h0.
- by move=> u; rewrite big_ord1 /=.
Qed.

Definition divergent d := exists p x, sense d = Divergence p x.
Definition grouped (G : seq nat) := exists p x, forall k : 'I_n, sense (nth 0%N G k) = Component p x k.

Lemma div_row d w : (d < ndof)%coq_nat -> divergent d -> w d = detJ_at g (centre o c) -> (forall j, j <> d -> w j = f0 o) -> okr d w.
Proof.
move=> /ltP hd [p [x e]] hw h0; apply: single_row => // [j _|u]; first exact: h0.
rewrite /vref /vphys e hw; exact: divergence_ref.
Qed.

Lemma group_row G a w : List.NoDup G -> (forall i, List.In i G -> (i < ndof)%coq_nat) -> grouped G ->
  List.length G = sc_dim c -> (a < sc_dim c)%coq_nat ->
  (forall q, (q < sc_dim c)%coq_nat -> w (List.nth q G 0%N) = n_at (inverse_array o (sc_dim c) (jacobian_at g (centre o c))) a q) ->
  (forall j, ~ List.In j G -> w j = f0 o) -> okr (List.nth a G 0%N) w.
Proof.
have [hd _] := hcell; rewrite hd => /NoDupE hu hlt [p [x e]] hs /ltP ha hw h0.
rewrite nthE; apply: (@members_row _ G) => //.
- by move=> j /InE hj; apply/ltP; apply: hlt.
- by move=> j _ hj; apply: h0; move/InE; apply/negP.
move=> u; have -> : size G = n by [].
rewrite /vref (e (Ordinal ha)) (component_ref c b hg); apply: eq_bigr => q _.
by rewrite /vphys (e q) -nthE hw //; apply/ltP.
Qed.

Variable deriv : nat -> bool.
Hypothesis hderiv : forall d, (d < numbf)%N -> deriv d = is_divergence (sense d).

Lemma blocks_chunks l : (forall i, List.In i l -> (i < numbf)%N) -> blocks sense l ->
  chunks (sc_dim c) deriv divergent grouped l.
Proof.
have [hd _] := hcell; move=> hlt hb; elim: hb hlt => [|d p x l' e _ IH|G p x l' hs e _ IH] hlt.
- exact: chunks_nil.
- apply: chunks_div; first by exists p, x.
    by rewrite hderiv ?e //; apply: hlt; left.
  by apply: IH => i hi; apply: hlt; right.
- apply: chunks_group.
  + by exists p, x.
  + by rewrite hd.
  + have h0 : (0 < size G)%N by rewrite hs.
    have -> : List.hd 0%N G = nth 0%N G 0 by case: (G).
    have hb0 : (nth 0%N G 0 < numbf)%N.
      by apply: hlt; apply: List.in_or_app; left; apply/InE; rewrite mem_nth.
    by rewrite hderiv // (e ord0).
  + by apply: IH => i hi; apply: hlt; apply: List.in_or_app; right.
Qed.

Lemma array_transforms V : n_rows V = numbf -> n_cols V = ndof -> (forall i, (i < numbf)%coq_nat -> okr i (n_at V i)) ->
  transforms_vectors c g J b numbf ndof sense (list_tensor_of V).
Proof.
move=> hr hc hV; split=> //; split=> //.
have hrows i : (i < numbf)%N -> okr i (fun l => n_at (list_tensor_of V) l i) by move=> hi; apply: hV; apply/ltP.
split; first exact: (rows_relates hle hrows).
apply: (rows_nodal hle hrows) => i a phi hi; exact: vphys_linear (hlin hi).
Qed.

Lemma dof_bound sd N (d : edofs) k e l i : edofs_ok (topology (Simplex sd)) N d -> has_dofs d k e l -> List.In i l -> (i < N)%N.
Proof.
move=> hd hl hi; have [_ [_ [hin _]]] := edofs_facts _ _ _ hd.
by apply/ltP; apply/hin; apply/in_all_lists; exists k, e, l.
Qed.

Lemma as_transforms dofs : numbf = ndof -> edofs_ok (topology (Simplex n)) ndof dofs ->
  (forall k e l, has_dofs dofs k e l -> blocks sense l) ->
  exists M, as_transformation o ndof dofs deriv c g = Ok M /\ transforms_vectors c g J b ndof ndof sense M.
Proof.
have [hd _] := hcell => hN hdofs hb.
have [|||||||V [e [hr [hc hV]]]] := @as_array F o c g deriv numbf ndof okr _ divergent grouped _ _ _ _ dofs hN.
- move=> i w w'; exact: okrow_ext.
- rewrite hd; lia.
- lia.
- exact: div_row.
- exact: group_row.
- by rewrite hd.
- move=> k e l hl; apply: blocks_chunks; last exact: hb hl.
  by move=> i hi; rewrite hN; exact: dof_bound hdofs hl hi.
exists (list_tensor_of V); split=> //; rewrite -{1}hN; apply: array_transforms => //; rewrite ?hN //.
Qed.

Lemma bubble_transforms mappings s d pf lam : (n = 2 \/ n = 3)%N ->
  mappings <> nil -> (forall y, List.In y mappings -> y = "contravariant piola"%string) ->
  edofs_ok (topology (Simplex n)) numbf d ->
  (forall k i l x, has_dofs d k i l -> List.In x l -> k <> DI m -> (x < ndof)%N) ->
  (forall k i l, has_dofs d k i l -> k <> DI m -> blocks sense l) ->
  (forall f l, has_dofs d (DI m) f l -> exists T, l = (s + f)%N :: T /\ (s + f < ndof)%N /\
     (forall x, List.In x T -> (ndof <= x)%N) /\ size T = m /\ sense (s + f)%N = Normal (pf f) f (lam f) /\
     forall k, (k < m)%N -> sense (nth 0%N T k) = Tangential (pf f) f (lam f) k) ->
  exists d' M, piola_bubble_init mappings n numbf d = Ok (d', ndof) /\
    bubble_transformation o numbf ndof d d' deriv c g = Ok M /\ transforms_vectors c g J b numbf ndof sense M.
Proof.
have [hd _] := hcell => hn hm1 hm2 hdofs hoth hb hf.
have em : Nat.sub n 1 = m by lia.
have [||||d' [e1 [hd' hdd]]] := @piola_bubble_ok mappings n numbf ndof s d hm1 hm2 _ hdofs.
- lia.
- lia.
- by move=> k i l x; rewrite em => h1 h2 h3; apply/ltP; exact: hoth h1 h2 h3.
- move=> i l; rewrite em => /hf [T [-> [h1 [h2 _]]]]; exists T; split=> //; split; first exact/ltP.
  by move=> x /h2 h; apply/leP.
have hdim : (sc_dim c = 2 \/ sc_dim c = 3)%N by rewrite hd.
have hx : forall x, (s + x)%coq_nat = (s + x)%N by [].
have hin2 := edofs_facts _ _ _ hdofs.
have [||||||||||||||V [e2 [hr [hc hV]]]] := @bubble_array F o c g deriv numbf ndof okr _ divergent grouped _ _ _ _ s d d' (rows_at c g).
- move=> i w w'; exact: okrow_ext.
- rewrite hd; lia.
- lia.
- exact: div_row.
- exact: group_row.
- exact: hdim.
- by rewrite hd.
- by rewrite hd.
- by rewrite hd.
- by move=> f _; have [h1 [h2 _]] := rows_at_ok g f hdim.
- rewrite [in DI _]hd em => k e l hl hk; apply: blocks_chunks; last exact: hb hl hk.
  by move=> i hi; exact: dof_bound hdofs hl hi.
- rewrite hd em => f l /hf [T [-> [h1 [h2 [h3 _]]]]]; exists T; split=> //; split; first exact/ltP; split=> //.
  by move=> i /h2 h; apply/leP.
- rewrite hd em => f T a w hl /ltP hfn /ltP ha hw h0.
  have [T' [eT [h1 [h2 [h3 [h4 h5]]]]]] := hf _ _ hl.
  have {eT}eT : T' = T by case: eT.
  subst T'.
  have ha' : (a < m)%N by rewrite -h3.
  have hTa k : (k < m)%N -> nth 0%N T k \in T by move=> hk; rewrite mem_nth // h3.
  have hl2 : is_linear (lam f).
    have hb1 : (s + f < numbf)%N by apply: leq_trans hle.
    by have := hlin hb1; rewrite h4.
  have [hrow _] := rows_at_ok g f hdim.
  rewrite nthE.
  exists (fun j => if (j < ndof)%N then w j else \sum_(q < m) (nth 0%N T q == j)%:R * n_at (rows_at c g f) a q.+1).
  split=> [l ->//|u].
  rewrite /vref h5 // (vtangential_ref b hcell hg _ _ hfn hrow hl2 ha').
  have -> : \sum_(j < numbf) (if (j < ndof)%N then w j else \sum_(q < m) (nth 0%N T q == j)%:R * n_at (rows_at c g f) a q.+1) * vphys j u
    = \sum_(j < numbf) (if (j < ndof)%N then w j else 0) * vphys j u +
      \sum_(j < numbf) (\sum_(q < m) (nth 0%N T q == j)%:R * n_at (rows_at c g f) a q.+1) * vphys j u.
    rewrite -big_split /=; apply: eq_bigr => j _; rewrite -mulrDl; congr (_ * _); case: ifP => hj; last by rewrite add0r.
    rewrite big1 ?addr0 // => q _; have hq := h2 _ ((InE T _).2 (hTa q (ltn_ord q))).
    have -> : (nth 0%N T q == j) = false by apply/eqP => E; move: hq; rewrite E leqNgt hj.
    by rewrite mul0r.
  rewrite (@sum_members F numbf [:: (s + f)%N] (fun j => (if (j < ndof)%N then w j else 0) * vphys j u)) //=.
  + rewrite big_ord1 /= h1 hw /vphys h4; congr (_ + _).
    rewrite (@sum_spread F numbf m (fun q => nth 0%N T q) (fun q => n_at (rows_at c g f) a q.+1) (fun j => vdof (physical_place J b X (cell_size g) (vpreimage J b)) (sense j) u)).
      by apply: eq_bigr => q _; rewrite h5.
    move=> q hq; apply: (dof_bound hdofs hl); right; apply/InE; exact: hTa.
  + by move=> i; rewrite inE => /eqP ->; apply: leq_trans hle.
  + move=> j _; rewrite inE => /eqP hj; case: ifP => h; last by rewrite mul0r.
    by rewrite h0 ?mul0r //; apply/ltP.
- rewrite hd em => f T w hl /ltP hfn hw h0.
  have [T' [eT [h1 [h2 [h3 [h4 h5]]]]]] := hf _ _ hl.
  apply: single_row => // [j _|u]; first exact: h0.
  have hl2 : is_linear (lam f).
    have hb1 : (s + f < numbf)%N by apply: leq_trans hle.
    by have := hlin hb1; rewrite h4.
  have [hrow _] := rows_at_ok g f hdim.
  by rewrite hw mul1r /vref /vphys h4 (vnormal_ref b hcell hg _ _ hfn hrow hl2).
by exists d', (list_tensor_of V); split=> //; split=> //; apply: array_transforms.
Qed.
End Vectors.

Section MardalTaiWinther.
Variable F : realFieldType.
Local Notation o := (ring_ops F).
Variables (c : scell (F := F)) (g : geometry (F := F)) (J : 'M[F]_2) (b : point F 2).
Hypothesis hcell : fiat_cell 1 c.
Hypothesis hg : provides g J.

Lemma mtw_transforms numbf ndof dofs (sense : nat -> vnode F 1) : (ndof <= numbf)%N ->
  (forall i, (i < numbf)%N -> vlinear (sense i)) ->
  edofs_ok (topology (Simplex 2)) ndof dofs ->
  (forall f l, has_dofs dofs (DI 1) f l -> exists a r p lam, l = a :: r /\ List.In a.+1 r /\
     sense a = Normal p f lam /\ sense a.+1 = Tangential p f lam 0) ->
  (forall i, (i < numbf)%N -> shared (sense i) \/ exists f a r, has_dofs dofs (DI 1) f (a :: r) /\ i = a.+1) ->
  exists M, mtw_transformation o numbf ndof dofs c g = Ok M /\ transforms_vectors c g J b numbf ndof sense M.
Proof.
move=> hle hlin hdofs hf hs; have [hd _] := hcell.
have hdim : (sc_dim c = 2 \/ sc_dim c = 3)%N by left.
set X := @cell_facet F 1 c.
pose vref i u := vdof (reference_place (vfield F 1) X) (sense i) u.
pose vphys i u := vdof (physical_place J b X (cell_size g) (vpreimage J b)) (sense i) u.
have [|||||||V [e [hr [hc hV]]]] := @mtw_array F o c g numbf ndof (okrow numbf ndof vref vphys (vpreimage J b)) _ _ dofs (rows_at c g) hd.
- move=> i w w'; exact: okrow_ext.
- exact/leP.
- exact: hdofs.
- by move=> f _; have := rows_at_ok g f hdim; rewrite hd.
- by move=> f l /hf [a [r [p [lam [-> [h _]]]]]]; exists a, r.
- move=> f a r w hl /ltP hfn /ltP ha hw0 hw1 h0.
  have [a' [r' [p [lam [E [_ [h1 h2]]]]]]] := hf _ _ hl.
  have Ea : a' = a by case: E.
  subst a'.
  have ha1 : (a.+1 < numbf)%N by apply: leq_trans hle.
  have hl2 : is_linear lam by have := hlin _ ha1; rewrite h2.
  have [hrow _] := rows_at_ok g f hdim.
  apply: (@members_row F 1 c g J b numbf ndof sense hle _ [:: a; a.+1]).
  + by rewrite /= andbT inE; apply/eqP; lia.
  + by move=> j; rewrite !inE => /orP [] /eqP ->; lia.
  + by move=> j _; rewrite !inE negb_or => /andP [/eqP h3 /eqP h4]; apply: h0.
  + move=> u; rewrite !big_ord_recr big_ord0 /= add0r h1 h2 hw0 hw1.
    by rewrite (vtangential_ref b hcell hg _ _ hfn hrow hl2) // big_ord1.
- move=> i w /ltP hi hno hw; exists (fun j => (i == j)%:R); split=> [l _|u]; first by rewrite hw identityE.
  rewrite (@sum_identity F numbf i (fun j => vphys j u)) //.
  have [hsh|[f [a [r [hl E]]]]] := hs i hi; last by case: (hno _ _ _ hl).
  move: hsh; rewrite /vref /vphys; have := hlin i hi; case: (sense i) => //= p f lam hl2 hfn.
  have [hrow _] := rows_at_ok g f hdim.
  exact: (vnormal_ref b hcell hg p u hfn hrow hl2).
exists (list_tensor_of V); split=> //; exact: array_transforms.
Qed.
End MardalTaiWinther.

(** ** Other dimensions *)
Section Errors.
Variable F : realFieldType.
Local Notation o := (ring_ops F).
Lemma jm_dimension (c : scell (F := F)) (g : geometry (F := F)) numbf ndof : sc_dim c <> 2%N -> sc_dim c <> 3%N -> sc_facets c <> nil ->
  jm_transformation o numbf ndof c g = Err NotImplementedError.
Proof.
move=> h2 h3 hf; rewrite /jm_transformation /facet_transform dim_linear.
have -> : facet_rows o c (jacobian_at g (centre o c)) (detJ_at g (centre o c)) = fun _ => Err NotImplementedError.
  by rewrite /facet_rows; move: h2 h3; case: (sc_dim c) => [|[|[|[|d]]]].
by case: (sc_facets c) hf.
Qed.
Lemma mtw_dimension (c : scell (F := F)) (g : geometry (F := F)) numbf ndof (dofs : edofs) facets f rest a l : sc_dim c <> 2%N ->
  dict_get dimkey_eqb dofs (DI (Nat.sub (sc_dim c) 1)) = Ok facets -> sorted Nat.leb (List.map fst facets) = f :: rest ->
  dict_get Nat.eqb facets f = Ok (a :: l) -> mtw_transformation o numbf ndof dofs c g = Err ValueError.
Proof.
move=> h2 h3 h4 h5; rewrite /mtw_transformation h3 /bind h4 /foldM h5.
by case: PeanoNat.Nat.eqb_spec.
Qed.
End Errors.

Lemma alfeld_sorokina_transforms (F : realFieldType) m (c : scell (F := F)) (g : geometry (F := F)) (J : 'M[F]_m.+1) (b : point F m.+1) :
  fiat_cell m c -> provides g J -> forall ndof (sense : nat -> vnode F m) deriv dofs,
  (forall i, (i < ndof)%N -> vlinear (sense i)) ->
  (forall d, (d < ndof)%N -> deriv d = is_divergence (sense d)) ->
  edofs_ok (topology (Simplex m.+1)) ndof dofs ->
  (forall k e l, has_dofs dofs k e l -> blocks sense l) ->
  exists M, as_transformation (ring_ops F) ndof dofs deriv c g = Ok M /\ transforms_vectors c g J b ndof ndof sense M.
Proof. by move=> hc hg ndof sense deriv dofs hl hd hok hb; exact: (@as_transforms F m c g J b hc hg ndof ndof sense (leqnn _) hl deriv hd dofs erefl hok hb). Qed.
