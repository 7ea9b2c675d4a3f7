(** Two triangles with a common edge and two intervals with a common end. *)
From mathcomp Require Import all_ssreflect all_algebra.
From SsrMultinomials Require Import mpoly.
From Verif Require Import Model.Gem Model.Piola Model.Zany Spec.Algebra Spec.Polynomials Spec.Zany Spec.ZanySamples Spec.Conformity.
From Verif Require Import Proofs.PiolaFacts Proofs.Polynomials Proofs.ZanySums Proofs.EdgeGeometry Proofs.ZanySamples Proofs.HermiteSample Proofs.Transport.
Set Implicit Arguments.
Unset Strict Implicit.
Unset Printing Implicit Defensive.
Import GRing.Theory Num.Theory.
Local Open Scope ring_scope.
Local Notation Q := [realFieldType of rat].

(** ** The neighbour of the sample triangle across its edge 1 *)
Definition mirror (i j : 'I_2) : rat := if i == j then (if i == 0 then - q_of 5 3 else 3%:R) else 0.
Definition geometry_mirror : geometry (F := rat) := mkGeometry
  (fun _ i j => if (i == j)%N then (if (i == 0)%N then - q_of 5 3 else 3%:R) else 0)
  (fun _ => - 5%:R)
  (fun v => nth 0 [:: 1; 7%:R; 3%:R] v)
  (fun e i => nth 0 (nth [::] [:: [:: q_of 4 5; q_of 3 5]; [:: 1; 0]; [:: 0; - 1]] e) i)
  (fun e i => nth 0 (nth [::] [:: [:: q_of 12 13; - q_of 5 13]; [:: 1; 0]; [:: 0; 1]] e) i)
  (fun e i => nth 0 (nth [::] [:: [:: q_of 5 13; q_of 12 13]; [:: 0; 1]; [:: - 1; 0]] e) i)
  (fun e => nth 0 [:: 13%:R; 12%:R; 5%:R] e).

Lemma mirror_provides : provides geometry_mirror triangle345 mirror shift.
Proof.
split; first by vm_compute.
split; first by move=> u; case=> [[|[|i]] hi]; case=> [[|[|j]] hj].
split; first by move=> u; apply/eqP; vm_compute.
split; first by case=> [|[|[|v]]] // _; vm_compute.
move=> e he; rewrite /square /tangent /=.
have X v (i : 'I_2) : image (affine mirror shift) (fun i => vertex (ring_ops [fieldType of rat]) triangle345 v i) i =
  mirror i 0 * vertex (ring_ops [fieldType of rat]) triangle345 v 0%N + mirror i 1 * vertex (ring_ops [fieldType of rat]) triangle345 v 1%N + shift i.
  by rewrite affine_image sum2.
rewrite !X; split; first by case: e he => [|[|[|e]]].
split; first by apply/eqP; case: e he => [|[|[|e]]] // _; vm_compute.
move=> i; rewrite /clockwise /= !X.
by case: i => [[|[|i]] hi] //; case: e he => [|[|[|e]]] // _; split; try split; apply/eqP; vm_compute.
Qed.

Lemma neighbours (w : geometry (F := rat) -> nat -> rat) (K K' : cell Q) :
  geo K = geometry5_12_13 -> matrix K = stretch -> origin K = shift ->
  geo K' = geometry_mirror -> matrix K' = mirror -> origin K' = shift ->
  meet (shape_of (F := Q) triangle345 w K) 1 (shape_of (F := Q) triangle345 w K') 1.
Proof.
case: K => g J b f; case: K' => g' J' b' f' /= -> -> -> -> -> ->.
by split; [|split]; try (by split); move=> i; rewrite /= !affine_image !sum2; case: i => [[|[|i]] hi] //; apply/eqP; vm_compute.
Qed.

(** Coefficients that agree for the dofs of edge 1 and its ends. *)
Definition left_of (nv ne : nat) : nat -> rat := fun i => i.+1%:R.
Definition right_of (nv ne : nat) : nat -> rat := fun i =>
  if (nv <= i < 2 * nv)%N then 100%:R else if (3 * nv <= i < 3 * nv + ne)%N || (3 * nv + 2 * ne <= i)%N then - i%:R else i.+1%:R.

Lemma shared_sample nv ne : shared (F := Q) nv ne (left_of nv ne) 1 (right_of nv ne) 1.
Proof.
split=> k hk; rewrite /right_of /left_of /first /second /= ?mul0n ?add0n ?mul1n.
  rewrite !(leqNgt nv k) hk /= !(leqNgt _ k).
  have -> : (k < 3 * nv)%N by apply: leq_trans hk _; rewrite leq_pmull.
  have -> : (k < 3 * nv + 2 * ne)%N by apply: leq_trans hk _; apply: leq_trans (leq_addr _ _); rewrite leq_pmull.
  have h2 : (2 * nv + k < 3 * nv)%N by rewrite (mulSn 2) addnC ltn_add2r.
  rewrite [(2 * nv + k < 2 * nv)%N]ltnNge leq_addr andbF [(3 * nv <= _)%N]leqNgt h2 /=.
  by rewrite leqNgt (leq_trans h2 (leq_addr _ _)).
have h1 : (2 * nv <= 3 * nv + ne + k)%N by rewrite -addnA (leq_trans _ (leq_addr _ _)) // leq_mul2r orbT.
rewrite [(_ < 2 * nv)%N]ltnNge h1 andbF /= [(_ < 3 * nv + ne)%N]ltnNge leq_addr andbF /=.
by rewrite -addnA leq_add2l mul2n -addnn leq_add2l leqNgt hk.
Qed.

Lemma zero_functional k : functional (fun f : pieces Q => (fun (_ : pieces Q) (_ : nat) => 0 : Q) f k).
Proof. by move=> n a phi f _; rewrite big1 // => j _; rewrite mulr0. Qed.

(** The intervals from 1 to 3 and from 3 to 5. *)
Definition left_cell : hermite_cell Q 1 := HermiteCell geometry_double double (fun j => hermite_basis j 0).
Definition right_map : polymap Q 1 := affine (fun _ _ => 2%:R) (fun _ => 3%:R).
Definition right_cell : hermite_cell Q 1 := HermiteCell
  (mkGeometry (fun _ _ _ => 2%:R) (fun _ => 2%:R) (fun v => (v + 4)%:R) (fun _ _ => 1) (fun _ _ => 1) (fun _ _ => 1) (fun _ => 2%:R))
  right_map
  (fun j => pull (affine (fun _ _ => 2%:R^-1) (fun i => - \sum_(k < 1) 2%:R^-1 * 3%:R)) (pull double (hermite_basis j 0))).

Lemma cubic_deg j : (msize (hermite_basis j 0 : {mpoly Q[1]}) <= 4)%N.
Proof.
rewrite /hermite_basis; set x := _ + (- q_of 1 2)%:MP.
have hx : (msize x <= 2)%N by apply: degD; [apply/degZ/deg_var|apply: degC].
 apply: degD; [apply: degD; [apply: degD|]|].
- exact: degC.
- by apply: degZ; apply: leq_trans hx _.
- by apply: degZ; apply: (@leq_trans 3) => //; apply: (degM (k := 1) (l := 1)).
- by apply: degZ; apply: (degM (k := 2) (l := 1)) => //; apply: (degM (k := 1) (l := 1)).
Qed.

Lemma left_based : hermite_based interval 4 (fun _ _ => 0) left_cell.
Proof.
split; first by move=> v i j _; rewrite affine_jacobian.
split; first by move=> v _; rewrite pnatr_eq0 addnS.
split; first by move=> j _; exact: cubic_deg.
by move=> i j hi hj; exact: (hermite_basis_nodal hi hj).
Qed.

Lemma right_based : hermite_based interval 4 (fun _ _ => 0) right_cell.
Proof.
split; first by move=> v i j _; rewrite affine_jacobian.
split; first by move=> v _; rewrite pnatr_eq0 addnS.
split; first by move=> j _; apply: (leq_trans (pull_deg _ _ _)); apply: (leq_trans (pull_deg _ _ _)); exact: cubic_deg.
move=> i j hi hj; rewrite -(hermite_basis_nodal hi hj); congr (hermite_dof _ _ _ _ i).
rewrite /= /right_map pull_inverse //.
by move=> k l; rewrite big_ord1 !ord1 eqxx mulVf.
Qed.

Lemma zero_linear k m (a : 'I_m -> Q) (phi : nat -> {mpoly Q[1]}) :
  (fun (_ : {mpoly Q[1]}) (_ : nat) => 0 : Q) (\sum_(j < m) a j *: phi j) k = \sum_(j < m) a j * (fun (_ : {mpoly Q[1]}) (_ : nat) => 0 : Q) (phi j) k.
Proof. by apply: esym; apply: big1 => j _; rewrite mulr0. Qed.
