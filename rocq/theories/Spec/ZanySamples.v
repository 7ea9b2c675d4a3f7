(** A triangle with edges 3, 4, 5 that is mapped to one with edges 5, 12,
    13. *)
From mathcomp Require Import all_ssreflect all_algebra.
From SsrMultinomials Require Import mpoly.
From Verif Require Import Model.Zany Spec.Algebra Spec.Polynomials Spec.Zany.
Set Implicit Arguments.
Unset Strict Implicit.
Unset Printing Implicit Defensive.
Import GRing.Theory Num.Theory.
Local Open Scope ring_scope.

Definition q_of (n d : nat) : rat := n%:R / d%:R.

(** The reference triangle. *)
Definition triangle345 : simplex (F := rat) := mkSimplex 2
  [:: [:: 0; 0]; [:: 3%:R; 0]; [:: 0; 4%:R]] [:: (1, 2); (0, 2); (0, 1)]%N
  (fun t => if t 0%N == 0 then `|t 1%N| else if t 1%N == 0 then `|t 0%N| else 5%:R).

(** The map: stretching of the axes and a translation. *)
Definition stretch (i j : 'I_2) : rat := if i == j then (if i == 0 then q_of 5 3 else 3%:R) else 0.
Definition shift : point [fieldType of rat] 2 := fun i => if i == 0 then 1 else 2%:R.

(** What a coordinate mapping provides for it. *)
Definition geometry5_12_13 : geometry (F := rat) := mkGeometry
  (fun _ i j => if (i == j)%N then (if (i == 0)%N then q_of 5 3 else 3%:R) else 0)
  (fun _ => 5%:R)
  (fun v => (v.+1)%:R)
  (fun e i => nth 0 (nth [::] [:: [:: q_of 4 5; q_of 3 5]; [:: 1; 0]; [:: 0; - 1]] e) i)
  (fun e i => nth 0 (nth [::] [:: [:: q_of 12 13; q_of 5 13]; [:: 1; 0]; [:: 0; - 1]] e) i)
  (fun e i => nth 0 (nth [::] [:: [:: - q_of 5 13; q_of 12 13]; [:: 0; 1]; [:: 1; 0]] e) i)
  (fun e => nth 0 [:: 13%:R; 12%:R; 5%:R] e).

(** Barycentric coordinates of the physical triangle, and quadratic functions
    that vanish at its vertices. *)
Definition bary (i : nat) : {mpoly rat[2]} :=
  let l1 := q_of 1 5 *: 'X_0 + (- q_of 1 5)%:MP in
  let l2 := q_of 1 12 *: 'X_1 + (- q_of 1 6)%:MP in
  if (i == 0)%N then 1%:MP - l1 - l2 else if (i == 1)%N then l1 else l2.
Definition bump_at (i : nat) : {mpoly rat[2]} := bary i - bary i * bary i.

(** The derivatives of the barycentric coordinates of the reference triangle
    along the normals. *)
Definition slope (e i : nat) : rat :=
  nth 0 (nth [::] [:: [:: - q_of 5 12; q_of 4 15; q_of 3 20]; [:: - q_of 1 3; q_of 1 3; 0]; [:: q_of 1 4; 0; - q_of 1 4]] e) i.

(** The functions on the physical triangle whose compositions with the map are
    the nodal basis of the Morley element on the reference triangle. *)
Definition morley_basis (j : nat) : pieces [realFieldType of rat] := fun _ =>
  if (j < 3)%N then bary j - ((slope 0 j / slope 0 0) *: bump_at 0 + (slope 1 j / slope 1 1) *: bump_at 1 + (slope 2 j / slope 2 2) *: bump_at 2)
  else (slope (j - 3) (j - 3))^-1 *: bump_at (j - 3).

(** A quintic function. *)
Definition quintic : {mpoly rat[2]} := 'X_[U_(0) *+ 2 + U_(1) *+ 3].

(** The product of the coordinates: its derivatives are linear on every edge. *)
Definition product_function : {mpoly rat[2]} := 'X_0 * 'X_1.

(** The unit interval, mapped to the interval from 1 to 3, and the functions
    there whose compositions with the map are the cubic Hermite basis. *)
Definition interval : simplex (F := rat) := mkSimplex 1 [:: [:: 0]; [:: 1]] [:: (0, 1)%N] (fun t => `|t 0%N|).
Definition double : polymap [fieldType of rat] 1 := affine (fun _ _ => 2%:R) (fun _ => 1).
Definition geometry_double : geometry (F := rat) := mkGeometry (fun _ _ _ => 2%:R) (fun _ => 2%:R)
  (fun v => (v + 3)%:R) (fun _ _ => 1) (fun _ _ => 1) (fun _ _ => 1) (fun _ => 2%:R).
Definition hermite_basis (j _ : nat) : {mpoly rat[1]} :=
  let x := q_of 1 2 *: 'X_0 + (- q_of 1 2)%:MP in
  let c k := nth 0 (nth [::] [:: [:: 1; 0; - 3%:R; 2%:R]; [:: 0; 1; - 2%:R; 1]; [:: 0; 0; 3%:R; - 2%:R]; [:: 0; 0; - 1; 1]] j) k in
  (c 0%N)%:MP + c 1%N *: x + c 2%N *: (x * x) + c 3%N *: (x * x * x).
