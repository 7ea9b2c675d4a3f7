(** A triangle and a tetrahedron with maps, and elements on them. *)
From mathcomp Require Import all_ssreflect all_algebra.
From SsrMultinomials Require Import mpoly.
From Verif Require Import Model.Cell Model.Element Model.Zany Model.PiolaElements.
From Verif Require Import Spec.Algebra Spec.Polynomials Spec.PiolaElements.
Set Implicit Arguments.
Unset Strict Implicit.
Unset Printing Implicit Defensive.
Import GRing.Theory Num.Theory.
Local Open Scope ring_scope.

Local Notation Q := [realFieldType of rat].
Definition qq (n d : nat) : rat := n%:R / d%:R.
Definition at_ (t : seq (seq rat)) (i j : nat) : rat := nth 0 (nth [::] t i) j.

(** A triangle with edges 5, 4, 3 and a map that is not a similarity. *)
Definition cell2 : scell (F := rat) := mkScell 2 [:: [:: 0; 0]; [:: 3%:R; 0]; [:: 0; 4%:R]] [:: [:: 1; 2]; [:: 0; 2]; [:: 0; 1]]%N
  (fun t => if t 0%N == 0 then `|t 1%N| else if t 1%N == 0 then `|t 0%N| else 5%:R).
Definition table2 := [:: [:: 2%:R; 1]; [:: 0; 3%:R]] : seq (seq rat).
Definition J2 : 'M[rat]_2 := \matrix_(i, j) at_ table2 i j.
Definition geometry_of (t : seq (seq rat)) (d : rat) : geometry (F := rat) := mkGeometry (fun _ => at_ t) (fun _ => d)
  (fun v => (v.+1)%:R) (fun _ _ => 0) (fun _ _ => 0) (fun _ _ => 0) (fun _ => 1).
Definition g2 := geometry_of table2 6%:R.
Definition b2 : point Q 2 := fun i => if i == 0 then 1 else 2%:R.

(** A tetrahedron. *)
Definition cell3 : scell (F := rat) := mkScell 3 [:: [:: 0; 0; 0]; [:: 1; 0; 0]; [:: 0; 1; 0]; [:: 0; 0; 1]]
  [:: [:: 1; 2; 3]; [:: 0; 2; 3]; [:: 0; 1; 3]; [:: 0; 1; 2]]%N (fun _ => 0).
Definition table3 := [:: [:: 1; 2%:R; 0]; [:: 0; 1; 1]; [:: 1; 0; 2%:R]] : seq (seq rat).
Definition J3 : 'M[rat]_3 := \matrix_(i, j) at_ table3 i j.
Definition g3 := geometry_of table3 4%:R.
Definition b3 : point Q 3 := fun i => i%:R.

(** Values at a point of a facet. *)
Definition value_at m (x : 'I_m -> rat) : on_facet Q m := fun f => f.@[x].

(** Quadratic vector fields on the triangle: the components at the vertices, the
    normal and the tangential component at the midpoints of the edges; the
    tangential ones are numbered last. *)
Definition br_sense (i : nat) : vnode Q 1 :=
  if (i < 6)%N then Component 0 (@cell_vertex Q 1 cell2 (i %/ 2)) (if (i %% 2 == 0)%N then 0 else 1)
  else if (i < 9)%N then Normal 0 (i - 6) (value_at (fun _ => qq 1 2))
  else Tangential 0 (i - 9) (value_at (fun _ => qq 1 2)) 0.
Definition br_dofs : edofs :=
  [:: (DI 0, [:: (0, [:: 0; 1]); (1, [:: 2; 3]); (2, [:: 4; 5])]); (DI 1, [:: (0, [:: 6; 9]); (1, [:: 7; 10]); (2, [:: 8; 11])]);
      (DI 2, [:: (0, [::])])]%N.

(** The fields on the image of the triangle whose preimages are their basis:
    Lagrange's functions times vectors. *)
Definition bary2 (i : nat) : {mpoly rat[2]} :=
  let l2 := qq 1 12 *: 'X_1 + (- qq 1 6)%:MP in
  let l1 := qq 1 6 *: 'X_0 + (- qq 1 18) *: 'X_1 + (- qq 1 18)%:MP in
  if (i == 0)%N then 1%:MP - l1 - l2 else if (i == 1)%N then l1 else l2.
Definition lagrange2 (j : nat) : {mpoly rat[2]} :=
  if (j < 3)%N then 2%:R *: (bary2 j * bary2 j) - bary2 j
  else 4%:R *: (bary2 (nth 0 [:: 1; 0; 0] (j - 3))%N * bary2 (nth 0 [:: 2; 2; 1] (j - 3))%N).
Definition br_vector (j : nat) : seq rat :=
  nth [::] [:: [:: qq 1 3; 0]; [:: qq 1 6; qq 1 2]; [:: qq 1 3; 0]; [:: qq 1 6; qq 1 2]; [:: qq 1 3; 0]; [:: qq 1 6; qq 1 2];
    [:: qq 11 150; qq 3 50]; [:: qq 1 12; 0]; [:: - qq 1 18; - qq 1 6]; [:: - qq 1 75; qq 2 25]; [:: qq 1 24; qq 1 8]; [:: qq 1 9; 0]] j.
Definition br_basis (j : nat) : vfield Q 1 := fun _ i =>
  nth 0 (br_vector j) i *: lagrange2 (if (j < 6)%N then (j %/ 2)%N else (3 + (j - 6) %% 3)%N).

(** The dofs of Mardal-Tai-Winther elements: on each edge the mean of the normal
    component, that of the tangential one and another moment of the normal
    component (here values at points); constraints. *)
Definition mtw_sense (ell : nat -> vfield Q 1 -> rat) (i : nat) : vnode Q 1 :=
  if (i < 9)%N then
    if (i %% 3 == 1)%N then Tangential 0 (i %/ 3) (value_at (fun _ => qq 1 2)) 0
    else Normal 0 (i %/ 3) (value_at (fun _ => if (i %% 3 == 0)%N then qq 1 2 else qq 1 3))
  else Other (ell (i - 9)%N).
Definition mtw_dofs : edofs :=
  [:: (DI 0, [:: (0, [::]); (1, [::]); (2, [::])]); (DI 1, [:: (0, [:: 0; 1; 2]); (1, [:: 3; 4; 5]); (2, [:: 6; 7; 8])]);
      (DI 2, [:: (0, [::])])]%N.

(** The components and the divergence at each vertex, values at edges. *)
Definition as_sense (i : nat) : vnode Q 1 :=
  if (i < 9)%N then
    if (i %% 3 == 2)%N then Divergence 0 (@cell_vertex Q 1 cell2 (i %/ 3))
    else Component 0 (@cell_vertex Q 1 cell2 (i %/ 3)) (if (i %% 3 == 0)%N then 0 else 1)
  else Component 0 (@cell_facet Q 1 cell2 ((i - 9) %/ 2) 1%N) (if ((i - 9) %% 2 == 0)%N then 0 else 1).
Definition as_dofs : edofs :=
  [:: (DI 0, [:: (0, [:: 0; 1; 2]); (1, [:: 3; 4; 5]); (2, [:: 6; 7; 8])]); (DI 1, [:: (0, [:: 9; 10]); (1, [:: 11; 12]); (2, [:: 13; 14])]);
      (DI 2, [:: (0, [::])])]%N.
