(** Integer-valued leaves, for examples of tabulation. *)
From Coq Require Import String List Arith ZArith.
From Verif Require Import Model.Prelude Model.Cell Model.Element Model.Gem Model.PointSet Spec.Samples.
Import ListNotations.

Definition zops : ops Z := mkOps Z 0%Z 1%Z Z.add Z.mul Z.sub Z.opp Z.div (Z.eqb 0).

(** Coordinate of a point of an entity of the interval. *)
Definition zx (ent : dimkey * nat) (pt : list Z) : Z :=
  match ent with (DI 0, j) => Z.of_nat j | _ => hd 0%Z pt end.

(** Degree 1: 1 - x and x; degree 2: (1 - x)(1 - 2x), x(2x - 1), 4x(1 - x). *)
Definition ztab0 (alpha : list nat) (ent : dimkey * nat) (pt : list Z) (i : nat) (v : list nat) : Z :=
  match sum alpha with 0 => 1%Z | _ => 0%Z end.
Definition ztab1 (alpha : list nat) (ent : dimkey * nat) (pt : list Z) (i : nat) (v : list nat) : Z :=
  let x := zx ent pt in
  match sum alpha, i with
  | 0, 0 => (1 - x)%Z | 0, _ => x
  | 1, 0 => (-1)%Z | 1, _ => 1%Z
  | _, _ => 0%Z
  end.
Definition ztab2 (alpha : list nat) (ent : dimkey * nat) (pt : list Z) (i : nat) (v : list nat) : Z :=
  let x := zx ent pt in
  match sum alpha, i with
  | 0, 0 => ((1 - x) * (1 - 2 * x))%Z | 0, 1 => (x * (2 * x - 1))%Z | 0, _ => (4 * x * (1 - x))%Z
  | 1, 0 => (4 * x - 3)%Z | 1, 1 => (4 * x - 1)%Z | 1, _ => (4 - 8 * x)%Z
  | 2, 0 => 4%Z | 2, 1 => 4%Z | 2, _ => (-8)%Z
  | _, _ => 0%Z
  end.

Definition zcg1 : elt Z := ELeaf (cg1 ztab1).
Definition zcg2 : elt Z := ELeaf (cg2 ztab2).
Definition zdg1 : elt Z := ELeaf (dg1 ztab1).
Definition zdg0 : elt Z := ELeaf (dg0 ztab0).
(** Raviart-Thomas on the quadrilateral, and a mixed element of it with a
    vector-valued one. *)
Definition zrt : elt Z :=
  EEnriched [EHDiv (ETensorProduct [zcg2; zdg1]); EHDiv (ETensorProduct [zdg1; zcg2])].
Definition zmixed : elt Z :=
  EEnriched [EMixedSub zrt 4 0; EMixedSub (ETensor (ETensorProduct [zcg1; zcg1]) [2] true) 4 2].
Definition zflat : elt Z := EFlattened (ETensorProduct [zcg2; zcg1]).

(** Points. *)
Definition zline (a : nat) (xs : list Z) : pset Z := PPoints PGeneric 1 (map (fun x => [x]) xs) [(a, length xs)].
Definition zgrid : pset Z := PTensor [zline 0 [0; 1; 2]%Z; zline 1 [3; -1]%Z].
