(** Rational samples for entity support dofs. *)
From Coq Require Import String List Arith ZArith QArith Qcanon.
From Verif Require Import Model.Prelude Model.Cell Model.Element Model.Gem Model.PointSet Model.Evaluation Model.Quadrature.
From Verif Require Import Spec.Samples Spec.QSamples.
Import ListNotations.
Local Open Scope nat_scope.

(** Quadratic functions on the unit interval with their integrals, and
    functions on the point. *)
Definition quadratic_poly (c : cell) (d : nat) (f : list Qc -> Qc) (I : Qc) : Prop :=
  match c with
  | Simplex 0 => I = f []
  | Simplex 1 => d <= 2 /\ exists a b e, (d <= 1 -> e = 0%Qc) /\
      (forall p, f p = a + b * nth 0 p 0 + e * (nth 0 p 0 * nth 0 p 0))%Qc /\ I = (a + b * half + e * third)%Qc
  | _ => False
  end.

(** The midpoint rule and the left Radau rule with two points, filled up with
    points of weight 0. *)
Definition radau_rule (c : cell) (m : nat) : list (list Qc) * list Qc :=
  match m with
  | 0 => ([], [])
  | 1 => ([[half]], [1%Qc])
  | S (S r) => ([0%Qc] :: [Q2Qc (2 # 3)] :: repeat [0%Qc] r, Q2Qc (1 # 4) :: Q2Qc (3 # 4) :: repeat 0%Qc r)
  end.
Definition radau_scheme (c : cell) (d : nat) (s : string) : result (list (list Qc) * list Qc) :=
  match c with
  | Simplex 1 => Ok (radau_rule c 2)
  | _ => Ok ([repeat 0%Qc (spatial_dimension c)], [1%Qc])
  end.

(** The cells of entities. *)
Fixpoint sample_sub (c : cell) (k : dimkey) : cell :=
  match c, k with
  | Simplex _, DI d => Simplex d
  | Hypercube _, DI 0 => Simplex 0
  | Hypercube _, DI 1 => Simplex 1
  | Hypercube _, DI d => Hypercube d
  | TPCell cs, DT ks =>
      TPCell ((fix go (cs : list cell) (ks : list dimkey) : list cell :=
                 match cs, ks with c :: cs, k :: ks => sample_sub c k :: go cs ks | _, _ => [] end) cs ks)
  | _, DI d => Simplex d
  | _, DT _ => Simplex 0
  end.

Definition qgtb (x y : Qc) : bool := if Qclt_le_dec y x then true else false.
Definition q1e8 : Qc := Q2Qc (1 # 100000000).

(** [a (1 - x)] and [b x], with derivatives. *)
Definition qx (ent : dimkey * nat) (pt : list Qc) : Qc :=
  match ent with (DI 0, j) => Q2Qc (inject_Z (Z.of_nat j)) | _ => hd 0%Qc pt end.
Definition qtab (a b : Qc) (alpha : list nat) (ent : dimkey * nat) (pt : list Qc) (i : nat) (v : list nat) : Qc :=
  let x := qx ent pt in
  match sum alpha, i with
  | 0, 0 => a * (1 - x) | 0, _ => b * x
  | 1, 0 => - a | 1, _ => b
  | _, _ => 0
  end%Qc.
Definition qtab0 (alpha : list nat) (ent : dimkey * nat) (pt : list Qc) (i : nat) (v : list nat) : Qc :=
  match sum alpha with 0 => 1%Qc | _ => 0%Qc end.

Definition qcg1 : elt Qc := ELeaf (cg1 (qtab 1 1)).
(** The second function is smaller by a factor of 100000. *)
Definition qtiny : elt Qc := ELeaf (cg1 (qtab 1 (Q2Qc (1 # 100000)))).
Definition qdg0 : elt Qc := ELeaf (dg0 qtab0).
Definition qq1 : elt Qc := EFlattened (ETensorProduct [qcg1; qcg1]).
Definition qrt : elt Qc := EFlattened (EEnriched [EHDiv (ETensorProduct [qcg1; qdg0]); EHDiv (ETensorProduct [qdg0; qcg1])]).
(** A hexahedron made of a quadrilateral and an interval. *)
Definition qhex : elt Qc := EFlattened (ETensorProduct [qq1; qcg1]).
Definition qleaf (l : leaf Qc) (order : nat) (ps : pset Qc) (ent : option (dimkey * nat)) (_ : option unit) :=
  fiat_basis_evaluation qops l order ps ent.
