(** Sample rules with orientation maps. *)
From Coq Require Import String List Arith ZArith QArith Qcanon.
From Verif Require Import Model.Prelude Model.Cell Model.Element Model.Gem Model.PointSet Model.Quadrature Model.Orientation.
From Verif Require Import Spec.QSamples.
Import ListNotations.
Local Open Scope nat_scope.

(** On the interval the midpoints of m pieces of equal length.  Orientation 1 is
    the other way round. *)
Definition odd_over (k m : nat) : Qc := Q2Qc (Z.of_nat (2 * k + 1) # Pos.of_nat (2 * m))%Q.
Definition pieces (c : cell) (m : nat) : frule Qc :=
  mkFrule (map (fun k => [odd_over k m]) (seq 0 m)) (repeat (Q2Qc (1 # Pos.of_nat m)%Q) m) [Some [seq 0 m; rev (seq 0 m)]].
(** One point on the triangle, without a map. *)
Definition centre (c : cell) (d : nat) (s : string) : result (frule Qc) :=
  match c with
  | Simplex 2 => Ok (mkFrule [[third; third]] [half] [None])
  | _ => Err NotImplementedError
  end.
Definition flip (c : cell) (io : nat) (p : list Qc) : list Qc :=
  match io with 1 => map (fun x => 1 - x)%Qc p | _ => p end.
(** The rule for degree 2 on a quadrilateral. *)
Definition square_rule : orule Qc :=
  let axis (k : nat) := ORule (Some (Simplex 1)) (PPoints PGaussLegendre 1 [[odd_over 0 2]; [odd_over 1 2]] [(k, 2)])
                          [half; half] [Some [[0; 1]; [1; 0]]] in
  OTensor (Some (TPCell [Simplex 1; Simplex 1])) [axis 0; axis 1] [Some [[0; 1]; [1; 0]]; Some [[0; 1]; [1; 0]]].
