(** Rational sample rules, for examples of quadrature. *)
From Coq Require Import String List Arith ZArith QArith Qcanon.
From Verif Require Import Model.Prelude Model.Cell Model.Element Model.Gem Model.PointSet Model.Quadrature.
Import ListNotations.
Local Open Scope nat_scope.

Definition qops : ops Qc :=
  mkOps Qc 0%Qc 1%Qc Qcplus Qcmult Qcminus Qcopp Qcdiv (fun x => Qeq_bool (this x) 0).
Definition qcs (l : list Q) : list Qc := map Q2Qc l.
Definition half : Qc := Q2Qc (1 # 2)%Q.
Definition third : Qc := Q2Qc (1 # 3)%Q.

(** Affine functions on the unit interval and the unit triangle, with their
    integrals. *)
Definition affine_poly (c : cell) (d : nat) (f : list Qc -> Qc) (I : Qc) : Prop :=
  (d <= 1)%nat /\
  ((c = Simplex 1 /\ exists a b, (forall p, f p = a + b * nth 0 p 0) /\ I = a + b * half) \/
   (c = Simplex 2 /\ exists a b b', (forall p, f p = a + b * nth 0 p 0 + b' * nth 1 p 0) /\
      I = half * (a + b * third + b' * third)))%Qc.

(** m points for the interval, the midpoint with all the weight; one point for the
    triangle. *)
Definition mid_rule (c : cell) (m : nat) : list (list Qc) * list Qc :=
  (repeat [half] m, 1%Qc :: repeat 0%Qc (m - 1)).
Definition centre_rule (c : cell) (d : nat) (s : string) : result (list (list Qc) * list Qc) :=
  match c with
  | Simplex 1 => Ok (mid_rule c 1)
  | Simplex 2 => Ok ([[third; third]], [half])
  | _ => Err NotImplementedError
  end.
Definition no_macro (c : cell) : bool := false.
Definition qc_close (x y : Qc) : bool := Qeq_bool (this x) (this y).

(** The rule on triangle x interval for degree 1. *)
Definition prism_rule : qrule Qc :=
  QTensor [QRule (PPoints PGeneric 2 [[third; third]] [(0, 1)]) [half];
           QRule (PPoints PGaussLegendre 1 [[half]] [(1, 1)]) [1%Qc]].
(** Two points times three points. *)
Definition grid_rule : qrule Qc :=
  QTensor [QRule (PPoints PGeneric 1 [[0%Qc]; [1%Qc]] [(0, 2)]) [half; half];
           QRule (PPoints PGeneric 1 [[0%Qc]; [half]; [1%Qc]] [(1, 3)]) (qcs [1 # 6; 2 # 3; 1 # 6]%Q)].
