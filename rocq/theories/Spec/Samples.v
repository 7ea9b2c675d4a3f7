(** Concrete leaf elements and trees for the examples beside the theorems. *)
From Coq Require Import String List Arith Permutation.
From Verif Require Import Model.Prelude Model.Cell Model.Element Spec.Rowmajor Spec.EntityDofs Spec.Layout.
Import ListNotations.

Section Samples.
  Context {F : Type} (tab : list nat -> dimkey * nat -> list F -> nat -> list nat -> F).

  Definition I1 : cell := Simplex 1.
  (** Lagrange degree 1 and 2 on the interval. *)
  Definition cg1 : leaf F := mkLeaf KFiat I1 (Dg 1) (Some 0)
    [(DI 0, [(0, [0]); (1, [1])]); (DI 1, [(0, [])])] 2 [2] [] ["affine"; "affine"]%string false tab.
  Definition cg2 : leaf F := mkLeaf KFiat I1 (Dg 2) (Some 0)
    [(DI 0, [(0, [0]); (1, [1])]); (DI 1, [(0, [2])])] 3 [3] [] ["affine"; "affine"; "affine"]%string false tab.
  (** Discontinuous Lagrange degree 0 and 1 on the interval. *)
  Definition dg0 : leaf F := mkLeaf KDiscontinuous I1 (Dg 0) (Some 1)
    [(DI 0, [(0, []); (1, [])]); (DI 1, [(0, [0])])] 1 [1] [] ["affine"]%string false tab.
  Definition dg1 : leaf F := mkLeaf KDiscontinuous I1 (Dg 1) (Some 1)
    [(DI 0, [(0, []); (1, [])]); (DI 1, [(0, [0; 1])])] 2 [2] [] ["affine"; "affine"]%string false tab.
  (** Triangle: Lagrange 2 and Raviart-Thomas 1. *)
  Definition tri2 : leaf F := mkLeaf KFiat (Simplex 2) (Dg 2) (Some 0)
    [(DI 0, [(0, [0]); (1, [1]); (2, [2])]); (DI 1, [(0, [3]); (1, [4]); (2, [5])]); (DI 2, [(0, [])])]
    6 [6] [] (repeat "affine"%string 6) false tab.
  Definition rt1 : leaf F := mkLeaf KFiat (Simplex 2) (Dg 1) (Some 1)
    [(DI 0, [(0, []); (1, []); (2, [])]); (DI 1, [(0, [0]); (1, [1]); (2, [2])]); (DI 2, [(0, [])])]
    3 [3] [2] (repeat "contravariant piola"%string 3) false tab.

  (** RTCF-like element on the quadrilateral, a Q2 vector element, and a
      prism element. *)
  Definition rtcf : elt F :=
    EEnriched [EHDiv (ETensorProduct [ELeaf cg2; ELeaf dg1]); EHDiv (ETensorProduct [ELeaf dg1; ELeaf cg2])].
  Definition q2 : elt F := ETensorProduct [ELeaf cg2; ELeaf cg2].
  Definition vec_q2 (tr : bool) : elt F := ETensor (EFlattened q2) [2; 3] tr.
  Definition hex2 : elt F := EFlattened (ETensorProduct [EFlattened q2; ELeaf cg1]).
  Definition prism : elt F := ETensorProduct [ELeaf rt1; ELeaf dg1].
  Definition mixed_tree : elt F :=
    EEnriched [EMixedSub (ETensor (ELeaf tri2) [2] false) 3 0; EMixedSub (EDiscontinuous (ELeaf tri2)) 3 2].
End Samples.

(** Leaves without numbers, for statements about dofs only. *)
Definition no_tab : list nat -> dimkey * nat -> list unit -> nat -> list nat -> unit :=
  fun _ _ _ _ _ => tt.
