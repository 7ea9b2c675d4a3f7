(** Sample orientations and permutations on intervals and quadrilaterals, for
    the examples beside the theorems about entity permutations. *)
From Coq Require Import List Arith.
From Verif Require Import Model.Prelude Model.Cell Model.Element Model.EntityMaps Model.Permutations.
From Verif Require Import Spec.Rowmajor Spec.EntityDofs Spec.Layout Spec.Samples Spec.Permutations.
Import ListNotations.

(** An integer orientation, or the triple (axes exchanged, orientation in
    the first factor, in the second) of a product of two intervals. *)
Inductive ori := OI (n : nat) | OT (eo a b : nat).
Definition ori_eqb (x y : ori) : bool :=
  match x, y with
  | OI n, OI m => n =? m
  | OT e a b, OT e' a' b' => (e =? e') && (a =? a') && (b =? b')
  | _, _ => false
  end.

Definition ext (k k' : dimkey) : list nat :=
  match k, k' with DI 1, DI 1 => [0; 1] | _, _ => [0] end.
Definition int_oris (k : dimkey) : list nat :=
  match k with DI 0 => [0] | DI 1 => [0; 1] | _ => [] end.
Definition oris (c : cell) (k : dimkey) : list ori :=
  match c, k with
  | Simplex 1, _ => map OI (int_oris k)
  | TPCell [Simplex 1; Simplex 1], DT [k1; k2] =>
      flat_map (fun e => flat_map (fun a => map (OT e a) (int_oris k2)) (int_oris k1)) (ext k1 k2)
  | Hypercube 2, DI 0 => [OI 0]
  | Hypercube 2, DI 1 => [OI 0; OI 1]
  | Hypercube 2, DI 2 => map OI (seq 0 8)
  | _, _ => []
  end.

(** The permutation for an orientation triple: position (j0, j1) goes to
    (pa[j0], pb[j1]), or to (pb[j1], pa[j0]) if the axes are exchanged. *)
Definition tp_entry (x y : ori * list nat) (eo : nat) : list (ori * list nat) :=
  match x, y with
  | (OI a, pa), (OI b, pb) =>
      [(OT eo a b,
        flat_map (fun u => map (fun v => match eo with 0 => u * length pb + v | _ => v * length pa + u end) pb) pa)]
  | _, _ => []
  end.
Definition tp_sample (cs : list cell) (dim : list dimkey) (maps : list (list (ori * list nat))) : list (ori * list nat) :=
  match dim, maps with
  | [k1; k2], [m1; m2] =>
      flat_map (fun eo => flat_map (fun x => flat_map (fun y => tp_entry x y eo) m2) m1) (ext k1 k2)
  | _, _ => []
  end.
Definition join_sample (os : list ori) : ori :=
  match os with [OI a; OI b] => OT 0 a b | _ => OI 0 end.

(** The integers of a quadrilateral: 4 eo + 2 a + b for the cell, the one
    nontrivial part for an edge. *)
Definition flat_sample (k : dimkey) (o : ori) : ori :=
  match k, o with
  | DT [DI 1; DI 1], OT e a b => OI (4 * e + 2 * a + b)
  | _, OT _ a b => OI (a + b)
  | _, o => o
  end.

(** Interval elements reverse the dofs of the interior; others have none. *)
Definition lp_sample (l : leaf unit) : result (edict (list (ori * list nat))) :=
  match lf_cell l with
  | Simplex 1 =>
      Ok (map (fun kr => (fst kr, map (fun il => (fst il,
            map (fun o => (OI o, match o with 0 => seq 0 (length (snd il)) | _ => rev (seq 0 (length (snd il))) end))
                (int_oris (fst kr)))) (snd kr))) (lf_edofs l))
  | _ => Err NotImplementedError
  end.
Definition subs_sample (c : cell) : edict (list (dimkey * nat)) :=
  match c with
  | Simplex 1 => [(DI 0, [(0, [(DI 0, 0)]); (1, [(DI 0, 1)])]); (DI 1, [(0, [(DI 0, 0); (DI 0, 1); (DI 1, 0)])])]
  | _ => []
  end.

Definition sample_permutations := entity_permutations ori_eqb tp_sample flat_sample lp_sample subs_sample.
Definition sample_contract := fiat_contract oris (fun _ => True) tp_sample flat_sample lp_sample subs_sample.

(** DQ1 as in the documentation of compose_permutations, and RTCF 2 with a
    broken factor. *)
Definition dq1 : elt unit := ETensorProduct [ELeaf (dg1 no_tab); ELeaf (dg1 no_tab)].
Definition rtcf2 : elt unit :=
  EFlattened (EEnriched [EHDiv (ETensorProduct [ELeaf (cg2 no_tab); EDiscontinuous (ELeaf (dg1 no_tab))]);
                         EHDiv (ETensorProduct [EDiscontinuous (ELeaf (dg1 no_tab)); ELeaf (cg2 no_tab)])]).
