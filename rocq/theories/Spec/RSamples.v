(** A restriction of leaves, for the examples beside the theorems. *)
From Coq Require Import String List Arith Bool ZArith.
From Verif Require Import Model.Prelude Model.Cell Model.Element Spec.Samples Spec.ZSamples.
Import ListNotations.

(** Is an entity of dimension [d] selected on a cell of dimension [D]? *)
Definition selectsb (domain : string) (cl : bool) (D d : nat) : bool :=
  let up n := (d <=? D) && (if cl then d <=? n else d =? n) in
  if String.eqb domain "interior" then d =? D
  else if String.eqb domain "facet" then match D with S n => up n | 0 => false end
  else if String.eqb domain "face" then up 2
  else if String.eqb domain "edge" then up 1
  else if String.eqb domain "vertex" then up 0
  else false.

Fixpoint position (l : list nat) (v : nat) : nat :=
  match l with [] => 0 | x :: r => if x =? v then 0 else S (position r v) end.

(** The dofs on selected entities, renumbered in the order in which the
    dictionary lists them. *)
Definition kept (S : dimkey -> bool) (d : edofs) : list nat :=
  flat_map (fun kr => if S (fst kr) then flat_map snd (snd kr) else []) d.
Definition renumbered {F} (S : dimkey -> bool) (keep : list nat) (l : leaf F) : leaf F :=
  mkLeaf KFiat (lf_cell l) (lf_degree l) (lf_formdegree l)
    (map (fun kr => (fst kr, map (fun il => (fst il, if S (fst kr) then map (position keep) (snd il) else [])) (snd kr)))
       (lf_edofs l))
    (length keep) [length keep] (lf_vshape l) (map (fun i => nth i (lf_mappings l) ""%string) keep) (lf_macro l)
    (fun alpha ent pt j v => lf_tab l alpha ent pt (nth j keep 0) v).
Definition renumber {F} (l : leaf F) (domain : string) (cl : bool) : result (leaf F) :=
  let S k := selectsb domain cl (spatial_dimension (lf_cell l)) (dk_total k) in
  let keep := kept S (lf_edofs l) in
  match keep with [] => Err ValueError | _ => Ok (renumbered S keep l) end.

Section RTrees.
  Context {F : Type} (tab : list nat -> dimkey * nat -> list F -> nat -> list nat -> F).
  (** An element class without a restriction rule, a physically mapped one, a
      trace element on the triangle. *)
  Definition other_leaf : leaf F := mkLeaf KOther I1 (Dg 1) (Some 1)
    [(DI 0, [(0, []); (1, [])]); (DI 1, [(0, [0; 1])])] 2 [2] [] ["affine"; "affine"]%string false tab.
  Definition mapped_leaf : leaf F := mkLeaf KPhysicallyMapped I1 (Dg 1) (Some 0)
    [(DI 0, [(0, [0]); (1, [1])]); (DI 1, [(0, [])])] 2 [2] [] ["affine"; "affine"]%string false tab.
  Definition trace_leaf : leaf F := mkLeaf KHDivTrace (Simplex 2) (Dg 0) None
    [(DI 0, [(0, []); (1, []); (2, [])]); (DI 1, [(0, [0]); (1, [1]); (2, [2])]); (DI 2, [(0, [])])]
    3 [3] [] (repeat "affine"%string 3) false tab.
End RTrees.

(** Q2 and Q1 on the quadrilateral, mixed. *)
Definition zq21 : elt Z := EEnriched
  [EMixedSub (EFlattened (ETensorProduct [zcg2; zcg2])) 3 0;
   EMixedSub (ETensor (EFlattened (ETensorProduct [zcg1; zcg1])) [2] false) 3 1].
