(** Basis transformations of Piola-mapped elements: finat/aw.py, finat/mtw.py,
    finat/hz.py, finat/johnson_mercier.py, finat/alfeld_sorokina.py and
    PiolaBubbleElement of finat/piola_mapped.py.

    The entries of the matrices are GEM expressions; the model computes with
    their values, exactly. *)
From Coq Require Import String List Arith Bool.
From Verif Require Import Model.Prelude Model.Cell Model.Element Model.Gem Model.Piola Model.Zany.
Import ListNotations.
Open Scope result_scope.

(** [for x in l: a = f(a, x)] where the body may raise. *)
Fixpoint foldM {A B} (f : A -> B -> result A) (l : list B) (a : A) : result A :=
  match l with
  | [] => Ok a
  | x :: r => do a' <- f a x ;; foldM f r a'
  end.

(** The order of dimensions that are integers. *)
Definition dim_leb (a b : dimkey) : bool := match a, b with DI x, DI y => Nat.leb x y | _, _ => true end.

Section PiolaElements.
  Context {F : Type} (o : ops F).

  (** ** Two-dimensional numpy arrays with their extents *)
  Record array := mkArray { n_rows : nat; n_cols : nat; n_at : nat -> nat -> F }.

  (** identity, finat/physically_mapped.py:384-388 (numpy.eye with one or two
      extents). *)
  Definition eye (r c : nat) : array := mkArray r c (identity o).

  (** [V[r0:r1, c0:c1] = B]: slices end at the extents; the shapes must agree
      (broadcasting of axes of length one is left out). *)
  Definition set_slice (V : array) (r0 r1 c0 c1 : nat) (B : array) : result array :=
    let m := Nat.min r1 (n_rows V) - Nat.min r0 (n_rows V) in
    let n := Nat.min c1 (n_cols V) - Nat.min c0 (n_cols V) in
    do! guard ((m =? n_rows B) && (n =? n_cols B)) ValueError ;;
    Ok (mkArray (n_rows V) (n_cols V) (fun i j =>
          if (r0 <=? i) && (i <? r1) && (c0 <=? j) && (j <? c1) then n_at B (i - r0) (j - c0) else n_at V i j)).

  (** [V[i, j] = x]. *)
  Definition set_entry (V : array) (i j : nat) (x : F) : result array :=
    do! guard ((i <? n_rows V) && (j <? n_cols V)) IndexError ;;
    Ok (mkArray (n_rows V) (n_cols V) (put (n_at V) i j x)).

  (** [V[numpy.ix_(rs, cs)] = B]: entry by entry. *)
  Definition set_ix (V : array) (rs cs : list nat) (B : array) : result array :=
    do! guard (forallb (fun i => i <? n_rows V) rs && forallb (fun j => j <? n_cols V) cs) IndexError ;;
    do! guard ((length rs =? n_rows B) && (length cs =? n_cols B)) ValueError ;;
    foldM (fun V ai => foldM (fun V bj => set_entry V (snd ai) (snd bj) (n_at B (fst ai) (fst bj))) (enumerate cs) V)
      (enumerate rs) V.

  (** [V[:, c0:c1] *= x]. *)
  Definition scale_columns (V : array) (c0 c1 : nat) (x : F) : array :=
    mkArray (n_rows V) (n_cols V) (scale o (n_at V) c0 c1 x).

  (** [ListTensor(V.T)]. *)
  Definition list_tensor_of (V : array) : array := mkArray (n_cols V) (n_rows V) (transpose (n_at V)).

  (** ** Cells *)

  (** What is used of a FIAT simplex: dimension, vertices, the vertices of its
      facets (get_topology()[sd-1], in order) and numpy.linalg.norm. *)
  Record scell := mkScell {
    sc_dim : nat;
    sc_vertices : list (list F);
    sc_facets : list (list nat);
    sc_norm : (nat -> F) -> F
  }.
  Definition corner_of (c : scell) (v i : nat) : F := nth i (nth v (sc_vertices c) []) (f0 o).

  (** [make_points(sd, 0, sd+1)] has one member, the barycentre. *)
  Definition centre (c : scell) : list F :=
    map (fun i => fdiv o (fsum o (length (sc_vertices c)) (fun v => corner_of c v i)) (num o (length (sc_vertices c))))
      (seq 0 (sc_dim c)).

  (** [compute_tangents(sd-1, f)[k]] (FIAT): from the first vertex of the facet
      to the others; in two dimensions [compute_edge_tangent(f)] is the only
      one. *)
  Definition facet_tangent (c : scell) (f k : nat) : nat -> F := fun i =>
    let vs := nth f (sc_facets c) [] in
    fsub o (corner_of c (nth (S k) vs 0) i) (corner_of c (nth 0 vs 0) i).

  (** The choice of transform and the rows it returns, finat/aw.py:24-30,
      finat/piola_mapped.py:153-159.  In two dimensions Python's row has shape
      (2,); it is the only row here.  In other dimensions the name [transform]
      is not bound; UnboundLocalError is not among the model's exceptions, and
      NotImplementedError stands for it. *)
  Definition facet_rows (c : scell) (J : nat -> nat -> F) (detJ : F) (f : nat) : result array :=
    match sc_dim c with
    | 2 =>
        let that := facet_tangent c f 0 in
        let row := normal_tangential_edge_transform o J detJ that (sc_norm c that) in
        Ok (mkArray 1 2 (fun _ j => match j with 0 => fst row | _ => snd row end))
    | 3 =>
        let rows := normal_tangential_face_transform o J detJ (facet_tangent c f 0) (facet_tangent c f 1) in
        let pick (r : F * F * F) (j : nat) := match j with 0 => fst (fst r) | 1 => snd (fst r) | _ => snd r end in
        Ok (mkArray 2 3 (fun i j => match i with 0 => pick (fst rows) j | _ => pick (snd rows) j end))
    | _ => Err NotImplementedError
    end.

  (** [FIAT.expansions.polynomial_dimension] of a simplex of dimension [d]. *)
  Definition polynomial_dimension (d k : nat) : nat := comb (k + d) d.

  (** _facet_transform, finat/aw.py:11-34. *)
  Definition facet_transform (c : scell) (facet_moment_degree : nat) (g : geometry) : result array :=
    let sd := sc_dim c in
    let num_facets := length (sc_facets c) in
    let dimPk_facet := polynomial_dimension (sd - 1) facet_moment_degree in
    let dofs_per_facet := sd * dimPk_facet in
    let ndofs := num_facets * dofs_per_facet in
    let J := jacobian_at g (centre c) in
    let detJ := detJ_at g (centre c) in
    foldM (fun V f =>
      do rows <- facet_rows c J detJ f ;;
      foldM (fun V i =>
        let s := dofs_per_facet * f + i * sd in
        set_slice V (s + 1) (s + sd) s (s + sd) rows) (seq 0 dimPk_facet) V)
      (seq 0 num_facets) (eye ndofs ndofs).

  (** _evaluation_transform, finat/aw.py:37-50. *)
  Definition evaluation_transform (c : scell) (g : geometry) : array :=
    let sd := sc_dim c in
    let J := jacobian_at g (centre c) in
    let K := adjugate o sd (map (fun i => map (fun j => J i j) (seq 0 sd)) (seq 0 sd)) in
    let indices := upper_pairs sd in
    let ncomp := length indices in
    let half := fdiv o (f1 o) (num o 2) in
    mkArray ncomp ncomp (fun p q =>
      let (i, j) := nth p indices (0, 0) in
      let (m, n) := nth q indices (0, 0) in
      let w := fmul o half (fadd o (fmul o (entry o K i m) (entry o K j n)) (fmul o (entry o K j m) (entry o K i n))) in
      if m =? n then w else fmul o w (num o 2)).

  (** "RESCALING FOR CONDITIONING", finat/aw.py:115-118, finat/hz.py:40-43. *)
  Definition rescale (V : array) (num_verts ncomp : nat) (h : nat -> F) : array :=
    fold_left (fun V e => scale_columns V (ncomp * e) (ncomp * (e + 1)) (fdiv o (f1 o) (fmul o (h e) (h e)))) (seq 0 num_verts) V.

  (** [V[0:3, 0:3] = V[3:6, 3:6] = V[6:9, 6:9] = W], finat/aw.py:106,
      finat/hz.py:24. *)
  Definition set_vertices (V W : array) : result array :=
    foldM (fun V s => set_slice V s (s + 3) s (s + 3) W) [0; 3; 6] V.

  (** ArnoldWintherNC.basis_transformation, finat/aw.py:59-72; [numbf] is the
      dimension of FIAT's element, [ndof] that of FInAT's (15). *)
  Definition awnc_transformation (numbf ndof : nat) (c : scell) (g : geometry) : result array :=
    do Vsub <- facet_transform c 1 g ;;
    do V <- set_slice (eye numbf ndof) 0 12 0 12 Vsub ;;
    Ok (list_tensor_of V).

  (** ArnoldWinther.basis_transformation, finat/aw.py:95-123. *)
  Definition aw_transformation (numbf ndof : nat) (c : scell) (g : geometry) : result array :=
    let sd := sc_dim c in
    let W := evaluation_transform c g in
    let ncomp := n_rows W in
    do V <- set_vertices (eye numbf ndof) W ;;
    let num_verts := sd + 1 in
    let cur := num_verts * ncomp in
    do Vsub <- facet_transform c 1 g ;;
    let fdofs := n_rows Vsub in
    do V <- set_slice V cur (cur + fdofs) cur (cur + fdofs) Vsub ;;
    Ok (list_tensor_of (rescale V num_verts ncomp (cell_size g))).

  (** The loop over interior points, finat/hz.py:34-37. *)
  Fixpoint hz_interior (fuel : nat) (V W : array) (ncomp cur ndofs : nat) : result array :=
    match fuel with
    | 0 => Ok V
    | S fuel' =>
        if cur <? ndofs then
          do V <- set_slice V cur (cur + ncomp) cur (cur + ncomp) W ;;
          hz_interior fuel' V W ncomp (cur + ncomp) ndofs
        else Ok V
    end.

  (** HuZhang.basis_transformation, finat/hz.py:16-48.  [ndofs], [degree]: the
      dimension and degree of FIAT's element; each turn of the loop makes [cur]
      larger, so [ndofs] turns are enough. *)
  Definition hz_transformation (ndofs degree : nat) (variant : option string) (c : scell) (g : geometry) : result array :=
    let sd := sc_dim c in
    let W := evaluation_transform c g in
    do V <- set_vertices (eye ndofs ndofs) W ;;
    let ncomp := n_rows W in
    let num_verts := sd + 1 in
    let cur := num_verts * ncomp in
    do Vsub <- facet_transform c (degree - 2) g ;;
    let fdofs := n_rows Vsub in
    do V <- set_slice V cur (cur + fdofs) cur (cur + fdofs) Vsub ;;
    let cur := cur + fdofs in
    do V <- match variant with
            | Some v => if String.eqb v "point" then hz_interior ndofs V W ncomp cur ndofs else Ok V
            | None => Ok V
            end ;;
    Ok (list_tensor_of (rescale V num_verts ncomp (cell_size g))).

  (** JohnsonMercier.basis_transformation, finat/johnson_mercier.py:16-29;
      [self._indices] is the full slice. *)
  Definition jm_transformation (numbf ndof : nat) (c : scell) (g : geometry) : result array :=
    do Vsub <- facet_transform c 1 g ;;
    do V <- set_slice (eye numbf ndof) 0 (n_rows Vsub) 0 (n_cols Vsub) Vsub ;;
    Ok (list_tensor_of V).

  (** MardalTaiWinther.basis_transformation, finat/mtw.py:26-40; [dofs] is the
      reduced dictionary.  In dimensions other than two
      normal_tangential_edge_transform multiplies a 2 x 2 matrix and a vector of
      another length. *)
  Definition mtw_transformation (numbf ndof : nat) (dofs : edofs) (c : scell) (g : geometry) : result array :=
    let sd := sc_dim c in
    let J := jacobian_at g (centre c) in
    let detJ := detJ_at g (centre c) in
    do facets <- dict_get dimkey_eqb dofs (DI (sd - 1)) ;;
    do V <- foldM (fun V f =>
        do l <- dict_get Nat.eqb facets f ;;
        match l with
        | [] => Err IndexError
        | cur :: _ =>
            do! guard (sd =? 2) ValueError ;;
            do row <- facet_rows c J detJ f ;;
            do! guard (cur + 1 <? numbf) IndexError ;;
            set_slice V (cur + 1) (cur + 2) cur (cur + sd) row
        end) (sorted Nat.leb (map fst facets)) (eye numbf ndof) ;;
    Ok (list_tensor_of V).

  (** "Undo the Piola transform", the while loop of
      finat/alfeld_sorokina.py:30-39 and finat/piola_mapped.py:142-151 for the
      dofs [l] of one entity; [deriv i]: [len(nodes[i].deriv_dict) > 0].  The
      list gets shorter in each turn (the dimension is positive), so as many
      turns as it has members are enough. *)
  Fixpoint undo_piola (fuel sd : nat) (deriv : nat -> bool) (detJ : F) (Finv : array) (V : array) (l : list nat)
    : result array :=
    match fuel, l with
    | S fuel', cur :: r =>
        if deriv cur then
          do V <- set_entry V cur cur detJ ;;
          undo_piola fuel' sd deriv detJ Finv V r
        else
          let s := firstn sd l in
          do V <- set_ix V s s Finv ;;
          undo_piola fuel' sd deriv detJ Finv V (skipn sd l)
    | _, _ => Ok V
    end.

  (** The loop over entities around it. *)
  Definition undo_piola_dim (sd : nat) (deriv : nat -> bool) (detJ : F) (Finv : array) (V : array)
      (row : list (nat * list nat)) : result array :=
    foldM (fun V e =>
      do l <- dict_get Nat.eqb row e ;;
      undo_piola (length l) sd deriv detJ Finv V l) (sorted Nat.leb (map fst row)) V.

  Definition inverse_array (sd : nat) (J : nat -> nat -> F) : array :=
    mkArray sd sd (entry o (piola_inverse o sd J)).

  (** AlfeldSorokina.basis_transformation, finat/alfeld_sorokina.py:16-41. *)
  Definition as_transformation (ndofs : nat) (dofs : edofs) (deriv : nat -> bool) (c : scell) (g : geometry)
    : result array :=
    let sd := sc_dim c in
    let J := jacobian_at g (centre c) in
    let detJ := detJ_at g (centre c) in
    do V <- foldM (fun V dim =>
        do row <- dict_get dimkey_eqb dofs dim ;;
        undo_piola_dim sd deriv detJ (inverse_array sd J) V row) (sorted dim_leb (map fst dofs)) (eye ndofs ndofs) ;;
    Ok (list_tensor_of V).

  (** PiolaBubbleElement.basis_transformation, finat/piola_mapped.py:123-163;
      [bfs]: entity_dofs of FIAT's element, [dofs]: the reduced dictionary.  In
      two dimensions [rows] is one row, which numpy repeats for each of
      [cur_bfs]. *)
  Definition bubble_transformation (numbf ndof : nat) (bfs dofs : edofs) (deriv : nat -> bool) (c : scell) (g : geometry)
    : result array :=
    let sd := sc_dim c in
    let J := jacobian_at g (centre c) in
    let detJ := detJ_at g (centre c) in
    do V <- foldM (fun V dim =>
        if dimkey_eqb dim (DI (sd - 1)) then Ok V
        else
          do row <- dict_get dimkey_eqb dofs dim ;;
          undo_piola_dim sd deriv detJ (inverse_array sd J) V row) (map fst dofs) (eye numbf ndof) ;;
    do facets <- dict_get dimkey_eqb dofs (DI (sd - 1)) ;;
    do V <- foldM (fun V f =>
        do rows <- facet_rows c J detJ f ;;
        do cur_dofs <- dict_get Nat.eqb facets f ;;
        do facets' <- dict_get dimkey_eqb bfs (DI (sd - 1)) ;;
        do l <- dict_get Nat.eqb facets' f ;;
        let cur_bfs := tl l in
        let B := mkArray (if sd =? 2 then length cur_bfs else n_rows rows) (Nat.min (length cur_dofs) sd)
                   (fun i j => n_at rows (if sd =? 2 then 0 else i) j) in
        set_ix V cur_bfs cur_dofs B) (sorted Nat.leb (map fst facets)) V ;;
    Ok (list_tensor_of V).
End PiolaElements.
