(** Basis transformations of physically mapped scalar elements:
    finat/physically_mapped.py, finat/argyris.py, finat/hermite.py,
    finat/morley.py, finat/bell.py, finat/hct.py, finat/powell_sabin.py.

    The entries of the matrices are GEM expressions; the model computes with
    their values.  Python's floating point constants such as 15/8 and 1/21 are
    taken to be the exact fractions.  Matrices are functions of a row and a
    column; their extents are given separately where they matter, and writes
    outside of the extents are not refused. *)
From Coq Require Import String List Arith Bool.
From Verif Require Import Model.Prelude Model.Gem Model.Piola.
Import ListNotations.

(** math.comb. *)
Fixpoint comb (n k : nat) : nat :=
  match n, k with
  | _, 0 => 1
  | 0, S _ => 0
  | S n', S k' => comb n' k' + comb n' (S k')
  end.

(** numpy.tile of the pairs [(i, j) for i in range(sd) for j in range(i, sd)],
    finat/argyris.py:26. *)
Definition upper_pairs (sd : nat) : list (nat * nat) :=
  flat_map (fun i => map (fun j => (i, j)) (seq i (sd - i))) (seq 0 sd).

Section Zany.
  Context {F : Type} (o : ops F).
  Local Notation "x + y" := (fadd o x y).
  Local Notation "x - y" := (fsub o x y).
  Local Notation "x * y" := (fmul o x y).
  Local Notation "x / y" := (fdiv o x y).
  Local Notation "- x" := (fopp o x).

  (** The number [n]. *)
  Fixpoint num (n : nat) : F := match n with 0 => f0 o | S n' => f1 o + num n' end.

  (** PhysicalGeometry, finat/physically_mapped.py:297-378: what a coordinate
      mapping provides. *)
  Record geometry := mkGeometry {
    jacobian_at : list F -> nat -> nat -> F;
    detJ_at : list F -> F;
    cell_size : nat -> F;
    reference_normals : nat -> nat -> F;
    physical_normals : nat -> nat -> F;
    physical_tangents : nat -> nat -> F;
    physical_edge_lengths : nat -> F
  }.

  (** What is used of a FIAT simplex: its dimension, its vertices
      (get_vertices), the vertices of its edges (get_topology()[1], in order)
      and numpy.linalg.norm. *)
  Record simplex := mkSimplex {
    sx_dim : nat;
    sx_vertices : list (list F);
    sx_edges : list (nat * nat);
    sx_norm : (nat -> F) -> F
  }.
  Definition vertex (c : simplex) (v i : nat) : F := nth i (nth v (sx_vertices c) []) (f0 o).
  Definition edge (c : simplex) (e : nat) : nat * nat := nth e (sx_edges c) (0, 0).

  (** [make_points(sd, 0, sd+1)] has one member, the barycentre. *)
  Definition barycentre (c : simplex) : list F :=
    map (fun i => fsum o (length (sx_vertices c)) (fun v => vertex c v i) / num (length (sx_vertices c))) (seq 0 (sx_dim c)).

  (** [compute_edge_tangent]: from the first to the second vertex. *)
  Definition edge_tangent (c : simplex) (e : nat) : nat -> F := fun i =>
    vertex c (snd (edge c e)) i - vertex c (fst (edge c e)) i.

  (** Matrices that are being filled. *)
  Definition mtx := nat -> nat -> F.
  (** identity, finat/physically_mapped.py:384-388. *)
  Definition identity : mtx := fun i j => if i =? j then f1 o else f0 o.
  (** [V[i, j] = x]. *)
  Definition put (V : mtx) (i j : nat) (x : F) : mtx := fun i' j' => if (i' =? i) && (j' =? j) then x else V i' j'.
  (** [V[s:s+n, s:s+n] = B]. *)
  Definition block (V : mtx) (s n : nat) (B : mtx) : mtx := fun i j =>
    if (s <=? i) && (i <? s + n)%nat && (s <=? j) && (j <? s + n)%nat then B (i - s)%nat (j - s)%nat else V i j.
  (** [V[:, s:t] *= x]. *)
  Definition scale (V : mtx) (s t : nat) (x : F) : mtx := fun i j => if (s <=? j) && (j <? t) then V i j * x else V i j.
  (** [ListTensor(V.T)]. *)
  Definition transpose (V : mtx) : mtx := fun i j => V j i.

  (** The gradient block, finat/argyris.py:20, and the Hessian block,
      finat/argyris.py:26-32. *)
  Definition gradient_block (J : mtx) : mtx := fun i j => J j i.
  Definition hessian_block (sd : nat) (J : mtx) : mtx := fun p q =>
    let (i, j) := nth p (upper_pairs sd) (0, 0) in
    let (m, n) := nth q (upper_pairs sd) (0, 0) in
    let h := J m i * J n j + J m j * J n i in
    if m =? n then h * (f1 o / num 2) else h.

  (** _vertex_transform, finat/argyris.py:12-41. *)
  Definition vertex_transform (V : mtx) (vorder : nat) (c : simplex) (g : geometry) : mtx :=
    let sd := sx_dim c in
    let J := jacobian_at g (barycentre c) in
    let gdofs := sd in
    let hdofs := if vorder <? 2 then 0 else Nat.div (sd * (sd + 1)) 2 in
    fst (fold_left
      (fun (acc : mtx * nat) (_ : nat) =>
         let (V, s) := acc in
         let s := S s in
         let V := block V s gdofs (gradient_block J) in
         let s := (s + gdofs)%nat in
         let V := block V s hdofs (hessian_block sd J) in
         (V, (s + hdofs)%nat))
      (seq 0 (length (sx_vertices c))) (V, 0)).

  (** _normal_tangential_transform, finat/argyris.py:44-58. *)
  Definition normal_tangential_transform (c : simplex) (J : mtx) (detJ : F) (e : nat) : F * F * (nat -> F) :=
    let that := edge_tangent c e in
    let nhat := rotate o that in
    let Jn := matvec o 2 J nhat in
    let Jt := matvec o 2 J that in
    let alpha := dot o 2 Jn Jt in
    let beta := dot o 2 Jt Jt in
    let Bnn := detJ / beta in
    let Bnt := alpha / beta in
    let Lhat := sx_norm c that in
    (Bnn * Lhat, Bnt / Lhat, Jt).

  (** The body of the inner loop of _edge_transform, finat/argyris.py:88-98. *)
  Definition edge_moment (V : mtx) (vorder eorder s v0id v1id k : nat) (Bnn Bnt : F) : mtx :=
    let P1 := num (comb (k + vorder) k) in
    let P0 := - alternate o k P1 in
    let V := put V s s Bnn in
    let V := put V s v1id (P1 * Bnt) in
    let V := put V s v0id (P0 * Bnt) in
    if 0 <? k then put V s (s + eorder) (- Bnt) else V.

  (** _edge_transform, finat/argyris.py:61-98. *)
  Definition edge_transform (V : mtx) (vorder eorder : nat) (c : simplex) (g : geometry) (avg : bool) : mtx :=
    let sd := sx_dim c in
    let J := jacobian_at g (barycentre c) in
    let detJ := detJ_at g (barycentre c) in
    let pel := physical_edge_lengths g in
    let voffset := comb (sd + vorder) vorder in
    let eoffset := (2 * eorder + 1)%nat in
    fold_left
      (fun V e =>
         let '(Bnn, Bnt, Jt) := normal_tangential_transform c J detJ e in
         let Bnn := if avg then Bnn * pel e else Bnn in
         let v0id := (fst (edge c e) * voffset)%nat in
         let v1id := (snd (edge c e) * voffset)%nat in
         let s0 := (length (sx_vertices c) * voffset + e * eoffset)%nat in
         fold_left (fun V k => edge_moment V vorder eorder (s0 + k) v0id v1id k Bnn Bnt) (seq 0 (eorder + 1)) V)
      (seq 0 (length (sx_edges c))) V.

  (** [V[s, v1id] = a * Bnt], [V[s, v0id] = -1 * V[s, v1id]] and the following
      derivatives; the coefficients of the point variant of Argyris,
      finat/argyris.py:140-153, and of Bell, finat/bell.py:45-58. *)
  Definition quintic_edge (V : mtx) (s v0id v1id : nat) (Bnt : F) (Jt : nat -> F) (a b c : F) : mtx :=
    let V := put V s v1id (a * Bnt) in
    let V := put V s v0id (- (a * Bnt)) in
    let V := fold_left (fun V i =>
      let x := b * Bnt * Jt i in
      put (put V s (v1id + 1 + i) x) s (v0id + 1 + i) x) (seq 0 2) V in
    let tau := [Jt 0 * Jt 0; num 2 * Jt 0 * Jt 1; Jt 1 * Jt 1] in
    fold_left (fun V i =>
      let x := c * Bnt * nth i tau (f0 o) in
      put (put V s (v1id + 3 + i) x) s (v0id + 3 + i) (- x)) (seq 0 3) V.

  (** "Patch up conditioning" of the columns of vertex dofs of order up to
      two, finat/argyris.py:155-160, finat/bell.py:60-65; up to one,
      finat/hct.py:32-36, 82-86. *)
  Definition condition2 (V : mtx) (voffset : nat) (c : simplex) (g : geometry) : mtx :=
    let sd := sx_dim c in
    let h := cell_size g in
    fold_left (fun V v =>
      let s := (voffset * v + 1)%nat in
      let V := scale V s (s + sd) (f1 o / h v) in
      scale V (s + sd) (voffset * (v + 1)) (f1 o / (h v * h v))) (seq 0 (length (sx_vertices c))) V.
  Definition condition1 (V : mtx) (voffset : nat) (c : simplex) (g : geometry) : mtx :=
    let sd := sx_dim c in
    let h := cell_size g in
    fold_left (fun V v =>
      let s := (voffset * v + 1)%nat in
      scale V s (s + sd) (f1 o / h v)) (seq 0 (length (sx_vertices c))) V.

  (** Argyris.__init__, finat/argyris.py:101-112: the variant that is stored.
      The check of FIAT's constructor (degree at least 5, known variant) is
      part of the contract. *)
  Definition argyris_init (degree : nat) (variant : option string) : result string :=
    let variant := match variant with None => "integral"%string | Some s => s end in
    if String.eqb variant "point" && negb (degree =? 5) then Err NotImplementedError else Ok variant.

  (** Argyris.basis_transformation, finat/argyris.py:114-169. *)
  Definition argyris_transformation (degree : nat) (variant : string) (avg : bool) (c : simplex) (g : geometry) : mtx :=
    let sd := sx_dim c in
    let V := identity in
    let vorder := 2 in
    let voffset := comb (sd + vorder) vorder in
    let eorder := (degree - 5)%nat in
    let nv := length (sx_vertices c) in
    let V := vertex_transform V vorder c g in
    let V :=
      if String.eqb variant "integral" then edge_transform V vorder eorder c g avg
      else
        let J := jacobian_at g (barycentre c) in
        let detJ := detJ_at g (barycentre c) in
        let pel := physical_edge_lengths g in
        fold_left
          (fun V e =>
             let s := (nv * voffset + e * (eorder + 1))%nat in
             let v0id := (fst (edge c e) * voffset)%nat in
             let v1id := (snd (edge c e) * voffset)%nat in
             let '(Bnn, Bnt, Jt) := normal_tangential_transform c J detJ e in
             let V := put V s s (Bnn * pel e) in
             quintic_edge V s v0id v1id Bnt Jt (num 15 / num 8) (- (num 7 / num 16)) (f1 o / num 32))
          (seq 0 (length (sx_edges c))) V in
    let V := condition2 V voffset c g in
    let V :=
      if String.eqb variant "point" then
        let eoffset := (2 * eorder + 1)%nat in
        fold_left (fun V e =>
          let (v0, v1) := edge c e in
          let s := (nv * voffset + e * eoffset)%nat in
          scale V s (s + eorder + 1) (num 2 / (cell_size g v0 + cell_size g v1))) (seq 0 (length (sx_edges c))) V
      else V in
    transpose V.

  (** Bell.basis_transformation, finat/bell.py:23-67. *)
  Definition bell_transformation (c : simplex) (g : geometry) : mtx :=
    let sd := sx_dim c in
    let J := jacobian_at g (barycentre c) in
    let detJ := detJ_at g (barycentre c) in
    let vorder := 2 in
    let V := vertex_transform identity vorder c g in
    let voffset := comb (sd + vorder) vorder in
    let V := fold_left
      (fun V e =>
         let s := (length (sx_vertices c) * voffset + e)%nat in
         let v0id := (fst (edge c e) * voffset)%nat in
         let v1id := (snd (edge c e) * voffset)%nat in
         let '(Bnn, Bnt, Jt) := normal_tangential_transform c J detJ e in
         quintic_edge V s v0id v1id Bnt Jt (f1 o / num 21) (- (f1 o / num 42)) (f1 o / num 252))
      (seq 0 (length (sx_edges c))) V in
    transpose (condition2 V voffset c g).

  (** HsiehCloughTocher.basis_transformation, finat/hct.py:20-37. *)
  Definition hct_transformation (degree : nat) (avg : bool) (c : simplex) (g : geometry) : mtx :=
    let sd := sx_dim c in
    let vorder := 1 in
    let eorder := (degree - 3)%nat in
    let voffset := comb (sd + vorder) vorder in
    let V := vertex_transform identity vorder c g in
    let V := edge_transform V vorder eorder c g avg in
    transpose (condition1 V voffset c g).

  (** ReducedHsiehCloughTocher.basis_transformation, finat/hct.py:52-87. *)
  Definition reduced_hct_transformation (c : simplex) (g : geometry) : mtx :=
    let sd := sx_dim c in
    let vorder := 1 in
    let voffset := comb (sd + vorder) vorder in
    let V := vertex_transform identity vorder c g in
    let J := jacobian_at g (barycentre c) in
    let detJ := detJ_at g (barycentre c) in
    let V := fold_left
      (fun V e =>
         let s := (length (sx_vertices c) * voffset + e)%nat in
         let v0id := (fst (edge c e) * voffset)%nat in
         let v1id := (snd (edge c e) * voffset)%nat in
         let '(Bnn, Bnt, Jt) := normal_tangential_transform c J detJ e in
         let x := f1 o / num 5 * Bnt in
         let V := put V s v0id x in
         let V := put V s v1id (- x) in
         fold_left (fun V i =>
           let x := f1 o / num 10 * Bnt * Jt i in
           put (put V s (v1id + 1 + i) x) s (v0id + 1 + i) x) (seq 0 sd) V)
      (seq 0 (length (sx_edges c))) V in
    transpose (condition1 V voffset c g).

  (** Hermite.basis_transformation, finat/hermite.py:14-32, and
      QuadraticPowellSabin6.basis_transformation, finat/powell_sabin.py:15-33.
      The cell of dimension [d] has [d + 1] vertices. *)
  Definition hermite_transformation (c : simplex) (g : geometry) : mtx :=
    let d := sx_dim c in
    let Js := map (jacobian_at g) (sx_vertices c) in
    let h := cell_size g in
    fst (fold_left
      (fun (acc : mtx * nat) i =>
         let (M, cur) := acc in
         let cur := S cur in
         let J := nth i Js (fun _ _ => f0 o) in
         let M := fold_left (fun M j => fold_left (fun M k => put M (cur + j) (cur + k) (J j k / h i)) (seq 0 d) M) (seq 0 d) M in
         (M, (cur + d)%nat))
      (seq 0 (d + 1)) (identity, 0)).

  (** QuadraticPowellSabin12.basis_transformation,
      finat/powell_sabin.py:43-64. *)
  Definition powell_sabin12_transformation (avg : bool) (c : simplex) (g : geometry) : mtx :=
    let third := f1 o / num 3 in
    let J := jacobian_at g [third; third] in
    let sd := sx_dim c in
    let voffset := (sd + 1)%nat in
    let V := fold_left
      (fun V v => let s := (voffset * v)%nat in
         fold_left (fun V i => fold_left (fun V j => put V (s + 1 + i) (s + 1 + j) (J j i)) (seq 0 sd) V) (seq 0 sd) V)
      (seq 0 (length (sx_vertices c))) identity in
    let V := edge_transform V 1 0 c g avg in
    let h := cell_size g in
    let V := fold_left
      (fun V v => fold_left (fun V k => fun i j => if j =? (voffset * v + 1 + k)%nat then V i j / h v else V i j) (seq 0 sd) V)
      (seq 0 (length (sx_vertices c))) V in
    transpose V.

  (** Morley.basis_transformation, finat/morley.py:15-46. *)
  Definition morley_transformation (g : geometry) : mtx :=
    let third := f1 o / num 3 in
    let J := jacobian_at g [third; third] in
    let rns := reference_normals g in
    let pns := physical_normals g in
    let pts := physical_tangents g in
    let pel := physical_edge_lengths g in
    let V := fold_left
      (fun V i => put V (i + 3) (i + 3)
         (rns i 0 * (pns i 0 * J 0 0 + pns i 1 * J 1 0) + rns i 1 * (pns i 0 * J 0 1 + pns i 1 * J 1 1)))
      (seq 0 3) identity in
    let V := fold_left
      (fun V i =>
         let c := nth i [(1, 2); (0, 2); (0, 1)] (0, 0) in
         let B12 := rns i 0 * (pts i 0 * J 0 0 + pts i 1 * J 1 0) + rns i 1 * (pts i 0 * J 0 1 + pts i 1 * J 1 1) in
         let V := put V (3 + i) (fst c) (- B12 / pel i) in
         put V (3 + i) (snd c) (B12 / pel i))
      (seq 0 3) V in
    let h := cell_size g in
    let V := fold_left
      (fun V e =>
         match filter (fun i => negb (i =? e)) (seq 0 3) with
         | v0id :: v1id :: _ =>
             fold_left (fun V i => put V i (3 + e) (num 2 * V i (3 + e)%nat / (h v0id + h v1id))) (seq 0 6) V
         | _ => V
         end)
      (seq 0 3) V in
    transpose V.
End Zany.
