(** Physically mapped scalar elements: the theorems. *)
From Coq Require Import String.
From mathcomp Require Import all_ssreflect all_algebra.
From SsrMultinomials Require Import mpoly.
From Verif Require Import Model.Prelude Model.Gem Model.Piola Model.Zany Spec.Algebra Spec.Polynomials Spec.Zany Spec.Split Spec.ZanySamples.
From Verif Require Import Proofs.ZanyElements Proofs.ZanyEnds Proofs.ZanyNodal Proofs.HermiteTransform Proofs.MorleyTransform Proofs.ZanyNodal2 Proofs.PowellSabin Proofs.ZanySamples Proofs.HermiteSample Proofs.ZanyProps.
Set Implicit Arguments.
Unset Strict Implicit.
Unset Printing Implicit Defensive.
Import GRing.Theory Num.Theory.
Local Open Scope ring_scope.

Local Notation Q := [realFieldType of rat].
Local Notation T0 w := (physical triangle345 (affine stretch shift) (physical_edge_lengths geometry5_12_13) (cell_size geometry5_12_13) w).

(** ** C31: vertex dofs *)

(** The rows that _vertex_transform writes turn values, gradients and (with
    [second]) Hessians of [f] at the images of the vertices into those of the
    composition with an affine map at the vertices, in any dimension; it leaves
    the dofs behind those of the vertices alone. *)
Theorem C31_vertex_dofs : forall (F : realFieldType) n (c : simplex (F := F)) (g : geometry (F := F))
    (J : 'I_n -> 'I_n -> F) (b : point F n) second N (f : nat -> {mpoly F[n]}) (dofs : nat -> F),
  sx_dim c = n -> (forall i j : 'I_n, jacobian_at g (barycentre (ring_ops F) c) i j = J i j) ->
  let vorder := (if second then 2 else 1)%N in
  let voff := (1 + n + (if second then size (pairs n) else 0))%N in
  let m := List.length (sx_vertices c) in
  let V := vertex_transform (ring_ops F) (identity (ring_ops F)) vorder c g in
  (m * voff <= N)%N ->
  (forall v a, (v < m)%N -> (a < voff)%N -> dofs (v * voff + a)%N = jet (f v) (image (affine J b) (@vertex_of F n c v)) a) ->
  (forall v a, (v < m)%N -> (a < voff)%N ->
    \sum_(k < N) V (v * voff + a)%N k * dofs k = jet (pull (affine J b) (f v)) (@vertex_of F n c v) a) /\
  (forall i, (m * voff <= i < N)%N -> \sum_(k < N) V i k * dofs k = dofs i).
Proof. exact vertex_dofs_proof. Qed.
Print Assumptions C31_vertex_dofs.

(** The dofs of a quintic function at the vertices of a triangle. *)
Example C31_vertex_dofs_example :
  let X v := @vertex_of [fieldType of rat] 2 triangle345 v in
  let dofs i := jet quintic (image (affine stretch shift) (X (i %/ 6)%N)) (i %% 6)%N in
  \sum_(k < 21) vertex_transform (ring_ops Q) (identity (ring_ops Q)) 2 triangle345 geometry5_12_13 10%N k * dofs k =
  jet (pull (affine stretch shift) quintic) (X 1%N) 4%N.
Proof.
move=> X dofs.
have hp : size (pairs 2) = 3%N by rewrite Proofs.VertexTransform.size_pairs.
have := @C31_vertex_dofs Q 2 triangle345 geometry5_12_13 stretch shift true 21 (fun _ => quintic) dofs
  erefl (proj1 (proj2 geometry_provides) _).
rewrite /= hp => /(_ isT) [|h _]; last exact: (h 1%N 4%N).
by move=> v a hv ha; rewrite /dofs divnMDl // divn_small // addn0 modnMDl modn_small.
Qed.

(** An entry of the Hessian block, off the diagonal: half the sum. *)
Example C31_hessian_entry : let g := mkGeometry (fun _ i j => nth 0 (nth [::] [:: [:: 2%:R; 3%:R]; [:: 5%:R; 7%:R]] i) j : rat)
    (fun _ => - 1) (fun _ => 1) (fun _ _ => 0) (fun _ _ => 0) (fun _ _ => 0) (fun _ => 1) in
  [seq [seq vertex_transform (ring_ops Q) (identity (ring_ops Q)) 2 triangle345 g i j | j <- iota 3 3] | i <- iota 3 3] =
  [:: [:: 4%:R; 20%:R; 25%:R]; [:: 6%:R; 29%:R; 35%:R]; [:: 9%:R; 42%:R; 49%:R]].
Proof. by apply/eqP; vm_compute. Qed.

(** Hermite elements, any dimension and any polynomial map: the reference dofs
    of the composition are the transposed transformation applied to the dofs of
    the function, whose derivatives are scaled by the cell size. *)
Theorem C31_hermite : forall (F : realFieldType) n (c : simplex (F := F)) (g : geometry (F := F)) (q : polymap F n),
  sx_dim c = n -> List.length (sx_vertices c) = n.+1 ->
  (forall v (i j : 'I_n), (v <= n)%N -> jacobian_at g (List.nth v (sx_vertices c) nil) i j = jacobian q (@vertex_of F n c v) i j) ->
  (forall v, (v <= n)%N -> cell_size g v != 0) ->
  forall N (f : nat -> {mpoly F[n]}) inner i, (n.+1 * n.+1 <= N)%N -> (i < N)%N ->
  hermite_dof (@vertex_of F n c) (fun _ => 1) (fun v => pull q (f v)) inner i =
  \sum_(j < N) hermite_transformation (ring_ops F) c g j i *
    hermite_dof (fun v => image q (@vertex_of F n c v)) (cell_size g) f inner j.
Proof. exact hermite_relation. Qed.
Print Assumptions C31_hermite.

(** ** C32: nodal bases *)

(** Hermite: if the compositions of [phi] with the map are the nodal basis of
    the reference element, then the transformed functions are the nodal basis
    on the cell. *)
Theorem C32_hermite : forall (F : realFieldType) n (c : simplex (F := F)) (g : geometry (F := F)) (q : polymap F n),
  sx_dim c = n -> List.length (sx_vertices c) = n.+1 ->
  (forall v (i j : 'I_n), (v <= n)%N -> jacobian_at g (List.nth v (sx_vertices c) nil) i j = jacobian q (@vertex_of F n c v) i j) ->
  (forall v, (v <= n)%N -> cell_size g v != 0) ->
  forall N (phi : nat -> nat -> {mpoly F[n]}) (innerR innerT : (nat -> {mpoly F[n]}) -> nat -> F),
  (n.+1 * n.+1 <= N)%N ->
  (forall f k, innerR (fun v => pull q (f v)) k = innerT f k) ->
  (forall a k, innerT (fun v => \sum_(j < N) a j *: phi j v) k = \sum_(j < N) a j * innerT (phi j) k) ->
  (forall i j, (i < N)%N -> (j < N)%N ->
    let f v := pull q (phi j v) in hermite_dof (@vertex_of F n c) (fun _ => 1) f (innerR f) i = (i == j)%:R) ->
  forall i l, (i < N)%N -> (l < N)%N ->
    let f v := \sum_(j < N) hermite_transformation (ring_ops F) c g l j *: phi j v in
    hermite_dof (fun v => image q (@vertex_of F n c v)) (cell_size g) f (innerT f) i = (i == l)%:R.
Proof. exact hermite_nodal_proof. Qed.
Print Assumptions C32_hermite.

(** Cubic Hermite functions on the interval from 1 to 3. *)
Example C32_hermite_example : forall i l, (i < 4)%N -> (l < 4)%N ->
  let f v := \sum_(j < 4) hermite_transformation (ring_ops Q) interval geometry_double l j *: hermite_basis j v in
  hermite_dof (fun v => image double (@vertex_of Q 1 interval v)) (cell_size geometry_double) f (fun _ => 0) i = (i == l)%:R.
Proof.
apply: (@C32_hermite Q 1 interval geometry_double double erefl erefl _ _ 4 hermite_basis (fun _ _ => 0) (fun _ _ => 0)) => //.
- by move=> v i j _; rewrite Proofs.Polynomials.affine_jacobian.
- by case=> [|[|v]].
- by move=> a k; rewrite big1 // => j _; rewrite mulr0.
- exact: hermite_basis_nodal.
Qed.

(** Argyris with integral moments, degree [5 + m], on triangles, affine maps.
    The edge dofs are means ([avg]) or integrals over the edge. *)
Theorem C32_argyris_integral : forall (F : realFieldType) (c : simplex (F := F)) (g : geometry (F := F)) J b,
  fiat_triangle c -> provides g c J b -> forall (weights : nat -> F) N avg (innerR innerT : pieces F -> nat -> F),
  let q := affine J b in
  let T := physical c q (physical_edge_lengths g) (cell_size g) weights in
  (forall e, (e < 3)%N -> weights e = if avg then 1 else physical_edge_lengths g e) ->
  (forall f k, innerR (pulled q f) k = innerT f k) ->
  forall m f i, smooth T f 6 -> (18 + 3 * (2 * m + 1) <= N)%N -> (i < N)%N ->
  numbered 6 (2 * m + 1) (vertex_dof (reference c) (pulled q f)) (moment_dof (reference c) 2 m (pulled q f)) (innerR (pulled q f)) i =
  \sum_(j < N) argyris_transformation (ring_ops F) (5 + m) "integral"%string avg c g j i *
    numbered 6 (2 * m + 1) (vertex_dof T f) (moment_dof T 2 m f) (innerT f) j.
Proof. exact (fun F c g J b hc hg w N avg iR iT hw hi => @argyris_relation F c g J b hc hg w N avg iR iT hw hi). Qed.
Print Assumptions C32_argyris_integral.

Theorem C32_argyris_integral_nodal : forall (F : realFieldType) (c : simplex (F := F)) (g : geometry (F := F)) J b,
  fiat_triangle c -> provides g c J b -> forall (weights : nat -> F) N avg (innerR innerT : pieces F -> nat -> F),
  let q := affine J b in
  let T := physical c q (physical_edge_lengths g) (cell_size g) weights in
  (forall e, (e < 3)%N -> weights e = if avg then 1 else physical_edge_lengths g e) ->
  (forall f k, innerR (pulled q f) k = innerT f k) ->
  (forall k n a phi, innerT (combination n a phi) k = \sum_(j < n) a j * innerT (phi j) k) ->
  forall m phi, (18 + 3 * (2 * m + 1) <= N)%N -> (forall j, (j < N)%N -> smooth T (phi j) 6) ->
  nodal N (fun f => numbered 6 (2 * m + 1) (vertex_dof (reference c) f) (moment_dof (reference c) 2 m f) (innerR f))
    (fun j => pulled q (phi j)) ->
  nodal N (fun f => numbered 6 (2 * m + 1) (vertex_dof T f) (moment_dof T 2 m f) (innerT f))
    (fun l => combination N (argyris_transformation (ring_ops F) (5 + m) "integral"%string avg c g l) phi).
Proof. exact (fun F c g J b hc hg w N avg iR iT hw hi hl => @argyris_nodal_proof F c g J b hc hg w N avg iR iT hw hi hl). Qed.
Print Assumptions C32_argyris_integral_nodal.

(** Degree 6 has three dofs on each edge. *)
Example C32_argyris_integral_example : forall i, (i < 27)%N ->
  let w := fun e => physical_edge_lengths geometry5_12_13 e in
  let f : pieces Q := fun _ => quintic in
  numbered 6 3 (vertex_dof (reference triangle345) (pulled (affine stretch shift) f)) (moment_dof (reference triangle345) 2 1 (pulled (affine stretch shift) f)) (fun _ => 0) i =
  \sum_(j < 27) argyris_transformation (ring_ops Q) 6 "integral"%string false triangle345 geometry5_12_13 j i *
    numbered 6 3 (vertex_dof (T0 w) f) (moment_dof (T0 w) 2 1 f) (fun _ => 0) j.
Proof.
move=> i hi w f.
by apply: (@C32_argyris_integral Q triangle345 geometry5_12_13 stretch shift triangle345_fiat geometry_provides w 27 false (fun _ _ => 0) (fun _ _ => 0) _ _ 1 f i).
Qed.

(** The point variant, degree 5: the normal derivatives at the midpoints, which
    are scaled by the mean of the cell sizes. *)
Theorem C32_argyris_point : forall (F : realFieldType) (c : simplex (F := F)) (g : geometry (F := F)) J b,
  fiat_triangle c -> provides g c J b -> forall (weights : nat -> F) avg f i inner,
  let q := affine J b in
  let T := physical c q (physical_edge_lengths g) (cell_size g) weights in
  (forall e, (e < 3)%N -> weights e = (cell_size g (first e) + cell_size g (second e)) / 2%:R) ->
  smooth T f 6 -> (forall e, (e < 3)%N -> (msize (f e) <= 6)%N) -> (i < 21)%N ->
  numbered 6 1 (vertex_dof (reference c) (pulled q f)) (midpoint_dof (reference c) (pulled q f)) inner i =
  \sum_(j < 21) argyris_transformation (ring_ops F) 5 "point"%string avg c g j i *
    numbered 6 1 (vertex_dof T f) (midpoint_dof T f) inner j.
Proof. exact (fun F c g J b hc hg w => @point_element F c g J b hc hg w). Qed.
Print Assumptions C32_argyris_point.

Theorem C32_argyris_point_nodal : forall (F : realFieldType) (c : simplex (F := F)) (g : geometry (F := F)) J b,
  fiat_triangle c -> provides g c J b -> forall (weights : nat -> F) avg phi,
  let q := affine J b in
  let T := physical c q (physical_edge_lengths g) (cell_size g) weights in
  (forall e, (e < 3)%N -> weights e = (cell_size g (first e) + cell_size g (second e)) / 2%:R) ->
  (forall j, (j < 21)%N -> smooth T (phi j) 6) -> (forall j e, (j < 21)%N -> (e < 3)%N -> (msize (phi j e) <= 6)%N) ->
  nodal 21 (fun f => numbered 6 1 (vertex_dof (reference c) f) (midpoint_dof (reference c) f) (fun _ => 0)) (fun j => pulled q (phi j)) ->
  nodal 21 (fun f => numbered 6 1 (vertex_dof T f) (midpoint_dof T f) (fun _ => 0))
    (fun l => combination 21 (argyris_transformation (ring_ops F) 5 "point"%string avg c g l) phi).
Proof. exact (fun F c g J b hc hg w => @argyris_point_nodal_proof F c g J b hc hg w). Qed.
Print Assumptions C32_argyris_point_nodal.

Example C32_argyris_point_example : forall i, (i < 21)%N ->
  let w := fun e => (cell_size geometry5_12_13 (first e) + cell_size geometry5_12_13 (second e)) / 2%:R in
  let f : pieces Q := fun _ => quintic in
  numbered 6 1 (vertex_dof (reference triangle345) (pulled (affine stretch shift) f)) (midpoint_dof (reference triangle345) (pulled (affine stretch shift) f)) (fun _ => 0) i =
  \sum_(j < 21) argyris_transformation (ring_ops Q) 5 "point"%string false triangle345 geometry5_12_13 j i *
    numbered 6 1 (vertex_dof (T0 w) f) (midpoint_dof (T0 w) f) (fun _ => 0) j.
Proof.
move=> i hi w f.
apply: (@C32_argyris_point Q triangle345 geometry5_12_13 stretch shift triangle345_fiat geometry_provides w false f i (fun _ => 0)) => //.
by move=> e _; exact: quintic_size.
Qed.

(** Only degree 5 has a point variant; the default is the integral variant. *)
Theorem C32_argyris_variants : forall degree,
  argyris_init degree None = Ok "integral"%string /\
  (forall s, s <> "point"%string -> argyris_init degree (Some s) = Ok s) /\
  argyris_init 5 (Some "point"%string) = Ok "point"%string /\
  (degree <> 5%N -> argyris_init degree (Some "point"%string) = Err NotImplementedError).
Proof. exact argyris_variants. Qed.
Print Assumptions C32_argyris_variants.

(** Bell: the transformed functions are dual to values, gradients and Hessians
    at the vertices, and their normal derivatives on edges are orthogonal to
    the Legendre polynomial of degree 4. *)
Theorem C32_bell : forall (F : realFieldType) (c : simplex (F := F)) (g : geometry (F := F)) J b,
  fiat_triangle c -> provides g c J b -> forall (weights : nat -> F) phi,
  let q := affine J b in
  let T := physical c q (physical_edge_lengths g) (cell_size g) weights in
  (forall j, (j < 21)%N -> smooth T (phi j) 6) -> (forall j e, (j < 21)%N -> (e < 3)%N -> (msize (phi j e) <= 6)%N) ->
  nodal 21 (fun f => numbered 6 1 (vertex_dof (reference c) f) (constraint_dof (reference c) (legendre4 F) f) (fun _ => 0)) (fun j => pulled q (phi j)) ->
  forall l, (l < 18)%N -> let psi := combination 21 (bell_transformation (ring_ops F) c g l) phi in
  (forall v a, (v < 3)%N -> (a < 6)%N -> vertex_dof T psi v a = (v * 6 + a == l)%N%:R) /\
  (forall e, (e < 3)%N -> integral (flux T psi e * legendre4 F) = 0).
Proof. exact (fun F c g J b hc hg w => @bell_nodal_proof F c g J b hc hg w). Qed.
Print Assumptions C32_bell.

(** The reference dofs of the composition of a function that meets the
    constraints are the transposed transformation applied to its dofs. *)
Theorem C32_bell_relation : forall (F : realFieldType) (c : simplex (F := F)) (g : geometry (F := F)) J b,
  fiat_triangle c -> provides g c J b -> forall (weights : nat -> F) f i,
  let q := affine J b in
  let T := physical c q (physical_edge_lengths g) (cell_size g) weights in
  smooth T f 6 -> (forall e, (e < 3)%N -> (msize (f e) <= 6)%N) -> (i < 21)%N ->
  (forall e, (e < 3)%N -> integral (flux T f e * legendre4 F) = 0) ->
  numbered 6 1 (vertex_dof (reference c) (pulled q f)) (constraint_dof (reference c) (legendre4 F) (pulled q f)) (fun _ => 0) i =
  \sum_(j < 18) bell_transformation (ring_ops F) c g j i * vertex_dof T f (j %/ 6)%N (j %% 6)%N.
Proof. exact bell_relation. Qed.
Print Assumptions C32_bell_relation.

Example C32_bell_example : forall i, (i < 21)%N ->
  let f : pieces Q := fun _ => product_function in
  numbered 6 1 (vertex_dof (reference triangle345) (pulled (affine stretch shift) f)) (constraint_dof (reference triangle345) (legendre4 Q) (pulled (affine stretch shift) f)) (fun _ => 0) i =
  \sum_(j < 18) bell_transformation (ring_ops Q) triangle345 geometry5_12_13 j i * vertex_dof (T0 (fun _ => 1)) f (j %/ 6)%N (j %% 6)%N.
Proof.
move=> i hi f.
apply: (@C32_bell_relation Q triangle345 geometry5_12_13 stretch shift triangle345_fiat geometry_provides) => // e _.
- by apply: leq_trans product_size _.
- exact: product_orthogonal4.
Qed.

(** Hsieh-Clough-Tocher, degree [3 + m]: piecewise polynomials with the same
    values and gradients at the vertices. *)
Theorem C32_hct : forall (F : realFieldType) (c : simplex (F := F)) (g : geometry (F := F)) J b,
  fiat_triangle c -> provides g c J b -> forall (weights : nat -> F) N avg (innerR innerT : pieces F -> nat -> F),
  let q := affine J b in
  let T := physical c q (physical_edge_lengths g) (cell_size g) weights in
  (forall e, (e < 3)%N -> weights e = if avg then 1 else physical_edge_lengths g e) ->
  (forall f k, innerR (pulled q f) k = innerT f k) ->
  forall m f i, smooth T f 3 -> (9 + 3 * (2 * m + 1) <= N)%N -> (i < N)%N ->
  numbered 3 (2 * m + 1) (vertex_dof (reference c) (pulled q f)) (moment_dof (reference c) 1 m (pulled q f)) (innerR (pulled q f)) i =
  \sum_(j < N) hct_transformation (ring_ops F) (3 + m) avg c g j i *
    numbered 3 (2 * m + 1) (vertex_dof T f) (moment_dof T 1 m f) (innerT f) j.
Proof. exact (fun F c g J b hc hg w N avg iR iT hw hi => @hct_relation F c g J b hc hg w N avg iR iT hw hi). Qed.
Print Assumptions C32_hct.

Theorem C32_hct_nodal : forall (F : realFieldType) (c : simplex (F := F)) (g : geometry (F := F)) J b,
  fiat_triangle c -> provides g c J b -> forall (weights : nat -> F) N avg (innerR innerT : pieces F -> nat -> F),
  let q := affine J b in
  let T := physical c q (physical_edge_lengths g) (cell_size g) weights in
  (forall e, (e < 3)%N -> weights e = if avg then 1 else physical_edge_lengths g e) ->
  (forall f k, innerR (pulled q f) k = innerT f k) ->
  (forall k n a phi, innerT (combination n a phi) k = \sum_(j < n) a j * innerT (phi j) k) ->
  forall m phi, (9 + 3 * (2 * m + 1) <= N)%N -> (forall j, (j < N)%N -> smooth T (phi j) 3) ->
  nodal N (fun f => numbered 3 (2 * m + 1) (vertex_dof (reference c) f) (moment_dof (reference c) 1 m f) (innerR f))
    (fun j => pulled q (phi j)) ->
  nodal N (fun f => numbered 3 (2 * m + 1) (vertex_dof T f) (moment_dof T 1 m f) (innerT f))
    (fun l => combination N (hct_transformation (ring_ops F) (3 + m) avg c g l) phi).
Proof. exact (fun F c g J b hc hg w N avg iR iT hw hi hl => @hct_nodal_proof F c g J b hc hg w N avg iR iT hw hi hl). Qed.
Print Assumptions C32_hct_nodal.

Example C32_hct_example : forall i, (i < 19)%N ->
  let w := fun _ => 1 in
  let f : pieces Q := fun _ => quintic in
  numbered 3 3 (vertex_dof (reference triangle345) (pulled (affine stretch shift) f)) (moment_dof (reference triangle345) 1 1 (pulled (affine stretch shift) f)) (fun _ => 7%:R) i =
  \sum_(j < 19) hct_transformation (ring_ops Q) 4 true triangle345 geometry5_12_13 j i *
    numbered 3 3 (vertex_dof (T0 w) f) (moment_dof (T0 w) 1 1 f) (fun _ => 7%:R) j.
Proof.
move=> i hi w f.
by apply: (@C32_hct Q triangle345 geometry5_12_13 stretch shift triangle345_fiat geometry_provides w 19 true (fun _ _ => 7%:R) (fun _ _ => 7%:R) _ _ 1 f i).
Qed.

(** Reduced Hsieh-Clough-Tocher: dual to values and gradients at the vertices,
    the normal derivatives on edges orthogonal to the Legendre polynomial of
    degree 2. *)
Theorem C32_reduced_hct : forall (F : realFieldType) (c : simplex (F := F)) (g : geometry (F := F)) J b,
  fiat_triangle c -> provides g c J b -> forall (weights : nat -> F) phi,
  let q := affine J b in
  let T := physical c q (physical_edge_lengths g) (cell_size g) weights in
  (forall j, (j < 12)%N -> smooth T (phi j) 3) -> (forall j e, (j < 12)%N -> (e < 3)%N -> (msize (phi j e) <= 4)%N) ->
  nodal 12 (fun f => numbered 3 1 (vertex_dof (reference c) f) (constraint_dof (reference c) (legendre2 F) f) (fun _ => 0)) (fun j => pulled q (phi j)) ->
  forall l, (l < 9)%N -> let psi := combination 12 (reduced_hct_transformation (ring_ops F) c g l) phi in
  (forall v a, (v < 3)%N -> (a < 3)%N -> vertex_dof T psi v a = (v * 3 + a == l)%N%:R) /\
  (forall e, (e < 3)%N -> integral (flux T psi e * legendre2 F) = 0).
Proof. exact (fun F c g J b hc hg w => @reduced_nodal_proof F c g J b hc hg w). Qed.
Print Assumptions C32_reduced_hct.

Theorem C32_reduced_hct_relation : forall (F : realFieldType) (c : simplex (F := F)) (g : geometry (F := F)) J b,
  fiat_triangle c -> provides g c J b -> forall (weights : nat -> F) f i,
  let q := affine J b in
  let T := physical c q (physical_edge_lengths g) (cell_size g) weights in
  smooth T f 3 -> (forall e, (e < 3)%N -> (msize (f e) <= 4)%N) -> (i < 12)%N ->
  (forall e, (e < 3)%N -> integral (flux T f e * legendre2 F) = 0) ->
  numbered 3 1 (vertex_dof (reference c) (pulled q f)) (constraint_dof (reference c) (legendre2 F) (pulled q f)) (fun _ => 0) i =
  \sum_(j < 9) reduced_hct_transformation (ring_ops F) c g j i * vertex_dof T f (j %/ 3)%N (j %% 3)%N.
Proof. exact reduced_relation. Qed.
Print Assumptions C32_reduced_hct_relation.

Example C32_reduced_hct_example : forall i, (i < 12)%N ->
  let f : pieces Q := fun _ => product_function in
  numbered 3 1 (vertex_dof (reference triangle345) (pulled (affine stretch shift) f)) (constraint_dof (reference triangle345) (legendre2 Q) (pulled (affine stretch shift) f)) (fun _ => 0) i =
  \sum_(j < 9) reduced_hct_transformation (ring_ops Q) triangle345 geometry5_12_13 j i * vertex_dof (T0 (fun _ => 1)) f (j %/ 3)%N (j %% 3)%N.
Proof.
move=> i hi f.
apply: (@C32_reduced_hct_relation Q triangle345 geometry5_12_13 stretch shift triangle345_fiat geometry_provides) => // e _.
- by apply: leq_trans product_size _.
- exact: product_orthogonal2.
Qed.

(** Morley: values at the vertices and normal derivatives at the midpoints. *)
Theorem C32_morley : forall (F : realFieldType) (c : simplex (F := F)) (g : geometry (F := F)) J b,
  fiat_triangle c -> provides g c J b -> forall (weights : nat -> F) f i inner,
  let q := affine J b in
  let T := physical c q (physical_edge_lengths g) (cell_size g) weights in
  (forall e, (e < 3)%N -> weights e = (cell_size g (first e) + cell_size g (second e)) / 2%:R) ->
  smooth T f 1 -> (forall e, (e < 3)%N -> (msize (f e) <= 3)%N) -> (i < 6)%N ->
  numbered 1 1 (vertex_dof (reference c) (pulled q f)) (midpoint_dof (reference c) (pulled q f)) inner i =
  \sum_(j < 6) morley_transformation (ring_ops F) g j i * numbered 1 1 (vertex_dof T f) (midpoint_dof T f) inner j.
Proof. exact (fun F c g J b hc hg w => @morley_element F c g J b hc hg w). Qed.
Print Assumptions C32_morley.

Theorem C32_morley_nodal : forall (F : realFieldType) (c : simplex (F := F)) (g : geometry (F := F)) J b,
  fiat_triangle c -> provides g c J b -> forall (weights : nat -> F) phi,
  let q := affine J b in
  let T := physical c q (physical_edge_lengths g) (cell_size g) weights in
  (forall e, (e < 3)%N -> weights e = (cell_size g (first e) + cell_size g (second e)) / 2%:R) ->
  (forall j, (j < 6)%N -> smooth T (phi j) 1) -> (forall j e, (j < 6)%N -> (e < 3)%N -> (msize (phi j e) <= 3)%N) ->
  nodal 6 (fun f => numbered 1 1 (vertex_dof (reference c) f) (midpoint_dof (reference c) f) (fun _ => 0)) (fun j => pulled q (phi j)) ->
  nodal 6 (fun f => numbered 1 1 (vertex_dof T f) (midpoint_dof T f) (fun _ => 0))
    (fun l => combination 6 (morley_transformation (ring_ops F) g l) phi).
Proof. exact (fun F c g J b hc hg w => @morley_nodal_proof F c g J b hc hg w). Qed.
Print Assumptions C32_morley_nodal.

(** The nodal basis of the Morley element on the triangle with edges 5, 12,
    13. *)
Example C32_morley_example :
  let w := fun e => (cell_size geometry5_12_13 (first e) + cell_size geometry5_12_13 (second e)) / 2%:R in
  nodal 6 (fun f => numbered 1 1 (vertex_dof (T0 w) f) (midpoint_dof (T0 w) f) (fun _ => 0))
    (fun l => combination 6 (morley_transformation (ring_ops Q) geometry5_12_13 l) morley_basis).
Proof.
move=> w.
apply: (@C32_morley_nodal Q triangle345 geometry5_12_13 stretch shift triangle345_fiat geometry_provides w morley_basis) => //.
- by move=> j e _ _; exact: morley_size.
- exact: morley_basis_nodal.
Qed.

(** Powell-Sabin 12: piecewise polynomials on a triangle whose edges are split
    at their midpoints; values and gradients at the vertices, means of the
    normal derivative on the edges.  (Powell-Sabin 6 is Hermite.) *)
Theorem C32_powell_sabin12 : forall (F : realFieldType) (c : simplex (F := F)) (g : geometry (F := F)) J b,
  fiat_triangle c -> provides g c J b -> forall (weights : nat -> F) avg f i,
  let q := affine J b in
  let T := physical c q (physical_edge_lengths g) (cell_size g) weights in
  (forall e, (e < 3)%N -> weights e = if avg then 1 else physical_edge_lengths g e) ->
  split_smooth T f -> (i < 12)%N ->
  split_dof (reference c) (pulled q f) i =
  \sum_(j < 12) powell_sabin12_transformation (ring_ops F) avg c g j i * split_dof T f j.
Proof. exact (fun F c g J b hc hg w => @ps12_element F c g J b hc hg w). Qed.
Print Assumptions C32_powell_sabin12.

Theorem C32_powell_sabin12_nodal : forall (F : realFieldType) (c : simplex (F := F)) (g : geometry (F := F)) J b,
  fiat_triangle c -> provides g c J b -> forall (weights : nat -> F) avg phi,
  let q := affine J b in
  let T := physical c q (physical_edge_lengths g) (cell_size g) weights in
  (forall e, (e < 3)%N -> weights e = if avg then 1 else physical_edge_lengths g e) ->
  (forall j, (j < 12)%N -> split_smooth T (phi j)) ->
  nodal 12 (split_dof (reference c)) (fun j => pulled q (phi j)) ->
  nodal 12 (split_dof T) (fun l => combination 12 (powell_sabin12_transformation (ring_ops F) avg c g l) phi).
Proof. exact (fun F c g J b hc hg w => @ps12_nodal_proof F c g J b hc hg w). Qed.
Print Assumptions C32_powell_sabin12_nodal.

Example C32_powell_sabin12_example : forall i, (i < 12)%N ->
  let f : pieces Q := fun _ => quintic in
  split_dof (reference triangle345) (pulled (affine stretch shift) f) i =
  \sum_(j < 12) powell_sabin12_transformation (ring_ops Q) true triangle345 geometry5_12_13 j i * split_dof (T0 (fun _ => 1)) f j.
Proof.
move=> i hi f.
by apply: (@C32_powell_sabin12 Q triangle345 geometry5_12_13 stretch shift triangle345_fiat geometry_provides (fun _ => 1) true f i).
Qed.
