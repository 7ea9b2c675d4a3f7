(** Direct serendipity elements, finat/direct_serendipity.py.

    A symbolic expression in the coordinates of the physical point is modelled by
    its value at a point, [subs] by application; the coordinates of the vertices
    are numbers.  The calls of [simplify] do not change values and are left out.
    Division by zero is what [fdiv] of the given operations makes of it. *)
From Coq Require Import List Arith Bool.
From Verif Require Import Model.Prelude Model.Cell Model.Gem.
Import ListNotations.

(** ** Numbering *)

(** DirectSerendipity.space_dimension, finat/direct_serendipity.py:65-66. *)
Definition ds_space_dimension (degree : nat) : nat :=
  if degree =? 1 then 4 else (degree + 1) * (degree + 2) / 2 + 2.

(** [list(range(a, b))]. *)
Definition range (a b : nat) : list nat := seq a (b - a).

(** DirectSerendipity.entity_dofs, finat/direct_serendipity.py:48-63.
    Simplification: degree 0 is not meant ([degree - 1] is taken in [nat]). *)
Definition ds_entity_dofs (degree : nat) : edict (list nat) :=
  if degree =? 1 then
    [(DI 0, map (fun i => (i, [i])) (seq 0 4)); (DI 1, map (fun i => (i, [])) (seq 0 4)); (DI 2, [(0, [])])]
  else if degree =? 2 then
    [(DI 0, map (fun i => (i, [i])) (seq 0 4)); (DI 1, map (fun i => (i, [i + 4])) (seq 0 4)); (DI 2, [(0, [])])]
  else
    [(DI 0, map (fun i => (i, [i])) (seq 0 4));
     (DI 1, map (fun i => (i, range (4 + i * (degree - 1)) (4 + (i + 1) * (degree - 1)))) (seq 0 4));
     (DI 2, [(0, range (4 + 4 * (degree - 1)) (ds_space_dimension degree))])].

(** ** The reference quadrilateral: [ct[1]], the vertices of its edges
    (FIAT, external). *)
Definition quad_edges : list (nat * nat) := [(0, 1); (2, 3); (0, 2); (1, 3)].
Definition quad_edge (e : nat) : nat * nat := nth e quad_edges (0, 0).
Definition on_edge (v e : nat) : bool := (v =? fst (quad_edge e)) || (v =? snd (quad_edge e)).
(** [set(ct[1][e]).intersection(ct[1][f]) != set()]. *)
Definition meets (e f : nat) : bool := on_edge (fst (quad_edge e)) f || on_edge (snd (quad_edge e)) f.
(** finat/direct_serendipity.py:365-372. *)
Definition opposite_edge (e : nat) : nat := hd 0 (filter (fun f => negb (meets e f)) (seq 0 4)).
Definition adjacent_edges (e : nat) : list nat :=
  sorted Nat.leb (filter (fun f => negb (f =? e) && meets e f) (seq 0 4)).
Definition adjacent0 (e : nat) : nat := nth 0 (adjacent_edges e) 0.
Definition adjacent1 (e : nat) : nat := nth 1 (adjacent_edges e) 0.
(** finat/direct_serendipity.py:440-443. *)
Definition vertex_adj_edges (v : nat) : list nat := filter (on_edge v) (seq 0 4).
Definition vertex_off_edges (v : nat) : list nat := filter (fun e => negb (on_edge v e)) (seq 0 4).

Section Serendipity.
  Context {F : Type} (o : ops F).
  Local Notation "x + y" := (fadd o x y).
  Local Notation "x - y" := (fsub o x y).
  Local Notation "x * y" := (fmul o x y).
  Local Notation "x / y" := (fdiv o x y).
  Local Notation "- x" := (fopp o x).
  Local Notation "0" := (f0 o).
  Local Notation "1" := (f1 o).

  (** The number [n]. *)
  Fixpoint nm (n : nat) : F := match n with O => 0 | S n' => 1 + nm n' end.
  (** [x ** n]. *)
  Fixpoint pw (x : F) (n : nat) : F := match n with O => 1 | S n' => x * pw x n' end.
  (** [sum(l)]. *)
  Definition total (l : list F) : F := fold_left (fadd o) l 0.

  (** ** Newton interpolation *)

  (** Column [j] of the table of newton_dd from column [j - 1],
      finat/direct_serendipity.py:223-224: entry [i] for [i in range(n - j)]. *)
  Definition dd_column (nds : list F) (j : nat) (col : list F) : list F :=
    map (fun i => (nth (S i) col 0 - nth i col 0) / (nth (i + j)%nat nds 0 - nth i nds 0)) (seq 0 (length nds - j)%nat).
  (** The columns from [j] on, [k] of them; their first entries. *)
  Fixpoint dd_from (nds : list F) (j k : nat) (col : list F) : list F :=
    match k with
    | O => []
    | S k' => hd 0 col :: dd_from nds (S j) k' (dd_column nds (S j) col)
    end.
  (** newton_dd, finat/direct_serendipity.py:216-225.  numpy refuses values of
      another number than the nodes (ValueError) and has no row 0 without nodes
      (IndexError). *)
  Definition newton_dd (nds fs : list F) : result (list F) :=
    do! guard (Nat.eqb (length nds) (length fs)) ValueError ;;
    do! guard (negb (Nat.eqb (length nds) O)) IndexError ;;
    Ok (dd_from nds O (length nds) fs).
  (** newton_poly, finat/direct_serendipity.py:228-237, at the number [x];
      [result] starts with the last coefficient and goes down to the first. *)
  Definition newton_horner (nds coeffs : list F) (x : F) : F :=
    fold_left (fun res i => res * (x - nth i nds 0) + nth i coeffs 0)
      (rev (seq 0 (length coeffs - 1)%nat)) (last coeffs 0).
  Definition newton_poly (nds fs : list F) (x : F) : result F :=
    do coeffs <- newton_dd nds fs ;; Ok (newton_horner nds coeffs x).

  (** ** Geometry, finat/direct_serendipity.py:154-174 and 272-292 *)
  Definition pt : Type := (F * F)%type.
  Definition padd (a b : pt) : pt := (fst a + fst b, snd a + snd b).
  Definition psub (a b : pt) : pt := (fst a - fst b, snd a - snd b).
  Definition pscale (c : F) (a : pt) : pt := (c * fst a, c * snd a).
  Definition pdiv (a : pt) (c : F) : pt := (fst a / c, snd a / c).
  Definition pdot (a b : pt) : F := fst a * fst b + snd a * snd b.

  Variable vs : nat -> pt.
  Definition ts (e : nat) : pt := psub (vs (snd (quad_edge e))) (vs (fst (quad_edge e))).
  Definition ns (e : nat) : pt :=
    if (e =? 0)%nat || (e =? 3)%nat then (- snd (ts e), fst (ts e)) else (snd (ts e), - fst (ts e)).
  Definition xstars (e : nat) : pt := pdiv (padd (vs (fst (quad_edge e))) (vs (snd (quad_edge e)))) (nm 2).
  Definition lams (e : nat) (x : pt) : F := pdot (psub x (xstars e)) (ns e).
  (** RV, RH, finat/direct_serendipity.py:176-177 and 351-352. *)
  Definition RV (x : pt) : F := (lams 0 x - lams 1 x) / (lams 0 x + lams 1 x).
  Definition RH (x : pt) : F := (lams 2 x - lams 3 x) / (lams 2 x + lams 3 x).

  (** ** Degree 1: ds1_sym, finat/direct_serendipity.py:136-213 *)

  (** [xis[e]], finat/direct_serendipity.py:180-186. *)
  Definition xi (e : nat) (x : pt) : F :=
    let i := (2 * ((3 - e) / 2))%nat in
    let j := (i + 1)%nat in
    let R := if (e / 2 =? 0)%nat then RV x else RH x in
    let sign := if Nat.even (e + 1) then 1 else - (1) in
    lams i x * lams j x * (1 + sign * R) / lams i (xstars e) / lams j (xstars e) / nm 2.
  (** [r], finat/direct_serendipity.py:188-195. *)
  Definition ds1_r (x : pt) : F :=
    lams 1 x * lams 3 x / lams 1 (vs 0%nat) / lams 3 (vs 0%nat)
    - lams 0 x * lams 3 x / lams 0 (vs 2) / lams 3 (vs 2)
    + lams 0 x * lams 2 x / lams 0 (vs 3) / lams 2 (vs 3)
    - lams 1 x * lams 2 x / lams 1 (vs 1%nat) / lams 2 (vs 1%nat).
  (** [R], finat/direct_serendipity.py:196. *)
  Definition ds1_R (x : pt) : F := ds1_r x - total (map (fun i => ds1_r (xstars i) * xi i x) (seq 0 4)).
  (** [lam03], [lam12], finat/direct_serendipity.py:198-201: the matrix
      [[0, -1], [1, 0]] times a vector. *)
  Definition quarter (a : pt) : pt := (0 * fst a + - (1) * snd a, 1 * fst a + 0 * snd a).
  Definition lam03 (x : pt) : F := pdot (psub x (vs 0%nat)) (quarter (psub (vs 3) (vs 0%nat))).
  Definition lam12 (x : pt) : F := pdot (psub x (vs 2)) (quarter (psub (vs 2) (vs 1%nat))).
  (** finat/direct_serendipity.py:203-206. *)
  Definition phitilde (i : nat) (x : pt) : F :=
    match i with
    | O => lam12 x - lam12 (vs 3) * (1 + ds1_R x) / nm 2
    | 1 => lam03 x - lam03 (vs 2) * (1 - ds1_R x) / nm 2
    | 2 => lam03 x - lam03 (vs 1%nat) * (1 - ds1_R x) / nm 2
    | _ => lam12 x - lam12 (vs 0%nat) * (1 + ds1_R x) / nm 2
    end.
  (** finat/direct_serendipity.py:208-213. *)
  Definition ds1_sym : list (pt -> F) :=
    map (fun i => fun x => phitilde i x / phitilde i (vs i)) (seq 0 4).

  (** ** Degree r >= 2: dsr_sym, finat/direct_serendipity.py:254-474 *)
  Variable r : nat.

  (** finat/direct_serendipity.py:295. *)
  Definition bubble (x : pt) : F := lams 0 x * lams 1 x * lams 2 x * lams 3 x.

  (** finat/direct_serendipity.py:300-304. *)
  Definition centre : pt :=
    (total (map (fun i => fst (vs i)) (seq 0 4)) / nm 4, total (map (fun i => snd (vs i)) (seq 0 4)) / nm 4).

  (** The triangle inside, finat/direct_serendipity.py:306-312. *)
  Definition dx0 : pt := pdiv (psub (vs 1%nat) (vs 0%nat)) (nm (r - 2)).
  Definition dx1 : pt := pdiv (psub (vs 2) (vs 0%nat)) (nm (r - 2)).
  Definition tv0 : pt := padd (padd (vs 0%nat) dx0) dx1.
  Definition tv1 : pt := padd (padd (vs 0%nat) (pscale (nm (r - 3)) dx0)) dx1.
  Definition tv2 : pt := padd (padd (vs 0%nat) dx0) (pscale (nm (r - 3)) dx1).
  (** Barycentric coordinates, finat/direct_serendipity.py:315-325. *)
  Definition bary (q : nat) (x : pt) : F :=
    let y12 := snd tv1 - snd tv2 in
    let x21 := fst tv2 - fst tv1 in
    let x02 := fst tv0 - fst tv2 in
    let y02 := snd tv0 - snd tv2 in
    let det := y12 * x02 + x21 * y02 in
    let delx := fst x - fst tv2 in
    let dely := snd x - snd tv2 in
    let b0 := (y12 * delx + x21 * dely) / det in
    let b1 := (- y02 * delx + x02 * dely) / det in
    match q with O => b0 | 1 => b1 | _ => 1 - b0 - b1 end.
  (** The triples of the lattice, finat/direct_serendipity.py:335-337, 339. *)
  Definition lattice : list (nat * nat * nat) :=
    flat_map (fun i => map (fun j => (i, j, r - 4 - i - j)%nat) (rev (seq 0 (r - 4 - i + 1)%nat))) (rev (seq 0 (r - 4 + 1)%nat)).
  (** finat/direct_serendipity.py:338. *)
  Definition lattice_node (t : nat * nat * nat) : pt :=
    let '(i, j, k) := t in
    pdiv (padd (padd (pscale (nm i) tv0) (pscale (nm j) tv1)) (pscale (nm k) tv2)) (nm (r - 4)).
  (** finat/direct_serendipity.py:340-344. *)
  Definition lag (t : nat * nat * nat) (x : pt) : F :=
    let '(i, j, k) := t in
    let ii := [i; j; k] in
    fold_left (fun cur q =>
      fold_left (fun cur p => cur * ((nm (r - 4) * bary q x - nm p) / (nm (nth q ii O) - nm p))) (seq 0 (nth q ii O)) cur)
      (seq 0 3) 1.

  (** finat/direct_serendipity.py:297-349. *)
  Definition internal_nodes : list pt :=
    if (r <? 4)%nat then [] else if (r =? 4)%nat then [centre] else map lattice_node lattice.
  Definition internal_bfs : list (pt -> F) :=
    if (r <? 4)%nat then []
    else if (r =? 4)%nat then [fun x => bubble x / bubble centre]
    else map (fun t => fun x => lag t x * bubble x / (lag t (lattice_node t) * bubble (lattice_node t))) lattice.

  (** finat/direct_serendipity.py:355. *)
  Definition Rs (e : nat) (x : pt) : F :=
    match e with
    | O => (1 - RV x) / nm 2
    | 1 => (1 + RV x) / nm 2
    | 2 => (1 - RH x) / nm 2
    | _ => (1 + RH x) / nm 2
    end.
  (** finat/direct_serendipity.py:357. *)
  Definition nodes1d : list F := map (fun i => nm i / nm r) (seq 1 (r - 1)%nat).
  (** finat/direct_serendipity.py:375-377. *)
  Definition tunnel_R (e : nat) (x : pt) : F :=
    (lams (adjacent0 e) x - lams (adjacent1 e) x) / (lams (adjacent0 e) x + lams (adjacent1 e) x).
  (** finat/direct_serendipity.py:378-383. *)
  Definition edge_start (e : nat) : pt := vs (fst (quad_edge e)).
  Definition edge_end (e : nat) : pt := vs (snd (quad_edge e)).
  Definition edge_nodes (e : nat) : list pt :=
    let delx := fst (edge_end e) - fst (edge_start e) in
    let dely := snd (edge_end e) - snd (edge_start e) in
    map (fun nd => (fst (edge_start e) + nd * delx, snd (edge_start e) + nd * dely)) nodes1d.
  (** finat/direct_serendipity.py:387-389. *)
  Definition nodalize (f : pt -> F) (x : pt) : F :=
    f x - total (map (fun bn => f (snd bn) * fst bn x) (zip internal_bfs internal_nodes)).

  (** [r == 2], finat/direct_serendipity.py:393-398. *)
  Definition edge_bf2 (e : nat) (x : pt) : F :=
    let ephi := fun x => lams (adjacent0 e) x * lams (adjacent1 e) x * Rs e x in
    nodalize ephi x / ephi (xstars e).

  (** [l] without position [i], finat/direct_serendipity.py:409-412. *)
  Definition strike {A} (i : nat) (l : list A) : list A := firstn i l ++ skipn (S i) l.
  (** [p], finat/direct_serendipity.py:415-426; an error of newton_poly (there is
      none for [r >= 3]) is read as the number 0. *)
  Definition edge_p (e i : nat) (x : pt) : F :=
    let pvals := map (fun nd => - (1) * pw (tunnel_R e nd) (r - 2)%nat / lams (opposite_edge e) nd) (strike i (edge_nodes e)) in
    let xt := pdot x (ts e) in
    let vt0 := pdot (edge_start e) (ts e) in
    let vt1 := pdot (edge_end e) (ts e) in
    match newton_poly (strike i nodes1d) pvals ((xt - vt0) / (vt1 - vt0)) with Ok v => v | Err _ => 0 end.
  (** [prebf] before and after nodalize, finat/direct_serendipity.py:428-433. *)
  Definition edge_prebf (e i : nat) (x : pt) : F :=
    lams (adjacent0 e) x * lams (adjacent1 e) x
    * (lams (opposite_edge e) x * edge_p e i x + pw (tunnel_R e x) (r - 2)%nat * Rs e x).
  (** finat/direct_serendipity.py:434; [edge_nodes[ed][i]]. *)
  Definition edge_node (e i : nat) : pt := nth i (edge_nodes e) (0, 0).
  Definition edge_bf (e i : nat) (x : pt) : F :=
    nodalize (edge_prebf e i) x / nodalize (edge_prebf e i) (edge_node e i).
  (** finat/direct_serendipity.py:391-437. *)
  Definition edge_bfs (e : nat) : list (pt -> F) :=
    if (r =? 2)%nat then [edge_bf2 e] else map (edge_bf e) (seq 0 (length nodes1d)).

  (** finat/direct_serendipity.py:446-459. *)
  Definition vertex_prebf (v : nat) (x : pt) : F :=
    let lam0 := lams (nth 0 (vertex_off_edges v) O) in
    let lam1 := lams (nth 1 (vertex_off_edges v) O) in
    fold_left (fun prebf adj_ed =>
      fold_left (fun prebf nb => prebf - lam0 (fst nb) * lam1 (fst nb) * snd nb x)
        (zip (edge_nodes adj_ed) (edge_bfs adj_ed)) prebf)
      (vertex_adj_edges v) (lam0 x * lam1 x).
  (** finat/direct_serendipity.py:461. *)
  Definition vertex_bf (v : nat) (x : pt) : F := nodalize (vertex_prebf v) x / vertex_prebf v (vs v).

  (** finat/direct_serendipity.py:464-474: the basis functions and their nodes. *)
  Definition dsr_sym : list (pt -> F) :=
    map vertex_bf (seq 0 4) ++ flat_map edge_bfs (seq 0 4) ++ internal_bfs.
  Definition dsr_nodes : list pt :=
    map vs (seq 0 4) ++ flat_map edge_nodes (seq 0 4) ++ internal_nodes.

  (** ds_sym, finat/direct_serendipity.py:477-490. *)
  Definition ds_sym : list (pt -> F) := if (r =? 1)%nat then ds1_sym else dsr_sym.
End Serendipity.
