(** What the direct serendipity elements are meant to be: quadrilaterals, the
    nodes of degree [r] and nodal bases. *)
From mathcomp Require Import all_ssreflect all_algebra.
Set Implicit Arguments.
Unset Strict Implicit.
Unset Printing Implicit Defensive.
Import GRing.Theory.
Local Open Scope ring_scope.

Section Quadrilateral.
  Variable F : realFieldType.
  Definition point : Type := (F * F)%type.
  Implicit Types (a b c : point) (v : nat -> point) (e : nat).

  (** Twice the signed area of the triangle [a b c]. *)
  Definition turn a b c : F := (b.1 - a.1) * (c.2 - a.2) - (b.2 - a.2) * (c.1 - a.1).

  (** The vertices are numbered as on the reference square, [0 1 3 2] goes round;
      convex: one turns the same way at every vertex. *)
  Definition convex_quad v : Prop :=
    exists s : F, (s = 1 \/ s = -1) /\
      [/\ 0 < s * turn (v 2%N) (v 0%N) (v 1%N), 0 < s * turn (v 0%N) (v 1%N) (v 3%N),
          0 < s * turn (v 1%N) (v 3%N) (v 2%N) & 0 < s * turn (v 3%N) (v 2%N) (v 0%N)].
  Definition parallelogram v : Prop :=
    (v 1%N).1 - (v 0%N).1 = (v 3%N).1 - (v 2%N).1 /\ (v 1%N).2 - (v 0%N).2 = (v 3%N).2 - (v 2%N).2.

  (** The point dividing [a b]. *)
  Definition along a b (t : F) : point := (a.1 + t * (b.1 - a.1), a.2 + t * (b.2 - a.2)).

  (** First and last vertex of an edge, and the neighbours of these vertices on the
      opposite edge. *)
  Definition tail e : nat := nth 0%N [:: 0; 2; 0; 1]%N e.
  Definition head e : nat := nth 0%N [:: 1; 3; 2; 3]%N e.
  Definition tail_nb e : nat := nth 0%N [:: 2; 0; 1; 0]%N e.
  Definition head_nb e : nat := nth 0%N [:: 3; 1; 3; 2]%N e.

  (** The node [i] of edge [e], [0 < i < r]. *)
  Definition edge_point v (r e i : nat) : point := along (v (tail e)) (v (head e)) (i%:R / r%:R).
  Definition edge_points v r e : seq point := [seq edge_point v r e i | i <- iota 1 (r - 1)].

  (** The inner nodes: for degree 4 the mean of the vertices, for higher degrees a
      lattice in the triangle of the vertices 0, 1, 2. *)
  Definition mean v : point :=
    (((v 0%N).1 + (v 1%N).1 + (v 2%N).1 + (v 3%N).1) / 4%:R, ((v 0%N).2 + (v 1%N).2 + (v 2%N).2 + (v 3%N).2) / 4%:R).
  Definition lattice_point v (r i j : nat) : point :=
    ((v 0%N).1 + i%:R / (r - 2)%:R * ((v 1%N).1 - (v 0%N).1) + j%:R / (r - 2)%:R * ((v 2%N).1 - (v 0%N).1),
     (v 0%N).2 + i%:R / (r - 2)%:R * ((v 1%N).2 - (v 0%N).2) + j%:R / (r - 2)%:R * ((v 2%N).2 - (v 0%N).2)).
  Definition inner_points v (r : nat) : seq point :=
    if (r < 4)%N then [::] else if r == 4%N then [:: mean v]
    else flatten [seq [seq lattice_point v r (n - k).+1 k.+1 | k <- iota 0 n.+1] | n <- iota 0 (r - 3)].

  (** All nodes of degree [r], vertices first, then edges, then inside. *)
  Definition nodes v (r : nat) : seq point :=
    [:: v 0; v 1; v 2; v 3]%N ++ flatten [seq edge_points v r e | e <- iota 0 4] ++ inner_points v r.

  (** Functions with values that may be undefined. *)
  Definition somep (p : point) : option F * option F := (Some p.1, Some p.2).
  Definition nodal (fs : seq (option F * option F -> option F)) (nds : seq point) : Prop :=
    size fs = size nds /\
    forall i j, (i < size nds)%N -> (j < size nds)%N ->
      nth (fun=> None) fs i (somep (nth (0, 0) nds j)) = Some (i == j)%:R.

  (** On edge [e] the code corrects the power of a ratio by a polynomial of lower
      degree that vanishes with it at all nodes but one.  This works unless there
      is a polynomial for all nodes at once. *)
  Definition edge_ratio v r e (i : nat) : F :=
    let p := edge_point v r e i in
    let d0 := `|turn (v (tail e)) (v (tail_nb e)) p| in
    let d1 := `|turn (v (head e)) (v (head_nb e)) p| in
    (d0 - d1) / (d0 + d1).
  Definition edge_regular v (r e : nat) : Prop :=
    ~ exists q : {poly F}, (size q <= r - 2)%N /\
        forall i, (0 < i < r)%N ->
          q.[i%:R / r%:R] * `|turn (v (tail_nb e)) (v (head_nb e)) (edge_point v r e i)| = edge_ratio v r e i ^+ (r - 2).

  (** The closed quadrilateral. *)
  Definition in_quad v (p : point) : Prop :=
    exists w0 w1 w2 w3 : F, [/\ 0 <= w0, 0 <= w1, 0 <= w2 & 0 <= w3] /\
      [/\ w0 + w1 + w2 + w3 = 1,
          p.1 = w0 * (v 0%N).1 + w1 * (v 1%N).1 + w2 * (v 2%N).1 + w3 * (v 3%N).1
        & p.2 = w0 * (v 0%N).2 + w1 * (v 1%N).2 + w2 * (v 2%N).2 + w3 * (v 3%N).2].

  (** Strictly inside: on the inner side of every edge. *)
  Definition within v (p : point) : Prop :=
    forall e, (e < 4)%N -> 0 < turn (v (tail e)) (v (head e)) p * turn (v (tail e)) (v (head e)) (v (tail_nb e)).

  (** The dofs of the nodes on an edge, in order: its tail, the nodes between, its
      head; and the polynomials of Lagrange for [r + 1] equidistant nodes. *)
  Definition edge_dofs (r e : nat) : seq nat := tail e :: iota (4 + e * (r - 1)) (r - 1) ++ [:: head e].
  Definition lagrange (r j : nat) : {poly F} :=
    \prod_(k <- iota 0 r.+1 | k != j) ((j%:R / r%:R - k%:R / r%:R)^-1 *: ('X - (k%:R / r%:R)%:P)).
  (** On every edge the functions are those of Lagrange for the nodes of this edge
      and zero for the other nodes. *)
  Definition conforming (fs : seq (option F * option F -> option F)) v (r : nat) : Prop :=
    forall e i t, (e < 4)%N -> (i < size fs)%N -> 0 <= t <= 1 ->
      nth (fun=> None) fs i (somep (along (v (tail e)) (v (head e)) t))
      = Some (if i \in edge_dofs r e then (lagrange r (index i (edge_dofs r e))).[t] else 0).

  (** Interpolation at the nodes with the functions [fs]. *)
  Definition interpolant (fs : seq (option F * option F -> option F)) (nds : seq point) (f : point -> F) (p : point) : option F :=
    foldr (fun ab acc => match ab.1 (somep p), acc with Some y, Some z => Some (f ab.2 * y + z) | _, _ => None end)
      (Some 0) (zip fs nds).
  Definition linear (c : nat -> F) (p : point) : F := c 0%N + c 1%N * p.1 + c 2%N * p.2.
  Definition quadratic (c : nat -> F) (p : point) : F :=
    c 0%N + c 1%N * p.1 + c 2%N * p.2 + c 3%N * p.1 ^+ 2 + c 4%N * (p.1 * p.2) + c 5%N * p.2 ^+ 2.
  (** A polynomial of degree at most [m]. *)
  Definition polynomial (m : nat) (c : nat -> nat -> F) (p : point) : F :=
    \sum_(i < m.+1) \sum_(j < m.+1 - i) c i j * p.1 ^+ i * p.2 ^+ j.
End Quadrilateral.
