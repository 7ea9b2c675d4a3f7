(** Reference cells.  Cells belong to FIAT (external); the definitions record
    the parts of FIAT.reference_element that FInAT relies on. *)
From Coq Require Import List Arith Bool.
From Verif Require Import Model.Prelude.
Import ListNotations.

(** Keys of topology and entity-dof dictionaries: an [int] on simplices,
    quadrilaterals and hexahedra, a (possibly nested) tuple on product cells. *)
Inductive dimkey :=
| DI (d : nat)
| DT (ds : list dimkey).

Fixpoint dimkey_eqb (a b : dimkey) : bool :=
  match a, b with
  | DI x, DI y => Nat.eqb x y
  | DT xs, DT ys =>
      (fix go (xs ys : list dimkey) : bool :=
         match xs, ys with
         | [], [] => true
         | x :: xs', y :: ys' => dimkey_eqb x y && go xs' ys'
         | _, _ => false
         end) xs ys
  | _, _ => false
  end.

(** FIAT.reference_element.tuple_sum: sum of all ints in a nested tuple. *)
Fixpoint dk_total (k : dimkey) : nat :=
  match k with
  | DI d => d
  | DT ds => (fix go (l : list dimkey) : nat :=
                match l with [] => 0 | x :: r => dk_total x + go r end) ds
  end.

(** Python's comparison of such keys ([sorted] on dictionary keys).  Python
    raises when an int meets a tuple; that never happens between keys of one
    dictionary, here an int counts as smaller. *)
Fixpoint dimkey_cmp (a b : dimkey) : comparison :=
  match a, b with
  | DI x, DI y => Nat.compare x y
  | DI _, DT _ => Lt
  | DT _, DI _ => Gt
  | DT xs, DT ys =>
      (fix go (xs ys : list dimkey) : comparison :=
         match xs, ys with
         | [], [] => Eq
         | [], _ :: _ => Lt
         | _ :: _, [] => Gt
         | x :: xs', y :: ys' =>
             match dimkey_cmp x y with Eq => go xs' ys' | c => c end
         end) xs ys
  end.
Definition dimkey_leb (a b : dimkey) : bool :=
  match dimkey_cmp a b with Gt => false | _ => true end.

(** The cells FInAT meets: simplices (vertex, interval, triangle,
    tetrahedron), tensor-product cells, and the flattened cells
    UFCQuadrilateral ([Hypercube 2]) and UFCHexahedron ([Hypercube 3]). *)
Inductive cell :=
| Simplex (d : nat)
| TPCell (cells : list cell)
| Hypercube (d : nat).

Fixpoint cell_eqb (a b : cell) : bool :=
  match a, b with
  | Simplex x, Simplex y => Nat.eqb x y
  | Hypercube x, Hypercube y => Nat.eqb x y
  | TPCell xs, TPCell ys =>
      (fix go (xs ys : list cell) : bool :=
         match xs, ys with
         | [], [] => true
         | x :: xs', y :: ys' => cell_eqb x y && go xs' ys'
         | _, _ => false
         end) xs ys
  | _, _ => false
  end.

(** A dictionary [dim -> {entity number -> V}]. *)
Definition edict (V : Type) := list (dimkey * list (nat * V)).

(** [binom n k]. *)
Fixpoint binom (n k : nat) : nat :=
  match n, k with
  | _, 0 => 1
  | 0, S _ => 0
  | S n', S k' => binom n' k' + binom n' (S k')
  end.

(** Number of entities per dimension: the keys and lengths of
    [cell.get_topology()].  Entities of each dimension are numbered 0,1,...
    A simplex of dimension d has binom(d+1, k+1) entities of dimension k. *)
Definition simplex_topology (d : nat) : list (dimkey * nat) :=
  map (fun k => (DI k, binom (S d) (S k))) (seq 0 (S d)).

(** TensorProductCell: one key per tuple of factor keys, in product order. *)
Definition product_topology (ts : list (list (dimkey * nat))) : list (dimkey * nat) :=
  map (fun kns => (DT (map fst kns), prod (map snd kns))) (cart ts).

(** FIAT.reference_element.flatten_entities on a dictionary
    [dim -> {entity -> V}]: dimensions in sorted order, values in order of
    their entity number, concatenated per summed dimension and renumbered. *)
Definition flatten_step {V} (acc : list (dimkey * list V)) (item : dimkey * list (nat * V))
  : list (dimkey * list V) :=
  let fd := DI (dk_total (fst item)) in
  let old := match dict_get dimkey_eqb acc fd with Ok l => l | Err _ => [] end in
  dict_set dimkey_eqb acc fd
    (old ++ map snd (sorted (fun a b => fst a <=? fst b) (snd item))).

Definition flatten_entities {V} (d : edict V) : edict V :=
  map (fun kv => (fst kv, enumerate (snd kv)))
    (fold_left flatten_step (sorted (fun a b => dimkey_leb (fst a) (fst b)) d) []).

(** The entity numbers of a topology as a dictionary. *)
Definition topology_dict (t : list (dimkey * nat)) : edict nat :=
  map (fun kn => (fst kn, map (fun e => (e, e)) (seq 0 (snd kn)))) t.

Definition flatten_topology (t : list (dimkey * nat)) : list (dimkey * nat) :=
  map (fun kv => (fst kv, length (snd kv))) (flatten_entities (topology_dict t)).

(** [cell.get_topology()]. *)
Fixpoint topology (c : cell) : list (dimkey * nat) :=
  match c with
  | Simplex d => simplex_topology d
  | TPCell cs => product_topology (map topology cs)
  | Hypercube d => flatten_topology (product_topology (repeat (simplex_topology 1) d))
  end.

(** [cell.get_dimension()]. *)
Fixpoint get_dimension (c : cell) : dimkey :=
  match c with
  | Simplex d => DI d
  | TPCell cs => DT (map get_dimension cs)
  | Hypercube d => DI d
  end.

(** [cell.get_spatial_dimension()]. *)
Fixpoint spatial_dimension (c : cell) : nat :=
  match c with
  | Simplex d => d
  | TPCell cs => sum (map spatial_dimension cs)
  | Hypercube d => d
  end.

(** [cell.get_shape() == LINE]. *)
Definition is_line (c : cell) : bool :=
  match c with Simplex 1 => true | _ => false end.

(** FIAT.reference_element.compute_unflattening_map: flat entity -> product
    entity; one running counter per summed dimension. *)
Definition unflatten_step (acc : list (nat * nat) * list ((nat * nat) * (dimkey * nat)))
    (item : dimkey * nat) : list (nat * nat) * list ((nat * nat) * (dimkey * nat)) :=
  let fd := dk_total (fst item) in
  let c0 := match dict_get Nat.eqb (fst acc) fd with Ok n => n | Err _ => 0 end in
  (dict_set Nat.eqb (fst acc) fd (c0 + snd item),
   snd acc ++ map (fun e => ((fd, c0 + e), (fst item, e))) (seq 0 (snd item))).

Definition compute_unflattening_map (t : list (dimkey * nat))
  : list ((nat * nat) * (dimkey * nat)) :=
  snd (fold_left unflatten_step (sorted (fun a b => dimkey_leb (fst a) (fst b)) t) ([], [])).

Definition pair_eqb (a b : nat * nat) : bool :=
  Nat.eqb (fst a) (fst b) && Nat.eqb (snd a) (snd b).
