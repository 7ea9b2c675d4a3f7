(** Shared vocabulary of the model: Python exceptions as values, the few
    builtins of Python/itertools/numpy that the modelled code uses.  Nothing
    in this file models a function of FInAT itself. *)
From Coq Require Import List Arith Lia Bool String.
Import ListNotations.

(** Exception classes that the modelled code can raise. *)
Inductive exn :=
| ValueError | TypeError | KeyError | IndexError | AssertionError
| NotImplementedError | AttributeError | ZeroDivisionError.

(** A Python call returns a value or raises. *)
Inductive result (A : Type) := Ok (a : A) | Err (e : exn).
Arguments Ok {A} a.
Arguments Err {A} e.

Definition bind {A B} (r : result A) (f : A -> result B) : result B :=
  match r with Ok a => f a | Err e => Err e end.

Declare Scope result_scope.
Delimit Scope result_scope with result.
Notation "'do' x <- r ;; k" := (bind r (fun x => k))
  (at level 200, x pattern, r at level 100, k at level 200) : result_scope.
Notation "'do!' c ;; k" := (bind c (fun _ : unit => k))
  (at level 200, c at level 100, k at level 200) : result_scope.
Open Scope result_scope.

(** [assert c] and [if not c: raise e]. *)
Definition guard (c : bool) (e : exn) : result unit :=
  if c then Ok tt else Err e.

(** A comprehension [[f x for x in l]] where [f] can raise: the first
    exception in list order propagates. *)
Section MapM.
  Context {A B : Type} (f : A -> result B).
  Fixpoint mapM (l : list A) : result (list B) :=
    match l with
    | [] => Ok []
    | x :: r => do y <- f x ;; do ys <- mapM r ;; Ok (y :: ys)
    end.
End MapM.

(** The list of values when every member is a value. *)
Definition sequence {A} (l : list (result A)) : result (list A) :=
  mapM (fun x => x) l.

Definition is_ok {A} (r : result A) : bool :=
  match r with Ok _ => true | Err _ => false end.

(** [numpy.prod] of a tuple of extents; the product of [()] is 1. *)
Fixpoint prod (l : list nat) : nat :=
  match l with [] => 1 | d :: r => d * prod r end.

(** [sum]. *)
Fixpoint sum (l : list nat) : nat :=
  match l with [] => 0 | d :: r => d + sum r end.

(** [itertools.product( *ls )]: the last position varies fastest. *)
Fixpoint cart {A} (ls : list (list A)) : list (list A) :=
  match ls with
  | [] => [[]]
  | l :: r => flat_map (fun x => map (cons x) (cart r)) l
  end.

(** [zip(a, b)]: stops at the shorter argument. *)
Fixpoint zip {A B} (a : list A) (b : list B) : list (A * B) :=
  match a, b with
  | x :: a', y :: b' => (x, y) :: zip a' b'
  | _, _ => []
  end.

(** [map(f, a, b)] on two lists, stopping at the shorter. *)
Fixpoint map2 {A B C} (f : A -> B -> C) (a : list A) (b : list B) : list C :=
  match a, b with
  | x :: a', y :: b' => f x y :: map2 f a' b'
  | _, _ => []
  end.

(** [enumerate(l)] starting at [k]. *)
Fixpoint enumerate_from {A} (k : nat) (l : list A) : list (nat * A) :=
  match l with [] => [] | x :: r => (k, x) :: enumerate_from (S k) r end.
Definition enumerate {A} (l : list A) : list (nat * A) := enumerate_from 0 l.

(** [numpy.cumsum([a] + l)]. *)
Fixpoint cumsum_from (a : nat) (l : list nat) : list nat :=
  match l with [] => [a] | x :: r => a :: cumsum_from (a + x) r end.
Definition cumsum0 (l : list nat) : list nat := cumsum_from 0 l.

(** [numpy.ravel_multi_index] for one multi-index in C order: the number is
    the sum of index times stride; out-of-range components and a wrong number
    of components raise [ValueError].  Simplification: numpy also refuses an
    empty [dims]; modelled as [ValueError] too. *)
Fixpoint ravel_strides (shape idx : list nat) : result nat :=
  match shape, idx with
  | [], [] => Ok 0
  | d :: s, i :: r =>
      if i <? d then do n <- ravel_strides s r ;; Ok (i * prod s + n)
      else Err ValueError
  | _, _ => Err ValueError
  end.
Definition ravel_multi_index (shape idx : list nat) : result nat :=
  match shape with [] => Err ValueError | _ => ravel_strides shape idx end.

(** [numpy.unravel_index(n, shape)] in C order; out-of-range raises. *)
Fixpoint unravel_digits (shape : list nat) (n : nat) : list nat :=
  match shape with
  | [] => []
  | d :: s => n / prod s :: unravel_digits s (n mod prod s)
  end.
Definition unravel_index (shape : list nat) (n : nat) : result (list nat) :=
  if n <? prod shape then Ok (unravel_digits shape n) else Err ValueError.

(** Python dictionaries as association lists in insertion order. *)
Section Dict.
  Context {K V : Type} (eqb : K -> K -> bool).

  (** [d[k]] *)
  Fixpoint dict_get (d : list (K * V)) (k : K) : result V :=
    match d with
    | [] => Err KeyError
    | (k', v) :: r => if eqb k k' then Ok v else dict_get r k
    end.

  (** [k in d] *)
  Fixpoint dict_mem (d : list (K * V)) (k : K) : bool :=
    match d with
    | [] => false
    | (k', _) :: r => eqb k k' || dict_mem r k
    end.

  (** [d[k] = v] *)
  Fixpoint dict_set (d : list (K * V)) (k : K) (v : V) : list (K * V) :=
    match d with
    | [] => [(k, v)]
    | (k', v') :: r => if eqb k k' then (k', v) :: r else (k', v') :: dict_set r k v
    end.
End Dict.

(** [sorted(l)] for a total preorder given by a boolean "less or equal":
    insertion sort, which is stable like Python's sort. *)
Section Sorting.
  Context {A : Type} (leb : A -> A -> bool).
  Fixpoint insert (x : A) (l : list A) : list A :=
    match l with
    | [] => [x]
    | y :: r => if leb x y then x :: l else y :: insert x r
    end.
  Fixpoint sorted (l : list A) : list A :=
    match l with [] => [] | x :: r => insert x (sorted r) end.
End Sorting.

(** Python's [<=] on tuples of ints. *)
Fixpoint tuple_leb (a b : list nat) : bool :=
  match a, b with
  | [], _ => true
  | _ :: _, [] => false
  | x :: a', y :: b' => if x <? y then true else if y <? x then false else tuple_leb a' b'
  end.

(** [x, = set(l)] for values compared by [eqb]: [ValueError] unless the list
    is non-empty and all members are equal. *)
Definition unique {A} (eqb : A -> A -> bool) (l : list A) : result A :=
  match l with
  | [] => Err ValueError
  | x :: r => if forallb (eqb x) r then Ok x else Err ValueError
  end.

(** Equality tests. *)
Fixpoint list_eqb {A} (eqb : A -> A -> bool) (a b : list A) : bool :=
  match a, b with
  | [], [] => true
  | x :: a', y :: b' => eqb x y && list_eqb eqb a' b'
  | _, _ => false
  end.

(** [FIAT.polynomial_set.mis(m, n)] (external; its behaviour is its
    docstring's: all m-tuples of non-negative integers that sum to n, first
    component descending).  [mis(1, n) = [(n,)]], [mis(m, 0) = [(0,)*m]]; FIAT's
    recursion does not terminate for m = 0 and n > 0, modelled by []. *)
Fixpoint mis (m n : nat) : list (list nat) :=
  match m with
  | 0 => match n with 0 => [[]] | _ => [] end
  | 1 => [[n]]
  | S m' => flat_map (fun i => map (cons (n - i)) (mis m' i)) (seq 0 (S n))
  end.
