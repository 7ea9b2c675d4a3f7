(** What the attributes of composite elements should be. *)
From Coq Require Import String List ZArith Bool.
From Verif Require Import Model.Prelude Model.Registry Model.UflElement Spec.UflElement.
Import ListNotations.
Open Scope string_scope.

(** All members are the same; the members that are defined. *)
Definition all_equal {A} (l : list A) : Prop := forall x y, In x l -> In y l -> x = y.
Fixpoint defined {A} (l : list (option A)) : list A :=
  match l with [] => [] | None :: l => defined l | Some x :: l => x :: defined l end.

(** ** Python's order of ints and tuples *)

(** Strictly below: as numbers; as tuples, by the first entries that differ, or being shorter. *)
Inductive below : udeg -> udeg -> Prop :=
| below_int x y : (x < y)%Z -> below (DInt x) (DInt y)
| below_prefix l x m : below (DTuple l) (DTuple (l ++ x :: m))
| below_entry l x y a b : below x y -> below (DTuple (l ++ x :: a)) (DTuple (l ++ y :: b)).
(** The comparison does not raise. *)
Inductive comparable : udeg -> udeg -> Prop :=
| cmp_int x y : comparable (DInt x) (DInt y)
| cmp_shorter l m : comparable (DTuple l) (DTuple (l ++ m))
| cmp_longer l m : comparable (DTuple (l ++ m)) (DTuple l)
| cmp_entry l x y a b : x <> y -> comparable x y -> comparable (DTuple (l ++ x :: a)) (DTuple (l ++ y :: b)).
Definition topmost (l : list udeg) (d : udeg) : Prop := In d l /\ forall x, In x l -> ~ below d x.

(** ** The degree of a sum *)
Definition ints_of (l : list udeg) : list Z :=
  flat_map (fun d => match d with DInt z => [z] | _ => [] end) l.
Definition int_or_none (d : udeg) : Prop := match d with DTuple _ => False | _ => True end.

(** With a number first: the greatest number, entries without a degree left aside.  With a
    tuple first: the tuple of the topmost entries, as long as the shortest tuple. *)
Inductive sum_degree : list udeg -> udeg -> Prop :=
| sd_int x ds z : Forall int_or_none ds -> greatest (x :: ints_of ds) z -> sum_degree (DInt x :: ds) (DInt z)
| sd_tuple l0 rows l :
    (forall i, i < length l -> exists col, Forall2 (fun row x => nth_error row i = Some x) (l0 :: rows) col /\
                                      exists d, nth_error l i = Some d /\ topmost col d) ->
    (exists row, In row (l0 :: rows) /\ length row = length l) ->
    sum_degree (map DTuple (l0 :: rows)) (DTuple l).
(** Degrees that can be added. *)
Inductive summable : list udeg -> Prop :=
| sm_int x ds : Forall int_or_none ds -> summable (DInt x :: ds)
| sm_tuple l0 rows :
    (forall i r r' x y, In r (l0 :: rows) -> In r' (l0 :: rows) -> nth_error r i = Some x -> nth_error r' i = Some y -> comparable x y) ->
    summable (map DTuple (l0 :: rows)).

(** ** The degree of a mixed element *)

(** The entry of a degree in direction [i]: numbers and tuples of length one have the same in
    all directions. *)
Inductive entry (i : nat) : udeg -> Z -> Prop :=
| en_int z : entry i (DInt z) z
| en_one z : entry i (DTuple [DInt z]) z
| en_nth l z : nth_error l i = Some (DInt z) -> entry i (DTuple l) z.
Definition is_int (d : udeg) : Prop := exists z, d = DInt z.
(** Tuples of numbers of the length [n] or one, and numbers. *)
Definition of_length (n : nat) (d : udeg) : Prop :=
  match d with
  | DNone => False
  | DInt _ => True
  | DTuple l => Forall is_int l /\ (length l = n \/ length l = 1)
  end.
Inductive mixed_degree : list udeg -> udeg -> Prop :=
| md_none : mixed_degree [] DNone
| md_int zs z : greatest zs z -> mixed_degree (map DInt zs) (DInt z)
| md_tuple ds zs : (exists l, In (DTuple l) ds /\ length l = length zs) -> Forall (of_length (length zs)) ds ->
    (forall i z, nth_error zs i = Some z -> exists col, Forall2 (entry i) ds col /\ greatest col z) ->
    mixed_degree ds (DTuple (map DInt zs)).
Definition given (l : list udeg) : list udeg :=
  flat_map (fun d => match d with DNone => [] | _ => [d] end) l.
(** Degrees that can be mixed. *)
Definition mixable (ds : list udeg) : Prop := exists n, Forall (of_length n) ds.

(** The number at a place in nested tuples. *)
Inductive number_at : list nat -> udeg -> Z -> Prop :=
| num_here z : number_at [] (DInt z) z
| num_inside i p l d z : nth_error l i = Some d -> number_at p d z -> number_at (i :: p) (DTuple l) z.

(** Numbers and tuples of numbers. *)
Definition flat (d : udeg) : Prop := match d with DNone => False | DInt _ => True | DTuple l => Forall is_int l end.
Definition flat_or_none (d : udeg) : Prop := match d with DTuple l => Forall is_int l | _ => True end.

(** ** Shapes *)
Definition size (shape : list nat) : nat := fold_right Nat.mul 1 shape.
Definition total_size (l : list (list nat)) : nat := fold_right (fun s n => size s + n) 0 l.
