(** GEM expressions (external package [gem]) as an abstract syntax tree with
    the assertions of GEM's node constructors and the meaning of each node.
    GEM also simplifies while it builds (zero and constant folding, unrolling
    of sums of extent one); that changes neither the shape nor the meaning and
    is not modelled.  Nothing in this file models a function of FInAT. *)
From Coq Require Import String List Arith Bool.
From Verif Require Import Model.Prelude.
Import ListNotations.

(** Scalars.  Floating-point numbers are idealised: any type with these
    operations.  [fclose0] is [numpy.allclose(x, 0.0)]. *)
Record ops (F : Type) := mkOps {
  f0 : F; f1 : F;
  fadd : F -> F -> F; fmul : F -> F -> F; fsub : F -> F -> F; fopp : F -> F;
  fdiv : F -> F -> F;
  fclose0 : F -> bool
}.
Arguments f0 {F}. Arguments f1 {F}. Arguments fadd {F}. Arguments fmul {F}.
Arguments fsub {F}. Arguments fopp {F}. Arguments fdiv {F}. Arguments fclose0 {F}.

(** numpy arrays: a shape and the entries in C (row-major) order. *)
Record arr (F : Type) := mkArr { a_shape : list nat; a_data : list F }.
Arguments mkArr {F}. Arguments a_shape {F}. Arguments a_data {F}.

(** gem.Index objects: an identity and an extent.  Two objects are the same
    index exactly if they have the same identity. *)
Definition ix : Type := nat * nat.
Definition ix_id (i : ix) : nat := fst i.
Definition ix_extent (i : ix) : nat := snd i.

(** Members of the multi-index of [gem.Indexed] and arguments of
    [gem.Delta]: an Index or an int. *)
Inductive gidx := IFree (i : ix) | IFixed (k : nat).

(** [GFunction] stands for [gem.Power], [MathFunction], [Comparison],
    [LogicalNot], [LogicalOr], [LogicalAnd] and [Conditional] of scalars: a
    function of the values of its operands. *)
Inductive gem (F : Type) :=
| GZero (sh : list nat)
| GLiteral (a : arr F)
| GVariable (name : string) (sh : list nat)
| GSum (a b : gem F)
| GProduct (a b : gem F)
| GDivision (a b : gem F)
| GIndexed (a : gem F) (mi : list gidx)
| GComponentTensor (a : gem F) (mi : list ix)
| GIndexSum (a : gem F) (mi : list ix)
| GListTensor (sh : list nat) (l : list (gem F))
| GDelta (i j : gidx)
| GConcatenate (l : list (gem F))
| GFunction (f : list F -> F) (l : list (gem F)).
Arguments GZero {F}. Arguments GLiteral {F}. Arguments GVariable {F}. Arguments GSum {F}.
Arguments GProduct {F}. Arguments GDivision {F}. Arguments GIndexed {F}.
Arguments GComponentTensor {F}. Arguments GIndexSum {F}. Arguments GListTensor {F}.
Arguments GDelta {F}. Arguments GConcatenate {F}. Arguments GFunction {F}.

(** Identities of the free indices in a multi-index. *)
Definition mi_ids (mi : list gidx) : list nat :=
  flat_map (fun i => match i with IFree x => [ix_id x] | IFixed _ => [] end) mi.
Definition remove_ids (l ids : list nat) : list nat :=
  filter (fun x => negb (existsb (Nat.eqb x) ids)) l.

Section Gem.
  Context {F : Type}.
  Local Notation gem := (gem F).

  (** [node.shape]. *)
  Fixpoint gshape (g : gem) : list nat :=
    match g with
    | GZero sh => sh
    | GLiteral a => a_shape a
    | GVariable _ sh => sh
    | GSum _ _ | GProduct _ _ | GDivision _ _ | GIndexed _ _ | GIndexSum _ _ | GDelta _ _ | GFunction _ _ => []
    | GComponentTensor _ mi => map ix_extent mi
    | GListTensor sh _ => sh
    | GConcatenate l => [sum (map (fun c => prod (gshape c)) l)]
    end.

  (** [node.free_indices], by identity (repetitions allowed). *)
  Fixpoint gfree (g : gem) : list nat :=
    match g with
    | GZero _ | GLiteral _ | GVariable _ _ => []
    | GSum a b | GProduct a b | GDivision a b => gfree a ++ gfree b
    | GIndexed a mi => gfree a ++ mi_ids mi
    | GComponentTensor a mi => remove_ids (gfree a) (map ix_id mi)
    | GIndexSum a mi => remove_ids (gfree a) (map ix_id mi)
    | GListTensor _ l => flat_map gfree l
    | GDelta i j => mi_ids [i; j]
    | GConcatenate l | GFunction _ l => flat_map gfree l
    end.

  (** Constructors with their assertions.  [Sum], [Product] and [Division]:
      [assert not a.shape]. *)
  Definition scalarb (g : gem) : bool := match gshape g with [] => true | _ => false end.
  Definition mk_sum (a b : gem) : result gem :=
    do! guard (scalarb a && scalarb b) AssertionError ;; Ok (GSum a b).
  Definition mk_product (a b : gem) : result gem :=
    do! guard (scalarb a && scalarb b) AssertionError ;; Ok (GProduct a b).
  Definition mk_division (a b : gem) : result gem :=
    do! guard (scalarb a && scalarb b) AssertionError ;; Ok (GDivision a b).

  (** [gem.Indexed]: as many indices as the shape has members; an Index must
      have the extent of its position ([Index.set_extent] raises ValueError), an
      int must be in range (IndexError). *)
  Fixpoint check_indices (sh : list nat) (mi : list gidx) : result unit :=
    match sh, mi with
    | [], [] => Ok tt
    | d :: sh', IFree i :: mi' =>
        do! guard (Nat.eqb (ix_extent i) d) ValueError ;; check_indices sh' mi'
    | d :: sh', IFixed k :: mi' =>
        do! guard (k <? d) IndexError ;; check_indices sh' mi'
    | _, _ => Err AssertionError
    end.
  Definition mk_indexed (a : gem) (mi : list gidx) : result gem :=
    do! guard (Nat.eqb (length (gshape a)) (length mi)) AssertionError ;;
    do! check_indices (gshape a) mi ;;
    Ok (GIndexed a mi).

  (** [gem.ComponentTensor], [gem.IndexSum]: scalar operand, all indices free
      in it. *)
  Definition subset_ids (a b : list nat) : bool := forallb (fun x => existsb (Nat.eqb x) b) a.
  Definition mk_component_tensor (a : gem) (mi : list ix) : result gem :=
    do! guard (scalarb a) AssertionError ;;
    do! guard (subset_ids (map ix_id mi) (gfree a)) AssertionError ;;
    Ok (GComponentTensor a mi).
  Definition mk_index_sum (a : gem) (mi : list ix) : result gem :=
    do! guard (scalarb a) AssertionError ;;
    do! guard (subset_ids (map ix_id mi) (gfree a)) AssertionError ;;
    Ok (GIndexSum a mi).

  (** [gem.ListTensor] of an array of scalars: [assert numpy.prod(shape)]. *)
  Definition mk_list_tensor (sh : list nat) (l : list gem) : result gem :=
    do! guard (negb (Nat.eqb (prod sh) 0)) AssertionError ;;
    do! guard (Nat.eqb (length l) (prod sh)) ValueError ;;
    do! guard (forallb scalarb l) AssertionError ;;
    Ok (GListTensor sh l).

  (** [reduce(gem.Product, l)]: TypeError on an empty sequence. *)
  Fixpoint reduce_from (acc : gem) (l : list gem) : result gem :=
    match l with
    | [] => Ok acc
    | x :: r => do acc' <- mk_product acc x ;; reduce_from acc' r
    end.
  Definition reduce_product (l : list gem) : result gem :=
    match l with [] => Err TypeError | x :: r => reduce_from x r end.

  (** Meaning.  [env] gives each free index a value, [vars] each variable its
      entries; the result is the entry at multi-index [idx]. *)
  Context (o : ops F).
  Definition arr_at (a : arr F) (idx : list nat) : F :=
    nth (match ravel_strides (a_shape a) idx with Ok n => n | Err _ => 0 end) (a_data a) (f0 o).

  Definition upd (env : nat -> nat) (i : ix) (v : nat) : nat -> nat :=
    fun x => if Nat.eqb x (ix_id i) then v else env x.
  (** Missing values count as 0 (multi-indices in well-formed expressions have
      the right length). *)
  Fixpoint upds (env : nat -> nat) (mi : list ix) (vs : list nat) : nat -> nat :=
    match mi with
    | [] => env
    | i :: mi' => upds (upd env i (hd 0 vs)) mi' (tl vs)
    end.
  Definition gidx_val (env : nat -> nat) (i : gidx) : nat :=
    match i with IFree x => env (ix_id x) | IFixed k => k end.
  Definition fsum (l : list F) : F := fold_right (fadd o) (f0 o) l.

  Context (vars : string -> list nat -> F).
  Fixpoint eval (g : gem) (env : nat -> nat) (idx : list nat) : F :=
    match g with
    | GZero _ => f0 o
    | GLiteral a => arr_at a idx
    | GVariable s _ => vars s idx
    | GSum a b => fadd o (eval a env []) (eval b env [])
    | GProduct a b => fmul o (eval a env []) (eval b env [])
    | GDivision a b => fdiv o (eval a env []) (eval b env [])
    | GIndexed a mi => eval a env (map (gidx_val env) mi)
    | GComponentTensor a mi => eval a (upds env mi idx) []
    | GIndexSum a mi =>
        fsum (map (fun vs => eval a (upds env mi vs) []) (cart (map (fun i => seq 0 (ix_extent i)) mi)))
    | GListTensor sh l =>
        nth (match ravel_strides sh idx with Ok n => n | Err _ => 0 end)
            (map (fun c => eval c env []) l) (f0 o)
    | GDelta i j => if Nat.eqb (gidx_val env i) (gidx_val env j) then f1 o else f0 o
    | GConcatenate l =>
        (fix go (l : list gem) (n : nat) : F :=
           match l with
           | [] => f0 o
           | c :: r =>
               let s := prod (gshape c) in
               if n <? s then eval c env (unravel_digits (gshape c) n) else go r (n - s)
           end) l (hd 0 idx)
    | GFunction f l => f (map (fun c => eval c env []) l)
    end.
End Gem.

(** Fresh indices: every [gem.Index(...)] call makes a new object; a counter
    hands out identities. *)
Definition fresh (A : Type) : Type := nat -> result (A * nat).
Definition fret {A} (a : A) : fresh A := fun n => Ok (a, n).
Definition flift {A} (r : result A) : fresh A := fun n => do a <- r ;; Ok (a, n).
Definition fbind {A B} (m : fresh A) (k : A -> fresh B) : fresh B :=
  fun n => match m n with Ok (a, n') => k a n' | Err e => Err e end.
Declare Scope fresh_scope.
Delimit Scope fresh_scope with fresh.
Notation "x <~ m ;; k" := (fbind m (fun x => k))
  (at level 199, m at level 100, k at level 200, right associativity) : fresh_scope.

(** [tuple(gem.Index(extent=d) for d in shape)], also [gem.indices]. *)
Definition new_indices (shape : list nat) : fresh (list ix) :=
  fun n => Ok (combine (seq n (length shape)) shape, n + length shape).

Section MapF.
  Context {A C : Type} (f : A -> fresh C).
  (** A comprehension with side effects. *)
  Fixpoint mapF (l : list A) : fresh (list C) :=
    match l with
    | [] => fret []
    | x :: r => fbind (f x) (fun y => fbind (mapF r) (fun ys => fret (y :: ys)))
    end.
End MapF.
Section Map2F.
  Context {A B C : Type} (f : A -> B -> fresh C).
  (** Over [zip(a, b)]. *)
  Fixpoint map2F (a : list A) (b : list B) : fresh (list C) :=
    match a, b with
    | x :: a', y :: b' => fbind (f x y) (fun z => fbind (map2F a' b') (fun zs => fret (z :: zs)))
    | _, _ => fret []
    end.
End Map2F.

(** [gem.partial_indexed(tensor, indices)]: index the leading axes and keep the
    others as shape. *)
Definition partial_indexed {F} (t : gem F) (indices : list ix) : fresh (gem F) :=
  let rank := length (gshape t) in
  let k := length indices in
  if k =? 0 then fret t
  else if rank <? k then fun _ => Err ValueError
  else if rank =? k then flift (mk_indexed t (map IFree indices))
  else fbind (new_indices (skipn k (gshape t))) (fun js =>
       flift (do x <- mk_indexed t (map IFree (indices ++ js)) ;; mk_component_tensor x js)).
