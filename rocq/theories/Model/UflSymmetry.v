(** Symmetries and components of values of symbolic elements, finat/ufl/mixedelement.py. *)
From Coq Require Import String List ZArith Bool.
From Verif Require Import Model.Prelude Model.Registry Model.UflElement Model.UflOperators.
Import ListNotations.

(** ufl.utils.indexflattening.flatten_multiindex (external): the loop runs over the
    strides. *)
Fixpoint flatten_multiindex (ii strides : list nat) : result nat :=
  match strides with
  | [] => Ok 0
  | s :: r =>
      match ii with
      | [] => Err IndexError
      | i :: ii => do n <- flatten_multiindex ii r ;; Ok (s * i + n)
      end
  end.

(** [e.symmetry()]: finat/ufl/finiteelementbase.py:134-142, finat/ufl/mixedelement.py:511-518,
    finat/ufl/restrictedelement.py:85-91.  Mixed and vector elements require a domain,
    finat/ufl/mixedelement.py:90, so that the call without one is an error. *)
Fixpoint u_symmetry (e : uel) : result symmetry :=
  match e with
  | UMixed _ _ | UVector _ _ _ => Err TypeError
  | UTensor _ _ _ sym _ _ => Ok sym
  | URestricted _ sub _ => u_symmetry sub
  | _ => Ok []
  end.

Section Symmetry.
  (** [e.value_shape(domain)] (external: AbstractFiniteElement of UFL). *)
  Variable value_shape : uel -> result (list nat).

  (** The inner loop, finat/ufl/mixedelement.py:104-108. *)
  Fixpoint add_symmetries (st : list nat) (j : nat) (sym : symmetry) (sm : symmetry) : result symmetry :=
    match sym with
    | [] => Ok sm
    | (c0, c1) :: r =>
        do a <- flatten_multiindex c0 st ;;
        do b <- flatten_multiindex c1 st ;;
        add_symmetries st j r (dict_set (list_eqb Nat.eqb) sm [a + j] [b + j])
    end.
  (** The outer loop, finat/ufl/mixedelement.py:98-110. *)
  Fixpoint all_symmetries (subs : list uel) (j : nat) (sm : symmetry) : result (symmetry * nat) :=
    match subs with
    | [] => Ok (sm, j)
    | e :: r =>
        do sh <- value_shape e ;;
        do sym <- u_symmetry e ;;
        do sm <- add_symmetries (shape_to_strides sh) j sym sm ;;
        all_symmetries r (j + prod sh) sm
    end.
  (** MixedElement.symmetry, finat/ufl/mixedelement.py:90-114; VectorElement inherits it.  The
      other classes take no domain. *)
  Definition mixed_symmetry (e : uel) : result symmetry :=
    match e with
    | UMixed _ _ | UVector _ _ _ =>
        do smj <- all_symmetries (u_subs e) 0 [] ;;
        let (sm, j) := (smj : symmetry * nat) in
        do sh <- value_shape e ;;
        do! guard (Nat.eqb j (prod sh)) ValueError ;;
        Ok sm
    | _ => Err TypeError
    end.
End Symmetry.

(** [e.extract_component(i)] with one argument, as called in finat/ufl/mixedelement.py:225, 233.
    MixedElement.extract_component (finat/ufl/mixedelement.py:175-181) calls
    extract_subelement_component with the component alone: for mixed and vector elements
    (finat/ufl/mixedelement.py:138) that is taken for the domain and the component is missing;
    for tensor elements (finat/ufl/mixedelement.py:493-501) the domain is missing in the call of
    [_check_component(domain, i)], finat/ufl/finiteelementbase.py:144.  What comes after is not
    reached. *)
Definition extract_component (e : uel) (i : list Z) : result (list Z * uel) := Err TypeError.

(** [e.degree(component)]: finat/ufl/finiteelementbase.py:107-109, finat/ufl/mixedelement.py:228-234. *)
Definition component_degree (e : uel) (component : option (list Z)) : result udeg :=
  match e with
  | UMixed _ _ | UVector _ _ _ | UTensor _ _ _ _ _ _ =>
      match component with
      | None => Ok (u_degree e)
      | Some c => do ie <- extract_component e c ;; Ok (u_degree (snd ie))
      end
  | _ => Ok (u_degree e)
  end.

(** [e.is_cellwise_constant(component)]: finat/ufl/finiteelementbase.py:120-122,
    finat/ufl/mixedelement.py:220-226; enriched and restricted elements take no component,
    finat/ufl/enrichedelement.py:114, 140, finat/ufl/restrictedelement.py:51. *)
Definition component_constant (e : uel) (component : list Z) : result bool :=
  match e with
  | UMixed _ _ | UVector _ _ _ | UTensor _ _ _ _ _ _ =>
      do ie <- extract_component e component ;; Ok (cellwise_constant (snd ie))
  | UEnriched _ _ _ | URestricted _ _ _ => Err TypeError
  | _ => Ok (cellwise_constant e)
  end.
