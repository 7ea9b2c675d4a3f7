(** Restriction of elements to entities, finat/restricted.py. *)
From Coq Require Import String List Arith ZArith Bool.
From Verif Require Import Model.Prelude Model.Cell Model.Element.
Import ListNotations.
Local Open Scope nat_scope.

(** What the function [restrict] can return: the sentinel [null_element]
    (finat/restricted.py:13), an object that is not an element - an exception
    instance (finat/restricted.py:29) or an EnrichedElement or
    TensorFiniteElement around one -, or an element. *)
Inductive robj (F : Type) := RNull | RBad | RElt (e : elt F).
Arguments RNull {F}. Arguments RBad {F}. Arguments RElt {F}.

(** r_to_codim, finat/restricted.py:119-131. *)
Definition r_to_codim (restriction : string) (dim : Z) : result Z :=
  if String.eqb restriction "interior" then Ok 0%Z
  else if String.eqb restriction "facet" then Ok 1%Z
  else if String.eqb restriction "face" then Ok (dim - 2)%Z
  else if String.eqb restriction "edge" then Ok (dim - 1)%Z
  else if String.eqb restriction "vertex" then Ok dim
  else Err ValueError.

(** codim_to_r, finat/restricted.py:134-147. *)
Definition codim_to_r (codim dim : Z) : result string :=
  let d := (dim - codim)%Z in
  if Z.eqb codim 0 then Ok "interior"%string
  else if Z.eqb codim 1 then Ok "facet"%string
  else if Z.eqb d 0 then Ok "vertex"%string
  else if Z.eqb d 1 then Ok "edge"%string
  else if Z.eqb d 2 then Ok "face"%string
  else Err ValueError.

(** FIAT's [mis] called with an int that may be negative (external):
    [mis(1, n) = [(n,)]] before [n] is looked at, otherwise a negative [n]
    gives an empty range. *)
Definition misZ (m : nat) (n : Z) : list (list Z) :=
  if Z.ltb n 0 then match m with 1 => [[n]] | _ => [] end
  else map (map Z.of_nat) (mis m (Z.to_nat n)).

(** [range(a, b)]. *)
Definition rangeZ (a b : Z) : list Z :=
  map (fun i => (a + Z.of_nat i)%Z) (seq 0 (Z.to_nat (b - a))).

(** [all(d <= factor.cell.get_dimension() for ...)], finat/restricted.py:179-180:
    comparing an int with a tuple raises TypeError. *)
Fixpoint all_within (candidate : list Z) (dims : list dimkey) : result bool :=
  match candidate, dims with
  | d :: r, DI n :: dims' => if Z.leb d (Z.of_nat n) then all_within r dims' else Ok false
  | _ :: _, DT _ :: _ => Err TypeError
  | _, _ => Ok true
  end.

(** A comprehension's [if] clause that can raise. *)
Fixpoint filterM {A} (p : A -> result bool) (l : list A) : result (list A) :=
  match l with
  | [] => Ok []
  | x :: r => do b <- p x ;; do r' <- filterM p r ;; Ok (if b then x :: r' else r')
  end.

Section Map2M.
  Context {A B C : Type} (f : A -> B -> result C).
  (** A comprehension over [zip(a, b)]. *)
  Fixpoint map2M (a : list A) (b : list B) : result (list C) :=
    match a, b with
    | x :: a', y :: b' => do z <- f x y ;; do zs <- map2M a' b' ;; Ok (z :: zs)
    | _, _ => Ok []
    end.
End Map2M.

Section Restrict.
  Context {F : Type}.
  Local Notation elt := (elt F).

  (** [FIAT.RestrictedElement(element, restriction_domain=domain,
      take_closure=take_closure)] (external): an element or an exception. *)
  Context (fiat_restrict : leaf F -> string -> bool -> result (leaf F)).

  Definition is_mixed_sub (e : elt) : bool := match e with EMixedSub _ _ _ => true | _ => false end.
  Definition is_null (r : robj F) : bool := match r with RNull => true | _ => false end.
  Definition is_bad (r : robj F) : bool := match r with RBad => true | _ => false end.
  Definition elts_of (rs : list (robj F)) : list elt :=
    flat_map (fun r => match r with RElt e => [e] | _ => [] end) rs.

  (** [try: FiatElement(FIAT.RestrictedElement(...)) except ValueError:
      return null_element], finat/restricted.py:34-38, 210-214. *)
  Definition or_null (r : result (leaf F)) : result (robj F) :=
    match r with
    | Ok l => Ok (RElt (ELeaf l))
    | Err ValueError => Ok RNull
    | Err e => Err e
    end.

  (** Reading an attribute of the elements of a constructor's argument: an
      exception instance has none of them. *)
  Definition need_elts (rs : list (robj F)) : result (list elt) :=
    mapM (fun r => match r with RElt e => Ok e | _ => Err AttributeError end) rs.

  (** EnrichedElement on a list that may contain exception instances
      (finat/enriched.py:17-24): it looks into none of its members. *)
  Definition enriched_of (rs : list (robj F)) : robj F :=
    if existsb is_bad rs then RBad else RElt (mk_enriched (elts_of rs)).

  (** The body of restrict_hdiv and restrict_hcurl after the recursive call,
      finat/restricted.py:91-98, 104-111.  A wrapper constructor refuses what is
      not a TensorProductElement. *)
  Definition rewrap (wrap : elt -> result elt) (restricted : robj F) : result (robj F) :=
    match restricted with
    | RNull => Ok RNull
    | RBad => Err AssertionError
    | RElt (EEnriched es) => do ws <- mapM wrap es ;; Ok (RElt (mk_enriched ws))
    | RElt e => do w <- wrap e ;; Ok (RElt w)
    end.

  (** The last three lines of restrict_enriched, finat/restricted.py:81-85. *)
  Definition regroup (reconstruct : list (robj F) -> result (robj F)) (rs : list (robj F)) : result (robj F) :=
    match filter (fun r => negb (is_null r)) rs with
    | [] => Ok RNull
    | rs' => reconstruct rs'
    end.

  (** The decompositions of restrict_tpe, finat/restricted.py:166-180. *)
  Definition decompositions (dim : nat) (dims : list dimkey) (domain : string) (take_closure : bool)
    : result (list (list Z)) :=
    do codim <- r_to_codim domain (Z.of_nat dim) ;;
    let upper := (1 + (if take_closure && negb (String.eqb domain "interior") then Z.of_nat dim else codim))%Z in
    filterM (fun candidate => all_within candidate dims)
      (flat_map (misZ (length dims)) (rangeZ codim upper)).

  (** [codim_to_r(codim, factor.cell.get_dimension())]; arithmetic with a tuple
      raises TypeError. *)
  Definition factor_domain (codim : Z) (dim : dimkey) : result string :=
    match dim with DI n => codim_to_r codim (Z.of_nat n) | DT _ => Err TypeError end.

  (** [restrict], finat/restricted.py:16-214, by element class: the default
      29, FiatElement 32-38, PhysicallyMappedElement 41-43,
      FlattenedDimensions 46-52, DiscontinuousElement and discontinuous leaves
      55-62, EnrichedElement 65-85, HCurlElement 88-98, HDivElement 101-111,
      MixedSubElement 114-116, TensorProductElement 150-197,
      TensorFiniteElement 200-206, HDivTrace 209-214 (which calls FIAT with the
      closure FIAT takes by default).
      Simplification: [TensorFiniteElement(RBad, ...)] is counted as an object
      that is not an element. *)
  Fixpoint restrict (e : elt) (domain : string) (take_closure : bool) : result (robj F) :=
    match e with
    | ELeaf l =>
        match lf_kind l with
        | KFiat => or_null (fiat_restrict l domain take_closure)
        | KHDivTrace => or_null (fiat_restrict l domain true)
        | KPhysicallyMapped => Err NotImplementedError
        | KDiscontinuous => Ok (if String.eqb domain "interior" then RElt e else RNull)
        | KOther => Ok RBad
        end
    | ETensorProduct fs =>
        do c <- cell_of e ;;
        do cs <- mapM cell_of fs ;;
        let dims := map get_dimension cs in
        do decs <- decompositions (spatial_dimension c) dims domain take_closure ;;
        do elements <-
          mapM (fun dec =>
            do rs <- map2M (fun f cd => do r <- factor_domain (fst cd) (snd cd) ;; restrict f r false)
                       fs (zip dec dims) ;;
            if existsb is_null rs then Ok []
            else do es <- need_elts rs ;; do t <- mk_tensor_product es ;; Ok [t]) decs ;;
        match concat elements with
        | [] => Ok RNull
        | es => Ok (RElt (mk_enriched es))
        end
    | ETensor b shape tr =>
        do r <- restrict b domain take_closure ;;
        match r with
        | RNull => Ok RNull
        | RBad => Ok RBad
        | RElt b' => Ok (RElt (ETensor b' shape tr))
        end
    | EEnriched es =>
        if forallb is_mixed_sub es then
          do rs <- mapM (fun e' => match e' with
                                   | EMixedSub x _ _ => restrict x domain take_closure
                                   | _ => Err AttributeError
                                   end) es ;;
          regroup (fun rs' => do xs <- need_elts rs' ;; do m <- mk_mixed xs ;; Ok (RElt m)) rs
        else if negb (existsb is_mixed_sub es) then
          do rs <- mapM (fun e' => restrict e' domain take_closure) es ;;
          regroup (fun rs' => Ok (enriched_of rs')) rs
        else Err NotImplementedError
    | EMixedSub _ _ _ => Err AssertionError
    | EFlattened p =>
        do r <- restrict p domain take_closure ;;
        match r with
        | RNull => Ok RNull
        | RBad => Err AttributeError
        | RElt p' => do x <- mk_flattened p' ;; Ok (RElt x)
        end
    | EDiscontinuous _ => Ok (if String.eqb domain "interior" then RElt e else RNull)
    | EHDiv w => do r <- restrict w domain take_closure ;; rewrap mk_hdiv r
    | EHCurl w => do r <- restrict w domain take_closure ;; rewrap mk_hcurl r
    end.

  (** RestrictedElement, finat/restricted.py:217-247.  [restriction_domain] and
      [indices] are [None] or given; of [indices] only that matters. *)
  Definition RestrictedElement (element : elt) (restriction_domain : option string) (indices : bool)
    : result (robj F) :=
    do! guard (negb indices) NotImplementedError ;;
    match restriction_domain with
    | None => Err AssertionError
    | Some domain =>
        do r <- restrict element domain true ;;
        match r with RNull => Err ValueError | _ => Ok r end
    end.
End Restrict.
