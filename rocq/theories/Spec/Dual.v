(** What dual bases have to deliver: each degree of freedom is a weighted sum of
    point values of components. *)
From Coq Require Import String List Arith.
From Verif Require Import Model.Prelude Model.Cell Model.Element Model.EntityMaps Model.Gem Model.PointSet Model.Dual.
From Verif Require Import Spec.Rowmajor Spec.EntityDofs Spec.Layout Spec.Tabulation Spec.Quadrature.
Import ListNotations.

(** A weight times one component of the value at one point. *)
Record term (F : Type) := mkTerm { t_w : F; t_pt : list F; t_cmp : list nat }.
Arguments mkTerm {F}. Arguments t_w {F}. Arguments t_pt {F}. Arguments t_cmp {F}.

Section Dual.
  Context {F : Type} (o : ops F) (vars : string -> list nat -> F).

  (** The functional applied to a function of point and component. *)
  Definition apply_terms (ts : list (term F)) (f : list F -> list nat -> F) : F :=
    fold_right (fadd o) (f0 o) (map (fun t => fmul o (t_w t) (f (t_pt t) (t_cmp t))) ts).

  (** The terms of a FIAT functional. *)
  Definition functional_terms (d : functional F) : list (term F) :=
    flat_map (fun pw => map (fun wc => mkTerm (fst wc) (fst pw) (snd wc)) (snd pw)) (fn_points d).

  (** The tensor [Q] contracted with the values of [f] at the points and in all
      components of shape [vsh], for dof [b]. *)
  Definition contract (ps : pset F) (vsh : list nat) (Q : gem F) (f : (nat -> nat) -> list nat -> F)
      (env : nat -> nat) (b : list nat) : F :=
    fold_right (fadd o) (f0 o)
      (map (fun e => fold_right (fadd o) (f0 o)
              (map (fun v => fmul o (eval o vars Q e (b ++ v)) (f e v)) (cart (map (seq 0) vsh))))
           (assignments ps env)).

  (** FIAT functionals as they come: only point values, no dictionary key
      twice, no component twice at one point, points of dimension [D],
      components of shape [vsh], all extents of which are used. *)
  Record functionals_ok (D : nat) (vsh : list nat) (ds : list (functional F)) : Prop := {
    fo_some : ds <> [];
    fo_derivs : forall d, In d ds -> fn_derivs d = false;
    fo_points : forall d, In d ds -> fn_points d <> [] /\ NoDup (map fst (fn_points d));
    fo_weights : forall d p ws, In d ds -> In (p, ws) (fn_points d) ->
      ws <> [] /\ NoDup (map snd ws) /\ length p = D /\ forall w c, In (w, c) ws -> in_shape vsh c;
    fo_extents : forall j k, nth_error vsh j = Some (S k) ->
      exists d p ws w c, In d ds /\ In (p, ws) (fn_points d) /\ In (w, c) ws /\ nth_error c j = Some k
  }.

  (** [Q] and [ps], made when the index counter went from [n] to [n'], are right
      for dofs of shape [ish] and values of shape [vsh]: the point set's indices
      are new, distinct, and the free ones of [Q]; and contracting [Q] applies
      the functional [spec] assigns to each dof. *)
  Definition dual_right (spec : list nat -> list (term F) -> Prop) (ish vsh : list nat)
      (Q : gem F) (ps : pset F) (n n' : nat) : Prop :=
    n <= n' /\ gshape Q = ish ++ vsh /\
    (forall x, In x (gfree Q) <-> In x (map ix_id (ps_indices ps))) /\
    ps_ok ps /\ distinct_indices ps /\ (forall i, In i (ps_indices ps) -> n <= ix_id i < n') /\
    forall b, in_shape ish b -> exists ts, spec b ts /\
      forall f env, contract ps vsh Q (fun e v => f (pt_at ps e) v) env b = apply_terms ts f.

  (* ---------------------------------------------------------------- *)
  (** ** The functionals of an element tree *)

  (** Functionals of separate coordinates, one after the other. *)
  Definition merge_terms (ts : list (term F)) : term F :=
    mkTerm (fold_right (fmul o) (f1 o) (map t_w ts)) (concat (map t_pt ts)) (concat (map t_cmp ts)).

  (** The functional of a component as functional of the embedded vector. *)
  Fixpoint embed_from (k : nat) (slots : list slot) (t : term F) : list (term F) :=
    match slots with
    | [] => []
    | SZero :: r => embed_from (S k) r t
    | SComp neg v :: r =>
        (if list_eq_dec Nat.eq_dec v (t_cmp t)
         then [mkTerm (if neg then fopp o (t_w t) else t_w t) (t_pt t) [k]] else [])
        ++ embed_from (S k) r t
    end.
  Definition embed_term (slots : list slot) (t : term F) : list (term F) := embed_from 0 slots t.

  (** [leaf_terms l b]: dof [b] of leaf [l]. *)
  Context (leaf_terms : leaf F -> list nat -> list (term F)).

  (** [dual_of e b ts]: degree of freedom [b] of [e] is the sum of [ts]. *)
  Inductive dual_of : elt F -> list nat -> list (term F) -> Prop :=
  | du_leaf : forall l b, dual_of (ELeaf l) b (leaf_terms l b)
  | du_product : forall fs bs tss, duals_of fs bs tss ->
      dual_of (ETensorProduct fs) (concat bs) (map merge_terms (cart tss))
  | du_tensor : forall e shape (tr : bool) i s ts,
      dual_of e i ts -> in_shape (index_shape e) i -> in_shape shape s ->
      dual_of (ETensor e shape tr) (if tr then s ++ i else i ++ s)
        (map (fun t => mkTerm (t_w t) (t_pt t) (s ++ t_cmp t)) ts)
  | du_flattened : forall p b ts, dual_of p b ts -> dual_of (EFlattened p) b ts
  | du_discontinuous : forall e b ts, dual_of e b ts -> dual_of (EDiscontinuous e) b ts
  | du_hdiv : forall w slots b ts, embeds hdiv_case w slots -> dual_of w b ts ->
      dual_of (EHDiv w) b (flat_map (embed_term slots) ts)
  | du_hcurl : forall w slots b ts, embeds hcurl_case w slots -> dual_of w b ts ->
      dual_of (EHCurl w) b (flat_map (embed_term slots) ts)
  with duals_of : list (elt F) -> list (list nat) -> list (list (term F)) -> Prop :=
  | dus_nil : duals_of [] [] []
  | dus_cons : forall e es b bs ts tss,
      dual_of e b ts -> in_shape (index_shape e) b -> duals_of es bs tss ->
      duals_of (e :: es) (b :: bs) (ts :: tss).

  (** No sum and no mixed sub-element in the tree. *)
  Definition sumless (e : elt F) : Prop :=
    forall s, subelt s e -> match s with EEnriched _ | EMixedSub _ _ _ => False | _ => True end.

  (** The contract on a leaf's [dual_basis], and nodality of a leaf: the
      functionals [leaf_terms] are dual to the basis functions. *)
  Definition leaf_dualises (leaf_dual : leaf F -> fresh (gem F * pset F)) (l : leaf F) : Prop :=
    (forall n, exists Q ps n', leaf_dual l n = Ok ((Q, ps), n') /\
       psdim ps = spatial_dimension (lf_cell l) /\
       dual_right (fun b ts => ts = leaf_terms l b) (lf_ishape l) (lf_vshape l) Q ps n n') /\
    forall b t, In t (leaf_terms l b) ->
      length (t_pt t) = spatial_dimension (lf_cell l) /\ in_shape (lf_vshape l) (t_cmp t).
  Definition leaf_nodal (l : leaf F) : Prop :=
    forall b b', in_shape (lf_ishape l) b -> in_shape (lf_ishape l) b' ->
      apply_terms (leaf_terms l b)
        (fun p v => lf_tab l (repeat 0 (spatial_dimension (lf_cell l))) (get_dimension (lf_cell l), 0) p
                      (rowmajor (lf_ishape l) b') v)
      = if list_eq_dec Nat.eq_dec b b' then f1 o else f0 o.

  (** FIAT's functionals as terms: dof [i] is functional [i]. *)
  Definition fiat_terms (ds : list (functional F)) (b : list nat) : list (term F) :=
    match b with
    | [i] => match nth_error ds i with Some d => functional_terms d | None => [] end
    | _ => []
    end.

  (** What dual evaluation, called when the index counter is [n], asks of its
      argument: at the points of the dual basis [db], an expression of the right
      shape whose value at the selected point is [f env], where [f] may depend
      on indices [args] of the caller. *)
  Definition evaluates (db : fresh (gem F * pset F)) (n : nat) (fn : pset F -> fresh (gem F)) (vsh : list nat)
      (args : list nat) (f : (nat -> nat) -> list F -> list nat -> F) : Prop :=
    (forall env env', (forall x, In x args -> env x = env' x) -> forall p v, f env p v = f env' p v) /\
    forall Q ps m, db n = Ok ((Q, ps), m) ->
      exists g m', fn ps m = Ok (g, m') /\ m <= m' /\ gshape g = vsh /\
        (forall x, In x (gfree g) -> In x (map ix_id (ps_indices ps)) \/ In x args) /\
        forall env v, env_ok ps env -> in_shape vsh v -> eval o vars g env v = f env (pt_at ps env) v.

  (** The result of dual evaluation: a scalar expression [g] and new indices
      [is] of extents [ish]; at each value [b] of the indices it is the
      functional [spec] assigns to [b], applied to [f]. *)
  Definition evaluation_right (spec : list nat -> list (term F) -> Prop) (ish args : list nat)
      (f : (nat -> nat) -> list F -> list nat -> F) (g : gem F) (is : list ix) (n n' : nat) : Prop :=
    n <= n' /\ gshape g = [] /\ map ix_extent is = ish /\ NoDup (map ix_id is) /\
    (forall i, In i is -> n <= ix_id i < n') /\
    (forall x, In x (gfree g) -> In x (map ix_id is) \/ In x args) /\
    forall env b, map (fun i => env (ix_id i)) is = b -> in_shape ish b ->
      exists ts, spec b ts /\ eval o vars g env [] = apply_terms ts (f env).
End Dual.
