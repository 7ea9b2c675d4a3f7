(** Restricting elements to entities: the theorems. *)
From Coq Require Import String List Arith ZArith Bool Ring_theory Lia.
From Verif Require Import Model.Prelude Model.Cell Model.Element Model.Gem Model.PointSet Model.Evaluation Model.Restricted.
From Verif Require Import Spec.Rowmajor Spec.EntityDofs Spec.Layout Spec.Tabulation Spec.Restricted Spec.Samples Spec.ZSamples Spec.RSamples.
From Verif Require Import Proofs.SampleFacts Proofs.TabFacts Proofs.RestrictProps Proofs.RestrictFacts.
Import ListNotations.
Local Open Scope nat_scope.

(** ** C25: names and codimensions *)

(** The codimension of a restriction domain is that of the entities it names. *)
Theorem C25_name_to_codim : forall s D n, names s D n -> n <= D ->
  r_to_codim s (Z.of_nat D) = Ok (Z.of_nat (D - n)).
Proof. exact codim_names. Qed.
Print Assumptions C25_name_to_codim.

(** A codimension is turned into a name of the entities of that codimension,
    unless there is no such name. *)
Theorem C25_codim_to_name : forall c D, c <= D ->
  ((c <= 1 \/ D - c <= 2) -> exists s, codim_to_r (Z.of_nat c) (Z.of_nat D) = Ok s /\ names s D (D - c)) /\
  (~ (c <= 1 \/ D - c <= 2) -> codim_to_r (Z.of_nat c) (Z.of_nat D) = Err ValueError).
Proof. exact (fun c D H => conj (names_codim c D H) (fun N => codim_unnamed' c D H N)). Qed.
Print Assumptions C25_codim_to_name.

(** Going to the codimension and back keeps the entities. *)
Theorem C25_round_trip : forall s D n, names s D n -> n <= D -> forall c, r_to_codim s (Z.of_nat D) = Ok c ->
  forall s', codim_to_r c (Z.of_nat D) = Ok s' -> names s' D n.
Proof. exact codim_round. Qed.
Print Assumptions C25_round_trip.

(** No other name is accepted. *)
Theorem C25_unknown_name : forall s D, ~ In s ["interior"; "facet"; "face"; "edge"; "vertex"]%string ->
  r_to_codim s D = Err ValueError.
Proof. exact unknown_name. Qed.
Print Assumptions C25_unknown_name.

Example C25_faces_of_a_tetrahedron :
  names "face" 3 2 /\ r_to_codim "face" 3%Z = Ok 1%Z /\ codim_to_r 1%Z 3%Z = Ok "facet"%string /\ names "facet" 3 2 /\
  codim_to_r 2%Z 5%Z = Err ValueError /\ r_to_codim "ridge" 3%Z = Err ValueError.
Proof. repeat split; constructor. Qed.

(** ** C26: which dofs are kept *)

(** RestrictedElement returns an element whose basis functions are those of the
    original on the selected entities, and raises ValueError when there are
    none. *)
Theorem C26_restriction : forall F (o : ops F) fiat_restrict (e : elt F) domain c s d,
  (forall l, leaf_of l e -> leaf_ok l) -> sensible e -> cell_of e = Ok c -> value_shape e = Ok s -> entity_dofs e = Ok d ->
  valid domain (spatial_dimension c) -> restrictable fiat_restrict domain true e ->
  let S := selects domain true (spatial_dimension c) in
  (some_dof S d -> exists r sigma, RestrictedElement fiat_restrict e (Some domain) false = Ok (RElt r) /\ restricts o S e r sigma /\
     built r /\ (shaped e -> shaped r) /\ (forall l, leaf_of l r -> leaf_ok l) /\ sensible r) /\
  (~ some_dof S d -> RestrictedElement fiat_restrict e (Some domain) false = Err ValueError).
Proof. exact (fun F => @restrict_tree F). Qed.
Print Assumptions C26_restriction.

(** The restricted element numbers exactly the dofs on the selected entities,
    each once. *)
Theorem C26_numbering : forall F (o : ops F) (S : nat -> Prop) (e r : elt F) sigma d,
  (forall l, leaf_of l e -> leaf_ok l) -> sensible e -> (forall l, leaf_of l r -> leaf_ok l) -> sensible r ->
  (forall n, S n \/ ~ S n) -> entity_dofs e = Ok d -> restricts o S e r sigma ->
  (forall j, j < space_dimension r -> sigma j < space_dimension e) /\
  (forall j j', j < space_dimension r -> j' < space_dimension r -> sigma j = sigma j' -> j = j') /\
  (forall i, (exists j, j < space_dimension r /\ sigma j = i) <-> exists k n l, has_dofs d k n l /\ S (dk_total k) /\ In i l).
Proof. exact (fun F => @restricts_numbers F). Qed.
Print Assumptions C26_numbering.

(** The contract on FIAT's restriction can be met: by renumbering. *)
Theorem C26_contract : forall F (l : leaf F) m, leaf_ok l -> lf_mappings l = repeat m (lf_dim l) ->
  fiat_restricts renumber l.
Proof. exact (fun F => @renumber_restricts F). Qed.
Print Assumptions C26_contract.

Example C26_raviart_thomas_facets : exists d,
  (forall l, leaf_of l zrt -> leaf_ok l) /\ sensible zrt /\ cell_of zrt = Ok (TPCell [I1; I1]) /\ value_shape zrt = Ok [2] /\
  entity_dofs zrt = Ok d /\ valid "facet" 2 /\ restrictable renumber "facet" true zrt /\
  some_dof (selects "facet" true 2) d /\ some_dof (selects "interior" true 2) d /\ ~ some_dof (selects "vertex" true 2) d /\
  match RestrictedElement renumber zrt (Some "facet"%string) false with Ok (RElt r) => space_dimension r | _ => 0 end = 8 /\
  match RestrictedElement renumber zrt (Some "interior"%string) false with Ok (RElt r) => space_dimension r | _ => 0 end = 4 /\
  RestrictedElement renumber zrt (Some "vertex"%string) false = Err ValueError.
Proof. exact zrt_facets. Qed.

Example C26_mixed_facets :
  (forall l, leaf_of l zq21 -> leaf_ok l) /\ sensible zq21 /\ cell_of zq21 = Ok (Hypercube 2) /\ value_shape zq21 = Ok [3] /\
  valid "facet" 2 /\ restrictable renumber "facet" true zq21 /\
  exists r dr, RestrictedElement renumber zq21 (Some "facet"%string) false = Ok (RElt r) /\ entity_dofs r = Ok dr /\
    space_dimension zq21 = 17 /\ space_dimension r = 16 /\ value_shape r = Ok [3] /\
    has_dofs dr (DI 0) 3 [7; 14; 15] /\ has_dofs dr (DI 1) 0 [0] /\ has_dofs dr (DI 2) 0 [].
Proof. exact zq21_facets. Qed.

(** Not every restriction that should succeed does.  A discontinuous element has
    all its dofs on the cell, yet a domain that names the cell other than
    "interior" selects none of them. *)
Theorem C26_cell_by_name_refuted : exists (e : elt Z) d, built e /\ (forall l, leaf_of l e -> leaf_ok l) /\ sensible e /\
  cell_of e = Ok (Simplex 1) /\ entity_dofs e = Ok d /\ names "edge" 1 1 /\ some_dof (selects "edge" true 1) d /\
  RestrictedElement renumber e (Some "edge"%string) false = Err ValueError.
Proof. exact cell_by_name. Qed.
Print Assumptions C26_cell_by_name_refuted.

(** A mixed element with one member cannot be restricted. *)
Theorem C26_one_member_refuted : exists (e : elt Z) d, mk_mixed [zcg2] = Ok e /\ entity_dofs e = Ok d /\
  (forall l, leaf_of l e -> leaf_ok l) /\ sensible e /\ cell_of e = Ok (Simplex 1) /\ some_dof (selects "vertex" true 1) d /\
  RestrictedElement renumber e (Some "vertex"%string) false = Err AssertionError.
Proof. exact one_member. Qed.
Print Assumptions C26_one_member_refuted.

(** A product with a factor that is itself a product cannot be restricted. *)
Theorem C26_nested_product_refuted : exists (e : elt Z) d, built e /\ entity_dofs e = Ok d /\
  (forall l, leaf_of l e -> leaf_ok l) /\ sensible e /\ cell_of e = Ok (TPCell [TPCell [I1; I1]; I1]) /\
  some_dof (selects "facet" true 3) d /\
  RestrictedElement renumber e (Some "facet"%string) false = Err TypeError.
Proof. exact nested_product. Qed.
Print Assumptions C26_nested_product_refuted.

(** ** C27: the values *)

(** What the restricted element tabulates are the values of the original's
    basis functions. *)
Theorem C27_values : forall F (o : ops F) G,
  ring_theory (f0 o) (f1 o) (fadd o) (fmul o) (fsub o) (fopp o) eq ->
  forall (leaf_eval : leaf F -> nat -> pset F -> option (dimkey * nat) -> option G -> fresh (list (list nat * gem F)))
    (S : nat -> Prop) (e r : elt F) sigma, restricts o S e r sigma -> built r -> shaped r ->
  (forall l, leaf_of l r -> fold_right Nat.mul 1 (lf_ishape l) = lf_dim l /\ leaf_tabulates o leaf_eval l) ->
  forall vars order ps ent cm n c vs, cell_of e = Ok c -> value_shape e = Ok vs ->
  ps_ok ps -> (forall i, In i (ps_indices ps) -> ix_id i < n) ->
  entity_of (topology c) (entity_or_cell c ent) -> fits r (entity_or_cell c ent) ps ->
  exists ts n', basis_evaluation o leaf_eval r order ps ent cm n = Ok (ts, n') /\
    derivative_keys (spatial_dimension c) order (map fst ts) /\
    forall alpha g, In (alpha, g) ts -> forall env b v, env_ok ps env -> in_shape (index_shape r) b -> in_shape vs v ->
      value_of o e alpha (entity_or_cell c ent) (pt_at ps env) (sigma (rowmajor (index_shape r) b)) v (eval o vars g env (b ++ v)).
Proof. exact restrict_tabulates. Qed.
Print Assumptions C27_values.

Example C27_raviart_thomas : exists r ts n' g,
  RestrictedElement renumber zrt (Some "interior"%string) false = Ok (RElt r) /\
  basis_evaluation zops (zleaf unit) r 1 zgrid None None 2 = Ok (ts, n') /\ In ([1; 0], g) ts /\
  (* function 0 of the restriction is function 4 of the original *)
  eval zops (fun _ _ => 0%Z) g (fun i => match i with 0 => 2 | _ => 1 end) [0; 0] = 24%Z.
Proof. exact zrt_interior. Qed.

(** The value shape of a mixed element shrinks when a member has no selected
    dof. *)
Theorem C27_mixed_shape_refuted : exists (e : elt Z) r d, mk_mixed [zcg2; zdg1] = Ok e /\ entity_dofs e = Ok d /\
  (forall l, leaf_of l e -> leaf_ok l) /\ sensible e /\ cell_of e = Ok (Simplex 1) /\ some_dof (selects "vertex" true 1) d /\
  RestrictedElement renumber e (Some "vertex"%string) false = Ok (RElt r) /\
  value_shape e = Ok [2] /\ value_shape r = Ok [1].
Proof. exact mixed_shape. Qed.
Print Assumptions C27_mixed_shape_refuted.

(** ** C28: what comes back *)

(** An object that is not an element comes back only when some leaf has no
    restriction rule, null_element never. *)
Theorem C28_only_elements : forall F fiat_restrict (e : elt F) domain,
  (forall l, leaf_of l e -> lf_kind l <> KOther) ->
  forall i, RestrictedElement fiat_restrict e domain i <> Ok RBad /\ RestrictedElement fiat_restrict e domain i <> Ok RNull.
Proof. exact (fun F => @restricted_elements F). Qed.
Print Assumptions C28_only_elements.

Theorem C28_physically_mapped : forall F fiat_restrict (l : leaf F) domain, lf_kind l = KPhysicallyMapped ->
  RestrictedElement fiat_restrict (ELeaf l) (Some domain) false = Err NotImplementedError.
Proof. exact (fun F => @restricted_mapped F). Qed.
Print Assumptions C28_physically_mapped.

(** The default rule returns an exception instead of raising it, so
    RestrictedElement returns one, also inside sums. *)
Theorem C28_default_rule : forall F fiat_restrict (l : leaf F) domain, lf_kind l = KOther ->
  RestrictedElement fiat_restrict (ELeaf l) (Some domain) false = Ok RBad.
Proof. exact (fun F => @restricted_other F). Qed.
Print Assumptions C28_default_rule.

Theorem C28_refuted : exists e : elt Z, built e /\ (forall l, leaf_of l e -> leaf_ok l) /\ sensible e /\
  RestrictedElement renumber e (Some "vertex"%string) false = Ok RBad.
Proof. exact sum_other. Qed.
Print Assumptions C28_refuted.

Example C28_rules :
  (forall l, leaf_of l zrt -> lf_kind l <> KOther) /\ lf_kind (mapped_leaf ztab1) = KPhysicallyMapped /\
  leaf_ok (mapped_leaf ztab1) /\ leaf_ok (other_leaf ztab1).
Proof. exact kinds. Qed.
