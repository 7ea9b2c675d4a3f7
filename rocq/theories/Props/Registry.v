(** C40, C41, C42, C50: the list of element families. *)
From Coq Require Import String List ZArith Bool Lia.
From Verif Require Import Model.Prelude Model.Registry Spec.Registry Proofs.Registry Proofs.Canonical Proofs.History.
Import ListNotations.
Open Scope string_scope.

(** ** C40: names *)

(** The description of an element is computed in at most three tests of the loop over
    the aliases, whatever the arguments. *)
Theorem C40_terminates f cell ord k :
  exists res, forall fuel, 3 <= fuel -> canonical builtins fuel f cell ord k = Some res.
Proof. exact (canonical_terminates f cell ord k). Qed.

(** The family returned is registered and no alias; cell and order are among those
    registered for it; shape, space, mapping and embedded degree are those of that
    registration. *)
Theorem C40_family fuel f cell ord k e : canonical builtins fuel f cell ord k = Some (Ok e) ->
  exists d, registered d /\ fd_family d = ds_family e /\ (forall t, ~ In (Alias (ds_family e) t) builtin_calls) /\
    cell_allowed (fd_cells d) cell /\ order_allowed (fd_range d) (ds_order e) /\
    shape_of (fd_rank d) cell (ds_shape e) /\ ds_space e = fd_space d /\ ds_mapping e = fd_mapping d /\
    embedded_of (ds_family e) cell (ds_order e) (ds_embedded e).
Proof. exact (canonical_family fuel f cell ord k e). Qed.

(** A registered family is found under both its names.  It is accepted exactly on the
    cells and for the orders registered, and every refusal is a ValueError, except that on
    product cells discontinuous Lagrange with an order that is no int is a TypeError. *)
Theorem C40_registered fuel d name cell ord k :
  registered d -> (name = fd_family d \/ Some name = fd_short d) -> k = None \/ name <> "S" -> 1 <= fuel ->
  (forall e, described d cell ord e -> (compared d cell -> is_int ord) ->
     canonical builtins fuel name cell ord k = Some (Ok e)) /\
  ((forall e, ~ described d cell ord e) -> (compared d cell -> is_int ord) ->
     canonical builtins fuel name cell ord k = Some (Err ValueError)) /\
  (compared d cell -> ~ is_int ord -> canonical builtins fuel name cell ord k = Some (Err TypeError)).
Proof. exact (canonical_accepts fuel d name cell ord k). Qed.

(** Second names mean the family they stand for; they need a cell. *)
Theorem C40_other_names fuel a m c ord k : In (a, m) other_names -> k = None \/ a <> "P" ->
  canonical builtins (S (S fuel)) a (Some c) ord k = canonical builtins (S (S fuel)) m (Some c) ord k /\
  canonical builtins (S fuel) a None ord k = Some (Err ValueError).
Proof.
  exact (fun I K => conj (canonical_other fuel a m c ord k I K) (canonical_other_none fuel a m ord k I K)).
Qed.

(** Names of spaces of differential forms mean the space of the periodic table. *)
Theorem C40_forms fuel fuel' c (l2 : bool) name cell k r : In name (complex_names c) ->
  1 <= ucell_dim cell <= 3 -> k <= ucell_dim cell ->
  canonical builtins (S (S (S fuel))) (if l2 then String.append name " L2" else name) (Some cell) (Order r)
    (Some (Z.of_nat k)) =
  canonical builtins (S fuel') (fst (forms c l2 (ucell_dim cell) k r)) (Some cell)
    (Order (snd (forms c l2 (ucell_dim cell) k r))) None.
Proof. exact (canonical_forms fuel fuel' c l2 name cell k r). Qed.

(** Any other name is a ValueError. *)
Theorem C40_unknown fuel f cell ord k : (forall d, registered d -> f <> fd_family d /\ Some f <> fd_short d) ->
  (forall t, ~ In (Alias f t) builtin_calls) -> k = None \/ ~ In f ["P L2"; "S L2"] ->
  canonical builtins (S fuel) f cell ord k = Some (Err ValueError).
Proof. exact (canonical_unknown fuel f cell ord k). Qed.

(** The only errors other than ValueError: a TypeError for names of forms without int
    order, cell or form degree, and on product cells without int order; an IndexError for
    forms in dimension 4 or of a degree outside 0..n. *)
Theorem C40_errors fuel f cell ord k x : canonical builtins fuel f cell ord k = Some (Err x) ->
  x = ValueError \/
  (x = TypeError /\ ((In f feec_names /\ (~ is_int ord \/ cell = None \/ k = None)) \/
                     (product_cell cell = true /\ ~ is_int ord))) \/
  (x = IndexError /\ In f feec_names /\ exists c, cell = Some c /\
     (4 <= ucell_dim c \/ exists z, k = Some z /\ ~ (0 <= z <= Z.of_nat (ucell_dim c))%Z)).
Proof. exact (canonical_errors fuel f cell ord k x). Qed.

(** They do occur: refusals that are not a ValueError, for DG without a degree on a
    quadrilateral, for "P- Lambda" without a form degree, and for 3-forms on a triangle. *)
Theorem C40_valueerror_refuted :
  canonical builtins 3 "DG" (Some (Named Quadrilateral)) NoOrder None = Some (Err TypeError) /\
  canonical builtins 3 "P- Lambda" (Some (Named Triangle)) (Order 1) None = Some (Err TypeError) /\
  canonical builtins 3 "P- Lambda" (Some (Named Triangle)) (Order 1) (Some 3%Z) = Some (Err IndexError).
Proof. vm_compute. exact (conj eq_refl (conj eq_refl eq_refl)). Qed.

(** Form degrees that do not exist are accepted: degree -1 is taken for n, and a vertex has
    3-forms. *)
Theorem C40_form_degree_refuted :
  (exists e, canonical builtins 3 "P- Lambda" (Some (Named Triangle)) (Order 1) (Some (-1)%Z) = Some (Ok e) /\
     ds_family e = "Discontinuous Lagrange" /\ ds_order e = Order 0) /\
  (exists e, canonical builtins 3 "P" (Some (Named Vertex)) (Order 2) (Some 3%Z) = Some (Ok e) /\
     ds_family e = "Discontinuous Lagrange" /\ ds_order e = Order 2).
Proof.
  exact (conj (ex_intro _ _ (conj eq_refl (conj eq_refl eq_refl))) (ex_intro _ _ (conj eq_refl (conj eq_refl eq_refl)))).
Qed.

Print Assumptions C40_terminates.
Print Assumptions C40_family.
Print Assumptions C40_registered.
Print Assumptions C40_other_names.
Print Assumptions C40_forms.
Print Assumptions C40_unknown.
Print Assumptions C40_errors.
Print Assumptions C40_valueerror_refuted.
Print Assumptions C40_form_degree_refuted.

(** Examples: DG of order 2 on a quadrilateral; an order that is too high; a family
    off its cells; the Nedelec element through two aliases; a name nobody registered. *)
Example C40_example_product :
  canonical builtins 3 "DG" (Some (Named Quadrilateral)) (Order 2) None =
  Some (Ok (mkDescription "DQ" (Some "DG") (Order 2) [] L2 "identity" (Order 2))).
Proof. vm_compute. reflexivity. Qed.
Example C40_example_range :
  canonical builtins 3 "Morley" (Some (Named Triangle)) (Order 3) None = Some (Err ValueError).
Proof. vm_compute. reflexivity. Qed.
Example C40_example_cell :
  canonical builtins 3 "RT" (Some (Named Hexahedron)) (Order 1) None = Some (Err ValueError) /\
  canonical builtins 3 "HZ" (Some (Named Tetrahedron)) (Order 3) None = Some (Err ValueError).
Proof. vm_compute. split; reflexivity. Qed.
Example C40_example_forms :
  canonical builtins 3 "P- Lambda" (Some (Named Triangle)) (Order 2) (Some 1%Z) =
  Some (Ok (mkDescription "Nedelec 1st kind H(curl)" (Some "N1curl") (Order 2) [2] HCurl "covariant Piola" (Order 2))).
Proof. vm_compute. reflexivity. Qed.
Example C40_example_bubble :
  canonical builtins 3 "GN" (Some (Named Tetrahedron)) (Order 1) None =
  Some (Ok (mkDescription "Guzman-Neilan 1st kind H1" (Some "GN") (Order 1) [3] H1 "contravariant Piola" (Order 3))).
Proof. vm_compute. reflexivity. Qed.
Example C40_example_unknown : canonical builtins 3 "Lagrang" None (Order 1) None = Some (Err ValueError).
Proof. vm_compute. reflexivity. Qed.

(** ** C41: describing the canonical family again *)

(** The canonical family with the canonical order, without a form degree, is described
    as before; only the short name can be lost, on product cells. *)
Theorem C41_again fuel f cell ord k e : canonical builtins fuel f cell ord k = Some (Ok e) ->
  exists e', canonical builtins 1 (ds_family e) cell (ds_order e) None = Some (Ok e') /\ same_element e e' /\
    (ds_short e' = ds_short e \/
     (product_cell cell = true /\ In (ds_family e) ["Q"; "DQ"; "DQ L2"] /\ ds_short e' = None)).
Proof. exact (canonical_again fuel f cell ord k e). Qed.

(** The short name is lost indeed: CG on a quadrilateral is printed as CG, and as Q once
    reconstructed. *)
Theorem C41_short_name_refuted : exists e e',
  canonical builtins 3 "CG" (Some (Named Quadrilateral)) (Order 1) None = Some (Ok e) /\
  canonical builtins 3 (ds_family e) (Some (Named Quadrilateral)) (ds_order e) None = Some (Ok e') /\
  ds_short e <> ds_short e'.
Proof.
  exact (ex_intro _ _ (ex_intro _ _ (conj eq_refl (conj eq_refl (fun H : Some "CG" = None =>
    eq_ind (Some "CG") (fun s => match s with Some _ => True | None => False end) I None H))))).
Qed.

Print Assumptions C41_again.
Print Assumptions C41_short_name_refuted.

Example C41_example :
  canonical builtins 3 "S" (Some (Named Quadrilateral)) (Order 2) (Some 1%Z) =
    Some (Ok (mkDescription "BDMCE" None (Order 2) [2] HCurl "covariant Piola" (Order 2))) /\
  canonical builtins 1 "BDMCE" (Some (Named Quadrilateral)) (Order 2) None =
    Some (Ok (mkDescription "BDMCE" None (Order 2) [2] HCurl "covariant Piola" (Order 2))).
Proof. vm_compute. split; reflexivity. Qed.

(** ** C42: histories of registrations *)

(** Registering a family under a name in use raises. *)
Theorem C42_existing r f d s v sp m k cs : dict_get String.eqb (ufl_elements r) f = Ok d ->
  register_element r f s v sp m k cs = Err ValueError.
Proof. exact (register_existing r f d s v sp m k cs). Qed.

(** After any calls that return, a name that is not one of their short names has the data
    it had. *)
Theorem C42_kept calls r r' n d : register_all r calls = Ok r' ->
  dict_get String.eqb (ufl_elements r) n = Ok d -> (forall c, In c calls -> ~ In n (short_names c)) ->
  dict_get String.eqb (ufl_elements r') n = Ok d.
Proof. exact (elements_kept calls r r' n d). Qed.

(** After any calls that use no name of the module, its names mean what they meant. *)
Theorem C42_meaning calls r' : register_all builtins calls = Ok r' ->
  (forall c c' n, In c calls -> In c' builtin_calls -> In n (names_of c) -> ~ In n (names_of c')) ->
  forall fuel f cell ord k c', In c' builtin_calls -> In f (names_of c') ->
  canonical r' fuel f cell ord k = canonical builtins fuel f cell ord k.
Proof. exact (registration_keeps calls r'). Qed.

(** Without these provisos it is false.  A new family whose short name is "Lagrange" takes
    that name over without an error; an alias "Lagrange" for DG changes it too; and an alias
    for itself makes the loop endless. *)
Theorem C42_short_name_refuted : exists r' e,
  register builtins (Element "Mine" (Some "Lagrange") 0 L2 "custom" (Some (None, None)) (Names any_cell)) = Ok r' /\
  canonical r' 3 "Lagrange" (Some (Named Triangle)) (Order 1) None = Some (Ok e) /\ ds_family e = "Mine".
Proof. exact (ex_intro _ _ (ex_intro _ _ (conj eq_refl (conj eq_refl eq_refl)))). Qed.
Theorem C42_alias_refuted :
  (exists e, canonical (register_alias builtins "Lagrange" (to_name "DG")) 3 "Lagrange" (Some (Named Triangle)) (Order 1) None
             = Some (Ok e) /\ ds_family e = "Discontinuous Lagrange") /\
  (forall fuel, canonical (register_alias builtins "Lagrange" (to_name "Lagrange")) fuel "Lagrange" (Some (Named Triangle))
                  (Order 1) None = None).
Proof. exact alias_shadows. Qed.

Print Assumptions C42_existing.
Print Assumptions C42_kept.
Print Assumptions C42_meaning.
Print Assumptions C42_short_name_refuted.
Print Assumptions C42_alias_refuted.

(** Example: a user's family with an alias; "Lagrange" keeps its data. *)
Example C42_example : exists r',
  register_all builtins [Element "Mine" (Some "M") 1 HDiv "identity" (Some (Some 1, None)%Z) (Names [Some "triangle"]);
                         Alias "Yours" (to_name "Mine")] = Ok r' /\
  canonical r' 3 "Yours" (Some (Named Triangle)) (Order 4) None =
    Some (Ok (mkDescription "Mine" (Some "M") (Order 4) [2] HDiv "identity" (Order 4))) /\
  is_ok (dict_get String.eqb (ufl_elements r') "Lagrange") = true.
Proof. eexists. split; [vm_compute; reflexivity|]. vm_compute. split; reflexivity. Qed.

(** ** C50: pullbacks *)

(** Every element that can be described has a mapping with a pullback, the one of that
    name. *)
Theorem C50_pullback fuel f cell ord k e : canonical builtins fuel f cell ord k = Some (Ok e) ->
  exists p, pullback_of (ds_mapping e) = Ok p /\ In (ds_mapping e, p) pullback_names.
Proof. exact (canonical_pullback fuel f cell ord k e). Qed.

Print Assumptions C50_pullback.

Example C50_example : exists e,
  canonical builtins 3 "GLS" (Some (Named Triangle)) (Order 1) None = Some (Ok e) /\
  pullback_of (ds_mapping e) = Ok PCovariantContravariant.
Proof. eexists. split; [vm_compute; reflexivity|]. reflexivity. Qed.
