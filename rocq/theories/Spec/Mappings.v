(** How the basis functions of an element tree are mapped to the physical cell, function by
    function, and which differential forms they stand for. *)
From Coq Require Import String List Arith.
From Verif Require Import Model.Prelude Model.Cell Model.Element.
Import ListNotations.

Definition affine : option string := Some "affine"%string.

(** The mapping of a product of functions with the given mappings: that of the only factor that is
    not scalar and affine; [None] if there are two of these. *)
Inductive product_mapping : list (option string) -> option string -> Prop :=
| pm_none : forall ms, Forall (eq affine) ms -> product_mapping ms affine
| pm_one : forall a m b, Forall (eq affine) a -> Forall (eq affine) b -> product_mapping (a ++ m :: b) m
| pm_two : forall a m b m' c, m <> affine -> m' <> affine ->
    product_mapping (a ++ m :: b ++ m' :: c) None.

(** [e] has a basis function with mapping [m]; [None]: one that has no mapping. *)
Inductive mapped_by {F} : elt F -> option string -> Prop :=
| mb_leaf : forall l m, In m (lf_mappings l) -> mapped_by (ELeaf l) (Some m)
| mb_tensor_product : forall fs ms m, Forall2 mapped_by fs ms -> product_mapping ms m ->
    mapped_by (ETensorProduct fs) m
| mb_tensor : forall b s t m, mapped_by b m -> mapped_by (ETensor b s t) m
| mb_enriched : forall e es m, In e es -> mapped_by e m -> mapped_by (EEnriched es) m
| mb_mixed_sub : forall e s o m, mapped_by e m -> mapped_by (EMixedSub e s o) m
| mb_flattened : forall e m, mapped_by e m -> mapped_by (EFlattened e) m
| mb_discontinuous : forall e m, mapped_by e m -> mapped_by (EDiscontinuous e) m
| mb_hdiv : forall w, mapped_by (EHDiv w) (Some "contravariant piola"%string)
| mb_hcurl : forall w, mapped_by (EHCurl w) (Some "covariant piola"%string).

(** Every leaf has a basis function and every sum a summand. *)
Inductive populated {F} : elt F -> Prop :=
| po_leaf : forall l, lf_mappings l <> [] -> populated (ELeaf l)
| po_tensor_product : forall fs, Forall populated fs -> populated (ETensorProduct fs)
| po_tensor : forall b s t, populated b -> populated (ETensor b s t)
| po_enriched : forall es, es <> [] -> Forall populated es -> populated (EEnriched es)
| po_mixed_sub : forall e s o, populated e -> populated (EMixedSub e s o)
| po_flattened : forall e, populated e -> populated (EFlattened e)
| po_discontinuous : forall e, populated e -> populated (EDiscontinuous e)
| po_hdiv : forall e, populated e -> populated (EHDiv e)
| po_hcurl : forall e, populated e -> populated (EHCurl e).

(** The functions of [e] are differential forms of degree [k] (of degree at most [k] if [e] is a
    sum of elements of different degrees).  Products of forms have the sum of the degrees,
    H(div) holds (n-1)-forms, H(curl) 1-forms, and functions without continuity are n-forms. *)
Inductive forms {F} : elt F -> nat -> Prop :=
| fo_leaf : forall l k, lf_formdegree l = Some k -> forms (ELeaf l) k
| fo_tensor_product : forall fs ks, Forall2 forms fs ks -> forms (ETensorProduct fs) (fold_right Nat.add 0 ks)
| fo_tensor : forall b s t k, forms b k -> forms (ETensor b s t) k
| fo_enriched : forall es ks k, Forall2 forms es ks -> In k ks -> Forall (fun i => i <= k) ks -> forms (EEnriched es) k
| fo_mixed_sub : forall e s o k, forms e k -> forms (EMixedSub e s o) k
| fo_flattened : forall e k, forms e k -> forms (EFlattened e) k
| fo_discontinuous : forall e c, cell_of e = Ok c -> forms (EDiscontinuous e) (spatial_dimension c)
| fo_hdiv : forall w c, cell_of w = Ok c -> forms (EHDiv w) (spatial_dimension c - 1)
| fo_hcurl : forall w, forms (EHCurl w) 1.

(** A leaf whose form degree is the business of [e]: none of the classes with a form degree of
    their own is above it. *)
Inductive exposed {F} : leaf F -> elt F -> Prop :=
| ex_leaf : forall l, exposed l (ELeaf l)
| ex_tensor_product : forall l f fs, In f fs -> exposed l f -> exposed l (ETensorProduct fs)
| ex_tensor : forall l b s t, exposed l b -> exposed l (ETensor b s t)
| ex_enriched : forall l e es, In e es -> exposed l e -> exposed l (EEnriched es)
| ex_mixed_sub : forall l e s o, exposed l e -> exposed l (EMixedSub e s o)
| ex_flattened : forall l e, exposed l e -> exposed l (EFlattened e).
