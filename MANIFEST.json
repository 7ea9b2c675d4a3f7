{
 "claims": [
  {
   "property": "C01",
   "status": "proved",
   "theorems": [
    "C01_entity_dofs_partition"
   ],
   "note": "All trees of the nine constructors over leaves that meet the FIAT contract."
  },
  {
   "property": "C02",
   "status": "proved",
   "theorems": [
    "C02_entity_dofs_keys",
    "C02_flattened_prism_refuted",
    "C02_empty_product_refuted"
   ],
   "note": "Holds for trees that flatten only cubes and have no empty product; both exceptions are refuted with witnesses (findings F1, F2)."
  },
  {
   "property": "C03",
   "status": "proved",
   "theorems": [
    "C03_space_dimension"
   ],
   "note": ""
  },
  {
   "property": "C04",
   "status": "proved",
   "theorems": [
    "C04_tensor_product_layout"
   ],
   "note": ""
  },
  {
   "property": "C05",
   "status": "proved",
   "theorems": [
    "C05_tensor_layout"
   ],
   "note": ""
  },
  {
   "property": "C06",
   "status": "proved",
   "theorems": [
    "C06_enriched_layout",
    "C06_discontinuous_layout"
   ],
   "note": ""
  },
  {
   "property": "C07",
   "status": "proved",
   "theorems": [
    "C07_enriched_nesting",
    "C07_no_enriched_summand"
   ],
   "note": ""
  },
  {
   "property": "C08",
   "status": "proved",
   "theorems": [
    "C08_entity_closure_dofs"
   ],
   "note": ""
  },
  {
   "property": "C09",
   "status": "proved",
   "theorems": [
    "C09_unflatten_bijective",
    "C09_flattened_layout",
    "C09_hexahedron_numbering"
   ],
   "note": ""
  },
  {
   "property": "C10",
   "status": "proved",
   "theorems": [
    "C10_permutation_blocks",
    "C10_permutations_of_dofs"
   ],
   "note": ""
  },
  {
   "property": "C29",
   "status": "proved",
   "theorems": [
    "C29_determinant",
    "C29_adjugate",
    "C29_inverse",
    "C29_piola_inverse"
   ],
   "note": "Over any commutative ring with units, all sizes."
  },
  {
   "property": "C30",
   "status": "proved",
   "theorems": [
    "C30_edge",
    "C30_face"
   ],
   "note": "Over any real field; the norm of the tangent is any number with the right square."
  },
  {
   "property": "C52",
   "status": "proved",
   "theorems": [
    "C52_enriched_degree",
    "C52_enriched_degree_defined",
    "C52_product_degree",
    "C52_flattened_degree"
   ],
   "note": ""
  },
  {
   "property": "C11",
   "status": "proved",
   "theorems": [
    "C11_merge_evaluations",
    "C11_tensor_product_values"
   ],
   "note": "Node level: the tables made by _merge_evaluations; tree level: the whole basis_evaluation of a product, by the values of the factors. Floating point idealised as a commutative ring."
  },
  {
   "property": "C12",
   "status": "proved",
   "theorems": [
    "C12_tensorise",
    "C12_scalar_shape_refuted"
   ],
   "note": "For non-empty shapes; the shape () is accepted by the constructor but raises TypeError when tabulated (refuted, finding F3)."
  },
  {
   "property": "C13",
   "status": "proved",
   "theorems": [
    "C13_compose_evaluations"
   ],
   "note": "Tree level: C16_tabulation with the vo_enriched clause of value_of."
  },
  {
   "property": "C14",
   "status": "proved",
   "theorems": [
    "C14_mixed_parts",
    "C14_mixed_values",
    "C14_blocks_cover"
   ],
   "note": "Values are those of the specification value_of, which C16_tabulation ties to basis_evaluation."
  },
  {
   "property": "C15",
   "status": "proved",
   "theorems": [
    "C15_hdiv_accepts",
    "C15_hcurl_accepts",
    "C15_wrapped_values",
    "C15_hdiv_isometry",
    "C15_hcurl_isometry"
   ],
   "note": "The dual bases of the wrappers are covered by C24."
  },
  {
   "property": "C16",
   "status": "proved",
   "theorems": [
    "C16_tabulation"
   ],
   "note": "For every tree built by the constructors from leaves that meet the leaf contract; includes the values, not only shapes."
  },
  {
   "property": "C17",
   "status": "proved",
   "theorems": [
    "C17_fiat_tabulation",
    "C17_reduced_element_refuted"
   ],
   "note": "For leaves whose index shape is (space dimension,); for elements that advertise fewer functions the zero table has the wrong shape (refuted, finding F4)."
  },
  {
   "property": "C18",
   "status": "proved",
   "theorems": [
    "C18_points",
    "C18_expression",
    "C18_factor_point_set",
    "C18_sliced_expression_refuted"
   ],
   "note": "Expression for point sets as constructed; a slice of a tensor point set keeps several indices on one axis and its expression fails (refuted, finding F5)."
  },
  {
   "property": "C19",
   "status": "proved",
   "theorems": [
    "C19_products",
    "C19_sums",
    "C19_rules_usable",
    "C19_exact"
   ],
   "note": "FIAT's rules enter through the contract gauss_legendre_ok / fiat_scheme_ok. Floating point idealised as a commutative ring."
  },
  {
   "property": "C20",
   "status": "proved",
   "theorems": [
    "C20_interval_points",
    "C20_negative_degree",
    "C20_tuple_degree",
    "C20_distribution",
    "C20_quadrilateral",
    "C20_suitable_degrees"
   ],
   "note": ""
  },
  {
   "property": "C21",
   "status": "proved",
   "theorems": [
    "C21_almost_equal",
    "C21_basis_values",
    "C21_points",
    "C21_dual_basis",
    "C21_rejects",
    "C21_dimension_checked",
    "C21_entity_dofs",
    "C21_made_elements"
   ],
   "note": ""
  },
  {
   "property": "C22",
   "status": "proved",
   "theorems": [
    "C22_fiat_dual",
    "C22_derivatives_refused",
    "C22_fiat_leaf",
    "C22_dual_basis_tree",
    "C22_repeated_component_refuted",
    "C22_unused_component_refuted",
    "C22_near_one_refuted"
   ],
   "note": "For functionals of point values with distinct points and components and exact ones (functionals_ok); each of these conditions is needed, as the refutations show (finding F7). Extended to all sum-free element trees."
  },
  {
   "property": "C23",
   "status": "proved",
   "theorems": [
    "C23_nodality",
    "C23_repeated_quadrature_refuted"
   ],
   "note": "For all sum-free trees (products, tensor, H(div)/H(curl), flattened, broken) whose leaves make new point indices; the same QuadratureElement object twice in a product is a counterexample (finding F6)."
  },
  {
   "property": "C24",
   "status": "proved",
   "theorems": [
    "C24_dual_evaluation",
    "C24_tensor_dual_evaluation",
    "C24_sums_refused",
    "C24_transposed_order_refuted"
   ],
   "note": "Values and index order are proved for all sum-free trees; the order claimed by the property fails exactly for transpose=True, where the base element's indices come first (refuted, finding F8)."
  },
  {
   "property": "C25",
   "status": "proved",
   "theorems": [
    "C25_name_to_codim",
    "C25_codim_to_name",
    "C25_round_trip",
    "C25_unknown_name"
   ],
   "note": ""
  },
  {
   "property": "C26",
   "status": "proved",
   "theorems": [
    "C26_restriction",
    "C26_numbering",
    "C26_contract",
    "C26_cell_by_name_refuted",
    "C26_one_member_refuted",
    "C26_nested_product_refuted"
   ],
   "note": "For every restrictable element tree; the three exceptions (a discontinuous element and a domain naming its cell, one-member mixed elements, unflattened nested products) are refuted separately (finding F9)."
  },
  {
   "property": "C27",
   "status": "proved",
   "theorems": [
    "C26_restriction",
    "C27_values",
    "C27_mixed_shape_refuted"
   ],
   "note": "Values and value shape for every restrictable tree; mixed elements lose components when a member has no selected dof (refuted, finding F10)."
  },
  {
   "property": "C28",
   "status": "proved",
   "theorems": [
    "C28_only_elements",
    "C28_physically_mapped",
    "C28_default_rule",
    "C28_refuted"
   ],
   "note": "False as stated: the default rule returns the exception instead of raising it (finding F11). Proved: this happens only with a leaf class without a rule."
  },
  {
   "property": "C31",
   "status": "proved",
   "theorems": [
    "C31_vertex_dofs",
    "C31_hermite"
   ],
   "note": "Any dimension; functions are polynomials (the dofs only see the 2-jet), maps affine (Hermite: any polynomial map)."
  },
  {
   "property": "C32",
   "status": "proved",
   "theorems": [
    "C32_hermite",
    "C32_argyris_integral",
    "C32_argyris_integral_nodal",
    "C32_argyris_point",
    "C32_argyris_point_nodal",
    "C32_argyris_variants",
    "C32_bell",
    "C32_bell_relation",
    "C32_hct",
    "C32_hct_nodal",
    "C32_reduced_hct",
    "C32_reduced_hct_relation",
    "C32_morley",
    "C32_morley_nodal",
    "C32_powell_sabin12",
    "C32_powell_sabin12_nodal"
   ],
   "note": "Affine maps of triangles over any ordered field; that FIAT's reference basis is nodal is a hypothesis (FIAT's contract), met by concrete bases for Morley and Hermite."
  },
  {
   "property": "C33",
   "status": "proved",
   "theorems": [
    "C33_mapped_tabulation",
    "C33_mapped_by_entries",
    "C33_missing_mapping",
    "C33_above_degree_refuted"
   ],
   "note": "For every matrix, table, order and point set; for elements with fewer functions than FIAT's up to the degree, above it refuted (finding F4)."
  },
  {
   "property": "C34",
   "status": "proved",
   "theorems": [
    "C34_clear_facets",
    "C34_bell",
    "C34_reduced_hct",
    "C34_arnold_winther",
    "C34_mardal_tai_winther",
    "C34_piola_bubble",
    "C34_piola_bubble_mapping"
   ],
   "note": "Hypotheses on FIAT's dictionary: it is a partition and the dropped dofs are numbered last, as the source comments say."
  },
  {
   "property": "C35",
   "status": "proved",
   "theorems": [
    "C35_entity_dofs",
    "C35_placement",
    "C35_dimension",
    "C35_functions",
    "C35_vertex_nodes",
    "C35_edge_nodes",
    "C35_inner_nodes",
    "C35_nodes"
   ],
   "note": "All degrees r >= 1."
  },
  {
   "property": "C36",
   "status": "proved",
   "theorems": [
    "C36_nodal_iff",
    "C36_nodal",
    "C36_defined",
    "C36_nodal_refuted"
   ],
   "note": "Exact arithmetic over any real field with division by zero undefined. Nodal for r <= 3 and on parallelograms; from r = 4 exactly when an explicit condition holds for the edges, which fails for some convex quadrilaterals (refuted, finding F12)."
  },
  {
   "property": "C37",
   "status": "proved",
   "theorems": [
    "C37_newton_poly",
    "C37_lengths",
    "C37_no_nodes"
   ],
   "note": "Any field."
  },
  {
   "property": "C55",
   "status": "proved",
   "theorems": [
    "C55_conforming",
    "C55_linear",
    "C55_quadratic",
    "C55_polynomials",
    "C55_conforming_refuted",
    "C55_unity_refuted"
   ],
   "note": "Continuity and polynomials of degree r for r <= 2 and on parallelograms for all r. For r = 3 on a trapezium both are refuted (finding F13)."
  },
  {
   "property": "C38",
   "status": "proved",
   "theorems": [
    "C38_meaning",
    "C38_defined",
    "C38_errors",
    "C38_shapes",
    "C38_shape_errors"
   ],
   "note": "For any number operations with associative, unital + and *; shapes for symbols bound to any GEM expressions."
  },
  {
   "property": "C39",
   "status": "proved",
   "theorems": [
    "C39_names",
    "C39_tables",
    "C39_arguments",
    "C39_construction",
    "C39_point_sets_refuted"
   ],
   "note": "Names determine everything listed; they do not determine the point set (finding F14)."
  },
  {
   "property": "C40",
   "status": "proved",
   "theorems": [
    "C40_terminates",
    "C40_family",
    "C40_registered",
    "C40_other_names",
    "C40_forms",
    "C40_unknown",
    "C40_errors",
    "C40_valueerror_refuted",
    "C40_form_degree_refuted"
   ],
   "note": "All names, cells, orders and form degrees, for the 108 built-in registrations. That every refusal is a ValueError is refuted and the exceptions are classified (finding F15); nonexistent form degrees are accepted (F16)."
  },
  {
   "property": "C41",
   "status": "proved",
   "theorems": [
    "C41_again",
    "C41_built",
    "C41_reconstruct",
    "C41_short_name_refuted"
   ],
   "note": "All data of equality and evaluation are kept; the short name used for printing can be lost (finding F17). Reconstruction: all element trees."
  },
  {
   "property": "C42",
   "status": "proved",
   "theorems": [
    "C42_existing",
    "C42_kept",
    "C42_meaning",
    "C42_short_name_refuted",
    "C42_alias_refuted"
   ],
   "note": "For histories that use no name twice; without that proviso refuted (finding F18)."
  },
  {
   "property": "C50",
   "status": "proved",
   "theorems": [
    "C50_pullback"
   ],
   "note": "Plain finite elements of all built-in families."
  },
  {
   "property": "C43",
   "status": "proved",
   "theorems": [
    "C43_equality",
    "C43_equivalence",
    "C43_hash",
    "C43_same",
    "C43_apostrophe_refuted",
    "C43_symmetry_refuted"
   ],
   "note": "All element trees whose WithMapping names hold no apostrophe; with one the claim is refuted (finding F19). Equal symmetry dictionaries in another order give unequal elements (F20)."
  },
  {
   "property": "C44",
   "status": "proved",
   "theorems": [
    "C44_level",
    "C44_level_all",
    "C44_components",
    "C44_outside",
    "C44_negative",
    "C44_rank",
    "C44_rank_refuted",
    "C44_negative_refuted"
   ],
   "note": "One level: all lists and shapes. All levels: elements of reference rank one at each level; other ranks are refused with an AssertionError (finding F21), negative indices are accepted by elements that are not mixed (F22)."
  },
  {
   "property": "C45",
   "status": "proved",
   "theorems": [
    "C45_numbers",
    "C45_onto",
    "C45_accepted",
    "C45_refused",
    "C45_symmetric",
    "C45_pullback_refuted",
    "C45_errors_refuted",
    "C45_short_keys_refuted"
   ],
   "note": "symmetry=True for all n; dictionaries whose keys are indices that come after the index they equal. Other dictionaries are neither consistent nor rejected properly (findings F23, F24)."
  },
  {
   "property": "C46",
   "status": "proved",
   "theorems": [
    "C46_elements",
    "C46_length_refuted"
   ],
   "note": "For lists of the same length; otherwise refuted (finding F25)."
  },
  {
   "property": "C47",
   "status": "proved",
   "theorems": [
    "C47_spaces",
    "C47_element"
   ],
   "note": "All lists of predefined spaces. There is always a smallest space, so that the error is never raised."
  },
  {
   "property": "C48",
   "status": "proved",
   "theorems": [
    "C48_lagrange",
    "C48_lagrange_accepted",
    "C48_vector",
    "C48_vector_accepted",
    "C48_vector_refused",
    "C48_undescribed",
    "C48_scheme_refuted",
    "C48_prism_refuted"
   ],
   "note": "All degrees and nested product cells. The quadrature scheme is lost (finding F26), and DQ is refused where its description is accepted (F27)."
  },
  {
   "property": "C49",
   "status": "proved",
   "theorems": [
    "C49_bounds",
    "C49_order",
    "C49_defined_refuted",
    "C49_restricted_refuted"
   ],
   "note": "All element trees. That both are always defined is refuted (finding F28); restricted elements return their degree (F29)."
  },
  {
   "property": "C51",
   "status": "proved",
   "theorems": [
    "C51_tabulation",
    "C51_shortcut",
    "C51_tree",
    "C51_other_points_refuted"
   ],
   "note": "All scalar leaves, orders and point sets, and all trees of such leaves. The code checks class and number of the points only; that they are the nodes is a hypothesis, without which the claim is refuted (finding F30)."
  },
  {
   "property": "C53",
   "status": "proved",
   "theorems": [
    "C53_point_evaluation",
    "C53_works_exactly",
    "C53_whole_cell",
    "C53_fiat",
    "C53_same_as_tabulation",
    "C53_wrong_dimension",
    "C53_fiat_wrong_dimension",
    "C53_facets_refuted"
   ],
   "note": "All trees, orders, entities and point expressions. On entities of a product with a vertex for a factor the code raises AssertionError, though tabulation works there (finding F31). FIAT's symbolic tabulation is an oracle."
  },
  {
   "property": "C54",
   "status": "proved",
   "theorems": [
    "C54_preimage",
    "C54_johnson_mercier",
    "C54_arnold_winther_nc",
    "C54_arnold_winther",
    "C54_hu_zhang",
    "C54_mardal_tai_winther",
    "C54_alfeld_sorokina",
    "C54_piola_bubble",
    "C54_johnson_mercier_dimension",
    "C54_mardal_tai_winther_dimension"
   ],
   "note": "All affine simplices with nonzero Jacobian. What FIAT's dofs are is an input of the theorems: functionals of normal and tangential components on facets, components and divergences at points, other dofs on the reference cell."
  },
  {
   "property": "C56",
   "status": "proved",
   "theorems": [
    "C56_permutations",
    "C56_product_action"
   ],
   "note": "All trees, entities and orientations. FIAT's make_entity_permutations_tensorproduct, flatten_permutations and the leaves' dictionaries are oracles with stated contracts; the samples reproduce the documented dictionary. Orientations that exchange unlike axes are outside (`proper`)."
  },
  {
   "property": "C57",
   "status": "proved",
   "theorems": [
    "C57_support",
    "C57_integral",
    "C57_sound",
    "C57_threshold_refuted",
    "C57_nested_facets_refuted"
   ],
   "note": "All trees. That the leaves' integrals above the tolerance tell zero from nonzero is a hypothesis, met by the samples; without it only soundness holds, because the tolerance 1e-8 is absolute (refuted, finding F32). Elements that integrate on a hexahedron built from a quadrilateral raise AssertionError (finding F33). Quadrature exactness is the contract of C19."
  },
  {
   "property": "C58",
   "status": "proved",
   "theorems": [
    "C58_tabulation",
    "C58_inside",
    "C58_nodal",
    "C58_rules",
    "C58_no_mapping",
    "C58_symbolic_point",
    "C58_documented_points_refuted"
   ],
   "note": "All degrees, orders and point sets; exact arithmetic. sympy/symengine differentiation is an oracle whose expressions have the value of the derivative wherever this is defined (contract `differentiates`, met by the sample); that the rules give derivatives is proved (C58_rules). `edge_regular` is the condition of C36. The physical points must have the axes of the point set in front, other than their docstring says (finding F34)."
  },
  {
   "property": "C59",
   "status": "proved",
   "theorems": [
    "C59_rules",
    "C59_one_map_per_axis",
    "C59_moves",
    "C59_invariant",
    "C59_extrinsic",
    "C59_unset",
    "C59_generator_refuted"
   ],
   "note": "All cells without empty products, degrees and orientations. FIAT's maps are oracles with the contract `orientable` (one map or None per rule, mapping points to their images, equal weights), met by the sample. A TensorProductQuadratureRule given a generator has no maps (finding F35)."
  },
  {
   "property": "C60",
   "status": "proved",
   "theorems": [
    "C60_variant",
    "C60_variant_finite",
    "C60_variant_read",
    "C60_variant_broken_refuted",
    "C60_variant_refused",
    "C60_degree",
    "C60_degree_refuted",
    "C60_cell",
    "C60_cell_refuted",
    "C60_scheme",
    "C60_scheme_refuted",
    "C60_leaves",
    "C60_mapping",
    "C60_mapping_accepted",
    "C60_mapping_refused"
   ],
   "note": "All elements that can be built. `inhabited`: mixed elements have components, tensor elements at least one. The degree fails for the vector families on product cells (finding F36), products keep the cells of their factors (F37), a scheme cannot be set where a product meets another element (F38), broken elements forget the variant (F39)."
  },
  {
   "property": "C61",
   "status": "proved",
   "theorems": [
    "C61_mixed",
    "C61_mixed_accepted",
    "C61_mixed_refused",
    "C61_vector",
    "C61_vector_accepted",
    "C61_vector_refused",
    "C61_vector_refuted",
    "C61_tensor",
    "C61_tensor_refused",
    "C61_product",
    "C61_product_accepted",
    "C61_product_refused",
    "C61_product_scheme_refuted",
    "C61_sum",
    "C61_sum_accepted",
    "C61_sum_refused",
    "C61_sum_bound_refuted",
    "C61_sum_order_refuted",
    "C61_hdivcurl",
    "C61_restricted",
    "C61_wrappers"
   ],
   "note": "All lists of elements. UFL's max_degree (numpy.maximum) is modelled after its source; a tuple within a tuple is a TypeError there (numpy raises TypeError or ValueError). The degree of a sum of nested products does not bound those of the summands (finding F40); nested products have no vectors (F41); a sum with an element without degree depends on the order (F42); products forget the schemes (F43)."
  },
  {
   "property": "C62",
   "status": "proved",
   "theorems": [
    "C62_eval",
    "C62_string",
    "C62_cell",
    "C62_mapping_refuted",
    "C62_variant_refuted"
   ],
   "note": "All elements that can be built. The reader of Python text (`scan`, `parse`, `eval`) is written independently of the printer; it knows the names of UFL's cells and the signatures of the classes. Strings are Latin-1. `writable` excludes mappings and repeated variants that need escapes, for which the claim is refuted (finding F44)."
  },
  {
   "property": "C63",
   "status": "proved",
   "theorems": [
    "C63_order",
    "C63_transitive",
    "C63_sorted",
    "C63_unequal",
    "C63_operators",
    "C63_getitem",
    "C63_call",
    "C63_constant",
    "C63_constant_found",
    "C63_bubble_refuted",
    "C63_product_refuted",
    "C63_linear",
    "C63_linear_refuted",
    "C63_sub_elements",
    "C63_sub_elements_refuted",
    "C63_mixed_space",
    "C63_mixed_space_refuted"
   ],
   "note": "All elements that can be built. `bounds` are the embedded degrees of C49's specification. Bubbles of degree 0 are said to be constant (finding F45), products and nodal sums of constants are not, nor is a linear element with a named mapping said to be linear (F46); WithMapping hides the sub-elements (F47); the space of a mixed element whose spaces are not nested depends on the order (F48; UFL's comparison of spaces is external and recorded in the model)."
  },
  {
   "property": "C64",
   "status": "proved",
   "theorems": [
    "C64_mapping",
    "C64_no_mapping",
    "C64_form_degree",
    "C64_form_degree_missing",
    "C64_form_degree_bound",
    "C64_wrappers"
   ],
   "note": "All element trees; `populated` (every leaf has a functional, no empty sum) for the mapping. `mapped_by` and `forms` say it function by function, as relations on the tree."
  },
  {
   "property": "C65",
   "status": "proved",
   "theorems": [
    "C65_scale_invariance",
    "C65_mass",
    "C65_edge_moments",
    "C65_average_refuted",
    "C65_hermite"
   ],
   "note": "All factors, affine images and degrees. `enlarged` relates two coordinate mappings through the contract `provides` of C32. With avg=True the transformation does depend on the size (finding F49)."
  },
  {
   "property": "C66",
   "status": "proved",
   "theorems": [
    "C66_symmetry",
    "C66_own",
    "C66_failure",
    "C66_taylor_hood_refuted",
    "C66_tensor_values_refuted",
    "C66_components",
    "C66_components_refuted"
   ],
   "note": "Value shapes (UFL) are an argument. The part about components and mixed parts is false of the code: findings F50 to F52."
  },
  {
   "property": "C67",
   "status": "proved",
   "theorems": [
    "C67_argyris",
    "C67_argyris_cells",
    "C67_hct",
    "C67_hct_cells",
    "C67_argyris_point",
    "C67_argyris_point_cells",
    "C67_bell",
    "C67_bell_cells",
    "C67_reduced_hct",
    "C67_reduced_hct_cells",
    "C67_morley",
    "C67_morley_cells",
    "C67_hermite",
    "C67_powell_sabin12",
    "C67_powell_sabin12_cells",
    "C67_powell_sabin6",
    "C67_powell_sabin6_kink",
    "C67_powell_sabin6_cells",
    "C67_powell_sabin6_smooth_refuted"
   ],
   "note": "All reference triangles and pairs of affine images with a common edge. `based` (contract of FIAT: polynomial pieces next to the edges, dual to the dofs of C32) is met on every triangle by the `_cells` theorems, without interior dofs. The functions are looked at next to the edges; that macro elements are smooth inside a cell is FIAT's part. Powell-Sabin 6 is only continuous in general: finding F53."
  },
  {
   "property": "C68",
   "status": "proved",
   "theorems": [
    "C68_johnson_mercier",
    "C68_johnson_mercier_cells",
    "C68_arnold_winther_nc",
    "C68_arnold_winther",
    "C68_hu_zhang",
    "C68_mardal_tai_winther",
    "C68_mardal_tai_winther_cells",
    "C68_piola_bubble",
    "C68_bubble_space",
    "C68_arnold_winther_sizes_refuted",
    "C68_points",
    "C68_points_inside",
    "C68_moments",
    "C68_moments_inside",
    "C68_corners"
   ],
   "note": "The reference bases are any that are dual to the reference dofs; existence over each affine map is C68_*_cells. Two cells that share a facet list its vertices in the same order, as sorted global numbers give; Arnold-Winther and Hu-Zhang dofs at vertices are scaled by cell sizes, which must agree there (F55). For the bubble elements the traces' space on a facet is a parameter; C68_bubble_space gives the linear polynomials and one bubble, and vertex dofs are taken on the facet's piece."
  },
  {
   "property": "C69",
   "status": "proved",
   "theorems": [
    "C69_matrices",
    "C69_vectors",
    "C69_scalars",
    "C69_powell_sabin12",
    "C69_morley",
    "C69_ufc_triangle",
    "C69_powell_sabin12_refuted"
   ],
   "note": "Powell-Sabin 12 on reference triangles other than UFC's is refuted (F54); Hermite and Powell-Sabin 6 ask for the Jacobian at vertices and are not part of the claim."
  }
 ]
}