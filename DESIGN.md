# Formal model of FInAT: design

The code under `/repo` is modelled in Coq 8.16.1 as total, computable Gallina
functions that follow the Python branch by branch.  Python exceptions are
values (`Err` of an exception class); a Python function that can raise returns
a `result`.  The model is in `rocq/theories/`:

* `Model/*.v`  definitions only, each with a comment giving file and lines,
* `Spec/*.v`   small specifications, written without the model's helpers,
* `Proofs/*.v` lemmas,
* `Props/*.v`  the theorems (each closed by `exact lemma`), `Print Assumptions`
  below each, and concrete non-trivial `Example`s that meet the hypotheses.

## Trusted base

* Coq's kernel (and `vm_compute` where examples are computed).
* What `Print Assumptions` prints: every theorem so far is closed under the
  global context.  Numbers are elements of an arbitrary commutative ring, field
  or ordered field instead of Coq's axiomatic `R`.
* That the Gallina definitions transcribe the Python.  This was done by
  reading; nothing in `/repo` is executed.
* The recorded contracts for external libraries (below).

### External libraries as oracles

FIAT, GEM, UFL (cells, Sobolev spaces), numpy, sympy and md5 are outside
`/repo`.  They occur as record fields, section variables that become ordinary
universally quantified arguments, or small definitions with a documented
contract:

* FIAT leaf elements: a record (entity_dofs, space dimension, value shape,
  mapping, form degree, tabulation function, functionals).  Well-formedness
  (entity_dofs is a partition, ...) is an explicit hypothesis.
* FIAT cells: number of entities per dimension for simplices, product and
  flattened cells built as FIAT builds them.
* FIAT.RestrictedElement: keeps, per entity and in order, the dofs on the
  selected dimensions.
* GEM: own abstract syntax and evaluation semantics for the nodes FInAT
  builds (indices are numbers, `gem.Index()` draws a fresh one).
* numpy: ravel/unravel/reshape/transposition as index arithmetic.  Floating
  point is replaced by exact reals.

### Modelled / not modelled

Modelled: numbering and shape methods, tabulation and dual-basis
construction, restriction, point sets and quadrature, Piola helpers, the
transformation matrices of the zany elements named in the properties, direct
serendipity, sympy2gem, runtime tabulation names, entity permutations and
supports, orientation maps of quadrature rules, the UFL element layer.

Not modelled: caching (`cached_property`), logging, deprecated aliases,
`complex`/scatter helpers for orientation of FIAT (`make_entity_permutations`
is an oracle), floating-point rounding, `__str__`/`shortstr`.

## What is proved, per property

Every theorem below is in `Props/`, ends in `Qed`, and is followed by its
`Print Assumptions`.  Unless a line says otherwise the answer is "Closed under
the global context": no axiom at all, neither of ours nor of the library.
Values live in an arbitrary commutative ring (`ops` with a `ring_theory`
hypothesis), of which the reals, the rationals and the integers are instances;
floating-point rounding is the one idealisation.

### Numbering (`Model/Cell, Element, EntityMaps`; `Props/Dofs`)

Element trees are an inductive type with nine constructors (leaf, product,
tensor, enriched, mixed sub-element, flattened, discontinuous, H(div),
H(curl)).  `sensible` is the domain on which the code is meant to work: no
empty product, flattened trees are cubes, summands of a sum live on one cell.

* C01 `C01_entity_dofs_partition`: induction on trees; "permutation of range n".
* C02 `C02_entity_dofs_keys`; false outside `sensible`:
  `C02_flattened_prism_refuted` (F1), `C02_empty_product_refuted` (F2).
* C03 `C03_space_dimension`: product of index_shape.
* C04 `C04_tensor_product_layout`: product entities and dofs are row-major.
* C05 `C05_tensor_layout`: both layouts of vector elements.
* C06 `C06_enriched_layout`, `C06_discontinuous_layout`.
* C07 `C07_enriched_nesting`, `C07_no_enriched_summand`.
* C08 `C08_entity_closure_dofs`: sorted, duplicate-free, exactly the closure.
* C09 `C09_unflatten_bijective`, `C09_flattened_layout`,
  `C09_hexahedron_numbering`.
* C10 `C10_permutation_blocks`, `C10_permutations_of_dofs`.
* C52 `C52_*`: degrees of sums, products and flattened elements.
* C56 (`Model/Permutations`, `Spec/{Permutations,PermSamples}`;
  `Props/Permutations`) `C56_permutations`: induction on trees; either a legal
  dictionary (`permutations_fit`) and the tree is `permutable`, or
  NotImplementedError and it is not.  `C56_product_action`: what the
  permutation of a product entity does to the dofs.  The contracts on FIAT are
  `tp_contract`, `flat_contract`, `leaf_contract`, `join_contract`; the sample
  instance is proved to meet them and gives the dictionary in the docstring of
  compose_permutations (`C56_documented`).
* C57 (`Model/Support`, `Spec/{Support,SupportSamples}`; `Props/Support`)
  `C57_integral`: the elements that integrate list the functions whose exact
  square integral exceeds the tolerance (C16 for the values, C19 for the rule).
  `C57_support`: all trees, with `nonzero_on` defined by `value_of` alone; needs
  `separated`, i.e. that the tolerance tells zero from nonzero functions at the
  integrating nodes.  `C57_sound`: without that, functions that vanish are not
  listed.  F32, F33 refute the unrestricted statements.

### Tabulation (`Model/Gem, PointSet, Evaluation`; `Props/Tabulation`)

GEM has its own syntax and an evaluator; `gem.Index()` is a counter in a state
monad.  The specification is the relation `value_of` (Spec/Tabulation.v): what
value a basis function of a tree has, in terms of the leaves' FIAT values.

* C11 `C11_merge_evaluations`, `C11_tensor_product_values`.
* C12 `C12_tensorise`; the shape () fails: `C12_scalar_shape_refuted` (F3).
* C13 `C13_compose_evaluations`.  C14 `C14_*` (mixed elements).
* C15 `C15_*`: H(div)/H(curl) accept what they should, place the components,
  and the two-dimensional rotation is an isometry.
* C16 `C16_tabulation`: induction over all trees: `basis_evaluation` succeeds,
  has the right keys, shapes and free indices and evaluates to `value_of`.
* C17 `C17_fiat_tabulation` with the reshape/transposition of FIAT tables and
  the constant/vanishing derivative shortcuts;
  `C17_*_refuted` for the zero tables of reduced elements (F4).
* C51 `C51_tabulation`, `C51_shortcut`, `C51_tree` (`Props/Spectral`): the
  shortcut of spectral elements at their own nodes. For trees the induction of
  C16 is repeated for any property of point sets that factoring preserves.
  Points of the class that are not the nodes: `C51_other_points_refuted` (F30).
* C53 `C53_*` (`Model/PointEvaluation`; `Props/PointEvaluation`): the same for a
  point given by an expression, by the same `value_of`. `sliceable` describes
  the entities on which it works; on all others the code raises AssertionError
  (`C53_works_exactly`; F31). FIAT leaves go through sympy2gem (C38), with
  FIAT's expressions as an oracle. `C53_same_as_tabulation` compares with C16.
* C18 `C18_*`: point sets; a sliced tensor point set is refuted (F5).

### Quadrature (`Model/Quadrature`; `Props/Quadrature`)

* C19 exactness of product rules for products of integrands by a
  Fubini-for-sums argument over an arbitrary commutative ring.
* C20 number of points, degree splitting, error branches.
* C21 QuadratureElement: values, points, dual basis, refusal of other points.
* C59 (`Model/Orientation`, `Spec/Orientation`; `Props/Orientation`) The rules of
  C19 with their cell and orientation maps; `C59_rules` says that nothing else
  differs. FIAT's maps are an oracle: for each rule one map or None, sending
  points to their images under the abstract `move` (contract `orientable`).
  `C59_one_map_per_axis`, `C59_moves` (permuting the indices of the axes moves
  the points axis by axis and keeps the weight), `C59_invariant` (the sum over
  the points does not change), `C59_extrinsic`, `C59_unset`,
  `C59_generator_refuted`: F35.

### Dual bases (`Model/Dual`; `Props/Dual`)

* C22 `C22_fiat_dual`, `C22_dual_basis_tree`: for every sum-free tree the
  (Q, points) pair denotes the functionals the specification `dual_of` gives.
  Conditions on FIAT's functionals are needed (F7, three refutations).
* C23 `C23_nodality`: dual basis applied to the basis is the identity;
  `C23_repeated_quadrature_refuted` (F6).
* C24 `C24_dual_evaluation`, `C24_tensor_dual_evaluation`,
  `C24_sums_refused`; index order for transpose=True refuted (F8).

### Restriction (`Model/Restricted`; `Props/Restricted`)

The FIAT restriction of a leaf is a function argument with the contract
`fiat_restricts`; `C26_contract` shows that renumbering meets it.

* C25 `C25_*`: names and codimensions, both directions, rejected inputs.
* C26 `C26_restriction`, `C26_numbering`: induction over `restrictable` trees;
  products by splitting the codimension over the factors.  Outside:
  `C26_cell_by_name_refuted`, `C26_one_member_refuted`,
  `C26_nested_product_refuted` (F9).
* C27 `C27_values` (composition with C16); `C27_mixed_shape_refuted` (F10).
* C28 false as stated: `C28_default_rule`, `C28_refuted` (F11); what holds is
  `C28_only_elements`, `C28_physically_mapped`.

### Piola helpers (`Model/Piola`; `Props/Piola`)

* C29 `C29_determinant`, `C29_adjugate`, `C29_inverse`, `C29_piola_inverse`:
  the recursive Python functions equal mathcomp's `\det` and `\adj` for every
  size, and the contravariant Piola map is undone.
* C30 facet transforms: normal and tangential moments of Piola-mapped fields on
  edges and faces, any non-degenerate Jacobian.

### Zany scalar elements (`Model/Zany`, `Spec/{Polynomials,Zany,Split}`; `Props/Zany`)

Functions are polynomials (SsrMultinomials), one per piece of the
triangle; composition with an affine map, derivatives, restriction to an edge
and integrals over it are defined in `Spec/Polynomials` with no reference to
the model.  FIAT's dofs are written down in `Spec/Zany` and `Spec/Split`.  What
a coordinate mapping must return is the predicate `provides`, which the sample
geometry (3-4-5 triangle mapped to 5-12-13) meets.

* C31 `C31_vertex_dofs` (any dimension, values, gradients, Hessians),
  `C31_hermite` (any dimension, any polynomial map).
* C32 for each element, the relation between reference and physical dofs and
  the nodality of the transformed basis: `C32_hermite` (also Powell-Sabin 6),
  `C32_argyris_integral*` for all degrees, `C32_argyris_point*`, `C32_bell*`,
  `C32_hct*` for all degrees, `C32_reduced_hct*`, `C32_morley*`,
  `C32_powell_sabin12*`.  The nodality theorems assume that FIAT's reference
  basis is nodal; the examples construct such a basis for Morley and Hermite.
  Exactness of the edge coefficients (15/8, -7/16, 1/32, 1/21, ...) is proved
  for all quintics/cubics by coefficient comparison.

### Piola-mapped elements (`Model/PiolaElements`, `Spec/PiolaElements`; `Props/{PiolaElements,PiolaEntries}`)

Fields are vectors or symmetric matrices of polynomials, one family per piece
of the cell. `vpreimage` and `mpreimage` are the fields that the contravariant
(double) Piola map takes to a given field (`C54_preimage`). A dof is a
component or the divergence at a point, a functional on a facet applied to the
normal or a tangential component, or a dof taken on the reference cell. On
facets, normals and tangents are not normalised: both keep the length that the
edges give them, on the reference cell as on the physical one.

* C54 each theorem says that the matrix exists, has the right extents, relates
  the reference dofs of preimages to the dofs on the physical cell, and turns a
  nodal reference basis into a nodal basis on the physical cell:
  `C54_johnson_mercier` (2D, 3D), `C54_arnold_winther_nc`,
  `C54_arnold_winther`, `C54_hu_zhang` (all degrees, both variants),
  `C54_mardal_tai_winther`, `C54_alfeld_sorokina` (all dimensions),
  `C54_piola_bubble` (2D, 3D). Other dimensions raise (`C54_*_dimension`).
  Which functional a FIAT dof is, is an input (`sense`). The example for bubbles
  constructs a nodal basis of quadratic fields; `Props/PiolaEntries` computes
  entries, which agree with an independent numeric calculation.

### Physically mapped elements (`Model/Mapped`; `Props/Mapped`)

* C33 `C33_mapped_tabulation`, `C33_mapped_by_entries`: every derivative table
  is the transformation matrix times FIAT's numbers, at any point set, also
  when FIAT has more functions than the element (then up to the degree);
  `C33_missing_mapping`; `C33_above_degree_refuted` (finding F4 reaches the
  mapped elements: ValueError).
* C34 the reduced dictionaries are partitions on the right keys
  (`C34_clear_facets`, `C34_bell`, `C34_reduced_hct`, `C34_arnold_winther`,
  `C34_mardal_tai_winther`, `C34_piola_bubble`), from the partition property of
  FIAT's dictionary and "the dropped dofs are numbered last", which the source
  comments state; `C34_piola_bubble_mapping` for the check of the mapping.

### Direct serendipity (`Model/Serendipity`, `Spec/{Serendipity,Partial}`; `Props/{SerendipityDofs,Serendipity,SerendipityEvaluation}`)

The symbolic expressions of `ds1_sym`/`dsr_sym` are modelled as functions over
an `ops` record, in the order of the code; the theorems take
`partial_ops F`: exact arithmetic over a real field `F`, division by zero
undefined (`None`), so a theorem that says `Some` also says that nothing was
divided by zero. The specification (quadrilaterals, nodes, nodal, trace,
interpolant) does not use the model.

* C35 `C35_entity_dofs`, `C35_placement`, `C35_dimension`, `C35_functions`
  (for all `r >= 1`), and the nodes lie on the entity that owns the dof:
  `C35_vertex_nodes`, `C35_edge_nodes`, `C35_inner_nodes`, `C35_nodes`.
* C36 `C36_nodal_iff`: for `r >= 2` the basis is nodal if and only if
  `edge_regular` holds for the four edges; `C36_nodal`: this is so for `r <= 3`
  and on parallelograms; `C36_defined`: no division by zero in the closed cell;
  `C36_nodal_refuted` (finding F12).
* C37 `C37_newton_poly`, `C37_lengths`, `C37_no_nodes`.
* C55 `C55_conforming` (trace on an edge = Lagrange polynomial of the edge's
  nodes) for `r <= 2` and on parallelograms; `C55_linear`, `C55_quadratic`;
  `C55_polynomials`: for `r <= 2`, and for all `r` on parallelograms,
  interpolation reproduces every polynomial of degree `r`. There the functions
  lie in the span of these polynomials and two more functions, as many as there
  are nodes, and nodality makes the matrix of coefficients invertible.
  `C55_conforming_refuted`, `C55_unity_refuted` (finding F13): neither holds for
  `r = 3` on a trapezium.
* C58 (`Model/SerendipityEvaluation`, `Spec/SerendipityEvaluation`) The code
  builds expressions in symbols, differentiates, and binds vertices and points.
  The model runs the same `ds_sym` over syntax trees (`rops`); that these have
  the values of the functions of C36 is a parametricity lemma
  (`Proofs/SerendipityRel`). sympy's derivative is an oracle (`ext_diff`) with
  the contract `differentiates`; `C58_rules` shows that the rules in this
  contract give slopes (a Taylor remainder of second order), and
  `partial_derivatives` in the theorems is stated with slopes only.
  `C58_tabulation`: keys, shapes, free indices, values. `C58_inside`: all defined
  in the closed cell under the conditions of C36. `C58_nodal`: the identity at
  the nodes. `C58_documented_points_refuted`: F34.

### Symbolic expressions and run-time tables (`Model/{Sympy2Gem,Runtime}`, `Spec/Sympy`)

* C38 `C38_meaning`: the GEM expression has the value (number or truth value)
  the sympy expression has; Piecewise = first true piece, NaN if none.
  `C38_defined`: what can be translated; `C38_errors`: each error is caused by a
  part of the expression that accounts for it.
  `C38_shapes`, `C38_shape_errors`: the same with tensors bound to symbols.
* C39 `C39_names` (injective, by parsing from the right, so variants may
  contain underscores), `C39_tables`, `C39_arguments`, `C39_construction`,
  `C39_point_sets_refuted`.

### The list of families (`Model/Registry`, `Spec/Registry`; `Props/Registry`)

`Model/Registry.v` holds the 108 calls of `elementlist.py` in order and a model
of the two registration functions; the alias loop runs on fuel, with `None` for
"still running". `Spec/Registry.v` states separately what is accepted
(`described`), the periodic table of forms (`forms`) and the second names.

* C40 `C40_terminates`, `C40_family` (result is registered, no alias, allowed),
  `C40_registered` (accepted exactly when described), `C40_other_names`,
  `C40_forms`, `C40_unknown`, `C40_errors` (all errors that are no ValueError),
  `C40_valueerror_refuted`, `C40_form_degree_refuted`.
* C41 `C41_again`; `C41_short_name_refuted`.
* C42 `C42_existing`, `C42_kept`, `C42_meaning`; `C42_short_name_refuted`,
  `C42_alias_refuted`.
* C50 `C50_pullback`.

### Symbolic elements (`Model/UflElement`, `Spec/UflElement`; `Props/UflElement`)

`Model/UflElement.v` has the eleven element classes of `finat/ufl` as one
inductive type, with the attributes that the constructors store; repr is a
printer into strings (Python's quoting of strings included). `Spec/UflElement.v`
says what is meant without that text: `built` (made by the constructors), `same`
(same class, same data), `included` (Hasse diagram of the spaces), `components`,
`numbered` (symmetries), `bounds` (degrees).

* C41 `C41_built`, `C41_reconstruct`: every tree is reconstructed from the same
  data.
* C43 `C43_equality` (== is `same`; injectivity of the printer), `C43_equivalence`,
  `C43_hash`, `C43_same`; `C43_apostrophe_refuted`, `C43_symmetry_refuted`.
* C44 `C44_level`, `C44_level_all`, `C44_components`, `C44_outside`,
  `C44_negative`, `C44_rank`; `C44_rank_refuted`, `C44_negative_refuted`.
* C45 `C45_numbers`, `C45_onto`, `C45_accepted`, `C45_refused`, `C45_symmetric`;
  `C45_pullback_refuted`, `C45_errors_refuted`, `C45_short_keys_refuted`.
* C46 `C46_elements`; `C46_length_refuted`.
* C47 `C47_spaces`, `C47_element`.
* C48 `C48_lagrange`, `C48_lagrange_accepted`, `C48_vector`,
  `C48_vector_accepted`, `C48_vector_refused`, `C48_undescribed`;
  `C48_scheme_refuted`, `C48_prism_refuted`.
* C49 `C49_bounds`, `C49_order`; `C49_defined_refuted`, `C49_restricted_refuted`.
* C60 (`Spec/Reconstruct`; `Props/Reconstruct`) Reconstruction with one keyword.
  `leafwise R`: the same tree with related leaves. `C60_variant`,
  `C60_variant_finite` (commutes with FiniteElement, also where it expands),
  `C60_variant_read`, `C60_variant_refused`, `C60_degree` (commutes with
  FiniteElement outside the vector families), `C60_cell`, `C60_scheme`,
  `C60_leaves` (any of family, degree, scheme and variant: every leaf is remade
  from the given arguments and its own), `C60_mapping*` (a mapping goes to the
  outermost `WithMapping`s and is refused where a leaf has none above it);
  refutations of the rest: F36-F39.
* C61 (`Spec/Attributes`; `Props/Attributes`) Cell, degree, scheme and shape of
  composite elements, and when they can be made. `mixed_degree`, `sum_degree`:
  greatest degree in every direction, greatest entry in Python's order
  (`below`, `topmost`). For each constructor what it computes, what it accepts
  and what it refuses with which error; refutations: F40-F43.
* C62 (`Spec/PythonText`; `Props/PythonText`) eval(repr(e)) is e. The
  specification is a reader of Python text: `scan` (tokens, with string escapes),
  `parse` (a stack machine for tuples, dicts and calls), `eval` (binds
  arguments to the parameters of the classes and calls the constructors).
  `C62_eval`; refutations: F44.
* C63 (`Model/UflOperators`, `Spec/Operators`; `Props/Operators`) order,
  operators and queries of symbolic elements: `<` is a strict order whose ties
  are the equal elements (`C63_order`, `C63_transitive`, `C63_sorted`), `+`, `*`,
  `[...]` and the callable spaces (`C63_operators`, `C63_getitem`, `C63_call`),
  `is_cellwise_constant` against the embedded degrees in both directions
  (`C63_constant`, `C63_constant_found`), `_is_linear` (`C63_linear`),
  sub-elements (`C63_sub_elements`), the space of a mixed element
  (`C63_mixed_space`). Refutations: F45 to F48.
* C64 (`Model/Element`, `Spec/Mappings`; `Props/Mappings`) mappings and form
  degrees of FInAT trees, which decide the transformation in the H(div) and
  H(curl) wrappers (C15): `mapping` against the mappings of the single basis
  functions (`C64_mapping`, `C64_no_mapping`), `formdegree`
  (`C64_form_degree`, `_missing`, `_bound`) and what the wrappers report
  (`C64_wrappers`).
* C65 (`Model/Zany`, `Spec/Scaling`; `Props/Scaling`) what the "patch up
  conditioning" lines are for: the transformation is the same for cells of all
  sizes (`C65_scale_invariance`, `C65_hermite` in any dimension), so mass
  matrices only grow with the area (`C65_mass`). The exact growth with `avg`:
  `C65_edge_moments`. Refutation: F49.
* C66 (`Model/UflSymmetry`, `Spec/UflSymmetry`; `Props/UflSymmetry`) the symmetry
  dictionary of mixed elements in the vector of all values (`C66_symmetry`, with
  the value shapes of UFL as an argument), of the parts (`C66_own`) and its
  errors (`C66_failure`); queries for a component (`C66_components`).
  Refutations: F50 to F52.

- **C67** (`Spec/Conformity.v`, `Proofs/Conformity*.v`, `Proofs/EdgeUnisolvence.v`, `Proofs/EdgeBases*.v`,
  `Props/Conformity.v`): functions built with the transformed bases of two triangles that share an edge. By C32
  the coefficients are the physical dofs, so the difference of the two functions has zero dofs on the edge; a
  unisolvence argument for one variable (values and derivatives at the ends, moments against Jacobi or Legendre
  polynomials, or the midpoint) shows that its trace and its normal derivative vanish along the whole edge. The
  `_cells` theorems construct, for every triangle, functions that meet the hypothesis `based`, by inverting
  the same one-dimensional problems and extending from the edges; they show that the hypotheses can be met
  everywhere and are not an extra restriction on the triangles. A triangle and its mirror image (negative
  determinant, different coefficients away from the common edge) serve as example.
  The Powell-Sabin elements (`Spec/SplitConformity.v`, `Proofs/Split*.v`, `Props/SplitConformity.v`) have
  quadratic pieces next to each half of an edge, joined at its midpoint. `centred` says that the two
  pieces also join along the line to a point `z`, which determines whether Powell-Sabin 6 is smooth
  (`C67_powell_sabin6`, `C67_powell_sabin6_kink`); refutation: F53.
- **C68** (`Spec/PiolaConformity.v`, `Proofs/PiolaConformity*.v`,
  `Proofs/PiolaCells.v`, `Proofs/PiolaNeighbours.v`, `Props/PiolaConformity.v`): two
  affine images of the reference cell that share a facet, whose numbers in the
  two cells may differ. `C68_johnson_mercier` (two and three dimensions): the
  matrix fields times the normal agree on the facet. `C68_arnold_winther_nc`:
  only the functionals that are dofs agree (the element is not conforming).
  `C68_arnold_winther`, `C68_hu_zhang` (`Props/PiolaVertices.v`; every degree,
  both variants): the fields times the normal agree on the edge; dofs at vertices
  are scaled by cell sizes, so these must agree at the ends. Sample bases:
  `Proofs/PiolaCells2.v`, `Proofs/PiolaShapes.v`.
  `C68_mardal_tai_winther`: the normal components agree on the facet, the
  tangential ones for the functionals that are dofs. `C68_piola_bubble`
  (`*/BubbleConformity.v`; Bernardi-Raugel and its kin, two and three
  dimensions): all components agree on the facet when the coefficients at its
  vertices and of its normal dof do; the tangential moments are no coefficients,
  they vanish on both sides. `C68_bubble_space`: linear polynomials and a bubble
  satisfy the condition on the traces. Refutation: F55. `C68_*_cells` builds bases
  with the dofs over each affine map; `C68_points`, `C68_moments`
  (and `_inside`) and `C68_corners` say which functionals determine polynomials on a facet.
- **C69** (`Spec/Barycentre.v`, `Proofs/Barycentre.v`, `Props/Barycentre.v`): for
  coordinate mappings of any kind the matrix is that of the affine mapping with
  the Jacobian at the barycentre of the reference cell; refutation: F54.

Not modelled: directional spaces of nested products and of mixed elements; short strings.

## Findings

Each is a proved `_refuted` theorem with a concrete witness.

* F1 `FlattenedDimensions` of a prism (triangle x interval): accepted by the
  constructor, but entity numbering is that of a hexahedron's, so
  entity_dofs does not match the cell.
* F2 `TensorProductElement([])` has a dof dictionary that does not match its
  cell.
* F3 `TensorFiniteElement(e, ())` is accepted; tabulating it raises TypeError.
* F4 Reduced elements (more FIAT functions than kept): the zero table for
  derivatives above the degree has the wrong shape; applying the
  transformation matrix to it raises ValueError.
* F5 `TensorPointSet` made of slices: `expression` fails.
* F6 The same QuadratureElement object twice in a product shares its point
  index; the product's dual basis is not dual.
* F7 `FiatElement._dual_basis`: a weight for a repeated component overwrites
  the earlier one; a trailing component no functional uses makes the weight
  array too small (AssertionError); weights merely close to one are treated
  as exactly one.
* F8 `TensorFiniteElement.dual_evaluation` with transpose=True returns the
  base element's indices first, unlike index_shape.
* F9 Restriction fails where it should succeed: a discontinuous element
  restricted to a domain that names its cell (e.g. "edge" on an interval)
  raises ValueError though dofs exist; a mixed element with one member raises
  AssertionError; a product with a product as factor raises TypeError.
* F10 Restricting a mixed element drops members without selected dofs and with
  them components of the value shape.
* F11 The default rule of `restrict` returns a NotImplementedError instance
  instead of raising it; RestrictedElement hands it to the caller, also inside
  sums and tensor elements.
* F12 Direct serendipity of degree 4: on some convex quadrilaterals (e.g.
  vertices (0,0), (5,0), (0,5), (u,1) with 35u^2 - 545u + 438 = 0, u = 14.7...)
  the normalising factor of an edge function is zero; the function is 0/0
  everywhere.
* F13 Direct serendipity of degree 3 on cells that are not parallelograms:
  functions of neighbouring cells differ on the common edge and the functions do
  not sum to one (719/720 at a point of a trapezium), although the docstring of
  `dsr_sym` promises C^0 functions and all polynomials of degree r. The cause is
  the rational function `tunnel_R` where a linear one is needed.
* F14 The name of a run-time table does not mention the point set: the same
  element evaluated at two point sets gives variables of the same name and
  different shapes.
* F15 `canonical_element_description` refuses some input with other exceptions
  than ValueError: DG on a product cell with degree None or a tuple, and names of
  forms without form degree, integer degree or cell, give TypeError; a form degree
  above n, or a cell of dimension 4 or more, gives IndexError.
* F16 Form degrees that do not exist are accepted: -1 is taken for n (Python's
  negative indices), and a vertex uses the row of dimension 3.
* F17 The short name is lost when an element is reconstructed: CG on a
  quadrilateral prints as CG, after `reconstruct()` as Q.
* F18 `register_element` does not check the short name: a new family can take
  over an existing name. `register_alias` checks nothing: it can redirect a
  built-in family, and an alias for itself makes the loop endless.
* F19 repr does not escape the mapping of WithMapping: with apostrophes in it, a
  mixed element of one sub-element equals one of two.
* F20 Tensor elements with equal symmetry dictionaries are unequal when the
  entries were inserted in another order.
* F21 `extract_reference_component` of vector or tensor elements whose reference
  value has not rank one (a vector of RT, a tensor without symmetry) ends in an
  AssertionError for every valid index.
* F22 Negative component indices are accepted by elements that are not mixed.
* F23 TensorElement with a symmetry key before the index it equals: the pullback
  numbers the components differently from the element.
* F24 Symmetry keys that equal themselves or a later key give KeyError, too long
  ones IndexError; too short ones are accepted and only the reference value shape
  counts them.
* F25 `reconstruct_from_elements` ignores the given elements when they are a
  prefix of the present ones or extend them (zip truncates); also for none.
* F26 `FiniteElement` drops the quadrature scheme on product cells.
* F27 DQ with a prism, pyramid or vertex as a factor is described but cannot be
  made; Q can.
* F28 Embedded degrees are not defined (TypeError, ValueError) for elements
  without degree, empty mixed elements and products of products.
* F29 The embedded superdegree of a restricted Bernardi-Raugel element is 1, that
  of the element 2.
* F30 GaussLobattoLegendre and GaussLegendre recognise their nodes by the class
  and the number of the points. Other points of the class, such as those of a
  rule mapped to part of the cell, get the identity matrix for values.
* F31 `point_evaluation` of products fails (AssertionError) on entities with a
  vertex for a factor, such as the facets of a quadrilateral: the coordinates of
  a vertex are an empty `gem.ListTensor`. `basis_evaluation` works there.
* F32 `entity_support_dofs` compares integrals with the absolute tolerance 1e-8
  ("Is this a safe value?"): functions of small size, such as 1e-5 x, are missed.
* F33 `entity_support_dofs` of elements that integrate (tensor-valued, broken)
  fails with an AssertionError on hexahedra made from a quadrilateral and an
  interval: the rule of a quadrilateral facet has factors of dimensions (1, 1),
  the entity of the product (2, 0).
* F34 The docstring of `PhysicalGeometry.physical_points` asks for a vector with
  the indices of the point set free. DirectSerendipity, the only user, indexes
  the result with the indices of the point set again; with an expression as
  documented it raises ValueError. It works with the axes of the point set in
  front.
* F35 `TensorProductQuadratureRule.__init__` keeps `tuple(factors)` but collects
  the orientation maps from `factors` again. Given a generator, as its
  `tuple(...)` suggests is possible, the rule silently has an empty tuple of maps.
  `make_quadrature` passes a list.
* F36 `FiniteElement("RTCF", I×I, 1).reconstruct(degree=2)` is not
  `FiniteElement("RTCF", I×I, 2)`: the expansion is an EnrichedElement of
  products CG×DG, and every factor gets degree 2, also those that should have
  degree 1. Likewise RTCE, NCF, NCE. The degree() of both is (2, 2).
* F37 `TensorProductElement.reconstruct(cell=c)` takes c for its own cell but
  leaves the cells of the factors: Q1 on I×I moved to Triangle×I has factors on
  I and I. (The keyword is popped before the factors are reconstructed.)
* F38 Tensor products have no quadrature scheme, so
  `MixedElement(Q1 on I×I, Real).reconstruct(quad_scheme=...)` raises ValueError:
  the Real leaf takes the scheme, the product does not.
* F39 `BrokenElement` does not define variant(): it is None, also after
  `reconstruct(variant=v)`; a sum or a mixed element with a broken part loses
  its common variant.
* F40 The degree of a sum takes the maximum of the entries of the degrees with
  Python's `max`. If entries are tuples (products of products) they are compared
  as a whole: degrees ((1, 2), 1) and ((2, 1), 1) make ((2, 1), 1), below the
  degree of the first summand in its second direction.
* F41 Products of products, whose degree is a tuple in a tuple, cannot be in a
  mixed, vector or tensor element: `max_degree` raises.
* F42 A sum whose first element has no degree raises TypeError, although the code
  leaves out degrees that are None; with that element second it is made.
* F43 `TensorProductElement` has no quadrature scheme even if all its factors
  have the same.
* F44 `WithMapping.__repr__` writes the mapping, and `VectorElement` and
  `TensorElement` the variant, between apostrophes without escapes. A mapping with
  an apostrophe or a variant with a line break gives a repr that is no
  expression (`C62_variant_refuted` for the vector element); a mapping with a
  backslash gives the repr of another element (`C62_mapping_refuted`).
* F45 The bubbles of Bernardi-Raugel and Guzman-Neilan are registered without a
  least degree: `FiniteElement("BRB", triangle, 0)` is made and says it is
  constant on cells, though its embedded degree is 2 (`C63_bubble_refuted`).
* F46 Products of constants have a tuple as degree and are never said to be
  constant, nor are nodal sums (`C63_product_refuted`); `WithMapping` of a linear
  element to "identity" is not said to be linear (`C63_linear_refuted`).
* F47 `WithMapping` inherits `num_sub_elements = 0` from the base class: around a
  mixed element it hides the sub-elements (`C63_sub_elements_refuted`).
* F48 `MixedElement.sobolev_space` takes the `max` of spaces that are only
  partially ordered: RT x N1curl is in HCurl, N1curl x RT in HDiv
  (`C63_mixed_space_refuted`).
* F49 With `avg=True` the rows of normal moments of Argyris, HCT and PS12 are
  multiplied by the edge length and never rescaled, so the conditioning of mass
  matrices depends on the size of the cell (`C65_average_refuted`); the test of
  conditioning only uses `avg=False`.
* F50 `MixedElement.symmetry(domain)` calls `symmetry()` of its sub-elements
  without the domain that vector and mixed ones require: a TypeError for Taylor
  and Hood's element (`C66_taylor_hood_refuted`); likewise for restrictions.
* F51 A symmetric TensorElement of vectors has value indices longer than those in
  its symmetry: `symmetry` of a mixed element around it is an IndexError
  (`C66_tensor_values_refuted`).
* F52 `extract_component`, and with it `degree(component)` and
  `is_cellwise_constant(component)` of mixed elements, call functions without
  the domain: always a TypeError (`C66_components`, `C66_components_refuted`).
* F53 `QuadraticPowellSabin6` is registered in H2 (`elementlist.py:121`), but with a
  fixed centre of the reference triangle, such as the barycentre, its functions
  have different gradients on the two sides of an edge unless the centres of both
  triangles and the midpoint of the edge are on a line
  (`C67_powell_sabin6_kink`, `C67_powell_sabin6_smooth_refuted`). That FIAT's
  split uses the barycentre is assumed; FIAT is not part of the repository.
* F54 `Morley` and `QuadraticPowellSabin12` ask the coordinate mapping for its
  Jacobian at (1/3, 1/3). That is the barycentre of UFC's reference triangle
  only (Morley's comment says edge midpoints); the constructors accept any FIAT
  triangle, and for (-1, -1), (1, -1), (-1, 1) the point is outside. On cells that are not affine the matrix is then not that of the map
  linearised at the barycentre, which other elements use
  (`C69_powell_sabin12_refuted`).
* F55 The Arnold-Winther matrix scales the dofs at vertices by the mapping's
  `cell_size`, which is documented as the cell's size at each vertex
  (`physically_mapped.py` 300-304) and not as the same number for all cells at
  a vertex. If two cells report different sizes at a common vertex, fields with equal
  coefficients jump across the common edge
  (`C68_arnold_winther_sizes_refuted`), so callers have to average sizes.

Observations without a theorem:

* `FiniteElementBase.__mul__` raises its error with the text
  `{other.__class__}` uninterpreted: the f before the string is missing.
* "Bernardi-Raugel Bubble" and "Guzman-Neilan Bubble" are registered without
  range, so that negative degrees are accepted.
* The permutations of RTCF for orientations that exchange the axes of the
  quadrilateral leave the two component blocks in place.
* Degrees nested unevenly, such as (1, (1, 1)), cannot be doubled by
  `numpy.array` in `entity_support_dofs` (an example in `Props/Support`).
* "Hu-Zhang" is registered with cell names `("triangle")`, a string and not a
  tuple (`finat/ufl/elementlist.py:109`); `in` then looks for substrings.
* `WithMapping.__str__` (`finat/ufl/hdivcurl.py:230`) prints the mapping without
  quotes, unlike its `__repr__`.
* Morley is registered in H2, though its functions are not even continuous
  (C67 gives equal values at the ends of edges and equal mean gradients).
* `make_quadrature` replaces a quadrilateral by its product but not a hexahedron,
  whose rule is then an unstructured point set of FIAT's
  (`finat/quadrature.py:37-55`).
* `DirectSerendipity.mapping` is a method, for other elements it is a property.
