{"id": "C01", "title": "entity_dofs() is a partition of the degrees of freedom", "statement": "For every element assembled with TensorProductElement, TensorFiniteElement (both layouts), EnrichedElement, MixedElement, FlattenedDimensions, HDivElement, HCurlElement and DiscontinuousElement from leaf elements whose own entity_dofs() partition range(space_dimension()), the lists in entity_dofs() contain every number in range(space_dimension()) exactly once and nothing else.", "quantifier": "for all element trees (any depth, any number of factors/summands, any tensor shape, any leaf)", "why_tests_cant": "Element trees are unbounded and the numbering of each constructor is used as input of the next one; tests look at a handful of trees of small degree.", "anchors": ["finat/tensor_product.py:TensorProductElement.entity_dofs", "finat/tensor_product.py:productise", "finat/tensorfiniteelement.py:TensorFiniteElement._entity_dofs", "finat/enriched.py:concatenate_entity_dofs", "finat/mixed.py:MixedSubElement.entity_dofs", "finat/cube.py:FlattenedDimensions._entity_dofs", "finat/discontinuous.py:DiscontinuousElement.entity_dofs", "finat/hdivcurl.py:WrapperElementBase.entity_dofs"]}
{"id": "C02", "title": "entity_dofs() has one entry per entity of the element's cell", "statement": "For every composite element, the keys of entity_dofs() are exactly the entity dimensions of element.cell, and for each dimension the entities listed are exactly those of the cell's topology.", "quantifier": "for all element trees", "why_tests_cant": "Needs agreement of independently written enumerations (cell topology, product of dictionaries, flattening) for every nesting.", "anchors": ["finat/tensor_product.py:productise", "finat/tensor_product.py:TensorProductElement.cell", "finat/tensorfiniteelement.py:TensorFiniteElement._entity_dofs", "finat/enriched.py:concatenate_entity_dofs", "finat/cube.py:FlattenedDimensions.cell"]}
{"id": "C03", "title": "space_dimension() is the size of index_shape", "statement": "space_dimension() of every composite element equals the product of the extents in index_shape, so that a dof number and a basis-function multi-index can be converted into one another.", "quantifier": "for all element trees", "why_tests_cant": "space_dimension and index_shape are separate methods overridden in each class; unbounded nesting.", "anchors": ["finat/finiteelementbase.py:FiniteElementBase.index_shape", "finat/tensor_product.py:TensorProductElement.index_shape", "finat/tensorfiniteelement.py:TensorFiniteElement.index_shape", "finat/enriched.py:EnrichedElement.index_shape"]}
{"id": "C04", "title": "dofs of a tensor-product entity are the tuples of factor dofs in row-major order", "statement": "On the product entity (d1,...,dn), e of a TensorProductElement, entity_dofs() lists exactly the row-major numbers of the tuples (v1,...,vn) where vi runs over factor i's dofs on the factor entity that the element itself uses when it evaluates on e; the lists have the product length.", "quantifier": "for all lists of factors, all entity dimensions and entity numbers", "why_tests_cant": "The two conversions (sorted enumeration in entity_dofs, numpy.unravel_index in evaluation) are unrelated pieces of code; agreement is needed for every entity.", "anchors": ["finat/tensor_product.py:productise", "finat/tensor_product.py:TensorProductElement._factor_entity"]}
{"id": "C05", "title": "vector/tensor element dof layout follows index_shape", "statement": "In TensorFiniteElement the dof with basis multi-index (i, c) (non-transposed, index_shape = base + shape) or (c, i) (transposed, index_shape = shape + base) gets the row-major number of that multi-index, and it is listed on exactly the entity carrying scalar dof i of the base element.", "quantifier": "for all base elements, all tensor shapes, both values of transpose", "why_tests_cant": "Arbitrary shapes and bases; the two layouts are coded separately.", "anchors": ["finat/tensorfiniteelement.py:TensorFiniteElement._entity_dofs", "finat/tensorfiniteelement.py:TensorFiniteElement.index_shape", "finat/tensorfiniteelement.py:TensorFiniteElement._tensorise"]}
{"id": "C06", "title": "enriched/mixed numbering: summand k's dofs are shifted by the dimensions before it", "statement": "entity_dofs() of an EnrichedElement lists on each entity, summand after summand, the summand's dofs on that entity shifted by the total dimension of the earlier summands; hence dof offset(k)+j is basis function j of summand k, the same numbering as used by basis_evaluation().", "quantifier": "for all lists of summands and all entities", "why_tests_cant": "Unbounded lists of summands with arbitrary per-entity dof lists.", "anchors": ["finat/enriched.py:concatenate_entity_dofs", "finat/enriched.py:EnrichedElement._compose_evaluations", "finat/mixed.py:MixedElement"]}
{"id": "C07", "title": "nesting of enriched elements does not matter", "statement": "EnrichedElement([EnrichedElement(a), ...]) is the same element as EnrichedElement of the flattened list: no summand is itself an EnrichedElement, a single summand is returned unchanged, and order and dimensions are preserved.", "quantifier": "for all finite nestings of summand lists", "why_tests_cant": "Unbounded nesting.", "anchors": ["finat/enriched.py:EnrichedElement.__new__"]}
{"id": "C08", "title": "entity_closure_dofs() is the sorted union over sub-entities", "statement": "entity_closure_dofs()[d][e] is strictly increasing and contains exactly the dofs of all sub-entities of (d,e) including itself; it grows monotonically with the entity, and for the cell itself it is range(space_dimension()).", "quantifier": "for all elements with a partitioning entity_dofs and all cells whose sub-entity relation is reflexive/transitive", "why_tests_cant": "All element trees and cells.", "anchors": ["finat/finiteelementbase.py:FiniteElementBase._entity_closure_dofs", "finat/finiteelementbase.py:FiniteElementBase.entity_closure_dofs"]}
{"id": "C09", "title": "flattened (quadrilateral/hexahedral) entities are the product entities", "statement": "FlattenedDimensions numbers entities of each summed dimension without gaps or repetitions; the dofs it reports on flat entity (d,e) are the dofs of the product entity on which it evaluates when asked for (d,e). The hexahedron numbering is the same whether the cell is built as interval^3 or quadrilateral x interval.", "quantifier": "for all product elements and all entities", "why_tests_cant": "Needs inverse relation between two maps built by different traversals.", "anchors": ["finat/cube.py:FlattenedDimensions._entity_dofs", "finat/cube.py:FlattenedDimensions._unflatten", "finat/cube.py:FlattenedDimensions.basis_evaluation"]}
{"id": "C10", "title": "concatenated entity permutations stay permutations", "statement": "If every summand's entity_permutations are permutations of its dofs on each entity, then so are those of EnrichedElement (for each orientation), their lengths equal the number of dofs listed on that entity, and block k permutes exactly the block contributed by summand k.", "quantifier": "for all lists of summands, entities and orientations", "why_tests_cant": "Unbounded lists; orientation tables of any size.", "anchors": ["finat/enriched.py:concatenate_entity_permutations"]}
{"id": "C11", "title": "tensor-product tabulation is the product of factor tabulations with the derivative split by direction", "statement": "basis_evaluation(order, ps) of a TensorProductElement has an entry for every derivative multi-index up to the order; the entry at basis multi-index (i1..in), point (q1..qn) and value index equals the product over factors of the factor's derivative (its slice of the multi-index) of basis function i_k at q_k.", "quantifier": "for all factor lists (at most one non-scalar), all orders, all points, all entities", "why_tests_cant": "Unbounded orders, number of factors, and basis sizes.", "anchors": ["finat/tensor_product.py:TensorProductElement.basis_evaluation", "finat/tensor_product.py:TensorProductElement._merge_evaluations"]}
{"id": "C12", "title": "vector/tensor element tabulation is scalar tabulation times Kronecker delta", "statement": "Each tabulated entry of TensorFiniteElement at (basis i, component c; value component v, base value component w) is the base element's entry at (i; w) if c = v and 0 otherwise, in both layouts.", "quantifier": "for all base elements, shapes, derivatives, points", "why_tests_cant": "Arbitrary shapes and index ranks.", "anchors": ["finat/tensorfiniteelement.py:TensorFiniteElement._tensorise", "finat/tensorfiniteelement.py:TensorFiniteElement.basis_evaluation"]}
{"id": "C13", "title": "enriched tabulation is the concatenation of the summands' tabulations", "statement": "Entry offset(k)+j of the tabulation of an EnrichedElement equals the entry of summand k at the basis multi-index whose row-major number is j, for each derivative present.", "quantifier": "for all summand lists, index shapes, derivatives, points", "why_tests_cant": "Unbounded lists and ranks.", "anchors": ["finat/enriched.py:EnrichedElement._compose_evaluations"]}
{"id": "C14", "title": "mixed elements place each sub-element in its own value block", "statement": "In a MixedElement the value components of sub-element k occupy [offset(k), offset(k)+size(k)) in row-major order, all other components are zero, the blocks are disjoint and cover the whole value shape; all derivatives are treated alike.", "quantifier": "for all lists of sub-elements with arbitrary value shapes", "why_tests_cant": "Unbounded lists and value shapes.", "anchors": ["finat/mixed.py:MixedElement", "finat/mixed.py:MixedSubElement._transform", "finat/mixed.py:MixedSubElement._transform_evaluation"]}
{"id": "C15", "title": "H(div)/H(curl) wrappers embed the scalar/vector product isometrically", "statement": "For every admissible product element, HDivElement/HCurlElement evaluate to a vector of the cell's dimension that has the wrappee's components, possibly permuted and signed, in fixed positions and zero elsewhere; the same transformation is used for basis and dual basis, hence duality pairings are preserved. Inadmissible form degrees raise an error.", "quantifier": "for all product elements and all values", "why_tests_cant": "All element trees, all points, the case analysis on form degrees and mapping.", "anchors": ["finat/hdivcurl.py:HDivElement", "finat/hdivcurl.py:HCurlElement", "finat/hdivcurl.py:select_hdiv_transformer", "finat/hdivcurl.py:WrapperElementBase._transform_evaluation"]}
{"id": "C16", "title": "tabulation has the advertised shape and only point indices stay free", "statement": "Every expression returned by basis_evaluation has shape index_shape + value_shape and its free indices are among the indices of the given point set, whatever the nesting of constructors; all indices created inside are bound.", "quantifier": "for all element trees, orders, point sets", "why_tests_cant": "Index capture/leak depends on arbitrary nesting and on freshness of generated indices.", "anchors": ["finat/tensor_product.py:TensorProductElement._merge_evaluations", "finat/tensorfiniteelement.py:TensorFiniteElement._tensorise", "finat/enriched.py:EnrichedElement._compose_evaluations", "finat/mixed.py:MixedSubElement._transform_evaluation", "finat/fiat_elements.py:FiatElement.basis_evaluation"]}
{"id": "C17", "title": "leaf tabulation returns FIAT's numbers", "statement": "FiatElement.basis_evaluation gives, at basis i, value index v and point q, FIAT's tabulated number for the q-th point; replacing the table by its first point when the derivative order equals the polynomial degree and by zero when it exceeds the degree is harmless for polynomial elements.", "quantifier": "for all tables, value shapes, structured or unstructured point sets, derivative orders", "why_tests_cant": "Reshape/transposition of tables of arbitrary rank; unbounded orders.", "anchors": ["finat/fiat_elements.py:FiatElement.basis_evaluation"]}
{"id": "C18", "title": "tensor point sets: indices, points and expression agree", "statement": "points of a TensorPointSet are listed so that the point at the row-major number of (q1..qn) is the concatenation of the factors' points q1..qn, and evaluating expression at these index values gives the same coordinates; splitting a point set over factors and merging gives the point back.", "quantifier": "for all factor lists and index values", "why_tests_cant": "Unbounded number of factors and points.", "anchors": ["finat/point_set.py:TensorPointSet", "finat/tensor_product.py:factor_point_set"]}
{"id": "C19", "title": "tensor-product quadrature integrates products exactly", "statement": "If each factor rule of a TensorProductQuadratureRule integrates its factor functions exactly, then the product rule (points paired with weight_expression) integrates all sums of products of these functions exactly.", "quantifier": "for all rules, all numbers of factors, all functions in the spans", "why_tests_cant": "Quantifies over function spaces and any number of factors.", "anchors": ["finat/quadrature.py:TensorProductQuadratureRule", "finat/quadrature.py:make_quadrature"]}
{"id": "C20", "title": "requested quadrature degree is honoured with the fewest Gauss points", "statement": "On an interval make_quadrature(cell, degree) chooses n points with 2n-1 >= degree and n is the smallest such number; negative degrees are rejected; on product cells the degree is distributed to each factor.", "quantifier": "for all integer degrees and all cells", "why_tests_cant": "All degrees.", "anchors": ["finat/quadrature.py:make_quadrature"]}
{"id": "C21", "title": "quadrature element is nodal at its own points", "statement": "QuadratureElement.basis_evaluation on its own rule's point set yields 1 at (basis i, point i) and 0 elsewhere, with basis indices in row-major correspondence with the points for tensor rules; its dual basis composed with its basis is the identity; any other point set or derivative is rejected.", "quantifier": "for all quadrature rules", "why_tests_cant": "All rules and tensor structures.", "anchors": ["finat/quadrature_element.py:QuadratureElement.basis_evaluation", "finat/quadrature_element.py:QuadratureElement.dual_basis"]}
{"id": "C22", "title": "dual_basis() of a leaf element evaluates FIAT's functionals", "statement": "For every function f, contracting Q with the values of f at the returned points gives, for each basis number i, the value of the i-th functional on f.", "quantifier": "for all lists of point functionals (any number of points, weights, components) and all functions f", "why_tests_cant": "The point de-duplication and sparse-to-dense conversion must be right for every functional family; quantifies over all f.", "anchors": ["finat/fiat_elements.py:FiatElement._dual_basis", "finat/fiat_elements.py:FiatElement.dual_basis"]}
{"id": "C23", "title": "nodality is inherited by tensor products, vector elements and mapped wrappers", "statement": "If dual_basis applied to basis_evaluation is the identity matrix for the parts, it is the identity for TensorProductElement and TensorFiniteElement of these parts, also when the same part occurs repeatedly.", "quantifier": "for all lists of nodal parts and tensor shapes", "why_tests_cant": "Unbounded products; index sharing between repeated parts.", "anchors": ["finat/tensor_product.py:TensorProductElement.dual_basis", "finat/tensorfiniteelement.py:TensorFiniteElement.dual_basis", "finat/finiteelementbase.py:FiniteElementBase.dual_evaluation"]}
{"id": "C24", "title": "vector-element dual_evaluation orders its result as index_shape", "statement": "The basis indices returned by TensorFiniteElement.dual_evaluation are ordered as the element's index_shape (shape first when transposed), so that the assembled vector matches entity_dofs numbering.", "quantifier": "for all base elements, shapes, both layouts", "why_tests_cant": "Only the non-transposed layout is exercised by tests.", "anchors": ["finat/tensorfiniteelement.py:TensorFiniteElement.dual_evaluation"]}
{"id": "C25", "title": "restriction names and codimensions are mutually inverse", "statement": "Converting a restriction domain name to a codimension and back denotes the same set of entities in every dimension, names outside the list are rejected, and a codimension that has no name is rejected.", "quantifier": "for all names and dimensions", "why_tests_cant": "All dimensions.", "anchors": ["finat/restricted.py:r_to_codim", "finat/restricted.py:codim_to_r"]}
{"id": "C26", "title": "a restricted element keeps exactly the dofs on the requested entities", "statement": "For every supported element tree, RestrictedElement(element, domain) has, on every entity selected by the domain (and, for non-interior domains, on every lower-dimensional entity), as many dofs as the original, and none elsewhere; it raises ValueError exactly when no dof is selected.", "quantifier": "for all element trees built from restrictable leaves and products/sums of them, all domains, dimensions up to 3", "why_tests_cant": "Recursion over the tree with summation over codimension splittings; unbounded number of factors.", "anchors": ["finat/restricted.py:RestrictedElement", "finat/restricted.py:restrict_tpe", "finat/restricted.py:restrict_enriched", "finat/restricted.py:restrict_tfe"]}
{"id": "C27", "title": "restricted basis functions are basis functions of the original element", "statement": "The basis functions of the restricted element are, entity by entity and in order, the basis functions of the original element attached to the selected entities, with the same values and value shape.", "quantifier": "for all element trees, domains, entities, points", "why_tests_cant": "As above, and for all points.", "anchors": ["finat/restricted.py:restrict_tpe", "finat/restricted.py:restrict_hdiv", "finat/restricted.py:restrict_hcurl", "finat/restricted.py:restrict_mixed"]}
{"id": "C28", "title": "restriction of an unsupported element fails loudly", "statement": "RestrictedElement on an element type without a restriction rule raises NotImplementedError; it never returns something that is not an element.", "quantifier": "for all element types, domains", "why_tests_cant": "Behaviour of the fallback in every nesting.", "anchors": ["finat/restricted.py:restrict", "finat/restricted.py:RestrictedElement"]}
{"id": "C29", "title": "determinant and adjugate are right in every dimension", "statement": "determinant(A) is the determinant and adjugate(A) the adjugate of any square matrix of expressions; hence A*adjugate(A) = determinant(A)*I and adjugate(A)/determinant(A) inverts non-singular matrices.", "quantifier": "for all n and all n x n matrices", "why_tests_cant": "All n, symbolic entries.", "anchors": ["finat/piola_mapped.py:determinant", "finat/piola_mapped.py:adjugate", "finat/piola_mapped.py:piola_inverse"]}
{"id": "C30", "title": "facet transforms of Piola-mapped elements relate reference to physical normal/tangential components", "statement": "For each non-degenerate Jacobian, the rows returned by normal_tangential_edge_transform/normal_tangential_face_transform express the reference normal/tangential components of a contravariant-Piola field through the physical ones.", "quantifier": "for all non-singular Jacobians (2D and 3D) and all edges/faces", "why_tests_cant": "All real Jacobians.", "anchors": ["finat/piola_mapped.py:normal_tangential_edge_transform", "finat/piola_mapped.py:normal_tangential_face_transform"]}
{"id": "C31", "title": "vertex derivative dofs transform by the chain rule", "statement": "The blocks written for vertex values, gradients and Hessians convert the reference jet of f o F into the physical jet of f for affine F, for each vertex order offered.", "quantifier": "for all affine maps and all twice differentiable functions", "why_tests_cant": "All Jacobians and functions.", "anchors": ["finat/argyris.py:_vertex_transform", "finat/hermite.py:Hermite.basis_transformation"]}
{"id": "C32", "title": "zany elements: transformed basis is nodal for the physical dofs", "statement": "For Hermite, Morley, Argyris, Bell, HCT and reduced HCT: applying basis_transformation(coordinate mapping) to the reference basis gives the basis dual to the physical dofs, i.e. reference dofs of f o F equal the transposed transformation applied to the physical dofs of f, for each f in the element's local polynomial space.", "quantifier": "for all non-degenerate triangles and all polynomials in the local space", "why_tests_cant": "Real-valued geometry; the finite-difference/edge-completion coefficients are exact only on the right polynomial space.", "anchors": ["finat/hermite.py:Hermite.basis_transformation", "finat/morley.py:Morley.basis_transformation", "finat/argyris.py:Argyris.basis_transformation", "finat/bell.py:Bell.basis_transformation", "finat/hct.py:HsiehCloughTocher.basis_transformation", "finat/hct.py:ReducedHsiehCloughTocher.basis_transformation"]}
{"id": "C33", "title": "physically mapped elements apply the transformation matrix to the reference tabulation", "statement": "basis_evaluation of a physically mapped element is, for each derivative and point, M times FIAT's tabulation (rows of M = FInAT basis functions, columns = FIAT basis functions), with the advertised shape also when the FInAT element has fewer dofs than the FIAT one; missing coordinate mapping is an error.", "quantifier": "for all matrices M, tables, derivative orders", "why_tests_cant": "All orders and tables.", "anchors": ["finat/physically_mapped.py:PhysicallyMappedElement.basis_evaluation", "finat/bell.py:Bell", "finat/fiat_elements.py:FiatElement.basis_evaluation"]}
{"id": "C34", "title": "dof bookkeeping of reduced physically mapped elements", "statement": "entity_dofs() of elements that drop constraint dofs (Bell, reduced HCT, AWnc, AW, MTW, Piola bubble elements) is a partition of range(space_dimension()), and the rows of the transformation matrix match it.", "quantifier": "for all facet counts/degrees offered", "why_tests_cant": "Hand-written renumbering depending on degree and dimension.", "anchors": ["finat/bell.py:Bell.entity_dofs", "finat/hct.py:ReducedHsiehCloughTocher.entity_dofs", "finat/aw.py", "finat/mtw.py", "finat/piola_mapped.py:PiolaBubbleElement.__init__"]}
{"id": "C35", "title": "direct serendipity: number and placement of dofs for each degree", "statement": "For every degree r >= 1, DirectSerendipity.entity_dofs() partitions range(space_dimension()), with one dof per vertex, r-1 per edge and the interior count, and space_dimension() has the closed formula; exactly that many basis functions are built.", "quantifier": "for all degrees r >= 1", "why_tests_cant": "All degrees.", "anchors": ["finat/direct_serendipity.py:DirectSerendipity.entity_dofs", "finat/direct_serendipity.py:DirectSerendipity.space_dimension", "finat/direct_serendipity.py:dsr_sym"]}
{"id": "C36", "title": "direct serendipity basis is nodal", "statement": "For each degree and each non-degenerate quadrilateral, the i-th basis function is 1 at the i-th node and 0 at all others.", "quantifier": "for all degrees r >= 1 and all convex quadrilaterals", "why_tests_cant": "Tests check degrees 1-4 on one quadrilateral.", "anchors": ["finat/direct_serendipity.py:ds1_sym", "finat/direct_serendipity.py:dsr_sym", "finat/direct_serendipity.py:newton_poly"]}
{"id": "C37", "title": "Newton interpolation reproduces the data", "statement": "newton_poly(nodes, values) evaluates to values[i] at nodes[i] for distinct nodes.", "quantifier": "for all numbers of nodes, all distinct nodes and all values", "why_tests_cant": "All sizes and real data.", "anchors": ["finat/direct_serendipity.py:newton_dd", "finat/direct_serendipity.py:newton_poly"]}
{"id": "C38", "title": "symbolic-to-GEM translation preserves meaning", "statement": "For each sympy expression of the supported node types, the translated GEM expression evaluates to the same number (or truth value) under every assignment of the symbols; Piecewise picks the first true branch and yields NaN when none is true; unsupported nodes are errors.", "quantifier": "for all expressions and all assignments", "why_tests_cant": "Unbounded expression trees.", "anchors": ["finat/sympy2gem.py"]}
{"id": "C39", "title": "runtime-tabulated table names identify the table", "statement": "Two runtime-tabulated tables have the same name only if variant, degree, derivative, shift axes, continuity and restriction all agree.", "quantifier": "for all variants (any string), degrees, derivatives, shift axes, restrictions", "why_tests_cant": "Injectivity of string formatting over unbounded data.", "anchors": ["finat/runtime_tabulated.py:RuntimeTabulated.basis_evaluation"]}
{"id": "C40", "title": "family names always resolve to one registered element", "statement": "canonical_element_description terminates for every family name and argument with the built-in registrations; the resulting family is registered and not an alias; degrees outside the registered range, unknown families and unsupported cells raise ValueError.", "quantifier": "for all strings, cells, degrees, form degrees", "why_tests_cant": "A while loop over a mutable alias table; all names.", "anchors": ["finat/ufl/elementlist.py:canonical_element_description", "finat/ufl/elementlist.py:register_alias", "finat/ufl/elementlist.py:feec_element", "finat/ufl/elementlist.py:feec_element_l2"]}
{"id": "C41", "title": "canonicalisation is idempotent", "statement": "Describing the canonical family with the canonical degree on the same cell gives the same family, degree, value shape, Sobolev space, mapping and embedded degree; therefore reconstruct() without changes and pickling give an equal element.", "quantifier": "for all accepted (family, cell, degree, form degree)", "why_tests_cant": "All inputs.", "anchors": ["finat/ufl/elementlist.py:canonical_element_description", "finat/ufl/finiteelement.py:FiniteElement.reconstruct", "finat/ufl/finiteelement.py:FiniteElement.__getnewargs__"]}
{"id": "C42", "title": "registration never changes the meaning of existing names", "statement": "After any sequence of register_element/register_alias calls that return normally, every family that was registered before still has the data it was registered with; registering an existing family raises.", "quantifier": "for all histories of registrations", "why_tests_cant": "History property.", "anchors": ["finat/ufl/elementlist.py:register_element", "finat/ufl/elementlist.py:register_alias"]}
{"id": "C43", "title": "element equality is an equivalence compatible with hashing and determined by the defining data", "statement": "== is reflexive, symmetric, transitive, equal elements have equal hashes, and two elements built from different family/cell/degree/scheme/variant/sub-elements/shape are never equal.", "quantifier": "for all element trees", "why_tests_cant": "Injectivity of repr over unbounded trees and arbitrary strings.", "anchors": ["finat/ufl/finiteelementbase.py:FiniteElementBase.__eq__", "finat/ufl/finiteelementbase.py:FiniteElementBase.__hash__", "finat/ufl/finiteelement.py:FiniteElement.__init__", "finat/ufl/mixedelement.py"]}
{"id": "C44", "title": "reference components of a mixed element are located correctly", "statement": "extract_subelement_reference_component(i) returns the unique (k, component) with offset(k) + row-major number of component = i for each valid i; every component of every sub-element is reached once; invalid i raise.", "quantifier": "for all lists of sub-elements with any reference value shapes, all i", "why_tests_cant": "Unbounded lists and shapes.", "anchors": ["finat/ufl/mixedelement.py:MixedElement.extract_subelement_reference_component", "finat/ufl/finiteelementbase.py:FiniteElementBase._check_reference_component"]}
{"id": "C45", "title": "symmetric tensor element numbering is consistent", "statement": "For TensorElement(symmetry=True) of any size n, components (i,j) and (j,i) use the same sub-element, the numbers used are exactly range(n(n+1)/2), the pullback uses the same numbering, and the reference value size is n(n+1)/2; user-supplied symmetries are treated consistently or rejected.", "quantifier": "for all n and all symmetry dictionaries", "why_tests_cant": "All sizes and dictionaries.", "anchors": ["finat/ufl/mixedelement.py:TensorElement.__init__", "finat/ufl/mixedelement.py:TensorElement.pullback"]}
{"id": "C46", "title": "changing sub-elements is never silently ignored", "statement": "MixedElement.reconstruct_from_elements(*elements) returns an element whose sub-elements are the given ones.", "quantifier": "for all lists of replacement elements", "why_tests_cant": "All lists, including of different length.", "anchors": ["finat/ufl/mixedelement.py:MixedElement.reconstruct_from_elements"]}
{"id": "C47", "title": "Sobolev space of an enriched element is the smallest space containing all summands' spaces", "statement": "sobolev_space of an EnrichedElement contains (as a superspace) the space of each summand and no smaller predefined space does; it raises if there is no unique one.", "quantifier": "for all lists of summands with predefined spaces", "why_tests_cant": "Unbounded lists.", "anchors": ["finat/ufl/enrichedelement.py:EnrichedElementBase.sobolev_space"]}
{"id": "C48", "title": "product expansions of tensor-cell families are consistent", "statement": "FiniteElement(Q/DQ/RTCF/RTCE/NCF/NCE, tensor-product cell, degree) expands into product elements whose degree, value shape, Sobolev space and mapping agree with the family's own description, for all admissible degrees and cells; other cells are rejected.", "quantifier": "for all degrees and cells", "why_tests_cant": "All degrees and nested cells.", "anchors": ["finat/ufl/finiteelement.py:FiniteElement.__new__", "finat/ufl/tensorproductelement.py:TensorProductElement"]}
{"id": "C49", "title": "embedded degrees bound the polynomial degree", "statement": "embedded_subdegree <= embedded_superdegree for every element for which both are defined, for products they are min and sum, for mixed elements the extremes over sub-elements; both are defined for every constructible element.", "quantifier": "for all element trees", "why_tests_cant": "Unbounded trees.", "anchors": ["finat/ufl/finiteelement.py:FiniteElement.embedded_subdegree", "finat/ufl/tensorproductelement.py:TensorProductElement.embedded_superdegree", "finat/ufl/mixedelement.py:MixedElement.embedded_superdegree", "finat/ufl/hdivcurl.py:WithMapping.embedded_subdegree"]}
{"id": "C50", "title": "every registered family has a pullback", "statement": "For each built-in family, the mapping name reported by the element is one the pullback property supports, so pullback never raises for a plain FiniteElement.", "quantifier": "for all accepted (family, cell, degree)", "why_tests_cant": "All families, cells and degrees.", "anchors": ["finat/ufl/finiteelementbase.py:FiniteElementBase.pullback", "finat/ufl/elementlist.py"]}
{"id": "C51", "title": "collocated fast path of spectral elements agrees with tabulation", "statement": "When the point set is of the element's own class and has as many points as the element has basis functions, GaussLobattoLegendre/GaussLegendre return the identity for the zeroth derivative, which equals the tabulation of a nodal basis at its nodes; all other derivatives are untouched; on other point sets nothing is changed.", "quantifier": "for all degrees, orders and point sets", "why_tests_cant": "All degrees and point sets.", "anchors": ["finat/spectral.py:GaussLobattoLegendre.basis_evaluation", "finat/spectral.py:GaussLegendre.basis_evaluation"]}
{"id": "C52", "title": "degree reported by composite elements bounds the summands' degrees", "statement": "degree of an EnrichedElement is the component-wise maximum over its summands for int and (nested) tuple degrees; of a TensorProductElement the tuple of factor degrees; of FlattenedDimensions the common degree of the product, or an error.", "quantifier": "for all element trees", "why_tests_cant": "Unbounded nesting of tuples.", "anchors": ["finat/enriched.py:EnrichedElement.degree", "finat/enriched.py:tree_map", "finat/tensor_product.py:TensorProductElement.degree", "finat/cube.py:FlattenedDimensions.degree"]}
{"id": "C53", "title": "point evaluation of composite elements at symbolic points", "statement": "point_evaluation(order, refcoords, entity) of every element tree gives, for each derivative multi-index, an expression of the advertised shape whose value is the documented combination of the leaves' point values: products of the factors' values at their slices of the coordinates, one copy per tensor component, concatenation for sums, H(div)/H(curl) transforms, nothing else.", "quantifier": "for all element trees, all orders, all coordinates", "why_tests_cant": "Unbounded nesting; each class slices coordinates and merges derivative keys itself.", "anchors": ["finat/tensor_product.py:TensorProductElement.point_evaluation", "finat/tensorfiniteelement.py:TensorFiniteElement.point_evaluation", "finat/enriched.py:EnrichedElement.point_evaluation", "finat/fiat_elements.py:FiatElement.point_evaluation", "finat/fiat_elements.py:point_evaluation"]}
{"id": "C54", "title": "transformations of Piola-mapped elements with extra dofs", "statement": "For every affine triangle or tetrahedron the basis_transformation matrices of the Piola-mapped families (MardalTaiWinther, ArnoldWinther, ArnoldWintherNC, HuZhang, JohnsonMercier, AlfeldSorokina, bubble-enriched families) express the reference dofs of the Piola pullback by the dofs on the physical cell, so mapped reference functions are the nodal basis on the physical cell.", "quantifier": "for all affine cells", "why_tests_cant": "A continuum of geometries; the tests compare single cells numerically.", "anchors": ["finat/aw.py:_facet_transform", "finat/aw.py:ArnoldWinther.basis_transformation", "finat/mtw.py:MardalTaiWinther.basis_transformation", "finat/piola_mapped.py:PiolaBubbleElement.basis_transformation", "finat/hz.py:HuZhang.basis_transformation"]}
{"id": "C55", "title": "direct serendipity functions are continuous and contain the polynomials", "statement": "The functions of DirectSerendipity of degree r restricted to an edge depend only on the nodes of this edge (so functions of neighbouring cells match: C^0), and interpolation at the nodes reproduces polynomials of degree r.", "quantifier": "for all degrees r >= 1 and all convex quadrilaterals", "why_tests_cant": "All shapes of cells and all degrees; the tests take one mesh.", "anchors": ["finat/direct_serendipity.py:dsr_sym", "finat/direct_serendipity.py:ds1_sym"]}
{"id": "C56", "title": "entity permutations of element trees", "statement": "entity_permutations of every element tree gives, for each entity of the cell and each orientation of it, a permutation of the positions in the dof list of the entity; on product entities it acts as the factors' permutations on the factors' dofs; the trees without an answer (vector, tensor, mixed elements, broken continuous elements, leaves without permutations) raise NotImplementedError.", "quantifier": "for all element trees, entities and orientations", "why_tests_cant": "Unbounded nesting; tests look at a few elements on quadrilaterals and hexahedra.", "anchors": ["finat/tensor_product.py:compose_permutations", "finat/enriched.py:concatenate_entity_permutations", "finat/cube.py:FlattenedDimensions.entity_permutations", "finat/discontinuous.py:DiscontinuousElement.entity_permutations", "finat/fiat_elements.py:FiatElement.entity_permutations"]}
{"id": "C57", "title": "entity support of element trees", "statement": "entity_support_dofs() of every element tree lists for each entity of the cell, in increasing order and without repetition, exactly the basis functions that have a nonzero value somewhere on the entity. Elements that decide this by integration list exactly the functions whose square has an integral above the tolerance; functions that vanish on the entity are never listed.", "quantifier": "for all element trees, entities and tolerances; zero and nonzero functions told apart by the tolerance for completeness", "why_tests_cant": "Unbounded nesting; six classes compute supports in different ways (integration, products, concatenation, renaming), and the tests look at a few spaces.", "anchors": ["finat/finiteelementbase.py:FiniteElementBase._entity_support_dofs", "finat/finiteelementbase.py:entity_support_dofs", "finat/tensor_product.py:TensorProductElement._entity_support_dofs", "finat/enriched.py:EnrichedElement._entity_support_dofs", "finat/cube.py:FlattenedDimensions._entity_support_dofs", "finat/mixed.py:MixedSubElement.entity_support_dofs"]}
{"id": "C58", "title": "tables of direct serendipity elements", "statement": "basis_evaluation of DirectSerendipity gives one table for each derivative multi-index up to the order, with one entry per dof and the indices of the points free; the entry is the derivative of the basis function on the physical quadrilateral, in the physical coordinates, at the physical point. Inside a convex cell every entry is defined, and at the nodes the table of values is the identity.", "quantifier": "for all degrees, orders, point sets and quadrilaterals", "why_tests_cant": "The expressions are built symbolically for an unknown cell; the tests evaluate single cells, and low degrees only.", "anchors": ["finat/direct_serendipity.py:DirectSerendipity.basis_evaluation", "finat/direct_serendipity.py:DirectSerendipity._basis_deriv", "finat/direct_serendipity.py:diff", "finat/direct_serendipity.py:DirectSerendipity.point_evaluation"]}
{"id": "C59", "title": "orientation maps of quadrature rules", "statement": "A rule of make_quadrature has one orientation map for each axis of its cell, in the order of the indices of its point set: permuting the values of each index by the map of its axis gives the point reoriented axis by axis, with the same weight, so the rule gives the same value for a function and the reoriented function. If an axis has no map a ValueError is raised. The cell's axis permutations are passed on.", "quantifier": "for all cells (also nested products and quadrilaterals), degrees, orientations of each axis and functions", "why_tests_cant": "No test looks at the maps of products with unlike axes; all combinations of orientations and degrees.", "anchors": ["finat/quadrature.py:AbstractQuadratureRule.intrinsic_orientation_permutation_map_tuple", "finat/quadrature.py:AbstractQuadratureRule.extrinsic_orientation_permutation_map", "finat/quadrature.py:TensorProductQuadratureRule.__init__", "finat/quadrature.py:QuadratureRule.__init__", "finat/quadrature.py:make_quadrature"]}
{"id": "C60", "title": "reconstruction with one argument changed", "statement": "reconstruct(variant=v) keeps the tree and all attributes and gives every leaf the variant v; the result is the element FiniteElement makes with variant v, and its variant() is v. A variant with a quotation mark raises AssertionError. reconstruct(degree=q) of what FiniteElement made is what FiniteElement makes with degree q. The cell of reconstruct(cell=c) is c. reconstruct(quad_scheme=q) keeps the tree and gives every node the scheme q. With any of family, degree, scheme and variant every leaf is made again from the given arguments and its own. reconstruct(mapping=m) replaces the mappings of the outermost WithMappings and nothing else, and is refused if a leaf has none above it.", "quantifier": "for all elements that can be built and all values of the argument, with the exceptions refuted", "why_tests_cant": "Unbounded nesting of twelve classes that each pass the keywords on in their own way; the tests reconstruct a handful of elements.", "anchors": ["finat/ufl/finiteelement.py:FiniteElement.reconstruct", "finat/ufl/mixedelement.py:MixedElement.reconstruct", "finat/ufl/mixedelement.py:VectorElement.reconstruct", "finat/ufl/mixedelement.py:TensorElement.reconstruct", "finat/ufl/tensorproductelement.py:TensorProductElement.reconstruct", "finat/ufl/enrichedelement.py:EnrichedElementBase.reconstruct", "finat/ufl/hdivcurl.py:WithMapping.reconstruct", "finat/ufl/restrictedelement.py:RestrictedElement.reconstruct", "finat/ufl/brokenelement.py:BrokenElement.reconstruct"]}
{"id": "C61", "title": "attributes of composite elements", "statement": "A mixed element is made exactly when the given cells agree, the schemes agree and the given degrees are numbers and flat tuples of one length; it has that cell and scheme, the total size of its sub-elements as shape, and in every direction the greatest degree. Vector and tensor elements take the attributes of the sub-element and prepend their shape. A product is made exactly of a positive number of factors that together have at most one value axis and whose cells are known; it has the product cell and the tuple of degrees. A sum is made of elements with equal cells and shapes, equal given schemes and comparable degrees, and has the greatest degree, entry by entry. Wrappers take the attributes of what they wrap; all other arguments raise the stated errors.", "quantifier": "for all lists of elements", "why_tests_cant": "Degrees are None, ints or nested tuples, cells and schemes may be missing, and every combination meets another rule; the tests build a few elements.", "anchors": ["finat/ufl/mixedelement.py:MixedElement.__init__", "finat/ufl/mixedelement.py:VectorElement.__init__", "finat/ufl/mixedelement.py:TensorElement.__init__", "finat/ufl/tensorproductelement.py:TensorProductElement.__init__", "finat/ufl/enrichedelement.py:EnrichedElementBase.__init__", "finat/ufl/hdivcurl.py:HDivElement.__init__", "finat/ufl/hdivcurl.py:HCurlElement.__init__", "finat/ufl/hdivcurl.py:WithMapping.__init__", "finat/ufl/restrictedelement.py:RestrictedElement.__init__", "finat/ufl/brokenelement.py:BrokenElement.__init__"]}
{"id": "C62", "title": "repr of symbolic elements evaluates to the element", "statement": "repr(e) is a Python expression, and eval(repr(e)) makes an element of the same class from the same data (families, cells, degrees, schemes, variants, dimensions, shapes, symmetries, mappings, domains), which therefore compares equal to e. The strings inside are escaped as needed.", "quantifier": "for all elements that can be built, whatever their nesting; the mappings of WithMapping and variants of vector and tensor elements without characters that need escapes (refuted otherwise)", "why_tests_cant": "Unbounded nesting and arbitrary strings; no test evaluates a repr.", "anchors": ["finat/ufl/finiteelement.py:FiniteElement.__repr__", "finat/ufl/mixedelement.py:MixedElement.__repr__", "finat/ufl/mixedelement.py:VectorElement.__repr__", "finat/ufl/mixedelement.py:TensorElement.__repr__", "finat/ufl/tensorproductelement.py:TensorProductElement.__repr__", "finat/ufl/enrichedelement.py:EnrichedElement.__repr__", "finat/ufl/enrichedelement.py:NodalEnrichedElement.__repr__", "finat/ufl/hdivcurl.py:HDivElement.__repr__", "finat/ufl/hdivcurl.py:HCurlElement.__repr__", "finat/ufl/hdivcurl.py:WithMapping.__repr__", "finat/ufl/brokenelement.py:BrokenElement.__repr__", "finat/ufl/restrictedelement.py:RestrictedElement.__repr__"]}
{"id": "C63", "title": "order, operators and queries of symbolic elements", "statement": "The comparison < of elements is a strict order in which exactly the equal elements are neither smaller nor greater, so sorting gives one list whatever the arrangement. a + b and a * b make the sum and the mixed element of a and b, element[domain] the restriction, HDiv(element) and HCurl(element) the wrapped elements; other operands, keys and spaces raise the stated errors. An element that says it is constant on cells has embedded degree 0, and one with numeric degrees and embedded degree 0 says so. An element that says it is linear has degree and embedded degrees 1. num_sub_elements is the number of sub_elements. The space of a mixed element is the smallest that includes those of its sub-elements, provided these are nested.", "quantifier": "for all elements that can be built (constancy: without the Bernardi-Raugel and Guzman-Neilan bubbles and without empty vectors; refuted otherwise)", "why_tests_cant": "The queries recurse through unbounded trees by rules that differ per class; the order compares texts; none of this is tested.", "anchors": ["finat/ufl/finiteelementbase.py:FiniteElementBase.__lt__", "finat/ufl/finiteelementbase.py:FiniteElementBase.__add__", "finat/ufl/finiteelementbase.py:FiniteElementBase.__mul__", "finat/ufl/finiteelementbase.py:FiniteElementBase.__getitem__", "finat/ufl/finiteelementbase.py:FiniteElementBase.is_cellwise_constant", "finat/ufl/mixedelement.py:MixedElement.is_cellwise_constant", "finat/ufl/mixedelement.py:MixedElement._is_linear", "finat/ufl/mixedelement.py:MixedElement.sobolev_space", "finat/ufl/enrichedelement.py:EnrichedElement.is_cellwise_constant", "finat/ufl/restrictedelement.py:RestrictedElement.is_cellwise_constant", "finat/ufl/hdivcurl.py:CallableSobolevSpace.__call__"]}
{"id": "C64", "title": "mappings and form degrees of element trees", "statement": "mapping is m exactly when every basis function of the tree is mapped by m: functions of a leaf as FIAT says, a product of functions by the mapping of its only non-affine factor, functions of H(div) and H(curl) wrappers by the Piola maps; it is None exactly when the functions disagree or have no mapping. formdegree is the sum of the degrees in a product, the greatest in a sum, n for discontinuous elements, n-1 in H(div) and 1 in H(curl); it is None exactly when a leaf it depends on has none, lies between 0 and n, and the wrappers report the form degree of the product they were given.", "quantifier": "for all element trees (for mapping: whose leaves have basis functions and whose sums have summands)", "why_tests_cant": "Trees nest without bound, and the result decides which transformation H(div) and H(curl) wrappers apply; tests see a few products.", "anchors": ["finat/tensor_product.py:TensorProductElement.mapping", "finat/tensor_product.py:TensorProductElement.formdegree", "finat/enriched.py:EnrichedElement.mapping", "finat/enriched.py:EnrichedElement.formdegree", "finat/fiat_elements.py:FiatElement.mapping", "finat/discontinuous.py:DiscontinuousElement.formdegree", "finat/hdivcurl.py:HDivElement.__init__", "finat/hdivcurl.py:HCurlElement.__init__"]}
{"id": "C65", "title": "transformations do not depend on the size of the cell", "statement": "Enlarging the physical cell by a factor s (Jacobian, edge lengths and cell sizes grow by s, the determinant by s^2, unit vectors stay) leaves the basis transformation of Hermite, both Powell-Sabin elements, Morley, both Hsieh-Clough-Tocher elements, Bell and Argyris (both variants) unchanged; mass matrices are multiplied by s^2, so their condition number is the same for all sizes. With avg the entries of the normal moments grow by s and no others.", "quantifier": "for all factors s > 0, all affine images of the reference triangle, all degrees; Hermite in all dimensions and for curved cells", "why_tests_cant": "test_mass_conditioning compares three sizes of one triangle with a tolerance of 10 per cent.", "anchors": ["finat/argyris.py:Argyris.basis_transformation", "finat/argyris.py:_edge_transform", "finat/bell.py:Bell.basis_transformation", "finat/hct.py:HsiehCloughTocher.basis_transformation", "finat/hct.py:ReducedHsiehCloughTocher.basis_transformation", "finat/hermite.py:Hermite.basis_transformation", "finat/powell_sabin.py:QuadraticPowellSabin6.basis_transformation", "finat/powell_sabin.py:QuadraticPowellSabin12.basis_transformation", "finat/morley.py:Morley.basis_transformation"]}
{"id": "C66", "title": "symmetries and components of mixed elements", "statement": "The symmetry of a mixed element says, in the vector of all values, that a component is represented by another exactly when it is so in the part both belong to; parts that are mixed themselves, parts without an answer and a wrong total size raise the stated errors. The degree of a component of a mixed element is that of the sub-element it belongs to (refuted: every such query raises TypeError).", "quantifier": "for all mixed and vector elements, all value shapes and symmetries of the parts", "why_tests_cant": "Offsets, strides and dictionaries of unboundedly many parts; no test asks for a symmetry or a component.", "anchors": ["finat/ufl/mixedelement.py:MixedElement.symmetry", "finat/ufl/mixedelement.py:TensorElement.symmetry", "finat/ufl/mixedelement.py:MixedElement.extract_component", "finat/ufl/mixedelement.py:MixedElement.extract_subelement_component", "finat/ufl/mixedelement.py:TensorElement.extract_subelement_component", "finat/ufl/mixedelement.py:MixedElement.degree", "finat/ufl/mixedelement.py:MixedElement.is_cellwise_constant", "finat/ufl/restrictedelement.py:RestrictedElement.symmetry"]}
{"id": "C67", "title": "transformed functions fit together across common edges", "statement": "On two triangles with a common edge (ends numbered in the same order, same cell sizes there), functions given by coefficients with respect to the transformed bases that agree for the dofs at the ends and on the edge have the same values and the same gradients along the whole edge: Argyris (integral variant of every degree with and without avg, point variant), Bell (vertex dofs only), Hsieh-Clough-Tocher of every degree and reduced Hsieh-Clough-Tocher. Morley functions have the same values at the ends and the same mean gradient. Hermite functions in any dimension have the same gradients at common vertices and the same values between them. Powell-Sabin 12 functions have the same values and gradients on both halves of the edge; Powell-Sabin 6 functions have the same values on the edge and the same gradients at its ends, and the same gradients on the whole edge exactly when the lines from the midpoint to the points where the pieces of the triangles meet coincide (with barycentres they do not: the element is then no subspace of H2). Every triangle has bases with the required dofs.", "quantifier": "for all reference triangles, all pairs of affine images with a common edge, all nodal reference bases, all coefficients, all degrees; Hermite for all dimensions and polynomial maps", "why_tests_cant": "Conformity is why these elements exist, yet no test looks at two neighbouring cells: tests compare one cell's matrix with numerically computed ones for a few geometries.", "anchors": ["finat/argyris.py:Argyris.basis_transformation", "finat/argyris.py:_vertex_transform", "finat/argyris.py:_edge_transform", "finat/argyris.py:_normal_tangential_transform", "finat/bell.py:Bell.basis_transformation", "finat/hct.py:HsiehCloughTocher.basis_transformation", "finat/hct.py:ReducedHsiehCloughTocher.basis_transformation", "finat/morley.py:Morley.basis_transformation", "finat/hermite.py:Hermite.basis_transformation", "finat/powell_sabin.py:QuadraticPowellSabin6.basis_transformation", "finat/powell_sabin.py:QuadraticPowellSabin12.basis_transformation"]}
{"id": "C68", "title": "Piola-mapped fields fit together across common facets", "statement": "On two simplices that are affine images of the reference cell and share a facet (with its vertices in the same order, possibly with different facet numbers), fields given by coefficients with respect to the transformed bases that agree for the dofs of the facet fit together: Johnson-Mercier matrices times the facet's normal are equal at all points of the facet, in two and three dimensions; for the nonconforming Arnold-Winther element the functionals that are dofs agree for the field times the normal; Arnold-Winther matrices and Hu-Zhang matrices of every degree and both variants times the normal are equal on the edge if the coefficients agree for the dofs at its ends and on it and the cells have the same sizes there; Mardal-Tai-Winther vectors have equal normal components on the facet, and the functionals that are tangential dofs agree for the whole vectors; the vectors of the Piola bubble elements (Bernardi-Raugel and its kin, two and three dimensions) are equal on the facet in all components if the coefficients agree for the components at its vertices and its normal dof and the fields' components on it are told apart by values at vertices and the facet's functional (as linear polynomials and a bubble are). Cells with such bases exist over each affine map. Values at points, moments and values at vertices determine polynomials on facets.", "quantifier": "for all reference simplices, all pairs of affine images with a common facet, all nodal reference bases, all linear functionals on facets that determine polynomials, all coefficients", "why_tests_cant": "Conformity concerns pairs of neighbouring cells; tests look at the matrix of one cell for a few geometries.", "anchors": ["finat/johnson_mercier.py:JohnsonMercier.basis_transformation", "finat/aw.py:_facet_transform", "finat/aw.py:_evaluation_transform", "finat/aw.py:ArnoldWintherNC.basis_transformation", "finat/aw.py:ArnoldWinther.basis_transformation", "finat/hz.py:HuZhang.basis_transformation", "finat/mtw.py:MardalTaiWinther.basis_transformation", "finat/piola_mapped.py:normal_tangential_edge_transform", "finat/piola_mapped.py:normal_tangential_face_transform", "finat/piola_mapped.py:PiolaBubbleElement.basis_transformation"]}
{"id": "C69", "title": "transformations use the Jacobian at the barycentre only", "statement": "For every coordinate mapping, affine or not, the matrices of the Johnson-Mercier, Arnold-Winther (both), Hu-Zhang, Mardal-Tai-Winther, Alfeld-Sorokina, bubble, Argyris, Bell, Hsieh-Clough-Tocher and reduced Hsieh-Clough-Tocher elements are those of the affine mapping that has everywhere the Jacobian matrix and determinant of the given one at the barycentre of the reference cell (the same sizes, normals, tangents and lengths). Morley and Powell-Sabin 12 elements ask for it at (1/3, 1/3): the barycentre of UFC's reference triangle, but not of others (refuted for those).", "quantifier": "for all fields, reference simplices, coordinate mappings, degrees, variants and dof dictionaries", "why_tests_cant": "Tests use affine cells, whose Jacobian is the same at all points, so that no test sees where it is asked for.", "anchors": ["finat/aw.py:_facet_transform", "finat/aw.py:_evaluation_transform", "finat/mtw.py:MardalTaiWinther.basis_transformation", "finat/alfeld_sorokina.py:AlfeldSorokina.basis_transformation", "finat/piola_mapped.py:PiolaBubbleElement.basis_transformation", "finat/argyris.py:_vertex_transform", "finat/argyris.py:_edge_transform", "finat/argyris.py:Argyris.basis_transformation", "finat/bell.py:Bell.basis_transformation", "finat/hct.py:ReducedHsiehCloughTocher.basis_transformation", "finat/morley.py:Morley.basis_transformation", "finat/powell_sabin.py:QuadraticPowellSabin12.basis_transformation"]}
