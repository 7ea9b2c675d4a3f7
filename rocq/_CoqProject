-Q theories Verif
theories/Model/Prelude.v
theories/Model/Cell.v
theories/Model/Element.v
theories/Model/EntityMaps.v
theories/Model/Gem.v
theories/Model/PointSet.v
theories/Model/Evaluation.v
theories/Model/Quadrature.v
theories/Model/Dual.v
theories/Model/Restricted.v
theories/Model/Piola.v
theories/Spec/Rowmajor.v
theories/Spec/EntityDofs.v
theories/Spec/Layout.v
theories/Spec/Degrees.v
theories/Spec/Tabulation.v
theories/Spec/Samples.v
theories/Spec/ZSamples.v
theories/Spec/Quadrature.v
theories/Spec/QSamples.v
theories/Spec/DSamples.v
theories/Spec/Dual.v
theories/Spec/Restricted.v
theories/Spec/RSamples.v
theories/Spec/Algebra.v
theories/Proofs/Lists.v
theories/Proofs/Cells.v
theories/Proofs/Cubes.v
theories/Proofs/EntityDofs.v
theories/Proofs/EntityDofs2.v
theories/Proofs/Layout.v
theories/Proofs/Closure.v
theories/Proofs/Flatten.v
theories/Proofs/Perms.v
theories/Proofs/SampleFacts.v
theories/Proofs/Degrees.v
theories/Proofs/DofProps.v
theories/Proofs/GemEval.v
theories/Proofs/Tables.v
theories/Proofs/Tables2.v
theories/Proofs/Tables3.v
theories/Proofs/Leaf.v
theories/Proofs/Factor.v
theories/Proofs/Tree.v
theories/Proofs/Single.v
theories/Proofs/TabProps.v
theories/Proofs/TabFacts.v
theories/Proofs/Sums.v
theories/Proofs/Quad.v
theories/Proofs/Quad2.v
theories/Proofs/QuadElt.v
theories/Proofs/QuadFacts.v
theories/Proofs/DualLeaf.v
theories/Proofs/DualStep.v
theories/Proofs/DualTree.v
theories/Proofs/Nodal.v
theories/Proofs/DualEval.v
theories/Proofs/DualFacts.v
theories/Proofs/Restrict1.v
theories/Proofs/Restrict2.v
theories/Proofs/Restrict3.v
theories/Proofs/Restrict4.v
theories/Proofs/Restrict5.v
theories/Proofs/Restrict6.v
theories/Proofs/Restrict7.v
theories/Proofs/RestrictProps.v
theories/Proofs/RestrictFacts.v
theories/Proofs/Determinant.v
theories/Proofs/PiolaFacts.v
theories/Props/Dofs.v
theories/Props/Tabulation.v
theories/Props/Quadrature.v
theories/Props/Dual.v
theories/Props/Restricted.v
theories/Props/Piola.v
theories/Model/Zany.v
theories/Spec/Polynomials.v
theories/Spec/Zany.v
theories/Proofs/EdgeGeometry.v
theories/Proofs/EdgeRows.v
theories/Proofs/HermiteTransform.v
theories/Proofs/Integrals.v
theories/Proofs/MorleyTransform.v
theories/Proofs/Polynomials.v
theories/Proofs/VertexTransform.v
theories/Proofs/ZanyElements.v
theories/Proofs/ZanyEnds.v
theories/Proofs/ZanyNodal.v
theories/Proofs/ZanySums.v
theories/Spec/Split.v
theories/Spec/ZanySamples.v
theories/Proofs/ZanyNodal2.v
theories/Proofs/PowellSabin.v
theories/Proofs/ZanySamples.v
theories/Proofs/HermiteSample.v
theories/Proofs/ZanyProps.v
theories/Props/Zany.v
theories/Model/Mapped.v
theories/Proofs/MappedTables.v
theories/Proofs/MappedDofs.v
theories/Props/Mapped.v
theories/Model/Serendipity.v
theories/Spec/Partial.v
theories/Spec/Serendipity.v
theories/Proofs/Newton.v
theories/Proofs/SerendipityGeometry.v
theories/Proofs/SerendipityInner.v
theories/Proofs/SerendipityEdges.v
theories/Proofs/SerendipityNodal.v
theories/Proofs/SerendipityRegular.v
theories/Proofs/SerendipityTrace.v
theories/Proofs/SerendipityConform.v
theories/Proofs/SerendipityQuadratic.v
theories/Proofs/SerendipityLowest.v
theories/Proofs/SerendipityDofs.v
theories/Proofs/SerendipityIrregular.v
theories/Proofs/SerendipityPoly.v
theories/Proofs/SerendipityMain.v
theories/Props/SerendipityDofs.v
theories/Props/Serendipity.v
theories/Model/Sympy2Gem.v
theories/Spec/Sympy.v
theories/Proofs/Sympy.v
theories/Proofs/SympyShapes.v
theories/Props/Sympy.v
theories/Model/Runtime.v
theories/Proofs/Runtime.v
theories/Props/Runtime.v
theories/Model/Registry.v
theories/Spec/Registry.v
theories/Proofs/Registry.v
theories/Proofs/Canonical.v
theories/Proofs/History.v
theories/Props/Registry.v
theories/Model/UflElement.v
theories/Spec/UflElement.v
theories/Proofs/Repr.v
theories/Proofs/Equality.v
theories/Proofs/Rebuild.v
theories/Proofs/Spaces.v
theories/Proofs/Symmetry.v
theories/Proofs/Components.v
theories/Proofs/Embedded.v
theories/Proofs/Expansion.v
theories/Props/UflElement.v
theories/Model/Spectral.v
theories/Model/PointEvaluation.v
theories/Spec/Spectral.v
theories/Spec/PointEvaluation.v
theories/Spec/PointSamples.v
theories/Proofs/Spectral.v
theories/Proofs/SpectralFacts.v
theories/Props/Spectral.v
theories/Proofs/PointTree.v
theories/Proofs/PointLeaf.v
theories/Proofs/PointWhole.v
theories/Proofs/PointProps.v
theories/Props/PointEvaluation.v
theories/Model/PiolaElements.v
theories/Spec/PiolaElements.v
theories/Spec/PiolaSamples.v
theories/Proofs/PiolaFields.v
theories/Proofs/PiolaArrays.v
theories/Proofs/PiolaSums.v
theories/Proofs/PiolaMatrices.v
theories/Proofs/PiolaLists.v
theories/Proofs/PiolaBubbles.v
theories/Proofs/PiolaVectors.v
theories/Proofs/PiolaSamples.v
theories/Props/PiolaElements.v
theories/Props/PiolaEntries.v
theories/Model/Permutations.v
theories/Spec/Permutations.v
theories/Spec/PermSamples.v
theories/Proofs/TreePerms.v
theories/Proofs/TreePerms2.v
theories/Proofs/TreePerms3.v
theories/Proofs/PermSamples.v
theories/Props/Permutations.v
theories/Model/Support.v
theories/Spec/Support.v
theories/Spec/SupportSamples.v
theories/Proofs/Support.v
theories/Proofs/Support2.v
theories/Proofs/Support3.v
theories/Proofs/SupportFacts.v
theories/Props/Support.v
theories/Model/SerendipityEvaluation.v
theories/Spec/SerendipityEvaluation.v
theories/Spec/SerendipitySamples.v
theories/Proofs/SerendipityRel.v
theories/Proofs/SerendipityTab.v
theories/Proofs/SerendipityDeriv.v
theories/Proofs/SerendipityValues.v
theories/Proofs/SerendipitySamples.v
theories/Props/SerendipityEvaluation.v
theories/Model/Orientation.v
theories/Spec/Orientation.v
theories/Spec/OrientSamples.v
theories/Proofs/Orient.v
theories/Proofs/OrientFacts.v
theories/Props/Orientation.v
theories/Spec/Reconstruct.v
theories/Proofs/Reconstruct.v
theories/Proofs/ReconstructCell.v
theories/Proofs/ReconstructLeaves.v
theories/Props/Reconstruct.v
theories/Spec/Attributes.v
theories/Proofs/DegreeOrder.v
theories/Proofs/Attributes.v
theories/Props/Attributes.v
theories/Spec/PythonText.v
theories/Proofs/PythonText.v
theories/Props/PythonText.v
theories/Model/UflOperators.v
theories/Spec/Operators.v
theories/Proofs/Operators.v
theories/Proofs/Constancy.v
theories/Props/Operators.v
theories/Spec/Mappings.v
theories/Proofs/Mappings.v
theories/Props/Mappings.v
theories/Spec/Scaling.v
theories/Proofs/Scaling.v
theories/Props/Scaling.v
theories/Model/UflSymmetry.v
theories/Spec/UflSymmetry.v
theories/Proofs/UflSymmetry.v
theories/Props/UflSymmetry.v
theories/Spec/Conformity.v
theories/Proofs/EdgeUnisolvence.v
theories/Proofs/Conformity.v
theories/Proofs/Conformity2.v
theories/Proofs/Conformity3.v
theories/Proofs/Transport.v
theories/Proofs/EdgeBases.v
theories/Proofs/EdgeBases2.v
theories/Proofs/EdgeBases3.v
theories/Proofs/ConformitySamples.v
theories/Props/Conformity.v
theories/Spec/SplitConformity.v
theories/Proofs/SplitConformity.v
theories/Proofs/SplitBases.v
theories/Proofs/SplitSamples.v
theories/Props/SplitConformity.v
theories/Spec/PiolaConformity.v
theories/Proofs/PiolaConformity.v
theories/Proofs/PiolaConformity2.v
theories/Proofs/PiolaConformity3.v
theories/Proofs/PiolaCells.v
theories/Proofs/PiolaNeighbours.v
theories/Props/PiolaConformity.v
theories/Proofs/PiolaCells2.v
theories/Proofs/PiolaShapes.v
theories/Props/PiolaVertices.v
theories/Spec/Barycentre.v
theories/Proofs/Barycentre.v
theories/Props/Barycentre.v
theories/Spec/BubbleConformity.v
theories/Proofs/BubbleConformity.v
theories/Props/BubbleConformity.v
theories/Proofs/CellSizes.v
theories/Props/CellSizes.v
