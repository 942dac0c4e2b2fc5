-Q theories Verif
theories/Base.v
theories/Partition.v
theories/Props_Partition.v
theories/Vec.v
theories/Elim.v
theories/Scalars.v
theories/Matrix.v
theories/MatrixMore.v
theories/Props_Matrix.v
theories/LinAlg.v
theories/Shapes.v
theories/Canon.v
theories/ZQ.v
theories/Props_LinAlg.v
theories/MC.v
theories/Det.v
theories/Rank.v
theories/Props_Det.v
theories/QcTac.v
theories/Geometry.v
theories/Sylvester.v
theories/GeomMC.v
theories/Props_Geometry.v
theories/ModSolver.v
theories/ModSolve.v
theories/Dixon.v
theories/ModMC.v
theories/ModFinal.v
theories/Props_ModSolver.v
theories/OrdSet.v
theories/PGraph.v
theories/Net.v
theories/PGraphBase.v
theories/Traverse.v
theories/Index.v
theories/Component.v
theories/Normalize.v
theories/Shells.v
theories/Props_PGraph.v
theories/DetZ.v
theories/Placement.v
theories/Harmonic.v
theories/Placed.v
theories/Stability.v
theories/Props_Placement.v
theories/PGraphCache.v
theories/Props_Cache.v
theories/Lattices.v
theories/RatLattice.v
theories/Symmetries.v
theories/Periodic.v
theories/Automorph.v
theories/RankQ.v
theories/Group.v
theories/SymFront.v
theories/Orbits.v
theories/Props_Symmetries.v
theories/Props_Ladder.v
theories/Reduce.v
theories/Voronoi.v
theories/ReducedBasis.v
theories/Props_Lattices.v
theories/Basics.v
theories/Generate.v
theories/Gram.v
theories/Props_Basics.v
theories/Props_Primitive.v
theories/Text.v
theories/ParseOp.v
theories/OpGrammar.v
theories/OpParse.v
theories/OpPrint.v
theories/Props_Operators.v
theories/Cgd.v
theories/CgdGrammar.v
theories/CgdLine.v
theories/CgdFields.v
theories/CgdText.v
theories/CgdBlocks.v
theories/Props_Cgd.v
theories/Table.v
theories/TableSpec.v
theories/TableProof.v
theories/Props_Table.v
theories/Finder.v
theories/Crystal.v
theories/Rotation.v
theories/Details.v
theories/Sense.v
theories/Props_Finder.v
theories/Plane.v
theories/CrystalSys.v
theories/Props_Crystal.v
theories/NormBasis.v
theories/Props_Normalized.v
theories/NetAuto.v
theories/Props_Net.v
theories/Unimod.v
theories/MinImage.v
theories/Props_MinImage.v
theories/Props_Apply.v
theories/Frames.v
theories/SymComplete.v
theories/Props_Complete.v
theories/Label.v
theories/Props_Label.v
theories/Props_Auto.v
theories/Display.v
theories/Readable.v
theories/Props_Display.v
theories/VecOps.v
theories/Props_Vectors.v
theories/Machine.v
theories/MachineRef.v
theories/MachineFits.v
theories/MachineEv.v
theories/MachineMono.v
theories/Props_Machine.v
theories/F64.v
theories/F64Shape.v
theories/F64Solve.v
theories/F64Exact.v
theories/F64Det.v
theories/Props_F64.v
theories/F64Round.v
theories/Props_Round.v
theories/Simulate.v
theories/F64Elim.v
theories/Props_Elim64.v
theories/Props_Steps.v
theories/TreeBound.v
theories/Props_Small.v
theories/MatrixTree.v
theories/Props_Trees.v
theories/Invariance.v
theories/Props_Invariance.v
theories/Props_NetSymmetry.v
theories/Spanning.v
theories/Props_Spanning.v
theories/Props_Numbering.v
theories/IntForm.v
theories/Props_IntMaps.v
theories/Tolerance.v
theories/Props_Tolerance.v
theories/SgSpec.v
theories/SgCheck.v
theories/SgCenter.v
theories/SgData.v
theories/SgTable.v
theories/Props_Sg.v
theories/F64Correct.v
theories/F64Error.v
theories/Props_Error.v
theories/FloatReal.v
theories/FloatSteps.v
theories/Det22.v
theories/Props_FloatSteps.v
theories/GroupOrder.v
theories/Props_Orders.v
theories/Cube.v
theories/CubeMC.v
theories/PointMC.v
theories/PointGroup.v
theories/Flat.v
theories/Props_Restriction.v
theories/Props_PointGroup.v
theories/Props_OperatorGroups.v
theories/PlaneOrders.v
theories/Props_PlaneOrders.v
theories/Props_NetSystem.v
theories/Props_PlaneCell.v
theories/Props_Handed.v
