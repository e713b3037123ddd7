-Q theories Verif
theories/AttachModel.v
theories/AttachProofs.v
theories/AttachProps.v
theories/AttachSpec.v
theories/BandsLin.v
theories/BandsModel.v
theories/BandsProofs.v
theories/BandsProps.v
theories/BandsProps2.v
theories/BandsSecond.v
theories/BandsSpec.v
theories/BandsWeyl.v
theories/BuilderErad.v
theories/BuilderInv.v
theories/BuilderMain.v
theories/BuilderMain2.v
theories/BuilderModel.v
theories/BuilderProofs.v
theories/BuilderProps.v
theories/BuilderReach.v
theories/BuilderSpec.v
theories/ClosestExample.v
theories/ClosestModel.v
theories/ClosestProps.v
theories/ClosestSpec.v
theories/CopyProofs.v
theories/CountingSort.v
theories/CvpGroup.v
theories/CvpMain.v
theories/CvpModel.v
theories/CvpProofs.v
theories/CvpProps.v
theories/CvpSpec.v
theories/CvpVoronoi.v
theories/CvpVoronoi2.v
theories/DigestModel.v
theories/DigestProps.v
theories/DijkstraModel.v
theories/DijkstraProofs.v
theories/DijkstraProps.v
theories/DijkstraSpec.v
theories/DiscBlocks.v
theories/DiscModel.v
theories/DiscProofs.v
theories/DiscProps.v
theories/DiscProps2.v
theories/DiscProps3.v
theories/DiscProps4.v
theories/DiscSpec.v
theories/DiscretizeEval.v
theories/DiscretizeMain.v
theories/DiscretizeModel.v
theories/DiscretizeProofs.v
theories/DiscretizeProps.v
theories/DiscretizeProps2.v
theories/DiscretizeProps3.v
theories/DiscretizeReal.v
theories/DiscretizeSpec.v
theories/FamilyLists.v
theories/FamilyModel.v
theories/FamilyProofs.v
theories/FamilyProps.v
theories/FamilyPropsExample.v
theories/FamilySpec.v
theories/FillMain.v
theories/FillModel.v
theories/FillProofs.v
theories/FillProps.v
theories/FillSpec.v
theories/GaugeForest.v
theories/GaugeLoops.v
theories/GaugeModel.v
theories/GaugePhases.v
theories/GaugeProofs.v
theories/GaugeProps.v
theories/GaugeSpec.v
theories/GaussQ.v
theories/GraphMain.v
theories/GraphModel.v
theories/GraphProofs.v
theories/GraphProps.v
theories/GraphSpec.v
theories/HoppingKindModel.v
theories/InfGaugeModel.v
theories/InfGaugePhases.v
theories/InfGaugeProofs.v
theories/InfGaugeProps.v
theories/InfGaugeSpec.v
theories/KpmCorr.v
theories/KpmCorrModel.v
theories/KpmCorrSpec.v
theories/KpmMain.v
theories/KpmModel.v
theories/KpmProofs.v
theories/KpmProps.v
theories/KpmProps2.v
theories/KpmProps3.v
theories/KpmReal.v
theories/KpmRealProofs.v
theories/KpmSpec.v
theories/KpmTrace.v
theories/LandauModel.v
theories/LandauProofs.v
theories/LandauProps.v
theories/LandauPropsExample.v
theories/LandauSpec.v
theories/LatticeExample.v
theories/LatticeModel.v
theories/LatticeProofs.v
theories/LatticeProps.v
theories/LatticeSpec.v
theories/LeadsClusters.v
theories/LeadsModel.v
theories/LeadsModes.v
theories/LeadsModes2.v
theories/LeadsProofs.v
theories/LeadsProps.v
theories/LeadsProps2.v
theories/LeadsProps3.v
theories/LeadsProps4.v
theories/LeadsSelf.v
theories/LeadsSpec.v
theories/LeadsTotal.v
theories/LllMain.v
theories/LllModel.v
theories/LllProofs.v
theories/LllProps.v
theories/LllSpec.v
theories/NeighborsExample.v
theories/NeighborsModel.v
theories/NeighborsProofs.v
theories/NeighborsProofs2.v
theories/NeighborsProps.v
theories/NeighborsProps2.v
theories/NeighborsSpec.v
theories/OperatorMain.v
theories/OperatorMain2.v
theories/OperatorMain3.v
theories/OperatorMain4.v
theories/OperatorModel.v
theories/OperatorProofs.v
theories/OperatorProps.v
theories/OperatorSpec.v
theories/OrbitalsModel.v
theories/OrbitalsProofs.v
theories/ParamModel.v
theories/PeierlsModel.v
theories/PeierlsProofs.v
theories/PeierlsProps.v
theories/PhsModel.v
theories/PhsProps.v
theories/QSolve.v
theories/RmtAlg.v
theories/RmtCirc.v
theories/RmtCircMain.v
theories/RmtCircTop.v
theories/RmtGauss.v
theories/RmtGaussMain.v
theories/RmtModel.v
theories/RmtProofs.v
theories/RmtProps.v
theories/RmtProps2.v
theories/RmtSpec.v
theories/RmtTri.v
theories/ShapeExample.v
theories/ShapeModel.v
theories/ShapeProps.v
theories/ShapeProps2.v
theories/ShellProofs.v
theories/SolverBlocks.v
theories/SolverField.v
theories/SolverFisher.v
theories/SolverFisher2.v
theories/SolverFisher3.v
theories/SolverFlux.v
theories/SolverGF.v
theories/SolverGF2.v
theories/SolverGF3.v
theories/SolverLinear.v
theories/SolverLinear2.v
theories/SolverMain.v
theories/SolverModel.v
theories/SolverNoise.v
theories/SolverProofs.v
theories/SolverProps.v
theories/SolverProps2.v
theories/SolverSpec.v
theories/SolverUnitary.v
theories/StarRing.v
theories/SubmatrixMain.v
theories/SubmatrixModel.v
theories/SubmatrixProofs.v
theories/SubmatrixProps.v
theories/SubmatrixSpec.v
theories/SubmatrixSystem.v
theories/SubmatrixTop.v
theories/SubstModel.v
theories/SubstProofs.v
theories/SubstProps.v
theories/SymmetryModel.v
theories/SymmetryProofs.v
theories/SymmetryProps.v
theories/SystemFinite.v
theories/SystemInfinite.v
theories/SystemMain.v
theories/SystemModel.v
theories/SystemOrder.v
theories/SystemProofs.v
theories/SystemProps.v
theories/SystemSpec.v
theories/TransformModel.v
theories/TransformProps.v
theories/TsCacheModel.v
theories/TsCacheProps.v
theories/WrapDict.v
theories/WrapEval.v
theories/WrapMain.v
theories/WrapModel.v
theories/WrapProps.v
theories/WrapSpec.v
theories/WrapSym.v
theories/WrapTrans.v
theories/Zmod.v
