-Q theories Verif
theories/Spec.v
theories/CombSpec.v
theories/CombModel.v
theories/CombProofs.v
theories/CombProofs2.v
theories/RsumLemmas.v
theories/Moments.v
theories/SymExact.v
theories/IntegralSpec.v
theories/IntegralProofs.v
theories/PyBase.v
theories/SymmModel.v
theories/OrbitModel.v
theories/MiscModel.v
theories/CnModel.v
theories/SchemeTools.v
theories/SymmProofs.v
theories/PropComb.v
theories/OrbitSpec.v
theories/OrbitProofs.v
theories/OrbitProofs2.v
theories/PropSymm.v
theories/CnTools.v
theories/CnProofs.v
theories/TnBase.v
theories/IntegralProofs2.v
theories/Dobrodeev.v
theories/CnProofs2.v
theories/CnProofs3.v
theories/CnProofs4.v
theories/TrigSums.v
theories/CnProofs5.v
theories/MsModel.v
theories/MsProofs.v
theories/MsProofs2.v
theories/PropMs.v
theories/PropCn.v
theories/TnModel.v
theories/RootSpec.v
theories/RootSat.v
theories/TnTools.v
theories/TnProofs.v
theories/TnProofs2.v
theories/TnProofs3.v
theories/TnProofs4.v
theories/TnProofs5.v
theories/PropTn.v
theories/IntegralPoly.v
theories/Series.v
theories/TnModel2.v
theories/GmProofs.v
theories/SilProofs.v
theories/PropTn2.v
theories/Spec1.v
theories/AdaptModel.v
theories/AdaptProofs.v
theories/C1Tools.v
theories/QuadProofs.v
theories/PropAdapt.v
theories/GeomModel.v
theories/GeomProofs.v
theories/PropGeom.v
theories/RMatrix.v
theories/CayleyMenger.v
theories/SimplexVol.v
theories/PolyFun.v
theories/SimplexInt.v
theories/PropSimplex.v
theories/CubeModel.v
theories/CubeProofs.v
theories/PropCube.v
theories/PyraModel.v
theories/PropPyra.v
theories/SphereSpec.v
theories/SphereInt.v
theories/RadialInt.v
theories/RadialTools.v
theories/UnModel.v
theories/UnProofs.v
theories/NsimplexProofs.v
theories/RadialDob.v
theories/SnModel.v
theories/RadialTrig.v
theories/SnProofs.v
theories/SnDob.v
theories/EnrModel.v
theories/RadialMs.v
theories/EnrProofs.v
theories/Enr2Proofs.v
theories/Enr2Proofs2.v
theories/GaussInt.v
theories/Enr2Proofs3.v
theories/MiscSpec.v
theories/PropRadial.v
theories/TrigPoly.v
theories/C1Model.v
theories/C1Proofs.v
theories/C1Cheb.v
theories/Interp.v
theories/C1Nc.v
theories/C1Cc.v
theories/C1Cc2.v
theories/C1Fej.v
theories/RoundSpec.v
theories/RoundModel.v
theories/RoundProofs.v
theories/PropC1.v
theories/PropRound.v
theories/GwSpec.v
theories/GwProofs.v
theories/GwExist.v
theories/GwModel.v
theories/GwRc.v
theories/GwRadau.v
theories/GwJacobi.v
theories/WeightSpec.v
theories/GwInt.v
theories/GwInt2.v
theories/GwBound.v
theories/PropGw.v
theories/Tower.v
theories/TowerSym.v
theories/TowerMoments.v
theories/FixSpec.v
theories/FixTools.v
theories/C2Model.v
theories/C2Proofs.v
theories/C2Param.v
theories/C3Model.v
theories/C3Proofs.v
theories/C3Param.v
theories/PropC2C3.v
theories/RingTools.v
theories/RingFix.v
theories/S2Model.v
theories/S2Proofs.v
theories/AlbTools.v
theories/AlbProofs.v
theories/PowerBallSpec.v
theories/PowerBall.v
theories/S3Model.v
theories/S3Proofs.v
theories/S23Param.v
theories/LegSpec.v
theories/LegTools.v
theories/S2Families.v
theories/PropS2S3.v
theories/T2Model.v
theories/T2Proofs.v
theories/T2Lether.v
theories/T3Model.v
theories/T3Proofs.v
theories/T3Cubic.v
theories/PropT2T3.v
theories/U3Model.v
theories/U3Proofs.v
theories/U3Cubic.v
theories/SphericalModel.v
theories/SphericalSpec.v
theories/SphericalProofs.v
theories/U3Sphere.v
theories/PropU3.v
theories/UnModel2.v
theories/UnProofs2.v
theories/UnProofs3.v
theories/UnProofs4.v
theories/UnProofs5.v
theories/PropSphere.v
theories/E23Model.v
theories/E23Proofs.v
theories/E23Integrate.v
theories/PropE23.v
theories/GoodModel.v
theories/GoodSpec.v
theories/GoodProofs.v
theories/PropGood.v
theories/ShapeModel.v
theories/ShapeSpec.v
theories/ShapeProofs.v
theories/PropShape.v
theories/ConstructModel.v
theories/ConstructSpec.v
theories/PropConstruct.v
theories/OptModel.v
theories/OptSpec.v
theories/OptProofs.v
theories/OptProofs2.v
theories/PropOpt.v
theories/FelippaModel.v
theories/PyraSpec.v
theories/FelippaProofs.v
theories/PropFelippa.v
theories/KronrodModel.v
theories/KronrodAlg.v
theories/KronrodProofs.v
theories/KronrodMain.v
theories/KronrodRun.v
theories/PropKronrod.v
theories/PattersonModel.v
theories/PattersonProofs.v
theories/NearSpec.v
theories/NearProofs.v
theories/PattersonRun.v
theories/PropPatterson.v
theories/NearTools.v
theories/NearSym.v
theories/DecModel.v
theories/DecSpec.v
theories/DecTools.v
theories/PropDec.v
theories/RcSpec.v
theories/RcModel.v
theories/RcProofs.v
theories/RcExist.v
theories/RcModes.v
theories/PropRc.v
theories/GkModel.v
theories/GkProofs.v
theories/PropGk.v
theories/LinForm.v
theories/StoyModel.v
theories/StoyProofs.v
theories/StoyRun.v
theories/PropStoy.v
theories/FsNear.v
theories/FsInterval.v
theories/StengerModel.v
theories/StengerProofs.v
theories/PropStenger.v
theories/RestModel.v
theories/RestSpec.v
theories/RestProofs.v
theories/RestConical.v
theories/RestSphere.v
theories/PropRest.v
theories/ClosedModel.v
theories/ClosedProofs.v
theories/RepairSpec.v
theories/RepairModel.v
theories/RepairProofs.v
theories/PropClosed.v
theories/ConvSpec.v
theories/Weier.v
theories/ConvProofs.v
theories/ConvModel.v
theories/ConvFam.v
theories/PropConv.v
theories/AdaptTerm.v
theories/PropTerm.v
theories/FloatSpec.v
theories/FloatModel.v
theories/FloatProofs.v
theories/FloatWit.v
theories/FloatRoundModel.v
theories/FloatRoundProofs.v
theories/PropFloat.v
theories/PropFloatRound.v
theories/ConvNdSpec.v
theories/WeierNd.v
theories/IterInt.v
theories/ConvNdExt.v
theories/ConvNdProofs.v
theories/ConvNdGeom.v
theories/ConvNdFam.v
theories/PropConvNd.v
theories/RegModel.v
theories/RegTables.v
theories/PropReg.v
theories/PropMiller.v
theories/NdModel.v
theories/NdSpec.v
theories/NdProofs.v
theories/NdProofs2.v
theories/PropNd.v
theories/PropSymmetric.v
theories/PropDim.v
theories/PlotSpec.v
theories/PlotModel.v
theories/PropPlot.v
theories/PropGoodDec.v
theories/StrSpec.v
theories/StrModel.v
theories/PropStr.v
theories/ResSpec.v
theories/ResModel.v
theories/PropRes.v
theories/MeshSpec.v
theories/MeshProofs.v
theories/MeshSimplex.v
theories/MeshCut.v
theories/MeshFine.v
theories/PropMesh.v
theories/OrderSpec.v
theories/OrderProofs.v
theories/PropOrder.v
theories/LineModel.v
theories/LineProofs.v
theories/PropLine.v
theories/GaussShapeSpec.v
theories/GaussShapeProofs.v
theories/GaussEndProofs.v
theories/PropGaussShape.v
theories/GaussErrSpec.v
theories/GaussErrProofs.v
theories/GaussNormProofs.v
theories/PropGaussErr.v
