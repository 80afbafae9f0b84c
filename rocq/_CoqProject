-Q theories Verif
theories/StrModel.v
theories/StrProofs.v
theories/KVModel.v
theories/KVSpec.v
theories/KVProofs.v
theories/ConfigProofs.v
theories/ConfigProofs2.v
theories/PropsText.v
theories/Base.v
theories/FloatBase.v
theories/BinSearchModel.v
theories/BinSearchSpec.v
theories/BinSearchProofs.v
theories/BinSearchFloat.v
theories/NumParseModel.v
theories/PropsSearch.v
theories/Arr.v
theories/BandModel.v
theories/BandSpec.v
theories/BandSolve.v
theories/BandSolve2.v
theories/BandDom.v
theories/BandStore.v
theories/BandBlas.v
theories/SparseModel.v
theories/SparseSpec.v
theories/SparseProofs.v
theories/PropsLinalg.v
theories/SharedPtrModel.v
theories/SharedPtrSpec.v
theories/SharedPtrProofs.v
theories/CtrlBreakModel.v
theories/CtrlBreakSpec.v
theories/CtrlBreakProofs.v
theories/PropsLife.v
theories/Words.v
theories/Gf2.v
theories/Order.v
theories/RandModel.v
theories/RandLin.v
theories/Rand64.v
theories/RandSpec.v
theories/RandProofs.v
theories/RandProofs2.v
theories/RandFloat.v
theories/RandReal.v
theories/RandRealProofs.v
theories/PropsRandom.v
theories/PolyModel.v
theories/PolyProofs.v
theories/PolyProofs2.v
theories/PolyProofs3.v
theories/PropsPoly.v
theories/MathModel.v
theories/MathProofs.v
theories/MathInt.v
theories/ScaleModel.v
theories/ScaleProofs.v
theories/AngleFloat.v
theories/ScaleAcc.v
theories/PropsMath.v
theories/RootModel.v
theories/RootProofs.v
theories/PropsRoot.v
theories/TrajModel.v
theories/TrajProofs.v
theories/PropsTraj.v
theories/CoordModel.v
theories/CoordSpec.v
theories/CoordCalc.v
theories/CoordAtan.v
theories/CoordMaps.v
theories/CoordMaps2.v
theories/CoordProofs.v
theories/CoordVel.v
theories/CoordSph.v
theories/OrientModel.v
theories/OrientSpec.v
theories/OrientProofs.v
theories/PropsCoord.v
theories/PotModel.v
theories/PotSpec.v
theories/PotProofs.v
theories/PotProofs2.v
theories/EvolProofs.v
theories/PotProofs3.v
theories/LapProofs.v
theories/PropsPot.v
theories/OrbitModel.v
theories/OrbitSpec.v
theories/OrbitProofs.v
theories/OrbitProofs2.v
theories/OrbitProofs3.v
theories/PropsOrbit.v
theories/SphIndexModel.v
theories/SphIndexSpec.v
theories/SphIndexProofs.v
theories/SphIndexProofs2.v
theories/SphIndexProofs3.v
theories/SphModel.v
theories/SphSpec.v
theories/SphLegendre.v
theories/SphArray.v
theories/SphFourier.v
theories/SphFourier2.v
theories/SphTable.v
theories/SphOrtho.v
theories/SphTransModel.v
theories/SphTransform.v
theories/SphSym.v
theories/PropsSph.v
theories/UnitsModel.v
theories/UnitsSpec.v
theories/PropsUnits.v
theories/NumFmtModel.v
theories/NumFmtProofs.v
theories/NumFloat.v
theories/TextIOModel.v
theories/TextIOSpec.v
theories/TextIOProofs.v
theories/NemoModel.v
theories/NemoProofs.v
theories/PropsIO.v
theories/SplineModel.v
theories/SplineSpec.v
theories/SplineBand.v
theories/SplineCons.v
theories/SplineQui.v
theories/SplineGlue.v
theories/SplineProofs.v
theories/SplineProofs2.v
theories/SplineReg.v
theories/PropsSpline.v
theories/SampleModel.v
theories/SampleSpec.v
theories/SampleProofs.v
theories/SampleProofs2.v
theories/SampleProofs3.v
theories/SampleProofs4.v
theories/SampleProofs5.v
theories/SampleProofs6.v
theories/SampleProofs7.v
theories/SampleProofs8.v
theories/PropsSample.v
theories/AnalyticModel.v
theories/AnalyticSpec.v
theories/AnalyticProofs.v
theories/AnalyticProofs2.v
theories/AnalyticProofs3.v
theories/PropsAnalytic.v
theories/KeplerModel.v
theories/KeplerSpec.v
theories/KeplerProofs.v
theories/KeplerProofs2.v
theories/KeplerProofs3.v
theories/PropsKepler.v
theories/SplIntModel.v
theories/SplIntSpec.v
theories/SplIntProofs.v
theories/SplIntProofs2.v
theories/VanderProofs.v
theories/SplIntProofs3.v
theories/SplIntProofs4.v
theories/SplIntProofs5.v
theories/GLModel.v
theories/GLProofs.v
theories/GLProofs2.v
theories/GLProofs3.v
theories/PropsSplInt.v
theories/PropsGL.v
theories/BsplModel.v
theories/BsplSpec.v
theories/BsplProofs.v
theories/BsplProofs2.v
theories/BsplProofs3.v
theories/BsplProofs4.v
theories/BsplProofs5.v
theories/PropsBspl.v
theories/SplRootModel.v
theories/SplRootSpec.v
theories/SplRootProofs.v
theories/SplRootProofs2.v
theories/SplRootProofs3.v
theories/SplRootProofs4.v
theories/PropsSplRoot.v
theories/GridModel.v
theories/GridSpec.v
theories/GridProofs.v
theories/GridProofs2.v
theories/PropsGrid.v
theories/GeomModel.v
theories/GeomSpec.v
theories/GeomProofs.v
theories/GeomProofs2.v
theories/GeomProofs3.v
theories/GeomProofs4.v
theories/GeomProofs5.v
theories/GeomProofs6.v
theories/GeomProofs7.v
theories/GeomProofs8.v
theories/GeomProofs9.v
theories/PropsGeom.v
theories/IsoModel.v
theories/IsoSpec.v
theories/IsoProofs.v
theories/IsoProofs2.v
theories/IsoProofs3.v
theories/IsoProofs4.v
theories/IsoProofs5.v
theories/IsoProofs6.v
theories/IsoProofs7.v
theories/IsoProofs8.v
theories/PropsIso.v
theories/OdeModel.v
theories/OdeSpec.v
theories/OdeProofs.v
theories/OdeProofs2.v
theories/OdeProofs3.v
theories/OdeProofs4.v
theories/OdeProofs5.v
theories/OdeProofs6.v
theories/PropsOde.v
theories/Ode2Model.v
theories/Ode2Spec.v
theories/Ode2Proofs.v
theories/Ode2Proofs2.v
theories/Ode2Proofs3.v
theories/Banach.v
theories/Ode2Proofs4.v
theories/Ode2Proofs5.v
theories/Ode2Proofs6.v
theories/Ode2Proofs7.v
theories/Ode2Proofs8.v
theories/Ode2Proofs9.v
theories/PropsOde2.v
theories/Interp2Model.v
theories/Interp2Spec.v
theories/Interp2Proofs.v
theories/Interp2Cons.v
theories/Interp2Nat.v
theories/Interp2Nat2.v
theories/Interp2Lin.v
theories/PropsInterp2.v
theories/Interp2QSpec.v
theories/Interp2Quin.v
theories/Interp2QCons.v
theories/Interp2QProofs.v
theories/PropsInterp2Q.v
theories/DiskModel.v
theories/DiskSpec.v
theories/DiskProofs.v
theories/DiskProofs2.v
theories/DiskProofs3.v
theories/DiskProofs4.v
theories/DiskProofs5.v
theories/DiskProofs6.v
theories/DiskProofs7.v
theories/PropsDisk.v
theories/DfModel.v
theories/DfSpec.v
theories/DfProofs.v
theories/DfProofs2.v
theories/DfProofs3.v
theories/DfProofs4.v
theories/PropsDf.v
theories/FerrersModel.v
theories/FerrersSpec.v
theories/FerrersProofs.v
theories/FerrersProofs2.v
theories/FerrersProofs3.v
theories/FerrersProofs4.v
theories/FerrersProofs5.v
theories/FerrersProofs6.v
theories/DehnenProofs.v
theories/PropsFerrers.v
theories/RagaModel.v
theories/RagaSpec.v
theories/RagaProofs.v
theories/RagaProofs2.v
theories/RagaProofs3.v
theories/RagaProofs4.v
theories/RagaProofs5.v
theories/RagaFloat.v
theories/PropsRaga.v
theories/EllipModel.v
theories/EllipProofs.v
theories/EllipProofs2.v
theories/EllipProofs3.v
theories/EllipProofs4.v
theories/EllipProofs5.v
theories/EllipProofs6.v
theories/EllipProofs7.v
theories/EllipProofs8.v
theories/EllipProofs9.v
theories/PropsEllip.v
theories/TargetModel.v
theories/TargetProofs.v
theories/TargetProofs2.v
theories/TargetProofs3.v
theories/PropsTarget.v
theories/TargetModel2.v
theories/TargetProofs4.v
theories/PropsTarget2.v
theories/VelModel.v
theories/VelProofs.v
theories/PropsVel.v
theories/GaussHermModel.v
theories/GaussHermProofs.v
theories/GaussHermProofs2.v
theories/PropsGaussHerm.v
