-Q theories Verif
theories/Base.v
theories/Geometry.v
theories/Tree.v
theories/Traverse.v
theories/Spec.v
theories/GeomFacts.v
theories/SumFacts.v
theories/TreeFacts.v
theories/BinFacts.v
theories/TravFacts.v
theories/Exact.v
theories/MetricFacts.v
theories/Run.v
theories/Cover.v
theories/Lift.v
theories/SpecRun.v
theories/Runs.v
theories/Examples.v
theories/Account.v
theories/PropsCount.v
theories/PropsRun.v
theories/PropsTree.v
theories/Corr.v
theories/PropsCorr.v
theories/PropsMean.v
theories/Patch.v
theories/PatchFacts.v
theories/PropsPatch.v
theories/PropsLocal.v
theories/Cov.v
theories/CovFacts.v
theories/PropsCov.v
theories/PropsCov2.v
theories/Binning.v
theories/PropsBin.v
theories/Config.v
theories/PropsConfig.v
theories/PropsParams.v
theories/LRU.v
theories/PropsLRU.v
theories/Near.v
theories/PropsNear.v
theories/Sampler.v
theories/SamplerFacts.v
theories/PropsSampler.v
theories/PropsRefuted.v
theories/PropsRpar.v
theories/PropsArc.v
theories/Catalog.v
theories/CatFacts.v
theories/PropsCat.v
theories/KMeans.v
theories/KMeansFacts.v
theories/PropsKM.v
theories/PropsKM2.v
theories/KMPP.v
theories/PropsKMPP.v
theories/Spin.v
theories/SpinFacts.v
theories/SpecSpin.v
theories/PropsSpin.v
theories/SpecSphere.v
theories/SphereFacts.v
theories/PropsSphere.v
theories/PropsAngle.v
theories/SpecTwoD.v
theories/TwoDFacts.v
theories/PropsTwoD.v
theories/Corr3.v
theories/TriCover.v
theories/TriStop.v
theories/SpecTri.v
theories/TriFacts.v
theories/TriSpec.v
theories/PropsTri.v
theories/TriMirror.v
theories/PropsTri2.v
theories/PropsTri3.v
theories/PropsAccum.v
theories/Patch3.v
theories/Patch3Facts.v
theories/Patch3Sum.v
theories/Patch3Res.v
theories/PropsPatch3.v
theories/PropsLocal3.v
theories/PropsPatch3Ex.v
theories/SpecMulti.v
theories/Multi.v
theories/MultiFacts.v
theories/MultiFacts2.v
theories/MultiIdx.v
theories/MultiTot.v
theories/MultiCV.v
theories/MultiVal.v
theories/MultiRun.v
theories/MultiTerm.v
theories/PropsMulti.v
theories/PropsMultiEx.v
theories/PropsAccum3.v
theories/Comp.v
theories/PropsComp.v
theories/PropsComp2.v
theories/CorrIO.v
theories/PropsIO.v
theories/PropsIO2.v
theories/Zeta.v
theories/ZetaFacts.v
theories/PropsZeta.v
theories/ZetaUn.v
theories/PropsZeta2.v
theories/ZetaEx.v
theories/PropsZeta3.v
theories/PropsZeta4.v
theories/PropsSS.v
theories/SasGeom.v
theories/SasStop.v
theories/SpecSas.v
theories/SasFacts.v
theories/SasSpec.v
theories/PropsSas.v
theories/PropsSas2.v
theories/PropsSas3.v
theories/PropsSas4.v
theories/GGG.v
theories/SpecGGG.v
theories/GGGFacts.v
theories/PropsGGG.v
theories/PropsGGG2.v
theories/PropsGGG3.v
theories/Aper.v
theories/SpecAper.v
theories/AperFacts.v
theories/PropsAper.v
theories/PropsAper2.v
theories/PropsAper3.v
theories/Cplx.v
theories/Map3.v
theories/SpecMap3.v
theories/Map3Facts.v
theories/PropsMap3.v
theories/PropsMap3b.v
theories/PropsMap3c.v
theories/PropsMap3d.v
theories/PropsMap3e.v
theories/PropsMap3f.v
theories/PropsMap3g.v
theories/Bin3.v
theories/PropsBin3.v
theories/PropsBin3b.v
theories/MultiG.v
theories/SpecMultiG.v
theories/MultiGFacts.v
theories/PropsMultiG.v
theories/PropsMultiGEx.v
theories/Fin3.v
theories/SpecFin3.v
theories/PropsFin3.v
theories/ToSas.v
theories/SpecToSas.v
theories/PropsToSas.v
theories/PropsToSasEx.v
theories/RperpFacts.v
theories/SpecRperp.v
theories/PropsRperp.v
theories/PropsRperpRpar.v
theories/PropsAperVar.v
theories/PropsMpiAcc.v
theories/PropsKMAlt.v
theories/Exec2.v
theories/PropsExec2.v
theories/PropsExec2Ex.v
theories/PropsMap3h.v
theories/MultiCov.v
theories/PropsMultiCov.v
theories/Copy.v
theories/PropsCopy.v
theories/SavePatch.v
theories/PropsSave.v
theories/PropsSaveEx.v
theories/Shot.v
theories/PropsShot.v
theories/PropsShot3.v
theories/PropsPer.v
theories/PropsShotG.v
theories/PropsMultiCov2.v
theories/Centers.v
theories/PropsCenters.v
theories/Driver.v
theories/PropsDriver.v
theories/Corr3IO.v
theories/PropsCorr3IO.v
theories/Norm.v
theories/PropsNorm.v
theories/Assumptions.v
