-Q theories Verif
theories/Base.v
theories/Scalar.v
theories/Vec.v
theories/MBuffer.v
theories/MZeros.v
theories/MSteps.v
theories/MApi.v
theories/MDop853.v
theories/MClasses.v
theories/MImplicit.v
theories/MRegistry.v
theories/Laws.v
theories/Spec.v
theories/SpecInst.v
theories/PStep.v
theories/PKeeps.v
theories/PClean.v
theories/PCore.v
theories/PHist.v
theories/PBound.v
theories/PRun.v
theories/PRun2.v
theories/PRun3.v
theories/PFwd.v
theories/Ex.v
theories/PTerm.v
theories/PRef1.v
theories/PTop1.v
theories/PVecR.v
theories/PInterp.v
theories/SpecRK.v
theories/PRK.v
theories/PDim.v
theories/SpecDense.v
theories/PDense.v
theories/PTop2.v
theories/PRef2.v
theories/PExR.v
theories/SpecZeros.v
theories/PZeros.v
theories/PZeros2.v
theories/PMisc.v
theories/MShipped.v
theories/SpecDict.v
theories/PDict.v
theories/SpecReg.v
theories/PReg.v
theories/PReg2.v
theories/SpecMS.v
theories/PMS.v
theories/PMS2.v
theories/PRK2.v
theories/PRK3.v
theories/PMS3.v
theories/PMS4.v
theories/PMS5.v
theories/PMS6.v
theories/PMS7.v
theories/SpecCtl.v
theories/PCtl.v
theories/PC1.v
theories/PC2.v
theories/PC3.v
theories/PC4.v
theories/PC5.v
theories/SpecEv.v
theories/PEv1.v
theories/PEv2.v
theories/PEv3.v
theories/PEv4.v
theories/PEv5.v
theories/PEv6.v
theories/PEv7.v
theories/PEv8.v
theories/PEv9.v
theories/SpecOrder.v
theories/POrd1.v
theories/POrd2.v
theories/POrd3.v
theories/POrd4.v
theories/SpecConv.v
theories/PConv1.v
theories/PConv2.v
theories/PConv3.v
theories/PConv4.v
theories/PConv5.v
theories/PConv6.v
theories/PConv7.v
theories/PConv8.v
theories/SpecConv2.v
theories/PConv9.v
theories/PConv10.v
theories/SpecInv.v
theories/PInv1.v
theories/PInv2.v
theories/PInv3.v
theories/PExInv.v
theories/SpecConv3.v
theories/PHi1.v
theories/PHi2.v
theories/PHi3.v
theories/PHi4.v
theories/PHi5.v
theories/PHi6.v
theories/PExHi.v
theories/SpecEqv.v
theories/SpecEqv2.v
theories/PEqv1.v
theories/PEqv2.v
theories/PEqv3.v
theories/PEqv4.v
theories/PEqv5.v
theories/PEqv6.v
theories/PExEqv.v
theories/PVar1.v
theories/PVar2.v
theories/SpecVar.v
theories/PVar3.v
theories/PExVar.v
theories/SpecFive.v
theories/PFive1.v
theories/PFive2.v
theories/PFive3.v
theories/SpecStab.v
theories/PStab.v
theories/PExStab.v
theories/SpecGlob.v
theories/PGlob.v
theories/PExGlob.v
theories/SpecImpl.v
theories/PImpl1.v
theories/PImpl2.v
theories/PImpl3.v
theories/PImpl4.v
theories/PImpl5.v
theories/PImpl6.v
theories/PImpl7.v
theories/SpecLmm.v
theories/PLmm1.v
theories/PLmm2.v
theories/PLmm3.v
theories/PLmm4.v
theories/PLmm5.v
theories/PLmm6.v
theories/PLmm7.v
theories/PLmm8.v
theories/PLmm9.v
theories/Props1.v
theories/Props2.v
theories/Props3.v
theories/Props4.v
theories/Props5.v
theories/Props6.v
theories/Props7.v
theories/Props8.v
theories/Props9.v
theories/Props10.v
theories/Props11.v
theories/Props12.v
theories/Props13.v
theories/Props14.v
theories/SpecNames.v
theories/PNames.v
theories/Props15.v
theories/SpecFl.v
theories/PFl1.v
theories/PFl2.v
theories/PFl3.v
theories/PFl4.v
theories/PFl5.v
theories/PFl6.v
theories/PFl7.v
theories/PFl8.v
theories/PFl9.v
theories/PFl10.v
theories/PFl11.v
theories/PExFl.v
theories/Props16.v
theories/MAdaptive.v
theories/SpecAd.v
theories/PAd.v
theories/PExAd.v
theories/Props17.v
theories/SpecLive.v
theories/PLive1.v
theories/PLive2.v
theories/PLive3.v
theories/PExLive.v
theories/Props18.v
theories/SpecEvC.v
theories/PEvC1.v
theories/PEvC2.v
theories/PEvC3.v
theories/PExEvC.v
theories/Props19.v
theories/SpecVL.v
theories/PVL1.v
theories/PVL2.v
theories/PVL3.v
theories/PVL4.v
theories/PVL5.v
theories/Props20.v
theories/SpecSolve.v
theories/PSolve1.v
theories/PSolve2.v
theories/PSolve3.v
theories/PSolve4.v
theories/PSolve5.v
theories/PSolve6.v
theories/PSolve7.v
theories/PSolve8.v
theories/PExSolve.v
theories/Props21.v
theories/SpecInit.v
theories/PInit.v
theories/Props22.v
theories/Props23.v
theories/Props24.v
theories/PSolve9.v
theories/Props25.v
theories/PEv11.v
theories/Props27.v
theories/PFive4.v
theories/PFive5.v
theories/Props28.v
theories/SpecEvD.v
theories/PEvD1.v
theories/PEvD2.v
theories/PExEvD.v
theories/Props29.v
theories/PCap.v
theories/PCap2.v
theories/PCap3.v
theories/Props30.v
theories/PDcv1.v
theories/PDcv2.v
theories/PDcv3.v
theories/PDlv1.v
theories/PDlv2.v
theories/PDlv3.v
theories/PDlv4.v
theories/PDcv4.v
theories/PDcv5.v
theories/Props31.v
theories/PDcv6.v
theories/Props32.v
theories/PEv12.v
theories/PEvD3.v
theories/Props33.v
