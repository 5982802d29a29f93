-Q theories Verif
theories/Base.v
theories/Gauss.v
theories/M_Alloc.v
theories/M_Amer.v
theories/M_Asian.v
theories/M_Cache.v
theories/M_Cev.v
theories/M_CgmyRange.v
theories/M_Cos.v
theories/M_Dist.v
theories/M_Ellipe.v
theories/M_Fd.v
theories/M_Garch.v
theories/M_HPath.v
theories/M_Heston.v
theories/M_HestonMc.v
theories/M_HestonMc2.v
theories/M_Mc.v
theories/M_Mgf.v
theories/M_Moment.v
theories/M_Multi.v
theories/M_NsvhQuad.v
theories/M_Numeric.v
theories/M_Opt.v
theories/M_Ou.v
theories/M_Params.v
theories/M_Ratio.v
theories/M_Recip.v
theories/M_Rough.v
theories/M_RoughMc.v
theories/M_Sabr.v
theories/M_SabrCai.v
theories/M_SabrMix.v
theories/M_SabrVol.v
theories/M_Sv32Mc.v
theories/M_Svi.v
theories/M_Sz.v
theories/M_VolPath.v
theories/P_Alloc.v
theories/P_Alloc2.v
theories/P_Alloc3.v
theories/P_Alloc4.v
theories/P_Alloc5.v
theories/P_Amer.v
theories/P_Amer2.v
theories/P_Amer3.v
theories/P_Asian.v
theories/P_Asian2.v
theories/P_Asian3.v
theories/P_Asian4.v
theories/P_Asian5.v
theories/P_Asian6.v
theories/P_Asian7.v
theories/P_Asian8.v
theories/P_Barrier.v
theories/P_Barrier2.v
theories/P_Barrier3.v
theories/P_Black.v
theories/P_Bsm.v
theories/P_Cache.v
theories/P_Cev.v
theories/P_Cev2.v
theories/P_Cev3.v
theories/P_Cev4.v
theories/P_Cev5.v
theories/P_Cev6.v
theories/P_Cev7.v
theories/P_CevMc.v
theories/P_CevMc2.v
theories/P_CevMc3.v
theories/P_CgmyRange.v
theories/P_Cir.v
theories/P_Cir2.v
theories/P_Cir3.v
theories/P_CirSmall.v
theories/P_Conv.v
theories/P_Conv2.v
theories/P_Cos.v
theories/P_Density.v
theories/P_Digamma.v
theories/P_Dist.v
theories/P_Dist2.v
theories/P_Dist3.v
theories/P_Dist4.v
theories/P_Dist5.v
theories/P_Ellipe.v
theories/P_Ellipe2.v
theories/P_Ellipe3.v
theories/P_Ellipe4.v
theories/P_Ellipe5.v
theories/P_Expect.v
theories/P_Fd.v
theories/P_Fd2.v
theories/P_Fd3.v
theories/P_Fd4.v
theories/P_Fd5.v
theories/P_Fejer.v
theories/P_Fwd.v
theories/P_Fwd2.v
theories/P_Gamma.v
theories/P_Gamma2.v
theories/P_Garch.v
theories/P_Garch2.v
theories/P_Garch3.v
theories/P_Garch4.v
theories/P_Gig.v
theories/P_Gj.v
theories/P_Gk.v
theories/P_Gmom.v
theories/P_Gmom2.v
theories/P_Graph.v
theories/P_HPath.v
theories/P_HPath2.v
theories/P_Half.v
theories/P_Herm.v
theories/P_HestonMc.v
theories/P_HestonMc2.v
theories/P_HestonMc3.v
theories/P_HestonMc4.v
theories/P_HestonMc5.v
theories/P_HestonMc6.v
theories/P_HestonMc7.v
theories/P_HestonMc8.v
theories/P_HestonMc9.v
theories/P_HestonRv.v
theories/P_HestonRv2.v
theories/P_Impvol.v
theories/P_ImpvolRun.v
theories/P_Jet.v
theories/P_Jet2.v
theories/P_Ju.v
theories/P_Ju2.v
theories/P_Ju3.v
theories/P_Kink.v
theories/P_Kl.v
theories/P_KlLaw.v
theories/P_KlSum.v
theories/P_Kummer.v
theories/P_Kummer2.v
theories/P_Kummer3.v
theories/P_Mass.v
theories/P_Mc.v
theories/P_Mc2.v
theories/P_Mgf.v
theories/P_Mgf2.v
theories/P_MgfOde.v
theories/P_Moment.v
theories/P_Multi.v
theories/P_Multi10.v
theories/P_Multi2.v
theories/P_Multi3.v
theories/P_Multi4.v
theories/P_Multi5.v
theories/P_Multi6.v
theories/P_Multi7.v
theories/P_Multi8.v
theories/P_Multi9.v
theories/P_Ncx2.v
theories/P_Ncx3.v
theories/P_Nd.v
theories/P_Newton.v
theories/P_Newton2.v
theories/P_Newton3.v
theories/P_Newton4.v
theories/P_Newton5.v
theories/P_Newton6.v
theories/P_Norm.v
theories/P_Nsvh.v
theories/P_Nsvh2.v
theories/P_Nsvh3.v
theories/P_NsvhMc.v
theories/P_NsvhMc2.v
theories/P_NsvhMc3.v
theories/P_NsvhQuad.v
theories/P_NsvhQuad2.v
theories/P_NsvhQuad3.v
theories/P_NsvhQuad4.v
theories/P_Numeric.v
theories/P_OptMisc.v
theories/P_OptRefute.v
theories/P_Ou.v
theories/P_Ou2.v
theories/P_Ou3.v
theories/P_Params.v
theories/P_Qe.v
theories/P_Ratio.v
theories/P_Recip.v
theories/P_Recip2.v
theories/P_Rough.v
theories/P_Rough2.v
theories/P_Rough3.v
theories/P_Rough4.v
theories/P_Rough5.v
theories/P_RoughMc.v
theories/P_RoughMc2.v
theories/P_RoughMc3.v
theories/P_RoughMc4.v
theories/P_RoughMc5.v
theories/P_RoughMc6.v
theories/P_RoughMc7.v
theories/P_RoughMc8.v
theories/P_Sabr.v
theories/P_Sabr2.v
theories/P_Sabr3.v
theories/P_Sabr4.v
theories/P_Sabr5.v
theories/P_Sabr6.v
theories/P_Sabr7.v
theories/P_SabrCai.v
theories/P_SabrCai2.v
theories/P_SabrCai3.v
theories/P_SabrCai4.v
theories/P_SabrMass.v
theories/P_SabrMix.v
theories/P_SabrMix2.v
theories/P_SabrMix3.v
theories/P_SabrMix4.v
theories/P_SabrMix5.v
theories/P_SabrTight.v
theories/P_SabrVol.v
theories/P_SabrVol2.v
theories/P_SabrVol3.v
theories/P_SabrVol4.v
theories/P_SabrVol5.v
theories/P_SabrVol6.v
theories/P_Small.v
theories/P_Sv32Mc.v
theories/P_Sv32Mc2.v
theories/P_Sv32Mc3.v
theories/P_Sv32Mc4.v
theories/P_Sv32Mc5.v
theories/P_Svi.v
theories/P_Sz.v
theories/P_Sz2.v
theories/P_Tight.v
theories/P_Tight2.v
theories/P_TightMc.v
theories/P_VolPath.v
theories/P_VolPath2.v
theories/P_VolPath3.v
theories/P_Zeta.v
theories/Props_Alloc.v
theories/Props_Amer.v
theories/Props_Asian.v
theories/Props_Barrier.v
theories/Props_Cev.v
theories/Props_CevMc.v
theories/Props_CgmyRange.v
theories/Props_Cir.v
theories/Props_Cos.v
theories/Props_Dist.v
theories/Props_Dist2.v
theories/Props_Dist3.v
theories/Props_Ellipe.v
theories/Props_Fd.v
theories/Props_Fd2.v
theories/Props_Fwd.v
theories/Props_Garch.v
theories/Props_Heston.v
theories/Props_HestonMc.v
theories/Props_HestonRv.v
theories/Props_Kummer.v
theories/Props_Mass.v
theories/Props_Mc.v
theories/Props_Mgf.v
theories/Props_Moment.v
theories/Props_Multi.v
theories/Props_Multi2.v
theories/Props_Multi3.v
theories/Props_Newton.v
theories/Props_Nsvh.v
theories/Props_NsvhQuad.v
theories/Props_Opt.v
theories/Props_Ou.v
theories/Props_Params.v
theories/Props_Paths.v
theories/Props_Recip.v
theories/Props_Rough.v
theories/Props_Rough2.v
theories/Props_RoughMc.v
theories/Props_RoughMc2.v
theories/Props_Sabr.v
theories/Props_Sabr2.v
theories/Props_SabrCai.v
theories/Props_SabrMix.v
theories/Props_SabrVol.v
theories/Props_SabrVol2.v
theories/Props_Sv32.v
theories/Props_Svi.v
theories/Props_Sz.v
theories/Props_Tight.v
theories/Props_VolPath.v
theories/Spec_Alloc.v
theories/Spec_Asian.v
theories/Spec_Barrier.v
theories/Spec_Cev.v
theories/Spec_CevMc.v
theories/Spec_Cos.v
theories/Spec_Dist.v
theories/Spec_Ellipe.v
theories/Spec_Expect.v
theories/Spec_Fd.v
theories/Spec_Fd2.v
theories/Spec_Fwd.v
theories/Spec_Garch.v
theories/Spec_HPath.v
theories/Spec_HestonMc.v
theories/Spec_HestonMc2.v
theories/Spec_Misc.v
theories/Spec_Moment.v
theories/Spec_Multi.v
theories/Spec_Multi2.v
theories/Spec_NsvhQuad.v
theories/Spec_Opt.v
theories/Spec_Ou.v
theories/Spec_Params.v
theories/Spec_Recip.v
theories/Spec_Rough.v
theories/Spec_RoughMc.v
theories/Spec_Sabr.v
theories/Spec_SabrCai.v
theories/Spec_SabrVol.v
theories/Spec_Sde.v
theories/Spec_Sv32.v
theories/Spec_Svi.v
theories/Spec_Sz.v
theories/Spec_VolPath.v
theories/Sums.v
