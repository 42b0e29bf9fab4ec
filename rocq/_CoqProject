-Q theories Verif
theories/Prob.v
theories/Minor.v
theories/Chain.v
theories/ExactModel.v
theories/ProjGS.v
theories/ProjEig.v
theories/ProjKuTa.v
theories/ProjSchur.v
theories/ProjChol.v
theories/ChainCons.v
theories/ProjAll.v
theories/GenKernel.v
theories/Spectral.v
theories/QRex.v
theories/P_Proj.v
theories/MinorF.v
theories/ProjCplx.v
theories/P_ProjC.v
theories/Factors.v
theories/P_Factors.v
theories/GenCplx.v
theories/HermGen.v
theories/P_GenCplx.v
theories/GenNonsym.v
theories/P_GenNonsym.v
theories/P_Gen.v
theories/Kdpp.v
theories/CauchyBinet.v
theories/LEnsemble.v
theories/P_Spectral.v
theories/P_Kdpp.v
theories/McmcModel.v
theories/Mcmc.v
theories/P_Mcmc.v
theories/P_McmcChain.v
theories/Doeblin.v
theories/PosMinor.v
theories/P_Converge.v
theories/UtilsModel.v
theories/FiniteModel.v
theories/Finite.v
theories/P_FiniteHist.v
theories/SpecLemmas.v
theories/P_FiniteCoh.v
theories/P_FiniteLaw.v
theories/EighEx.v
theories/P_FiniteKdpp.v
theories/P_Utils.v
theories/P_FiniteErr.v
theories/ExoticModel.v
theories/P_Perm.v
theories/P_Descent.v
theories/OneDep.v
theories/P_OneDep.v
theories/P_RSK.v
theories/P_RSKinv.v
theories/P_Schensted.v
theories/Knuth.v
theories/Greene.v
theories/P_Greene.v
theories/OpeModel.v
theories/P_Ordering.v
theories/P_Ope.v
theories/TreeSpec.v
theories/TreeLin.v
theories/TreeModel.v
theories/P_Ust.v
theories/TreePar.v
theories/LapLin.v
theories/LapTree.v
theories/LoopTerm.v
theories/WilsonInv.v
theories/WilsonLaw.v
theories/WilsonTerm.v
theories/P_Wilson.v
theories/AbLaw.v
theories/AbProg.v
theories/P_AldousBroder.v
theories/RandMatModel.v
theories/RandMat.v
theories/P_RandMat.v
theories/P_Circular.v
theories/FullMatModel.v
theories/P_FullMat.v
theories/Kramers.v
theories/P_Full4.v
theories/BetaModel.v
theories/P_Beta.v
theories/ZonoModel.v
theories/P_Zono.v
theories/PolyPotModel.v
theories/TriPow.v
theories/PolyPotCond.v
theories/P_PolyPot.v
theories/MalaModel.v
theories/P_Mala.v
theories/Dev12Model.v
theories/P_Dev12.v
theories/BlessModel.v
theories/P_Bless.v
theories/Rstruct.v
theories/PProg.v
theories/DetExp.v
theories/VfxModel.v
theories/VfxLin.v
theories/VfxCore.v
theories/VfxLaw.v
theories/VfxPre.v
theories/ExpBounds.v
theories/P_Vfx.v
theories/VfxAlpha.v
theories/P_AlphaDpp.v
theories/P_AlphaK.v
theories/P_AlphaEx.v
