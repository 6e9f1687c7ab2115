-Q theories Verif
theories/Esum.v
theories/Esum8.v
theories/Inv.v
theories/Mat.v
theories/Ord.v
theories/Pull.v
theories/Root2.v
theories/Alg.v
theories/M_Attr.v
theories/M_Blocks.v
theories/M_Bno.v
theories/M_BosBath.v
theories/M_BosHam.v
theories/M_Bracket.v
theories/M_Cache.v
theories/M_CasFrag.v
theories/M_Cluster.v
theories/M_Contexts.v
theories/M_Corrfunc.v
theories/M_Counterpoise.v
theories/M_Cpt.v
theories/M_Crpa.v
theories/M_Demo.v
theories/M_DmetBath.v
theories/M_DmetEnergy.v
theories/M_EbFci.v
theories/M_Einsum.v
theories/M_Energy.v
theories/M_Eris.v
theories/M_Ewdmet.v
theories/M_ExtCorr.v
theories/M_Fci.v
theories/M_Fold.v
theories/M_FragBasis.v
theories/M_FragCoeff.v
theories/M_Fragments.v
theories/M_Gamma2.v
theories/M_GlobalWf.v
theories/M_Heff.v
theories/M_Hubbard.v
theories/M_Ints.v
theories/M_Kconserv.v
theories/M_Mp2.v
theories/M_Mpi.v
theories/M_Options.v
theories/M_Pack.v
theories/M_Pad.v
theories/M_PartDm.v
theories/M_PartDm2.v
theories/M_Perms.v
theories/M_Polariton.v
theories/M_R2Bath.v
theories/M_Rdm.v
theories/M_Register.v
theories/M_RiRpa.v
theories/M_Rma.v
theories/M_Scmf.v
theories/M_Screen.v
theories/M_SelfEnergy.v
theories/M_Sign.v
theories/M_Solvers.v
theories/M_SsRpa.v
theories/M_SymTree.v
theories/M_Symop.v
theories/M_Tailor.v
theories/M_Tsym.v
theories/M_TtoC.v
theories/M_UGamma2.v
theories/M_Updates.v
theories/M_Vlog.v
theories/M_Wf.v
theories/P_Assemble.v
theories/P_Attr.v
theories/P_Blk.v
theories/P_Blocks.v
theories/P_Bno.v
theories/P_BosBath.v
theories/P_BosHam.v
theories/P_Bracket.v
theories/P_Cache.v
theories/P_CasFrag.v
theories/P_Cluster.v
theories/P_Contexts.v
theories/P_Conv.v
theories/P_Corrfunc.v
theories/P_Counterpoise.v
theories/P_Cpt.v
theories/P_Crpa.v
theories/P_Delta.v
theories/P_Demo.v
theories/P_DmetBath.v
theories/P_DmetEnergy.v
theories/P_EbFci.v
theories/P_EbStr.v
theories/P_Einsum.v
theories/P_Energy.v
theories/P_Eris.v
theories/P_Ewdmet.v
theories/P_ExtCall.v
theories/P_ExtCorr.v
theories/P_Fci.v
theories/P_Fold.v
theories/P_FragBasis.v
theories/P_FragCoeff.v
theories/P_Fragments.v
theories/P_Gamma2.v
theories/P_GlobalAmp.v
theories/P_GlobalPairs.v
theories/P_GlobalWf.v
theories/P_Heff.v
theories/P_Hubbard.v
theories/P_Ints.v
theories/P_Kconserv.v
theories/P_Lift.v
theories/P_Mp2.v
theories/P_Mpi.v
theories/P_Options.v
theories/P_Pack.v
theories/P_Pad.v
theories/P_Part2.v
theories/P_PartDm.v
theories/P_PartDm2.v
theories/P_PartDm3.v
theories/P_PartDm4.v
theories/P_Perms.v
theories/P_Polariton.v
theories/P_Project.v
theories/P_R2Bath.v
theories/P_Rdm.v
theories/P_Register.v
theories/P_RiRpa.v
theories/P_Rma.v
theories/P_Rotate.v
theories/P_Scmf.v
theories/P_Screen.v
theories/P_SelfEnergy.v
theories/P_Sign.v
theories/P_Solvers.v
theories/P_SsRpa.v
theories/P_SymTree.v
theories/P_Symop.v
theories/P_Tailor.v
theories/P_Tsym.v
theories/P_TtoC.v
theories/P_TwoEl.v
theories/P_UGamma2.v
theories/P_Updates.v
theories/P_Vlog.v
