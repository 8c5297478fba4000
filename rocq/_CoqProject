-Q theories Verif
theories/Prelude.v
theories/ListFacts.v
theories/PermModel.v
theories/PermSpec.v
theories/PermProofs1.v
theories/PermProofs2.v
theories/PermProofs3.v
theories/PermProofs4.v
theories/PermProofs5.v
theories/Properties_Perm.v
theories/CircModel.v
theories/CircSpec.v
theories/CircProofs1.v
theories/CircProofs2.v
theories/Properties_Channels.v
theories/BinModel.v
theories/BinSpec.v
theories/BinProofs.v
theories/Properties_Binary.v
theories/CreateModel.v
theories/CreateSpec.v
theories/CreateProofs.v
theories/CtxModel.v
theories/CtxSpec.v
theories/CtxProofs.v
theories/EqModel.v
theories/EqProofs.v
theories/Properties_State.v
theories/PatModel.v
theories/PatSpec.v
theories/PatProofs.v
theories/TreeModel.v
theories/TreeSpec.v
theories/TreeProofs.v
theories/Properties_Pattern.v
theories/SortModel.v
theories/SortSpec.v
theories/SortProofs.v
theories/HilbertModel.v
theories/HilbertSpec.v
theories/OrderProofs.v
theories/HilbertProofs.v
theories/Properties_Order.v
theories/BasisModel.v
theories/BasisSpec.v
theories/BasisProofs.v
theories/Properties_Basis.v
theories/AlgSpec.v
theories/AlgInst.v
theories/IdxModel.v
theories/IdxSpec.v
theories/IdxProofs1.v
theories/IdxProofs2.v
theories/IdxProofs3.v
theories/IdxProofs4.v
theories/IdxProofs5.v
theories/IdxProofs6.v
theories/Properties_Idx.v
theories/CAlg.v
theories/NcRing.v
theories/MatModel.v
theories/SlhModel.v
theories/MatSpec.v
theories/MatProofs.v
theories/SlhProofs1.v
theories/SlhProofs2.v
theories/SlhProofs3.v
theories/SlhProofs4.v
theories/SlhProofs5.v
theories/SlhProofs6.v
theories/SlhProofs7.v
theories/SlhProofs8.v
theories/SlhProofs9.v
theories/CInst.v
theories/Properties_Slh.v
theories/MatProofs2.v
theories/Properties_Mat.v
theories/CSimpModel.v
theories/CSimpSpec.v
theories/CSimpProofs1.v
theories/CSimpProofs2.v
theories/CSimpProofs3.v
theories/CSimpProofs4.v
theories/CSimpProofs5.v
theories/CSimpProofs6.v
theories/CSimpSlh.v
theories/ToSlhModel.v
theories/ToSlhSpec.v
theories/ToSlhProofs.v
theories/CSimpProofs7.v
theories/CSimpFuel.v
theories/Properties_Circuit.v
theories/OpModel.v
theories/OpSpec.v
theories/OpProofs1.v
theories/OpProofs2.v
theories/OpProofs3.v
theories/OpJet.v
theories/OpFock.v
theories/OpSites.v
theories/Cplx.v
theories/OpOrder.v
theories/OpFuel.v
theories/OpForms.v
theories/OpForm.v
theories/OpSx.v
theories/OpForm2.v
theories/OpLocal.v
theories/OpLeibModel.v
theories/OpLeibProofs.v
theories/OpRun.v
theories/Properties_Op1.v
theories/Properties_Op2.v
theories/KeyModel.v
theories/KeySpec.v
theories/KeyProofs.v
theories/Properties_Key.v
theories/OpSeriesModel.v
theories/OpSeriesSpec.v
theories/OpSeriesProofs.v
theories/OpPi.v
theories/OpSeriesInst.v
theories/Properties_Series.v
theories/ScalarModel.v
theories/ScalarSpec.v
theories/ScalarProofs.v
theories/ScalarInst.v
theories/Properties_Scalar.v
theories/EquationModel.v
theories/EquationSpec.v
theories/Properties_Equation.v
theories/ConnectModel.v
theories/ConnectSpec.v
theories/ConnectProofs1.v
theories/ConnectProofs2.v
theories/ConnectProofs3.v
theories/Properties_Connect.v
theories/SupModel.v
theories/SupSpec.v
theories/SupProofs1.v
theories/SupProofs2.v
theories/SupProofs3.v
theories/SupOrder.v
theories/SupProofs4.v
theories/SupProofs5.v
theories/SupInst.v
theories/SupLocal.v
theories/Properties_Sup1.v
theories/Properties_Sup2.v
theories/NfModel.v
theories/NfSpec.v
theories/NfProofs.v
theories/NfLocal.v
theories/Properties_Nf.v
theories/TrModel.v
theories/TrSpec.v
theories/TrProofs.v
theories/TrInst.v
theories/Properties_Tr.v
theories/KetModel.v
theories/KetSpec.v
theories/KetProofs1.v
theories/KetProofs2.v
theories/KetProofs3.v
theories/KetProofs4.v
theories/KetProofs5.v
theories/KetFuel.v
theories/KetInst.v
theories/KetInst2.v
theories/KetLocal.v
theories/Properties_Ket.v
theories/ConvModel.v
theories/ConvSpec.v
theories/ConvProofs1.v
theories/ConvProofs2.v
theories/ConvProofs3.v
theories/ConvProofs4.v
theories/Properties_Conv.v
theories/QutipModel.v
theories/QutipSpec.v
theories/QutipProofs.v
theories/Properties_Qutip.v
theories/SreprModel.v
theories/SreprSpec.v
theories/SreprProofs1.v
theories/SreprProofs2.v
theories/SreprProofs3.v
theories/Properties_Srepr.v
theories/DrawModel.v
theories/DrawSpec.v
theories/DrawProofs1.v
theories/DrawProofs2.v
theories/Properties_Draw.v
theories/OpClosed.v
theories/OpSiteSpec.v
theories/OpMulti1.v
theories/OpMulti2.v
theories/OpMulti3.v
theories/Properties_Sites.v
theories/DiffModel.v
theories/DiffSpec.v
theories/DiffProofs.v
theories/DiffCode.v
theories/DiffInst.v
theories/Properties_Diff.v
theories/AdModel.v
theories/AdSpec.v
theories/AdProofs.v
theories/AdProofs2.v
theories/AdProofs3.v
theories/AdInst.v
theories/Properties_Ad.v
theories/NoiseModel.v
theories/NoiseSpec.v
theories/NoiseProofs.v
theories/Properties_Noise.v
theories/AbcdModel.v
theories/AbcdSpec.v
theories/AbcdProofs.v
theories/AbcdProofs2.v
theories/AbcdProofs3.v
theories/Properties_Abcd.v
theories/AsciiModel.v
theories/AsciiSpec.v
theories/AsciiProofs1.v
theories/AsciiProofs2.v
theories/AsciiProofs3.v
theories/AsciiProofs4.v
theories/Properties_Ascii.v
theories/DoitModel.v
theories/DoitSpec.v
theories/DoitProofs1.v
theories/DoitProofs2.v
theories/DoitProofs3.v
theories/DoitLocal.v
theories/DoitTrace.v
theories/Properties_Doit.v
theories/LibModel.v
theories/LibSpec.v
theories/LibProofs.v
theories/LibProofs2.v
theories/LibInst.v
theories/Properties_Lib.v
theories/Properties_Lib2.v
theories/QsModel.v
theories/QsSpec.v
theories/QsProofs1.v
theories/QsProofs2.v
theories/QsProofs3.v
theories/Properties_Qs.v
theories/LvlInst.v
theories/LvlSpec.v
theories/LvlProofs.v
theories/Properties_Lvl.v
theories/PauliModel.v
theories/PauliSpec.v
theories/PauliProofs.v
theories/Properties_Pauli.v
theories/CAsciiModel.v
theories/CAsciiSpec.v
theories/CAsciiProofs.v
theories/Properties_CAscii.v
theories/XbModel.v
theories/XbProofs.v
theories/XbProofs2.v
theories/Properties_Xb.v
theories/PinvModel.v
theories/PinvSpec.v
theories/PinvProofs.v
theories/Properties_Pinv.v
theories/MarModel.v
theories/MarSpec.v
theories/MarProofs.v
theories/Properties_Mar.v
theories/AriModel.v
theories/AriSpec.v
theories/AriProofs.v
theories/Properties_Ari.v
theories/SdModel.v
theories/SdSpec.v
theories/SdInst.v
theories/Properties_Sd.v
theories/SserModel.v
theories/SserSpec.v
theories/SserProofs.v
theories/SserInst.v
theories/Properties_Sser.v
theories/IdxPowModel.v
theories/Properties_IdxPow.v
theories/DvModel.v
theories/DvSpec.v
theories/DvProofs.v
theories/DvInst.v
theories/Properties_Dv.v
theories/TayModel.v
theories/Properties_Tay.v
theories/EqvModel.v
theories/Properties_Eqv.v
theories/IdxBraModel.v
theories/Properties_IdxBra.v
theories/RulModel.v
theories/Properties_Rul.v
theories/FlatModel.v
theories/Properties_Flat.v
theories/SumFModel.v
theories/Properties_SumF.v
