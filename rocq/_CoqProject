-Q theories Verif
theories/Base.v
theories/KpackTables.v
theories/KpackModel.v
theories/KpackSpec.v
theories/KpackProofs.v
theories/P_Kpack.v
theories/IntModel.v
theories/IntSpec.v
theories/IntProofs.v
theories/P_Int.v
theories/SymModel.v
theories/SymSpec.v
theories/SymProofs.v
theories/P_Sym.v
theories/PMonModel.v
theories/PMonSpec.v
theories/PMonProofs.v
theories/PMonProofs2.v
theories/P_PMon.v
theories/DPMModel.v
theories/DPMSpec.v
theories/DPMProofs.v
theories/DPMProofs2.v
theories/DPMProofs3.v
theories/P_DPM.v
theories/KeyOps.v
theories/SeriesModel.v
theories/SeriesModel2.v
theories/SeriesSpec.v
theories/KeyInst.v
theories/SeriesProofs.v
theories/SeriesProofs2.v
theories/SeriesProofs3.v
theories/SeriesProofs4.v
theories/SeriesProofs5.v
theories/SeriesProofs6.v
theories/Lin.v
theories/EvalSpec.v
theories/SeriesEval.v
theories/CfInst.v
theories/SeriesProofs7.v
theories/P_Series.v
theories/P_Series2.v
theories/PolyModel.v
theories/PolySpec.v
theories/PolyProofs.v
theories/PolyProofs2.v
theories/PolyProofs3.v
theories/PolyProofs4.v
theories/PolyProofs5.v
theories/PolyProofs6.v
theories/PolyProofs7.v
theories/PolyModel2.v
theories/PolyProofs8.v
theories/PolyProofs9.v
theories/P_Poly.v
theories/P_Poly2.v
theories/PolyConc.v
theories/PolyConcProofs.v
theories/P_PolyConc.v
theories/PowProofs.v
theories/PowProofs2.v
theories/P_Pow.v
theories/CalcSpec.v
theories/DiffProofs.v
theories/IntegProofs.v
theories/P_Calc.v
theories/SubsSpec.v
theories/SubsProofs.v
theories/SubsProofs2.v
theories/P_Subs.v
theories/PSModel.v
theories/PSSpec.v
theories/PSProofs.v
theories/P_PS.v
theories/PSPow.v
theories/P_PS2.v
theories/P_PS3.v
theories/P_Gen.v
theories/P_PS4.v
theories/SerModel.v
theories/SerSpec.v
theories/P_Ser.v
theories/P_Ser2.v
theories/PrintModel.v
theories/PrintSpec.v
theories/PrintProofs.v
theories/PrintProofs2.v
theories/PrintProofs3.v
theories/P_Print.v
theories/P_Print2.v
theories/LockModel.v
theories/P_Lock.v
theories/FwModel.v
theories/P_Fw.v
theories/P_Inv.v
theories/ExnModel.v
theories/ExnProofs.v
theories/ExnProofs2.v
theories/P_Exn.v
theories/ExnModel2.v
theories/P_Exn2.v
theories/ExnProofs3.v
theories/P_Exn3.v
theories/EstModel.v
theories/EstProofs.v
theories/P_Est.v
theories/LockWeak.v
theories/P_LockWeak.v
theories/MixModel.v
theories/MixSpec.v
theories/MixProofs.v
theories/MixProofs2.v
theories/P_Mix.v
theories/XoroModel.v
theories/P_Xoro.v
theories/SizeModel.v
theories/P_Size.v
theories/P_Print3.v
theories/LfSpec.v
theories/LfProofs.v
theories/LfProofs2.v
theories/LfProofs3.v
theories/LfProofs4.v
theories/P_Lf.v
theories/RecModel.v
theories/RecSpec.v
theories/RecProofs.v
theories/P_Rec.v
theories/RecModel2.v
theories/P_Rec2.v
theories/RecModel3.v
theories/RecProofs2.v
theories/P_Rec3.v
theories/RecModel4.v
theories/P_Rec4.v
theories/P_Rec5.v
theories/RecModel5.v
theories/P_Lf2.v
theories/P_Rec6.v
theories/TypeModel.v
theories/TypeSpec.v
theories/P_Type.v
theories/MixModel2.v
theories/P_Mix2.v
theories/P_Integ2.v
theories/RecModel6.v
theories/EqProofs.v
theories/P_Rec7.v
theories/PowConc.v
theories/PowConcProofs.v
theories/P_PowConc.v
theories/ExnModel3.v
theories/P_Exn4.v
theories/TexSpec.v
theories/TexModel.v
theories/TexProofs.v
theories/TexProofs2.v
theories/P_Print4.v
theories/RecModel7.v
theories/P_Rec8.v
theories/P_PS5.v
theories/CalcModel2.v
theories/CalcProofs2.v
theories/P_Calc2.v
theories/CalcProofs3.v
theories/P_PS6.v
theories/RecModel8.v
theories/RecPowSpec.v
theories/RecPow.v
theories/P_Rec9.v
theories/PSModel3.v
theories/P_PS7.v
theories/PSSubsSpec.v
theories/PSSubs.v
theories/P_PS8.v
theories/TypeModel2.v
theories/TypeSpec2.v
theories/P_Type2.v
theories/NestPrintSpec.v
theories/P_Print5.v
theories/RecModel9.v
theories/RecSubsSpec.v
theories/P_Rec10.v
theories/P_PS9.v
theories/DomProofs.v
theories/P_Dom.v
theories/ExprSpec.v
theories/P_Expr.v
theories/P_PSExpr.v
theories/ExnModel4.v
theories/HistSpec.v
theories/P_Hist.v
theories/ExnModel5.v
theories/ExnProofs5.v
theories/ExnProofs6.v
theories/P_MulExn.v
theories/P_Dtor.v
theories/StatsModel.v
theories/P_Stats.v
theories/PSHistModel.v
theories/PSHistSpec.v
theories/P_PSHist.v
theories/LawSpec.v
theories/P_Laws.v
theories/PSLawSpec.v
theories/P_PSLaws.v
theories/P_Subst.v
theories/P_Subst2.v
theories/P_Subst3.v
