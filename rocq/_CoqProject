-Q theories Verif
theories/Num.v
theories/Res.v
theories/Arr.v
theories/CuttingPlane.v
theories/EllCalc.v
theories/Ell.v
theories/EllStable.v
theories/DriverSpec.v
theories/DriverProofs.v
theories/DriverProofs2.v
theories/BSearchReal.v
theories/FloatLemmas.v
theories/BSearchFloat.v
theories/ToyDrivers.v
theories/Prop_Drivers.v
theories/ArrLemmas.v
theories/EllLemmas.v
theories/Spec.v
theories/RealLin.v
theories/CutScalar.v
theories/EllSpec.v
theories/EllReal.v
theories/EllCuts.v
theories/EllRun.v
theories/EllMore.v
theories/EllWitness.v
theories/Prop_Ell.v
theories/CalcAgree.v
theories/ExtSpec.v
theories/ExtDefined.v
theories/Dim1.v
theories/Prop_Calc.v
theories/ArrProps.v
theories/ArrReal.v
theories/ArrFloat.v
theories/Prop_Arr.v
theories/StableLemmas.v
theories/StableSpec.v
theories/StableReal.v
theories/StableMore.v
theories/StableFloat.v
theories/Prop_Stable.v
theories/Ldlt.v
theories/Lmi.v
theories/LdltLemmas.v
theories/LdltSpec.v
theories/LdltReal.v
theories/LdltProofs.v
theories/LdltHist.v
theories/LdltFloat.v
theories/LmiSpec.v
theories/LmiProofs.v
theories/LmiFloat.v
theories/LdltWitness.v
theories/Prop_Ldlt.v
theories/Prop_Lmi.v
theories/Examples.v
theories/Profit.v
theories/Svm.v
theories/ExSpec.v
theories/ExProofs.v
theories/DriverBest.v
theories/ExRun.v
theories/Replay.v
theories/ExWitness.v
theories/Prop_Examples.v
theories/ProfitSpec.v
theories/ProfitProofs.v
theories/ProfitReal.v
theories/ProfitMore.v
theories/ProfitQ.v
theories/ProfitRun.v
theories/ProfitWitness.v
theories/ProfitExt.v
theories/Prop_Profit.v
theories/SvmSpec.v
theories/SvmProofs.v
theories/MaxcutProofs.v
theories/SvmWitness.v
theories/Prop_Svm.v
theories/Lowpass.v
theories/LowpassSpec.v
theories/LowpassProofs.v
theories/LowpassReal.v
theories/LowpassMore.v
theories/LowpassNew.v
theories/LowpassCase.v
theories/LowpassFloat.v
theories/Prop_Lowpass.v
theories/PowerIter.v
theories/PowerSpec.v
theories/PowerOps.v
theories/PowerProofs.v
theories/PowerMore.v
theories/PowerConv.v
theories/PowerPanic.v
theories/PowerWitness.v
theories/Prop_Power.v
theories/Cg.v
theories/CgSpec.v
theories/CgProofs.v
theories/CgConv.v
theories/CgMore.v
theories/CgPanic.v
theories/CgWitness.v
theories/Prop_Cg.v
theories/Det.v
theories/DetLemmas.v
theories/VolScalar.v
theories/VolProofs.v
theories/RunSpec.v
theories/RunProofs.v
theories/ExConv.v
theories/RunWitness.v
theories/Prop_Volume.v
theories/Prop_Run.v
theories/RunMore.v
theories/LmiRun.v
theories/Prop_LmiRun.v
theories/ProfitConv.v
theories/ProfitTest.v
theories/Prop_ProfitRun.v
theories/RunQSpec.v
theories/RunQ.v
theories/RunQWitness.v
theories/Prop_RunQ.v
theories/BsRun.v
theories/BsEx3.v
theories/Prop_BsRun.v
theories/Portfolio.v
theories/PortfolioSpec.v
theories/PortfolioProofs.v
theories/PortfolioWitness.v
theories/PortfolioCase.v
theories/Prop_Portfolio.v
theories/Squares.v
theories/SquaresSpec.v
theories/SquaresProofs.v
theories/Replay2.v
theories/Prop_Squares.v
theories/ExtRunSpec.v
theories/ExtRun.v
theories/ExtOracles.v
theories/ExtTest.v
theories/Prop_ExtRun.v
theories/FloatSign.v
theories/KappaSpec.v
theories/KappaSign.v
theories/KappaRun.v
theories/KappaOracles.v
theories/KappaWitness.v
theories/Prop_Kappa.v
theories/ArrEq.v
theories/Prop_ArrEq.v
theories/RunTotal.v
theories/RunTotalEx.v
theories/LowpassRunSpec.v
theories/LowpassRun.v
theories/LowpassDesign.v
theories/Prop_LowpassRun.v
theories/CalcFlag.v
theories/TraceDet.v
theories/OptVol.v
theories/OptCuts.v
theories/OptEx.v
theories/OptCase.v
theories/Prop_Opt.v
theories/QcvxRun.v
theories/Prop_Qcvx.v
theories/AccSpec.v
theories/FloatRel.v
theories/AccProofs.v
theories/Prop_Acc.v
theories/FloatErr.v
theories/FcosAcc.v
theories/PiBound.v
theories/LdltErr.v
theories/LdltRej.v
theories/LdltAccSpec.v
theories/LdltAcc.v
theories/LdltAccEx.v
theories/Prop_LdltAcc.v
theories/StepErr.v
theories/StepRel.v
theories/StepAccSpec.v
theories/StepAcc.v
theories/StepCuts.v
theories/StepEx.v
theories/KernAcc.v
theories/Prop_ArrAcc.v
theories/Prop_StepAcc.v
theories/StepRunSpec.v
theories/StepRun.v
theories/StepRunEx.v
theories/Prop_StepVol.v
theories/Prop_Asked.v
theories/Prop_StepRun.v
theories/Qcvx2.v
theories/Qcvx2Spec.v
theories/Qcvx2Run.v
theories/Qcvx2Ex.v
theories/Prop_Qcvx2.v
theories/LmiErr.v
theories/LmiAccSpec.v
theories/LmiAcc.v
theories/LmiMain.v
theories/LmiAccEx.v
theories/Prop_LmiAcc.v
theories/LmiAccRun.v
theories/LmiRunEx.v
theories/Prop_LmiAccRun.v
theories/LmiZero.v
theories/LmiZeroEx.v
theories/Prop_LmiZero.v
theories/ArrMore.v
theories/Prop_ArrMore.v
theories/ParGeom.v
theories/ParKern.v
theories/ParAccSpec.v
theories/StepPar.v
theories/ParCuts.v
theories/ParEx.v
theories/Prop_ParAcc.v
theories/ParRunSpec.v
theories/ParRun.v
theories/ParRunEx.v
theories/Prop_ParRun.v
theories/LowAccSpec.v
theories/LowAcc.v
theories/LowAccRun.v
theories/LowAccEx.v
theories/Prop_LowAcc.v
theories/LowNewSpec.v
theories/LowNewAcc.v
theories/LowDesign.v
theories/LowDesignEx.v
theories/Prop_LowDesign.v
theories/CgAccSpec.v
theories/CgAcc.v
theories/CgAccEx.v
theories/Prop_CgAcc.v
theories/ProfAccSpec.v
theories/ProfAcc.v
theories/ProfAccRun.v
theories/FexpAcc.v
theories/ProfAccEx.v
theories/Prop_ProfAcc.v
theories/ReplayLibm.v
theories/RbAccSpec.v
theories/LevelRun.v
theories/RbAcc.v
theories/RbAccRun.v
theories/RbAccEx.v
theories/Prop_RbAcc.v
theories/PowAcc.v
theories/PowAccSpec.v
theories/PowAccRun.v
theories/PowAccEx.v
theories/Prop_PowAcc.v
theories/QcAccSpec.v
theories/QcAcc.v
theories/QcAccRun.v
theories/QcAccEx.v
theories/Prop_QcAcc.v
theories/BsAccSpec.v
theories/BsAcc.v
theories/BsAccEx.v
theories/Prop_BsAcc.v
theories/LinAccSpec.v
theories/MonoRun.v
theories/LinAcc.v
theories/LinAccRun.v
theories/LinAccEx.v
theories/Prop_LinAcc.v
theories/LdltSqrtAcc.v
theories/LdltSqrtEx.v
theories/Prop_LdltSqrtAcc.v
theories/LinspaceAcc.v
theories/LinspaceEx.v
theories/Prop_Linspace.v
theories/RobinSpec.v
theories/RobinProofs.v
theories/Prop_Robin.v
theories/RobinLpSpec.v
theories/RobinLp.v
theories/Prop_RobinLp.v
theories/SvmAccSpec.v
theories/SvmAcc.v
theories/SvmAccEx.v
theories/Prop_SvmAcc.v
theories/MaxcutAccSpec.v
theories/MaxcutAcc.v
theories/Prop_MaxcutAcc.v
theories/ProfQAccSpec.v
theories/ProfQAcc.v
theories/ProfQAccEx.v
theories/Prop_ProfQAcc.v
theories/LdltPanic.v
theories/Prop_LdltPanic.v
theories/Qc2AccSpec.v
theories/Qc2Acc.v
theories/Qc2AccRun.v
theories/Qc2AccEx.v
theories/Prop_Qc2Acc.v
theories/ArrSumAcc.v
theories/Pow3Spec.v
theories/Pow3.v
theories/Pow3Ex.v
