-Q theories Verif

theories/Base.v
theories/UtilModel.v
theories/WordLemmas.v
theories/UtilSpec.v
theories/UtilProofs.v
theories/UtilProofs2.v
theories/UtilProofs3.v
theories/UtilProps.v
theories/SequentialModel.v
theories/SequentialSpec.v
theories/SequentialProofs.v
theories/SequentialProps.v
theories/MTModel.v
theories/MTTests.v
theories/MTSpec.v
theories/MTSeedProofs.v
theories/MTClient.v
theories/MTProofs.v
theories/MTProofs2.v
theories/MTProofs3.v
theories/MTProps.v
theories/GenModel.v
theories/LinSpec.v
theories/LinLemmas.v
theories/LinInst.v
theories/WordVec.v
theories/EquiModel.v
theories/EquiLattice.v
theories/EquiProofs.v
theories/EquiProofs2.v
theories/EquiProofs3.v
theories/EquiProofs4.v
theories/EquiProofs5.v
theories/EquiProofs6.v
theories/XorshiftModel.v
theories/XorshiftSpec.v
theories/XorshiftProofs.v
theories/XorshiftProofs2.v
theories/XorshiftLin.v
theories/EquiEx.v
theories/EquiProps.v
theories/XorshiftProps.v
theories/PolyF2.v
theories/PeriodModel.v
theories/PeriodSpec.v
theories/PeriodProofs.v
theories/PeriodProofs2.v
theories/PeriodProofs3.v
theories/PolyAct.v
theories/PeriodProofs4.v
theories/PeriodProofs5.v
theories/PeriodProofs6.v
theories/PeriodProofs7.v
theories/PeriodEx.v
theories/PeriodProps.v
theories/PrimeCert.v
theories/PrimeCertProofs.v
theories/PrimeTables.v
theories/PrimeTableCerts.v
theories/PrimeTableProofs.v
theories/LucasLehmer.v
theories/LimbMersenne.v
theories/LimbProofs.v
theories/MersenneTable.v
theories/MersenneProofs.v
theories/PrimeProps.v
theories/LinTestModel.v
theories/LinOut.v
theories/LinTestProofs.v
theories/XorshiftFamily.v
theories/LinTestProps.v
theories/SampleModel.v
theories/SampleSpec.v
theories/SampleProofs.v
theories/PeriodCert.v
theories/PeriodCertProofs.v
theories/XorshiftPeriod.v
theories/SampleProps.v
theories/TemperModel.v
theories/TemperSpec.v
theories/TemperProofs.v
theories/BestBitsSpec.v
theories/BestBitsProofs.v
theories/TemperEx.v
theories/TemperProps.v
theories/TinyModel.v
theories/TinyLin.v
theories/RecTemperModel.v
theories/RecTemperSpec.v
theories/RecTemperProofs.v
theories/TinyDcModel.v
theories/TinySpec.v
theories/TinyProofs.v
theories/TinyDcProofs.v
theories/TinyPeriod.v
theories/TinyEx.v
theories/RecTemperProps.v
theories/TinyProps.v
theories/W128Model.v
theories/W128Spec.v
theories/W128Proofs.v
theories/W128Cert.v
theories/W128Props.v
theories/ArrayModel.v
theories/ArrayWin.v
theories/ArrayLin.v
theories/ArrayOut.v
theories/ArrayEqui.v
theories/ArrayPeriod.v
theories/MtdcModel.v
theories/MtdcLin.v
theories/MtdcProofs.v
theories/MtdcEx.v
theories/MtdcProps.v
theories/RmtModel.v
theories/RmtLin.v
theories/RmtProofs.v
theories/RmtProps.v
theories/ParityModel.v
theories/ParitySpec.v
theories/ParityProofs.v
theories/ParityProofs2.v
theories/ParityProofs3.v
theories/ParityProofs4.v
theories/ParityEx.v
theories/ParityProps.v
theories/ParityProofs5.v
theories/RmtParity.v
theories/RmtParityProps.v
theories/MtgpModel.v
theories/MtgpLin.v
theories/MtgpProofs.v
theories/MtgpProps.v
theories/DelayLin.v
theories/SfmtModel.v
theories/SfmtLin.v
theories/SfmtProofs.v
theories/SfmtParity.v
theories/SfmtProps.v
theories/SimdModel.v
theories/SimdSpec.v
theories/SimdPack.v
theories/SimdEqui.v
theories/SimdSeq.v
theories/SimdBits.v
theories/SimdProofs.v
theories/SimdThm.v
theories/SimdProps.v
theories/DsfmtModel.v
theories/ViewLin.v
theories/DsfmtLin.v
theories/DsfmtProofs.v
theories/DsfmtPar.v
theories/DsfmtSeq.v
theories/AffineFix.v
theories/DsfmtFixModel.v
theories/DsfmtAffine.v
theories/DsfmtFixSpec.v
theories/DsfmtFix.v
theories/DsfmtCert.v
theories/DsfmtProps.v
theories/DsfmtEquiModel.v
theories/DsfmtEquiSpec.v
theories/DsfmtEqui.v
theories/DsfmtEquiProofs.v
theories/DsfmtEquiThm.v
theories/DsfmtEquiProps.v
theories/AnniModel.v
theories/AnniProofs.v
theories/AnniThm.v
theories/AnniProps.v
theories/SearchModel.v
theories/SearchSpec.v
theories/SearchLin.v
theories/SearchSfmt.v
theories/SearchDsfmt.v
theories/SearchProps.v
theories/RecTotal.v
theories/Mt2Model.v
theories/Mt2Spec.v
theories/Mt2Proofs.v
theories/Mt2Ex.v
theories/Mt2Props.v
theories/MtgpDcModel.v
theories/MtgpDcSpec.v
theories/MtgpDcProofs.v
theories/MtgpDcProps.v
theories/RedTemperModel.v
theories/RedTemperSpec.v
theories/RedTemperProofs.v
theories/RedTemperEx.v
theories/RedTemperProps.v
theories/RmtDcModel.v
theories/RmtDcSpec.v
theories/RmtDcProofs.v
theories/RmtDcProps.v
theories/RmtCalcModel.v
theories/RmtCalcSpec.v
theories/RmtCalcRead.v
theories/RmtCalcProofs.v
theories/RmtCalcProps.v
theories/ModeAnni.v
theories/PerTestModel.v
theories/PerTestSpec.v
theories/ModeTable.v
theories/SfmtMode.v
theories/PerTestRead.v
theories/PerTestSfmt.v
theories/DsfmtMode.v
theories/PerTestDsfmt.v
theories/PerTestProps.v
theories/FixParModel.v
theories/FixParSpec.v
theories/FixParProofs.v
theories/FixParProps.v
theories/EqMainModel.v
theories/EqMainSpec.v
theories/EqMainSeq.v
theories/EqMainProofs.v
theories/EqMainProg.v
theories/EqMainProps.v
theories/ParMainModel.v
theories/ParMainSpec.v
theories/ParMainProofs.v
theories/ParMainProps.v
theories/TmtModel.v
theories/TmtSpec.v
theories/TmtProofs.v
theories/TmtProofs2.v
theories/TmtProps.v
theories/T64Model.v
theories/T64Spec.v
theories/T64Lin.v
theories/T64Proofs.v
theories/T64Props.v
theories/TestPerModel.v
theories/TestPerProofs.v
theories/TestPerProps.v
theories/RTinyModel.v
theories/RTinyProofs.v
theories/RTinyProofs2.v
theories/RTinyProps.v
