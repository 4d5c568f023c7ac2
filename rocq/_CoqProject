-Q theories Verif
theories/Base.v
theories/Cplx.v
theories/ContractorModel.v
theories/ContractorSpec.v
theories/ContractorProofs.v
theories/SweepModel.v
theories/SweepSpec.v
theories/SweepProofs.v
theories/HistoryProofs.v
theories/SweepMain.v
theories/HistoryMain.v
theories/ProductInstance.v
theories/SweepProps.v
theories/UpdaterModel.v
theories/UpdaterSpec.v
theories/SuwaTodoProofs.v
theories/UpdaterProofs.v
theories/UpdaterChain.v
theories/BlockChain.v
theories/UpdaterMain.v
theories/UpdaterProps.v
theories/EnergyModel.v
theories/EnergySpec.v
theories/EnergyProofs.v
theories/EnergySum.v
theories/EnergyMain.v
theories/EnergyModels.v
theories/EnergyHoles.v
theories/ExactInstance.v
theories/FermionSigns.v
theories/FermionMain.v
theories/FermionModels.v
theories/FermionEnergy.v
theories/EnergyClaims.v
theories/EnergyProps.v
theories/PbcModel.v
theories/PbcSpec.v
theories/PbcProofs.v
theories/PbcProps.v
theories/Rsum.v
theories/JastrowModel.v
theories/JastrowSpec.v
theories/JastrowProofs.v
theories/JastrowProps.v
theories/ExactModel.v
theories/ExactSpec.v
theories/ExactEnum.v
theories/ExactProofs.v
theories/ExactMeasure.v
theories/ExactProps.v
theories/StatModel.v
theories/StatSpec.v
theories/StatProofs.v
theories/StatMain.v
theories/StatProps.v
theories/DuoModel.v
theories/DuoSpec.v
theories/DuoProofs.v
theories/DuoMain.v
theories/DuoProps.v
theories/ConfModel.v
theories/ConfSpec.v
theories/ConfProofs.v
theories/ConfRandom.v
theories/ConfProps.v
theories/MsgModel.v
theories/MsgSpec.v
theories/MsgProofs.v
theories/MsgProps.v
theories/TpsModel.v
theories/TpsSpec.v
theories/TpsProofs.v
theories/TpsMain.v
theories/TpsProps.v
theories/AlgModel.v
theories/AlgSpec.v
theories/AlgProofs.v
theories/AlgAdaptive.v
theories/AlgLoop.v
theories/AlgProps.v
theories/LbModel.v
theories/LbSpec.v
theories/LbProofs.v
theories/LbMain.v
theories/LrProofs.v
theories/LbProps.v
theories/CgModel.v
theories/CgSpec.v
theories/CgProofs.v
theories/CgNet.v
theories/SrProofs.v
theories/CgProps.v
theories/MinsrModel.v
theories/RingProofs.v
theories/RingMain.v
theories/MinsrSpec.v
theories/MinsrProofs.v
theories/MinsrMain.v
theories/MinsrProps.v
theories/MeasModel.v
theories/MeasLoop.v
theories/MeasSpec.v
theories/MeasProofs.v
theories/MeasMain.v
theories/MeasProps.v
theories/SuModel.v
theories/SuSpec.v
theories/SuProofs.v
theories/SuTri.v
theories/SuRun.v
theories/SuProps.v
theories/BuildModel.v
theories/BuildSpec.v
theories/BuildProofs.v
theories/BuildProps.v
theories/DumpModel.v
theories/DumpSpec.v
theories/DumpProofs.v
theories/DumpTps.v
theories/DumpProps.v
theories/SumModel.v
theories/SumSpec.v
theories/SumProofs.v
theories/SumMain.v
theories/SumProps.v
theories/InitModel.v
theories/InitSpec.v
theories/InitProofs.v
theories/InitProps.v
theories/CanonModel.v
theories/CanonSpec.v
theories/CanonProofs.v
theories/CanonMain.v
theories/CanonProps.v
theories/WalkModel.v
theories/WalkSpec.v
theories/WalkAlg.v
theories/WalkProofs.v
theories/WalkMain.v
theories/WalkProps.v
theories/TriModel.v
theories/TriSpec.v
theories/TriProofs.v
theories/ObsModel.v
theories/TriFail.v
theories/TriClaims.v
theories/TriProps.v
theories/SfModel.v
theories/SfSpec.v
theories/SfProofs.v
theories/SfMain.v
theories/SfClaims.v
theories/SfStack.v
theories/SfProps.v
theories/OptModel.v
theories/OptSpec.v
theories/OptProofs.v
theories/OptMain.v
theories/OptRuns.v
theories/OptLoop.v
theories/OptTerm.v
theories/OptLive.v
theories/OptRank.v
theories/OptProps.v
theories/ObsSpec.v
theories/ObsProofs.v
theories/ObsSum.v
theories/ObsClaims.v
theories/ObsAverage.v
theories/ObsProps.v
theories/TrgModel.v
theories/TrgSpec.v
theories/TrgProofs.v
theories/TrgTopo.v
theories/TrgMain.v
theories/TrgProps.v
theories/TrgTensor.v
theories/NetSum.v
theories/TrgExactSpec.v
theories/TrgSums.v
theories/TrgFinal.v
theories/TrgExact.v
theories/TrgExactProps.v
theories/NetEx.v
theories/TrgHoleSpec.v
theories/TrgHoleAlg.v
theories/TrgHoleLoop.v
theories/TrgHoleMain.v
theories/TrgHoleTop.v
theories/TrgHoleEx.v
theories/TrgHoleProps.v
theories/BmpsModel.v
theories/BmpsSpec.v
theories/BmpsAlg.v
theories/BmpsChain.v
theories/BmpsEnv.v
theories/BmpsSum.v
theories/BmpsNet.v
theories/BmpsMain.v
theories/BmpsProps.v
theories/ProjModel.v
theories/ProjSpec.v
theories/ProjAlg.v
theories/ProjCore.v
theories/ProjTwo.v
theories/ProjPatch.v
theories/ProjGrid.v
theories/ProjWave.v
theories/ProjThree.v
theories/ProjTri.v
theories/ProjCorner.v
theories/ProjSteps.v
theories/ProjTps.v
theories/ProjExample.v
theories/ProjProps.v
theories/ExpModel.v
theories/ExpSpec.v
theories/ExpAlg.v
theories/ExpBound.v
theories/ExpOp.v
theories/ExpMain.v
theories/ExpTotal.v
theories/ExpExample.v
theories/ExpProps.v
theories/SpikeSpec.v
theories/SpikeProofs.v
theories/SpikeProps.v
theories/LoopModel.v
theories/LoopSpec.v
theories/LoopAlg.v
theories/LoopGauge.v
theories/LoopRing.v
theories/LoopPat.v
theories/LoopWave.v
theories/LoopMain.v
theories/LoopRatio.v
theories/LoopTotal.v
theories/LoopDone.v
theories/LoopEnd.v
theories/LoopExample.v
theories/LoopProps.v
theories/LoopSweepModel.v
theories/LoopSweepSpec.v
theories/LoopSweepProofs.v
theories/LoopSweepExample.v
theories/LoopSweepProps.v
theories/ProjNull2.v
theories/ProjNull3.v
theories/ProjGone.v
theories/ProjNullTri.v
theories/ProjNullSpec.v
theories/ProjNull.v
theories/ProjNullExample.v
theories/ProjNullProps.v
theories/TriSweepModel.v
theories/TriSweepSpec.v
theories/TriSweepSeries.v
theories/TriSweepTerm.v
theories/TriSweepMain.v
theories/TriSweepTotal.v
theories/TriSweepRun.v
theories/TriSweepHalves.v
theories/TriSweepPos.v
theories/TriSweepExample.v
theories/TriSweepProps.v
theories/PipeModel.v
theories/PipeSpec.v
theories/PipeProofs.v
theories/PipeMain.v
theories/PipeExample.v
theories/PipeProps.v
theories/ScModel.v
theories/ScSpec.v
theories/ScProofs.v
theories/ScProps.v
theories/TorusModel.v
theories/TorusSpec.v
theories/TorusProofs.v
theories/TorusMain.v
theories/TorusEnergy.v
theories/TorusExact.v
theories/TorusExample.v
theories/TorusProps.v
theories/ExecModel.v
theories/ExecSpec.v
theories/ExecProofs.v
theories/ExecMain.v
theories/ExecProps.v
theories/ObsMatModel.v
theories/ObsMatSpec.v
theories/ObsMatProofs.v
theories/ObsMatProps.v
theories/MsrModel.v
theories/MsrSpec.v
theories/MsrProofs.v
theories/MsrProps.v
theories/AxisModel.v
theories/AxisSpec.v
theories/AxisProofs.v
theories/AxisProps.v
theories/ScaModel.v
theories/ScaSpec.v
theories/ScaProofs.v
theories/ScaMain.v
theories/ScaProps.v
theories/ReplicaModel.v
theories/ReplicaSpec.v
theories/ReplicaProofs.v
theories/ReplicaProps.v
theories/BondDimModel.v
theories/BondDimSpec.v
theories/BondDimProofs.v
theories/BondDimProps.v
