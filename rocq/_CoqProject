-Q theories Verif
theories/Py.v
theories/AliasModel.v
theories/AliasSpec.v
theories/AliasProofs.v
theories/PropsAlias.v
theories/NamedModel.v
theories/NamedSpec.v
theories/NamedProofs.v
theories/PropsNamed.v
theories/RecurseModel.v
theories/RecurseSpec.v
theories/RecurseProofs.v
theories/PropsRecurse.v
theories/ContainerModel.v
theories/ContainerSpec.v
theories/ContainerProofs.v
theories/PropsContainer.v
theories/ParamModel.v
theories/ParamSpec.v
theories/ParamProofs.v
theories/PropsParam.v
theories/SweepModel.v
theories/SweepSpec.v
theories/SweepProofs.v
theories/PropsSweep.v
theories/ResModel.v
theories/ResSpec.v
theories/ResProofs.v
theories/PropsRes.v
theories/TimeModel.v
theories/TimeSpec.v
theories/TimeProofs.v
theories/PropsTime.v
theories/SimModel.v
theories/SimSpec.v
theories/SimProofs.v
theories/PropsSim.v
theories/ProtModel.v
theories/ProtSpec.v
theories/ProtProofs.v
theories/PropsProt.v
theories/QDimModel.v
theories/QDimSpec.v
theories/QDimProofs.v
theories/PropsQDim.v
theories/QHamModel.v
theories/QHamSpec.v
theories/QHamProofs.v
theories/PropsQHam.v
theories/MatModel.v
theories/MatLib.v
theories/OperModel.v
theories/MatSpec.v
theories/MatProofs.v
theories/PropsMat.v
theories/CField.v
theories/OperProofs.v
theories/GateProofs.v
theories/ExpmInst.v
theories/PropsOper.v
theories/StateModel.v
theories/EvolModel.v
theories/EvolSpec.v
theories/EvolProofs.v
theories/StateSpec.v
theories/StateProofs.v
theories/PropsState.v
theories/TraceModel.v
theories/TraceSpec.v
theories/TraceProofs.v
theories/PropsTrace.v
theories/PropsEvol.v
theories/PropsOpen.v
theories/HamModel.v
theories/HamSpec.v
theories/HamProofs.v
theories/PropsHam.v
theories/CsvModel.v
theories/CsvSpec.v
theories/CsvProofs.v
theories/PropsCsv.v
theories/DriveModel.v
theories/DriveSpec.v
theories/DriveProofs.v
theories/PropsDrive.v
theories/CopyModel.v
theories/CopySpec.v
theories/CopyProofs.v
theories/PropsCopy.v
theories/MeasSpec.v
theories/PropsMeas.v
theories/RC.v
theories/ExpSeries.v
theories/ExpMatrix.v
theories/ExpmSpec.v
theories/ExpmProofs.v
theories/LindProofs.v
theories/ExpScalar.v
theories/ExpKron.v
theories/PropsExp.v
theories/PropsClosed.v
theories/PropsRot.v
theories/PropsUJC.v
theories/ThermModel.v
theories/PropsTherm.v
theories/Spectral.v
theories/EigSpec.v
theories/SpecProofs.v
theories/EigInst.v
theories/EigModel.v
theories/DistProofs.v
theories/PropsDist.v
theories/PropsEigs.v
theories/EntReal.v
theories/SchmidtProofs.v
theories/PropsEnt.v
theories/Takagi.v
theories/ConcSpec.v
theories/ConcProofs.v
theories/PropsConc.v
theories/ChanProofs.v
theories/SteadyProofs.v
theories/PropsSteady.v
theories/PropsVec.v
theories/PhaseModel.v
theories/PhaseSpec.v
theories/PhaseProofs.v
theories/PropsPhase.v
theories/RmtModel.v
theories/RmtSpec.v
theories/RmtProofs.v
theories/PropsRmt.v
theories/ParModel.v
theories/PropsPar.v
theories/InitModel.v
theories/InitSpec.v
theories/InitProofs.v
theories/PropsInit.v
theories/SimSysModel.v
theories/SimSysSpec.v
theories/SimSysProofs.v
theories/PropsSimSys.v
theories/EnvModel.v
theories/EnvSpec.v
theories/EnvProofs.v
theories/PropsEnv.v
theories/CoupModel.v
theories/CoupSpec.v
theories/CoupProofs.v
theories/PropsCoup.v
theories/TimeDepModel.v
theories/TimeDepSpec.v
theories/TimeDepProofs.v
theories/PropsTimeDep.v
theories/SweepRunModel.v
theories/SweepRunSpec.v
theories/SweepRunProofs.v
theories/PropsSweepRun.v
theories/RunEndModel.v
theories/RunEndSpec.v
theories/RunEndProofs.v
theories/PropsRunEnd.v
theories/PoolModel.v
theories/PoolSpec.v
theories/PropsPool.v
theories/PlusModel.v
theories/PlusSpec.v
theories/PlusProofs.v
theories/PropsPlus.v
theories/SweepNewModel.v
theories/SweepNewSpec.v
theories/PropsSweepNew.v
theories/FwdModel.v
theories/FwdSpec.v
theories/PropsFwd.v
theories/OldCoupModel.v
theories/OldCoupSpec.v
theories/OldCoupProofs.v
theories/PropsOldCoup.v
theories/OldDimModel.v
theories/OldDimSpec.v
theories/OldDimProofs.v
theories/OldNestProofs.v
theories/PropsOldDim.v
theories/OldHamModel.v
theories/OldHamSpec.v
theories/OldHamProofs.v
theories/PropsOldHam.v
theories/OldPlusModel.v
theories/OldPlusSpec.v
theories/OldPlusProofs.v
theories/PropsOldPlus.v
theories/HeatModel.v
theories/PropsHeat.v
