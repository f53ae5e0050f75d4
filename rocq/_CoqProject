-Q theories Verif
theories/Aero.v
theories/AeroProofs.v
theories/AeroProofs2.v
theories/AeroSpec.v
theories/AnnulusMesh.v
theories/AnnulusMeshProofs.v
theories/Attach.v
theories/AttachProofs.v
theories/AttachSpec.v
theories/BdrArray.v
theories/BdrArrayProofs.v
theories/BoundaryProofs.v
theories/Coef.v
theories/CoefMix.v
theories/CoefMixProofs.v
theories/CoefProofs.v
theories/CommonFun.v
theories/CommonFunProofs.v
theories/CommonFunSpec.v
theories/Control.v
theories/ControlEntropy.v
theories/ControlEntropyProofs.v
theories/ControlProofs.v
theories/ControlRun.v
theories/ControlRunProofs.v
theories/ControlRunSpec.v
theories/Current.v
theories/CurrentAsm.v
theories/CurrentAsmProofs.v
theories/CurrentAsmSpec.v
theories/CurrentProofs.v
theories/CurrentSpec.v
theories/Deriv.v
theories/DgFace.v
theories/DgFaceMesh.v
theories/DgFaceProofs.v
theories/DgFaceSpec.v
theories/Direction.v
theories/DirectionProofs.v
theories/EmCoef.v
theories/EmCoefProofs.v
theories/EmInteg.v
theories/EmIntegProofs.v
theories/EmIntegSpec.v
theories/EmMeshProofs.v
theories/EnergyExistProofs.v
theories/EnergyOptionsProofs.v
theories/EnergyOptionsSpec.v
theories/EntropyRate.v
theories/EntropyRateProofs.v
theories/EntropyRateProofs2.v
theories/EntropyRateSpec.v
theories/Euler.v
theories/EulerDeriv.v
theories/EulerProofs.v
theories/EulerSpec.v
theories/Evolver.v
theories/EvolverProofs.v
theories/EvolverSpec.v
theories/Factory.v
theories/FactoryProofs.v
theories/FeState.v
theories/FeStateProofs.v
theories/FeStateSpec.v
theories/FieldFun.v
theories/FieldFunProofs.v
theories/FieldFunSpec.v
theories/FlowError.v
theories/FlowErrorProofs.v
theories/FlowErrorSpec.v
theories/FlowJac.v
theories/FlowJacProofs.v
theories/FlowJacSpec.v
theories/FlowOptions.v
theories/FlowOptionsProofs.v
theories/FlowOptionsProofs2.v
theories/FlowOptionsSpec.v
theories/FlowSens.v
theories/FlowSensProofs.v
theories/FlowSensSpec.v
theories/FlowStep.v
theories/FlowStepProofs.v
theories/FluxProofs.v
theories/FluxSmooth.v
theories/FluxSmooth2.v
theories/Force.v
theories/ForceProofs.v
theories/ForceSpec.v
theories/Form.v
theories/FormProofs.v
theories/FormSpec.v
theories/Inputs.v
theories/InputsProofs.v
theories/Interp.v
theories/InterpProofs.v
theories/IsmailRoeProofs.v
theories/IsoGeom.v
theories/JacOptions.v
theories/JacOptionsProofs.v
theories/JacOptionsSpec.v
theories/KdTree.v
theories/KdTreeProofs.v
theories/KdTreeWitness.v
theories/LineSearch.v
theories/LineSearchProofs.v
theories/LoadInteg.v
theories/LoadIntegProofs.v
theories/LoadIntegSpec.v
theories/LobattoProofs.v
theories/LogAvgProofs.v
theories/Logger.v
theories/LoggerProofs.v
theories/Loss.v
theories/LossProofs.v
theories/LossSpec.v
theories/Magnet.v
theories/MagnetOptions.v
theories/MagnetOptionsProofs.v
theories/MagnetOptionsSpec.v
theories/MagnetProofs.v
theories/MagnetSpec.v
theories/Mms.v
theories/MmsProofs.v
theories/MmsSpec.v
theories/MonotoneSolve.v
theories/NavierStokes.v
theories/NavierStokesProofs.v
theories/NavierStokesSpec.v
theories/Newton.v
theories/NewtonProofs.v
theories/Num.v
theories/Ode.v
theories/OdeProofs.v
theories/Operators.v
theories/OperatorsProofs.v
theories/Options.v
theories/OptionsProofs.v
theories/OrthoPoly.v
theories/OrthoPolyProofs.v
theories/OrthoPolyProofs2.v
theories/OrthoPolyProofs3.v
theories/OrthoPolyProofs4.v
theories/OrthoPolySpec.v
theories/Outputs.v
theories/OutputsProofs.v
theories/PdeFields.v
theories/PdeFieldsProofs.v
theories/PenaltyOptionsProofs.v
theories/PenaltyOptionsSpec.v
theories/Projector.v
theories/ProjectorProofs.v
theories/ProjectorSpec.v
theories/Props_Aero.v
theories/Props_AnnulusMesh.v
theories/Props_Attach.v
theories/Props_Coef.v
theories/Props_CommonFun.v
theories/Props_Control.v
theories/Props_ControlEntropy.v
theories/Props_ControlRun.v
theories/Props_Current.v
theories/Props_CurrentAsm.v
theories/Props_DgFace.v
theories/Props_Direction.v
theories/Props_EmCoef.v
theories/Props_EmInteg.v
theories/Props_EnergyOptions.v
theories/Props_EntropyRate.v
theories/Props_Euler.v
theories/Props_EulerFlux.v
theories/Props_Evolver.v
theories/Props_Factory.v
theories/Props_FeState.v
theories/Props_FieldFun.v
theories/Props_FlowError.v
theories/Props_FlowJac.v
theories/Props_FlowOptions.v
theories/Props_FlowSens.v
theories/Props_Force.v
theories/Props_Form.v
theories/Props_JacOptions.v
theories/Props_KdTree.v
theories/Props_LineSearch.v
theories/Props_LoadInteg.v
theories/Props_Logger.v
theories/Props_Loss.v
theories/Props_Magnet.v
theories/Props_MagnetOptions.v
theories/Props_Mms.v
theories/Props_NavierStokes.v
theories/Props_Newton.v
theories/Props_Ode.v
theories/Props_Operators.v
theories/Props_Options.v
theories/Props_OrthoPoly.v
theories/Props_Outputs.v
theories/Props_PdeFields.v
theories/Props_PenaltyOptions.v
theories/Props_Projector.v
theories/Props_RootFind.v
theories/Props_RungeKutta.v
theories/Props_Sbp.v
theories/Props_SbpElem.v
theories/Props_Steel.v
theories/Props_Steinmetz.v
theories/Props_Surface.v
theories/Props_Thermal.v
theories/Props_ThermalOptions.v
theories/Props_ThermalRes.v
theories/Props_TimeLoop.v
theories/Props_Transfer.v
theories/Props_Utils.v
theories/Props_ViscWall.v
theories/Props_Warp.v
theories/Pumi.v
theories/PumiProofs.v
theories/RKSpec.v
theories/RelaxationProofs.v
theories/RoeProofs.v
theories/RootFind.v
theories/RootFindProofs.v
theories/RungeKutta.v
theories/RungeKuttaProofs.v
theories/Sbp.v
theories/SbpElem.v
theories/SbpElemProofs.v
theories/SbpElemProofs2.v
theories/SbpElemProofs3.v
theories/SbpIntegrals.v
theories/SbpMesh.v
theories/SbpMeshProofs.v
theories/SbpMeshProofs2.v
theories/SbpMeshSpec.v
theories/SbpPolySpec.v
theories/SbpProofs.v
theories/SbpProofs2.v
theories/SbpProofs3.v
theories/SbpSpec.v
theories/SbpTables.v
theories/SbpTablesOk.v
theories/SmoothCalc.v
theories/SplineProofs.v
theories/Steel.v
theories/SteelBhDataProofs.v
theories/SteelBhProofs.v
theories/SteelDataProofs.v
theories/SteelProofs.v
theories/Steinmetz.v
theories/SteinmetzProofs.v
theories/Surface.v
theories/SurfaceProofs.v
theories/Thermal.v
theories/ThermalOptions.v
theories/ThermalOptionsProofs.v
theories/ThermalOptionsSpec.v
theories/ThermalProofs.v
theories/ThermalRes.v
theories/ThermalResSpec.v
theories/ThermalSpec.v
theories/TimeLoop.v
theories/TimeLoopProofs.v
theories/Transfer.v
theories/TransferProofs.v
theories/TransferSpec.v
theories/Vec.v
theories/ViscWall.v
theories/ViscWallProofs.v
theories/ViscWallProofs2.v
theories/ViscWallSpec.v
theories/Vortex.v
theories/VortexProofs.v
theories/Warp.v
theories/WarpProofs.v
theories/WarpSensProofs.v
theories/WarpSolveProofs.v
theories/WarpSpec.v
