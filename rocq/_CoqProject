-Q theories Verif
theories/Prelude.v
theories/NdArr.v
theories/Grids_model.v
theories/Spec.v
theories/Boundaries_model.v
theories/BoundariesPeriodic.v
theories/WallBC.v
theories/FD_model.v
theories/PRep.v
theories/FDProofs.v
theories/GridProps.v
theories/Properties_Grid.v
theories/PeriodicBCProps.v
theories/Properties_PeriodicBC.v
theories/WallBCProps.v
theories/Properties_WallBC.v
theories/ImposeProps.v
theories/Properties_Impose.v
theories/TrimProps.v
theories/Properties_Trim.v
theories/InferBCProps.v
theories/Properties_InferBC.v
theories/FDProps.v
theories/Properties_FD.v
theories/WallFD.v
theories/Pressure_model.v
theories/PressureProps.v
theories/Properties_Pressure.v
theories/WallFDProps.v
theories/Properties_WallFD.v
theories/ProjectionProps.v
theories/Properties_Projection.v
theories/Interp_model.v
theories/InterpProofs.v
theories/InterpProps.v
theories/Properties_Interp.v
theories/UpwindProps.v
theories/Properties_Upwind.v
theories/TvdProps.v
theories/Properties_Tvd.v
theories/Advection_model.v
theories/AdvectionProofs.v
theories/AdvectionProps.v
theories/Properties_Advection.v
theories/VanLeerProofs.v
theories/VanLeerProps.v
theories/Properties_VanLeer.v
theories/ConvectProps.v
theories/Properties_Convect.v
theories/MonotoneProps.v
theories/Properties_Monotone.v
theories/SemiLagProps.v
theories/Properties_SemiLag.v
theories/LinAlg.v
theories/Cplx.v
theories/SpecLin.v
theories/FastDiag_model.v
theories/FastDiagProofs.v
theories/FastDiagProps.v
theories/Properties_FastDiag.v
theories/FourierProofs.v
theories/FastDiagCalc.v
theories/SpecDiag.v
theories/FastDiagImplProps.v
theories/Properties_FastDiagImpl.v
theories/Laplacian_model.v
theories/LaplacianProofs.v
theories/LaplacianProps.v
theories/Properties_Laplacian.v
theories/LapSign.v
theories/Poincare.v
theories/PressureSolve_model.v
theories/PressureSolveProps.v
theories/Properties_PressureSolve.v
theories/SpecDiff.v
theories/Diffusion_model.v
theories/DiffusionProps.v
theories/Properties_Diffusion.v
theories/ImplicitDiffusionProps.v
theories/Properties_ImplicitDiffusion.v
theories/ImplicitDirichletProps.v
theories/Properties_ImplicitDirichlet.v
theories/ImplicitUniqueProps.v
theories/Properties_ImplicitUnique.v
theories/ArrayUtils_model.v
theories/ArrayUtilsProps.v
theories/Properties_ArrayUtils.v
theories/Resize_model.v
theories/ResizeProps.v
theories/Properties_Resize.v
theories/QRProps.v
theories/Properties_QR.v
theories/Interp1d_model.v
theories/Interp1dProps.v
theories/Properties_Interp1d.v
theories/Func_model.v
theories/FuncProps.v
theories/Properties_Func.v
theories/TimeStep_model.v
theories/TimeStepProps.v
theories/Properties_TimeStep.v
theories/TimeOrderProps.v
theories/Properties_TimeOrder.v
theories/Spectral_model.v
theories/FourierLine.v
theories/SpectralProps.v
theories/Properties_Spectral.v
theories/SpectralUtilProps.v
theories/Properties_SpectralUtil.v
theories/SpectralPadProps.v
theories/Properties_SpectralPad.v
theories/Equations_model.v
theories/SpecNS.v
theories/EquationsProps.v
theories/Properties_Equations.v
theories/EquationsMoreProps.v
theories/Properties_EquationsMore.v
theories/Collocated_model.v
theories/SpecCol.v
theories/CollocatedProps.v
theories/Properties_Collocated.v
theories/CollocatedStepProps.v
theories/Properties_CollocatedStep.v
theories/Forcings_model.v
theories/SpecForce.v
theories/FilterProps.v
theories/Properties_Filter.v
theories/ForcingsProps.v
theories/Properties_Forcings.v
theories/TaylorGreenProps.v
theories/Properties_TaylorGreen.v
theories/Subgrid_model.v
theories/SpecSub.v
theories/SubgridProps.v
theories/Properties_Subgrid.v
theories/SubgridMoreProps.v
theories/Properties_SubgridMore.v
theories/Tiling_model.v
theories/SpecTile.v
theories/TilingProofs.v
theories/TilingProps.v
theories/Properties_Tiling.v
theories/Stencil_model.v
theories/SpecStencil.v
theories/StencilProofs.v
theories/StencilProps.v
theories/Properties_Stencil.v
theories/StencilLayerProps.v
theories/Properties_StencilLayer.v
theories/InitialConditions_model.v
theories/SpecInit.v
theories/InitProofs.v
theories/InitProps.v
theories/Properties_Init.v
theories/Xarray_model.v
theories/SpecData.v
theories/XarrayProps.v
theories/Properties_Xarray.v
theories/Skill_model.v
theories/SpecSkill.v
theories/SkillProps.v
theories/Properties_Skill.v
theories/SkillMoreProps.v
theories/Properties_SkillMore.v
theories/SpecML.v
theories/Networks_model.v
theories/NetworksProps.v
theories/Properties_Networks.v
theories/LearnedProps.v
theories/Properties_Learned.v
theories/Rollout_model.v
theories/SpecRollout.v
theories/RolloutProps.v
theories/Properties_Rollout.v
theories/RolloutMoreProps.v
theories/Properties_RolloutMore.v
theories/EncoderProps.v
theories/Properties_Encoder.v
theories/TrainProps.v
theories/Properties_Train.v
theories/SpecSym.v
theories/SymBase.v
theories/SymEx.v
theories/SymProps.v
theories/Properties_Sym.v
theories/SymVelProps.v
theories/Properties_SymVel.v
theories/SymStepProps.v
theories/Properties_SymStep.v
theories/SymMoreProps.v
theories/Properties_SymMore.v
theories/FourierPlane.v
theories/SpecFourier.v
theories/NS2DBase.v
theories/NS2DProps.v
theories/Properties_NS2D.v
theories/NS2DConserve.v
theories/NS2DMoreProps.v
theories/Properties_NS2DMore.v
theories/SpectralStep_model.v
theories/SpecStep.v
theories/StepRel.v
theories/NS2DWaveProps.v
theories/Properties_NS2DWave.v
theories/SpectralRunProps.v
theories/Properties_SpectralRun.v
theories/NS2DRunProps.v
theories/Properties_NS2DRun.v
theories/NS2DBugProps.v
theories/Properties_NS2DBug.v
theories/FourierShift.v
theories/NLSBase.v
theories/SpecNLS.v
theories/NLSProps.v
theories/Properties_NLS.v
theories/NLSRunProps.v
theories/Properties_NLSRun.v
theories/RealShift.v
theories/SpecKS.v
theories/KSRunProps.v
theories/Properties_KSRun.v
theories/KSMoreProps.v
theories/Properties_KSMore.v
theories/BurgersRunProps.v
theories/Properties_BurgersRun.v
theories/KSBugProps.v
theories/Properties_KSBug.v
theories/Viscosities_model.v
theories/SpecVisc.v
theories/ViscosityProps.v
theories/Properties_Viscosity.v
theories/ViscosityFlowProps.v
theories/Properties_ViscosityFlow.v
theories/GradTensorProps.v
theories/Properties_GradTensor.v
theories/VortCodec_model.v
theories/SpecVort.v
theories/VortProps.v
theories/Properties_Vort.v
theories/VortMoreProps.v
theories/Properties_VortMore.v
theories/LearnedInterp_model.v
theories/SpecLInt.v
theories/LearnedInterpBase.v
theories/LearnedInterpLayers.v
theories/LearnedInterpFuse.v
theories/LearnedInterpDict.v
theories/LearnedInterpEx.v
theories/LearnedInterpProps.v
theories/Properties_LearnedInterp.v
theories/LearnedInterpMoreProps.v
theories/Properties_LearnedInterpMore.v
theories/SpecTower.v
theories/Towers_model.v
theories/TowerProps.v
theories/Properties_Tower.v
theories/TowerMoreProps.v
theories/Properties_TowerMore.v
theories/TowerNetProps.v
theories/Properties_TowerNet.v
theories/ForcedNS_model.v
theories/NS2DForceProps.v
theories/Properties_NS2DForce.v
theories/SteadyProps.v
theories/Properties_Steady.v
theories/KolmogorovProps.v
theories/Properties_Kolmogorov.v
theories/TConv_model.v
theories/SpecTConv.v
theories/TConvProps.v
theories/Properties_TConv.v
theories/TConvMoreProps.v
theories/Properties_TConvMore.v
theories/MirrorConv_model.v
theories/SpecMirror.v
theories/MirrorProps.v
theories/Properties_Mirror.v
theories/Point_model.v
theories/SpecPoint.v
theories/PointProps.v
theories/Properties_Point.v
theories/LearnedSolver_model.v
theories/SpecLSolve.v
theories/LearnedSolverProps.v
theories/Properties_LearnedSolver.v
theories/LearnedSymProps.v
theories/Properties_LearnedSym.v
theories/SpecReflect.v
theories/ReflectBase.v
theories/ReflectProps.v
theories/Properties_Reflect.v
theories/ReflectStepProps.v
theories/Properties_ReflectStep.v
theories/ReflectRunProps.v
theories/Properties_ReflectRun.v
theories/FluxLimit_model.v
theories/SpecLimit.v
theories/FluxLimitProps.v
theories/Properties_FluxLimit.v
theories/FluxLimitLearnedProps.v
theories/Properties_FluxLimitLearned.v
theories/SpecFlow.v
theories/NS2DSymProps.v
theories/Properties_NS2DSym.v
theories/NS2DForcedSymProps.v
theories/Properties_NS2DForcedSym.v
theories/SpecAcc.v
theories/AccBase.v
theories/AccuracyProps.v
theories/Properties_Accuracy.v
theories/SpecConv.v
theories/ConvergeProps.v
theories/Properties_Converge.v
theories/ConvergeImplicitProps.v
theories/Properties_ConvergeImplicit.v
theories/NeighborProps.v
theories/Properties_Neighbor.v
theories/Latent_model.v
theories/LatentProps.v
theories/Properties_Latent.v
theories/MetricProps.v
theories/Properties_Metric.v
theories/Isotropize_model.v
theories/IsoProps.v
theories/Properties_Iso.v
theories/SpecOpen.v
theories/OpenPressureProps.v
theories/Properties_OpenPressure.v
theories/SchemeOrderProps.v
theories/Properties_SchemeOrder.v
theories/SpecLax.v
theories/LaxWendroffProps.v
theories/Properties_LaxWendroff.v
theories/SpecSkew.v
theories/SkewProps.v
theories/Properties_Skew.v
theories/CentredProps.v
theories/Properties_Centred.v
theories/SpecEnergy.v
theories/EnergyStepProps.v
theories/Properties_EnergyStep.v
theories/SpecBC.v
theories/BCAgreeProps.v
theories/Properties_BCAgree.v
theories/Summary_model.v
theories/SpecSummary.v
theories/SummaryProps.v
theories/Properties_Summary.v
theories/SpecMask.v
theories/MaskProps.v
theories/Properties_Mask.v
theories/BCNamesProps.v
theories/Properties_BCNames.v
theories/SpecSmagStep.v
theories/SmagStepProps.v
theories/Properties_SmagStep.v
theories/ForcedSolveProps.v
theories/Properties_ForcedSolve.v
theories/SpectralML_model.v
theories/SpecSpectralML.v
theories/SpectralMLProps.v
theories/Properties_SpectralML.v
theories/FastDiagRejectProps.v
theories/Properties_FastDiagReject.v
theories/EncoderMoreProps.v
theories/Properties_EncoderMore.v
theories/Scale_model.v
theories/ScaleProps.v
theories/Properties_Scale.v
theories/WallEdgePadProps.v
theories/Properties_WallEdgePad.v
theories/NeumannMirrorProps.v
theories/Properties_NeumannMirror.v
theories/Correlation_model.v
theories/CorrelationProps.v
theories/Properties_Correlation.v
theories/NonPeriodicConv_model.v
theories/NonPeriodicConvProps.v
theories/Properties_NonPeriodicConv.v
theories/Evaluation_model.v
theories/SpecGradient.v
theories/EvaluationProps.v
theories/Properties_Evaluation.v
theories/RandomForcing_model.v
theories/RandomForcingProps.v
theories/Properties_RandomForcing.v
theories/VortForcing_model.v
theories/VortForcingProps.v
theories/Properties_VortForcing.v
theories/Quantile_model.v
theories/SpecQuantile.v
theories/QuantileProps.v
theories/Properties_Quantile.v
