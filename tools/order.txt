Prelude
NdArr
Grids_model
Spec
Boundaries_model
BoundariesPeriodic
WallBC
FD_model
PRep
FDProofs
GridProps
PeriodicBCProps
WallBCProps
ImposeProps
TrimProps
InferBCProps
FDProps
WallFD
Pressure_model
PressureProps
WallFDProps
ProjectionProps
Interp_model
InterpProofs
InterpProps
UpwindProps
TvdProps
Advection_model
AdvectionProofs
AdvectionProps
VanLeerProofs
VanLeerProps
ConvectProps
MonotoneProps
SemiLagProps
LinAlg
Cplx
SpecLin
FastDiag_model
FastDiagProofs
FastDiagProps
FourierProofs
FastDiagCalc
SpecDiag
FastDiagImplProps
Laplacian_model
LaplacianProofs
LaplacianProps
LapSign
Poincare
PressureSolve_model
PressureSolveProps
SpecDiff
Diffusion_model
DiffusionProps
ImplicitDiffusionProps
ImplicitDirichletProps
ImplicitUniqueProps
ArrayUtils_model
ArrayUtilsProps
Resize_model
ResizeProps
QRProps
Interp1d_model
Interp1dProps
Func_model
FuncProps
TimeStep_model
TimeStepProps
TimeOrderProps
Spectral_model
FourierLine
SpectralProps
SpectralUtilProps
SpectralPadProps
Equations_model
SpecNS
EquationsProps
EquationsMoreProps
Collocated_model
SpecCol
CollocatedProps
CollocatedStepProps
Forcings_model
SpecForce
FilterProps
ForcingsProps
TaylorGreenProps
Subgrid_model
SpecSub
SubgridProps
SubgridMoreProps
Tiling_model
SpecTile
TilingProofs
TilingProps
Stencil_model
SpecStencil
StencilProofs
StencilProps
StencilLayerProps
InitialConditions_model
SpecInit
InitProofs
InitProps
Xarray_model
SpecData
XarrayProps
Skill_model
SpecSkill
SkillProps
SkillMoreProps
SpecML
Networks_model
NetworksProps
LearnedProps
Rollout_model
SpecRollout
RolloutProps
RolloutMoreProps
EncoderProps
TrainProps
SpecSym
SymBase
SymEx
SymProps
SymVelProps
SymStepProps
SymMoreProps
FourierPlane
SpecFourier
NS2DBase
NS2DProps
NS2DConserve
NS2DMoreProps
SpectralStep_model
SpecStep
StepRel
NS2DWaveProps
SpectralRunProps
NS2DRunProps
NS2DBugProps
FourierShift
NLSBase
SpecNLS
NLSProps
NLSRunProps
RealShift
SpecKS
KSRunProps
KSMoreProps
BurgersRunProps
KSBugProps
Viscosities_model
SpecVisc
ViscosityProps
ViscosityFlowProps
GradTensorProps
VortCodec_model
SpecVort
VortProps
VortMoreProps
LearnedInterp_model
SpecLInt
LearnedInterpBase
LearnedInterpLayers
LearnedInterpFuse
LearnedInterpDict
LearnedInterpEx
LearnedInterpProps
LearnedInterpMoreProps
SpecTower
Towers_model
TowerProps
TowerMoreProps
TowerNetProps
ForcedNS_model
NS2DForceProps
SteadyProps
KolmogorovProps
TConv_model
SpecTConv
TConvProps
TConvMoreProps
MirrorConv_model
SpecMirror
MirrorProps
Point_model
SpecPoint
PointProps
LearnedSolver_model
SpecLSolve
LearnedSolverProps
LearnedSymProps
SpecReflect
ReflectBase
ReflectProps
ReflectStepProps
ReflectRunProps
FluxLimit_model
SpecLimit
FluxLimitProps
FluxLimitLearnedProps
SpecFlow
NS2DSymProps
NS2DForcedSymProps
SpecAcc
AccBase
AccuracyProps
SpecConv
ConvergeProps
ConvergeImplicitProps
NeighborProps
Latent_model
LatentProps
MetricProps
Isotropize_model
IsoProps
SpecOpen
OpenPressureProps
SchemeOrderProps
SpecLax
LaxWendroffProps
SpecSkew
SkewProps
CentredProps
SpecEnergy
EnergyStepProps
SpecBC
BCAgreeProps
Summary_model
SpecSummary
SummaryProps
SpecMask
MaskProps
BCNamesProps
SpecSmagStep
SmagStepProps
ForcedSolveProps
SpectralML_model
SpecSpectralML
SpectralMLProps
FastDiagRejectProps
EncoderMoreProps
Scale_model
ScaleProps
WallEdgePadProps
NeumannMirrorProps
Correlation_model
CorrelationProps
NonPeriodicConv_model
NonPeriodicConvProps
Evaluation_model
SpecGradient
EvaluationProps
RandomForcing_model
RandomForcingProps
VortForcing_model
VortForcingProps
Quantile_model
SpecQuantile
QuantileProps
