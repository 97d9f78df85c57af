# A Rocq (Coq 8.16.1) model of google/jax-cfd

## 1. Approach

The model is a shallow, function-by-function transcription of the Python into Gallina.
Every definition in `rocq/theories/*_model.v` cites the file and lines of `/repo` it models and
says where it simplifies. Exceptions are values (`Err e : result A`).

* **Numbers.** Array data, grid steps, domains, boundary values, viscosities, time steps are Coq
  real numbers `R`: floating-point rounding, overflow, NaN and dtype are NOT modelled; every theorem is
  about exact arithmetic. Where the code would create NaN from a missing (`None`) boundary value the model
  returns an error value instead.
* **Offsets** are rationals `Q` (Python floats are dyadic rationals; rounding of offset sums is not modelled);
  `np.isclose` on offsets is transcribed with its default tolerances, `math.ceil`, `%`, `int()` are computable.
* **Arrays** are a shape (`list nat`) plus an index function `list Z -> R`; only in-range indices mean anything and
  equality of arrays is equality of shape and of values at all in-range indices. Number of axes, sizes, shifts and
  widths are unbounded.
* **jnp/np primitives** (`jnp.pad` modes, slicing, `roll`, `where`, `sum`, `mean`, `reshape`) are transcribed from the NumPy
  documentation (they are not in /repo); broadcasting between different shapes is not modelled (error value `EShape`).
* **External solvers and oracles** (eigendecompositions, CG, FFT, neural networks, RNG, user callbacks) are function arguments;
  the equation they are supposed to satisfy is an explicit hypothesis of the theorem that needs it.

Files: `Prelude.v`/`NdArr.v` (results, finite sums, arrays) and `*_model.v` hold definitions, other files hold proofs,
`Properties_*.v` hold only the property theorems (`exact lemma`, `Print Assumptions`) and `Example`s that show the hypotheses are met.

## 2. Trusted base

* Coq 8.16.1's kernel (and `vm_compute` where used in examples).
* Axioms: only those of the standard library's classical reals
  (`ClassicalDedekindReals.sig_forall_dec`, `ClassicalDedekindReals.sig_not_dec`,
  `FunctionalExtensionality.functional_extensionality_dep`) and, where listed under a theorem, `Classical_Prop.classic`.
  None of our own. `Print Assumptions` is run under every property theorem.
* The reading of the Python: nothing is executed here, so the tie between model and code is the citation in each comment.

## 3. Plan per property

| id | modelled | proof method |
|----|----------|--------------|
| C01 | `Grid.__init__` with all argument forms and its error branches | case analysis, `field` |
| C02 | axes / mesh / eval_on_mesh | index calculation on arrays |
| C03 | consistent_offset/grid as set-uniqueness, `__array_ufunc__`, `applied` | induction on operand list |
| C04 | offsets as lists of Q | induction on list |
| C05-C07 | `_pad`, `_trim`, `_trim_padding`, `shift`, `pad` branch by branch | window-of-periodic-extension invariant, mod arithmetic |
| C08-C11 | same, Dirichlet / Neumann branches | 1-d index analysis lifted along an axis |
| C12-C13 | bc inference functions | induction over axes / components |
| C14-C18 | finite_differences.py | periodic fields as functions on Z^d; finite-sum algebra by induction on shape |
| C19 | pressure.projection with abstract solver | algebra on periodic fields |
| C20 | laplacian matrices as index functions | row-wise case analysis |
| C21-C22 | fast_diagonalization with eigen-oracle | linear algebra with finite sums |
| C23 | diffuse + stable_time_step | convex combination bound, 2^d >= 2d |
| C24-C26 | interpolation.py | convexity, real inequalities (`nra`) |
| C27-C31 | advection.py | telescoping, convexity |
| C32 | resize / block_reduce | block sums |
| C33-C34 | funcutils (state machine for the init counter) | induction on step count / program structure |
| C35-C36 | base time_stepping over an abstract vector space | induction on the tableau, `ring` |
| C37-C39 | spectral time_stepping, equations over an abstract vector space / per wavenumber | as above, `field` |
| C40-C41 | spectral utils per wavenumber | complex arithmetic as pairs |
| C42-C44 | array_utils | list/array induction |
| C45 | ml/tiling.py and the periodic convolutions and patches of ml/layers_util.py (`Tiling_model.v`, vocabulary `SpecTile.v`); einops, `lax.conv_general_dilated` by index formulas | row-major index arithmetic, halo invariant one axis at a time, window lemma for any batched window operation |
| C46 | polynomial_accuracy_constraints/coefficients, PolynomialConstraint, SpatialDerivativeFromLogits (`Stencil_model.v`, vocabulary `SpecStencil.v`); `np.linalg.solve` and `np.linalg.svd` are parameters with their equations as hypotheses; the dictionary of constraints compares reals exactly | Kronecker product of moments, completeness of the exponent enumeration, orthogonality of the null-space rows |
| C47 | base/forcings.py, exact solutions (`Forcings_model.v`) | trigonometric identities on the grid |
| C48 | base/subgrid_models.py (`Subgrid_model.v`), real `sqrt`/`Rpower` | sums on periodic fields, summation by parts |
| C49 | base/equations.py (`Equations_model.v`) | unrolling of the step over modelled parts |
| C50 | collocated/ (`Collocated_model.v`) | centred differences on periodic fields |
| C51-C53 | finite differences, divergence and projection with walls (`WallFD.v`) | neighbour function `nbr` with ghost values, telescoping |
| C54 | advect_van_leer (`Advection_model.v` 210-342), including the stale loop variable of line 291 | stencil values at an arbitrary offset with explicit integer shifts (`VanLeerProofs.v`), then pointwise algebra of the limiter (`VanLeerProps.v`) |
| C56 | pressure solvers (`PressureSolve_model.v`) | fast-diagonalisation calculus (C21) on the wall Laplacian matrices (C20), negative semidefiniteness with constant kernel (`LapSign.v`), spectral gap from a discrete Poincare inequality (`Poincare.v`) |
| C57 | projection (`ProjectionProps.v`) | summation by parts with Neumann ghost values |
| C58 | padded transforms, KS and Burgers explicit terms (`Spectral_model.v`) | discrete convolution theorem on the 3/2 grid, support argument for aliased modes, triad symmetrisation for the energy (`SpectralPadProps.v`) |
| C55 | energy conservation of centred transport (`ConvectProps.v`) | summation by parts on the flux form of `AdvectionProps.v` |
| C59 | initial_conditions.py and collocated/initial_conditions.py (`InitialConditions_model.v`); the random numbers are a parameter (any arrays) | abstract lemma on repeated project-and-normalise (`InitProofs.v`): the second projection changes nothing and the scaling by M/max is idempotent; Fourier coefficients from C47 |
| C60 | data/xarray_utils.py (`Xarray_model.v`, vocabulary `SpecData.v`): datasets at one sample and time; interpolation-based isotropisation is not modelled | Fourier lemmas of C34/C47 plus an n-dimensional Parseval identity; the correlation theorem; a counting lemma for pandas.cut on increasing edges; half-even rounding computed at half-integers |
| C61 | Sums over masked axes, normalisation, slicing, dictionary accumulation | Cauchy-Schwarz per group; index bijections for slices; induction over batches |
| C62 | Networks_model: the functions around the tower; the tower is an arbitrary function on arrays, modules arbitrary functions of the state | channel algebra of split/concatenate; telescoping of flux differences on the torus; the step theorems of C49 generalised to arbitrary convection and forcing terms; concrete counterexample for the divergence |
| C63 | Rollout_model: hk.scan as a loop that may fail, the rollout and training functions over arbitrary state types and functions, the encoders and decoders on arrays | induction on the number of steps with invariants relating saved frames to iterates; array algebra of split/concatenate; linear interpolation lemmas of C24; concrete counterexamples for the time-axis and collocated round-trip claims |
| C64 | Equations_model, Advection_model, Pressure_model, Diffusion_model (already there); specification in SpecSym: placements of one grid over another | a relation between the two problems carried through every operator; uniqueness of the pressure gradient (energy identity) removes the solver; induction over stages and steps |
| C65 | Spectral_model.v, SpectralStep_model.v (states of the steppers); vocabulary SpecFourier.v, SpecStep.v | two-dimensional DFT algebra (FourierPlane.v: Hermitian extension, convolution, triads), Fourier symbols (NS2DBase.v), a relational (parametricity-style) induction over the schemes (StepRel.v) |
| C66 | Spectral_model.v, SpectralStep_model.v; vocabulary SpecNLS.v | both transforms as an embedding of spectra with its adjoint (NLSBase.v), shift theorem (FourierShift.v), derivatives of polynomials in the step (NLSProps.v), relational induction over the schemes (NLSRunProps.v) |
| C67 | Spectral_model.v, SpectralStep_model.v; vocabulary SpecKS.v | shift and reflection theorems for real transforms (RealShift.v), explicit terms through grid values, relational induction over the schemes (StepRel.v) |
| C68 | Viscosities_model.v (networks arbitrary functions, list(set(.)) an arbitrary duplicate-free listing) | tensor calculus of C48 plus dictionary lookup by offset; summation by parts |
| C69 | Viscosities_model.v [gradient_tensor] | difference and interpolation specifications of C14 and C24 |
| C70 | VortCodec_model.v | exact DFT inversion on the full (Hermitian-extended) spectrum; uniqueness of the div-curl system mode by mode; one-axis sampling lemma applied to both axes |
| C71 | LearnedInterp_model.v | explicit bias (product of middle weights) and zero-sum nullspace rows of the constraint; block-diagonal algebra of the joint constraint; dictionary invariants |
| C72 | Towers_model.v, SpecTower.v | closed form of one layer from the tiling theorems, then induction over the layers with moves_along as the relation |
| C73 | TConv_model.v, SpecTConv.v | one-tile padding lemma, per-axis arithmetic of pad/slice/roll, then sums reindexed for adjointness |
| C74 | MirrorConv_model.v, SpecMirror.v | padding of periodic axes as a bigger window, valid correlation by windows, trimming from the upper end; counterexample by evaluation |
| C75 | Point_model.v, SpecPoint.v | sum over corner nodes = recursive multilinear evaluation; index fixers characterised by their symmetries; induction on axes; counterexample for ties |
| C76 | LearnedSolver_model.v, SpecLSolve.v | learned interpolation supplies averages with unit weight sum; flux form of advect_general; telescoping; induction on steps |
| C77 | Advection_model.v, Equations_model.v, SpecReflect.v | how differences, averages, upwind and limited fluxes act on values kept d half cells above the centres, even or odd; uniqueness of pressure gradients; induction on steps |
| C78 | FluxLimit_model.v over Interp_model.v, Advection_model.v and LearnedInterp_model.v | FluxLimitProps.v: generalisation of the C26 proof to a base answering with arbitrary values, pointwise analysis of the limiter, flux form through the general advection lemma, counterexamples; FluxLimitLearnedProps.v: the learned base |
| C79 | Spectral_model.v, SpectralStep_model.v, ForcedNS_model.v | NS2DSymProps.v: a motion acts on stored modes by a real-linear map commuting with purely imaginary symbols up to sign, and on grid values by an index map; explicit terms, implicit terms and every scheme respect it; NS2DForcedSymProps.v: the sine forcing |
| C80 | FD_model.v, Interp_model.v, Advection_model.v, Equations_model.v | AccBase.v: Taylor estimates from the mean value theorem; AccuracyProps.v: interpolation is an averaging operator on functions of space that commutes with partial derivatives; fluxes by the product rule; examples on the Taylor-Green vortex |
| C81 | FD, Diffusion, Advection, FastDiag | consistency (C80) plus maximum principle (C23, C17 and a discrete maximum principle for the implicit solve), Taylor in time by the mean value theorem, induction on the step count |
| C82 | Latent_model.v over Networks_model.v, Rollout_model.v | LatentProps.v: index calculation on stacked channels, networks universally quantified |
| C83 | Latent_model.v | MetricProps.v: finite sums of non-negative terms, induction on lengths |
| C84 | Isotropize_model.v over Xarray_model.v | IsoProps.v: location of the interpolation cell by counting, convexity of bilinear weights, rounding bounds |
| C85 | PressureSolve_model.v, Laplacian_model.v, FastDiag_model.v | OpenPressureProps.v: a Poincare inequality for an axis with a grounded end bounds the eigenvalues away from zero; then the functional calculus of C56 |
| C86 | Interp_model.v, Advection_model.v, SpecLax.v | LaxWendroffProps.v: the two sign branches coincide; exact discrete energy identity by summation over shifts; third-order Taylor expansions and Minkowski's inequality |
| C87 | TimeStep_model.v, SpectralStep_model.v, Advection_model.v, SpecSkew.v | SkewProps.v, CentredProps.v, EnergyStepProps.v (SpecEnergy.v): exact energy identities from skew-symmetry and orthogonality of projection; the norm of the centred tendency by weighted Cauchy-Schwarz and summation over shifts |
| C88 | Boundaries_model.v, SpecBC.v | BCAgreeProps.v: case analysis of the per-axis check, permutation invariance, a counterexample for mixed boundaries |
| C89 | Summary_model.v: arrays over named dimensions, selection of a model, means over a mask of dimensions | SummaryProps.v: sums over a group of cells (SpecSummary.v), monotonicity and linearity of the mean, the triangle inequality of the absolute value |
| C90 | Grids_model.v: interior_mask, domain_interior_masks, interior_grid | MaskProps.v: the mask as a product of 0/1 factors, positions of face coordinates, an invariant of the loop over axes that shrinks the shape and the domain (SpecMask.v); a counterexample far from the origin |
| C91 | Boundaries_model.v: the constructors and bc_values; Grids_model.v: stagger, center | BCNamesProps.v: per-axis lookup (SpecBC.v), composed with the shift theorems of C05 and C08 |
| C92 | SpectralML_model on top of SpectralStep_model and exponential_filter | one-step lemma from the transforms' inversion and C64's damping lemma; runs by induction over the waves of one length; limit from pow_lt_1_zero |
| C93 | Scale_model on top of array_ufunc and impose_bc | closed form of impose_bc (last wall containing the entry), induction over the tuple |
| C94 | Correlation_model on top of Xarray_model | the correlation theorem of C60 on every line, cyclic shift of sums |
| C95 | NonPeriodicConv_model on top of Towers_model.hk_conv | closed form of the windowed sums (C72), index arithmetic of positions under shifts |
| C96 | Evaluation_model on top of Skill_model.streaming_mean and Rollout_model.train_step; gradients specified in SpecGradient (first-order expansion), jax.value_and_grad being a function assumed to return the gradient of the very function it is handed | fold invariants, uniqueness of gradients, first-order expansion along the step |
| C97 | RandomForcing_model, random numbers being arbitrary functions within the requested ranges | Lipschitz bound of the sine, telescoping sums of sines |
| C98 | VortForcing_model on top of VortCodec_model and Spectral_model | round trip of the vorticity codec (C70), Fourier inversion of real fields |
| C99 | Quantile_model: sorting and linear interpolation (numpy's default method) over lists of reals | insertion sort is a sorted permutation; counting below and above a rank |

Not expressible in any such model (out of scope, not claimed): floating point rounding and convergence tolerances of CG,
XLA compilation, sharding and performance, random number statistics, neural network training quality.
