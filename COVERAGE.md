# Functions of the repository and the model files that cite them

Generated by tools/coverage.py from the citations in the model. "-" means not modelled.
360 of 406 functions are cited.


## pf/advection.go

| function | lines | cited in |
|---|---|---|
| Advection.GradName | 23-25 | SetupModel.v |
| Advection.GetName | 29-36 | SetupModel.v |
| Advection.AllFieldsExist | 39-46 | SetupModel.v |
| Advection.PrepareModel | 50-85 | GradModel.v, SetupModel.v |
| Advection.Construct | 88-95 | GradModel.v, SetupModel.v |
| Advection.OnStepFinished | 98-98 | - |

## pf/boundTransform.go

| function | lines | cited in |
|---|---|---|
| BoundTransform.Forward | 15-17 | EnergyModel.v |
| BoundTransform.Backward | 20-22 | EnergyModel.v |

## pf/chargeTransport.go

| function | lines | cited in |
|---|---|---|
| ChargeTransport.current | 56-92 | GradModel.v |
| ChargeTransport.Construct | 95-119 | GradModel.v, StepModel.v |
| ChargeTransport.Current | 126-146 | GradModel.v |
| ChargeTransport.OnStepFinished | 149-149 | - |
| voigtIndex3D | 151-157 | GradModel.v |
| voigtIndex2D | 159-164 | GradModel.v |
| voigtIndex | 166-171 | GradModel.v |

## pf/database.go

| function | lines | cited in |
|---|---|---|
| FieldDB.initialize | 84-156 | DbModel.v, DbRunModel.v |
| FieldDB.positionTableIsPopulated | 159-169 | DbModel.v |
| FieldDB.populatePositionsTable | 172-197 | DbModel.v |
| FieldDB.insertRealPart | 200-227 | DbModel.v |
| FieldDB.SaveFields | 231-243 | DbModel.v, DbRunModel.v |
| FieldDB.Comment | 246-257 | DbModel.v |
| FieldDB.SetAttr | 260-286 | DbModel.v |
| FieldDB.SetTextAttr | 289-315 | DbModel.v |
| FieldDB.TimeSeries | 318-343 | DbModel.v |
| FieldDB.domainSizeOk | 347-371 | DbModel.v |
| FieldDB.Load | 376-416 | DbModel.v |
| FieldDB.LoadLast | 420-430 | DbModel.v, SmallModel.v |

## pf/diffOp.go

| function | lines | cited in |
|---|---|---|
| LaplacianN.Eval | 25-30 | ParseModel.v, SpectralModel.v, StepModel.v |

## pf/euler.go

| function | lines | cited in |
|---|---|---|
| Euler.Step | 16-47 | SetupModel.v, SolverModel.v, StepModel.v |
| Euler.GetTime | 50-52 | ClockModel.v, SetupModel.v, SolverModel.v, StepModel.v, VolumeModel.v |
| Euler.Propagate | 55-59 | StepModel.v |
| Euler.SetFilter | 62-64 | - |

## pf/fileIO.go

| function | lines | cited in |
|---|---|---|
| NewUint8IO | 21-25 | - |
| Uint8IO.SaveFields | 29-42 | FileModel.v, PixelModel.v |
| NewFloat64IO | 51-53 | - |
| Float64IO.SaveFields | 57-62 | CheckpointModel.v, FileModel.v |
| LoadFloat64 | 66-83 | CheckpointModel.v, FileModel.v |
| SaveFloat64 | 87-95 | FileModel.v |
| CsvIO.SaveFields | 106-114 | CsvRunModel.v |
| LoadCSV | 117-151 | CsvRunModel.v, FileModel.v |
| SaveCsv | 163-209 | CsvModel.v, CsvRunModel.v, FileModel.v |

## pf/gradientCalculator.go

| function | lines | cited in |
|---|---|---|
| GradientCalculator.Calculate | 19-31 | GradModel.v, SetupModel.v |
| GradientCalculator.ToDerivedField | 36-47 | GradModel.v, SetupModel.v |
| DivGrad.FuncName | 56-58 | SetupModel.v |
| DivGrad.GradName | 61-63 | SetupModel.v |
| DivGrad.PrepareModel | 69-91 | GradModel.v, SetupModel.v |
| DivGrad.Construct | 94-106 | GradModel.v, SetupModel.v, StepModel.v |
| DivGrad.OnStepFinished | 109-109 | - |
| WeightedLaplacian.Construct | 127-160 | GradModel.v |

## pf/homoLinElast.go

| function | lines | cited in |
|---|---|---|
| Indicator | 10-12 | StrainModel.v |
| IndicatorDeriv | 15-17 | StrainModel.v |
| HomogeneousModulusLinElast.Construct | 47-99 | StrainModel.v |
| HomogeneousModulusLinElast.Freq | 103-111 | StrainModel.v |
| HomogeneousModulusLinElast.Force | 114-127 | StrainModel.v |
| HomogeneousModulusLinElast.OnStepFinished | 130-134 | StrainModel.v |
| NewHomogeneousModolus | 137-150 | StrainModel.v |

## pf/implicitEuler.go

| function | lines | cited in |
|---|---|---|
| ImplicitEuler.isImag | 31-39 | - |
| ImplicitEuler.fields2vec | 46-50 | SddModel.v |
| ImplicitEuler.fieldData2vec | 52-56 | SddModel.v |
| ImplicitEuler.vec2fields | 58-66 | SddModel.v |
| ImplicitEuler.updateEquation | 68-94 | SddModel.v |
| ImplicitEuler.GetTime | 97-99 | ClockModel.v, ImplicitModel.v |
| ImplicitEuler.fft | 102-110 | - |
| ImplicitEuler.ifft | 113-118 | - |
| ImplicitEuler.homotopyUpdate | 120-141 | - |
| ImplicitEuler.defaultNumHomotopy | 143-145 | - |
| ImplicitEuler.defaultTol | 147-149 | - |
| ImplicitEuler.nonlinearIntegral | 151-162 | SddModel.v |
| ImplicitEuler.Step | 165-207 | ImplicitModel.v, SddModel.v |
| ImplicitEuler.SetFilter | 211-213 | - |
| DefaultNonLinSolver | 221-229 | - |

## pf/model.go

| function | lines | cited in |
|---|---|---|
| Field.Get | 23-25 | DerivedModel.v, SetupModel.v, SimModel.v |
| Field.Copy | 28-32 | SetupModel.v, SimModel.v |
| Field.SaveReal | 35-41 | FileModel.v, SimModel.v |
| NewField | 44-57 | CheckpointModel.v, DbModel.v, RegistryModel.v, SetupModel.v |
| DerivedField.Get | 71-73 | DerivedModel.v, SimModel.v |
| DerivedField.Update | 76-78 | - |
| NewScalar | 92-98 | GradModel.v, RegistryModel.v, SetupModel.v |
| Scalar.SetFloat | 101-103 | SetupModel.v |
| Scalar.Get | 106-108 | SetupModel.v, SimModel.v |
| NewModel | 130-138 | DerivedModel.v, RegistryModel.v |
| Model.AddField | 141-144 | DerivedModel.v, RegistryModel.v |
| Model.AddScalar | 147-149 | DerivedModel.v, RegistryModel.v |
| Model.AddSource | 152-154 | DerivedModel.v, RegistryModel.v |
| Model.AddEquation | 157-162 | DerivedModel.v, EquationModel.v, ParseModel.v, RegistryModel.v, StrModel.v |
| Model.UpdateDerivedFields | 165-195 | DerivedModel.v, EquationModel.v, RegistryModel.v, StrModel.v |
| Model.AllFieldNames | 198-208 | EquationModel.v, RegistryModel.v |
| Model.IsFieldName | 211-224 | DerivedModel.v, EquationModel.v, RegistryModel.v |
| Model.IsBrickName | 227-234 | EquationModel.v, RegistryModel.v, SetupModel.v |
| Model.SyncDerivedFields | 237-241 | DerivedModel.v, RegistryModel.v, StepModel.v |
| Model.Init | 244-260 | RegistryModel.v, SetupModel.v |
| Model.NumNodes | 264-269 | RegistryModel.v |
| Model.AllVariableNames | 272-280 | VariablesModel.v |
| Model.GetRHS | 283-303 | RegistryModel.v, SimModel.v, StepModel.v, VolumeModel.v |
| Model.GetDenum | 306-314 | RegistryModel.v, SimModel.v, StepModel.v |
| Model.registerTerm | 322-333 | RegistryModel.v |
| Model.registerDerivedFields | 336-345 | DerivedModel.v, RegistryModel.v |
| Model.RegisterImplicitTerm | 349-351 | DerivedModel.v, RegistryModel.v |
| Model.RegisterExplicitTerm | 362-364 | DerivedModel.v, RegistryModel.v |
| Model.RegisterMixedTerm | 369-373 | DerivedModel.v, RegistryModel.v |
| Model.IsImplicitTerm | 376-379 | DerivedModel.v, EquationModel.v, RegistryModel.v |
| Model.IsExplicitTerm | 382-385 | DerivedModel.v, EquationModel.v, RegistryModel.v |
| Model.IsMixedTerm | 388-391 | DerivedModel.v, EquationModel.v, RegistryModel.v |
| Model.IsUserDefinedTerm | 395-397 | DerivedModel.v, EquationModel.v, RegistryModel.v |
| Model.RegisterFunction | 400-412 | DerivedModel.v, RegistryModel.v, SimModel.v |
| Model.RegisterDerivedField | 415-418 | DerivedModel.v, RegistryModel.v |
| Model.Summarize | 421-438 | RegistryModel.v |
| Model.EqNumber | 441-453 | ParseModel.v |
| Model.RegisterRHSModifier | 473-478 | StepModel.v |
| panicOnPrefixInName | 480-485 | ParseModel.v, RegistryModel.v |

## pf/monitor.go

| function | lines | cited in |
|---|---|---|
| NewPointMonitor | 17-24 | JsonModel.v, WatchModel.v |
| PointMonitor.Add | 27-30 | JsonModel.v, JsonRunModel.v, SolverModel.v, WatchModel.v |

## pf/negative_value_penalty.go

| function | lines | cited in |
|---|---|---|
| NegativeValuePenalty.Penalty | 15-21 | GradModel.v |
| NegativeValuePenalty.Evaluate | 24-26 | SmallModel.v |
| NewDefaultNegativeValuePenalty | 33-39 | SmallModel.v |

## pf/noise.go

| function | lines | cited in |
|---|---|---|
| WhiteNoise.Generate | 20-23 | SetupModel.v |
| NewConservativeNoise | 35-41 | - |
| ConservativeNoise.GetCurrentName | 44-46 | SetupModel.v |
| ConservativeNoise.CurrentFieldsAreRegistered | 50-57 | SetupModel.v |
| ConservativeNoise.Construct | 60-77 | StepModel.v |
| ConservativeNoise.OnStepFinished | 80-80 | - |
| ConservativeNoise.RequiredDerivedFields | 85-100 | SetupModel.v |

## pf/pairCorrelationTerm.go

| function | lines | cited in |
|---|---|---|
| PairCorrlationTerm.evaluate | 32-34 | EnergyModel.v |
| PairCorrlationTerm.Construct | 37-50 | EnergyModel.v |
| PairCorrlationTerm.OnStepFinished | 53-53 | - |
| PairCorrlationTerm.GetEnergy | 58-80 | EnergyModel.v |
| ExplicitPairCorrelationTerm.Construct | 91-105 | EnergyModel.v |
| IdealMixtureTerm.Eval | 120-123 | EnergyModel.v |
| IdealMixtureTerm.ConstructLinear | 126-137 | EnergyModel.v |
| IdealMixtureTerm.nonLinearDerivedFieldName | 139-141 | - |
| IdealMixtureTerm.DerivedField | 145-157 | EnergyModel.v |
| IdealMixtureTerm.ConstructNonLinear | 160-177 | EnergyModel.v |
| IdealMixtureTerm.OnStepFinished | 180-180 | - |
| IdealMixtureTerm.GetEnergy | 185-193 | EnergyModel.v |

## pf/rhsBuilder.go

| function | lines | cited in |
|---|---|---|
| Build | 26-54 | EquationModel.v, ParseModel.v, RegistryModel.v, StrModel.v |
| fieldNameFromLeibniz | 58-66 | ParseModel.v |
| isBilinear | 69-106 | EquationModel.v, TermModel.v |
| ValidName | 109-122 | EquationModel.v, StrModel.v |
| ConcreteTerm | 125-190 | EquationModel.v, GradModel.v, StrModel.v, TermModel.v |
| flipSign | 193-197 | EquationModel.v, SpectralModel.v |
| constructFunc | 199-242 | EquationModel.v, ParseModel.v, StepModel.v |
| knownPrefixes | 244-252 | ParseModel.v |
| removeKnownPrefixes | 254-257 | ParseModel.v |
| getKnownPrefixes | 259-272 | ParseModel.v, StrModel.v |
| recursiveRemove | 274-287 | ParseModel.v, StrModel.v |

## pf/rk4.go

| function | lines | cited in |
|---|---|---|
| RK4.Step | 29-74 | SetupModel.v, SolverModel.v, StepModel.v |
| RK4.PrepareNextCorrection | 77-84 | StepModel.v |
| RK4.firstCorrection | 87-96 | StepModel.v |
| RK4.correction | 101-127 | StepModel.v |
| RK4.Propagate | 130-135 | SetupModel.v, StepModel.v |
| RK4.SetFilter | 138-140 | SetupModel.v |
| RK4.GetTime | 143-145 | ClockModel.v, SetupModel.v |

## pf/sdd.go

| function | lines | cited in |
|---|---|---|
| SDDMonitor.Log | 56-83 | SddModel.v, TrackModel.v |
| NewSDD | 122-130 | SddModel.v, TrackModel.v |
| SDD.checkTimeStep | 132-136 | - |
| SDD.fft | 140-148 | SddModel.v |
| SDD.ifft | 151-156 | SddModel.v |
| SDD.Step | 159-301 | SddModel.v, TrackModel.v |
| SDD.extractRHS | 303-308 | SddModel.v |
| SDD.householder | 313-324 | SddModel.v |
| SDD.householderDenum | 327-343 | SddModel.v |
| SDD.ShiftFieldsAlongDimer | 347-355 | SddModel.v |
| SDD.GetTime | 358-360 | ClockModel.v, SddModel.v |
| SDD.DimerLength | 363-369 | SddModel.v |
| SDD.RequiredDimerLengthTime | 372-374 | SddModel.v |
| SDD.FieldNorm | 377-386 | SddModel.v, TrackModel.v |
| SDD.Init | 389-407 | SddModel.v |
| SDD.SetInitialOrientation | 412-426 | SddModel.v |
| SDD.SetFilter | 430-432 | - |
| SDD.SaveOrientation | 435-447 | SddModel.v, ViewModel.v |
| diagonalShermannMorrison.dot | 459-470 | SddModel.v |

## pf/solver.go

| function | lines | cited in |
|---|---|---|
| NewSolver | 40-62 | JsonModel.v, SetupModel.v |
| Solver.AddCallback | 65-67 | SetupModel.v |
| Solver.Propagate | 70-84 | EnergyModel.v, ImplicitModel.v, SddModel.v, SolverModel.v, TrackModel.v, VolumeModel.v |
| Solver.SetStepper | 88-103 | SetupModel.v, SolverModel.v |
| Solver.Solve | 106-120 | CheckpointModel.v, CsvRunModel.v, DbRunModel.v, SolverModel.v, TrackModel.v, WatchModel.v |
| Solver.AddMonitor | 123-125 | SetupModel.v, WatchModel.v |
| Solver.JSONifyMonitors | 128-134 | JsonModel.v, JsonRunModel.v |

## pf/sourceTerm.go

| function | lines | cited in |
|---|---|---|
| NewSource | 20-22 | - |
| Source.Eval | 25-30 | GradModel.v, SimModel.v, StepModel.v |

## pf/spectralViscosity.go

| function | lines | cited in |
|---|---|---|
| interpolant | 31-40 | EnergyModel.v |
| SpectralViscosity.Construct | 44-53 | EnergyModel.v |
| SpectralViscosity.OnStepFinished | 56-56 | - |

## pf/squareGradientTerm.go

| function | lines | cited in |
|---|---|---|
| NewSquareGradient | 22-35 | - |
| SquaredGradient.Construct | 38-65 | GradModel.v |
| SquaredGradient.OnStepFinished | 68-68 | - |

## pf/tensorialHessian.go

| function | lines | cited in |
|---|---|---|
| BrickPlaceholder.Get | 13-15 | - |
| TensorialHessian.Construct | 38-62 | GradModel.v |
| TensorialHessian.GetCoeff | 65-71 | GradModel.v |
| TensorialHessian.OnStepFinished | 74-74 | - |

## pf/userDefinedTerm.go

| function | lines | cited in |
|---|---|---|
| isImplicit | 78-97 | SetupModel.v |
| perturbedBrick.Get | 107-109 | SetupModel.v |

## pf/util.go

| function | lines | cited in |
|---|---|---|
| GetNonLinearFieldExpressions | 17-34 | EquationModel.v |
| DerivedFieldCalcFromDesc | 38-65 | ParseModel.v, SimModel.v, TermModel.v |
| GetPower | 68-80 | ParseModel.v, TermModel.v |
| GetFieldName | 83-104 | EquationModel.v, StrModel.v |
| RealPartAsUint8 | 108-117 | PixelModel.v |
| ApplyModalFilter | 125-132 | EnergyModel.v, StepModel.v |
| getFirstDelimiter | 143-150 | ParseModel.v |
| SplitOnMany | 154-199 | ParseModel.v, StrModel.v |
| removeEmpty | 202-210 | ParseModel.v |
| UniqueFreqIterator.Next | 223-235 | IndexModel.v |
| includeFreq | 237-247 | IndexModel.v |
| UniqueFreqIterator.firstFreqsAreNyquistOrZero | 251-259 | IndexModel.v |
| RealAmplitudeIterator.Next | 270-289 | IndexModel.v |
| SortFactors | 296-300 | ParseModel.v, StrModel.v |

## pf/vandeven.go

| function | lines | cited in |
|---|---|---|
| NewVandeven | 13-27 | EnergyModel.v |
| Vandeven.Eval | 30-40 | EnergyModel.v |

## pf/volumeConserving.go

| function | lines | cited in |
|---|---|---|
| VolumeConservingLP.Construct | 19-28 | EnergyModel.v |
| VolumeConservingLP.OnStepFinished | 31-50 | EnergyModel.v |
| NewVolumeConservingLP | 53-61 | EnergyModel.v |

## pf/xdmf.go

| function | lines | cited in |
|---|---|---|
| CreateXDMF | 83-160 | FileModel.v, XmlModel.v |
| WriteXDMF | 164-173 | XmlModel.v |

## pfc/ideal.go

| function | lines | cited in |
|---|---|---|
| IdealMix.Eval | 26-28 | EnergyModel.v |
| IdealMix.Deriv | 31-33 | EnergyModel.v |
| IdealMix.QuadraticPrefactor | 36-38 | EnergyModel.v |
| IdealMix.ThirdOrderPrefactor | 42-44 | EnergyModel.v |
| IdealMix.FourthOrderPrefactor | 48-50 | EnergyModel.v |

## pfc/initialGuessExplorer.go

| function | lines | cited in |
|---|---|---|
| HyperOctantExplorer.Next | 31-50 | MillerModel.v |
| HyperOctantExplorer.OnMinimizationFinished | 53-53 | - |
| SinglePointExplorer.Next | 63-69 | MillerModel.v |
| SinglePointExplorer.OnMinimizationFinished | 72-72 | - |

## pfc/lattice.go

| function | lines | cited in |
|---|---|---|
| Cell.Volume | 19-21 | LatticeModel.v |
| ReciprocalCell.HKLVector | 31-41 | LatticeModel.v |
| ReciprocalCell.CellChange | 47-53 | LatticeModel.v |
| ReciprocalCell.ChangeHKLVector | 57-69 | LatticeModel.v |
| Cell.Reciprocal | 78-91 | LatticeModel.v |
| FCC | 94-107 | LatticeModel.v |
| SC3D | 111-119 | LatticeModel.v |
| BCC | 122-138 | LatticeModel.v |
| SC2D | 141-148 | LatticeModel.v |
| Triangular2D | 152-161 | LatticeModel.v |
| CubicUnitCellDensity | 165-205 | LatticeModel.v |

## pfc/miller.go

| function | lines | cited in |
|---|---|---|
| Miller.Equal | 9-11 | MillerModel.v |
| Miller.At | 15-22 | ModeModel.v |
| factorial | 25-31 | MillerModel.v |
| abs | 34-39 | - |
| NumEquivalent3D | 42-69 | MillerModel.v |
| NumEquivalent2D | 72-80 | MillerModel.v |
| NumEquivalent | 83-92 | MillerModel.v |
| EquivalentMiller | 96-135 | MillerModel.v |
| EquivalentMillerNoPermutations | 139-171 | MillerModel.v |

## pfc/mode_solver.go

| function | lines | cited in |
|---|---|---|
| ModeSolver.ModeDensity | 30-47 | ModeModel.v |
| ModeSolver.UnitcellIntegral | 64-93 | ModeModel.v |
| freeEnergyTerm.Power | 103-109 | ModeModel.v |
| power2key | 115-123 | ModeModel.v |
| ModeSolver.build | 137-168 | ModeModel.v |
| mergeTerms | 171-175 | ModeModel.v |
| ModeSolver.Solve | 187-319 | ModeModel.v |
| ModeSolver.MatchElasticProp | 374-454 | ModeModel.v |
| BulkModWeight | 461-477 | ModeModel.v |
| ShearModWeight | 484-500 | ModeModel.v |
| AreaModulusWeight | 506-511 | ModeModel.v |
| XYPlaneShearWeight | 520-525 | ModeModel.v |
| ModeSolver.PeakWidths | 536-550 | ModeModel.v |

## pfc/pairCorrelation.go

| function | lines | cited in |
|---|---|---|
| ReciprocalSpacePairCorrelation.Eval | 27-37 | EnergyModel.v |
| SquareLattice2D | 42-58 | EnergyModel.v |
| TriangularLattice2D | 61-70 | EnergyModel.v |

## pfc/periodicFieldInit.go

| function | lines | cited in |
|---|---|---|
| CornersScaledCrd | 35-65 | CrystalModel.v |
| isInsideBox | 70-77 | CrystalModel.v |
| GaussianKernel.Cutoff | 87-89 | CrystalModel.v |
| GaussianKernel.Eval | 92-95 | CrystalModel.v |
| CircleKernel.Cutoff | 103-105 | CrystalModel.v |
| CircleKernel.Eval | 108-113 | CrystalModel.v |
| CircleKernel.Area | 116-118 | CrystalModel.v |
| BuildCrystal | 124-186 | CrystalModel.v |
| TiltGB | 190-205 | CrystalModel.v |

## pfc/quadrature.go

| function | lines | cited in |
|---|---|---|
| QuadSquare | 8-19 | ModeModel.v |
| QuadCube | 24-38 | ModeModel.v |

## pfc/twoPhaseCorrFunc.go

| function | lines | cited in |
|---|---|---|
| Indicator | 9-16 | TwoPhaseModel.v |
| IndicatorDeriv | 18-23 | TwoPhaseModel.v |
| Dot | 29-35 | TwoPhaseModel.v |
| TwoPhaseCorrFunc.Evaluate | 37-69 | TwoPhaseModel.v |
| TwoPhaseCorrFunc.EvaluateFT | 71-75 | TwoPhaseModel.v |

## pfutil/affine.go

| function | lines | cited in |
|---|---|---|
| Affine.Apply | 16-26 | CrystalModel.v, GridModel.v |
| Affine.Append | 31-33 | GridModel.v |
| NewAffine | 36-40 | GridModel.v |
| Identity | 43-49 | GridModel.v |
| Translation | 52-59 | GridModel.v |
| Scaling | 62-69 | GridModel.v |
| RotZ | 78-90 | GridModel.v |
| RotY | 99-111 | GridModel.v |
| RotX | 120-132 | GridModel.v |

## pfutil/blur.go

| function | lines | cited in |
|---|---|---|
| BoxKernel.Cutoff | 20-22 | GridModel.v |
| BoxKernel.Value | 25-32 | GridModel.v |
| Blur | 38-68 | GridModel.v, ViewModel.v |

## pfutil/fftWrap.go

| function | lines | cited in |
|---|---|---|
| NewFFTW | 16-23 | DftModel.v |
| FFTWWrapper.FFT | 26-31 | DftModel.v |
| FFTWWrapper.IFFT | 34-39 | DftModel.v |
| FFTWWrapper.col | 42-44 | IndexModel.v |
| FFTWWrapper.row | 47-49 | IndexModel.v |
| FFTWWrapper.depth | 52-54 | IndexModel.v |
| FFTWWrapper.Freq | 57-74 | IndexModel.v |
| FFTWWrapper.ConjugateNode | 78-95 | IndexModel.v |

## pfutil/grid.go

| function | lines | cited in |
|---|---|---|
| NewGrid | 18-23 | GridModel.v |
| Grid.Copy | 26-34 | GridModel.v |
| Grid.Index | 37-39 | ViewModel.v |
| Grid.Pos | 42-44 | ViewModel.v |
| Grid.Set | 47-49 | GridModel.v |
| Grid.Get | 52-54 | GridModel.v |
| Grid.ToComplex | 59-65 | GridModel.v |
| Grid.FromComplex | 68-72 | GridModel.v |
| Grid.SaveCsv | 80-103 | CliModel.v, StrModel.v |
| Grid.Rotate2D | 106-130 | GridModel.v |

## pfutil/indexPositionConversion.go

| function | lines | cited in |
|---|---|---|
| nodeIdx2 | 4-6 | IndexModel.v |
| nodeIdx3 | 9-11 | IndexModel.v |
| NodeIdx | 14-21 | IndexModel.v |
| pos3 | 23-28 | IndexModel.v |
| pos2 | 30-34 | IndexModel.v |
| Pos | 37-44 | IndexModel.v |

## pfutil/iterators.go

| function | lines | cited in |
|---|---|---|
| NewProduct | 19-25 | IndexModel.v |
| Product.Next | 28-52 | IndexModel.v |

## pfutil/shapes.go

| function | lines | cited in |
|---|---|---|
| BoundingBox.check | 20-29 | GridModel.v |
| Box.InteriorPoint | 37-48 | GridModel.v |
| Box.BBox | 51-62 | GridModel.v |
| Ball.InteriorPoint | 71-77 | GridModel.v |
| Ball.BBox | 80-92 | GridModel.v |
| Draw | 98-118 | GridModel.v |

## pfutil/sliceOperations.go

| function | lines | cited in |
|---|---|---|
| CmplxEqualApprox | 6-17 | GridModel.v, SetupModel.v |
| ElemwiseAdd | 20-24 | GridModel.v, StepModel.v |
| ElemwiseMul | 27-31 | GridModel.v |
| DivRealScalar | 34-40 | GridModel.v, StepModel.v |
| ProdInt | 43-49 | DbModel.v, StrainModel.v |
| Dot | 52-58 | GradModel.v, SddModel.v |
| MaxReal | 61-69 | GridModel.v, PixelModel.v |
| MinReal | 72-80 | GridModel.v, PixelModel.v |
| Clear | 83-87 | ViewModel.v |
| Wrap | 90-98 | IndexModel.v |

## pfutil/sliceWrappers.go

| function | lines | cited in |
|---|---|---|
| RealSlice.Get | 22-24 | ViewModel.v |
| RealSlice.Set | 27-29 | ViewModel.v |
| RealSlice.Len | 32-34 | ViewModel.v |
| RealPartSlice.Get | 43-45 | ViewModel.v |
| RealPartSlice.Set | 48-50 | ViewModel.v |
| RealPartSlice.Len | 53-55 | ViewModel.v |

## pfutil/voronoi.go

| function | lines | cited in |
|---|---|---|
| Voronoi | 8-12 | GridModel.v |
| pointDistSq | 16-32 | GridModel.v |
| absInt | 34-39 | GridModel.v |
| closestPoint | 41-52 | GridModel.v |

## elasticity/effectiveForce.go

| function | lines | cited in |
|---|---|---|
| NewEffectiveForceFromMisfit | 17-21 | ElasticModel.v |
| EffectiveForce.Get | 26-35 | ElasticModel.v |

## elasticity/linearElasticity.go

| function | lines | cited in |
|---|---|---|
| DisplacementMatrixElement | 16-24 | ElasticModel.v |
| Displacements | 33-63 | ElasticModel.v |
| Strain | 67-83 | ElasticModel.v |
| EnergyDensity | 86-98 | ElasticModel.v |
| HomogeneousModulusEnergy | 101-165 | StrainModel.v |

## elasticity/perturbation.go

| function | lines | cited in |
|---|---|---|
| PerturbedForce | 30-65 | ElasticModel.v |

## elasticity/rank4.go

| function | lines | cited in |
|---|---|---|
| NewRank4 | 15-19 | ElasticModel.v |
| Rank4.index | 22-24 | ElasticModel.v |
| Rank4.At | 27-29 | ElasticModel.v |
| Rank4.Set | 32-34 | ElasticModel.v |
| Rank4.Rotate | 37-59 | ElasticModel.v |
| Rank4.ContractLast | 62-75 | ElasticModel.v |
| Shear | 79-81 | ElasticModel.v |
| Isotropic | 84-109 | ElasticModel.v |
| CubicMaterial | 113-128 | ElasticModel.v |
| FromFlatVoigt | 131-154 | ElasticModel.v |
| RotationMatrix | 158-182 | ElasticModel.v |

## elasticity/shapes.go

| function | lines | cited in |
|---|---|---|
| Ellipsoid | 11-27 | StrainModel.v |

## elasticity/strainEnergyCLI.go

| function | lines | cited in |
|---|---|---|
| CalculateStrainEnergy | 25-128 | StrainModel.v |

## cmd/attr.go

| function | lines | cited in |
|---|---|---|
| init | 81-86 | - |
| listUniqueAttributes | 88-100 | SmallModel.v |
| listAttributes | 104-193 | CliModel.v, FrameModel.v |
| listSingleAttribute | 195-227 | CliModel.v |
| set2slice | 229-235 | FrameModel.v |

## cmd/comment.go

| function | lines | cited in |
|---|---|---|
| printAllComments | 83-121 | CliModel.v, FrameModel.v |
| init | 123-127 | - |

## cmd/contour.go

| function | lines | cited in |
|---|---|---|
| init | 140-146 | - |
| NewHeatMapData | 162-187 | CliModel.v |
| index | 189-191 | CliModel.v |
| HeatMapData.Dims | 194-196 | CliModel.v |
| HeatMapData.X | 199-201 | CliModel.v |
| HeatMapData.Y | 204-206 | CliModel.v |
| HeatMapData.Z | 209-211 | CliModel.v |
| getColIndex | 213-225 | CliModel.v |
| readData | 227-284 | CliModel.v |
| dataRange | 286-299 | CliModel.v |
| readHeader | 301-314 | - |
| fillImage | 316-334 | CliModel.v |

## cmd/db.go

| function | lines | cited in |
|---|---|---|
| init | 23-35 | - |

## cmd/elast.go

| function | lines | cited in |
|---|---|---|
| init | 19-21 | - |

## cmd/energy.go

| function | lines | cited in |
|---|---|---|
| init | 44-47 | - |

## cmd/export.go

| function | lines | cited in |
|---|---|---|
| init | 107-114 | - |
| appendFileExtension | 116-121 | CliModel.v |
| exportTimeseries | 123-185 | CliModel.v, CsvModel.v |
| exportFieldData | 187-266 | CliModel.v, CsvModel.v |
| largestTimestep | 269-280 | CsvModel.v, SmallModel.v |
| allTimeSteps | 282-296 | CliModel.v |

## cmd/info.go

| function | lines | cited in |
|---|---|---|
| dimString | 159-161 | CliModel.v |
| printList | 163-179 | CliModel.v, FrameModel.v |
| init | 181-183 | - |

## cmd/lineplot.go

| function | lines | cited in |
|---|---|---|
| numSet | 136-150 | CliModel.v |
| init | 152-161 | CliModel.v |
| includeRow | 163-177 | CliModel.v |
| absissaIndex | 180-190 | CliModel.v |
| lineData | 192-205 | CliModel.v |

## cmd/list.go

| function | lines | cited in |
|---|---|---|
| init | 60-64 | - |
| showSimulationIds | 66-94 | CliModel.v, FrameModel.v |
| showComments | 96-140 | CliModel.v |

## cmd/root.go

| function | lines | cited in |
|---|---|---|
| Execute | 24-29 | - |
| init | 31-33 | - |
| initConfig | 36-59 | - |

## cmd/template.go

| function | lines | cited in |
|---|---|---|
| init | 63-66 | - |

## cmd/time.go

| function | lines | cited in |
|---|---|---|
| init | 50-54 | - |

## cmd/util.go

| function | lines | cited in |
|---|---|---|
| singleLine | 21-27 | CliModel.v |
| newestSimulationID | 30-42 | CliModel.v |
| closestWhiteSpace | 46-53 | CliModel.v |

