# Source of properties.jsonl: run `python3 tools/props.py` from /verif.
import json
P=[]
def p(title, statement, quantifier, why, anchors):
    P.append(dict(id="C%02d"%(len(P)+1), title=title, statement=statement, quantifier=quantifier, why_tests_cant=why, anchors=anchors))

p("Product iterator enumerates the whole index box",
  "Calling Next on NewProduct(end) yields every multi-index of the box [0,end0)x...x[0,endk) exactly once, in lexicographic order with the last index fastest, and then yields nil.",
  "every non-empty list of positive end values, of any length and size",
  "The number of calls grows with the product of the end values and the dimension is free; tests only try a few shapes.",
  ["pfutil/iterators.go: NewProduct, Product.Next"])
p("NodeIdx and Pos are inverse bijections",
  "For a 2D or 3D domain, NodeIdx maps the positions inside the domain one-to-one onto 0..N-1, and Pos is its inverse in both directions; every other rank is rejected.",
  "every domain size with positive extents and every position or node inside it",
  "Round trips must hold for every extent; the 3D layout mixes the extents and errors only show for unequal ones.",
  ["pfutil/indexPositionConversion.go: NodeIdx, Pos, nodeIdx2, nodeIdx3, pos2, pos3"])
p("Wrap is reduction into the periodic cell",
  "Wrap replaces every coordinate by the unique one in [0,d) that is congruent to it modulo the domain extent; hence it is idempotent and does not depend on the periodic image it was given.",
  "every list of coordinates (also far outside the domain, also negative) and every list of positive extents",
  "Go's % truncates towards zero, so the property depends on sign handling for unboundedly many values.",
  ["pfutil/sliceOperations.go: Wrap"])
p("Frequencies are the principal DFT frequencies",
  "Freq(i) has every component in (-1/2,1/2], is congruent modulo 1 to index/extent along every axis of the position Pos gives for node i, and different nodes have different frequencies.",
  "every 2D/3D domain with positive extents and every node",
  "The half-way (Nyquist) index depends on parity of every extent.",
  ["pfutil/fftWrap.go: FFTWWrapper.Freq, row, col, depth"])
p("ConjugateNode is the node of the opposite frequency",
  "ConjugateNode(i) is a valid node, applying it twice gives i back, and the frequencies of the two nodes sum to an integer along every axis; they are exact negatives except on Nyquist components, where both are 1/2.",
  "every 2D/3D domain with positive extents and every node",
  "Involution and pairing must hold for every extent parity and node.",
  ["pfutil/fftWrap.go: FFTWWrapper.ConjugateNode"])
p("Real-field spectrum iterators visit each conjugate pair once",
  "UniqueFreqIterator yields exactly one member of every conjugate pair, RealAmplitudeIterator yields exactly the nodes that are their own conjugate, both in increasing order and then -1; so a real field's spectrum is determined by what they visit.",
  "every 2D/3D domain with positive extents",
  "Coverage and uniqueness over all nodes of all domains.",
  ["pf/util.go: UniqueFreqIterator.Next, includeFreq, RealAmplitudeIterator.Next", "pfutil/fftWrap.go: ConjugateNode"])
p("Forward and inverse transforms are inverse up to N and real fields have conjugate-symmetric spectra",
  "IFFT(FFT(x)) divided by the number of nodes is x; for a real field the amplitude at ConjugateNode(i) is the complex conjugate of the amplitude at i.",
  "every domain size and every complex (resp. real) field",
  "Statement about all fields and all sizes.",
  ["pfutil/fftWrap.go: NewFFTW, FFT, IFFT, ConjugateNode, Freq"])
p("Freq names the mode the transform stores at that node",
  "The value FFT leaves at node i is the sum of the field times exp(-2 pi i Freq(i).x) over node positions x as given by Pos, so multiplying by 2 pi i Freq differentiates along the named axis.",
  "every 2D/3D domain and every field",
  "Axis order errors are invisible on square/cubic test domains.",
  ["pfutil/fftWrap.go: NewFFTW, Freq, row, col, depth", "pfutil/indexPositionConversion.go"])
p("Voronoi labels the nearest seed under periodic distance",
  "Voronoi labels every node with the index of a seed point whose minimum-image distance to the node is smallest, the first such seed on ties.",
  "every domain, every non-empty list of seed points inside the domain",
  "Quantifies over all seeds, nodes and periodic images.",
  ["pfutil/voronoi.go: Voronoi, pointDistSq, closestPoint"])
p("Blur is a periodic normalised average",
  "Blur leaves constant fields unchanged, conserves the sum over the grid, never leaves the range of the input values and is linear.",
  "every grid shape, every kernel with non-negative values that are not all zero, every data array",
  "Holds for every grid size and kernel width including kernels wider than the grid.",
  ["pfutil/blur.go: Blur, BoxKernel"])
p("Draw marks exactly the interior points of the transformed shape",
  "Draw writes the given value at exactly the nodes inside the shape after the supplied affine transformation and leaves all other nodes unchanged.",
  "every grid, every shape, every affine transformation and initial grid content",
  "Scan order leaks state between pixels; visible only for transformations that mix axes.",
  ["pfutil/shapes.go: Draw, Box, Ball, BoundingBox", "pfutil/affine.go"])
p("Affine transformations compose in application order",
  "Append gives a transformation that applies the receiver first and then the argument; Identity is neutral; rotations preserve distances and angles add.",
  "every pair of affine transformations, every point, every angle",
  "Statement over all real matrices and vectors.",
  ["pfutil/affine.go: Affine.Apply, Append, Identity, Translation, Scaling, RotZ, RotY, RotX"])
p("Grid storage behaves as a map from positions to values",
  "Get after Set returns the value at the position set and the old value elsewhere; Copy is independent of its source; ToComplex/FromComplex round-trip.",
  "every 2D/3D grid, all in-range positions, every sequence of Set operations",
  "Statement over all operation sequences.",
  ["pfutil/grid.go: NewGrid, Copy, Set, Get, ToComplex, FromComplex"])
p("Splitting a right-hand side preserves its signed terms",
  "SplitOnMany on '+' and '-' returns, for a sum of non-empty operator-free terms, exactly those terms, each with the sign in front of it.",
  "every number of terms, all term texts without separators, all sign patterns",
  "Unbounded strings; the breadth-first splitting reorders terms.",
  ["pf/util.go: SplitOnMany, getFirstDelimiter, removeEmpty"])
p("Factor order does not matter",
  "SortFactors gives the same canonical text for any permutation of the factors of a product, and different multisets of factors give different texts.",
  "all lists of factor names without '*'",
  "All permutations of all factor lists.",
  ["pf/util.go: SortFactors"])
p("Prefix parsing recovers sign and Laplacian order",
  "For a term written as an optional minus, an optional LAP/LAP^2/LAP^4 operator and a body, building the term multiplies the body by the sign and by (-4 pi^2 f^2)^k with the k written, and by 1 without operator.",
  "all bodies that do not contain one of the operator names, every frequency",
  "Ordering of the prefix table (LAP^4, LAP^2, LAP) matters for all strings.",
  ["pf/rhsBuilder.go: knownPrefixes, getKnownPrefixes, recursiveRemove, removeKnownPrefixes, ConcreteTerm", "pf/diffOp.go: LaplacianN.Eval"])
p("An equation belongs to the field named in its left-hand side",
  "EqNumber and the right-hand-side builder identify the field named between 'd' and '/dt' of the left-hand side.",
  "all field names and right-hand sides",
  "Regex matching over all strings.",
  ["pf/model.go: EqNumber, AddEquation", "pf/rhsBuilder.go: fieldNameFromLeibniz, Build"])
p("A parsed right-hand side evaluates to what was written",
  "The function built for an equation evaluates, in Fourier space, to the sum of its terms: products of constants and registered functions times the transform of the named field or of the derived field that is the pointwise product of the named fields with their powers.",
  "all equations in the supported grammar, all field values and frequencies",
  "All equations of the grammar.",
  ["pf/rhsBuilder.go: Build, ConcreteTerm, constructFunc, isBilinear", "pf/util.go: GetNonLinearFieldExpressions, DerivedFieldCalcFromDesc, GetPower, GetFieldName"])
p("Derived fields are evaluated from the current real-space fields",
  "SyncDerivedFields makes every registered derived field hold its defining product (or user function) of the current field values, and evaluating a registered derived field's brick reads that derived field.",
  "all models, all numbers of derived fields, all field values",
  "Pointer aliasing between loop iterations appears only with two or more derived fields.",
  ["pf/model.go: SyncDerivedFields, registerDerivedFields, UpdateDerivedFields, RegisterDerivedField"])
p("GetRHS is the sum of terms and sources with modifiers applied in registration order",
  "GetRHS(eq) returns, per node, the sum of all explicit terms and sources of that equation and then applies exactly the modifiers registered for that equation, in registration order; GetDenum returns the sum of the implicit coefficients.",
  "all models, equations, frequencies, times",
  "All registration histories.",
  ["pf/model.go: GetRHS, GetDenum, RegisterRHSModifier, AddSource, AddEquation"])
p("Each field evolves by the equation written for it",
  "After one step, every field has been advanced using the equation whose left-hand side names it, whatever the order in which fields and equations were added.",
  "all models and registration orders",
  "All permutations of equation order.",
  ["pf/model.go: AddEquation, AddField, GetRHS", "pf/euler.go: Step", "pf/rk4.go: Step"])
p("Semi-implicit Euler step solves its documented scheme",
  "One Euler step gives fields with Fourier amplitudes (y + dt N(y)) / (1 - dt A), every right-hand side evaluated at the fields at the start of the step.",
  "all models, fields, time steps",
  "Coupled models of any number of fields; in-place update order matters.",
  ["pf/euler.go: Euler.Step"])
p("RK4 step is the documented four-stage scheme",
  "One RK4 step gives y + dt(k1+2k2+2k3+k4)/6 with the semi-implicit stages, and simulated time equals the number of steps times dt.",
  "all models, fields, time steps, step counts",
  "All step counts and coupled fields.",
  ["pf/rk4.go: RK4.Step, PrepareNextCorrection, firstCorrection, correction, Propagate, GetTime"])
p("Conserved dynamics conserve the mean",
  "If every term of an equation is a Laplacian or divergence (vanishes at zero frequency), stepping leaves the spatial average of that field unchanged for ever, also with a modal filter that is 1 at zero frequency and with conservative noise.",
  "every number of steps, every time step, every field",
  "Infinite histories.",
  ["pf/euler.go", "pf/rk4.go", "pf/diffOp.go", "pf/noise.go: ConservativeNoise", "pf/gradientCalculator.go: DivGrad"])
p("Solver time and callbacks",
  "Solve(nepochs, nsteps) performs nepochs*nsteps steps, advances time by nepochs*nsteps*dt, calls every callback once per epoch, in order, with epoch numbers StartEpoch+0,1,..., after nsteps steps of that epoch, and consecutive Solve calls behave like one.",
  "all epoch and step counts, all steppers",
  "Unbounded epochs.",
  ["pf/solver.go: Solve, Propagate, AddCallback, SetStepper", "pf/euler.go: Propagate", "pf/rk4.go: Propagate"])
p("Dimer bookkeeping of the string-dimer dynamics",
  "The orientation vector keeps unit norm at every step, the dimer length is non-increasing in time, never drops below the minimum and equals the minimum from RequiredDimerLengthTime on; shifting to both ends and back restores the fields.",
  "all step counts, all models, all initial orientations that are non-zero",
  "Unbounded steps.",
  ["pf/sdd.go: Step, DimerLength, RequiredDimerLengthTime, ShiftFieldsAlongDimer, Init, SetInitialOrientation"])
p("Rank-one linear solve",
  "The Sherman-Morrison helper returns the exact solution of (D + u v^T) x = b whenever D has no zero entry and 1 + v^T D^-1 u is not zero.",
  "all sizes and vectors",
  "All dimensions and values.",
  ["pf/sdd.go: diagonalShermannMorrison.dot, householderDenum"])
p("Householder reflection",
  "The Householder transformation applied to the force reverses its component along the dimer, leaves the orthogonal components, and is an involution for a unit orientation.",
  "all sizes and vectors",
  "All dimensions and values.",
  ["pf/sdd.go: householder"])
p("SDD uses each field's own force",
  "A dimer step moves every field by the reflected, interpolated force that this field's own equation gives at both dimer ends.",
  "all multi-field models",
  "Offset errors only show with two or more fields.",
  ["pf/sdd.go: Step"])
p("Implicit Euler vector packing and residual",
  "fields2vec and vec2fields are inverse on real fields; a zero of the residual handed to the nonlinear solver is a field satisfying the exponential-integrator equation with all terms at the new time.",
  "all models, field counts and node counts",
  "All sizes.",
  ["pf/implicitEuler.go: fields2vec, vec2fields, updateEquation, nonlinearIntegral, Step"])
p("Database isolates simulations",
  "Saving fields, comments, attributes or time series for one simulation never changes what is loaded, listed or exported for another simulation, and what is loaded back is what was saved last for that (simulation, time step).",
  "every history of database operations over any number of simulations",
  "All histories of operations.",
  ["pf/database.go: FieldDB.SaveFields, Load, LoadLast, Comment, SetAttr, SetTextAttr, TimeSeries, initialize"])
p("Database joins positions correctly",
  "Joining field values to the positions table on the documented key gives for each value the position of its node.",
  "all domains and save histories",
  "All domains, including one-node domains, and repeated saves.",
  ["pf/database.go: populatePositionsTable, positionTableIsPopulated, insertRealPart, Load"])
p("A crash leaves the database loadable at a complete time step",
  "If the process dies at any point during SaveFields, LoadLast still returns a time step for which all fields are present.",
  "every crash point in every save history",
  "All crash points.",
  ["pf/database.go: SaveFields, insertRealPart, LoadLast"])
p("Database rejects fields of another domain",
  "SaveFields with a domain that is not the one whose positions are stored in the file panics before any field value is written; with the stored domain it succeeds.",
  "all pairs of domains and every state of the database file",
  "All pairs of domains, also of different dimension, and every earlier history of the file.",
  ["pf/database.go: domainSizeOk, insertRealPart, SaveFields"])
p("Binary field files round-trip",
  "LoadFloat64 of a file written by SaveFloat64 returns the same values bit for bit, in the same order, for any number of values.",
  "all lists of 64-bit patterns",
  "All values and lengths.",
  ["pf/fileIO.go: SaveFloat64, LoadFloat64"])
p("Grey-scale images map the field range monotonically onto 0..255",
  "RealPartAsUint8 maps every value between min and max to 0..255, monotonically, min to 0 and max to 255; so pixel order never inverts value order.",
  "all fields and all ranges with min < max",
  "All values.",
  ["pf/util.go: RealPartAsUint8", "pf/fileIO.go: Uint8IO"])
p("CSV field files identify each node",
  "SaveCsv writes one row per node with the node's coordinates and the values of all fields in column order; LoadCSV returns the values in node order; numbers survive to six decimals.",
  "all domains, all numbers of fields",
  "All sizes.",
  ["pf/fileIO.go: SaveCsv, LoadCSV, CsvIO"])
p("XDMF index references exactly the files written",
  "CreateXDMF references, for step i and field f, exactly the file name Float64IO uses for epoch i and field f, each once.",
  "all field lists, prefixes and step counts",
  "All counts.",
  ["pf/xdmf.go: CreateXDMF", "pf/fileIO.go: Float64IO"])
p("Equivalent Miller indices are the signed permutations",
  "EquivalentMiller(m) returns exactly the signed permutations of the indices, each once; NumEquivalent3D agrees with its length.",
  "all integer Miller indices of any rank",
  "All integers, zeros and repeated magnitudes.",
  ["pfc/miller.go: EquivalentMiller, NumEquivalent2D, NumEquivalent3D"])
p("Hyper-octant explorer visits every sign combination once",
  "HyperOctantExplorer yields each of the 2^n sign patterns exactly once and then nil.",
  "every dimension n and starting point",
  "Exponential number of calls.",
  ["pfc/initialGuessExplorer.go: HyperOctantExplorer.Next"])
p("Reciprocal cell is dual to the direct cell",
  "The reciprocal vectors satisfy a_i . b_j = 2 pi delta_ij; CellChange gives the first-order change of the reciprocal cell under a change of the cell.",
  "all invertible cells of dimension 2 and 3 and all changes",
  "All real matrices.",
  ["pfc/lattice.go: Cell.Reciprocal, ReciprocalCell.CellChange, FCC, BCC, SC3D, Triangular2D"])
p("Mode-expansion polynomial equals the free energy",
  "The energy polynomial built by the mode solver evaluates to the spatial average of the free energy of the mode expansion, and its gradient and Hessian are its derivatives.",
  "all mode amplitudes, powers and Miller families",
  "All amplitudes and powers.",
  ["pfc/mode_solver.go: power2key, build, mergeTerms, Func, Grad, Hess"])
p("Ideal-mixture free energy derivatives",
  "Deriv of the ideal energy is the derivative of Eval of the same order, and the split into linear and nonlinear parts used by the model terms adds up to Eval.",
  "all real densities, prefactors and derivative orders",
  "All reals.",
  ["pfc/ideal.go: IdealMix.Eval, Deriv", "pf/pairCorrelationTerm.go: IdealMixtureTerm"])
p("Pair correlation function is a bounded peak envelope",
  "Reciprocal space pair correlation Eval is in [0,1] for non-negative effective temperature, is at least every single peak, and equals one of them.",
  "all peak lists, wave numbers and temperatures",
  "All reals and list lengths.",
  ["pfc/pairCorrelation.go: ReciprocalSpacePairCorrelation.Eval"])
p("Elastic tensors have the symmetries of linear elasticity",
  "Isotropic, cubic and Voigt-built stiffness tensors have minor and major symmetries and rotation by a rotation matrix preserves the symmetries and contraction.",
  "all elastic constants, all index quadruples, all rotations",
  "All real constants and orthogonal matrices.",
  ["elasticity/rank4.go: Isotropic, CubicMaterial, FromFlatVoigt, Rotate, ContractLast, RotationMatrix"])
p("Mechanical equilibrium of computed displacements",
  "The computed displacement of a mode satisfies the equilibrium equation K u = f for that frequency, and is zero at zero frequency; the strain computed from displacement is symmetric.",
  "all frequencies, stiffness tensors and forces for which the matrix is invertible",
  "All reals.",
  ["elasticity/linearElasticity.go: DisplacementMatrixElement, Displacements, Strain", "elasticity/effectiveForce.go: Get"])
p("Field-range transform is a bijection onto the open interval",
  "BoundTransform Forward maps every real into (Min,Max) and Backward inverts it.",
  "all reals and all Min < Max",
  "All reals.",
  ["pf/boundTransform.go"])
p("Modal filters are low-pass",
  "The filter functions are 1 at zero frequency, between 0 and 1, and non-increasing in the frequency; applying a filter leaves the mean unchanged.",
  "all frequencies and orders",
  "All reals.",
  ["pf/vandeven.go", "pf/util.go: ApplyModalFilter", "pf/spectralViscosity.go"])
p("Volume-conserving multiplier keeps the total",
  "With the volume-conserving term, the total of the constrained field over the domain stays the same from step to step.",
  "all fields, right-hand sides, numbers of steps and indicators with a non-zero average",
  "All fields.",
  ["pf/volumeConserving.go"])
p("Command-line tables show each simulation's own data",
  "The list, info, comment and attribute commands print for each simulation its own comment and attributes, completely.",
  "all databases and comment texts",
  "All texts and lengths.",
  ["cmd/list.go: showComments", "cmd/comment.go: printAllComments", "cmd/util.go: closestWhiteSpace", "cmd/attr.go: listAttributes, listSingleAttribute", "cmd/info.go: printList"])
p("Exported tables align samples with time steps",
  "Exporting time series or field data gives one row per time step/node with each value in the column of its name, whatever subset of samples was stored.",
  "all sets of stored samples",
  "All subsets.",
  ["cmd/export.go: exportTimeseries, exportFieldData, allTimeSteps, largestTimestep"])
p("Plot commands select the requested data",
  "Line plots select exactly the rows whose fixed coordinates match; contour plots show the value of each node at its coordinates.",
  "all CSV files written by SaveCsv, all requested lines",
  "All sizes.",
  ["cmd/lineplot.go: numSet, includeRow, absissaIndex, lineData", "cmd/contour.go: NewHeatMapData, HeatMapData.Z, dataRange"])
p("Field files are laid out as the XDMF index declares",
  "The value of a node stands in the binary file at the place where a reader of the XDMF index, which lists the extents in the order of the domain size with the last one varying fastest, expects the node with these coordinates.",
  "all domains and nodes",
  "All extents.",
  ["pf/xdmf.go: CreateXDMF", "pf/fileIO.go: SaveFloat64", "pfutil/indexPositionConversion.go: NodeIdx"])
p("Predefined cells generate the lattices they are named after",
  "The integer combinations of the cell vectors of SC3D, FCC, BCC and Triangular2D are the points of the simple cubic, face centred, body centred and triangular lattice, and Volume is the volume per lattice point.",
  "all lattice parameters, all points of space",
  "Infinitely many points and all real parameters.",
  ["pfc/lattice.go: SC3D, FCC, BCC, SC2D, Triangular2D, Cell.Volume"])
p("Plane density of the simple cubic lattice",
  "CubicUnitCellDensity of a Miller index without common divisor is the number of lattice points per area in the planes with this index, 1/|hkl|, independent of order and sign of the components.",
  "all Miller indices without common divisor",
  "All integers.",
  ["pfc/lattice.go: CubicUnitCellDensity"])
p("Force of a stiffness perturbation is the documented one",
  "PerturbedForce returns at every frequency, for each component i, - sum_{jkl} dC_ijkl 2 pi i f_j FT((misfit_kl - strain_kl) shape), as documented.",
  "all tensors, misfits, displacements, shapes and frequencies",
  "All real inputs.",
  ["elasticity/perturbation.go: PerturbedForce"])
p("Rotate2D moves values about the centre",
  "Rotate2D gives every node the old value at the position turned by the angle about the centre of the grid, truncated to grid coordinates and wrapped periodically; no new values appear and full turns change nothing.",
  "all 2D grids, contents and angles",
  "All real angles and sizes.",
  ["pfutil/grid.go: Rotate2D"])
p("Slice operations act element by element",
  "ElemwiseAdd, ElemwiseMul and DivRealScalar act on every element, MaxReal and MinReal return the largest and smallest real part, CmplxEqualApprox is true exactly if the lengths agree and all parts differ by at most the tolerance, and is symmetric.",
  "all slices, scalars and tolerances",
  "All lengths and values.",
  ["pfutil/sliceOperations.go: ElemwiseAdd, ElemwiseMul, DivRealScalar, MaxReal, MinReal, CmplxEqualApprox"])
p("PFC terms are functional derivatives of their energies",
  "The ideal-mixture term and the pair-correlation term are the functional derivatives of their GetEnergy, in implicit and explicit form, and moving a field along the sum of both terms with the Laplacian never increases the total energy.",
  "all real fields, directions, prefactors, correlation functions and grids",
  "All real fields and directions.",
  ["pf/pairCorrelationTerm.go: PairCorrlationTerm, ExplicitPairCorrelationTerm, IdealMixtureTerm, GetEnergy"])
p("Spectral viscosity only damps",
  "The spectral viscosity term leaves modes below a third of the threshold alone and makes no mode grow; its interpolant rises from 0 to 1 at the threshold.",
  "all frequencies, thresholds, powers, strengths and time steps",
  "All real frequencies and thresholds.",
  ["pf/spectralViscosity.go: SpectralViscosity, interpolant"])
p("Real fields stay real",
  "A field is real exactly when amplitudes at ConjugateNode are conjugates. Stepping a model whose derived fields are real and whose terms, sources and modifiers map amplitudes of real fields to amplitudes of real fields keeps all fields real, for Euler and RK4, any number of steps and any filter; the terms of the package have this property.",
  "all domains, models, fields, time steps, step counts and filters",
  "All inputs and arbitrarily long histories.",
  ["pf/euler.go: Step", "pf/rk4.go: Step", "pfutil/fftWrap.go: ConjugateNode", "pf/rhsBuilder.go: ConcreteTerm", "pf/gradientCalculator.go", "pf/chargeTransport.go", "pf/noise.go", "pf/tensorialHessian.go", "pf/sourceTerm.go"])
p("Gradient based terms are the derivatives they name",
  "GradientCalculator returns the derivative of the trigonometric interpolant at every node; LAP is the sum of its second derivatives; DivGrad contributes div(F grad u), Advection - v . grad u, WeightedLaplacian F LAP u, SquaredGradient factor |grad u|^2.",
  "all domains, fields, weight functions, velocities and positions of the derived fields in the model",
  "All real fields and grids.",
  ["pf/gradientCalculator.go: GradientCalculator, DivGrad, WeightedLaplacian", "pf/advection.go: Advection", "pf/squareGradientTerm.go: SquaredGradient", "pf/diffOp.go: LaplacianN"])
p("Charge transport obeys Poisson's equation and Ohm's law",
  "ChargeTransport contributes - div J and Current returns J, with J = sigma (E_ext - grad phi) and phi the solution of Poisson's equation for the charge density; conductivities are read as a symmetric tensor in the documented order; in a uniform isotropic conductor every amplitude decays.",
  "all densities, external fields, conductivities and 2D/3D domains",
  "All real fields and grids.",
  ["pf/chargeTransport.go: ChargeTransport, Construct, Current, voigtIndex"])
p("A source adds its strength at its position",
  "A source at a node adds f(t) at that node and nothing elsewhere; at any position it adds f(t) in total.",
  "all domains, nodes, positions, times and source functions",
  "All positions and functions of time.",
  ["pf/sourceTerm.go: NewSource, Source.Eval"])
p("TensorialHessian is K_ij d2/dx_i dx_j",
  "The value at every frequency is - 4 pi^2 sum_ij K_ij f_i f_j, so multiplying with the amplitudes applies sum_ij K_ij d2/dx_i dx_j; the identity gives the Laplacian.",
  "all tensors, frequencies, fields and 2D/3D domains",
  "All real tensors and frequencies.",
  ["pf/tensorialHessian.go: TensorialHessian, Construct, GetCoeff"])
p("NegativeValuePenalty is the derivative of its function",
  "Penalty is the derivative of Prefactor (|x|^Exponent - x^Exponent): zero for positive values and - 2 Prefactor Exponent x^(Exponent-1) for negative ones.",
  "all prefactors, exponents and values",
  "All reals and exponents.",
  ["pf/negative_value_penalty.go: Penalty"])
p("Fits of elastic properties report the elastic constants of the modes",
  "MatchElasticProp minimises, with the right gradient, the squared deviation of the requested moduli, and reports for exactly the requested properties the Voigt averages of the elastic tensor of its modes; PeakWidths turns the factors into widths.",
  "all reciprocal cells, modes, targets, factors and amplitudes",
  "Real-valued inputs in any number; the gradient must be right everywhere.",
  ["pfc/mode_solver.go: MatchElasticProp, BulkModWeight, ShearModWeight, AreaModulusWeight, XYPlaneShearWeight, PeakWidths"])
p("Corners of the box in scaled coordinates",
  "CornersScaledCrd returns for every corner of the box [0, n0] x [0, n1] (x [0, n2]) one column with its coordinates in the basis of the cell vectors, and the range BuildCrystal derives from them covers every cell that lies in the box.",
  "all invertible 2D and 3D cells and all extents",
  "Real valued cells and all extents.",
  ["pfc/periodicFieldInit.go: CornersScaledCrd, BuildCrystal"])
p("BuildCrystal puts one unit cell at every lattice point",
  "When the edges of the grid are lattice vectors, BuildCrystal places its basis at every lattice point of the periodic grid exactly once.",
  "all invertible cells and all grids whose edges are lattice vectors",
  "Real valued cells, arbitrarily large grids.",
  ["pfc/periodicFieldInit.go: BuildCrystal, isInsideBox", "pfc/lattice.go: FCC, BCC, SC3D, SC2D, Triangular2D, Cell.Volume"])
p("BuildCrystal paints the kernel around every atom",
  "After BuildCrystal a node holds the value of the kernel at the distance of the last painted offset within the cutoff of an atom that falls on it (periodically), or its old value if there is none; GaussianKernel and CircleKernel have the documented shape.",
  "all cells, bases, kernels, cutoffs, grids and previous contents",
  "Real valued positions; any number of overlapping atoms.",
  ["pfc/periodicFieldInit.go: BuildCrystal, GaussianKernel, CircleKernel"])
p("TiltGB makes a symmetric tilt boundary",
  "TiltGB replaces the nodes with first index below half of the extent by the crystal turned by angle/2 around the centre and the others by the crystal turned by -angle/2, up to rounding to nodes; values are only moved, angle 0 changes nothing, and grids that are not two-dimensional panic.",
  "all 2D grids, contents and angles",
  "All real angles and fields.",
  ["pfc/periodicFieldInit.go: TiltGB"])
p("TwoPhaseCorrFunc interpolates between two correlation functions",
  "Evaluate returns X(c) C1 + (1 - X(c)) C2 in real space, where C1 and C2 are the inverse transforms of the two correlation functions and X is the smooth step Indicator with derivative IndicatorDeriv; EvaluateFT returns its transform, which in a pure phase is the correlation function of that phase; the concentration passed in is not changed.",
  "all 2D/3D domains, correlation functions and concentrations",
  "All real fields and functions.",
  ["pfc/twoPhaseCorrFunc.go: Indicator, IndicatorDeriv, Dot, Evaluate, EvaluateFT"])

p("The elastic term of a simulation is minus the derivative of the elastic energy",
  "The term HomogeneousModulusLinElast adds to an evolution equation is, in real space, minus the derivative of the elastic energy of the body in mechanical equilibrium (misfit strain times Indicator of the field, uniform stiffness) with respect to the field.",
  "all grids, stiffness tensors, misfit strains, fields and directions of change",
  "Real fields; the energy is defined by solving the equations of equilibrium.",
  ["pf/homoLinElast.go: Indicator, IndicatorDeriv, HomogeneousModulusLinElast.Construct, Freq, Force, OnStepFinished, NewHomogeneousModolus"])
p("HomogeneousModulusEnergy is the equilibrium energy per volume of inclusion",
  "HomogeneousModulusEnergy returns the elastic energy of mechanical equilibrium divided by the volume of the inclusions; it lies between zero and the energy density of the misfit strain, equals the latter for a body that is all inclusion, and the indicator passed in is restored.",
  "all grids, stiffness tensors, misfit strains and indicator fields",
  "Real data, arbitrary arrangements of inclusions.",
  ["elasticity/linearElasticity.go: HomogeneousModulusEnergy"])
p("Strain energy of an ellipsoidal inclusion",
  "Ellipsoid is 1 inside the ellipsoid around the centre of the box and 0 outside, and CalculateStrainEnergy returns the elastic energy of its equilibrium, with the stiffness of the inclusion inside and of the matrix outside, divided by the volume of the ellipsoid.",
  "all half axes, box sizes, misfit strains and Voigt matrices",
  "Real data and arbitrarily large boxes.",
  ["elasticity/shapes.go: Ellipsoid", "elasticity/strainEnergyCLI.go: CalculateStrainEnergy"])

p("Terms that bring their own derived fields work with them",
  "After Advection.PrepareModel the brick GetName shows, after every update of the derived fields, the scalar product of the velocity fields and the gradient of the field at their present values, whatever was registered before and is registered later under other names, and Construct returns minus it; after DivGrad.PrepareModel every flux is F times a gradient component. Several such terms in one model do not disturb each other.",
  "all histories of registrations, names, fields and contents",
  "Every history of registrations and every choice of names.",
  ["pf/advection.go: Advection.GradName, GetName, AllFieldsExist, PrepareModel, Construct", "pf/gradientCalculator.go: DivGrad.FuncName, GradName, PrepareModel, Construct, ToDerivedField", "pf/model.go: RegisterDerivedField, SyncDerivedFields"])
p("Noise has the documented strength and independent components",
  "The components of a conservative noise are independent fields that Construct finds; a field driven by WhiteNoise accumulates in the time T a variance 2 Strength T, uncorrelated between nodes.",
  "all grids, time steps, numbers of steps and strengths; all distributions of uncorrelated standardised numbers",
  "Statements about expectation values.",
  ["pf/noise.go: WhiteNoise.Generate, ConservativeNoise.GetCurrentName, CurrentFieldsAreRegistered, RequiredDerivedFields, NewConservativeNoise", "pf/euler.go: Step"])
p("Init accepts exactly the implicit terms that do not depend on fields",
  "Init returns without panic iff no term registered with RegisterImplicitTerm depends on a field; terms that only depend on the frequency, the time and constants are accepted in two and three dimensions.",
  "all terms, bricks and grids",
  "The check probes one perturbation; terms are arbitrary functions.",
  ["pf/model.go: Init, NumNodes", "pf/userDefinedTerm.go: isImplicit, perturbedBrick.Get", "pfutil/sliceOperations.go: CmplxEqualApprox"])
p("Setting up a solver",
  "NewSolver accepts a model iff Init does and every field has as many nodes as the domain; it starts at time 0 with the Euler scheme and the given time step. SetStepper changes the scheme of a solver (euler or rk4, others panic) and nothing else: time, filter, callbacks and monitors stay.",
  "all models, domains, time steps and histories of a solver",
  "Every history of steps and calls.",
  ["pf/solver.go: NewSolver, SetStepper, AddCallback, AddMonitor", "pf/euler.go: GetTime, SetFilter", "pf/rk4.go: GetTime, SetFilter"])
p("Fields and scalars as values",
  "NewField without data is zero, with data it uses the caller's slice, and a wrong length or a reserved prefix panics; Field.Copy is a deep copy; Scalar.SetFloat sets the value of a scalar.",
  "all names, contents and writes",
  "Aliasing for all states of the memory.",
  ["pf/model.go: NewField, Field.Copy, Field.Get, NewScalar, Scalar.SetFloat, Scalar.Get"])

p("A model may be declared in any order",
  "When AddField comes before the first AddEquation and RegisterFunction, the calls AddScalar, AddSource, AddEquation, RegisterFunction and Register*Term may come in any order: after Init every right-hand side evaluates to the meaning of the text of its equation, with the constants, functions and terms declared under these names.",
  "all sequences of calls and all equations of the language",
  "Every permutation and length of the set-up of a model.",
  ["pf/model.go: AddField, AddScalar, AddEquation, AddSource, RegisterFunction, RegisterImplicitTerm, RegisterExplicitTerm, RegisterMixedTerm, registerTerm, Init", "pf/rhs.go: Build"])
p("The last registration of a term counts",
  "IsImplicitTerm, IsExplicitTerm and IsMixedTerm are true exactly for the names registered with that kind, and after Init a name in an equation is evaluated by the term that was registered last under it.",
  "all sequences of calls",
  "Every history of registrations.",
  ["pf/model.go: RegisterImplicitTerm, RegisterExplicitTerm, RegisterMixedTerm, registerTerm, IsImplicitTerm, IsExplicitTerm, IsMixedTerm, Init", "pf/rhs.go: Build"])
p("Sources, Init and Summarize follow the calls",
  "The sources of an equation are those given to AddSource with its number, which panics exactly when there is no such equation; Init may be called again without effect; Summarize prints one line for each equation with its number, text and the numbers of its functions, and says that the model is not initialised exactly when equations were added since Init.",
  "all sequences of calls",
  "Every history of calls.",
  ["pf/model.go: AddSource, AddEquation, Init, Summarize"])

p("Moving a whole simulation moves its result",
  "If the initial fields, the sources and the position dependent materials of a simulation are moved periodically by a vector of nodes, the fields after any number of steps of Euler or RK4 are the moved ones, and the same simulations stop with an error. Written terms, SquaredGradient, DivGrad, Advection, WeightedLaplacian, ChargeTransport, TensorialHessian, sources at arbitrary points and the derived fields they use are of this kind.",
  "all two-dimensional and cubic domains, vectors, models, fields, time steps, filters and numbers of steps",
  "Real fields, every vector and every model.",
  ["pf/euler.go: Euler.Step, Propagate", "pf/rk4.go: RK4.Step, Propagate", "pf/model.go: GetRHS, GetDenum, SyncDerivedFields", "pf/rhsBuilder.go: ConcreteTerm", "pf/sourceTerm.go: Source.Eval", "pf/squareGradientTerm.go: Construct", "pf/gradientCalculator.go: Calculate, DivGrad.Construct, WeightedLaplacian.Construct", "pf/advection.go: Construct", "pf/chargeTransport.go: Construct", "pf/tensorialHessian.go: Construct"])
p("Mirrors and exchanged axes",
  "Models made of written terms (powers of the Laplacian of fields and of functions of the fields), WeightedLaplacian and sources at nodes have no preferred direction: mirroring the initial fields and sources along an axis, or exchanging two axes of equal extent, gives the mirrored or exchanged result after any number of steps of Euler or RK4.",
  "all two-dimensional and cubic domains, axes, models, fields, time steps, filters and numbers of steps",
  "Real fields and every such model.",
  ["pf/euler.go: Euler.Step, Propagate", "pf/rk4.go: RK4.Step, Propagate", "pf/rhsBuilder.go: ConcreteTerm", "pf/diffOp.go: Laplacian.Eval", "pf/gradientCalculator.go: WeightedLaplacian.Construct", "pf/sourceTerm.go: Source.Eval"])
p("Uniform fields stay uniform and follow the ordinary differential equation",
  "In a model that does not depend on the position, fields that have one value each keep one value each under Euler and RK4. For written equations these values are the steps of the semi-implicit Euler scheme of the ordinary differential equation that is left when every Laplacian is dropped.",
  "all two-dimensional and cubic domains, models, values, time steps, filters and numbers of steps",
  "Real values and every such model.",
  ["pf/euler.go: Euler.Step, Propagate", "pf/rk4.go: RK4.Step, Propagate", "pf/model.go: GetRHS, GetDenum, SyncDerivedFields", "pf/rhsBuilder.go: ConcreteTerm"])

p("A declared model is integrated as it is written",
  "For a model declared by the calls of the API, the steppers evaluate, at every node of the Fourier domain, the sum of the terms as they are written in the equation of a field, with the constants, functions, registered terms and sources declared for it. An Euler step changes the first field by (1 - dt a)(Y' - Y) = dt (right-hand side), where a is the coefficient of the implicit part, and RK4 uses the written right-hand sides of all fields at its four stages.",
  "all languages, sequences of calls, equations of the grammar, domains, fields, values, times and nodes",
  "Every model that can be written and every state of its fields.",
  ["pf/model.go: AddEquation, Init, GetRHS, GetDenum, SyncDerivedFields", "pf/rhs.go: Build", "pf/util.go: DerivedFieldCalcFromDesc", "pf/euler.go: Euler.Step", "pf/rk4.go: RK4.Step"])
p("Steady states are those of the written equations",
  "An Euler step leaves all fields as they are exactly when the right-hand side of every equation, as written and with its sources, is zero; Euler and RK4 then keep the fields for any number of steps.",
  "all declared models, domains, fields, non-zero time steps without vanishing denominators, and numbers of steps",
  "Every model, state and number of steps.",
  ["pf/euler.go: Euler.Step, Propagate", "pf/rk4.go: RK4.Step, Propagate", "pf/model.go: GetRHS, GetDenum"])

p("Linear equations are integrated mode by mode with implicit Euler",
  "In a model whose equations are sums of products of constants, powers of the Laplacian and the field of the equation itself, the right-hand side is a symbol s(k) times the Fourier amplitude of the field, and any number of steps of Euler or of RK4 turns every amplitude Y into Y' with (1 - dt s)^steps Y' = Y, whatever the other fields are. RK4 is therefore of first order for such models, not of fourth.",
  "all linear models that can be written, domains, fields, time steps, nodes of the Fourier domain and numbers of steps",
  "Every linear model, real values and any number of steps.",
  ["pf/euler.go: Euler.Step, Propagate", "pf/rk4.go: RK4.Step, Propagate", "pf/rhs.go: Build", "pf/rhsBuilder.go: isBilinear, ConcreteTerm", "pf/util.go: GetNonLinearFieldExpressions"])
p("Linear models are stable for every time step",
  "If the symbol of a linear equation has nowhere a real part above -c <= 0, the sum of the squares of the field shrinks at least by (1 + dt c)^2 in every step of Euler or RK4, whatever the size of the time step (with c = 0 it never grows). If every term carries a Laplacian, the average of the field is kept.",
  "all linear models that can be written, domains, fields, positive time steps and numbers of steps",
  "Every linear model, real values and any number of steps.",
  ["pf/euler.go: Euler.Step, Propagate", "pf/rk4.go: RK4.Step, Propagate", "pf/model.go: GetRHS, GetDenum"])

p("Linear models converge to the solution of their equations when the time step shrinks",
  "For a linear model whose symbols are real and bounded by A, N steps of size T/N with Euler or RK4 end within 2 (A T)^2 exp(2 A T)/N, relative to the size of the initial field, of the solution at time T of the differential equations as they are written. The result at a fixed time therefore tends to the solution as the number of steps grows. A solution exists for every initial field.",
  "all linear models that can be written with real symbols, domains, initial fields, times T and numbers of steps",
  "Convergence is a limit over infinitely many runs, and the solution is a real function.",
  ["pf/euler.go: Euler.Step, Propagate", "pf/rk4.go: RK4.Step, Propagate", "pf/solver.go: Solver.Propagate"])

p("Which terms of an equation are implicit, and which values an Euler step uses",
  "Of a declared equation exactly the products whose only field is the field of the left-hand side, without exponent, together with registered implicit terms and the linear part of mixed terms, are treated implicitly; everything else, with the sources, is the explicit part X. An Euler step turns every amplitude Y into (Y + dt X)/(1 - dt A). Powers and products are formed from the values before the step; a field that stands alone has its new value in the equations of later fields and its old value otherwise.",
  "all languages, sequences of calls, equations of the grammar, domains, fields, values, times and nodes",
  "Every model that can be written and every state of its fields; names can contain one another.",
  ["pf/rhs.go: Build", "pf/rhsBuilder.go: isBilinear, ConcreteTerm", "pf/euler.go: Euler.Step", "pf/model.go: GetRHS, GetDenum, SyncDerivedFields"])

p("Models that are written differently but say the same give the same result",
  "If the fields of one simulation correspond to fields of another, and the equations of corresponding fields are the same up to the order of their terms, the order of the factors of a product, the names of fields, constants, functions and terms, and how a number is spelled, then corresponding fields that start with the same values have the same values after any number of RK4 steps, and of Euler steps if the correspondence keeps the order of the fields. Renaming everything in a model, without changing its order, is such a change.",
  "all pairs of corresponding models, domains, initial fields, filters, time steps and numbers of steps",
  "Every model that can be written, every renaming and every reordering of its terms.",
  ["pf/rhs.go: Build", "pf/rhsBuilder.go: ConcreteTerm, SortFactors", "pf/model.go: AddEquation, Init, GetRHS, GetDenum", "pf/euler.go: Euler.Propagate", "pf/rk4.go: RK4.Propagate"])
p("Fields are not influenced by fields their equations do not mention",
  "If the equations of a set of fields mention only fields of the set, two simulations that start with the same values of these fields have the same values of these fields after any number of steps of Euler or RK4, whatever the initial values of the other fields are.",
  "all models, sets of fields, domains, initial fields, filters, time steps and numbers of steps",
  "Every model, set of fields and state of the other fields.",
  ["pf/model.go: GetRHS, GetDenum, SyncDerivedFields", "pf/euler.go: Euler.Step", "pf/rk4.go: RK4.Step"])
p("The order in which fields are declared does not matter",
  "Declaring the same fields and equations in another order gives every field the same values after any number of steps.",
  "all models, orders of their fields, domains, initial fields, filters, time steps and numbers of steps",
  "Every model and every order.",
  ["pf/model.go: AddField, AddEquation, GetRHS, GetDenum", "pf/euler.go: Euler.Step", "pf/rk4.go: RK4.Step"])

p("What leaves one field enters another: weighted totals change only by what sources supply",
  "Suppose that in a weighted sum of some equations the products without Laplacian cancel, whatever the values of the fields are. Then the weighted total of these fields changes in any number of steps only by what their sources supply. In particular the total of a field is kept if every term of its equation carries a Laplacian and it has no source.",
  "all models, weights, domains, fields, time steps and numbers of steps",
  "Every model that can be written, all values of the fields and any number of steps.",
  ["pf/euler.go: Euler.Step, Propagate", "pf/rk4.go: RK4.Step, Propagate", "pf/model.go: GetRHS, GetDenum", "pf/rhs.go: Build", "pf/rhsBuilder.go: isBilinear"])

p("Declared models keep real fields real",
  "If the constants, functions, terms and sources of a declared model are real and the fields are real at the start, the fields are real after any number of steps, with or without a modal filter.",
  "all languages, sequences of calls, equations of the grammar, domains with the layout of C61, fields, filters, time steps and numbers of steps",
  "Every model that can be written, all values of the fields and any number of steps.",
  ["pf/euler.go: Euler.Step, Propagate", "pf/rk4.go: RK4.Step, Propagate", "pf/model.go: GetRHS, GetDenum, SyncDerivedFields", "pf/rhs.go: Build", "pf/rhsBuilder.go: ConcreteTerm", "pf/derivedField.go: CalculateBasedOnFields"])

p("Runs of nonlinear models converge to the solution of their equations",
  "Suppose the fields U(t) solve the declared equations, with their sources, from time 0 to T, and that the powers and functions of the equations are Lipschitz on bounded sets and the sources are Lipschitz in time. Then there is a constant D such that runs with N steps of size T/N that start from U(0) complete, and after each step every field differs from U at that time by at most D/N (root of the sum of squares over the nodes), for Euler and for RK4. Whole powers are Lipschitz on bounded sets, so models made of constants, fields, whole powers and Laplacians (Allen-Cahn, Cahn-Hilliard) need no further assumption.",
  "all languages, sequences of calls, equations made of products, domains, solutions, end times and numbers of steps",
  "Every model that can be written and every number of steps; the limit is not reached by any run.",
  ["pf/euler.go: Euler.Step, Propagate", "pf/rk4.go: RK4.Step, Propagate", "pf/model.go: GetRHS, GetDenum, SyncDerivedFields", "pf/rhs.go: Build", "pf/derivedField.go: CalculateBasedOnFields"])

p("A run can be stopped and continued",
  "If a run of Solve takes the fields to some values and a new solver, started from these values, takes them to others, then one run with as many steps as the two together gives the same fields, however the steps are divided into epochs and whatever callbacks and monitors are used. Old contents of derived fields do not matter.",
  "all models, domains, initial fields, filters, time steps and numbers of epochs and steps",
  "Every model, every point at which a run can be stopped and every division of the steps.",
  ["pf/solver.go: Solve, Propagate", "pf/euler.go: Euler.Step, GetTime", "pf/rk4.go: RK4.Step, GetTime", "pf/model.go: SyncDerivedFields"])

p("Runs of Solve converge to the solution of the declared equations",
  "If the fields U(t) solve the declared equations with their sources from time 0 to T, the fields after a run of Solve that starts from U(0) with small steps up to time T are as near to U(T) as one likes, with either stepper.",
  "all models made of products with Lipschitz powers and functions, domains, solutions, end times, numbers of epochs and steps",
  "Every model that can be written and every number of steps; the limit is not reached by any run.",
  ["pf/solver.go: Solve, Propagate", "pf/euler.go: Euler.Step, GetTime", "pf/rk4.go: RK4.Step, Propagate, GetTime"])

p("What monitors record",
  "A PointMonitor on a field or registered function holds, after a run of Solve, one value for each epoch: the real part of this field or function at its site after the steps of the epoch.",
  "all declared models, steppers, numbers of epochs and steps, sites, fields and functions, other callbacks and monitors",
  "Every model and every history; the buffers of functions hold amplitudes between steps, which a test of fields does not see.",
  ["pf/monitor.go: NewPointMonitor, PointMonitor.Add", "pf/solver.go: Solve, AddMonitor", "pf/model.go: DerivedField"])

p("A run can be continued from the files it saved",
  "In a run of Solve with a Float64IO callback the file of a field and an epoch holds the real parts of the field at the end of this epoch, and nothing else is written. A new solver that starts from the fields loaded from the files of the last epoch ends with the same fields as one run with as many steps as the two together.",
  "all declared models, domains, steppers, numbers of epochs and steps, prefixes, former files, other callbacks",
  "Every model, every division of a run and every state of the directory.",
  ["pf/fileIO.go: Float64IO.SaveFields, LoadFloat64", "pf/solver.go: Solve", "pf/euler.go: Euler.Step", "pf/rk4.go: RK4.Step"])

p("Euler steps lower the energy of gradient flows",
  "Let the declared equations be d field/dt = -(-LAP)^p mu, where mu is the derivative of an energy. If the steps are small enough for the curvature of the energy on the values the fields take, no number of Euler steps raises the energy. For Allen-Cahn (dconc/dt = conc - conc^3 + kap*LAP conc) and Cahn-Hilliard (dconc/dt = LAP conc^3 - LAP conc - kap*LAP^2 conc) there is, for every initial field, a step size below which the energy does not rise in any step of any run.",
  "all models of this form, domains, initial fields, step sizes and numbers of steps",
  "Every initial field and every number of steps; a test sees the energies of one run.",
  ["pf/euler.go: Euler.Step, Propagate", "pf/model.go: AddEquation, GetRHS, GetDenum, SyncDerivedFields", "pf/rhs.go: Build", "pf/rhsBuilder.go: ConcreteTerm"])

p("Where saddle searches rest",
  "For a declared model with one field and SDD with the default weight 1/2: a step leaves the field as it is exactly if the right-hand sides at the two ends of the dimer, as written, cancel; it leaves the orientation as it is exactly if their difference is a multiple of the orientation.",
  "all declared models with one field whose linear coefficients do not depend on the fields, domains, step sizes, fields, orientations and dimer lengths",
  "Every nonlinear model and every state; the step is implicit, so no finite set of runs shows that nothing else is a resting point.",
  ["pf/sdd.go: SDD.Step, ShiftFieldsAlongDimer, DimerLength", "pf/model.go: GetRHS, GetDenum, SyncDerivedFields"])

p("Saddle searches of linear models find the saddle point",
  "For a declared linear model with one field and real coefficients the orientation of SDD turns to the waves that grow fastest: the shares of all others, relative to theirs, shrink by a constant factor in every step. If one wave grows and all others decay, the field converges to the saddle point (zero), from every field and every orientation that contains the wave, while time steps leave it.",
  "all linear models with real coefficients, domains, initial fields, orientations, dimer lengths, small enough step sizes and numbers of steps",
  "A limit over all numbers of steps from every initial state.",
  ["pf/sdd.go: SDD.Step, householder, householderDenum", "pf/sdd.go: diagonalShermannMorrison.dot", "pf/solver.go: Propagate", "pf/euler.go: Euler.Step"])

p("What saddle searches record about their steps",
  "The recorder of SDD changes no search. After every step MaxForce is the largest rate of change of any amplitude of the fields and ForcePowerSpectrum the root mean square rate of change of their values; each bounds the other, and either is zero exactly if the fields did not change. MaxTorque is the largest entry of the torque that turned the orientation, and zero exactly if it did not turn. FieldNorm and FieldNormChange describe the fields after the step. With a log file Solve appends one line for each epoch, after a header if the file was empty.",
  "all models, transforms with Parseval's identity, searches, numbers of steps and epochs, former contents of the file",
  "The quantities must match the motion in every step of every search; a test compares a few numbers.",
  ["pf/sdd.go: SDDMonitor, Log, SDD.Step", "pf/sdd.go: FieldNorm", "pf/solver.go: Solve"])

p("Implicit Euler runs of linear models",
  "For a declared linear model with real coefficients and real fields the problem ImplicitEuler hands to the non-linear solver has exactly one zero: the exact solution of the equations after one time step. With a solver that finds zeros any number of steps of any length gives the exact solution. With a solver that leaves residuals of length tol, and equations that do not grow, the error after N steps is at most N tol and the fields grow by at most N tol: the scheme is stable for all time steps.",
  "all linear models with real coefficients, domains, real initial fields, time steps, numbers of steps and solvers",
  "Stability for all time steps and an error bound for every number of steps and every solver; tests run a few steps with one solver.",
  ["pf/implicitEuler.go: ImplicitEuler.Step, updateEquation, nonlinearIntegral, GetTime", "pf/solver.go: Propagate"])

p("Conserved fields under implicit Euler",
  "If the right-hand side of a field has no zero-frequency amplitude (a conserved field), a step with ImplicitEuler changes the total of the field by exactly the sum of the residual the solver leaves on it; a run with a solver that finds zeros conserves the total, and otherwise it drifts by at most that sum per step. The initial guess already has the right total.",
  "all models, transforms, filters, time steps, fields, numbers of steps and solvers",
  "Every model with a conserved field, every number of steps and every result the solver may return.",
  ["pf/implicitEuler.go: ImplicitEuler.Step, updateEquation, nonlinearIntegral, fields2vec, vec2fields", "pf/solver.go: Propagate"])

p("Implicit Euler converges to the solution of the declared equations",
  "Let fields U solve the declared equations, linear or not, with their sources, from time 0 to T. If, on states close to U, the non-linear solver returns values near the old ones and leaves residuals of the order of the squared time step, runs with ImplicitEuler from U(0) with N steps of length T/N complete and after every step each field differs from U at that time by at most D/N, for a constant D. Subtracting the residual twice or more from the initial guess is such a solver when the time step is small, so runs with it converge with no further hypothesis.",
  "all declared models with locally Lipschitz right-hand sides and real coefficients, domains with the layout of C07, solutions, end times, filters, solvers and numbers of steps",
  "A limit over all numbers of steps, with a bound uniform in the solver; a test compares one run with one solution.",
  ["pf/implicitEuler.go: ImplicitEuler.Step, updateEquation, nonlinearIntegral, fields2vec, vec2fields, GetTime", "pf/solver.go: Propagate", "pf/euler.go: Euler.Step"])

p("RK4 without implicit terms is of fourth order",
  "Let fields U solve the declared equations from time 0 to T, and let the equations have no implicit terms, that is no product that is linear in the own field with a constant coefficient. Then there is a constant D such that N Runge-Kutta steps of length T/N from U(0), N large enough, leave every field after every step within D/N^4 of U at that time, under Propagate and under Solve with any epochs.",
  "all declared models with polynomial right-hand sides without implicit terms, domains, solutions, end times and numbers of steps",
  "The order of accuracy is a statement about all numbers of steps with one constant; a test compares two step sizes on one equation.",
  ["pf/rk4.go: RK4.Step, firstCorrection, correction, PrepareNextCorrection, Propagate", "pf/solver.go: Solve"])

p("Rounding, noise and inexact initial values are not amplified without bound",
  "Let fields U solve the declared equations from time 0 to T. There are constants D and s such that if the stored fields follow N Euler or Runge-Kutta steps of length T/N, N large enough, up to a disturbance of at most delta_k at every node in step k (rounding, noise), start within delta_0 of U(0), and the disturbances add up to at most s, then after every step k every field is within D (1/N + delta_0 + ... + delta_k) of U at that time. In particular, rounding what is stored to floating point numbers with enough digits leaves the run within D'/N of U, and the results depend continuously on the initial values.",
  "all declared models with locally Lipschitz right-hand sides, domains, solutions, end times, numbers of steps and disturbances",
  "A test sees one machine's rounding on one model; the bound is for every disturbance of every step and all numbers of steps with one constant.",
  ["pf/euler.go: Euler.Step, Propagate", "pf/rk4.go: RK4.Step, Propagate", "pf/solver.go: Propagate"])

p("Text tables written during a run hold the fields of their epoch",
  "In a run of Solve with CsvIO.SaveFields as callback, after every epoch there is a file <prefix>_<epoch>.csv from which LoadCSV gives back all fields in their order, with their names and at every node the real part after the steps of that epoch up to half a unit of the sixth decimal; no other file is touched, and files of different prefixes or epochs never coincide. With a domain size that does not match the number of nodes the run panics at the first epoch.",
  "all models, steppers, numbers of epochs and steps, prefixes and domains",
  "Runs of any length and any fields; a test saves one small field once.",
  ["pf/fileIO.go: CsvIO.SaveFields, SaveCsv, LoadCSV", "pf/solver.go: Solve"])

p("A database written during a run gives back the fields of every epoch",
  "On a database file used for one domain, a run of Solve with FieldDB.SaveFields as callback never panics; afterwards Load of every epoch of the run gives all fields in the order of their names with the real parts they had after the steps of that epoch, LoadLast gives the last epoch, and other steps of the same simulation read as before - whatever other objects with other simulation numbers wrote to the file before and between the callbacks, including calls that were cut off by a crash.",
  "all models, steppers, domains with at least two nodes, numbers of epochs and steps, earlier histories of the file and interleaved calls of other objects",
  "Other processes may write to the same file between any two callbacks; a test runs one object once.",
  ["pf/database.go: FieldDB.SaveFields, Load, LoadLast", "pf/solver.go: Solve"])

p("ImplicitEuler is of second order",
  "Let fields U solve the declared equations from time 0 to T; implicit terms are allowed. If the non-linear solver leaves a residual of at most a constant times the cube of the time step, then there is a constant D such that N ImplicitEuler steps of length T/N from U(0), N large enough, leave every field after every step within D/N^2 of U at that time. A solver that subtracts the residual three or more times from the guess meets the condition for all small steps.",
  "all declared models with polynomial right-hand sides, domains, real solutions, end times, numbers of steps and solvers",
  "The order of accuracy is a statement about all numbers of steps with one constant; the code announces an implicit Euler method, which would be of first order, and a test compares two step sizes on one equation.",
  ["pf/implicitEuler.go: ImplicitEuler.Step, updateEquation, nonlinearIntegral, fields2vec, vec2fields, GetTime", "pf/solver.go: Propagate"])

p("Declared equations have a solution for a short time, and as long as runs stay bounded",
  "For every declared model with smooth right-hand sides and every start there is a time s > 0 up to which the equations have a solution with that start, so Euler and RK4 runs up to s converge to it as the time step goes to zero. There is a solution up to a given time T exactly if the Euler runs up to T stay below one bound for all sufficiently small time steps; for one direction, repeated halving of one time step is enough. If short Euler steps cannot leave a bounded region, there is a solution with that bound up to every time from every start in the region; for dconc/dt = conc - conc^3 this holds for all starts with values between -1 and 1. Without such a bound the time is limited: dconc/dt = conc^2 started from 1 everywhere has a solution for a short time and none up to any time beyond 1.",
  "all declared models with Lipschitz right-hand sides and sources, domains, initial fields, end times and numbers of steps",
  "Existence of a solution and convergence from an arbitrary start are statements about all time steps at once; a test sees finitely many runs.",
  ["pf/euler.go: Euler.Step, Propagate", "pf/rk4.go: RK4.Step, Propagate", "pf/model.go: AddEquation, GetRHS, GetDenum"])

p("What a modal filter does to a run",
  "With SetFilter, Euler and RK4 multiply every Fourier mode of every field by the value of the filter once per step: only the values at the frequencies of the modes matter, a filter that is 1 there changes nothing, a mode for which the filter is 0 is absent from all fields after every step, and a filtered step is the step without filter followed by the multiplication. ImplicitEuler ignores the filter, as its documentation says. With linear equations every mode is multiplied by (factor / (1 - dt symbol)) per step; the damping therefore grows with the number of steps and not with the time, and a mode with a factor smaller than 1 vanishes when the steps become small, so filtered runs do not converge to the solution.",
  "all models, domains, filters, fields, time steps and numbers of steps",
  "Every filter function and arbitrarily many steps; a test applies one filter once.",
  ["pf/euler.go: Euler.Step, SetFilter", "pf/rk4.go: RK4.Step, SetFilter", "pf/implicitEuler.go: ImplicitEuler.Step, SetFilter", "pf/util.go: ApplyModalFilter"])

p("Slice wrappers and Blur through them",
  "After any sequence of Set calls on a RealSlice or RealPartSlice, Get returns the value written last to that element or the original one; RealPartSlice never changes an imaginary part, no call changes elements of the array outside the slice (so slices of different parts do not see each other), and an index outside the slice panics even if the array goes on. Blur through a wrapper replaces exactly the values in the slice by the blur of the values it had, and panics exactly when that blur does.",
  "all arrays, windows, sequences of writes, kernels and domains",
  "Every history of writes through several wrappers of one array.",
  ["pfutil/sliceWrappers.go: RealSlice, RealPartSlice", "pfutil/blur.go: Blur", "pfutil/sliceOperations.go: Clear", "pfutil/grid.go: Index, Pos"])

p("The clock of the steppers does not drift",
  "In float64 arithmetic GetTime after k steps of length dt is k dt up to one rounding (relative error at most 2^-53), whatever k, so errors do not add up; all steppers show the same time; it moves forward with every step up to 2^52 steps and is exact when k dt has at most 53 bits. N steps of length T/N end at T.",
  "all positive normal time steps and all numbers of steps below 2^53 whose time does not overflow",
  "Drift shows only after very many steps, and rounding depends on every bit of dt.",
  ["pf/euler.go: Euler.GetTime", "pf/rk4.go: RK4.GetTime", "pf/sdd.go: SDD.GetTime", "pf/implicitEuler.go: ImplicitEuler.GetTime"])

p("The JSON text of the monitors gives back what they recorded",
  "JSONifyMonitors returns a JSON text in which every reader of JSON finds one object per monitor, in the order in which the monitors were added, with the name of its field, its site and the recorded values in order, whatever characters the names contain. Different monitors give different texts. It panics exactly if some monitor recorded a value that is not finite (after a run that diverged). After Solve the values of a monitor are those of its field at its site at the end of every epoch.",
  "all lists of point monitors with names in ASCII, any sites and any recorded values",
  "Escapes and nesting have to be right for every name and every number of values; a test compares one text.",
  ["pf/solver.go: Solver.JSONifyMonitors, AddMonitor", "pf/monitor.go: PointMonitor, NewPointMonitor, Add"])

p("The index file of WriteXDMF says where the fields are",
  "The file WriteXDMF writes is XML from which every reader gets, for each epoch in order and each field in order, the name of the field, the name of its binary file, the layout of that file (8 byte big endian floats) and the extents of the domain, whatever characters the field names and the prefix contain. If the fields are saved every epoch the files named are exactly the files on disk, each named once. Every item with values in the file itself declares the number of values it holds.",
  "all lists of field names and prefixes of printable characters, tabs and line breaks in ASCII, all numbers of epochs and all two and three dimensional domains",
  "Escapes and nesting have to be right for every name and every number of epochs; a test looks at one file.",
  ["pf/xdmf.go: WriteXDMF, CreateXDMF, XDMF, XDMFDataItem, XDMFAttribute, XDMFGrid", "pf/fileIO.go: Float64IO.SaveFields"])

p("The tables of the commands are aligned",
  "All lines of a table that comment, attr, info or list prints have the same length, with the frame at the top, below the names of the columns and at the end. Column j of a table of attributes shows the name of attribute j and below it the values with that name.",
  "all databases with identifiers as gopf draws them, all comments and all names and values of attributes",
  "One text that does not fit moves all columns to its right; a test looks at one table.",
  ["cmd/comment.go: printAllComments", "cmd/attr.go: listAttributes", "cmd/info.go: infoCmd, printList, dimString", "cmd/list.go: showSimulationIds", "cmd/util.go: singleLine, closestWhiteSpace"])

p("CSV files give back what was written to them",
  "A reader of CSV gets from the text of a table exactly the records that were written, whatever characters the names of the fields contain: commas, quotes, line breaks, spaces at the start. Two different tables have different texts. LoadCSV returns from a file of SaveCsv the fields in order, with their names and their values to six decimals.",
  "all tables with at least two columns, all names of fields in ASCII, all domains and all values",
  "Quotes are only needed for some characters and positions; a test uses a few harmless names.",
  ["pf/fileIO.go: SaveCsv, LoadCSV", "cmd/export.go: exportCmd"])

if __name__=="__main__":
    with open("/verif/properties.jsonl","w") as f:
        for x in P: f.write(json.dumps(x)+"\n")
    print(len(P))
