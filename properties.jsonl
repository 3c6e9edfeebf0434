{"id": "C01", "title": "Product iterator enumerates the whole index box", "statement": "Calling Next on NewProduct(end) yields every multi-index of the box [0,end0)x...x[0,endk) exactly once, in lexicographic order with the last index fastest, and then yields nil.", "quantifier": "every non-empty list of positive end values, of any length and size", "why_tests_cant": "The number of calls grows with the product of the end values and the dimension is free; tests only try a few shapes.", "anchors": ["pfutil/iterators.go: NewProduct, Product.Next"]}
{"id": "C02", "title": "NodeIdx and Pos are inverse bijections", "statement": "For a 2D or 3D domain, NodeIdx maps the positions inside the domain one-to-one onto 0..N-1, and Pos is its inverse in both directions; every other rank is rejected.", "quantifier": "every domain size with positive extents and every position or node inside it", "why_tests_cant": "Round trips must hold for every extent; the 3D layout mixes the extents and errors only show for unequal ones.", "anchors": ["pfutil/indexPositionConversion.go: NodeIdx, Pos, nodeIdx2, nodeIdx3, pos2, pos3"]}
{"id": "C03", "title": "Wrap is reduction into the periodic cell", "statement": "Wrap replaces every coordinate by the unique one in [0,d) that is congruent to it modulo the domain extent; hence it is idempotent and does not depend on the periodic image it was given.", "quantifier": "every list of coordinates (also far outside the domain, also negative) and every list of positive extents", "why_tests_cant": "Go's % truncates towards zero, so the property depends on sign handling for unboundedly many values.", "anchors": ["pfutil/sliceOperations.go: Wrap"]}
{"id": "C04", "title": "Frequencies are the principal DFT frequencies", "statement": "Freq(i) has every component in (-1/2,1/2], is congruent modulo 1 to index/extent along every axis of the position Pos gives for node i, and different nodes have different frequencies.", "quantifier": "every 2D/3D domain with positive extents and every node", "why_tests_cant": "The half-way (Nyquist) index depends on parity of every extent.", "anchors": ["pfutil/fftWrap.go: FFTWWrapper.Freq, row, col, depth"]}
{"id": "C05", "title": "ConjugateNode is the node of the opposite frequency", "statement": "ConjugateNode(i) is a valid node, applying it twice gives i back, and the frequencies of the two nodes sum to an integer along every axis; they are exact negatives except on Nyquist components, where both are 1/2.", "quantifier": "every 2D/3D domain with positive extents and every node", "why_tests_cant": "Involution and pairing must hold for every extent parity and node.", "anchors": ["pfutil/fftWrap.go: FFTWWrapper.ConjugateNode"]}
{"id": "C06", "title": "Real-field spectrum iterators visit each conjugate pair once", "statement": "UniqueFreqIterator yields exactly one member of every conjugate pair, RealAmplitudeIterator yields exactly the nodes that are their own conjugate, both in increasing order and then -1; so a real field's spectrum is determined by what they visit.", "quantifier": "every 2D/3D domain with positive extents", "why_tests_cant": "Coverage and uniqueness over all nodes of all domains.", "anchors": ["pf/util.go: UniqueFreqIterator.Next, includeFreq, RealAmplitudeIterator.Next", "pfutil/fftWrap.go: ConjugateNode"]}
{"id": "C07", "title": "Forward and inverse transforms are inverse up to N and real fields have conjugate-symmetric spectra", "statement": "IFFT(FFT(x)) divided by the number of nodes is x; for a real field the amplitude at ConjugateNode(i) is the complex conjugate of the amplitude at i.", "quantifier": "every domain size and every complex (resp. real) field", "why_tests_cant": "Statement about all fields and all sizes.", "anchors": ["pfutil/fftWrap.go: NewFFTW, FFT, IFFT, ConjugateNode, Freq"]}
{"id": "C08", "title": "Freq names the mode the transform stores at that node", "statement": "The value FFT leaves at node i is the sum of the field times exp(-2 pi i Freq(i).x) over node positions x as given by Pos, so multiplying by 2 pi i Freq differentiates along the named axis.", "quantifier": "every 2D/3D domain and every field", "why_tests_cant": "Axis order errors are invisible on square/cubic test domains.", "anchors": ["pfutil/fftWrap.go: NewFFTW, Freq, row, col, depth", "pfutil/indexPositionConversion.go"]}
{"id": "C09", "title": "Voronoi labels the nearest seed under periodic distance", "statement": "Voronoi labels every node with the index of a seed point whose minimum-image distance to the node is smallest, the first such seed on ties.", "quantifier": "every domain, every non-empty list of seed points inside the domain", "why_tests_cant": "Quantifies over all seeds, nodes and periodic images.", "anchors": ["pfutil/voronoi.go: Voronoi, pointDistSq, closestPoint"]}
{"id": "C10", "title": "Blur is a periodic normalised average", "statement": "Blur leaves constant fields unchanged, conserves the sum over the grid, never leaves the range of the input values and is linear.", "quantifier": "every grid shape, every kernel with non-negative values that are not all zero, every data array", "why_tests_cant": "Holds for every grid size and kernel width including kernels wider than the grid.", "anchors": ["pfutil/blur.go: Blur, BoxKernel"]}
{"id": "C11", "title": "Draw marks exactly the interior points of the transformed shape", "statement": "Draw writes the given value at exactly the nodes inside the shape after the supplied affine transformation and leaves all other nodes unchanged.", "quantifier": "every grid, every shape, every affine transformation and initial grid content", "why_tests_cant": "Scan order leaks state between pixels; visible only for transformations that mix axes.", "anchors": ["pfutil/shapes.go: Draw, Box, Ball, BoundingBox", "pfutil/affine.go"]}
{"id": "C12", "title": "Affine transformations compose in application order", "statement": "Append gives a transformation that applies the receiver first and then the argument; Identity is neutral; rotations preserve distances and angles add.", "quantifier": "every pair of affine transformations, every point, every angle", "why_tests_cant": "Statement over all real matrices and vectors.", "anchors": ["pfutil/affine.go: Affine.Apply, Append, Identity, Translation, Scaling, RotZ, RotY, RotX"]}
{"id": "C13", "title": "Grid storage behaves as a map from positions to values", "statement": "Get after Set returns the value at the position set and the old value elsewhere; Copy is independent of its source; ToComplex/FromComplex round-trip.", "quantifier": "every 2D/3D grid, all in-range positions, every sequence of Set operations", "why_tests_cant": "Statement over all operation sequences.", "anchors": ["pfutil/grid.go: NewGrid, Copy, Set, Get, ToComplex, FromComplex"]}
{"id": "C14", "title": "Splitting a right-hand side preserves its signed terms", "statement": "SplitOnMany on '+' and '-' returns, for a sum of non-empty operator-free terms, exactly those terms, each with the sign in front of it.", "quantifier": "every number of terms, all term texts without separators, all sign patterns", "why_tests_cant": "Unbounded strings; the breadth-first splitting reorders terms.", "anchors": ["pf/util.go: SplitOnMany, getFirstDelimiter, removeEmpty"]}
{"id": "C15", "title": "Factor order does not matter", "statement": "SortFactors gives the same canonical text for any permutation of the factors of a product, and different multisets of factors give different texts.", "quantifier": "all lists of factor names without '*'", "why_tests_cant": "All permutations of all factor lists.", "anchors": ["pf/util.go: SortFactors"]}
{"id": "C16", "title": "Prefix parsing recovers sign and Laplacian order", "statement": "For a term written as an optional minus, an optional LAP/LAP^2/LAP^4 operator and a body, building the term multiplies the body by the sign and by (-4 pi^2 f^2)^k with the k written, and by 1 without operator.", "quantifier": "all bodies that do not contain one of the operator names, every frequency", "why_tests_cant": "Ordering of the prefix table (LAP^4, LAP^2, LAP) matters for all strings.", "anchors": ["pf/rhsBuilder.go: knownPrefixes, getKnownPrefixes, recursiveRemove, removeKnownPrefixes, ConcreteTerm", "pf/diffOp.go: LaplacianN.Eval"]}
{"id": "C17", "title": "An equation belongs to the field named in its left-hand side", "statement": "EqNumber and the right-hand-side builder identify the field named between 'd' and '/dt' of the left-hand side.", "quantifier": "all field names and right-hand sides", "why_tests_cant": "Regex matching over all strings.", "anchors": ["pf/model.go: EqNumber, AddEquation", "pf/rhsBuilder.go: fieldNameFromLeibniz, Build"]}
{"id": "C18", "title": "A parsed right-hand side evaluates to what was written", "statement": "The function built for an equation evaluates, in Fourier space, to the sum of its terms: products of constants and registered functions times the transform of the named field or of the derived field that is the pointwise product of the named fields with their powers.", "quantifier": "all equations in the supported grammar, all field values and frequencies", "why_tests_cant": "All equations of the grammar.", "anchors": ["pf/rhsBuilder.go: Build, ConcreteTerm, constructFunc, isBilinear", "pf/util.go: GetNonLinearFieldExpressions, DerivedFieldCalcFromDesc, GetPower, GetFieldName"]}
{"id": "C19", "title": "Derived fields are evaluated from the current real-space fields", "statement": "SyncDerivedFields makes every registered derived field hold its defining product (or user function) of the current field values, and evaluating a registered derived field's brick reads that derived field.", "quantifier": "all models, all numbers of derived fields, all field values", "why_tests_cant": "Pointer aliasing between loop iterations appears only with two or more derived fields.", "anchors": ["pf/model.go: SyncDerivedFields, registerDerivedFields, UpdateDerivedFields, RegisterDerivedField"]}
{"id": "C20", "title": "GetRHS is the sum of terms and sources with modifiers applied in registration order", "statement": "GetRHS(eq) returns, per node, the sum of all explicit terms and sources of that equation and then applies exactly the modifiers registered for that equation, in registration order; GetDenum returns the sum of the implicit coefficients.", "quantifier": "all models, equations, frequencies, times", "why_tests_cant": "All registration histories.", "anchors": ["pf/model.go: GetRHS, GetDenum, RegisterRHSModifier, AddSource, AddEquation"]}
{"id": "C21", "title": "Each field evolves by the equation written for it", "statement": "After one step, every field has been advanced using the equation whose left-hand side names it, whatever the order in which fields and equations were added.", "quantifier": "all models and registration orders", "why_tests_cant": "All permutations of equation order.", "anchors": ["pf/model.go: AddEquation, AddField, GetRHS", "pf/euler.go: Step", "pf/rk4.go: Step"]}
{"id": "C22", "title": "Semi-implicit Euler step solves its documented scheme", "statement": "One Euler step gives fields with Fourier amplitudes (y + dt N(y)) / (1 - dt A), every right-hand side evaluated at the fields at the start of the step.", "quantifier": "all models, fields, time steps", "why_tests_cant": "Coupled models of any number of fields; in-place update order matters.", "anchors": ["pf/euler.go: Euler.Step"]}
{"id": "C23", "title": "RK4 step is the documented four-stage scheme", "statement": "One RK4 step gives y + dt(k1+2k2+2k3+k4)/6 with the semi-implicit stages, and simulated time equals the number of steps times dt.", "quantifier": "all models, fields, time steps, step counts", "why_tests_cant": "All step counts and coupled fields.", "anchors": ["pf/rk4.go: RK4.Step, PrepareNextCorrection, firstCorrection, correction, Propagate, GetTime"]}
{"id": "C24", "title": "Conserved dynamics conserve the mean", "statement": "If every term of an equation is a Laplacian or divergence (vanishes at zero frequency), stepping leaves the spatial average of that field unchanged for ever, also with a modal filter that is 1 at zero frequency and with conservative noise.", "quantifier": "every number of steps, every time step, every field", "why_tests_cant": "Infinite histories.", "anchors": ["pf/euler.go", "pf/rk4.go", "pf/diffOp.go", "pf/noise.go: ConservativeNoise", "pf/gradientCalculator.go: DivGrad"]}
{"id": "C25", "title": "Solver time and callbacks", "statement": "Solve(nepochs, nsteps) performs nepochs*nsteps steps, advances time by nepochs*nsteps*dt, calls every callback once per epoch, in order, with epoch numbers StartEpoch+0,1,..., after nsteps steps of that epoch, and consecutive Solve calls behave like one.", "quantifier": "all epoch and step counts, all steppers", "why_tests_cant": "Unbounded epochs.", "anchors": ["pf/solver.go: Solve, Propagate, AddCallback, SetStepper", "pf/euler.go: Propagate", "pf/rk4.go: Propagate"]}
{"id": "C26", "title": "Dimer bookkeeping of the string-dimer dynamics", "statement": "The orientation vector keeps unit norm at every step, the dimer length is non-increasing in time, never drops below the minimum and equals the minimum from RequiredDimerLengthTime on; shifting to both ends and back restores the fields.", "quantifier": "all step counts, all models, all initial orientations that are non-zero", "why_tests_cant": "Unbounded steps.", "anchors": ["pf/sdd.go: Step, DimerLength, RequiredDimerLengthTime, ShiftFieldsAlongDimer, Init, SetInitialOrientation"]}
{"id": "C27", "title": "Rank-one linear solve", "statement": "The Sherman-Morrison helper returns the exact solution of (D + u v^T) x = b whenever D has no zero entry and 1 + v^T D^-1 u is not zero.", "quantifier": "all sizes and vectors", "why_tests_cant": "All dimensions and values.", "anchors": ["pf/sdd.go: diagonalShermannMorrison.dot, householderDenum"]}
{"id": "C28", "title": "Householder reflection", "statement": "The Householder transformation applied to the force reverses its component along the dimer, leaves the orthogonal components, and is an involution for a unit orientation.", "quantifier": "all sizes and vectors", "why_tests_cant": "All dimensions and values.", "anchors": ["pf/sdd.go: householder"]}
{"id": "C29", "title": "SDD uses each field's own force", "statement": "A dimer step moves every field by the reflected, interpolated force that this field's own equation gives at both dimer ends.", "quantifier": "all multi-field models", "why_tests_cant": "Offset errors only show with two or more fields.", "anchors": ["pf/sdd.go: Step"]}
{"id": "C30", "title": "Implicit Euler vector packing and residual", "statement": "fields2vec and vec2fields are inverse on real fields; a zero of the residual handed to the nonlinear solver is a field satisfying the exponential-integrator equation with all terms at the new time.", "quantifier": "all models, field counts and node counts", "why_tests_cant": "All sizes.", "anchors": ["pf/implicitEuler.go: fields2vec, vec2fields, updateEquation, nonlinearIntegral, Step"]}
{"id": "C31", "title": "Database isolates simulations", "statement": "Saving fields, comments, attributes or time series for one simulation never changes what is loaded, listed or exported for another simulation, and what is loaded back is what was saved last for that (simulation, time step).", "quantifier": "every history of database operations over any number of simulations", "why_tests_cant": "All histories of operations.", "anchors": ["pf/database.go: FieldDB.SaveFields, Load, LoadLast, Comment, SetAttr, SetTextAttr, TimeSeries, initialize"]}
{"id": "C32", "title": "Database joins positions correctly", "statement": "Joining field values to the positions table on the documented key gives for each value the position of its node.", "quantifier": "all domains and save histories", "why_tests_cant": "All domains, including one-node domains, and repeated saves.", "anchors": ["pf/database.go: populatePositionsTable, positionTableIsPopulated, insertRealPart, Load"]}
{"id": "C33", "title": "A crash leaves the database loadable at a complete time step", "statement": "If the process dies at any point during SaveFields, LoadLast still returns a time step for which all fields are present.", "quantifier": "every crash point in every save history", "why_tests_cant": "All crash points.", "anchors": ["pf/database.go: SaveFields, insertRealPart, LoadLast"]}
{"id": "C34", "title": "Database rejects fields of another domain", "statement": "SaveFields with a domain that is not the one whose positions are stored in the file panics before any field value is written; with the stored domain it succeeds.", "quantifier": "all pairs of domains and every state of the database file", "why_tests_cant": "All pairs of domains, also of different dimension, and every earlier history of the file.", "anchors": ["pf/database.go: domainSizeOk, insertRealPart, SaveFields"]}
{"id": "C35", "title": "Binary field files round-trip", "statement": "LoadFloat64 of a file written by SaveFloat64 returns the same values bit for bit, in the same order, for any number of values.", "quantifier": "all lists of 64-bit patterns", "why_tests_cant": "All values and lengths.", "anchors": ["pf/fileIO.go: SaveFloat64, LoadFloat64"]}
{"id": "C36", "title": "Grey-scale images map the field range monotonically onto 0..255", "statement": "RealPartAsUint8 maps every value between min and max to 0..255, monotonically, min to 0 and max to 255; so pixel order never inverts value order.", "quantifier": "all fields and all ranges with min < max", "why_tests_cant": "All values.", "anchors": ["pf/util.go: RealPartAsUint8", "pf/fileIO.go: Uint8IO"]}
{"id": "C37", "title": "CSV field files identify each node", "statement": "SaveCsv writes one row per node with the node's coordinates and the values of all fields in column order; LoadCSV returns the values in node order; numbers survive to six decimals.", "quantifier": "all domains, all numbers of fields", "why_tests_cant": "All sizes.", "anchors": ["pf/fileIO.go: SaveCsv, LoadCSV, CsvIO"]}
{"id": "C38", "title": "XDMF index references exactly the files written", "statement": "CreateXDMF references, for step i and field f, exactly the file name Float64IO uses for epoch i and field f, each once.", "quantifier": "all field lists, prefixes and step counts", "why_tests_cant": "All counts.", "anchors": ["pf/xdmf.go: CreateXDMF", "pf/fileIO.go: Float64IO"]}
{"id": "C39", "title": "Equivalent Miller indices are the signed permutations", "statement": "EquivalentMiller(m) returns exactly the signed permutations of the indices, each once; NumEquivalent3D agrees with its length.", "quantifier": "all integer Miller indices of any rank", "why_tests_cant": "All integers, zeros and repeated magnitudes.", "anchors": ["pfc/miller.go: EquivalentMiller, NumEquivalent2D, NumEquivalent3D"]}
{"id": "C40", "title": "Hyper-octant explorer visits every sign combination once", "statement": "HyperOctantExplorer yields each of the 2^n sign patterns exactly once and then nil.", "quantifier": "every dimension n and starting point", "why_tests_cant": "Exponential number of calls.", "anchors": ["pfc/initialGuessExplorer.go: HyperOctantExplorer.Next"]}
{"id": "C41", "title": "Reciprocal cell is dual to the direct cell", "statement": "The reciprocal vectors satisfy a_i . b_j = 2 pi delta_ij; CellChange gives the first-order change of the reciprocal cell under a change of the cell.", "quantifier": "all invertible cells of dimension 2 and 3 and all changes", "why_tests_cant": "All real matrices.", "anchors": ["pfc/lattice.go: Cell.Reciprocal, ReciprocalCell.CellChange, FCC, BCC, SC3D, Triangular2D"]}
{"id": "C42", "title": "Mode-expansion polynomial equals the free energy", "statement": "The energy polynomial built by the mode solver evaluates to the spatial average of the free energy of the mode expansion, and its gradient and Hessian are its derivatives.", "quantifier": "all mode amplitudes, powers and Miller families", "why_tests_cant": "All amplitudes and powers.", "anchors": ["pfc/mode_solver.go: power2key, build, mergeTerms, Func, Grad, Hess"]}
{"id": "C43", "title": "Ideal-mixture free energy derivatives", "statement": "Deriv of the ideal energy is the derivative of Eval of the same order, and the split into linear and nonlinear parts used by the model terms adds up to Eval.", "quantifier": "all real densities, prefactors and derivative orders", "why_tests_cant": "All reals.", "anchors": ["pfc/ideal.go: IdealMix.Eval, Deriv", "pf/pairCorrelationTerm.go: IdealMixtureTerm"]}
{"id": "C44", "title": "Pair correlation function is a bounded peak envelope", "statement": "Reciprocal space pair correlation Eval is in [0,1] for non-negative effective temperature, is at least every single peak, and equals one of them.", "quantifier": "all peak lists, wave numbers and temperatures", "why_tests_cant": "All reals and list lengths.", "anchors": ["pfc/pairCorrelation.go: ReciprocalSpacePairCorrelation.Eval"]}
{"id": "C45", "title": "Elastic tensors have the symmetries of linear elasticity", "statement": "Isotropic, cubic and Voigt-built stiffness tensors have minor and major symmetries and rotation by a rotation matrix preserves the symmetries and contraction.", "quantifier": "all elastic constants, all index quadruples, all rotations", "why_tests_cant": "All real constants and orthogonal matrices.", "anchors": ["elasticity/rank4.go: Isotropic, CubicMaterial, FromFlatVoigt, Rotate, ContractLast, RotationMatrix"]}
{"id": "C46", "title": "Mechanical equilibrium of computed displacements", "statement": "The computed displacement of a mode satisfies the equilibrium equation K u = f for that frequency, and is zero at zero frequency; the strain computed from displacement is symmetric.", "quantifier": "all frequencies, stiffness tensors and forces for which the matrix is invertible", "why_tests_cant": "All reals.", "anchors": ["elasticity/linearElasticity.go: DisplacementMatrixElement, Displacements, Strain", "elasticity/effectiveForce.go: Get"]}
{"id": "C47", "title": "Field-range transform is a bijection onto the open interval", "statement": "BoundTransform Forward maps every real into (Min,Max) and Backward inverts it.", "quantifier": "all reals and all Min < Max", "why_tests_cant": "All reals.", "anchors": ["pf/boundTransform.go"]}
{"id": "C48", "title": "Modal filters are low-pass", "statement": "The filter functions are 1 at zero frequency, between 0 and 1, and non-increasing in the frequency; applying a filter leaves the mean unchanged.", "quantifier": "all frequencies and orders", "why_tests_cant": "All reals.", "anchors": ["pf/vandeven.go", "pf/util.go: ApplyModalFilter", "pf/spectralViscosity.go"]}
{"id": "C49", "title": "Volume-conserving multiplier keeps the total", "statement": "With the volume-conserving term, the total of the constrained field over the domain stays the same from step to step.", "quantifier": "all fields, right-hand sides, numbers of steps and indicators with a non-zero average", "why_tests_cant": "All fields.", "anchors": ["pf/volumeConserving.go"]}
{"id": "C50", "title": "Command-line tables show each simulation's own data", "statement": "The list, info, comment and attribute commands print for each simulation its own comment and attributes, completely.", "quantifier": "all databases and comment texts", "why_tests_cant": "All texts and lengths.", "anchors": ["cmd/list.go: showComments", "cmd/comment.go: printAllComments", "cmd/util.go: closestWhiteSpace", "cmd/attr.go: listAttributes, listSingleAttribute", "cmd/info.go: printList"]}
{"id": "C51", "title": "Exported tables align samples with time steps", "statement": "Exporting time series or field data gives one row per time step/node with each value in the column of its name, whatever subset of samples was stored.", "quantifier": "all sets of stored samples", "why_tests_cant": "All subsets.", "anchors": ["cmd/export.go: exportTimeseries, exportFieldData, allTimeSteps, largestTimestep"]}
{"id": "C52", "title": "Plot commands select the requested data", "statement": "Line plots select exactly the rows whose fixed coordinates match; contour plots show the value of each node at its coordinates.", "quantifier": "all CSV files written by SaveCsv, all requested lines", "why_tests_cant": "All sizes.", "anchors": ["cmd/lineplot.go: numSet, includeRow, absissaIndex, lineData", "cmd/contour.go: NewHeatMapData, HeatMapData.Z, dataRange"]}
{"id": "C53", "title": "Field files are laid out as the XDMF index declares", "statement": "The value of a node stands in the binary file at the place where a reader of the XDMF index, which lists the extents in the order of the domain size with the last one varying fastest, expects the node with these coordinates.", "quantifier": "all domains and nodes", "why_tests_cant": "All extents.", "anchors": ["pf/xdmf.go: CreateXDMF", "pf/fileIO.go: SaveFloat64", "pfutil/indexPositionConversion.go: NodeIdx"]}
{"id": "C54", "title": "Predefined cells generate the lattices they are named after", "statement": "The integer combinations of the cell vectors of SC3D, FCC, BCC and Triangular2D are the points of the simple cubic, face centred, body centred and triangular lattice, and Volume is the volume per lattice point.", "quantifier": "all lattice parameters, all points of space", "why_tests_cant": "Infinitely many points and all real parameters.", "anchors": ["pfc/lattice.go: SC3D, FCC, BCC, SC2D, Triangular2D, Cell.Volume"]}
{"id": "C55", "title": "Plane density of the simple cubic lattice", "statement": "CubicUnitCellDensity of a Miller index without common divisor is the number of lattice points per area in the planes with this index, 1/|hkl|, independent of order and sign of the components.", "quantifier": "all Miller indices without common divisor", "why_tests_cant": "All integers.", "anchors": ["pfc/lattice.go: CubicUnitCellDensity"]}
{"id": "C56", "title": "Force of a stiffness perturbation is the documented one", "statement": "PerturbedForce returns at every frequency, for each component i, - sum_{jkl} dC_ijkl 2 pi i f_j FT((misfit_kl - strain_kl) shape), as documented.", "quantifier": "all tensors, misfits, displacements, shapes and frequencies", "why_tests_cant": "All real inputs.", "anchors": ["elasticity/perturbation.go: PerturbedForce"]}
{"id": "C57", "title": "Rotate2D moves values about the centre", "statement": "Rotate2D gives every node the old value at the position turned by the angle about the centre of the grid, truncated to grid coordinates and wrapped periodically; no new values appear and full turns change nothing.", "quantifier": "all 2D grids, contents and angles", "why_tests_cant": "All real angles and sizes.", "anchors": ["pfutil/grid.go: Rotate2D"]}
{"id": "C58", "title": "Slice operations act element by element", "statement": "ElemwiseAdd, ElemwiseMul and DivRealScalar act on every element, MaxReal and MinReal return the largest and smallest real part, CmplxEqualApprox is true exactly if the lengths agree and all parts differ by at most the tolerance, and is symmetric.", "quantifier": "all slices, scalars and tolerances", "why_tests_cant": "All lengths and values.", "anchors": ["pfutil/sliceOperations.go: ElemwiseAdd, ElemwiseMul, DivRealScalar, MaxReal, MinReal, CmplxEqualApprox"]}
{"id": "C59", "title": "PFC terms are functional derivatives of their energies", "statement": "The ideal-mixture term and the pair-correlation term are the functional derivatives of their GetEnergy, in implicit and explicit form, and moving a field along the sum of both terms with the Laplacian never increases the total energy.", "quantifier": "all real fields, directions, prefactors, correlation functions and grids", "why_tests_cant": "All real fields and directions.", "anchors": ["pf/pairCorrelationTerm.go: PairCorrlationTerm, ExplicitPairCorrelationTerm, IdealMixtureTerm, GetEnergy"]}
{"id": "C60", "title": "Spectral viscosity only damps", "statement": "The spectral viscosity term leaves modes below a third of the threshold alone and makes no mode grow; its interpolant rises from 0 to 1 at the threshold.", "quantifier": "all frequencies, thresholds, powers, strengths and time steps", "why_tests_cant": "All real frequencies and thresholds.", "anchors": ["pf/spectralViscosity.go: SpectralViscosity, interpolant"]}
{"id": "C61", "title": "Real fields stay real", "statement": "A field is real exactly when amplitudes at ConjugateNode are conjugates. Stepping a model whose derived fields are real and whose terms, sources and modifiers map amplitudes of real fields to amplitudes of real fields keeps all fields real, for Euler and RK4, any number of steps and any filter; the terms of the package have this property.", "quantifier": "all domains, models, fields, time steps, step counts and filters", "why_tests_cant": "All inputs and arbitrarily long histories.", "anchors": ["pf/euler.go: Step", "pf/rk4.go: Step", "pfutil/fftWrap.go: ConjugateNode", "pf/rhsBuilder.go: ConcreteTerm", "pf/gradientCalculator.go", "pf/chargeTransport.go", "pf/noise.go", "pf/tensorialHessian.go", "pf/sourceTerm.go"]}
{"id": "C62", "title": "Gradient based terms are the derivatives they name", "statement": "GradientCalculator returns the derivative of the trigonometric interpolant at every node; LAP is the sum of its second derivatives; DivGrad contributes div(F grad u), Advection - v . grad u, WeightedLaplacian F LAP u, SquaredGradient factor |grad u|^2.", "quantifier": "all domains, fields, weight functions, velocities and positions of the derived fields in the model", "why_tests_cant": "All real fields and grids.", "anchors": ["pf/gradientCalculator.go: GradientCalculator, DivGrad, WeightedLaplacian", "pf/advection.go: Advection", "pf/squareGradientTerm.go: SquaredGradient", "pf/diffOp.go: LaplacianN"]}
{"id": "C63", "title": "Charge transport obeys Poisson's equation and Ohm's law", "statement": "ChargeTransport contributes - div J and Current returns J, with J = sigma (E_ext - grad phi) and phi the solution of Poisson's equation for the charge density; conductivities are read as a symmetric tensor in the documented order; in a uniform isotropic conductor every amplitude decays.", "quantifier": "all densities, external fields, conductivities and 2D/3D domains", "why_tests_cant": "All real fields and grids.", "anchors": ["pf/chargeTransport.go: ChargeTransport, Construct, Current, voigtIndex"]}
{"id": "C64", "title": "A source adds its strength at its position", "statement": "A source at a node adds f(t) at that node and nothing elsewhere; at any position it adds f(t) in total.", "quantifier": "all domains, nodes, positions, times and source functions", "why_tests_cant": "All positions and functions of time.", "anchors": ["pf/sourceTerm.go: NewSource, Source.Eval"]}
{"id": "C65", "title": "TensorialHessian is K_ij d2/dx_i dx_j", "statement": "The value at every frequency is - 4 pi^2 sum_ij K_ij f_i f_j, so multiplying with the amplitudes applies sum_ij K_ij d2/dx_i dx_j; the identity gives the Laplacian.", "quantifier": "all tensors, frequencies, fields and 2D/3D domains", "why_tests_cant": "All real tensors and frequencies.", "anchors": ["pf/tensorialHessian.go: TensorialHessian, Construct, GetCoeff"]}
{"id": "C66", "title": "NegativeValuePenalty is the derivative of its function", "statement": "Penalty is the derivative of Prefactor (|x|^Exponent - x^Exponent): zero for positive values and - 2 Prefactor Exponent x^(Exponent-1) for negative ones.", "quantifier": "all prefactors, exponents and values", "why_tests_cant": "All reals and exponents.", "anchors": ["pf/negative_value_penalty.go: Penalty"]}
{"id": "C67", "title": "Fits of elastic properties report the elastic constants of the modes", "statement": "MatchElasticProp minimises, with the right gradient, the squared deviation of the requested moduli, and reports for exactly the requested properties the Voigt averages of the elastic tensor of its modes; PeakWidths turns the factors into widths.", "quantifier": "all reciprocal cells, modes, targets, factors and amplitudes", "why_tests_cant": "Real-valued inputs in any number; the gradient must be right everywhere.", "anchors": ["pfc/mode_solver.go: MatchElasticProp, BulkModWeight, ShearModWeight, AreaModulusWeight, XYPlaneShearWeight, PeakWidths"]}
{"id": "C68", "title": "Corners of the box in scaled coordinates", "statement": "CornersScaledCrd returns for every corner of the box [0, n0] x [0, n1] (x [0, n2]) one column with its coordinates in the basis of the cell vectors, and the range BuildCrystal derives from them covers every cell that lies in the box.", "quantifier": "all invertible 2D and 3D cells and all extents", "why_tests_cant": "Real valued cells and all extents.", "anchors": ["pfc/periodicFieldInit.go: CornersScaledCrd, BuildCrystal"]}
{"id": "C69", "title": "BuildCrystal puts one unit cell at every lattice point", "statement": "When the edges of the grid are lattice vectors, BuildCrystal places its basis at every lattice point of the periodic grid exactly once.", "quantifier": "all invertible cells and all grids whose edges are lattice vectors", "why_tests_cant": "Real valued cells, arbitrarily large grids.", "anchors": ["pfc/periodicFieldInit.go: BuildCrystal, isInsideBox", "pfc/lattice.go: FCC, BCC, SC3D, SC2D, Triangular2D, Cell.Volume"]}
{"id": "C70", "title": "BuildCrystal paints the kernel around every atom", "statement": "After BuildCrystal a node holds the value of the kernel at the distance of the last painted offset within the cutoff of an atom that falls on it (periodically), or its old value if there is none; GaussianKernel and CircleKernel have the documented shape.", "quantifier": "all cells, bases, kernels, cutoffs, grids and previous contents", "why_tests_cant": "Real valued positions; any number of overlapping atoms.", "anchors": ["pfc/periodicFieldInit.go: BuildCrystal, GaussianKernel, CircleKernel"]}
{"id": "C71", "title": "TiltGB makes a symmetric tilt boundary", "statement": "TiltGB replaces the nodes with first index below half of the extent by the crystal turned by angle/2 around the centre and the others by the crystal turned by -angle/2, up to rounding to nodes; values are only moved, angle 0 changes nothing, and grids that are not two-dimensional panic.", "quantifier": "all 2D grids, contents and angles", "why_tests_cant": "All real angles and fields.", "anchors": ["pfc/periodicFieldInit.go: TiltGB"]}
{"id": "C72", "title": "TwoPhaseCorrFunc interpolates between two correlation functions", "statement": "Evaluate returns X(c) C1 + (1 - X(c)) C2 in real space, where C1 and C2 are the inverse transforms of the two correlation functions and X is the smooth step Indicator with derivative IndicatorDeriv; EvaluateFT returns its transform, which in a pure phase is the correlation function of that phase; the concentration passed in is not changed.", "quantifier": "all 2D/3D domains, correlation functions and concentrations", "why_tests_cant": "All real fields and functions.", "anchors": ["pfc/twoPhaseCorrFunc.go: Indicator, IndicatorDeriv, Dot, Evaluate, EvaluateFT"]}
{"id": "C73", "title": "The elastic term of a simulation is minus the derivative of the elastic energy", "statement": "The term HomogeneousModulusLinElast adds to an evolution equation is, in real space, minus the derivative of the elastic energy of the body in mechanical equilibrium (misfit strain times Indicator of the field, uniform stiffness) with respect to the field.", "quantifier": "all grids, stiffness tensors, misfit strains, fields and directions of change", "why_tests_cant": "Real fields; the energy is defined by solving the equations of equilibrium.", "anchors": ["pf/homoLinElast.go: Indicator, IndicatorDeriv, HomogeneousModulusLinElast.Construct, Freq, Force, OnStepFinished, NewHomogeneousModolus"]}
{"id": "C74", "title": "HomogeneousModulusEnergy is the equilibrium energy per volume of inclusion", "statement": "HomogeneousModulusEnergy returns the elastic energy of mechanical equilibrium divided by the volume of the inclusions; it lies between zero and the energy density of the misfit strain, equals the latter for a body that is all inclusion, and the indicator passed in is restored.", "quantifier": "all grids, stiffness tensors, misfit strains and indicator fields", "why_tests_cant": "Real data, arbitrary arrangements of inclusions.", "anchors": ["elasticity/linearElasticity.go: HomogeneousModulusEnergy"]}
{"id": "C75", "title": "Strain energy of an ellipsoidal inclusion", "statement": "Ellipsoid is 1 inside the ellipsoid around the centre of the box and 0 outside, and CalculateStrainEnergy returns the elastic energy of its equilibrium, with the stiffness of the inclusion inside and of the matrix outside, divided by the volume of the ellipsoid.", "quantifier": "all half axes, box sizes, misfit strains and Voigt matrices", "why_tests_cant": "Real data and arbitrarily large boxes.", "anchors": ["elasticity/shapes.go: Ellipsoid", "elasticity/strainEnergyCLI.go: CalculateStrainEnergy"]}
{"id": "C76", "title": "Terms that bring their own derived fields work with them", "statement": "After Advection.PrepareModel the brick GetName shows, after every update of the derived fields, the scalar product of the velocity fields and the gradient of the field at their present values, whatever was registered before and is registered later under other names, and Construct returns minus it; after DivGrad.PrepareModel every flux is F times a gradient component. Several such terms in one model do not disturb each other.", "quantifier": "all histories of registrations, names, fields and contents", "why_tests_cant": "Every history of registrations and every choice of names.", "anchors": ["pf/advection.go: Advection.GradName, GetName, AllFieldsExist, PrepareModel, Construct", "pf/gradientCalculator.go: DivGrad.FuncName, GradName, PrepareModel, Construct, ToDerivedField", "pf/model.go: RegisterDerivedField, SyncDerivedFields"]}
{"id": "C77", "title": "Noise has the documented strength and independent components", "statement": "The components of a conservative noise are independent fields that Construct finds; a field driven by WhiteNoise accumulates in the time T a variance 2 Strength T, uncorrelated between nodes.", "quantifier": "all grids, time steps, numbers of steps and strengths; all distributions of uncorrelated standardised numbers", "why_tests_cant": "Statements about expectation values.", "anchors": ["pf/noise.go: WhiteNoise.Generate, ConservativeNoise.GetCurrentName, CurrentFieldsAreRegistered, RequiredDerivedFields, NewConservativeNoise", "pf/euler.go: Step"]}
{"id": "C78", "title": "Init accepts exactly the implicit terms that do not depend on fields", "statement": "Init returns without panic iff no term registered with RegisterImplicitTerm depends on a field; terms that only depend on the frequency, the time and constants are accepted in two and three dimensions.", "quantifier": "all terms, bricks and grids", "why_tests_cant": "The check probes one perturbation; terms are arbitrary functions.", "anchors": ["pf/model.go: Init, NumNodes", "pf/userDefinedTerm.go: isImplicit, perturbedBrick.Get", "pfutil/sliceOperations.go: CmplxEqualApprox"]}
{"id": "C79", "title": "Setting up a solver", "statement": "NewSolver accepts a model iff Init does and every field has as many nodes as the domain; it starts at time 0 with the Euler scheme and the given time step. SetStepper changes the scheme of a solver (euler or rk4, others panic) and nothing else: time, filter, callbacks and monitors stay.", "quantifier": "all models, domains, time steps and histories of a solver", "why_tests_cant": "Every history of steps and calls.", "anchors": ["pf/solver.go: NewSolver, SetStepper, AddCallback, AddMonitor", "pf/euler.go: GetTime, SetFilter", "pf/rk4.go: GetTime, SetFilter"]}
{"id": "C80", "title": "Fields and scalars as values", "statement": "NewField without data is zero, with data it uses the caller's slice, and a wrong length or a reserved prefix panics; Field.Copy is a deep copy; Scalar.SetFloat sets the value of a scalar.", "quantifier": "all names, contents and writes", "why_tests_cant": "Aliasing for all states of the memory.", "anchors": ["pf/model.go: NewField, Field.Copy, Field.Get, NewScalar, Scalar.SetFloat, Scalar.Get"]}
{"id": "C81", "title": "A model may be declared in any order", "statement": "When AddField comes before the first AddEquation and RegisterFunction, the calls AddScalar, AddSource, AddEquation, RegisterFunction and Register*Term may come in any order: after Init every right-hand side evaluates to the meaning of the text of its equation, with the constants, functions and terms declared under these names.", "quantifier": "all sequences of calls and all equations of the language", "why_tests_cant": "Every permutation and length of the set-up of a model.", "anchors": ["pf/model.go: AddField, AddScalar, AddEquation, AddSource, RegisterFunction, RegisterImplicitTerm, RegisterExplicitTerm, RegisterMixedTerm, registerTerm, Init", "pf/rhs.go: Build"]}
{"id": "C82", "title": "The last registration of a term counts", "statement": "IsImplicitTerm, IsExplicitTerm and IsMixedTerm are true exactly for the names registered with that kind, and after Init a name in an equation is evaluated by the term that was registered last under it.", "quantifier": "all sequences of calls", "why_tests_cant": "Every history of registrations.", "anchors": ["pf/model.go: RegisterImplicitTerm, RegisterExplicitTerm, RegisterMixedTerm, registerTerm, IsImplicitTerm, IsExplicitTerm, IsMixedTerm, Init", "pf/rhs.go: Build"]}
{"id": "C83", "title": "Sources, Init and Summarize follow the calls", "statement": "The sources of an equation are those given to AddSource with its number, which panics exactly when there is no such equation; Init may be called again without effect; Summarize prints one line for each equation with its number, text and the numbers of its functions, and says that the model is not initialised exactly when equations were added since Init.", "quantifier": "all sequences of calls", "why_tests_cant": "Every history of calls.", "anchors": ["pf/model.go: AddSource, AddEquation, Init, Summarize"]}
{"id": "C84", "title": "Moving a whole simulation moves its result", "statement": "If the initial fields, the sources and the position dependent materials of a simulation are moved periodically by a vector of nodes, the fields after any number of steps of Euler or RK4 are the moved ones, and the same simulations stop with an error. Written terms, SquaredGradient, DivGrad, Advection, WeightedLaplacian, ChargeTransport, TensorialHessian, sources at arbitrary points and the derived fields they use are of this kind.", "quantifier": "all two-dimensional and cubic domains, vectors, models, fields, time steps, filters and numbers of steps", "why_tests_cant": "Real fields, every vector and every model.", "anchors": ["pf/euler.go: Euler.Step, Propagate", "pf/rk4.go: RK4.Step, Propagate", "pf/model.go: GetRHS, GetDenum, SyncDerivedFields", "pf/rhsBuilder.go: ConcreteTerm", "pf/sourceTerm.go: Source.Eval", "pf/squareGradientTerm.go: Construct", "pf/gradientCalculator.go: Calculate, DivGrad.Construct, WeightedLaplacian.Construct", "pf/advection.go: Construct", "pf/chargeTransport.go: Construct", "pf/tensorialHessian.go: Construct"]}
{"id": "C85", "title": "Mirrors and exchanged axes", "statement": "Models made of written terms (powers of the Laplacian of fields and of functions of the fields), WeightedLaplacian and sources at nodes have no preferred direction: mirroring the initial fields and sources along an axis, or exchanging two axes of equal extent, gives the mirrored or exchanged result after any number of steps of Euler or RK4.", "quantifier": "all two-dimensional and cubic domains, axes, models, fields, time steps, filters and numbers of steps", "why_tests_cant": "Real fields and every such model.", "anchors": ["pf/euler.go: Euler.Step, Propagate", "pf/rk4.go: RK4.Step, Propagate", "pf/rhsBuilder.go: ConcreteTerm", "pf/diffOp.go: Laplacian.Eval", "pf/gradientCalculator.go: WeightedLaplacian.Construct", "pf/sourceTerm.go: Source.Eval"]}
{"id": "C86", "title": "Uniform fields stay uniform and follow the ordinary differential equation", "statement": "In a model that does not depend on the position, fields that have one value each keep one value each under Euler and RK4. For written equations these values are the steps of the semi-implicit Euler scheme of the ordinary differential equation that is left when every Laplacian is dropped.", "quantifier": "all two-dimensional and cubic domains, models, values, time steps, filters and numbers of steps", "why_tests_cant": "Real values and every such model.", "anchors": ["pf/euler.go: Euler.Step, Propagate", "pf/rk4.go: RK4.Step, Propagate", "pf/model.go: GetRHS, GetDenum, SyncDerivedFields", "pf/rhsBuilder.go: ConcreteTerm"]}
{"id": "C87", "title": "A declared model is integrated as it is written", "statement": "For a model declared by the calls of the API, the steppers evaluate, at every node of the Fourier domain, the sum of the terms as they are written in the equation of a field, with the constants, functions, registered terms and sources declared for it. An Euler step changes the first field by (1 - dt a)(Y' - Y) = dt (right-hand side), where a is the coefficient of the implicit part, and RK4 uses the written right-hand sides of all fields at its four stages.", "quantifier": "all languages, sequences of calls, equations of the grammar, domains, fields, values, times and nodes", "why_tests_cant": "Every model that can be written and every state of its fields.", "anchors": ["pf/model.go: AddEquation, Init, GetRHS, GetDenum, SyncDerivedFields", "pf/rhs.go: Build", "pf/util.go: DerivedFieldCalcFromDesc", "pf/euler.go: Euler.Step", "pf/rk4.go: RK4.Step"]}
{"id": "C88", "title": "Steady states are those of the written equations", "statement": "An Euler step leaves all fields as they are exactly when the right-hand side of every equation, as written and with its sources, is zero; Euler and RK4 then keep the fields for any number of steps.", "quantifier": "all declared models, domains, fields, non-zero time steps without vanishing denominators, and numbers of steps", "why_tests_cant": "Every model, state and number of steps.", "anchors": ["pf/euler.go: Euler.Step, Propagate", "pf/rk4.go: RK4.Step, Propagate", "pf/model.go: GetRHS, GetDenum"]}
{"id": "C89", "title": "Linear equations are integrated mode by mode with implicit Euler", "statement": "In a model whose equations are sums of products of constants, powers of the Laplacian and the field of the equation itself, the right-hand side is a symbol s(k) times the Fourier amplitude of the field, and any number of steps of Euler or of RK4 turns every amplitude Y into Y' with (1 - dt s)^steps Y' = Y, whatever the other fields are. RK4 is therefore of first order for such models, not of fourth.", "quantifier": "all linear models that can be written, domains, fields, time steps, nodes of the Fourier domain and numbers of steps", "why_tests_cant": "Every linear model, real values and any number of steps.", "anchors": ["pf/euler.go: Euler.Step, Propagate", "pf/rk4.go: RK4.Step, Propagate", "pf/rhs.go: Build", "pf/rhsBuilder.go: isBilinear, ConcreteTerm", "pf/util.go: GetNonLinearFieldExpressions"]}
{"id": "C90", "title": "Linear models are stable for every time step", "statement": "If the symbol of a linear equation has nowhere a real part above -c <= 0, the sum of the squares of the field shrinks at least by (1 + dt c)^2 in every step of Euler or RK4, whatever the size of the time step (with c = 0 it never grows). If every term carries a Laplacian, the average of the field is kept.", "quantifier": "all linear models that can be written, domains, fields, positive time steps and numbers of steps", "why_tests_cant": "Every linear model, real values and any number of steps.", "anchors": ["pf/euler.go: Euler.Step, Propagate", "pf/rk4.go: RK4.Step, Propagate", "pf/model.go: GetRHS, GetDenum"]}
{"id": "C91", "title": "Linear models converge to the solution of their equations when the time step shrinks", "statement": "For a linear model whose symbols are real and bounded by A, N steps of size T/N with Euler or RK4 end within 2 (A T)^2 exp(2 A T)/N, relative to the size of the initial field, of the solution at time T of the differential equations as they are written. The result at a fixed time therefore tends to the solution as the number of steps grows. A solution exists for every initial field.", "quantifier": "all linear models that can be written with real symbols, domains, initial fields, times T and numbers of steps", "why_tests_cant": "Convergence is a limit over infinitely many runs, and the solution is a real function.", "anchors": ["pf/euler.go: Euler.Step, Propagate", "pf/rk4.go: RK4.Step, Propagate", "pf/solver.go: Solver.Propagate"]}
{"id": "C92", "title": "Which terms of an equation are implicit, and which values an Euler step uses", "statement": "Of a declared equation exactly the products whose only field is the field of the left-hand side, without exponent, together with registered implicit terms and the linear part of mixed terms, are treated implicitly; everything else, with the sources, is the explicit part X. An Euler step turns every amplitude Y into (Y + dt X)/(1 - dt A). Powers and products are formed from the values before the step; a field that stands alone has its new value in the equations of later fields and its old value otherwise.", "quantifier": "all languages, sequences of calls, equations of the grammar, domains, fields, values, times and nodes", "why_tests_cant": "Every model that can be written and every state of its fields; names can contain one another.", "anchors": ["pf/rhs.go: Build", "pf/rhsBuilder.go: isBilinear, ConcreteTerm", "pf/euler.go: Euler.Step", "pf/model.go: GetRHS, GetDenum, SyncDerivedFields"]}
{"id": "C93", "title": "Models that are written differently but say the same give the same result", "statement": "If the fields of one simulation correspond to fields of another, and the equations of corresponding fields are the same up to the order of their terms, the order of the factors of a product, the names of fields, constants, functions and terms, and how a number is spelled, then corresponding fields that start with the same values have the same values after any number of RK4 steps, and of Euler steps if the correspondence keeps the order of the fields. Renaming everything in a model, without changing its order, is such a change.", "quantifier": "all pairs of corresponding models, domains, initial fields, filters, time steps and numbers of steps", "why_tests_cant": "Every model that can be written, every renaming and every reordering of its terms.", "anchors": ["pf/rhs.go: Build", "pf/rhsBuilder.go: ConcreteTerm, SortFactors", "pf/model.go: AddEquation, Init, GetRHS, GetDenum", "pf/euler.go: Euler.Propagate", "pf/rk4.go: RK4.Propagate"]}
{"id": "C94", "title": "Fields are not influenced by fields their equations do not mention", "statement": "If the equations of a set of fields mention only fields of the set, two simulations that start with the same values of these fields have the same values of these fields after any number of steps of Euler or RK4, whatever the initial values of the other fields are.", "quantifier": "all models, sets of fields, domains, initial fields, filters, time steps and numbers of steps", "why_tests_cant": "Every model, set of fields and state of the other fields.", "anchors": ["pf/model.go: GetRHS, GetDenum, SyncDerivedFields", "pf/euler.go: Euler.Step", "pf/rk4.go: RK4.Step"]}
{"id": "C95", "title": "The order in which fields are declared does not matter", "statement": "Declaring the same fields and equations in another order gives every field the same values after any number of steps.", "quantifier": "all models, orders of their fields, domains, initial fields, filters, time steps and numbers of steps", "why_tests_cant": "Every model and every order.", "anchors": ["pf/model.go: AddField, AddEquation, GetRHS, GetDenum", "pf/euler.go: Euler.Step", "pf/rk4.go: RK4.Step"]}
{"id": "C96", "title": "What leaves one field enters another: weighted totals change only by what sources supply", "statement": "Suppose that in a weighted sum of some equations the products without Laplacian cancel, whatever the values of the fields are. Then the weighted total of these fields changes in any number of steps only by what their sources supply. In particular the total of a field is kept if every term of its equation carries a Laplacian and it has no source.", "quantifier": "all models, weights, domains, fields, time steps and numbers of steps", "why_tests_cant": "Every model that can be written, all values of the fields and any number of steps.", "anchors": ["pf/euler.go: Euler.Step, Propagate", "pf/rk4.go: RK4.Step, Propagate", "pf/model.go: GetRHS, GetDenum", "pf/rhs.go: Build", "pf/rhsBuilder.go: isBilinear"]}
{"id": "C97", "title": "Declared models keep real fields real", "statement": "If the constants, functions, terms and sources of a declared model are real and the fields are real at the start, the fields are real after any number of steps, with or without a modal filter.", "quantifier": "all languages, sequences of calls, equations of the grammar, domains with the layout of C61, fields, filters, time steps and numbers of steps", "why_tests_cant": "Every model that can be written, all values of the fields and any number of steps.", "anchors": ["pf/euler.go: Euler.Step, Propagate", "pf/rk4.go: RK4.Step, Propagate", "pf/model.go: GetRHS, GetDenum, SyncDerivedFields", "pf/rhs.go: Build", "pf/rhsBuilder.go: ConcreteTerm", "pf/derivedField.go: CalculateBasedOnFields"]}
{"id": "C98", "title": "Runs of nonlinear models converge to the solution of their equations", "statement": "Suppose the fields U(t) solve the declared equations, with their sources, from time 0 to T, and that the powers and functions of the equations are Lipschitz on bounded sets and the sources are Lipschitz in time. Then there is a constant D such that runs with N steps of size T/N that start from U(0) complete, and after each step every field differs from U at that time by at most D/N (root of the sum of squares over the nodes), for Euler and for RK4. Whole powers are Lipschitz on bounded sets, so models made of constants, fields, whole powers and Laplacians (Allen-Cahn, Cahn-Hilliard) need no further assumption.", "quantifier": "all languages, sequences of calls, equations made of products, domains, solutions, end times and numbers of steps", "why_tests_cant": "Every model that can be written and every number of steps; the limit is not reached by any run.", "anchors": ["pf/euler.go: Euler.Step, Propagate", "pf/rk4.go: RK4.Step, Propagate", "pf/model.go: GetRHS, GetDenum, SyncDerivedFields", "pf/rhs.go: Build", "pf/derivedField.go: CalculateBasedOnFields"]}
{"id": "C99", "title": "A run can be stopped and continued", "statement": "If a run of Solve takes the fields to some values and a new solver, started from these values, takes them to others, then one run with as many steps as the two together gives the same fields, however the steps are divided into epochs and whatever callbacks and monitors are used. Old contents of derived fields do not matter.", "quantifier": "all models, domains, initial fields, filters, time steps and numbers of epochs and steps", "why_tests_cant": "Every model, every point at which a run can be stopped and every division of the steps.", "anchors": ["pf/solver.go: Solve, Propagate", "pf/euler.go: Euler.Step, GetTime", "pf/rk4.go: RK4.Step, GetTime", "pf/model.go: SyncDerivedFields"]}
{"id": "C100", "title": "Runs of Solve converge to the solution of the declared equations", "statement": "If the fields U(t) solve the declared equations with their sources from time 0 to T, the fields after a run of Solve that starts from U(0) with small steps up to time T are as near to U(T) as one likes, with either stepper.", "quantifier": "all models made of products with Lipschitz powers and functions, domains, solutions, end times, numbers of epochs and steps", "why_tests_cant": "Every model that can be written and every number of steps; the limit is not reached by any run.", "anchors": ["pf/solver.go: Solve, Propagate", "pf/euler.go: Euler.Step, GetTime", "pf/rk4.go: RK4.Step, Propagate, GetTime"]}
{"id": "C101", "title": "What monitors record", "statement": "A PointMonitor on a field or registered function holds, after a run of Solve, one value for each epoch: the real part of this field or function at its site after the steps of the epoch.", "quantifier": "all declared models, steppers, numbers of epochs and steps, sites, fields and functions, other callbacks and monitors", "why_tests_cant": "Every model and every history; the buffers of functions hold amplitudes between steps, which a test of fields does not see.", "anchors": ["pf/monitor.go: NewPointMonitor, PointMonitor.Add", "pf/solver.go: Solve, AddMonitor", "pf/model.go: DerivedField"]}
{"id": "C102", "title": "A run can be continued from the files it saved", "statement": "In a run of Solve with a Float64IO callback the file of a field and an epoch holds the real parts of the field at the end of this epoch, and nothing else is written. A new solver that starts from the fields loaded from the files of the last epoch ends with the same fields as one run with as many steps as the two together.", "quantifier": "all declared models, domains, steppers, numbers of epochs and steps, prefixes, former files, other callbacks", "why_tests_cant": "Every model, every division of a run and every state of the directory.", "anchors": ["pf/fileIO.go: Float64IO.SaveFields, LoadFloat64", "pf/solver.go: Solve", "pf/euler.go: Euler.Step", "pf/rk4.go: RK4.Step"]}
{"id": "C103", "title": "Euler steps lower the energy of gradient flows", "statement": "Let the declared equations be d field/dt = -(-LAP)^p mu, where mu is the derivative of an energy. If the steps are small enough for the curvature of the energy on the values the fields take, no number of Euler steps raises the energy. For Allen-Cahn (dconc/dt = conc - conc^3 + kap*LAP conc) and Cahn-Hilliard (dconc/dt = LAP conc^3 - LAP conc - kap*LAP^2 conc) there is, for every initial field, a step size below which the energy does not rise in any step of any run.", "quantifier": "all models of this form, domains, initial fields, step sizes and numbers of steps", "why_tests_cant": "Every initial field and every number of steps; a test sees the energies of one run.", "anchors": ["pf/euler.go: Euler.Step, Propagate", "pf/model.go: AddEquation, GetRHS, GetDenum, SyncDerivedFields", "pf/rhs.go: Build", "pf/rhsBuilder.go: ConcreteTerm"]}
{"id": "C104", "title": "Where saddle searches rest", "statement": "For a declared model with one field and SDD with the default weight 1/2: a step leaves the field as it is exactly if the right-hand sides at the two ends of the dimer, as written, cancel; it leaves the orientation as it is exactly if their difference is a multiple of the orientation.", "quantifier": "all declared models with one field whose linear coefficients do not depend on the fields, domains, step sizes, fields, orientations and dimer lengths", "why_tests_cant": "Every nonlinear model and every state; the step is implicit, so no finite set of runs shows that nothing else is a resting point.", "anchors": ["pf/sdd.go: SDD.Step, ShiftFieldsAlongDimer, DimerLength", "pf/model.go: GetRHS, GetDenum, SyncDerivedFields"]}
{"id": "C105", "title": "Saddle searches of linear models find the saddle point", "statement": "For a declared linear model with one field and real coefficients the orientation of SDD turns to the waves that grow fastest: the shares of all others, relative to theirs, shrink by a constant factor in every step. If one wave grows and all others decay, the field converges to the saddle point (zero), from every field and every orientation that contains the wave, while time steps leave it.", "quantifier": "all linear models with real coefficients, domains, initial fields, orientations, dimer lengths, small enough step sizes and numbers of steps", "why_tests_cant": "A limit over all numbers of steps from every initial state.", "anchors": ["pf/sdd.go: SDD.Step, householder, householderDenum", "pf/sdd.go: diagonalShermannMorrison.dot", "pf/solver.go: Propagate", "pf/euler.go: Euler.Step"]}
{"id": "C106", "title": "What saddle searches record about their steps", "statement": "The recorder of SDD changes no search. After every step MaxForce is the largest rate of change of any amplitude of the fields and ForcePowerSpectrum the root mean square rate of change of their values; each bounds the other, and either is zero exactly if the fields did not change. MaxTorque is the largest entry of the torque that turned the orientation, and zero exactly if it did not turn. FieldNorm and FieldNormChange describe the fields after the step. With a log file Solve appends one line for each epoch, after a header if the file was empty.", "quantifier": "all models, transforms with Parseval's identity, searches, numbers of steps and epochs, former contents of the file", "why_tests_cant": "The quantities must match the motion in every step of every search; a test compares a few numbers.", "anchors": ["pf/sdd.go: SDDMonitor, Log, SDD.Step", "pf/sdd.go: FieldNorm", "pf/solver.go: Solve"]}
{"id": "C107", "title": "Implicit Euler runs of linear models", "statement": "For a declared linear model with real coefficients and real fields the problem ImplicitEuler hands to the non-linear solver has exactly one zero: the exact solution of the equations after one time step. With a solver that finds zeros any number of steps of any length gives the exact solution. With a solver that leaves residuals of length tol, and equations that do not grow, the error after N steps is at most N tol and the fields grow by at most N tol: the scheme is stable for all time steps.", "quantifier": "all linear models with real coefficients, domains, real initial fields, time steps, numbers of steps and solvers", "why_tests_cant": "Stability for all time steps and an error bound for every number of steps and every solver; tests run a few steps with one solver.", "anchors": ["pf/implicitEuler.go: ImplicitEuler.Step, updateEquation, nonlinearIntegral, GetTime", "pf/solver.go: Propagate"]}
{"id": "C108", "title": "Conserved fields under implicit Euler", "statement": "If the right-hand side of a field has no zero-frequency amplitude (a conserved field), a step with ImplicitEuler changes the total of the field by exactly the sum of the residual the solver leaves on it; a run with a solver that finds zeros conserves the total, and otherwise it drifts by at most that sum per step. The initial guess already has the right total.", "quantifier": "all models, transforms, filters, time steps, fields, numbers of steps and solvers", "why_tests_cant": "Every model with a conserved field, every number of steps and every result the solver may return.", "anchors": ["pf/implicitEuler.go: ImplicitEuler.Step, updateEquation, nonlinearIntegral, fields2vec, vec2fields", "pf/solver.go: Propagate"]}
{"id": "C109", "title": "Implicit Euler converges to the solution of the declared equations", "statement": "Let fields U solve the declared equations, linear or not, with their sources, from time 0 to T. If, on states close to U, the non-linear solver returns values near the old ones and leaves residuals of the order of the squared time step, runs with ImplicitEuler from U(0) with N steps of length T/N complete and after every step each field differs from U at that time by at most D/N, for a constant D. Subtracting the residual twice or more from the initial guess is such a solver when the time step is small, so runs with it converge with no further hypothesis.", "quantifier": "all declared models with locally Lipschitz right-hand sides and real coefficients, domains with the layout of C07, solutions, end times, filters, solvers and numbers of steps", "why_tests_cant": "A limit over all numbers of steps, with a bound uniform in the solver; a test compares one run with one solution.", "anchors": ["pf/implicitEuler.go: ImplicitEuler.Step, updateEquation, nonlinearIntegral, fields2vec, vec2fields, GetTime", "pf/solver.go: Propagate", "pf/euler.go: Euler.Step"]}
{"id": "C110", "title": "RK4 without implicit terms is of fourth order", "statement": "Let fields U solve the declared equations from time 0 to T, and let the equations have no implicit terms, that is no product that is linear in the own field with a constant coefficient. Then there is a constant D such that N Runge-Kutta steps of length T/N from U(0), N large enough, leave every field after every step within D/N^4 of U at that time, under Propagate and under Solve with any epochs.", "quantifier": "all declared models with polynomial right-hand sides without implicit terms, domains, solutions, end times and numbers of steps", "why_tests_cant": "The order of accuracy is a statement about all numbers of steps with one constant; a test compares two step sizes on one equation.", "anchors": ["pf/rk4.go: RK4.Step, firstCorrection, correction, PrepareNextCorrection, Propagate", "pf/solver.go: Solve"]}
{"id": "C111", "title": "Rounding, noise and inexact initial values are not amplified without bound", "statement": "Let fields U solve the declared equations from time 0 to T. There are constants D and s such that if the stored fields follow N Euler or Runge-Kutta steps of length T/N, N large enough, up to a disturbance of at most delta_k at every node in step k (rounding, noise), start within delta_0 of U(0), and the disturbances add up to at most s, then after every step k every field is within D (1/N + delta_0 + ... + delta_k) of U at that time. In particular, rounding what is stored to floating point numbers with enough digits leaves the run within D'/N of U, and the results depend continuously on the initial values.", "quantifier": "all declared models with locally Lipschitz right-hand sides, domains, solutions, end times, numbers of steps and disturbances", "why_tests_cant": "A test sees one machine's rounding on one model; the bound is for every disturbance of every step and all numbers of steps with one constant.", "anchors": ["pf/euler.go: Euler.Step, Propagate", "pf/rk4.go: RK4.Step, Propagate", "pf/solver.go: Propagate"]}
{"id": "C112", "title": "Text tables written during a run hold the fields of their epoch", "statement": "In a run of Solve with CsvIO.SaveFields as callback, after every epoch there is a file <prefix>_<epoch>.csv from which LoadCSV gives back all fields in their order, with their names and at every node the real part after the steps of that epoch up to half a unit of the sixth decimal; no other file is touched, and files of different prefixes or epochs never coincide. With a domain size that does not match the number of nodes the run panics at the first epoch.", "quantifier": "all models, steppers, numbers of epochs and steps, prefixes and domains", "why_tests_cant": "Runs of any length and any fields; a test saves one small field once.", "anchors": ["pf/fileIO.go: CsvIO.SaveFields, SaveCsv, LoadCSV", "pf/solver.go: Solve"]}
{"id": "C113", "title": "A database written during a run gives back the fields of every epoch", "statement": "On a database file used for one domain, a run of Solve with FieldDB.SaveFields as callback never panics; afterwards Load of every epoch of the run gives all fields in the order of their names with the real parts they had after the steps of that epoch, LoadLast gives the last epoch, and other steps of the same simulation read as before - whatever other objects with other simulation numbers wrote to the file before and between the callbacks, including calls that were cut off by a crash.", "quantifier": "all models, steppers, domains with at least two nodes, numbers of epochs and steps, earlier histories of the file and interleaved calls of other objects", "why_tests_cant": "Other processes may write to the same file between any two callbacks; a test runs one object once.", "anchors": ["pf/database.go: FieldDB.SaveFields, Load, LoadLast", "pf/solver.go: Solve"]}
{"id": "C114", "title": "ImplicitEuler is of second order", "statement": "Let fields U solve the declared equations from time 0 to T; implicit terms are allowed. If the non-linear solver leaves a residual of at most a constant times the cube of the time step, then there is a constant D such that N ImplicitEuler steps of length T/N from U(0), N large enough, leave every field after every step within D/N^2 of U at that time. A solver that subtracts the residual three or more times from the guess meets the condition for all small steps.", "quantifier": "all declared models with polynomial right-hand sides, domains, real solutions, end times, numbers of steps and solvers", "why_tests_cant": "The order of accuracy is a statement about all numbers of steps with one constant; the code announces an implicit Euler method, which would be of first order, and a test compares two step sizes on one equation.", "anchors": ["pf/implicitEuler.go: ImplicitEuler.Step, updateEquation, nonlinearIntegral, fields2vec, vec2fields, GetTime", "pf/solver.go: Propagate"]}
{"id": "C115", "title": "Declared equations have a solution for a short time, and as long as runs stay bounded", "statement": "For every declared model with smooth right-hand sides and every start there is a time s > 0 up to which the equations have a solution with that start, so Euler and RK4 runs up to s converge to it as the time step goes to zero. There is a solution up to a given time T exactly if the Euler runs up to T stay below one bound for all sufficiently small time steps; for one direction, repeated halving of one time step is enough. If short Euler steps cannot leave a bounded region, there is a solution with that bound up to every time from every start in the region; for dconc/dt = conc - conc^3 this holds for all starts with values between -1 and 1. Without such a bound the time is limited: dconc/dt = conc^2 started from 1 everywhere has a solution for a short time and none up to any time beyond 1.", "quantifier": "all declared models with Lipschitz right-hand sides and sources, domains, initial fields, end times and numbers of steps", "why_tests_cant": "Existence of a solution and convergence from an arbitrary start are statements about all time steps at once; a test sees finitely many runs.", "anchors": ["pf/euler.go: Euler.Step, Propagate", "pf/rk4.go: RK4.Step, Propagate", "pf/model.go: AddEquation, GetRHS, GetDenum"]}
{"id": "C116", "title": "What a modal filter does to a run", "statement": "With SetFilter, Euler and RK4 multiply every Fourier mode of every field by the value of the filter once per step: only the values at the frequencies of the modes matter, a filter that is 1 there changes nothing, a mode for which the filter is 0 is absent from all fields after every step, and a filtered step is the step without filter followed by the multiplication. ImplicitEuler ignores the filter, as its documentation says. With linear equations every mode is multiplied by (factor / (1 - dt symbol)) per step; the damping therefore grows with the number of steps and not with the time, and a mode with a factor smaller than 1 vanishes when the steps become small, so filtered runs do not converge to the solution.", "quantifier": "all models, domains, filters, fields, time steps and numbers of steps", "why_tests_cant": "Every filter function and arbitrarily many steps; a test applies one filter once.", "anchors": ["pf/euler.go: Euler.Step, SetFilter", "pf/rk4.go: RK4.Step, SetFilter", "pf/implicitEuler.go: ImplicitEuler.Step, SetFilter", "pf/util.go: ApplyModalFilter"]}
{"id": "C117", "title": "Slice wrappers and Blur through them", "statement": "After any sequence of Set calls on a RealSlice or RealPartSlice, Get returns the value written last to that element or the original one; RealPartSlice never changes an imaginary part, no call changes elements of the array outside the slice (so slices of different parts do not see each other), and an index outside the slice panics even if the array goes on. Blur through a wrapper replaces exactly the values in the slice by the blur of the values it had, and panics exactly when that blur does.", "quantifier": "all arrays, windows, sequences of writes, kernels and domains", "why_tests_cant": "Every history of writes through several wrappers of one array.", "anchors": ["pfutil/sliceWrappers.go: RealSlice, RealPartSlice", "pfutil/blur.go: Blur", "pfutil/sliceOperations.go: Clear", "pfutil/grid.go: Index, Pos"]}
{"id": "C118", "title": "The clock of the steppers does not drift", "statement": "In float64 arithmetic GetTime after k steps of length dt is k dt up to one rounding (relative error at most 2^-53), whatever k, so errors do not add up; all steppers show the same time; it moves forward with every step up to 2^52 steps and is exact when k dt has at most 53 bits. N steps of length T/N end at T.", "quantifier": "all positive normal time steps and all numbers of steps below 2^53 whose time does not overflow", "why_tests_cant": "Drift shows only after very many steps, and rounding depends on every bit of dt.", "anchors": ["pf/euler.go: Euler.GetTime", "pf/rk4.go: RK4.GetTime", "pf/sdd.go: SDD.GetTime", "pf/implicitEuler.go: ImplicitEuler.GetTime"]}
{"id": "C119", "title": "The JSON text of the monitors gives back what they recorded", "statement": "JSONifyMonitors returns a JSON text in which every reader of JSON finds one object per monitor, in the order in which the monitors were added, with the name of its field, its site and the recorded values in order, whatever characters the names contain. Different monitors give different texts. It panics exactly if some monitor recorded a value that is not finite (after a run that diverged). After Solve the values of a monitor are those of its field at its site at the end of every epoch.", "quantifier": "all lists of point monitors with names in ASCII, any sites and any recorded values", "why_tests_cant": "Escapes and nesting have to be right for every name and every number of values; a test compares one text.", "anchors": ["pf/solver.go: Solver.JSONifyMonitors, AddMonitor", "pf/monitor.go: PointMonitor, NewPointMonitor, Add"]}
{"id": "C120", "title": "The index file of WriteXDMF says where the fields are", "statement": "The file WriteXDMF writes is XML from which every reader gets, for each epoch in order and each field in order, the name of the field, the name of its binary file, the layout of that file (8 byte big endian floats) and the extents of the domain, whatever characters the field names and the prefix contain. If the fields are saved every epoch the files named are exactly the files on disk, each named once. Every item with values in the file itself declares the number of values it holds.", "quantifier": "all lists of field names and prefixes of printable characters, tabs and line breaks in ASCII, all numbers of epochs and all two and three dimensional domains", "why_tests_cant": "Escapes and nesting have to be right for every name and every number of epochs; a test looks at one file.", "anchors": ["pf/xdmf.go: WriteXDMF, CreateXDMF, XDMF, XDMFDataItem, XDMFAttribute, XDMFGrid", "pf/fileIO.go: Float64IO.SaveFields"]}
{"id": "C121", "title": "The tables of the commands are aligned", "statement": "All lines of a table that comment, attr, info or list prints have the same length, with the frame at the top, below the names of the columns and at the end. Column j of a table of attributes shows the name of attribute j and below it the values with that name.", "quantifier": "all databases with identifiers as gopf draws them, all comments and all names and values of attributes", "why_tests_cant": "One text that does not fit moves all columns to its right; a test looks at one table.", "anchors": ["cmd/comment.go: printAllComments", "cmd/attr.go: listAttributes", "cmd/info.go: infoCmd, printList, dimString", "cmd/list.go: showSimulationIds", "cmd/util.go: singleLine, closestWhiteSpace"]}
{"id": "C122", "title": "CSV files give back what was written to them", "statement": "A reader of CSV gets from the text of a table exactly the records that were written, whatever characters the names of the fields contain: commas, quotes, line breaks, spaces at the start. Two different tables have different texts. LoadCSV returns from a file of SaveCsv the fields in order, with their names and their values to six decimals.", "quantifier": "all tables with at least two columns, all names of fields in ASCII, all domains and all values", "why_tests_cant": "Quotes are only needed for some characters and positions; a test uses a few harmless names.", "anchors": ["pf/fileIO.go: SaveCsv, LoadCSV", "cmd/export.go: exportCmd"]}
