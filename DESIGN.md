# Formal model of davidkleiven/gopf in Rocq

## Layout

`rocq/theories/` holds, per area of the code, up to four kinds of files:

* `<Area>Model.v`  executable model, function by function, each definition citing `/repo` file and lines. No proofs.
* `<Area>Spec.v`   the small independent vocabulary in which the properties are stated.
* `<Area>Proofs.v` lemmas.
* `<Area>Props.v`  only the property theorems, each `exact lemma.`, `Print Assumptions` beneath, and an `Example` showing the hypotheses are met by a non-trivial case.

## Conventions of the model

* Go `int` is `Z` (or `nat` for lengths and loop counters), unbounded: 64-bit overflow is not modelled (domain sizes would have to exceed 2^31 per axis) unless a property is about it. Division and `%` are Go's truncating ones (`Z.quot`, `Z.rem`).
* `float64` is the real numbers `R` (or the rationals where only field operations occur), i.e. rounding, overflow, NaN and infinities are not modelled, except in the binary file format where a float is its 64-bit pattern. `complex128` is a pair of reals.
* A slice is a list; where aliasing between slices or pointers is what the property is about, there is an explicit heap.
* A panic or returned error is an explicit value (`option`/`result`).
* External code (FFTW, SQLite, Newton-Krylov, gonum matrix routines) is either modelled by its mathematical definition (DFT, tables as lists of rows, matrix inverse by adjugate) or is a universally quantified parameter of the theorem.

## Plan per property

| id | what is modelled | proof |
|----|------------------|-------|
| C01 | Product as state machine on index lists | invariant: mixed-radix value of the state increases by one per call |
| C02 | NodeIdx/Pos on Z lists | Euclidean division uniqueness |
| C03 | Wrap with truncating remainder | Z.rem case analysis |
| C04, C05 | row/col/depth/Freq/ConjugateNode, frequencies as rationals | div/mod arithmetic, parity case split |
| C06 | both iterators as state machines over nodes | invariant on the position, pair partition |
| C07, C08 | d-dimensional DFT over complex numbers as FFTW defines it (row major) | orthogonality of roots of unity; layout lemma; refutation for non-cubic 3D |
| C09 | Voronoi with integer distances | fold invariant, refutation for huge domains if reachable |
| C10 | Blur over R with odometer over kernel offsets | sum exchange, positivity |
| C11 | Draw as a scan carrying floatPos | invariant of the scan; refuted for 2D axis-mixing transforms |
| C12 | Affine as 4x4 real matrices | algebra |
| C13 | Grid as data list plus domain | C02 plus list update lemmas, induction on op list |
| C14, C15 | SplitOnMany, SortFactors on strings | queue invariant, sortedness of permutations |
| C16, C17 | string prefix parser, lazy-regex `d(.*?)/dt` | string induction |
| C18 | grammar to term evaluator | structural induction; refuted for repeated factors |
| C19 | heap model of registerDerivedFields with go 1.13 loop variable semantics | heap invariant; refuted for two derived fields |
| C20, C21 | Model as record of registration lists | induction over registration histories; order swap refuted |
| C22 – C25 | steppers as functions over spectra with the FFT as an abstract bijection | unfolding per node, induction on steps |
| C26 – C29 | SDD bookkeeping over R vectors | real analysis, linear algebra over lists |
| C30 | packing and residual | list lemmas; the Newton solver is a parameter |
| C31 – C34 | tables as row lists, transactions as atomic list updates, crash = prefix of transactions | induction over histories |
| C35 – C38 | byte lists, rows, file names | induction on lists |
| C39, C40 | miller.go, HyperOctantExplorer | permutations, binary counter invariant |
| C41 – C46 | lattices, mode solver, ideal mix, pair correlation, rank-4 tensors, displacements | algebra over R, derivatives with the standard library's `derivable_pt_lim` |
| C47 – C49 | scalar functions over R; for C49 also the whole Euler and RK4 steppers with any number of fields and the multiplier appended to one equation | real analysis; the zero frequency carries the total of a field |
| C50 – C52 | CLI table logic on lists and strings | induction, counterexamples |
| C53 | XDMF dimensions against the memory order of the fields | div/mod arithmetic; refuted in 3D |
| C54, C55 | predefined cells, plane density over R | determinants, square roots |
| C56 | perturbed force of an elastic inclusion as a sum over components | refutation of the documented formula, exact result |
| C57, C58 | Rotate2D, slice helpers | case analysis, list induction |
| C59, C60 | free-energy terms as functions on grids, spectral viscosity | directional derivatives of sums; polynomial signs |
| C61 | conjugate symmetry of spectra through every term, filter, denominator and stepper | invariant over steps, symmetry predicate on terms |
| C62 – C66 | gradient calculators, advection, charge transport, point source, Hessian, penalty | symbol computations on the DFT |
| C67 | elastic fit of the mode solver | algebra over R |
| C68 – C71 | crystal initialisation: corners, visited and placed cells, painted nodes, tilt boundary | convexity of the box, integrality of lattice vectors, list of writes in lexicographic order |
| C72 | two-phase correlation function on the DFT model | round trip of the transform, derivative of a piecewise cubic |
| C73 – C75 | elastic energy term, HomogeneousModulusEnergy, ellipsoid tool on the DFT and elasticity models | work identity by Parseval (a divergence-free stress does no work on a compatible strain), hence energy formula, uniqueness, symmetric response; energy along a direction is a polynomial |
| C76 – C80 | names, registration and synchronisation on the heap model of C19; expectation as a linear functional; the probe of isImplicit; solver and value records | slices used before are never written later, so every sync sees the present values; induction over the steps for the noise; counterexamples by evaluation |
| C81 – C83 | the calls that declare a model as a list, run on the parser and builder of C18 | an invariant relates every state of the model to the calls so far; late declarations only add names, which the parser of C18 only sees in Init |
| C84 – C86 | motions of the nodes as maps of positions; relations between the data before and after | the DFT turns a motion into a permutation of the frequencies and a phase; every operation of the steppers preserves this relation; uniform fields are those that every motion leaves alone |
| C87 – C88 | the declared model as what the steppers evaluate: bricks found by name, calculators of derived fields, built functions, sources | the meaning theorem of C18 at every node with the bricks of the spectrum; the implicit part holds no field, hence RK4 stages and fixed points reduce to it |
| C89 – C90 | linear models: the same declared models, with a symbol per equation | a linear product is recognised as implicit (converse of the shape lemma of C18), no derived fields and no explicit terms arise, so both steppers divide by 1 - dt s; induction on the steps, Parseval for the sum of squares |
| C91 | linear models in the limit of small time steps: a solution is a family of fields whose Fourier amplitudes have the written right-hand side as derivative | (1 - h s)^-N compared with exp(sT) by a power-difference bound per mode, Parseval to add the modes; existence by the explicit exponential flow |
| C92 | the two parts of a declared equation: implicit coefficient and explicit part, from the items as written | converse of the shape lemma: a linear product matches the bilinear pattern for every list of names; sums over items for both parts of Build; bricks of a state whose derived fields are older than its fields |
| C93, C94, C95 | two declared simulations whose fields, terms and factors correspond under a relation | values of products are invariant under permutation of factors, sums under permutation of items; the implicit/explicit split is a property of the item; induction over the fields of a step and over steps. A closed set of fields is the relation that relates each member to itself |
| C96 | weighted totals of the fields of a declared model | amplitude at node 0 of both stepping schemes, from C92 and C87 |
| C97 | declared models over the exact DFT, with the principal power as cmplx.Pow | the right-hand side and the implicit coefficient of every declared equation are hermitian if the fields are real, from the shape of the bricks; then the induction over steps of C61 |
| C98 | declared models, Euler and RK4, against a differentiable solution of the equations as written | a first order scheme with a locally Lipschitz rate: the error grows by a factor 1 + K h and a term M h^2 per step as long as the run stays within distance 1 of the solution, which the bound itself ensures for large N; the rates of declared models are locally Lipschitz by induction over the equation |
| C99 – C100 | the solver loop of C25 around simulations of declared models | two simulations that evaluate the same right-hand sides at two times do the same step; SyncDerivedFields overwrites all slices; RK4 under Solve is RK4.Propagate of the model with terms frozen at time 0, then C98 |
| C101 | the bricks a monitor reads during Solve on a declared model | the solver trace of C25; Euler leaves the amplitudes of derived fields in their slices, RK4 those of the last stage |
| C102 | the callback Float64IO.SaveFields on the trace of a run, loading, a second run | the calls of the callback are read off the trace (C25), then C35 (files), C97 (real fields) and C99 (continued runs) |
| C103 | the energy of the fields along Euler runs of declared models | the step mode by mode (C92); the energy lost in each mode and Parseval (C66); a bound on all values by the energy removes the hypothesis on the run |
| C104 | SDD steps of declared models with one field | the ends of the dimer as points of the model (C92 gives their right-hand sides); the reflection and the implicit part are invertible |
| C105 | SDD runs of linear models | the shares of the waves in the orientation obey a recursion; a Lyapunov argument for the field once the orientation is close |
| C106 | the SDD recorder and its log file (`TrackModel.v`) | one step with the recorder refines the step without; Parseval for the norms; orthogonality of the torque; induction over steps and epochs |
| C107 | runs with ImplicitEuler of linear models; the solver is a parameter (`ImplicitModel.v`) | the residual of a linear model is the distance to the exact solution; induction over steps, Parseval and the triangle inequality |
| C108 | runs with ImplicitEuler of any model (`ImplicitModel.v`) | the zero-frequency amplitude of the residual; induction over steps |
| C109 | runs with ImplicitEuler of declared models (`ImplicitModel.v`, `SimModel.v`) | the residual as a map on amplitudes; error recursion against the exact solution; contraction of fixed-point iteration |
| C110 | runs with RK4 of declared models (`SimModel.v`, `StepModel.v`) | polynomials as syntax with derivatives; Taylor expansion of the step and of the solution to fourth order; stability; error recursion |
| C111 | disturbed runs of the Euler and RK4 steps of declared models (`SimModel.v`, `StepModel.v`); `DisturbSpec.v` | the error recursion of C98 with a disturbance per step; discrete Gronwall; Flocq's bound for rounding to nearest |
| C112 | CsvIO.SaveFields as a callback (`CsvRunModel.v`) on `FileModel.v` and `SolverModel.v` | trace of the run, C37, injectivity of file names |
| C113 | FieldDB.SaveFields as a callback (`DbRunModel.v`) on `DbModel.v` and `SolverModel.v`, with calls of other objects in between | trace of the run; the object keeps its number, others keep away from it; C31 for every call |
| C114 | runs with ImplicitEuler of declared models (`SimModel.v`, `SddModel.v`, `ImplicitModel.v`) with any solver | expansion of the update to second order; trapezoidal rule along the solution; residual of the cube of the step; error recursion; refutation with a source that depends on time |
| C115 | runs of declared models as in C98 | Euler polygons under repeated halving of the step form a Cauchy sequence; the limit satisfies the integral equation; bounds from local Lipschitz constants; equivalence with bounded runs through the error bound of C98; invariant regions (`RegionProps.v`) by induction over the run and passing to the limit; blow-up of conc^2 (`BlowupProps.v`): the inverse of a bounded run would become negative |
| C116 | `apply_filter` in the steps of `StepModel.v`, `ie_step` of `SddModel.v` | invariants of the loop over the fields; induction over steps; closed form of the modes of linear models (C89) and its limit for small steps, compared with the solution (C91); two refutations with one and two fields on one node |
| C117 | `ViewModel.v`: RealSlice and RealPartSlice as windows of an array, sequences of Set, Blur's loop through a wrapper | induction over the writes; the loop of Blur against `blur` of C10 by splitting the array at the window |
| C118 | `ClockModel.v`: GetTime of the steppers in binary64 (Flocq) | relative error of one rounding; the gap between k dt and (k+1) dt exceeds both errors; a computed counterexample for N (T/N) = T |
| C119 | `JsonModel.v`: JSONifyMonitors and encoding/json on the monitors; `JsonSpec.v`: a reader for JSON | reading the text back, by induction over strings, data and monitors; injectivity follows |
| C120 | `XmlModel.v`: WriteXDMF, the structs of xdmf.go and encoding/xml; `XmlSpec.v`: a reader for XML | reading the text back, by induction over texts and trees; the files on disk by C38; the declared numbers of values are refuted |
| C121 | `FrameModel.v`: all lines of the tables of comment, attr, info and list | lengths of padded texts, by induction over lines and columns; refuted for wide numbers |
| C122 | `CsvModel.v`: the text that csv.Writer writes; `CsvSpec.v`: a reader as a state machine | induction over characters, fields and records; composed with C37; refuted for a carriage return before a line break |
| C123 – | see `properties.jsonl` and `MANIFEST.json` | |

Where the code as it stands violates a property, the property keeps its full statement; a theorem `..._refuted` exhibits the failing input and a guarded theorem proves what does hold.

## Trusted base

* Coq 8.16.1 kernel (also re-checked with coqchk by the gate).
* Axioms. `AXIOMS.md` lists, per theorem, what `Print Assumptions` prints. The only axioms are those that Coq's own standard library
  declares for the classical real numbers: `ClassicalDedekindReals.sig_forall_dec`, `ClassicalDedekindReals.sig_not_dec`,
  `FunctionalExtensionality.functional_extensionality_dep`, and (through Flocq/Reals lemmas) `Classical_Prop.classic`. Theorems about
  integers, strings, lists, the database and files need none.
* The translation from Go to Gallina, made by hand. Every definition of a `*Model.v` file cites the Go lines. `COVERAGE.md`
  (generated from those citations) says for every function of the repository whether it is modelled and where.
* What the conventions above leave out: floating-point rounding (except C36), integer overflow (except C09), concurrency inside
  FFTW and the operating system, gonum's linear algebra and optimisers, SQLite, `encoding/csv` (its writer is modelled in `CsvModel.v`, its reader is specified in `CsvSpec.v`), `encoding/xml`, `cobra`, `gonum/plot`.
  Where such a component matters it is a parameter whose assumed contract appears as a hypothesis of the theorem.

Not modelled: the wiring of the command-line programs (flags, `log.Fatal`, drawing of plots), the examples directory, and the
functions marked "-" in `COVERAGE.md`.

## How to read seeded/LOG.jsonl

* `lemmas_failed` lists the proofs that the rebuild after an edit rejected. In most entries the rebuild stops at the first of them that
  a theorem needs, so the list is not complete.
* `theorems_failed` lists the theorems whose proofs use one of these lemmas, directly or through others. It is computed from the
  dependencies in the `.glob` files; the theorems themselves are not compiled again. A proof that is rejected shows that the theorem
  is not proved for the edited program. It does not show that the theorem is false of it.
* Theorems that were added after an entry was written are not added to it, and twenty mentions are of theorems that were renamed since.
* The dependencies were first computed from short names. Lemmas of different files with the same name were taken for one, and 82
  entries listed theorems that do not depend on the edit. They were removed with the qualified names, and the field `correction` of
  these entries names them. Every corrected entry still has a theorem that fails, so no survivor was hidden.

## Hypotheses that speak of the model

`good_transform` in `StepSpec.v` says what theorems about time steps assume of a transform. It uses `to_real` of the model, so an edit of
`to_real` changes the assumption together with the program and theorems with this assumption still prove. C07_assumed_of_transforms
closes the gap: the transform of the program meets the assumption on every domain. C24_euler_on_domains and C24_rk4_on_domains state
C24 without it. Other theorems with the assumption `good_transform` rest on C07_assumed_of_transforms in the same way.

`spectrum` in `StepSpec.v` uses `sync` of the model in the same way. C22_euler_reads_derived states the step with `derived_of`, which says
what every derived field is in terms of the registered functions, and C22_derived_unique that this determines them. C23_stages_read_derived
says the same of the stages of RK4.

## Findings

Places where the code does not do what its documentation says, or what a user would rely on. Each has a `..._refuted` theorem
(or an exact characterisation) in the model.

* Transform layout: in 3D the extents are handed to FFTW in an order that is right only for cubes; real fields of other 3D domains
  lose their symmetry, `Freq` names the wrong mode (C07, C08), and the XDMF file describes another layout (C53).
* Parser: adjacent signs lose the second sign; repeated factors, scalar names that contain a field name and other forms outside
  `good_equation` evaluate to something else (C14, C18). A term made of constants only is added to every Fourier amplitude, so a
  constant rate acts on the first node alone (C18, C87).
* Derived fields: a term that registers several new derived fields makes them share one closure variable (C19).
* RK4 treats every term that is linear in its own field with implicit Euler, so it is of first order in the time step for linear models;
  the error of one step is at least h^2/18 for dc/dt = -c (C89).
* Equations are paired with fields by registration order, not by name (C21, C87).
* Euler with coupled fields uses already updated fields (C22). RK4 evaluates all stages at the start time and its clock does not
  move under the solver (C23, C25), so with sources that depend on time it is of first order (C110). Consecutive calls of Solve repeat epoch numbers (C25).
* Householder reflection and forces of the dimer method are only right for one field (C28, C29). Implicit Euler solves an
  exponential-integrator equation at the old time (C30): it is of second order, but of first order with sources that depend on time (C114).
* Database: the documented join is off by one for every domain (C32), simulation ids can collide (C31), a crash can leave a time step
  with some of its fields (C33), a 2D domain can be added to a 3D file (C34).
* Files: prefixes can collide (C35), the maximum of a field can become 254 and uniform fields of large values undefined bytes (C36),
  fields longer than the first one are truncated (C37).
* Crystallography: number of equivalent planes wrong when |H| = |L| and differs from |K| (C39); cell change right for symmetric changes only
  (C41); Triangular2D is not triangular (C54); plane density wrong for components above 1 (C55).
* Elasticity: CubicMaterial lacks minor symmetries, RotationMatrix turns the other way about one axis (C45, C46); PerturbedForce uses
  the wrong frequency component (C56).
* Grids: Voronoi labels 0 far from all seeds (C09), box kernel wider than documented (C10), Draw leaks the third coordinate between
  nodes in 2D (C11), Append of 3D maps on 2D points (C12), Rotate2D turns by minus the angle (C57).
* Energies: ideal-mixture prefactor missing from the nonlinear part (C43), Vandeven filter of order 4 negative and its argument never
  above 0.6 (C48), spectral-viscosity interpolant negative near the threshold (C60), volume multiplier only approximate (C49).
* Real fields: DivGrad and the cross terms of TensorialHessian produce imaginary parts at the Nyquist frequency of even extents (C61);
  conductivity entries 3 and 4 swapped with respect to the documentation (C63); lower triangle of the Hessian tensor ignored (C65);
  penalty wrong for even exponents (C66).
* Mode expansion: small terms are dropped before the minimisation (C42); MatchElasticProp panics with a single mode, and the
  width it matches is h^2 w^2 = beta a^2 / 2, not the documented h^2 = beta a / (2 w) (C67).
* Commands: comments carried over to simulations without one, updates that store nothing, lost or repeated ends of long comments and a
  panic at 96 bytes, text attributes shown empty, `--simid 0`, a notice "Showing -1 of n rows" for negative limits, an empty table when
  the number of keys is a multiple of ten (C50); missing samples exported as zero and no time column in spite of the help text, the
  documented `--type fielddata` is not accepted (C51); contour plots of SaveCsv files transposed or scrambled, `lineplot -d` ignored,
  2D files of Grid.SaveCsv refused (C52).
* Crystals: BuildCrystal drops cells within half of the third root of the volume of the upper sides, also in 2D and when the crystal
  is periodic (C69); it never returns for cutoffs below 1/2 (C70); where atoms overlap the last one wins, the fields are not added
  (C70); TwoPhaseCorrFunc.Evaluate overwrites the concentration it is given (C72).
* Elastic energies: the elastic term of the first step ignores the initial field; in 2D the stress between the plane and the third axis is
  dropped (C73); HomogeneousModulusEnergy takes fractional indicators as 0 or 1 for the misfit but not for the strain (C74);
  CalculateStrainEnergy uses the stiffness of the inclusion everywhere (C75).
* Setting up: an advection velocity called like a gradient of the field is replaced by that gradient, a second advection of one field
  makes the first multiply with data from before the update, velocity names are joined without a separator, two DivGrad terms of one
  field both use the second function (C76); Advection.OnStepFinished has one argument less than PureTerm wants, so an Advection cannot
  be registered as a term; noise is not scaled with the time step and the currents registered with a term are equal (C77); the check of
  implicit terms passes differences of fields, rejects constants of the model and panics for terms that read a third frequency (C78);
  SetStepper sets the time to zero and drops the filter (C79); Scalar.SetFloat does nothing (C80).
* Filters: ImplicitEuler.SetFilter is documented to have no effect but filters the first guess of the solver, and with several fields Euler
  advances later fields with the filtered earlier ones (C116). A filter is applied per step, so its damping depends on the number of
  steps: with smaller steps filtered modes vanish and the run does not approach the solution (C116_no_convergence).
* Declaring: a field added after an equation that uses it makes the product evaluate as 1 without a message (C81); a name registered
  again as another kind keeps the first of implicit, explicit, mixed (C82); equations added after Init are ignored until Init is called
  again, which only Summarize notices (C83).
* Stepping: in one equation of an Euler step a field that stands alone can have its new value while a product with the same field has
  its old one (C92).
* Stepping: the result of Euler steps depends on the order in which the fields are declared (C95).
* Stepping: a linear exchange between two fields (da/dt = -k a, db/dt = k a) does not keep the total a + b, neither in Euler nor in RK4
  steps, because one side is implicit and the other explicit (C96).
* Stepping: a fractional power of a negative value makes a field complex without a message (C97).
* Elasticity: on even extents the strain of waves at the Nyquist frequency is dropped: a body of alternating layers does not relax, its
  energy is too large and the force of the phase field term is not the slope of the energy (C73, C74).
* Stepping: under Solve the clock of RK4 stands still, so with a source that depends on time the fields converge to a wrong solution as
  the time step shrinks (C100). A run of Euler that is continued by a new solver starts again at time 0 (C99).
* SDD: the recorded FieldNorm belongs to the fields before the step, unlike MaxForce and ForcePowerSpectrum, and FieldNormChange has the
  sign old minus new (C106); after the first step it is minus the whole norm.
* Solver: a PointMonitor on a registered function or other derived field records a Fourier amplitude, not the value at the site, because
  derived fields stay in the Fourier domain after a step (C101).
* Files: imaginary parts are not saved, so a run whose fields became complex (C97) cannot be continued from its files (C102).
* XDMF: the item of the times holds one value more than there are epochs but declares the number of dimensions, and origin and spacing
  of two dimensional domains hold three values but declare two (C120).
* Commands: numbers from 1000 on do not fit into the columns of `attr` and move the columns after them (C121).
* CSV: a carriage return before a line break in the name of a field is lost when the file is read (C122).
