# Formal model of C++QED (vukics/cppqed) in Rocq/Coq 8.16.1

`/repo` is read as text only; nothing of it is compiled or run. The model is a set of
Gallina functions, one for each C++ function modelled, each carrying a comment with file and
lines of the C++ original. Layout of `rocq/theories`:

* `*Model.v`      – transcription of the code (no proofs beyond what definitions need)
* `*Spec.v`       – small specifications, independent of the model's helpers (where the
                    specification is not just the statement itself)
* `*Proofs.v`, `*Lemmas.v`, `*Facts.v`, `*Cases.v`, … – lemmas, and the concrete cases
* `*Properties.v` – the property theorems only, each closed by `exact <lemma>` with
                    `Print Assumptions` beneath, and beside it an example/witness that its
                    hypotheses are met by a concrete, non-trivial case.

## Conventions

* **Numbers.** `double`/`dcomp` are modelled by exact numbers. Where only algebra is needed the
  theorems are stated for an arbitrary commutative ring with involution (`Star.v: StarRing`);
  it has a computable instance (Gaussian integers `GaussZ`, for examples and counter-examples)
  and the real instance (`CR`: pairs of `R`). Where square roots, exponentials or order are
  needed, the standard library's `R` is used. Rounding, overflow, NaN and infinities are *not*
  modelled unless a theorem says so explicitly (C55 is about binary64 through Flocq).
* **Arrays.** A blitz array of any rank is a shape (`list nat`) with a function from
  multi-indices (`list nat`) to scalars; only values at in-range multi-indices are meaningful and
  theorems speak about these only. "Empty" (zero-size) arrays are distinct (`None`).
* **Undefined behaviour / exceptions / abort** are distinct outcomes (`option`, or a result type
  with constructors for the exception).
* **External code** (ODE stepper numerics, random generator, user systems, file system) enters as
  universally quantified functions (section variables discharged at section end), with the assumed
  behaviour as explicit hypotheses of the theorem.
* A property which the faithful model violates has a theorem `..._refuted` with a concrete witness,
  and, where meaningful, a theorem `..._partial` giving the part that does hold. Such a property has
  the status "partial" in MANIFEST.json, its note beginning with REFUTED.

## Trusted base

* Coq 8.16.1 kernel (and `vm_compute` for a few computed examples).
* The reading of the C++ code embodied in the `*Model.v` files.
* The statements, with the definitions of the `*Spec.v` files they use.
* `Print Assumptions` of each theorem: see the table at the end. Only axioms of the standard
  library occur (classical reals, functional extensionality, classical logic through
  Flocq/Coquelicot/Reals lemmas); the libraries Flocq and Coquelicot are used as proved libraries.
  `coqchk` lists some more names for the whole development, which come from loaded but unused parts
  of the standard library (`ssrunder`, `Rdefinitions.RbaseSymbolsImpl`: opaque module signatures).

## What is modelled, and where it is simplified

| Model file | Code in /repo | Simplifications |
|---|---|---|
| `OdeModel.v` (C01–C06, C55, C56) | CPPQEDutils/ODE.h, ODE_GSL.h; `advance`, `advanceTo` of Trajectory.h | the controlled stepper is an oracle under a contract; the GSL stepper's `try_step` is modelled down to the calls of the GSL library |
| `RunModel.v` (C07–C10, C57, C130) | `run` of Trajectory.h:462-610 and the dispatcher | trajectory abstract; effects recorded as a list of events |
| `StateFileModel.v` (C11, C12) | Trajectory.h:135-159, 364-424, 486-507 | compression transparent; archives as byte strings |
| `AutostopModel.v` (C13) | Trajectory.h:179-221 | real arithmetic |
| `MultiIndexModel.v` (C14), `SliceModel.v` (C15, C16) | MultiIndexIterator.h; SliceIterator.h/.tcc, TMP_Tools.h | blitz strides by their index semantics |
| `TriModel.v` (C17–C22, C51, C53, C54) | quantumoperator/Tridiagonal.h/.tcc/.cc | scalars in any commutative *-ring; the dimensions an operator acts on are those of the operator (the code takes the bounds of the state vector, equal for well-formed use) |
| `CwrModel.v` (C23) | Combinatorics.h | numbers of combinations exact |
| `ParsModel.v` (C24, C70) | Pars.h/.cc, BooleanNegatedProxy.h | printing of help not modelled |
| `CommentModel.v` (C25) | CommentingStream.h | |
| `HermModel.v` (C26, C30) | ComplexArrayExtensions.h, CMatrix.cc, EntanglementMeasures.h | |
| `DensityModel.v`, `PureModel.v` (C27–C29, C58, C59) | quantumdata/LazyDensityOperator.h, StateVector.h, DensityOperator.h, ArrayBase.h | |
| `McwfModel.v` (C31–C36) | quantumtrajectory/MCWF_Trajectory.h, MCWF_TrajectoryLogger.cc | system, stepper and random engine are parameters |
| `MasterModel.v` (C36–C40) | quantumtrajectory/Master.h | |
| `FreeExactModel.v` (C41) | structure/FreeExact.h, TimeDependence.h, `updateU` of the elements | |
| `EnsembleModel.v` (C42) | MCWF_Trajectory.h:406-420, StochasticTrajectory.h | |
| `CompositeModel.v` (C43–C45, C63–C65) | composites/BinarySystem.h/.cc, Composite.h/.tcc, structure/Structure.h, ElementAveraged.cc, KeyPrinter.cc | constituents as records of optional interfaces |
| `ElementModel.v` (C46, C48, C60) | Liouvilleans of frees/Mode, Spin, Qbit, PumpedTwoLevelAtom, MultiLevel, HomodynedMode; ElementLiouvillean.h | integer products under square roots do not overflow |
| `ModeModel.v` (C47, C50, C61, C62) | Hamiltonians of Mode, Spin, Qbit, HomodynedMode; TridiagonalHamiltonian.h | |
| `ParticleModel.v` (C49, C52, C66–C69) | frees/Particle.cc, Particle_.h, interactions/ParticleCavity.cc, ParticleTwoModes.cc | deltaK=1 (the default, never overridden) |
| `InteractionModel.v` (C52, C67–C69) | interactions/JaynesCummings_.h, .cc, CoupledModes.h, .cc, GeneralDicke.cc, with the interactions in `ParticleModel.v`; frees/Spin.cc (operators), Mode_.h (xop) | a qbit is a mode of dimension 2; averages of interactions and printing left out; MultiLevelJaynesCummings not modelled |
| `MatHamModel.v` (C71, C72) | structure/MatrixOfHamiltonian.h, frees/TimeIndependentMatrixHamiltonian.h/.cc, PumpedTwoLevelAtom.cc (Hamiltonian), CMatrix.cc (apply) | state vectors as functions of indices; `at1D` is the storage order |
| `AverageModel.v` (C73, C74) | frees/Mode.cc (Averaged, AveragedQuadratures, PumpedLossyModeIP_NoExact), Mode.tcc (AveragedMonitorCutoff), Qbit.cc (Averaged), Spin.cc (SpinBase), interactions/ModeCorrelations.cc, QbitModeCorrelations.cc | integer products under square roots do not overflow |
| `CollectModel.v` (C75, C76) | utils/AveragingUtils.h (ReducedDensityOperatorNegativity, Collecting), Algorithm.h (concatenate, concatenateGrow) | negPT (C30) is a function of the matrix; the contents of memory newly allocated by blitz are arbitrary |
| `DdhoModel.v` (C77) | CPPQEDutils/DrivenDampedHarmonicOscillator.h/.cc | Eigen's fullPivLu().solve is a parameter |
| `InitialModel.v` (C78) | frees/Mode.cc (coherent, fock, init, photonNumber), Qbit.cc (init), Qbit_.h (state0, state1), MathExtensions.cc (coherentElement) | unary state vectors as lists; powers with natural exponents are products |
| `FourierModel.v` (C79-C82) | LazyDensityOperatorFFT.h/.cc, FFT.h/.cc/.tcc, frees/Particle.cc (Spatial, Averaged, wavePacket, hoState, coherent, init), ParticleInitialCondition.h | gsl's radix-2 FFT is the sum it documents (refused for sizes not powers of two); boost's Hermite polynomials by their recursion; state vectors as functions of the multi-index |
| `DriverModel.v` (C83-C86) | MCWF_Trajectory.h (make, makeEnsemble, stateIO), StochasticTrajectory.h (ParsStochastic, Ensemble), Random.h (EngineWithParameters, incrementForNextStream), Evolution_.h (evolve, SINGLE), StateVector.h (copy, move), DensityOperatorStreamer.h | state vectors are addresses into a store, a step of C31 reads and writes one address; run() is an optional reading of an archive followed by any sequence of steps and advances (its loop is C05-C12) |
| `PhaseModel.v` (C87-C89) | quantumdata/DistributionFunctions.h/.cc (details::w, wignerFunction, qFunction, scanFunction) | boost's Laguerre polynomials by their recursion, factorials overflow above 170; atan2 is a parameter; wignerFunctionOld, called by nothing, not modelled |
| `SigmaModel.v` (C90, C91) | quantumoperator/Sigma.h, Sigma.cc, interactions/MLJC.h | views write through; indices outside of the dimensions are excluded by the hypotheses; the ill-typed product of two Sigmas, labels and frequencies not modelled |
| `BichromaticModel.v` (C92) | frees/BichromaticMode.h, OneTime of structure/TimeDependence.h | averages, time scales not modelled |
| `EntangleModel.v` (C93-C95) | quantumdata/EntanglementMeasures.h, purity of DensityOperator.h | the eigenvalue solvers of Eigen are parameters |
| `FreqModel.v` (C96) | structure/DynamicsBase.cc (highestFrequency), initialTimeStep of utils/Trajectory.h and QuantumTrajectory.h, the lists of frequencies in Mode.tcc, Qbit.cc, Spin.cc, TimeIndependentMatrixHamiltonian.cc, JaynesCummings_.h, CoupledModes.cc, MLJC.h | names of the frequencies dropped; lists of HomodynedMode, particles, MultiLevel and GeneralDicke not modelled; std::max_element on reals |
| `PictureModel.v` (C97, C98) | high/QM_Picture.cc, quantumtrajectory/EvolutionMethod.cc, utils/ModeFunction.cc (streaming), applicableInMaster of Mode_.h, Spin.h, Particle_.h | on the command line of `ParsModel.v`; the type of a parameter is that of its value |
| `OutputModel.v` (C99) | FormDouble.h/.cc, stream of Trajectory.h, ElementAveraged.cc, DensityOperatorStreamer.h (streaming), Simulated_.h (stream) | a double is given by the decimal digits and exponent of its rounded value; the format of ostream (that of %g) is modelled |
| `AliasModel.v` (C100) | quantumdata/ArrayBase.h, constructors, assignments, arithmetic, slices and dyads of StateVector.h and DensityOperator.h | sharing and copying of blitz arrays as blocks of memory and handles; the order of subscripts is row-major; blocks are not freed |
| `PyModel.v` (C101-C108) | cpypyqed/tools: quantumstate.py (StateVector), operators.py, initialconditions.py | numpy's sum, tensordot, transpose, einsum, fft modules from their documentation, without broadcasting; real arithmetic; assigning a complex number to an element of an array of floats keeps the real part |
| `ScriptModel.v` (C109-C111) | CPPQEDscripts: PTLA_Evolved.cc, PTLA_EvolvedHL.cc, PumpedLossyMode_Evolved.cc, QbitMode_Evolved.cc | the initial array and the right-hand sides; parameters, first time step and the run are elsewhere |
| `PyTrajModel.v` (C112) | cpypyqed/tools/quantumstate.py: DensityOperator.fft, ifft | as PyModel.v |
| `PyLoadModel.v` (C113, C114) | cpypyqed/tools/io.py: load_evs, evs_header, load_jumps; Logger::onEnd in MCWF_TrajectoryLogger.cc | numpy.loadtxt from its documentation; float() is a parameter; files are sequences of characters, bzip2 is not modelled |
| `PyStateModel.v` (C115) | cpypyqed/io.cc, cpypyqed/blitz2numpy.h | boost archives are an encoding with the laws of `lawful`; of the serialization of blitz arrays the number of elements, elements and extents are there; bzip2 is transparent; PYTHON_MAX_RANK is a parameter |
| `SummaryModel.v` (C116) | quantumtrajectory/MCWF_TrajectoryLogger.cc: EnsembleLogger::stream | real arithmetic; boost's density accumulator with the size of the cache equal to the number of samples; formatting left out |
| `ContainerModel.v` (C117) | CPPQEDutils/ContainerIO.h; CPPQEDelements/utils/ModeFunction.cc: operator<<, operator>> | streams as the remaining text with two flags (eofbit; failbit or badbit); heterogeneous tuples as trees over one type of elements; type-erased custom containers left out |
| `GuideModel.v` (C118) | CPPQEDcore/examples/ExampleMode.cc, ExampleModeImpl.cc, ExampleInteraction.cc, ExampleInteraction.h | the functions equal to those of Mode.cc (aop, aJump, aDagJump, photonNumber, the exact propagator) are those of ModeModel.v and ElementModel.v; the namespaces basic and hierarchical together; frequencies as displayed left out |
| `TestConfModel.v` (C119) | Testing/testdriver.py: OptionsManager, OutputManager.runmodes, _filter_runmodes, output | configparser without DEFAULT, interpolation and upper-case letters in keys; the configuration after an exception is not modelled (the driver ends) |
| `VerdictModel.v` (C120, C121) | Testing/testdriver.py: load_sv without format, Verifier, CompileTarget | files after parsing; infinities left out; genfromtxt, allclose with broadcasting and Popen.communicate as documented |
| `CompareModel.v` (C122, C123) | Testing/testdriver.py: the regression of TrajectoryComparer and FunctionComparer for a column, StateComparer with final_temperature, PTLA_postprocess | real arithmetic; interp1d, quadrature and fixed_quad as in scipy, nodes of orders above 3 arbitrary; plots, start and length of the data left out |
| `CavScriptModel.v` (C124, C125) | CPPQEDscripts: 1particle1mode.cc, Ring.cc, Ring_Evolved.cc | the systems made of the parameters and the right-hand side; elements and interactions are those of ModeModel, ParticleModel; the composite's dynamics is the sum of the generators (CompositeModel); initial states, parameters, drivers not modelled |
| `TimeAvModel.v` (C126) | CPPQEDcore/quantumtrajectory/TimeAveragingMCWF_Trajectory.h | the members averages_ and sum_ followed along the events of RunModel; real arithmetic; Averaged::process is a parameter; the text of the header, which belongs to an earlier interface |
| `ProjModel.v` (C127) | CPPQEDcore/quantumtrajectory/ProjectingMCWF_Trajectory.tcc | the loops filling the metric and the columns streamed; LAPACK's inversion is a parameter supposed to invert; the text of the files, which belong to an earlier interface |
| `FuzzyModel.v` (C128) | CPPQEDutils/FuzzyDouble.h, FuzzyDouble.cc | real arithmetic: no rounding of differences, no infinities and NaN; gsl_fcmp of the external library is modelled after its documentation; what boost::totally_ordered derives is written out |
| `TwoPartModel.v` (C129) | CustomScriptsExample/2ParticlesRingCavitySine.cc, CustomElementsExample/interactions/MomentumCorrelation.cc | the system made of the parameters, the initial state of the particles as built from two given states, the averages; elements as in ModeModel, ParticleModel, CavScriptModel |
| `GenApplyModel.v` (C131) | CPPQEDcore/quantumoperator/applyImpl/generate.py | the statements printed as a syntax tree instead of text; names of ranges as pairs of number and letter; blitz ranges as intervals |
| `MetricModel.v` (C132, C133) | CPPQEDcore/quantumdata/Transformation.h, .tcc, .cc, NonOrthogonalStateVector.h, .tcc | arrays with addresses of their storage; a loop over slices is one write, which presupposes that it does not write what it reads (a separate outcome); matrices of all ranks, whereas ranks 1 and 2 are defined; the text of the header, parts of which belong to an earlier interface |
| `LvalueModel.v` (C134) | CPPQEDcore/quantumtrajectory/Evolution_.h, MCWF_Trajectory.h, .tcc, Master.h, .tcc, EnsembleMCWF.h, CPPQEDelements/utils/AveragingUtils.h, CPPQEDscripts/QbitMode_Matrix.cc | upon the memory of `AliasModel.v`; what the stepper and the jumps compute are parameters (functions of the elements), what is modelled is where they write |
| `OptoModel.v` (C135) | CPPQEDscripts/Optomechanics.cc | the system made of the parameters, upon `ModeModel.v` and `InteractionModel.v`; equations of motion of the master equation with the generator |
| `Ca40Model.v` (C136) | CPPQEDscripts/Ca40InCavityWithPhonons.cc | the parameters the script makes, its atom, modes and couplings, upon `ElementModel.v`, `ModeModel.v` and `SigmaModel.v`; the text of the file, parts of it belong to an earlier interface |
| `ImagModel.v` (C137) | CPPQEDscripts/GeneralDickeImaginaryEvolution.cc | the mapping of the parameters to imaginary time, the system made, the states projected upon; the energy of any state falls (Cauchy-Schwarz) |
| `VecParModel.v` (C138) | CPPQEDutils/IO_Manip.h | reading and writing of vectors upon any reading and writing of numbers, debug and release builds, joined with the parsing of the command line of `ParsModel.v` |
| `ExpvModel.v` (C139) | cpypyqed/tools/expvalues.py, utils.py | the ordered dictionary as keys and a map, collections of expectation values as rows with attributes which may be missing |
| `RamanModel.v` (C140) | CPPQEDscripts/Raman.cc, CavityRaman.cc | the systems made of the parameters, upon `ElementModel.v` (multi-level atoms) and `SigmaModel.v` (their coupling to modes) |
| `EngineModel.v` (C141) | CPPQEDutils/Random.h, Random.cc | variables, memory and archives of any engine, with or without shared states; filling of arrays with any distribution |
| `TriHeapModel.v` (C142) | CPPQEDcore/quantumoperator/Tridiagonal.h, .tcc, .cc, CPPQEDutils/BlitzTinyOfArrays.h, .tcc | the blocks of memory of the diagonals and frequencies of any number of operators and of the arrays of the user; refined to the operators of `TriModel.v` as values. Not modelled: arrays which refer to a part of a block, the memory given back |
| `GslViewModel.v` (C143) | CPPQEDutils/ODE_GSL.h, ArrayTraits.h, BlitzArray.h | views of memory with any strides, try_step and lowLevelSystemFunction upon them; the step of GSL, hadjust and isStorageContiguous are arbitrary functions |
| `CompositeModel.v` (C144) | composites/Composite.h/.tcc, CPPQEDscripts/2particles1mode.cc, interactions/IdenticalParticles.h | the same model as for C44, C45 and C63; renamings of subsystems and what they do to states, `ExchSpec.v`; the constituents of the script as an example, `ExchCases.v` |
| `HalfCutModel.v` (C145) | CPPQEDutils/BlitzTinyExtensions.h, quantumdata/DimensionsBookkeeper.h, DensityOperator.h (constructors, transposeSelf, diagonalSliceIndex, bounds, index) | the loops over components as written; an array is its shape and its elements by multi-index (memory is in `AliasModel.v`); what blitz::Array::transposeSelf does to extents and indices is an assumption about Blitz++, which is not part of the repository; conversions between integer types are the identity |

Not modelled: the scripts and the Python front end except for what is listed above, text formatting except for the lines of output (C99), blitz itself, GSL, Boost, the random engines' arithmetic.

## Plan and status per property

**C01** A single ODE step never leaves the requested interval — proved for all inputs, in `OdeProperties.v`. Controlled stepper as an oracle under an explicit contract (met by the model of the GSL stepper).

**C02** Tiny closing steps do not spoil the step-size memory — proved for all inputs, in `OdeProperties.v`. 

**C03** advance() and advanceTo() arrive exactly at the requested time — proved for all inputs, in `OdeProperties.v`. Real-number times; for double precision see C55.

**C04** The ODE engine can be run backward — partial, in `OdeProperties.v`. REFUTED: a fresh engine never moves backward; a repeated tiny backward step moves forward. Holds for a single reversal directly after a forward step.

**C05** Relative and absolute tolerance reach the stepper under their own names — partial, in `OdeProperties.v`. REFUTED: the two tolerances are exchanged on the way to the stepper (GSL: both sides in this repository; Boost: given the argument order of make_controlled).

**C06** No step with an error above tolerance is accepted — partial, in `OdeProperties.v`. REFUTED for the GSL stepper (return status of hadjust ignored). Holds for steppers which themselves reject.

**C07** Streaming schedule when the number of steps is given — proved for all inputs, in `RunProperties.v`. End time 0 is special-cased by the code (stream once, do not run) and excluded.

**C08** A run with an end time ends exactly there — proved for all inputs, in `RunProperties.v`. Real-number times; the contract on advance is C03, on a step C01.

**C09** The final state is always saved, once — proved for all inputs, in `RunProperties.v`. 

**C10** Resuming equals not stopping — proved for all inputs, in `RunProperties.v`. Data lines compared (the resumed file carries an additional comment). The trajectory is abstract with a bisimulation as the hypothesis that the saved state determines the future.

**C11** State files are append-only logs whose last record wins — proved for all inputs, in `StateFileProperties.v`. Archives as byte strings which do not begin with a decimal digit (Boost binary archives begin with byte 22); the third theorem shows the framing is ambiguous otherwise. Compression taken as transparent.

**C12** A state of another trajectory type is refused — proved for all inputs, in `StateFileProperties.v`. The protocol version is not compared by the code; array-only records carry no rank or type to be checked.

**C13** The stopping criterion compares with the true moving average — proved for all inputs, in `AutostopProperties.v`. Exact real arithmetic. The very first record is never taken into account.

**C14** Multi-index iteration visits every index exactly once, in order — proved for all inputs, in `MultiIndexProperties.v`. 

**C15** Slice iteration partitions the array — proved for all inputs, in `SliceProperties.v`. Arrays and views as index maps; blitz strides/transposeSelf modelled by their index semantics.

**C16** Acting on slices is acting with the operator on that subsystem — proved for all inputs, in `SliceProperties.v`. Operators as arbitrary matrices over any commutative ring with involution.

**C17** Applying a Tridiagonal is multiplying by its matrix — proved for all inputs, in `TriProperties.v`. For every rank, dimensions, offsets; scalars in any commutative ring with involution.

**C18** dagger() gives the adjoint — proved for all inputs, in `TriProperties.v`. 

**C19** The direct product of Tridiagonals is the tensor product — proved for all inputs, in `TriProperties.v`. Product taken when the two operators are at the same time (else the model raises TimeMismatch).

**C20** Tridiagonals form a vector space; mismatches are refused — partial, in `TriProperties.v`. Vector-space part and offset mismatches proved in full (an offset of 0, i.e. a purely diagonal operator, is compatible with any). REFUTED as stated for frequencies: the comparison is all(to!=from), so operators whose frequencies coincide in one place are added silently.

**C21** Propagating an operator in time is path independent and is the interaction picture — proved for all inputs, in `TriProperties.v`. 

**C22** Interaction picture of a product is the product of interaction pictures — partial, in `TriProperties.v`. REFUTED as stated: frequencies are lost when multiplying with an operator having a main diagonal without frequencies. Holds when both or neither carry frequencies.

**C23** Bosonic basis states of identical particles are enumerated exactly once — proved for all inputs, in `CwrProperties.v`. Numbers of combinations exact (long double in the code).

**C24** Command line: last occurrence wins, unknown is refused — partial, in `ParsProperties.v`. Values of any type with extraction reading word by word as hypothesis (met by the case of numbers). REFUTED in a corner: what is left of an unparsable value word may itself begin with the prefix and is then taken for a parameter (--n 5--m 7); otherwise proved.

**C25** Comment lines are marked and nothing is lost — proved for all inputs, in `CommentProperties.v`. 

**C26** Hermitian conjugation of multi-matrices — proved for all inputs, in `HermProperties.v`. 

**C27** Deflated density operators are faithful and match their labels — proved for all inputs, in `DensityProperties.v`. Labels represented by what they say instead of by their text.

**C28** Partial trace is the partial trace, for pure and mixed states alike — proved for all inputs, in `DensityProperties.v`. For a nonempty set of kept subsystems.

**C29** A pure state and its density operator agree — partial, in `DensityProperties.v`. REFUTED for the trace: that of a state vector is its norm instead of the square of the norm; they agree for unit (and null) vectors only. Elements, expectation values and purity agree.

**C30** Partial transposition — proved for all inputs, in `HermProperties.v`. 

**C31** A quantum trajectory is normalised at every streamed instant — proved for all inputs, in `McwfProperties.v`. System, ODE stepper and random engine are parameters; hypotheses: the stepper moves time forward, neither it nor the exact part annihilates the state, reported rates are truthful.

**C32** The jump probability per step is limited — proved for all inputs, in `McwfProperties.v`. The step is described from its last attempt on. Finiteness needs rates bounded on normalised states and ODE steps which return.

**C33** Which jump happens — proved for all inputs, in `McwfProperties.v`. A random number exactly on the boundary of two intervals makes no jump (measure zero).

**C34** A step-back leaves no trace — partial, in `McwfProperties.v`. REFUTED as stated: with exact propagation the reference time is left at the end of the rejected step, so the repeated step propagates by a wrong interval. Everything else is restored; without exact propagation the property holds.

**C35** The MCWF log is truthful — proved for all inputs, in `McwfProperties.v`. Overshoots already counted by the constructor are included in the count.

**C36** Saving and loading a quantum trajectory does not change its future — partial, in `MasterProperties.v`, `McwfProperties.v`. REFUTED for MCWF with explicitly time-dependent Hamiltonians without exact part: loading sets the reference time to the current time. Holds with exact part, for Hamiltonians not depending on the reference time, and for Master trajectories.

**C37** Exact propagation in the Master equation is conjugation by U — proved for all inputs, in `MasterProperties.v`. 

**C38** The Master right-hand side is the Lindblad form — proved for all inputs, in `MasterProperties.v`. The system acts as matrices on state vectors (hypothesis); superoperators given by the system are assumed to add J rho J^dagger, the fallback is proved to do so for Hermitian rho.

**C39** A Master trajectory always delivers a density operator of unit trace — proved for all inputs, in `MasterProperties.v`. The real part of the trace of what the ODE step delivers must not vanish; the propagator is an isometry (systems with a non-unitary one are refused by the constructor).

**C40** Time-dependent Hamiltonians are evaluated at the right time — partial, in `MasterProperties.v`. REFUTED for Master trajectories from the second step on, and for MCWF after loading: the reference time is moved to the current time. Holds for fresh MCWF trajectories.

**C41** Cached exact propagators are the right ones — partial, in `FreeExactProperties.v`. REFUTED as stated: a new object caches the zero interval with an uninitialised diagonal, so a first call asking for a zero interval multiplies with memory contents. Proved for every history once any call asked for a nonzero interval (modes, spins, particles; and any two-time propagator).

**C42** Ensemble averages are density operators — proved for all inputs, in `EnsembleProperties.v`. Real arithmetic instead of double.

**C43** Jumps of a binary system reach the right subsystem — partial, in `CompositeProperties.v`. REFUTED as stated: if the second free has no Liouvillean part, the number of jumps of the first is subtracted twice and the jumps of the interaction are lost. Proved for all other combinations; the order of the rates and everything else without restriction.

**C44** Jumps of a composite reach the right subsystem — proved for all inputs, in `CompositeProperties.v`, `ExchProperties.v`. 

**C45** Columns of a composite belong to their keys — proved for all inputs, in `CompositeProperties.v`, `ExchProperties.v`. 

**C46** Mode: jump, rate and superoperator describe the same loss — partial, in `ElementProperties.v`. REFUTED as stated: at finite temperature the absorption rate counts the highest level, which the truncated jump cannot raise (exact difference proved); PumpedLossyModeIP_NoExact returns the photon number without 2 kappa. Jumps, superoperators and loss rate proved for all states and cutoffs.

**C47** Non-Hermitian Hamiltonians match the jumps — partial, in `ModeProperties.v`. REFUTED as stated: for spins larger than 1/2 (every size) or tilted ones, for PumpedLossyModeAlternative at finite temperature, and on the highest level of truncated modes at finite temperature. Proved for modes in every picture below the highest level, qbits with phase noise, two-level atom, multi-level systems with any decays and diffusion, homodyned modes, spins 1/2 along z.

**C48** Diffusive superoperator equals the sum over its jumps — partial, in `ElementProperties.v`. REFUTED for non-uniform coefficients (the superoperator uses the first only); proved for uniform ones, every dimension.

**C49** Composition of mode functions — proved for all inputs, in `ParticleProperties.v`. Matrix elements as integrals over [-pi,pi] of plane waves, on the momentum grid of the particle, every wave number including those larger than the grid; both pictures. Real arithmetic instead of double.

**C50** Interaction picture and Schroedinger picture of a mode describe the same physics — partial, in `ModeProperties.v`. REFUTED as stated for Kerr terms: the interaction-picture Hamiltonian lacks the transformation, the resonant Schroedinger one drops the Kerr term, the undriven interaction-picture one drops the alternative Kerr term. Proved for all other parameters and for qbits without restriction.

**C51** Interactions are Hermitian — proved for all inputs, in `TriProperties.v`. 

**C52** The two code paths of ParticleTwoModes describe one Hamiltonian — partial, in `InteractionProperties.v`. REFUTED as stated: the relative phase enters the two code paths with opposite signs. What each path is, is proved; at the phases 0 and pi they are one formula.

**C53** Constructing a Tridiagonal from its diagonals — partial, in `TriProperties.v`. Holds for offset <= dimension; a purely diagonal operator constructed with larger offset silently gets the wrong dimension.

**C54** The interaction picture of a sum is the sum of the interaction pictures — partial, in `TriProperties.v`. REFUTED as stated: a frequency-less operator starts to rotate when added to one with frequencies. Holds for equal frequencies and times.

**C55** advance() ends exactly at the end time also in double precision — proved for all inputs, in `OdeProperties.v`. binary64 with gradual underflow, without overflow (Flocq).

**C56** The ODE log is truthful — proved for all inputs, in `OdeProperties.v`. 

**C57** The returned array is what was streamed — partial, in `RunProperties.v`. REFUTED in time-step mode: the record of the final instant is streamed but not returned. Holds in the two modes with intervals.

**C58** Direct products, dyads and the scalar product are what their names say — proved for all inputs, in `DensityProperties.v`. 

**C59** Renormalisation — proved for all inputs, in `DensityProperties.v`. 

**C60** Jump, rate and superoperator of the remaining elements describe the same loss — proved for all inputs, in `ElementProperties.v`. Real arithmetic instead of double.

**C61** Homodyne detection does not change the averaged dynamics — partial, in `ModeProperties.v`. REFUTED as stated: only the damping part of the shifted jumps is added to the Hamiltonian, the compensating Hermitian part is missing, so the detection drives the mode. Exactly which drive remains is proved for all parameters.

**C62** The Hamiltonian of a spin is that of its axis, in both pictures — proved for all inputs, in `ModeProperties.v`. 

**C63** The dynamics of a composite is made of those of its constituents — proved for all inputs, in `CompositeProperties.v`, `ExchProperties.v`. The master equation of binary systems is under C43.

**C64** The time scale of a composite is that of its fastest constituent — partial, in `CompositeProperties.v`. REFUTED as stated: Composite considers the frees only. Proved for BinarySystem, and that it is the maximum over the frees for Composite.

**C65** A composite is built exactly from consistent interactions — proved for all inputs, in `CompositeProperties.v`. Frees are compared by pointer, represented by numbers.

**C66** The Hamiltonian of a particle is the kinetic energy plus the optical potential, in both pictures — proved for all inputs, in `ParticleProperties.v`. Real arithmetic instead of double.

**C67** The Hamiltonian of a particle in a cavity is one formula — proved for all inputs, in `InteractionProperties.v`. Constituents in the Schroedinger picture (pictures are C68). States without momenta within the cavity wave number of the edges of the grid, for the path of different wave numbers (see C69_edges_refuted).

**C68** The evolution generated by an interaction does not depend on the pictures of its constituents — partial, in `InteractionProperties.v`. REFUTED as stated: products with operators without frequencies (number operators, identities, operators of constituents in the Schroedinger picture) lose the frequencies and do not rotate. Proved where all constituents are in the same picture and no such operator takes part.

**C69** Interactions conserve the norm — partial, in `InteractionProperties.v`. REFUTED as stated: GeneralDicke with complex couplings is not Hermitian, nor is the path of different wave numbers at the edges of the momentum grid. Proved for the others, in the cases covered by C68.

**C70** Parameters are declared once — partial, in `ParsProperties.v`. REFUTED as stated in one corner: a switch s is refused if the name no_s is taken, but stays declared. Proved otherwise.

**C71** The matrix calculated from a Hamiltonian is its matrix — proved for all inputs, in `MatHamProperties.v`. The Hamiltonian is any stateful function, linear in the state. Concrete instances: matrix Hamiltonian, mode, interactions.

**C72** A two-level atom is the same system in all three implementations — proved for all inputs, in `MatHamProperties.v`. Real arithmetic instead of double.

**C73** What an element displays under a label is the quantity named by the label — partial, in `AverageProperties.v`. REFUTED as stated: the column <sz^2> of spins holds the variance of sz. All other columns of all elements are proved. Real arithmetic instead of double.

**C74** Correlations displayed for pairs of elements are the correlations named by the labels — proved for all inputs, in `AverageProperties.v`. sigma=|0><1|, sigmaZ=(|1><1|-|0><0|)/2. Real arithmetic instead of double.

**C75** The negativity is displayed next to the reduced density operator it belongs to — partial, in `CollectProperties.v`. REFUTED as stated: blitz resize does not keep the contents, so the averages are lost before processing. The processing itself is proved right.

**C76** A collection of averages displays what its members would display — proved for all inputs, in `CollectProperties.v`. Members have to give as many averages as they have labels (otherwise the library throws).

**C77** The analytic driven damped oscillator is the solution of its equation — proved for all inputs, in `DdhoProperties.v`. Eigen's solver of two linear equations is any function solving them whenever the determinant does not vanish. Real arithmetic instead of double.

**C78** Initial states of modes and qbits are the states asked for — proved for all inputs, in `InitialProperties.v`. Real arithmetic instead of double. Beyond 170 levels the amplitudes are those of the Stirling formula: modelled, but nothing is claimed about them.

**C79** Switching between position and momentum space is the Fourier transformation — proved for all inputs, in `FourierProperties.v`. The FFT library (gsl_fft_complex_radix2) is modelled by the sum it documents. Real arithmetic instead of double. A size of 0 is accepted by the model and transforms nothing.

**C80** Particles display the moments of momentum and position — proved for all inputs, in `FourierProperties.v`. Real arithmetic instead of double.

**C81** Wave packets are the Gaussians asked for, in both spaces — proved for all inputs, in `FourierProperties.v`. Real arithmetic instead of double.

**C82** Harmonic oscillator initial states are the eigenstates — partial, in `FourierProperties.v`. REFUTED as stated: with no width given, hoState uses the width of the Gaussian packet (1/sqrt 2 times the characteristic length) as characteristic length, so state number 0 is too narrow. With the length given the eigenstates are proved right, and so is the default packet. At least one of the samples must not vanish for normalising.

**C83** Members of an ensemble are the single trajectories with consecutive random streams — proved for all inputs, in `DriverProperties.v`. The random engine is any function of seed and stream. State vectors are addresses into a store; every write of a step goes to the address of its psi_.

**C84** With the noise switched off there are no jumps — partial, in `DriverProperties.v`. REFUTED as stated: the parameter noise is not used by anything. Only systems without Liouvillean are free of jumps.

**C85** The columns of density-operator trajectories are the ones of the key — proved for all inputs, in `DriverProperties.v`. The measures themselves are any functions here (C28, C30 for partial trace and transposition). Elements must give as many averages as they have labels, also after processing.

**C86** The evolved state is accessible through the state given by the caller — partial, in `DriverProperties.v`. REFUTED as stated: reading a state file makes the trajectory refer to a new array, so the state of the caller remains the initial one. Without state file it is proved to be the evolved one.

**C87** wignerFunction is the quasi-probability density of the documented quadratures — partial, in `PhaseProperties.v`. REFUTED as stated: wignerFunction is half of the density in the documented quadratures (the prefactor is that of quadratures larger by sqrt 2). Apart from the factor it is proved equal to the unique solution of the correspondence rules, for all Hermitian operators of dimension up to 171; above, factorials overflow. atan2 is any function giving the polar angle. Real arithmetic instead of double.

**C88** qFunction is the overlap with the coherent state — proved for all inputs, in `PhaseProperties.v`. Up to 170 levels, above which the amplitudes are those of the Stirling formula (C78). Density operators as mixtures of normalised pure states. Real arithmetic instead of double.

**C89** A scan covers its grid — proved for all inputs, in `PhaseProperties.v`. Real arithmetic instead of double: the accumulation of rounding errors in x+=step is not modelled.

**C90** Direct products of transition operators act as tensor products — proved for all inputs, in `SigmaProperties.v`. The product of two Sigmas is not modelled: the type it is declared to return does not fit, unless the two right levels are the same (Sigma.h:130-135). Levels have to be inside the dimensions, the code does not check.

**C91** The multi-level Jaynes-Cummings interaction generates its Hamiltonian — proved for all inputs, in `SigmaProperties.v`. Modes in interaction picture with a Kerr term are excepted, as in C68. The exception is thrown by the first coupling, so that with none there is none. Real arithmetic instead of double.

**C92** A mode with two drives is driven at two frequencies — partial, in `BichromaticProperties.v`. REFUTED as stated, for every mode with two different drives: the phase of the second drive is counted from the last exact propagation (t-t0), which trajectories make in every step, so that it starts again in every step. Proved with t-t0 in place of t, and with equal detunings. (The equation of the script PumpedLossyMode_Evolved.cc has the sum of the detunings instead of the difference; scripts are not modelled.) Without Kerr term, for which see C50. Real arithmetic instead of double.

**C93** The negativity of the partial transpose is an entanglement measure — proved for all inputs, in `EntangleProperties.v`. The eigenvalue solvers of Eigen are parameters: the theorems assume that on the matrix in question they return the eigenvalues belonging to some complete orthonormal set of eigenvectors; that the result does not depend on which is proved. Real arithmetic instead of double.

**C94** Entropy and mutual information are those of von Neumann — proved for all inputs, in `EntangleProperties.v`. The eigenvalue solvers of Eigen are parameters: the theorems assume that on the matrix in question they return the eigenvalues belonging to some complete orthonormal set of eigenvectors; that the result does not depend on which is proved. Real arithmetic instead of double.

**C95** The purity of a part measures the entanglement of pure states — proved for all inputs, in `EntangleProperties.v`. Real arithmetic instead of double.

**C96** The first time step is short on the time scale of the dynamics — partial, in `FreqProperties.v`. REFUTED as stated: the list of the driven qbit with phase noise in the unitary interaction picture lacks the drive; Kerr terms are in no list; the frequencies of spins, of the Jaynes-Cummings interaction with a spin and of the multi-level Jaynes-Cummings interaction lack multipliers growing as the matrix elements do. Proved for modes without Kerr terms (in one case with a factor sqrt 2), qbits otherwise, matrix Hamiltonians, Jaynes-Cummings with qbit, coupled modes. Particles, HomodynedMode, MultiLevel not modelled.

**C97** A run with the master equation uses a picture in which it is possible — partial, in `PictureProperties.v`. REFUTED as stated: there is no Schroedinger picture for qbits with phase noise, the interaction picture is used instead, so the system is refused. Everything else proved.

**C98** Enumerated parameters are read as they are written — proved for all inputs, in `PictureProperties.v`. Streams are texts; words end at white space.

**C99** Every line of the output splits into its columns — proved for all inputs, in `OutputProperties.v`. The rounding to decimal digits is that of the C++ library; its format (%g) is modelled. Non-negative precision.

**C100** State vectors and density operators are values — partial, in `AliasProperties.v`. REFUTED as stated: the move constructors leave the argument sharing the data, and the moving assignments copy elements, so that std::swap leaves the value of the second in both objects, always. Everything else proved. Arrays of different shapes in assignments and arithmetic are undefined, as blitz checks shapes in debug mode only.

**C101** Expectation values of the Python state vector — partial, in `PyProperties.v`. REFUTED as stated: expvalue conjugates the wrong factor, so it returns the expectation value of the transposed operator (minus the right value for sigma_y; <a> for the creation operator). Proved to be exactly that in general, and right for symmetric operators or real amplitudes.

**C102** Expectation values of diagonal operators in Python — proved for all inputs, in `PyProperties.v`. numpy broadcasting not modelled (shapes have to agree).

**C103** Acting with operators on a Python state vector — proved for all inputs, in `PyProperties.v`. einsum with implicit output modelled generally.

**C104** Reduction of Python state vectors — proved for all inputs, in `PyProperties.v`. Real arithmetic.

**C105** Fourier transformation of Python state vectors — proved for all inputs, in `PyProperties.v`. numpy.fft is the discrete Fourier transform, in real arithmetic.

**C106** Wave packets in Python are those of C++ — proved for all inputs, in `PyProperties.v`. Real arithmetic.

**C107** Coherent states in Python — partial, in `PyProperties.v`. REFUTED as stated: the recursion is done in an array of reals, so the imaginary part is lost; the result is the coherent state of Re(alpha), with the wrong norm. Right for real alpha.

**C108** Fock states and momentum eigenstates in Python — partial, in `PyProperties.v`. REFUTED as stated: negative subscripts count from the end in Python, so momenta below the grid silently give another momentum. Right for those on the grid; those above it, and those far below are refused.

**C109** The Bloch equations are the master equation of the pumped two-level atom — proved for all inputs, in `ScriptProperties.v`. Real arithmetic; the accuracy of the integration is not part of this.

**C110** The amplitude of a mode with two drives — partial, in `ScriptProperties.v`. REFUTED as stated: the script has exp(i t (deltaOther+delta)), while the second drive of the mode is exp(i t (delta-deltaOther)). Right with no second drive, or with deltaOther=0.

**C111** The amplitudes of a mode and of a two-level system in it — partial, in `ScriptProperties.v`. REFUTED as stated: the mode is driven by conj(g)<sigma>, the script has g<sigma>. Right for real g; the other equation, and that of the atom alone, are right up to terms proportional to the excitation.

**C112** Fourier transformation of density operators in Python — proved for all inputs, in `PyTrajProperties.v`. Real arithmetic; subsystems given explicitly.

**C113** Reading the data of trajectory files in Python — partial, in `PyTrajProperties.v`. REFUTED as stated: with a single line of numbers (e.g. a run of zero length) loadtxt returns a one-dimensional array, so that swapaxes raises an exception. Right with at least two lines and two columns; the header is right always.

**C114** Reading the quantum jumps of a trajectory in Python — partial, in `PyTrajProperties.v`. REFUTED as stated: a single jump gives a one-dimensional array, so that the documented way of indexing fails; the file of a resumed trajectory cannot be read, as the commentary on continuing is taken for a jump. Right with at least two jumps in a file of one run.

**C115** State files are exchanged with Python — partial, in `PyStateProperties.v`. REFUTED as stated: write labels arrays of real numbers as complex ones, so that reading them raises an exception; it ignores strides, so that of a transposed array the elements are written in the original order; of arrays of other types an empty file is written without an error. Right for contiguous complex arrays; reading the files of trajectories is right. The initial time in the file is not taken over by trajectories. Archives are any encoding satisfying the laws in PyStateSpec.v.

**C116** The summary of an ensemble of quantum trajectories — partial, in `SummaryProperties.v`. REFUTED as stated in corners: with nBins=nJumpsPerBin=0 the program divides by zero; with nBins>0 and no jumps the fractions are 0/0. Proved in all other cases; real arithmetic; the density accumulator of boost is modelled from its source.

**C117** Containers are read as they are written — partial, in `ContainerProperties.v`. REFUTED as stated: the input operator of the kind of mode functions takes the comma after it, so that a mode function which was written cannot be read. Right if the input operator of the elements stops at delimiters: then the texts read are exactly the spellings, and what was written is read back.

**C118** The example elements of the structure guide are what the guide says — partial, in `GuideProperties.v`. REFUTED as stated: the column of the number operator is twice its mean (the jump rate with kappa=1 is displayed), and the interaction supplies H instead of H/i, so that it is not unitary. Right: the modes in both pictures with their jumps, the columns of the ladder operator, and the correlations; the interaction agrees between the pictures. The rate of absorption is as in C46 (highest level).

**C119** The value of a configuration key of the test driver is that in the nearest importing section, whatever was looked up before — proved for all inputs, in `TestConfProperties.v`. the chain of imports is a relation on the file as written; the look-up of the model rewrites the configuration as the code does

**C120** A verification succeeds exactly if the outputs agree with the expected ones — partial, in `VerdictProperties.v`. REFUTED as stated: with verify=outcome the method is called without its arguments, so the test never succeeds; with any other value but full everything succeeds; and by broadcasting a trajectory of one line agrees with one of several lines (whose times are close). Right for the full verification of trajectories of at least two lines and columns, and state files which both have one or both several states.

**C121** A compilation test succeeds exactly if the target compiles, or fails with the message expected — partial, in `VerdictProperties.v`. REFUTED as stated: the message, a str, is searched in bytes, which is a TypeError, so that a test expecting a message never succeeds. Right without a message.

**C122** A comparison of trajectories succeeds exactly if the integral of the squared difference is small — partial, in `CompareProperties.v`. REFUTED as stated: the adaptive quadrature stops when orders 1 and 2 agree, so that data which differ arbitrarily at one time are accepted; and the documented key of the run modes is ignored, it has to end in _local. Right for differences which are linear in time, and for the key with _local.

**C123** The references which the physics tests compare to are right — partial, in `CompareProperties.v`. REFUTED as stated: the number of photons is fixed to 4 in the normalisation, so at any other temperature the thermal state itself is refused. Right for 4 photons; the columns made of the Bloch vector are right.

**C124** The scripts of a particle and a mode simulate the whole light shift — partial, in `CavScriptProperties.v`. REFUTED as stated: ParticleOrthogonalToCavity couples a g(x), not a^dagger g(x), so that with a running-wave pump the recoil has the wrong direction; and in the interaction picture the light shift of standing waves is wrong (as in C68). Right in the Schroedinger picture for the particle moving along the cavity, and orthogonally to it with a standing-wave pump.

**C125** The ring cavity and its semiclassical counterpart are the same system — partial, in `CavScriptProperties.v`. REFUTED as stated: Ring_Evolved does not look at the wave numbers of the modes, they are taken to be 1. Right for wave number 1. Ring.cc is right in all pictures for waves running in opposite directions, otherwise proved in the Schroedinger picture.

**C126** Time averages of a quantum trajectory — partial, in `TimeAvProperties.v`. REFUTED as stated: run saves the state before it streams, so that if the last instant of a session was saved by its period, the sample of this instant is missing from the averages in the state file and from those of the resumed trajectory. Right for sessions which end by saving, in particular if no period is given or it does not divide the number of intervals; and for a trajectory which is not interrupted.

**C127** Projections of a quantum trajectory on given states — partial, in `ProjProperties.v`. REFUTED as stated: the column called sum of overlaps is the sum of the overlaps displayed for orthonormal states only, and without states the key announces a column which is not streamed. The column is the weight in the span for all independent sets, LAPACK being supposed to invert the matrix of overlaps.

**C128** Comparing numbers with tolerance — partial, in `FuzzyProperties.v`. REFUTED as stated: equality with tolerance is not transitive (1, 1+2t, 1+4t), so that it is not an equivalence, and the numbers are no keys of ordered containers. Trichotomy, the derived operators, the tolerance and the transitivity of < hold, in real arithmetic.

**C129** Two particles in a cavity, the example of a custom script — partial, in `TwoPartProperties.v`. REFUTED as stated: the script gives the same object for both particles, so that the recoil frequency of the second is ignored; and fermions in the same state leave nothing to be normalised. Right in the Schroedinger picture for particles with the same parameters.

**C130** Which parameters decide how a trajectory is run — proved for all inputs, in `RunChoiceProperties.v`. the dispatcher together with the run it chooses (RunModel.v)

**C131** Generated code for applying tridiagonal operators — proved for all inputs, in `GenApplyProperties.v`. the printed statements as a syntax tree, executed by a small interpreter; equal to the general code of TriModel.v and to multiplication with the matrix

**C132** Composite transformations of states — partial, in `MetricProperties.v`. REFUTED as stated: with an odd number of factors, more than one, the array given for the result is made to refer to other storage, and the storage given keeps what was there before the last factor; and a single factor cannot be applied in place. What the array refers to is right in all other cases.

**C133** Norm of state vectors on non-orthogonal bases — partial, in `MetricProperties.v`. REFUTED as stated: the dual vector is not updated by copying and by vector-space operations, after a multiplication by c the norm is sqrt(c) times the old one. Right after an explicit update.

**C134** The evolved state in the object given as the initial state — partial, in `LvalueProperties.v`. REFUTED as stated: reading a state file makes the array of the trajectory refer to new memory, so that after a resumed run the object given keeps its initial value, and QbitMode_Matrix displays the averages of the initial state at all times; and a state vector evolved with the Master equation is not changed. Right for fresh runs.

**C135** The script of optomechanics — partial, in `OptoProperties.v`. REFUTED as stated: in the interaction pictures, the default, the frequency of the oscillator is lost in the product of the operators n and x (as in C68), so that the coupling is a wrong one for all parameters with a frequency. Right in the Schroedinger picture.

**C136** The script of an ion in a cavity with phonons — partial, in `Ca40Properties.v`. REFUTED as stated: the Clebsch-Gordan amplitudes, not their squares, multiply the decay rates, so that P1/2 decays too fast into both multiplets with wrong branching ratios; and the detuning of the laser never enters the energies of the levels. The couplings and the cavity are right.

**C137** Imaginary-time evolution of the Dicke model — partial, in `ImagProperties.v`. REFUTED as stated: the call calculating the eigenvectors is commented out, so that the states projected upon are the rows of the Hamiltonian, and all of them, the number asked for is not looked at; temperature, Kerr terms and the orientation of the spin are not mapped to imaginary time. Otherwise the generator is right and the energy never increases.

**C138** Vectors as parameters — partial, in `VecParProperties.v`. REFUTED as stated: in release builds the separators are not checked, any characters are taken for them, so that [0 -1] is read as (0,1). Correct vectors are read right in all builds, and wrong separators are refused in debug builds.

**C139** Expectation values in Python — partial, in `ExpvProperties.v`. REFUTED as stated: slices and results of arithmetic have no titles, slices in time keep all of the times, the trajectories keep the old values when the collection is changed in place, and an ordered dictionary cannot be copied. New collections and their subsystems are as stated, and so is the ordered dictionary.

**C140** Raman transitions — proved for all inputs, in `RamanProperties.v`. Without phase diffusion (gamma_parallel of 0). Raman.cc and CavityRaman.cc with the model of the multi-level elements; the trapped states are characterised, not only shown to be there.

**C141** Random engines — partial, in `EngineProperties.v`. REFUTED as stated: copies of a GSL engine share its state, and fill constructs the distribution anew, so that distributions with memory lose what they keep between parts. Engines other than copies of GSL ones have states of their own, saved engines are resumed, and distributions without memory fill in parts.

**C142** Tridiagonal operators are values — partial, in `TriHeapProperties.v`. REFUTED as stated: when += throws because of the frequencies the diagonals have already been added, and assigning an operator to one with other shapes of diagonals (e.g. without off-diagonals) is undefined. Otherwise every program with operators in memory does the same as with values, exceptions included.

**C143** The GSL stepper evolves the array it is given — partial, in `GslViewProperties.v`. REFUTED as stated: the layout of the array is not checked in the first step, nor ever in release builds, so that the equations of motion see the elements of a transposed array at other places, and those in the gaps of an array are changed; in release builds arrays of another size are not refused. For arrays stored row by row all holds.

**C144** Identical subsystems are not told apart — proved for all inputs, in `ExchProperties.v`. Upon CompositeModel.v. The Hamiltonian: the constituents having one are taken into themselves by the renaming; the propagator: those having one do not share subsystems, as frees; the operators of constituents are functions of the object, so that one object at several places has the same.

**C145** Density operators know their dimensions — partial, in `HalfCutProperties.v`. REFUTED as stated: in release builds the extents for bras are not compared with those for kets, so that an array with other extents is accepted. In debug builds, and in release builds for arrays with equal halves, the dimensions agree with the array after every program.

## Print Assumptions

Abbreviations: fd = ClassicalDedekindReals.sig_forall_dec, nd = ClassicalDedekindReals.sig_not_dec, fe = FunctionalExtensionality.functional_extensionality_dep, cl = Classical_Prop.classic. All of them belong to the standard library.

| Theorem | Assumptions |
|---|---|
| C14_multi_index_iteration | none |
| C15_slices_partition | none |
| C16_slices_action | none |
| C17_apply_is_matrix | none |
| C18_dagger_is_adjoint | none |
| C19_direct_product_is_tensor | none |
| C20_vector_space | none |
| C20_frequency_mismatch_refuted | none |
| C20_frequency_mismatch_partial | none |
| C21_propagate | nd, fd, fe |
| C22_propagate_product_refuted | nd, fd, fe |
| C22_propagate_product_partial | nd, fd, fe |
| C51_interactions_hermitian | none |
| C53_unary_constructor_partial | none |
| C53_unary_constructor_refuted | none |
| C54_propagate_sum_partial | nd, fd, fe |
| C54_propagate_sum_refuted | nd, fd, fe |
| C01_step_within_interval | fd, fe |
| C01_step_returns | fd, fe |
| C01_gsl_stepper | fd, fe |
| C02_tiny_step_memory | fd, fe |
| C03_advance_exact | fd, fe |
| C03_engine_advance_exact | fd, fe |
| C04_backward_refuted | fd, fe |
| C04_backward_partial | fd, fe |
| C05_tolerances_refuted | fd, fe |
| C05_tolerances_partial | none |
| C06_error_control_refuted | fd, fe |
| C06_error_control_partial | fd, fe |
| C55_advance_double | nd, fd, fe, cl |
| C56_ode_log | fd, fe |
| C07_streaming_schedule | fd, fe |
| C07_every_dc_th_step | fd, fe |
| C08_ends_exactly | fd, fe |
| C08_returns | fd, fe |
| C08_nothing_beyond | fd, fe |
| C09_final_state_saved_once | fd, fe |
| C10_resume_equals_not_stopping | fd, fe |
| C57_returned_array_refuted | fd, fe |
| C57_returned_array_partial | fd, fe |
| C11_records_recovered | none |
| C11_last_record_wins | none |
| C11_text_archive_not_recovered | none |
| C12_mismatch_refused | none |
| C12_match_accepted | none |
| C12_array_only | none |
| C12_mismatch_in_file | none |
| C13_stops_at_first_settled | fd, fe |
| C13_switched_off | fd, fe |
| C25_every_text_has_lines | none |
| C25_lines_marked | none |
| C25_line_recovered | none |
| C25_text_recovered | none |
| C23_each_once | none |
| C23_nothing_else | none |
| C23_lookups_inverse | none |
| C23_refused | none |
| C24_last_occurrence_wins | none |
| C24_unparsable_aborts_refuted | none |
| C24_refused_partial | none |
| C24_switch_forms_agree | none |
| C24_switch_has_both_forms | none |
| C70_recreation_refused | none |
| C70_new_parameter | none |
| C70_new_title | none |
| C70_refused_switch_refuted | none |
| C70_new_switch_partial | none |
| C26_hermitian_conjugation | none |
| C26_two_real_part | none |
| C30_partial_transpose | none |
| C27_deflate_faithful | none |
| C28_partial_trace | none |
| C29_trace_refuted | nd, fd, fe |
| C29_elements_partial | none |
| C29_trace_partial | nd, fd, fe |
| C58_direct_products | none |
| C59_renorm | nd, fd, fe |
| C31_norm | nd, fd, fe |
| C32_limited | nd, fd, fe |
| C32_finite | nd, fd, fe |
| C33_which | nd, fd, fe |
| C33_measure | fd, fe |
| C34_step_back_refuted | nd, fd, fe, cl |
| C34_step_back_partial | nd, fd, fe |
| C35_log | nd, fd, fe |
| C36_save_load_refuted | nd, fd, fe |
| C36_exact_partial | nd, fd, fe |
| C36_no_exact_partial | nd, fd, fe |
| C36_master | fd, fe |
| C37_exact | none |
| C38_lindblad | fd, fe |
| C39_unit_trace | fd, fe |
| C40_master_refuted | fd, fe |
| C40_reload_refuted | nd, fd, fe |
| C40_mcwf_partial | nd, fd, fe |
| C41_exact_propagator_refuted | nd, fd, fe |
| C41_exact_propagator_partial | nd, fd, fe |
| C41_two_time_partial | fd, fe |
| C42_ensemble_average | fd, fe |
| C42_nested_ensembles | fd, fe |
| C46_superoperator_partial | nd, fd, fe |
| C46_loss_rate_partial | nd, fd, fe |
| C46_absorption_rate_partial | nd, fd, fe |
| C46_absorption_rate_refuted | nd, fd, fe |
| C46_no_exact_rate_refuted | nd, fd, fe |
| C48_uniform_partial | nd, fd, fe |
| C48_jumps_partial | nd, fd, fe |
| C48_refuted | nd, fd, fe |
| C60_spin | nd, fd, fe |
| C60_multilevel | nd, fd, fe |
| C60_two_level | nd, fd, fe |
| C60_phase_noise | nd, fd, fe |
| C60_homodyne | nd, fd, fe |
| C50_pictures_partial | nd, fd, fe |
| C50_qbit | nd, fd, fe |
| C50_kerr_interaction_picture_refuted | nd, fd, fe |
| C50_kerr_schroedinger_refuted | nd, fd, fe |
| C50_kerr_alternative_refuted | nd, fd, fe |
| C47_trace | fd, fe |
| C47_mode_partial | nd, fd, fe |
| C47_mode_highest_level_refuted | nd, fd, fe |
| C47_alternative_partial | nd, fd, fe |
| C47_alternative_refuted | nd, fd, fe |
| C47_qbit | nd, fd, fe |
| C47_two_level | nd, fd, fe |
| C47_multilevel | nd, fd, fe |
| C47_homodyne_partial | nd, fd, fe |
| C47_spin_half_partial | nd, fd, fe |
| C47_spin_refuted | nd, fd, fe |
| C47_spin_tilted_refuted | nd, fd, fe |
| C61_partial | nd, fd, fe |
| C61_refuted | nd, fd, fe |
| C62_spin_hamiltonian | nd, fd, fe |
| C62_spin_pictures | nd, fd, fe |
| C43_refuted | fd, fe |
| C43_lost_refuted | fd, fe |
| C43_jump_partial | fd, fe |
| C43_super_partial | fd, fe |
| C43_rates | fd, fe |
| C44_jump | fd, fe |
| C44_super | fd, fe |
| C44_rates | fd, fe |
| C44_belong | fd, fe |
| C45_averages | fd, fe |
| C45_averages_binary | fd, fe |
| C45_process | fd, fe |
| C45_process_binary | fd, fe |
| C45_stream | fd, fe |
| C45_stream_binary | fd, fe |
| C45_key | fd, fe |
| C45_key_binary | fd, fe |
| C45_key_rates | fd, fe |
| C45_key_rates_binary | fd, fe |
| C63_hamiltonian | fd, fe |
| C63_hamiltonian_binary | fd, fe |
| C63_propagator | fd, fe |
| C63_propagator_binary | fd, fe |
| C63_applicable | fd, fe |
| C63_applicable_binary | fd, fe |
| C63_isometric | fd, fe |
| C63_master | fd, fe |
| C43_master_partial | fd, fe |
| C64_refuted | fd, fe |
| C64_frees_partial | fd, fe |
| C64_binary | fd, fe |
| C65_fill | none |
| C65_check | none |
| C65_construction | none |
| C65_characteristics | fd, fe |
| C49_composition | nd, fd, fe, cl |
| C49_refused | nd, fd, fe |
| C49_mode_function | nd, fd, fe, cl |
| C49_unique | nd, fd, fe |
| C66_pumped | nd, fd, fe, cl |
| C66_free | nd, fd, fe, cl |
| C66_determined | nd, fd, fe |
| C52_two_modes_refuted | nd, fd, fe, cl |
| C52_two_modes_partial | nd, fd, fe, cl |
| C52_real_phase_partial | nd, fd, fe, cl |
| C67_along_cavity | nd, fd, fe, cl |
| C67_not_pumped | nd, fd, fe, cl |
| C67_effective_coupling | nd, fd, fe |
| C67_matrices | nd, fd, fe, cl |
| C67_generator_unique | nd, fd, fe |
| C68_mixed_pictures_refuted | nd, fd, fe, cl |
| C68_coupled_modes_refuted | nd, fd, fe, cl |
| C68_dispersive_refuted | nd, fd, fe, cl |
| C68_jaynes_cummings_partial | nd, fd, fe |
| C68_coupled_modes_partial | nd, fd, fe |
| C68_general_dicke_partial | nd, fd, fe |
| C68_orthogonal_partial | nd, fd, fe, cl |
| C68_along_partial | nd, fd, fe, cl |
| C68_not_pumped_partial | nd, fd, fe, cl |
| C69_general_dicke_refuted | nd, fd, fe |
| C69_edges_refuted | nd, fd, fe, cl |
| C69_jaynes_cummings_partial | nd, fd, fe |
| C69_coupled_modes_partial | nd, fd, fe |
| C69_general_dicke_partial | nd, fd, fe |
| C69_orthogonal_partial | nd, fd, fe, cl |
| C69_along_partial | nd, fd, fe, cl |
| C69_along_equal_partial | nd, fd, fe, cl |
| C69_not_pumped_partial | nd, fd, fe, cl |
| C69_two_modes_partial | nd, fd, fe, cl |
| C71_matrix | fd, fe |
| C71_round_trip | fd, fe |
| C71_matrix_hamiltonian | fd, fe |
| C71_mode | nd, fd, fe |
| C71_interaction | nd, fd, fe |
| C71_interaction_later | nd, fd, fe |
| C72_hamiltonians | nd, fd, fe |
| C72_jumps | nd, fd, fe |
| C73_mode | nd, fd, fe |
| C73_quadratures | nd, fd, fe |
| C73_cutoff | nd, fd, fe |
| C73_no_exact | nd, fd, fe |
| C73_qbit | fd, fe |
| C73_spin_refuted | nd, fd, fe |
| C73_spin_partial | nd, fd, fe |
| C74_modes | nd, fd, fe |
| C74_qbit_mode | nd, fd, fe |
| C75_negativity_refuted | fd, fe |
| C75_negativity_partial | fd, fe |
| C76_collecting | fd, fe |
| C76_processing | fd, fe |
| C77_solution | nd, fd, fe, cl |
| C77_unique | nd, fd, fe, cl |
| C78_fock | nd, fd, fe |
| C78_coherent | nd, fd, fe, cl |
| C78_photonNumber | fd, fe |
| C78_init | nd, fd, fe, cl |
| C78_qbit | nd, fd, fe |
| C79_vector | nd, fd, fe |
| C79_refused | nd, fd, fe |
| C79_unitary | nd, fd, fe |
| C79_axis | nd, fd, fe |
| C79_sequence | nd, fd, fe |
| C79_mixed | nd, fd, fe |
| C80_mixed | nd, fd, fe |
| C80_pure | nd, fd, fe |
| C81_packet | nd, fd, fe |
| C82_eigenstates_partial | nd, fd, fe, cl |
| C82_packet_partial | nd, fd, fe, cl |
| C82_ground_partial | nd, fd, fe, cl |
| C82_default_refuted | nd, fd, fe, cl |
| C83_members | nd, fd, fe |
| C83_streams | none |
| C83_after | nd, fd, fe |
| C83_split | nd, fd, fe |
| C84_noise_refuted | nd, fd, fe |
| C84_closed_partial | nd, fd, fe |
| C85_columns | fd, fe |
| C85_titles | fd, fe |
| C86_resumed_refuted | nd, fd, fe |
| C86_resumed_untouched | nd, fd, fe |
| C86_fresh_partial | nd, fd, fe |
| C87_density_refuted | nd, fd, fe, cl |
| C87_half_partial | nd, fd, fe, cl |
| C87_family | nd, fd, fe, cl |
| C88_overlap | nd, fd, fe, cl |
| C88_range | nd, fd, fe, cl |
| C89_scan | fd, fe |
| C89_endless | fd, fe |
| C90_product | fd, fe |
| C90_dagger | fd, fe |
| C91_generator | nd, fd, fe |
| C91_norm | nd, fd, fe |
| C91_refused | nd, fd, fe |
| C92_phase_refuted | nd, fd, fe |
| C92_since_propagation_partial | nd, fd, fe |
| C92_equal_detunings_partial | nd, fd, fe |
| C92_single_drive | nd, fd, fe |
| C93_negativity | nd, fd, fe |
| C93_separable | nd, fd, fe |
| C93_complement | nd, fd, fe |
| C94_entropy | nd, fd, fe, cl |
| C94_mutual_information | nd, fd, fe, cl |
| C94_uncorrelated | nd, fd, fe, cl |
| C94_pure | nd, fd, fe, cl |
| C95_bounds | fd, fe |
| C95_complement | fd, fe |
| C95_unentangled | fd, fe |
| C96_noisy_qbit_refuted | nd, fd, fe |
| C96_kerr_refuted | nd, fd, fe |
| C96_spin_refuted | nd, fd, fe |
| C96_jaynes_cummings_spin_refuted | nd, fd, fe |
| C96_multi_level_refuted | nd, fd, fe |
| C96_mode_partial | nd, fd, fe |
| C96_qbit_partial | nd, fd, fe |
| C96_matrix_partial | nd, fd, fe |
| C96_jaynes_cummings_partial | nd, fd, fe |
| C96_coupled_modes_partial | nd, fd, fe |
| C96_rotation_partial | nd, fd, fe |
| C97_choice | none |
| C97_accepted_iff_unitary | nd, fd, fe, cl |
| C97_modes | nd, fd, fe |
| C97_necessary | nd, fd, fe |
| C97_phase_noise_refuted | nd, fd, fe |
| C97_phase_noise_partial | nd, fd, fe |
| C98_picture | none |
| C98_method | none |
| C98_mode_function | none |
| C99_columns | none |
| C99_columns_simulated | none |
| C99_least_width | none |
| C100_values_partial | none |
| C100_only_values_partial | none |
| C100_references | none |
| C100_slices | none |
| C100_swap_refuted | none |
| C101_value | fd, fe |
| C101_whole | fd, fe |
| C101_refuted | fd, fe |
| C101_modes_refuted | nd, fd, fe |
| C101_partial | fd, fe |
| C102_value | fd, fe |
| C102_whole | fd, fe |
| C103_action | fd, fe |
| C104_sum | nd, fd, fe |
| C104_normalised | nd, fd, fe |
| C105_value | nd, fd, fe |
| C105_same | nd, fd, fe |
| C105_back | nd, fd, fe |
| C106_packet | nd, fd, fe, cl |
| C107_value | nd, fd, fe |
| C107_refuted | nd, fd, fe |
| C107_partial | nd, fd, fe |
| C108_fock_partial | fd, fe |
| C108_momentum_partial | fd, fe |
| C108_refuted | fd, fe |
| C109_start | fd, fe |
| C109_rate | nd, fd, fe |
| C109_operators | nd, fd, fe |
| C110_value | nd, fd, fe |
| C110_refuted | nd, fd, fe |
| C110_partial | nd, fd, fe |
| C111_refuted | nd, fd, fe |
| C111_mode_partial | nd, fd, fe |
| C111_atom | nd, fd, fe |
| C111_alone | nd, fd, fe |
| C112_transform | nd, fd, fe |
| C112_every | fd, fe |
| C112_back | nd, fd, fe |
| C113_refuted | none |
| C113_columns_partial | none |
| C113_header | none |
| C114_refuted | none |
| C114_partial | none |
| C115_trajectories | none |
| C115_back_partial | none |
| C115_start_partial | none |
| C115_real_refuted | none |
| C115_strides_refuted | none |
| C115_other_refuted | none |
| C116_averages_partial | fd, fe |
| C116_histogram_partial | fd, fe |
| C116_refuted | fd, fe |
| C117_read_partial | none |
| C117_failure_partial | none |
| C117_round_trip_partial | none |
| C117_mode_function_refuted | none |
| C118_modes_partial | nd, fd, fe |
| C118_damping_partial | nd, fd, fe |
| C118_ladder_partial | nd, fd, fe |
| C118_number_refuted | nd, fd, fe |
| C118_correlations_partial | nd, fd, fe |
| C118_interaction_partial | nd, fd, fe |
| C118_interaction_refuted | nd, fd, fe |
| C118_norm_refuted | nd, fd, fe |
| C119_nearest | none |
| C119_failure | none |
| C119_runmodes | none |
| C119_files | none |
| C120_full_partial | nd, fd, fe |
| C120_outcome_refuted | nd, fd, fe |
| C120_unreadable | nd, fd, fe |
| C120_other_refuted | nd, fd, fe |
| C120_one_line_refuted | nd, fd, fe |
| C120_one_state_refuted | nd, fd, fe |
| C121_plain_partial | none |
| C121_message_refuted | none |
| C122_trajectories_partial | nd, fd, fe, cl |
| C122_function_partial | nd, fd, fe, cl |
| C122_uncovered | nd, fd, fe |
| C122_missed_refuted | nd, fd, fe, cl |
| C122_runmodes_partial | none |
| C122_runmodes_refuted | none |
| C123_temperature_partial | nd, fd, fe |
| C123_temperature_refuted | nd, fd, fe |
| C123_bloch_partial | fd, fe |
| C124_along_partial | nd, fd, fe, cl |
| C124_orthogonal_partial | nd, fd, fe, cl |
| C124_orthogonal_refuted | nd, fd, fe, cl |
| C124_picture_refuted | nd, fd, fe, cl |
| C124_signs | nd, fd, fe, cl |
| C124_messages | nd, fd, fe, cl |
| C125_ring_partial | nd, fd, fe, cl |
| C125_evolved_partial | nd, fd, fe |
| C125_wave_number_refuted | nd, fd, fe |
| C125_signs | nd, fd, fe |
| C126_mean | fd, fe |
| C126_resumed_partial | fd, fe |
| C126_saved_last | fd, fe |
| C126_lost | fd, fe |
| C126_resumed_refuted | fd, fe |
| C127_weight | nd, fd, fe |
| C127_complete | nd, fd, fe |
| C127_sum_partial | nd, fd, fe |
| C127_sum_refuted | nd, fd, fe |
| C127_key_partial | nd, fd, fe |
| C127_key_refuted | nd, fd, fe |
| C128_coherent_partial | nd, fd, fe, cl |
| C128_tolerant_partial | nd, fd, fe, cl |
| C128_order_partial | nd, fd, fe, cl |
| C128_equality_refuted | nd, fd, fe, cl |
| C129_system_partial | nd, fd, fe, cl |
| C129_recoil_refuted | nd, fd, fe, cl |
| C129_signs | nd, fd, fe, cl |
| C129_exchange | nd, fd, fe |
| C129_initial | nd, fd, fe |
| C129_fermions_refuted | fd, fe |
| C129_momenta | nd, fd, fe |
| C130_refused | fd, fe |
| C130_steps | fd, fe |
| C130_intervals | fd, fe |
| C130_until | fd, fe |
| C131_matrix | none |
| C131_replaces | none |
| C131_diagonals | none |
| C132_tensor_partial | none |
| C132_storage_refuted | none |
| C132_in_place_refuted | none |
| C132_compose | none |
| C132_transform | none |
| C133_norm_partial | nd, fd, fe |
| C133_product | nd, fd, fe |
| C133_stale_refuted | nd, fd, fe |
| C134_single_partial | none |
| C134_resumed_refuted | none |
| C134_master_partial | none |
| C134_master_resumed_refuted | none |
| C134_master_vector_refuted | none |
| C134_ensemble | none |
| C134_matrix_script_refuted | none |
| C135_generator_partial | nd, fd, fe |
| C135_picture_refuted | nd, fd, fe |
| C135_motion | nd, fd, fe |
| C136_couplings_partial | nd, fd, fe |
| C136_decay_refuted | nd, fd, fe |
| C136_each_rate | nd, fd, fe |
| C136_rates | nd, fd, fe |
| C136_detuning_refuted | nd, fd, fe |
| C137_generator_partial | nd, fd, fe |
| C137_energy | nd, fd, fe |
| C137_states_refuted | nd, fd, fe |
| C138_round_trip | none |
| C138_assigned | none |
| C138_refused_partial | none |
| C138_refused_refuted | none |
| C139_dictionary | none |
| C139_copy_refuted | none |
| C139_collection | none |
| C139_times | none |
| C139_subsystem | none |
| C139_views_refuted | none |
| C140_atom | nd, fd, fe |
| C140_trapped | nd, fd, fe |
| C140_pumping | nd, fd, fe |
| C140_cavity_made | nd, fd, fe |
| C140_cavity | nd, fd, fe |
| C140_initial | nd, fd, fe |
| C141_own_states_partial | none |
| C141_copies_refuted | none |
| C141_resumed | none |
| C141_fill_partial | none |
| C141_fill_refuted | none |
| C142_values_partial | none |
| C142_untouched | none |
| C142_throw_refuted | none |
| C142_assign_refuted | none |
| C143_row_major_partial | fe |
| C143_checked | none |
| C143_transposed_refuted | none |
| C143_gaps_refuted | none |
| C143_size_refuted | none |
| C144_hamiltonian | fd, fe |
| C144_propagator | fd, fe |
| C144_master | fd, fe |
| C144_jump | fd, fe |
| C144_rates | fd, fe |
| C144_averages | fd, fe |
| C144_columns | fd, fe |
| C144_constituents | fd, fe |
| C145_dimensions_partial | none |
| C145_made | none |
| C145_refused | none |
| C145_rearranged | none |
| C145_slices | none |
| C145_bounds | none |
| C145_element | none |
| C145_joined | none |
| C145_release_refuted | none |
