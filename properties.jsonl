{"id": "C01", "title": "A single ODE step never leaves the requested interval", "statement": "When a driver asks the ODE engine to advance by at most deltaT (same sign as the engine's current trial step), the step that is finally accepted advances the time by a non-zero amount of the same sign as deltaT whose magnitude is at most |deltaT|, whatever number of trial attempts the error control rejects and however it rescales the trial step, and the time the engine reports as 'did' is exactly the time elapsed.", "quantifier": "every deltaT, every current trial step, every history of rejected attempts and every rescaling chosen by the underlying controlled stepper", "why_tests_cant": "Rejection patterns and rescalings are data dependent and unbounded; tests see only a few of them.", "anchors": ["CPPQEDutils/ODE.h: ode_engine::Base::step", "CPPQEDutils/ODE_GSL.h: ControlledErrorStepperGSL::try_step"]}
{"id": "C02", "title": "Tiny closing steps do not spoil the step-size memory", "statement": "If a step is requested with |deltaT| smaller than a tenth of the current trial step, the trial step for the following call is what it was before the call; otherwise it is what the controlled stepper proposed.", "quantifier": "every deltaT, trial step and stepper outcome", "why_tests_cant": "Depends on relation of real magnitudes over arbitrary histories; a regression shows up only as slowness.", "anchors": ["CPPQEDutils/ODE.h: ode_engine::Base::step, nextDtTryCorrectionFactor"]}
{"id": "C03", "title": "advance() and advanceTo() arrive exactly at the requested time", "statement": "advance(traj,Dt) / advanceTo(traj,T) return only with the trajectory time equal to the requested end time, never step beyond it, and do return if every step that is not the closing one progresses by at least some fixed positive amount.", "quantifier": "every trajectory whose step(dt) moves the time by a positive amount not exceeding dt, every start time and interval", "why_tests_cant": "The loop terminates on exact equality; no finite set of runs shows it for all step sequences.", "anchors": ["CPPQEDutils/Trajectory.h: advance, advanceTo"]}
{"id": "C04", "title": "The ODE engine can be run backward", "statement": "Asking the engine for a negative deltaT after (or before) forward stepping makes progress backward in time.", "quantifier": "every engine state reachable by construction and forward steps, every negative deltaT", "why_tests_cant": "Particular corner states (fresh engine, tiny interval) are needed to see a failure.", "anchors": ["CPPQEDutils/ODE.h: ode_engine::Base::step (stepping backward)"]}
{"id": "C05", "title": "Relative and absolute tolerance reach the stepper under their own names", "statement": "The relative and absolute precision the user configures are the relative and absolute precision with which the error of every step is controlled, and the values printed are the ones in effect.", "quantifier": "every pair (epsRel, epsAbs)", "why_tests_cant": "With equal or default values an exchange is invisible; results remain plausible.", "anchors": ["CPPQEDutils/ODE.h: MakeControlledErrorStepper", "CPPQEDutils/ODE_GSL.h: ControlledErrorStepperGSL ctor, MakeControlledErrorStepper"]}
{"id": "C06", "title": "No step with an error above tolerance is accepted", "statement": "A time step is accepted only if the error estimate of the step is within the configured tolerance; otherwise it is retried with a smaller step.", "quantifier": "every system, state and step size", "why_tests_cant": "Needs stiff inputs; an accepted bad step gives silently inaccurate numbers.", "anchors": ["CPPQEDutils/ODE_GSL.h: ControlledErrorStepperGSL::try_step"]}
{"id": "C07", "title": "Streaming schedule when the number of steps is given", "statement": "run() with a number NDt of intervals of length Dt on a fresh trajectory emits exactly NDt+1 records, the k-th one at start time + k*Dt, in this order; on a trajectory continued from a file the initial record is not repeated. With streamFreq in time-step mode, exactly every streamFreq-th step is streamed.", "quantifier": "every NDt>=1, Dt>0, start time with nonzero end time and every step behaviour of the trajectory, with and without continuation", "why_tests_cant": "Off-by-one at either end only shows for specific parameters; schedule is over unbounded counts.", "anchors": ["CPPQEDutils/Trajectory.h: run(traj,length,streamFreq,...)"]}
{"id": "C08", "title": "A run with an end time ends exactly there", "statement": "run() up to time T never steps the trajectory beyond T, the streamed times are strictly increasing, and after a run not interrupted by the stopping criterion the final time is T and the last streamed record is at T; if the trajectory already is at or beyond T nothing is done and nothing written.", "quantifier": "every nonzero T, start time, streaming interval or streaming frequency, every step-size history", "why_tests_cant": "Step sizes are adaptive; the boundary coincidence T = k*Dt vs not is not exhaustively testable.", "anchors": ["CPPQEDutils/Trajectory.h: run"]}
{"id": "C09", "title": "The final state is always saved, once", "statement": "Whenever run() advances a trajectory with a state file configured, the last record in the state file equals the state of the trajectory when run() returns, whether the run ends regularly or through the stopping criterion, and it is not duplicated by the final save.", "quantifier": "every run mode, stateStreamFreq, firstStateStream, number of steps, stop position", "why_tests_cant": "Interaction of four counters and flags; each combination at each length would have to be tried.", "anchors": ["CPPQEDutils/Trajectory.h: run, WriteState"]}
{"id": "C10", "title": "Resuming equals not stopping", "statement": "Running for NDt=a, letting the process exit, and running again on the same files for NDt=b produces the same trajectory file and the same final state as one run for NDt=a+b.", "quantifier": "every a, b, Dt and every deterministic trajectory whose saved state determines its future", "why_tests_cant": "All interruption points for all systems cannot be enumerated.", "anchors": ["CPPQEDutils/Trajectory.h: run, ReadState, WriteState"]}
{"id": "C11", "title": "State files are append-only logs whose last record wins", "statement": "Reading back a state file consisting of any number of appended records restores exactly the last state written; records written earlier are not disturbed by later ones.", "quantifier": "every sequence of saved states, every byte content of the states", "why_tests_cant": "Record contents are arbitrary binary data following a textual length; only particular contents make framing ambiguous.", "anchors": ["CPPQEDutils/Trajectory.h: writeViaSStream, readViaSStream, WriteState, ReadState"]}
{"id": "C12", "title": "A state of another trajectory type is refused", "statement": "Loading a state whose stored type, trajectory kind or rank differs from that of the running trajectory is refused with an exception before anything of the state is read; array-only archives set only the array.", "quantifier": "every stored metadata and every trajectory", "why_tests_cant": "The combinations of stored and running types are open ended.", "anchors": ["CPPQEDutils/Trajectory.h: ReadState, SerializationMetadata"]}
{"id": "C13", "title": "The stopping criterion compares with the true moving average", "statement": "The autostop criterion, for repetition R and precision eps, stops at the first streamed record for which at least R earlier records have been taken into account and every column deviates relatively by less than eps from the arithmetic mean of the last R records taken into account (columns below epsAbs counting as epsAbs).", "quantifier": "every sequence of streamed records of any length and width, every R, eps, epsAbs", "why_tests_cant": "An incrementally updated average must equal the direct mean after arbitrarily long histories.", "anchors": ["CPPQEDutils/Trajectory.h: AutostopHandlerGeneric"]}
{"id": "C14", "title": "Multi-index iteration visits every index exactly once, in order", "statement": "Iterating a MultiIndexIterator from begin to end visits every multi-index between the (inclusive) bounds exactly once, last index fastest.", "quantifier": "every rank and every pair of bounds lbound<=ubound", "why_tests_cant": "Rank and extents are unbounded.", "anchors": ["CPPQEDutils/MultiIndexIterator.h: MultiIndexIterator"]}
{"id": "C15", "title": "Slice iteration partitions the array", "statement": "The slices of a multi-dimensional array over any set of retained dimensions cover every array element exactly once, and the element of the slice with dummy index d and slice index s is the array element whose retained coordinates (in the order in which they were listed) are s and whose other coordinates are d.", "quantifier": "every rank, every list of distinct retained dimensions, every shape", "why_tests_cant": "Compile-time lists of any length and order; tests instantiate a handful.", "anchors": ["CPPQEDutils/SliceIterator.tcc: Transposer, Indexer, Base", "CPPQEDutils/TMP_Tools.h"]}
{"id": "C16", "title": "Acting on slices is acting with the operator on that subsystem", "statement": "Applying an operator of some subsystems to every slice over these subsystems equals applying (operator on the subsystems) tensored with the identity on the rest; operators applied to disjoint sets of subsystems commute.", "quantifier": "every rank, every set of retained dimensions, every linear operator, every state", "why_tests_cant": "Universally quantified over shapes, operators and states.", "anchors": ["CPPQEDutils/SliceIterator.h: fullRange", "CPPQEDcore/composites/Composite.tcc", "CPPQEDcore/composites/BinarySystem.cc"]}
{"id": "C17", "title": "Applying a Tridiagonal is multiplying by its matrix", "statement": "Tridiagonal::apply adds to the output vector the product of the matrix represented by its diagonals with the input vector, for any number of subsystems, and touches nothing else.", "quantifier": "every rank, dimensions, offsets K (also K beyond half the dimension), every content incl. empty diagonals, every pair of vectors", "why_tests_cant": "3^rank diagonals times arbitrary offsets and sizes.", "anchors": ["CPPQEDcore/quantumoperator/Tridiagonal.tcc: apply, doApply, fillRanges"]}
{"id": "C18", "title": "dagger() gives the adjoint", "statement": "For every Tridiagonal T the matrix of T.dagger() is the conjugate transpose of that of T, and dagger() twice is the identity.", "quantifier": "every rank, offsets and diagonals", "why_tests_cant": "Base-3 index permutation on 3^rank diagonals, unbounded rank.", "anchors": ["CPPQEDcore/quantumoperator/Tridiagonal.tcc: hermitianConjugate"]}
{"id": "C19", "title": "The direct product of Tridiagonals is the tensor product", "statement": "The matrix of T1*T2 (different subsystems) is the Kronecker product of the matrices, so (T1*T2) applied to psi1⊗psi2 is T1 psi1 ⊗ T2 psi2.", "quantifier": "every pair of ranks, dimensions, offsets, contents", "why_tests_cant": "Unbounded ranks and sizes.", "anchors": ["CPPQEDcore/quantumoperator/Tridiagonal.tcc: Tridiagonal(t1,t2), directDiagonals", "CPPQEDutils/ComplexArrayExtensions.h: doDirect"]}
{"id": "C20", "title": "Tridiagonals form a vector space; mismatches are refused", "statement": "The matrix of a sum, difference, negation or multiple is the sum, difference, negation or multiple of the matrices; adding operators whose offsets differ or whose stored frequencies differ is refused with an exception.", "quantifier": "every rank and every pair of operators", "why_tests_cant": "Mismatch patterns (partial equality) are combinatorial.", "anchors": ["CPPQEDcore/quantumoperator/Tridiagonal.tcc: operator+=, operator*=", "CPPQEDcore/quantumoperator/Tridiagonal.h"]}
{"id": "C21", "title": "Propagating an operator in time is path independent and is the interaction picture", "statement": "Tridiagonal::propagate(t) gives the same matrix whatever intermediate times it was propagated to; for a unary operator furnished with frequencies from a main diagonal D it equals exp(t D) T exp(-t D).", "quantifier": "every operator, every sequence of times", "why_tests_cant": "Unbounded histories of propagation; the ODE stepper goes back and forth in time.", "anchors": ["CPPQEDcore/quantumoperator/Tridiagonal.tcc: propagate", "CPPQEDcore/quantumoperator/Tridiagonal.cc: furnishWithFreqs"]}
{"id": "C22", "title": "Interaction picture of a product is the product of interaction pictures", "statement": "Propagating a direct product T1*T2 to time t gives the direct product of T1 and T2 propagated to t.", "quantifier": "every pair of operators with frequencies, every t", "why_tests_cant": "Depends on which diagonals of the factors are stored; the wrong time dependence is a silent physics error.", "anchors": ["CPPQEDcore/quantumoperator/Tridiagonal.tcc: directDiagonals, propagate"]}
{"id": "C23", "title": "Bosonic basis states of identical particles are enumerated exactly once", "statement": "The table of combinations with repetitions lists each way of distributing the particles exactly once, and lookup by position and lookup by content are inverse to each other; a content which is no combination is refused.", "quantifier": "every number of levels and particles", "why_tests_cant": "Combinatorially many sizes.", "anchors": ["CPPQEDutils/Combinatorics.h: CWR_Dir"]}
{"id": "C24", "title": "Command line: last occurrence wins, unknown is refused", "statement": "After parsing the command line each parameter has the value of its last occurrence, or its default if absent; nothing else changes; an unknown name, a missing prefix or an unparsable value aborts; a boolean can be switched off by its no_ form, and the two forms never disagree.", "quantifier": "every parameter table and every command line", "why_tests_cant": "Argument sequences are unbounded.", "anchors": ["CPPQEDutils/Pars.h/.cc: Table, update", "CPPQEDutils/BooleanNegatedProxy.h/.cc"]}
{"id": "C25", "title": "Comment lines are marked and nothing is lost", "statement": "Everything written to the commenting stream appears with '# ' in front of every non-empty line and only there, independently of how the text was split into writes; the original text can be recovered.", "quantifier": "every text and every splitting into writes", "why_tests_cant": "All chunkings of all texts.", "anchors": ["CPPQEDutils/CommentingStream.h"]}
{"id": "C26", "title": "Hermitian conjugation of multi-matrices", "statement": "Hermitian conjugation of a density matrix over any number of subsystems swaps bra and ket multi-indices and conjugates, is an involution, and 'twice the real part' gives M+M^dagger.", "quantifier": "every rank, shape and content", "why_tests_cant": "Unbounded ranks.", "anchors": ["CPPQEDutils/ComplexArrayExtensions.h: hermitianConjugate(Self)", "CPPQEDutils/CMatrix.cc: calculateTwoTimesRealPartOfSelf"]}
{"id": "C27", "title": "Deflated density operators are faithful and match their labels", "statement": "The list of real numbers streamed for a (Hermitian) density operator determines it: inflate(deflate(rho))=rho; the number of values is dim or dim^2 and equals the number of key labels, each value belonging to its label.", "quantifier": "every rank and dimension, every Hermitian density operator, with and without off-diagonals", "why_tests_cant": "Index arithmetic over all dimensions.", "anchors": ["CPPQEDcore/quantumdata/LazyDensityOperator.h: deflate", "CPPQEDcore/quantumdata/DensityOperator.h: inflate", "CPPQEDelements/utils/AveragingUtils.h: ReducedDensityOperator"]}
{"id": "C28", "title": "Partial trace is the partial trace, for pure and mixed states alike", "statement": "partialTrace over the complement of the kept subsystems gives the same result for a state vector and for the density operator made of it, is the usual partial trace, preserves Hermiticity and trace, and for a product state returns the factor.", "quantifier": "every rank, set of kept subsystems, state", "why_tests_cant": "Universally quantified over shapes and states.", "anchors": ["CPPQEDcore/quantumdata/LazyDensityOperator.h", "CPPQEDcore/quantumdata/LazyDensityOperator.h: partialTrace", "CPPQEDcore/quantumdata/DensityOperator.h: reduce"]}
{"id": "C29", "title": "A pure state and its density operator agree", "statement": "Every matrix element, expectation value, trace and purity read through the common density-operator-like interface of a state vector equals the one read from the density operator constructed from it.", "quantifier": "every state vector, normalised or not", "why_tests_cant": "Only un-normalised states distinguish, and MCWF uses them inside a step.", "anchors": ["CPPQEDcore/quantumdata/StateVector.h", "CPPQEDcore/quantumdata/DensityOperator.h"]}
{"id": "C30", "title": "Partial transposition", "statement": "The partial transpose used for the negativity swaps bra and ket of exactly the listed subsystems, is an involution, preserves trace and Hermiticity, and the transposes with respect to complementary sets of subsystems are transposes of one another.", "quantifier": "every rank, set of subsystems, density operator", "why_tests_cant": "Unbounded ranks and sets.", "anchors": ["CPPQEDcore/quantumdata/EntanglementMeasures.h: negPT"]}
{"id": "C31", "title": "A quantum trajectory is normalised at every streamed instant", "statement": "After every MCWF step the state vector has norm one, whether or not a jump occurred and whatever the jump was, provided the reported jump rate is the squared norm of the jumped state.", "quantifier": "every Hamiltonian, jump operators, random sequence, step history", "why_tests_cant": "Stochastic, unbounded histories.", "anchors": ["CPPQEDcore/quantumtrajectory/MCWF_Trajectory.h: step, coherentTimeDevelopment, performJump"]}
{"id": "C32", "title": "The jump probability per step is limited", "statement": "When an MCWF step is accepted, total jump rate times duration of the step does not exceed overshootTolerance*dpLimit, and the next trial step is at most dpLimit/(total rate); if the rates are bounded and the tolerance exceeds one, only a finite number of step-backs happens.", "quantifier": "every system, state and step history", "why_tests_cant": "Retry loops of unbounded length.", "anchors": ["CPPQEDcore/quantumtrajectory/MCWF_Trajectory.h: manageTimeStep, step"]}
{"id": "C33", "title": "Which jump happens", "statement": "Given the random number u in [0,1) and step duration dt, the jump performed is the one whose interval in the cumulated rates contains u/dt, and no jump if u/dt is beyond the total rate: channels with zero rate are never chosen, and the measure of random numbers choosing channel k is rate_k*dt.", "quantifier": "every list of rates, every u, every dt", "why_tests_cant": "Boundary coincidences have measure zero and are never hit by tests.", "anchors": ["CPPQEDcore/quantumtrajectory/MCWF_Trajectory.h: performJump"]}
{"id": "C34", "title": "A step-back leaves no trace", "statement": "When an MCWF step overshoots and is repeated, the outcome is the same as if the trajectory had been asked to step from its original state with the reduced trial step: state vector, time and reference time of the exact part are restored.", "quantifier": "every system (with or without exact propagation) and every overshoot history", "why_tests_cant": "Overshoots in presence of an exact part and time dependence are rare.", "anchors": ["CPPQEDcore/quantumtrajectory/MCWF_Trajectory.h: step, manageTimeStep, coherentTimeDevelopment"]}
{"id": "C35", "title": "The MCWF log is truthful", "statement": "The log's number of steps, step-backs, overshoots and the list of jumps with their times equal what actually happened in the run, and jump times are non-decreasing.", "quantifier": "every run", "why_tests_cant": "Histories unbounded and stochastic.", "anchors": ["CPPQEDcore/quantumtrajectory/MCWF_TrajectoryLogger.h/.cc", "CPPQEDcore/quantumtrajectory/MCWF_Trajectory.h"]}
{"id": "C36", "title": "Saving and loading a quantum trajectory does not change its future", "statement": "An MCWF or Master trajectory saved and loaded into a freshly constructed one continues exactly as the original would have.", "quantifier": "every reachable state of the trajectory, every system", "why_tests_cant": "The set of reachable states is infinite, and equality must hold for the whole future.", "anchors": ["CPPQEDcore/quantumtrajectory/MCWF_Trajectory.h: stateIO", "CPPQEDcore/quantumtrajectory/Master.h: stateIO"]}
{"id": "C37", "title": "Exact propagation in the Master equation is conjugation by U", "statement": "The exact part of a Master step maps rho to U rho U^dagger in place.", "quantifier": "every density matrix (also non-Hermitian), every propagator, any rank", "why_tests_cant": "The implementation mixes in-memory conjugation and transposed views; equality must hold for all matrices.", "anchors": ["CPPQEDcore/quantumtrajectory/Master.h: step"]}
{"id": "C38", "title": "The Master right-hand side is the Lindblad form", "statement": "The derivative computed for a Hermitian rho is -i(Hnh rho - rho Hnh^dagger) + sum_k J_k rho J_k^dagger; it is Hermitian, and its trace vanishes if Hnh = H - i/2 sum J_k^dagger J_k with Hermitian H.", "quantifier": "every dimension, Hamiltonian, set of jump operators, Hermitian rho", "why_tests_cant": "Universally quantified over matrices.", "anchors": ["CPPQEDcore/quantumtrajectory/Master.h: derivative, addContribution, actWithSuperoperator"]}
{"id": "C39", "title": "A Master trajectory always delivers a density operator of unit trace", "statement": "After every Master step rho is Hermitian and has trace one.", "quantifier": "every system, ODE step outcome (even inaccurate), history with nonvanishing trace", "why_tests_cant": "ODE errors are arbitrary; the clean-up must repair all of them.", "anchors": ["CPPQEDcore/quantumtrajectory/Master.h: step"]}
{"id": "C40", "title": "Time-dependent Hamiltonians are evaluated at the right time", "statement": "A Hamiltonian declared as explicitly time dependent (function of t, without exact part) is evaluated at the current trajectory time in MCWF and Master evolution alike, also after loading a saved state.", "quantifier": "every time-dependent system, step history, save/load history", "why_tests_cant": "A wrong reference time shows only after the first step, or only after a reload.", "anchors": ["CPPQEDcore/structure/Hamiltonian.h", "CPPQEDcore/structure/TimeDependence.h", "CPPQEDcore/quantumtrajectory/Master.h", "CPPQEDcore/quantumtrajectory/MCWF_Trajectory.h"]}
{"id": "C41", "title": "Cached exact propagators are the right ones", "statement": "FreeExact::actWithU multiplies the state with the propagator of exactly the time interval asked for, whatever sequence of intervals it has been called with before.", "quantifier": "every call history", "why_tests_cant": "Cache staleness depends on histories, including the very first call.", "anchors": ["CPPQEDcore/structure/FreeExact.h: actWithU"]}
{"id": "C42", "title": "Ensemble averages are density operators", "statement": "The density operator averaged over an ensemble of trajectories is the mean of the dyads: Hermitian, positive, unit trace for normalised members, independent of the order of members.", "quantifier": "every ensemble of any nonzero size", "why_tests_cant": "Any size and any states.", "anchors": ["CPPQEDcore/quantumtrajectory/MCWF_Trajectory.h: AverageTrajectories", "CPPQEDutils/StochasticTrajectory.h: Ensemble"]}
{"id": "C43", "title": "Jumps of a binary system reach the right subsystem", "statement": "In a BinarySystem the i-th jump, counted first over the first free, then over the second free, then over the interaction, acts with the corresponding jump operator of the right constituent, for every combination of dissipative and non-dissipative constituents.", "quantifier": "every combination of constituents and every jump index", "why_tests_cant": "Combinations of missing constituents with interactions having jumps of their own are not tested.", "anchors": ["CPPQEDcore/composites/BinarySystem.cc: actWithJ_v, actWithSuperoperator_v, rates_v"]}
{"id": "C44", "title": "Jumps of a composite reach the right subsystem", "statement": "In a Composite of any number of frees and interactions the i-th jump acts with the jump operator to which the i-th rate belongs, and with no other.", "quantifier": "every number of frees and interactions, every number of jumps of each, every index", "why_tests_cant": "Unbounded structure.", "anchors": ["CPPQEDcore/composites/Composite.tcc: actWithJ_v, rates_v/averageLA"]}
{"id": "C45", "title": "Columns of a composite belong to their keys", "statement": "The averages of a composite are the concatenation of those of its constituents; processing and streaming touch for each constituent exactly its own columns; the key lists the columns in the same order with consecutive numbers.", "quantifier": "every composite", "why_tests_cant": "Unbounded structure, constituents without averages in between.", "anchors": ["CPPQEDcore/composites/Composite.tcc: average_v, process_v, stream_v, streamKey_v", "CPPQEDcore/composites/BinarySystem.cc", "CPPQEDutils/KeyPrinter.cc"]}
{"id": "C46", "title": "Mode: jump, rate and superoperator describe the same loss", "statement": "For a lossy (zero or finite temperature) mode the jump rate equals the squared norm of the jumped state, and the superoperator equals J rho J^dagger, for every truncated Fock state.", "quantifier": "every cutoff, decay rate, temperature, state", "why_tests_cant": "Boundary behaviour at the cutoff for all states.", "anchors": ["CPPQEDelements/frees/Mode.cc: aJump, aDagJump, aSuperoperator, aDagSuperoperator, photonNumber", "CPPQEDelements/frees/Mode_.h: Liouvillean"]}
{"id": "C47", "title": "Non-Hermitian Hamiltonians match the jumps", "statement": "For every dissipative element the damping part of the non-Hermitian Hamiltonian is half the sum of J^dagger J, up to a multiple of the identity, so that trace is preserved.", "quantifier": "every element, dimension and parameter", "why_tests_cant": "Only shows as slow drift hidden by renormalisation.", "anchors": ["CPPQEDelements/frees/Mode.cc", "CPPQEDelements/frees/Spin.h/.cc", "CPPQEDelements/frees/MultiLevel.h"]}
{"id": "C48", "title": "Diffusive superoperator equals the sum over its jumps", "statement": "For a system with diffusion the superoperator contribution to the master equation is the sum of J_k rho J_k^dagger over the diffusive jumps it unravels into, up to a multiple of rho.", "quantifier": "every dimension and vector of diffusion coefficients", "why_tests_cant": "Uniform coefficients hide the difference.", "anchors": ["CPPQEDcore/structure/ElementLiouvillean.h: ElementLiouvilleanDiffusive"]}
{"id": "C49", "title": "Composition of mode functions", "statement": "The operator obtained by composing two mode functions of equal |K| is conj(f1(x)) f2(x) for every kind (sin, cos, plus, minus) and sign of the wave numbers.", "quantifier": "all mode function kinds, all wave numbers, all positions x", "why_tests_cant": "Continuum of positions, all signs.", "anchors": ["CPPQEDelements/frees/Particle.cc: mfComposition, mfNKX"]}
{"id": "C50", "title": "Interaction picture and Schroedinger picture of a mode describe the same physics", "statement": "For a mode (pumped, lossy, Kerr) the interaction-picture Hamiltonian at time t equals the Schroedinger one transformed with the exact propagator the mode applies.", "quantifier": "every cutoff, detuning, decay, Kerr coefficient, time", "why_tests_cant": "Continuum of parameters.", "anchors": ["CPPQEDelements/frees/Mode.cc: Exact::updateU, hOverI, Hamiltonian, mainDiagonal"]}
{"id": "C51", "title": "Interactions are Hermitian", "statement": "The contribution of every interaction Hamiltonian built from Tridiagonals (T - T^dagger or (T+T^dagger)/i) conserves the norm: <psi|H psi> is real for every state and, in the Schroedinger picture, at every time.", "quantifier": "every operator T, every state", "why_tests_cant": "All operators and states.", "anchors": ["CPPQEDcore/quantumoperator/Tridiagonal.h: tridiagMinusHC, tridiagPlusHC_overI", "CPPQEDelements/interactions/JaynesCummings_.h"]}
{"id": "C52", "title": "The two code paths of ParticleTwoModes describe one Hamiltonian", "statement": "For a particle coupling two modes the Hamiltonian used when the two mode functions have equal wave number and the one used otherwise are instances of the same formula.", "quantifier": "every coupling, relative phase and mode functions", "why_tests_cant": "Zero relative phase hides a difference.", "anchors": ["CPPQEDelements/interactions/ParticleTwoModes.cc"]}
{"id": "C53", "title": "Constructing a Tridiagonal from its diagonals", "statement": "Constructing a unary Tridiagonal from a main diagonal, an offset and two off-diagonals either throws or gives an operator with exactly the matrix having these diagonals, of the dimension they imply.", "quantifier": "every length of the three diagonals (each possibly empty) and every offset", "why_tests_cant": "Only consistent, hand-picked diagonals are ever used in tests.", "anchors": ["CPPQEDcore/quantumoperator/Tridiagonal.h Tridiagonal::Tridiagonal", "CPPQEDcore/quantumoperator/Tridiagonal.tcc"]}
{"id": "C54", "title": "The interaction picture of a sum is the sum of the interaction pictures", "statement": "Propagating the sum of two Tridiagonals to a time t gives the same operator as propagating both and then adding them.", "quantifier": "every pair of operators that can be added, with or without stored frequencies, every t", "why_tests_cant": "Tests add operators sharing the same frequencies only.", "anchors": ["CPPQEDcore/quantumoperator/Tridiagonal.tcc Tridiagonal::operator+=, propagate"]}
{"id": "C55", "title": "advance() ends exactly at the end time also in double precision", "statement": "When a trajectory performs the whole remaining step, the loop of advance() terminates with the time bitwise equal to the end time after at most one corrective iteration, which is of at most one ulp of the end time.", "quantifier": "every pair of doubles 0<=t<endTime", "why_tests_cant": "Rounding of t+(endTime-t) misses the end time only for rare pairs of numbers; an infinite loop would show only there.", "anchors": ["CPPQEDutils/Trajectory.h advance", "CPPQEDutils/ODE.h Base::step"]}
{"id": "C56", "title": "The ODE log is truthful", "statement": "At the end of a run the logged number of ODE steps, failed steps and right-hand-side calls are exactly the number of successful trial steps, failed trial steps and evaluations that took place.", "quantifier": "every sequence of requested steps, every stepper and pattern of failures", "why_tests_cant": "Requires counting the stepper's calls from outside over all failure patterns.", "anchors": ["CPPQEDutils/ODE.h DefaultLogger, Base::step"]}
{"id": "C57", "title": "The returned array is what was streamed", "statement": "The array of records returned by run() when asked to contains exactly the records streamed, in the same order.", "quantifier": "every run mode, streaming frequency, continuation, stop position", "why_tests_cant": "Tests compare with the returned array only, in one mode; a record streamed outside the main loop is not noticed.", "anchors": ["CPPQEDutils/Trajectory.h run (returnStreamedArray)"]}
{"id": "C58", "title": "Direct products, dyads and the scalar product are what their names say", "statement": "The direct product of two state vectors has as its elements the products of the elements of the factors, the dyad those with the second conjugated; adding a state vector to a density operator with a weight adds the weighted dyad; braket is the Hermitian scalar product, multiplicative over direct products.", "quantifier": "every pair of shapes of any rank, every state vector, density operator and weight", "why_tests_cant": "The storage of the product is filled through a matrix view; a test on equal or small dimensions does not see an exchange of strides.", "anchors": ["CPPQEDcore/quantumdata/StateVector.h: dyad, addTo, braket", "CPPQEDcore/quantumdata/DensityOperator.h", "CPPQEDutils/ComplexArrayExtensions.h: directProduct"]}
{"id": "C59", "title": "Renormalisation", "statement": "renorm() returns the former norm (trace) and leaves a state vector (density operator) of unit norm (trace), proportional to what it was.", "quantifier": "every state vector of nonzero norm, every density operator of nonzero trace", "why_tests_cant": "Universally quantified over states of all ranks.", "anchors": ["CPPQEDcore/quantumdata/StateVector.h: renorm", "CPPQEDcore/quantumdata/DensityOperator.h: renorm"]}
{"id": "C60", "title": "Jump, rate and superoperator of the remaining elements describe the same loss", "statement": "For spins, multi-level systems, the two-level atom, the qbit with phase noise and the homodyned mode the jump acts with the documented operator, the superoperator (where given) adds J rho J^dagger, and the rate (where given) is the squared norm of the jumped state.", "quantifier": "every dimension, cutoff, set of decay channels, rates and every state", "why_tests_cant": "In-place loops over the levels in a given direction, with boundary levels treated apart; all sizes and states.", "anchors": ["CPPQEDelements/frees/Spin.cc: spin::Liouvillean", "CPPQEDelements/frees/MultiLevel.h: LiouvilleanRadiative", "CPPQEDelements/frees/PumpedTwoLevelAtom.cc", "CPPQEDelements/frees/Qbit.cc", "CPPQEDelements/frees/HomodynedMode.cc"]}
{"id": "C61", "title": "Homodyne detection does not change the averaged dynamics", "statement": "How the light leaving a mode is observed must not change its dynamics averaged over detection records: the master equation belonging to the homodyned mode is the same as that of the mode without detection, for every local-oscillator amplitude.", "quantifier": "every amplitude, cutoff, detuning, decay, temperature, density operator", "why_tests_cant": "An average over records has statistical error; a displaced drive hides in it for small amplitudes.", "anchors": ["CPPQEDelements/frees/HomodynedMode.h/.cc", "CPPQEDelements/frees/Mode.cc"]}
{"id": "C62", "title": "The Hamiltonian of a spin is that of its axis, in both pictures", "statement": "A spin in Schroedinger picture has the Hamiltonian (omega - i gamma) S_n with S_n the spin component along the axis given by the two angles, on whatever truncated dimension; along z the exactly propagated spin has the same generator up to a constant.", "quantifier": "every spin size, dimension, pair of angles, frequency and decay", "why_tests_cant": "Continuum of angles; truncated dimensions.", "anchors": ["CPPQEDelements/frees/Spin.cc: sn, LossySpinSch, LossySpin, decideDimension"]}
{"id": "C63", "title": "The dynamics of a composite is made of those of its constituents", "statement": "The Hamiltonian of a BinarySystem or Composite is the sum of the Hamiltonians of its constituents, each acting on its own subsystems and as the identity elsewhere; the exact propagator is the product of theirs, unitary if theirs are; the master equation of a Composite is the Lindblad equation with this Hamiltonian and the jump operators of all constituents, and it conserves trace and Hermiticity if each constituent on its own does.", "quantifier": "every number of frees and interactions, dimensions, assignment of interactions to subsystems, combination of present and absent interfaces, every state", "why_tests_cant": "Infinitely many compositions; an interaction acting on the wrong legs or a constituent left out is only seen for asymmetric systems.", "anchors": ["CPPQEDcore/composites/Composite.tcc: addContribution_v, actWithU_v, actWithSuperoperator_v", "CPPQEDcore/composites/BinarySystem.cc", "CPPQEDcore/quantumtrajectory/Master.h"]}
{"id": "C64", "title": "The time scale of a composite is that of its fastest constituent", "statement": "highestFrequency() of a composite, from which the first time step is derived, is the highest among those of all its constituents, frees and interactions.", "quantifier": "every composite", "why_tests_cant": "Universally quantified over compositions.", "anchors": ["CPPQEDcore/composites/Composite.tcc: highestFrequency_v", "CPPQEDcore/composites/BinarySystem.cc: highestFrequency_v", "CPPQEDcore/structure/QuantumSystem.h"]}
{"id": "C65", "title": "A composite is built exactly from consistent interactions", "statement": "composite::make throws the consistency exception exactly if two interactions disagree on which free system is found at an ordinal (naming the ordinal); otherwise the composite contains exactly the free systems the interactions refer to, each at its ordinal and without gaps, and offers an interface (exact, Hamiltonian, Liouvillean) exactly if some constituent does.", "quantifier": "every list of interactions with every assignment of ordinals", "why_tests_cant": "Infinitely many combinations of interactions, ordinals and orders.", "anchors": ["CPPQEDcore/composites/Composite.tcc: fillFrees, doMake", "CPPQEDcore/composites/details_TMP_helpers.h: CheckMeta_v"]}
{"id": "C66", "title": "The Hamiltonian of a particle is the kinetic energy plus the optical potential, in both pictures", "statement": "A free or pumped particle has the generator -i(omrec k^2 + V(x)) whether it is built in the interaction or in the Schroedinger picture, with V(x) the optical potential vClass |f(x)|^2 of the pump up to its mean value.", "quantifier": "every finesse, recoil frequency, pump strength, mode function, state and time", "why_tests_cant": "Continuum of parameters and states; wave numbers at and beyond the edge of the momentum grid.", "anchors": ["CPPQEDelements/frees/Particle.cc: hOverI, Hamiltonian, make, makePumped", "CPPQEDelements/frees/Particle_.h: Spatial"]}
{"id": "C67", "title": "The Hamiltonian of a particle in a cavity is one formula", "statement": "A particle moving along a cavity has the Hamiltonian U0 n |f(x)|^2 (up to the mean of |f|^2) + eta (a^dagger conj(f(x)) g(x) + h.c.), f being the cavity mode function and g that of the pump (1 without pump), whether or not their wave numbers are equal, that is, in both code paths; eta^2 = U0 V, and couplings of opposite sign are refused.", "quantifier": "every coupling, pump, pair of mode functions, cutoff, finesse, state not populating the edges of the momentum grid, time", "why_tests_cant": "Infinitely many mode functions and states; the two code paths are never run on the same system.", "anchors": ["CPPQEDelements/interactions/ParticleCavity.cc: ParticleAlongCavity, etaEff, dispersive, interfericOneModeFN, interfericTwoModeFN"]}
{"id": "C68", "title": "The evolution generated by an interaction does not depend on the pictures of its constituents", "statement": "Whichever of the constituents are propagated exactly (interaction picture) and whichever not, what an interaction contributes, carried back to the Schroedinger picture, is the same Hamiltonian.", "quantifier": "every interaction between modes, qbits, spins and particles, every choice of pictures, parameters, state, time, and sequence of earlier calls", "why_tests_cant": "Equality on a continuum of states and times; tests run one picture only.", "anchors": ["CPPQEDelements/interactions/JaynesCummings_.h", "CPPQEDelements/interactions/CoupledModes.cc", "CPPQEDelements/interactions/GeneralDicke.cc", "CPPQEDelements/interactions/ParticleCavity.cc", "CPPQEDelements/interactions/ParticleTwoModes.cc", "CPPQEDcore/quantumoperator/Tridiagonal.tcc"]}
{"id": "C69", "title": "Interactions conserve the norm", "statement": "The contribution of any interaction to the derivative of the state leaves the norm of the state constant, for any complex coupling.", "quantifier": "every interaction, coupling constant, state, time", "why_tests_cant": "Continuum of couplings and states; real couplings and states inside the grid hide a violation.", "anchors": ["CPPQEDelements/interactions/JaynesCummings_.h", "CPPQEDelements/interactions/CoupledModes.cc", "CPPQEDelements/interactions/GeneralDicke.cc", "CPPQEDelements/interactions/ParticleCavity.cc", "CPPQEDelements/interactions/ParticleTwoModes.cc"]}
{"id": "C70", "title": "Parameters are declared once", "statement": "Declaring a parameter, a title or a switch under a name already taken throws and leaves the table of parameters unchanged; declaring under a new name gives the parameter its default value and leaves all other parameters as they were.", "quantifier": "every table of parameters, name and default value", "why_tests_cant": "Infinitely many tables and names; the names of the negated forms of switches are implicit.", "anchors": ["CPPQEDutils/Pars.h: ParameterTable::add", "CPPQEDutils/Pars.cc: addTitle, operator[]", "CPPQEDutils/BooleanNegatedProxy.h"]}
{"id": "C71", "title": "The matrix calculated from a Hamiltonian is its matrix", "statement": "calculateMatrix gives the matrix which, applied on any state, gives i times what the Hamiltonian contributes to the derivative of the state, with rows and columns in the order of the storage of the state; a system defined with this matrix (TimeIndependentMatrixHamiltonian) contributes the same as the original.", "quantifier": "every linear Hamiltonian, of any number of constituents, with any internal state changing on calls; every state", "why_tests_cant": "Continuum of states; Hamiltonians of any rank and dimension; caches within Hamiltonians.", "anchors": ["CPPQEDcore/structure/MatrixOfHamiltonian.h: calculateMatrix", "CPPQEDelements/frees/TimeIndependentMatrixHamiltonian.h", "CPPQEDelements/frees/TimeIndependentMatrixHamiltonian.cc", "CPPQEDutils/CMatrix.cc: apply"]}
{"id": "C72", "title": "A two-level atom is the same system in all three implementations", "statement": "The pumped lossy qbit in Schroedinger picture, PumpedTwoLevelAtomSch, and the multilevel system with two levels, one pump and one decay have, with the same parameters, the same Hamiltonian contribution, the same jump and the same jump rate.", "quantifier": "every detuning, decay rate, pump amplitude, state and time", "why_tests_cant": "Continuum of parameters and states; test scripts compare trajectories at single parameter values.", "anchors": ["CPPQEDelements/frees/Qbit.cc", "CPPQEDelements/frees/PumpedTwoLevelAtom.cc", "CPPQEDelements/frees/MultiLevel.h"]}
{"id": "C73", "title": "What an element displays under a label is the quantity named by the label", "statement": "For modes (with or without quadratures, with or without monitoring of the cutoff, and propagated in interaction picture without exact part), qbits and spins, each displayed column is the expectation value, variance or covariance named by its label, in the Schroedinger picture.", "quantifier": "every state, pure or mixed, every dimension, spin and time", "why_tests_cant": "Continuum of states; tests look at a few numbers of a few trajectories.", "anchors": ["CPPQEDelements/frees/Mode.cc: mode::Averaged, AveragedQuadratures, PumpedLossyModeIP_NoExact", "CPPQEDelements/frees/Mode.tcc: AveragedMonitorCutoff", "CPPQEDelements/frees/Qbit.cc: Averaged", "CPPQEDelements/frees/Spin.cc: SpinBase::average_v, process_v"]}
{"id": "C74", "title": "Correlations displayed for pairs of elements are the correlations named by the labels", "statement": "The eighteen columns of ModeCorrelations are the number averages and variances, ladder operator averages, quadrature (co)variances within and between two modes; the six columns of QbitModeCorrelations are <sigma a^dagger>, <sigma a>, <sigma_z a>.", "quantifier": "every pair of dimensions, every pure or mixed state of the pair, also an entangled one", "why_tests_cant": "Continuum of entangled states; mistakes in cross terms vanish for product states.", "anchors": ["CPPQEDelements/interactions/ModeCorrelations.cc", "CPPQEDelements/interactions/QbitModeCorrelations.cc"]}
{"id": "C75", "title": "The negativity is displayed next to the reduced density operator it belongs to", "statement": "ReducedDensityOperatorNegativity displays the elements of the density operator under their labels, and in the last column the negativity of exactly that density operator.", "quantifier": "every density operator of any shape, every memory content", "why_tests_cant": "Depends on the contents of newly allocated memory; continuum of density operators.", "anchors": ["CPPQEDelements/utils/AveragingUtils.h: ReducedDensityOperatorNegativity"]}
{"id": "C76", "title": "A collection of averages displays what its members would display", "statement": "Collecting displays the columns of all its members in order, each with the label and the value (after processing) it would have if the member were used on its own.", "quantifier": "every list of averages, with any number of columns (also none) and any processing; every state and time", "why_tests_cant": "Infinitely many combinations of members and column counts.", "anchors": ["CPPQEDelements/utils/AveragingUtils.h: averagingUtils::Collecting", "CPPQEDutils/Algorithm.h: concatenate, concatenateGrow"]}
{"id": "C77", "title": "The analytic driven damped oscillator is the solution of its equation", "statement": "What ddho::make returns for y''+2 gamma y'+y=exp(i omega t): amp is the only solution with the given amplitude and derivative at the given initial time, and ampDeriv is its derivative, in the underdamped, overdamped and critically damped regimes.", "quantifier": "every nonnegative damping, drive frequency, initial condition and time, except for the undamped oscillator driven on resonance", "why_tests_cant": "Continuum of parameters and times; the three regimes are separate code paths.", "anchors": ["CPPQEDutils/DrivenDampedHarmonicOscillator.h", "CPPQEDutils/DrivenDampedHarmonicOscillator.cc: ddho::make, DDHO, DDHO_Critical"]}
{"id": "C78", "title": "Initial states of modes and qbits are the states asked for", "statement": "A Fock state is normalised and has exactly the given number of photons, and is refused exactly if its level is beyond the cutoff; a coherent state is an eigenstate of the annihilation operator up to the cutoff, with Poissonian statistics and a norm of at most 1, missing 1 by at most |alpha|^(2 dim)/dim!; a qbit is initialised to the normalised state with the given amplitude; the initial condition of the command line is the Fock state if given, otherwise the coherent state.", "quantifier": "every level, phase, amplitude and cutoff (for coherent states up to 170, where the explicit factorial ends)", "why_tests_cant": "Continuum of amplitudes; the level at the boundary of the cutoff.", "anchors": ["CPPQEDelements/frees/Mode.cc: coherent, fock, init, photonNumber", "CPPQEDelements/frees/Qbit.cc: init", "CPPQEDelements/frees/Qbit_.h: state0, state1", "CPPQEDutils/MathExtensions.cc: coherentElement"]}
{"id": "C79", "title": "Switching between position and momentum space is the Fourier transformation", "statement": "ffTransform takes the amplitudes on the momentum grid to those on the position grid and back as the waves exp(i k x)/sqrt(N) on these grids prescribe (up to a phase common to all amplitudes for fewer than four points); it keeps scalar products, the two directions are inverses of each other, in multipartite states it affects the requested indices only, several indices are transformed independently, the transform of a mixture is the mixture of the transforms, and sizes which are not powers of two are refused.", "quantifier": "every finesse, state vector, density operator, number of subsystems and list of indices", "why_tests_cant": "Continuum of states, all sizes; the correct phases on symmetric grids need the alternating sign flips around the library FFT.", "anchors": ["CPPQEDcore/quantumdata/LazyDensityOperatorFFT.h", "CPPQEDcore/quantumdata/LazyDensityOperatorFFT.cc: ffTransform, ffTransformCV", "CPPQEDutils/FFT.cc", "CPPQEDutils/FFT.tcc: fft::transform", "CPPQEDelements/frees/Particle.cc: particle::Spatial"]}
{"id": "C80", "title": "Particles display the moments of momentum and position", "statement": "The columns of a particle are the mean and variance of its momentum and the mean and standard deviation of its position in the state, where position is the operator diagonal on the position grid, for states given as density operators as well as state vectors.", "quantifier": "every finesse and every normalised state, pure or mixed", "why_tests_cant": "Continuum of states; needs the relation of the two spaces.", "anchors": ["CPPQEDelements/frees/Particle.cc: particle::Averaged (average_v, process_v), particle::Spatial"]}
{"id": "C81", "title": "Wave packets are the Gaussians asked for, in both spaces", "statement": "A wave packet defined in position space has the Gaussian of the given width around PI*X0 moving with momentum K0 as amplitudes on the position grid, one defined in momentum space the Gaussian around K0 with the phase of a displacement to PI*X0 on the momentum grid; both come out normalised, and the same state is returned whichever space the amplitudes are asked in.", "quantifier": "every initial condition with nonvanishing width, every finesse and spacing", "why_tests_cant": "Continuum of parameters and grids.", "anchors": ["CPPQEDelements/frees/Particle.cc: particle::wavePacket", "CPPQEDelements/utils/ParticleInitialCondition.h"]}
{"id": "C82", "title": "Harmonic oscillator initial states are the eigenstates", "statement": "hoState gives the n-th eigenstate of the harmonic oscillator of characteristic length pinit.sig around PI*X0, normalised and the same in both spaces. If no width is given, the initial state of a pumped particle belongs to the pump potential in harmonic approximation: both the wave packet and oscillator state number 0 are its ground state.", "quantifier": "every level, initial condition, pump strength, recoil frequency and finesse", "why_tests_cant": "All levels need induction over the recursion of the Hermite polynomials; continuum of parameters.", "anchors": ["CPPQEDelements/frees/Particle.cc: particle::hoState, particle::init, coherent", "CPPQEDelements/frees/ParsParticle.cc"]}
{"id": "C83", "title": "Members of an ensemble are the single trajectories with consecutive random streams", "statement": "The i-th trajectory of an ensemble evolves exactly as the single trajectory made from the same initial state and parameters with the i-th random stream following prngStream, whatever the other members do and however many there are; the streams are pairwise different; neither the state given by the caller nor any other existing state is changed by running the ensemble. Making an ensemble of n leaves prngStream increased by n (modulo 2^64), so an ensemble made in two portions has the members of one made at once.", "quantifier": "every system, initial state, number of trajectories, seed, stream, sequence of advances, and random engine", "why_tests_cant": "Members share the storage model of state vectors (reference counted arrays): absence of interference is a statement about all interleavings of steps and all states.", "anchors": ["CPPQEDcore/quantumtrajectory/MCWF_Trajectory.h: mcwf::make, mcwf::makeEnsemble", "CPPQEDutils/StochasticTrajectory.h: Ensemble", "CPPQEDutils/Random.h: incrementForNextStream, EngineWithParameters", "CPPQEDcore/quantumdata/StateVector.h: constructors"]}
{"id": "C84", "title": "With the noise switched off there are no jumps", "statement": "If the parameter noise (documented: for MCWF trajectories, turning off the noise means to disable quantum jumps) is false, a trajectory made from the parameters performs no quantum jump.", "quantifier": "every system, initial state, random engine and sequence of steps", "why_tests_cant": "A test with weak dissipation would see no jump with high probability anyway.", "anchors": ["CPPQEDutils/StochasticTrajectory.h: ParsStochastic::noise", "CPPQEDcore/quantumtrajectory/MCWF_Trajectory.h: mcwf::make", "CPPQEDscripts/QbitMode_Matrix.cc"]}
{"id": "C85", "title": "The columns of density-operator trajectories are the ones of the key", "statement": "For master-equation and ensemble trajectories the key numbers the columns from 3 on without gap, as many labels are numbered as numbers are streamed, the returned array holds the streamed numbers in order, first the averages of the system, then those of negativity, mutual information and purity of the partial trace which are switched on, each under its own label; none of them if no subsystem is given.", "quantifier": "every system, combination of switches, state and time", "why_tests_cant": "All combinations of switches and any number of averages.", "anchors": ["CPPQEDcore/quantumtrajectory/DensityOperatorStreamer.h", "CPPQEDcore/quantumtrajectory/Master.h: streamKey", "CPPQEDutils/StochasticTrajectory.h: Ensemble::streamKey", "CPPQEDcore/structure/Structure.h: stream"]}
{"id": "C86", "title": "The evolved state is accessible through the state given by the caller", "statement": "After evolve with evol=single from a state vector which is an lvalue, that state vector is the evolved state, also if the run was continued from a state file; no other state is changed.", "quantifier": "every system, initial state, parameters, number and kind of steps, state file", "why_tests_cant": "An aliasing property over all executions.", "anchors": ["CPPQEDcore/quantumtrajectory/Evolution_.h: evolve", "CPPQEDcore/quantumtrajectory/MCWF_Trajectory.h: constructor, stateIO", "CPPQEDcore/quantumdata/StateVector.h: move constructor", "CPPQEDutils/Trajectory.h: run"]}
{"id": "C87", "title": "wignerFunction is the quasi-probability density of the documented quadratures", "statement": "For every Hermitian density operator, wignerFunction(rho,x,y) is the Wigner function of rho, with the quadratures x=(a+a^dagger)/2, y=(a-a^dagger)/(2i) of the documentation: for the vacuum the product of two normal densities with the variance 1/4, and in general the sum of rho_mn times the functions which the correspondence rules give. With a truncation, that of the truncated operator.", "quantifier": "every density operator, dimension, truncation, x and y", "why_tests_cant": "A real identity over a plane and all matrices, through special functions; the factor cannot be seen from the shape of a plot.", "anchors": ["CPPQEDcore/quantumdata/DistributionFunctions.h: wignerFunction", "CPPQEDcore/quantumdata/DistributionFunctions.cc: details::w"]}
{"id": "C88", "title": "qFunction is the overlap with the coherent state", "statement": "qFunction(rho,x,y) is <alpha|rho|alpha> with the coherent state of amplitude alpha=x+iy, so it lies between 0 and 1 for every density operator.", "quantifier": "every density operator, dimension, x and y", "why_tests_cant": "A bound over all states and points.", "anchors": ["CPPQEDcore/quantumdata/DistributionFunctions.h: qFunction", "CPPQEDutils/MathExtensions.cc: coherentElement"]}
{"id": "C89", "title": "A scan covers its grid", "statement": "scanFunction streams the distribution function at lower+i*step for all i for which this is below the upper limit, in both directions, one line per point and an empty line after the points of each x; a nonzero symmetric limit takes precedence over the lower and upper limits. With a positive step it always ends, with a nonpositive one it does not.", "quantifier": "every function, limits and step", "why_tests_cant": "Termination and coverage for all limits.", "anchors": ["CPPQEDcore/quantumdata/DistributionFunctions.h: scanFunction, ParsFunctionScan"]}
{"id": "C90", "title": "Direct products of transition operators act as tensor products", "statement": "The product of Sigma<L,R>s with tridiagonals and with other products, the Sigma in front or behind, applied on a state vector adds to the derivative the tensor product of |L><R| and of the other factors acting on the state, and leaves everything else of the derivative as it was; dagger of a Sigma is its adjoint.", "quantifier": "every product of any depth, every dimensions and states", "why_tests_cant": "Over all nestings, dimensions, and complex states.", "anchors": ["CPPQEDcore/quantumoperator/Sigma.h: Sigma, DirectProduct", "CPPQEDcore/quantumoperator/Sigma.cc: partialProject"]}
{"id": "C91", "title": "The multi-level Jaynes-Cummings interaction generates its Hamiltonian", "statement": "MLJC between a multi-level system and a mode, with any list of couplings g_IJ, generates the evolution by the sum of i(conj(g) |I><J| a^dagger - h.c.) in the Schroedinger picture of the mode, whether the mode is in interaction picture or not, and whatever the times of the earlier calls were; the norm is conserved. With a multi-level system in interaction picture, an exception is thrown.", "quantifier": "every number of levels, couplings, dimension, detuning and loss of the mode (without Kerr term in interaction picture), state and time", "why_tests_cant": "Over all couplings, states, times and histories of calls.", "anchors": ["CPPQEDelements/interactions/MLJC.h: mljc::Base, ModeDynamics, addContribution_v, modeDynamicsMaker"]}
{"id": "C92", "title": "A mode with two drives is driven at two frequencies", "statement": "BichromaticMode evolves, in the frame rotating with the first drive, with the generator of the driven lossy mode plus the second drive etaOther*exp(i(delta-deltaOther)t), at every time t of the trajectory, however many exact propagations of the interaction picture were made before.", "quantifier": "every mode with both drives and any detunings, every time and time of the last exact propagation", "why_tests_cant": "Needs all times and all histories of propagation; a single step shows nothing.", "anchors": ["CPPQEDelements/frees/BichromaticMode.h: BichromaticMode, make", "CPPQEDcore/structure/TimeDependence.h: OneTime", "CPPQEDcore/quantumoperator/TridiagonalHamiltonian.h: addContribution_v"]}
{"id": "C93", "title": "The negativity of the partial transpose is an entanglement measure", "statement": "For a density operator of unit trace and any subsystems V, negPT is the sum of the absolute values of the negative eigenvalues of the operator with bra and ket exchanged in V. It does not depend on how the array is stored, is never negative, vanishes for every separable state, and is the same for V as for the complementary subsystems.", "quantifier": "every number and dimensions of subsystems, every subset, every density operator, every complete set of eigenvectors", "why_tests_cant": "Eigenvalues of matrices of any size, and all decompositions of all separable states.", "anchors": ["CPPQEDcore/quantumdata/EntanglementMeasures.h: negPT"]}
{"id": "C94", "title": "Entropy and mutual information are those of von Neumann", "statement": "entropy of a density operator is minus the sum of e*ln(e) over its positive eigenvalues, between 0 and the logarithm of the dimension. mutualInformation of the subsystems V and the rest is never negative, zero if the two are uncorrelated, and in a pure state, which has entropy 0, both parts have the same entropy and the mutual information is twice that.", "quantifier": "every number and dimensions of subsystems, every subset, every density operator", "why_tests_cant": "Subadditivity is an inequality over all density operators of all dimensions.", "anchors": ["CPPQEDcore/quantumdata/EntanglementMeasures.h: entropy, mutualInformation", "CPPQEDcore/quantumdata/DensityOperator.h: reduce"]}
{"id": "C95", "title": "The purity of a part measures the entanglement of pure states", "statement": "purityOfPartialTrace is between the reciprocal of the dimension of the part and 1, it is 1 if the part is in a pure state uncorrelated with the rest, and the two complementary parts of a pure state have the same.", "quantifier": "every number and dimensions of subsystems, every subset, every density operator", "why_tests_cant": "An inequality over all density operators of all dimensions.", "anchors": ["CPPQEDcore/quantumdata/EntanglementMeasures.h: purityOfPartialTrace", "CPPQEDcore/quantumdata/DensityOperator.h: purity, reduce"]}
{"id": "C96", "title": "The first time step is short on the time scale of the dynamics", "statement": "The time step with which a Monte-Carlo wave-function or master-equation trajectory begins, one tenth of the inverse of the system's highest frequency, is such that within it the Hamiltonian (as far as it is not propagated exactly) takes over at most a tenth of any basis state into any other one: the highest frequency a free system or interaction reports is not less than the magnitude of any matrix element of its Hamiltonian in the truncated basis, nor, for modes and qbits, than that of the detuning with which the interaction picture rotates.", "quantifier": "for all elements, parameters, cutoffs and pictures", "why_tests_cant": "the highest frequency is written by hand, as a list of values and multipliers, in each of some forty constructors, separately from the Hamiltonian; a test of an element with some cutoff does not show that the multiplier grows as the matrix elements do, and a first step which is too long is usually repaired by the adaptive stepper without notice", "anchors": ["CPPQEDcore/structure/DynamicsBase.cc: DynamicsBase::highestFrequency", "CPPQEDutils/Trajectory.h: initialTimeStep", "CPPQEDcore/quantumtrajectory/QuantumTrajectory.h: initialTimeStep", "CPPQEDelements/frees/Mode.tcc: TUPLE_delta, TUPLE_eta, TUPLE_kappadelta, TUPLE_kappa", "CPPQEDelements/frees/Qbit.cc: PumpedLossyQbitWithPhaseNoiseUIP", "CPPQEDelements/frees/Spin.cc: SpinBase::SpinBase", "CPPQEDelements/interactions/JaynesCummings_.h: jaynescummings::Base", "CPPQEDelements/interactions/CoupledModes.cc: coupledmodes::Base", "CPPQEDelements/interactions/MLJC.h: mljc::Base", "CPPQEDelements/frees/TimeIndependentMatrixHamiltonian.cc: TimeIndependentMatrixHamiltonian"]}
{"id": "C97", "title": "A run with the master equation uses a picture in which it is possible", "statement": "The picture returned by updateWithPicture is the one given last on the command line (default: interaction picture), except that if the evolution method is the master equation, the interaction picture is replaced by the unitary interaction picture. Elements made by the make functions in the returned picture are then accepted by the master equation: their exact propagation, if there is any, is unitary, and exactly such systems are accepted.", "quantifier": "for all command lines, parameters of modes and qbits, and cutoffs of at least two", "why_tests_cant": "the choice, the makers and the check are in three places and meet only at run time; combinations of element, picture and evolution method are many, and a wrongly accepted system would give slightly non-unitary propagation without any error", "anchors": ["CPPQEDcore/high/QM_Picture.cc: picture::updateWithPicture", "CPPQEDelements/frees/Mode_.h: mode::Exact::applicableInMaster_v", "CPPQEDelements/frees/Spin.h: Spin::applicableInMaster_v", "CPPQEDelements/frees/Mode.tcc: mode::make", "CPPQEDelements/frees/Qbit.cc: qbit::make", "CPPQEDcore/quantumtrajectory/Master.h: Master::Master"]}
{"id": "C98", "title": "Enumerated parameters are read as they are written", "statement": "A picture, an evolution method or a mode function type is read from a stream exactly if the next word is one of the documented names; the word is consumed and nothing else. In any other case the stream fails and the variable keeps its value. Whatever is written by the output operator is read back as the same value.", "quantifier": "for all words, rests of the stream and previous values", "why_tests_cant": "tests read the valid names; the behaviour for all other texts, including the unchanged value, is not enumerable", "anchors": ["CPPQEDcore/high/QM_Picture.cc: operator<<, operator>>", "CPPQEDcore/quantumtrajectory/EvolutionMethod.cc: operator<<, operator>>", "CPPQEDelements/utils/ModeFunction.cc: operator<<, operator>>"]}
{"id": "C99", "title": "Every line of the output splits into its columns", "statement": "However many digits are asked for, and whatever values are displayed, a line of output consists, when split at white space, of exactly one word per column, in the order of the key: the time, the last time step, the averages of each of the subsystems, and the measures of entanglement; each word is the number streamed with the given precision.", "quantifier": "for all precisions, all doubles (including infinities and NaNs) as values, and all non-negative times", "why_tests_cant": "columns are not separated except by padding to a width calculated from the precision, so a single number longer than foreseen makes two columns run together; tests do not meet numbers like -1.2345e-305", "anchors": ["CPPQEDutils/FormDouble.cc: widthPositive, widthAny", "CPPQEDutils/FormDouble.h: operator<<, positive", "CPPQEDcore/structure/ElementAveraged.cc: streamCommon", "CPPQEDutils/Trajectory.h: stream", "CPPQEDcore/quantumtrajectory/DensityOperatorStreamer.h: operator()", "CPPQEDutils/Simulated_.h: stream"]}
{"id": "C100", "title": "State vectors and density operators are values", "statement": "Programs which construct, copy, move (and do not use again what was moved), assign, exchange with std::swap, add, subtract, scale, multiply directly, write elements of state vectors and density operators, and form dyads of them, behave as programs with values: a statement changes the object it is about and no other. Only objects constructed by reference and slices share data with another object, and they go on sharing.", "quantifier": "every program, all dimensions, every arithmetic of the elements", "why_tests_cant": "The classes put value semantics on top of blitz::Array, which shares data when copied; whether two objects share data shows only in programs which change one and look at the other later, and there is an unlimited number of these.", "anchors": ["CPPQEDcore/quantumdata/ArrayBase.h: ArrayBase, operator=, operator+=, operator-=, operator*=, operator/=, operator-", "CPPQEDcore/quantumdata/StateVector.h: StateVector, operator=, sliceIndex, dyad, addTo, reference", "CPPQEDcore/quantumdata/DensityOperator.h: DensityOperator, operator=, diagonalSliceIndex, reference", "CPPQEDutils/Operators.h: linalg::VectorSpace"]}
{"id": "C101", "title": "Expectation values of the Python state vector", "statement": "StateVector.expvalue(operator, indices) is <psi|A|psi>, A acting on the subsystems given by indices (in increasing order) and as the identity on the others, where <r1 r2..|A|c1 c2..> is the element operator[r1,c1,r2,c2,..].", "quantifier": "for all shapes, state vectors, sets of subsystems in any order, and operators", "why_tests_cant": "whether the bra is the conjugated factor is invisible with real states and symmetric operators, which are what is usually tried; the arrangement of indices matters only for operators of several subsystems", "anchors": ["cpypyqed/tools/quantumstate.py: StateVector.expvalue, StateVector.reducesquare, _conjugate_indices, _sorted_list", "cpypyqed/tools/operators.py: create, destroy"]}
{"id": "C102", "title": "Expectation values of diagonal operators in Python", "statement": "StateVector.diagexpvalue(operator, indices) is <psi|A|psi> for A the diagonal operator with the given diagonal, acting on the subsystems given.", "quantifier": "for all shapes, state vectors, sets of subsystems in any order, and diagonals", "why_tests_cant": "the axes are removed one after the other, each removal renumbering the rest; a mistake shows only for certain sets of subsystems", "anchors": ["cpypyqed/tools/quantumstate.py: StateVector.diagexpvalue"]}
{"id": "C103", "title": "Acting with operators on a Python state vector", "statement": "StateVector.actwith(operators, dims) is the state (A1 (x) A2 ..)|psi>, the k-th operator acting on the k-th of the dimensions given, in whatever order these are listed, the identity acting on the others; the shape is unchanged.", "quantifier": "for all shapes, states, numbers of operators, and lists of distinct dimensions", "why_tests_cant": "the contraction is given to einsum by computed labels, with the order of the result implicit; rows and columns exchanged, or axes permuted, show only for operators which are not symmetric and dimensions out of order", "anchors": ["cpypyqed/tools/quantumstate.py: StateVector.actwith"]}
{"id": "C104", "title": "Reduction of Python state vectors", "statement": "StateVector.reduce(indices) is the sum of the amplitudes over the indices given, divided by its norm (or not, with norm=False), as documented, no matter how many indices are summed over and in what order they are listed.", "quantifier": "for all shapes, states with non-vanishing sum, and sets of indices", "why_tests_cant": "the code normalises after each index, the documentation normalises once; that these agree is a fact about all states", "anchors": ["cpypyqed/tools/quantumstate.py: StateVector.reduce, norm, normalize"]}
{"id": "C105", "title": "Fourier transformation of Python state vectors", "statement": "StateVector.fft takes the axes given from position to momentum space, ifft back, on the same grids, with the same normalisation and phases as the C++ framework, so that states saved by the one can be analysed with the other; ifft undoes fft.", "quantifier": "for all shapes and sets of axes of even size (for the comparison with C++: powers of two from 4 on) and all states", "why_tests_cant": "an error in the shifts is a phase which probabilities do not show, or a reflection which symmetric states do not show", "anchors": ["cpypyqed/tools/quantumstate.py: QuantumState._fft_helper, StateVector.fft, StateVector.ifft", "CPPQEDcore/quantumdata/LazyDensityOperatorFFT.cc: ffTransform"]}
{"id": "C106", "title": "Wave packets in Python are those of C++", "statement": "initialconditions.gaussian(x0,k0,sigma,fin,isItInK,cppqed=True) is the same state vector as the one the C++ framework generates for a particle with the same parameters; with cppqed=False x0 is a position instead of a position in units of pi.", "quantifier": "for all positions, momenta, positive widths, finesses from 2 on, given in either space", "why_tests_cant": "the two programs are written in different languages with different Fourier transforms; a comparison on examples says nothing about all parameters", "anchors": ["cpypyqed/tools/initialconditions.py: gaussian", "CPPQEDelements/frees/Particle.cc: wavePacket"]}
{"id": "C107", "title": "Coherent states in Python", "statement": "initialconditions.coherent(alpha,N) is the state with amplitudes exp(-|alpha|^2/2) alpha^n/sqrt(n!), n<N.", "quantifier": "for all complex alpha and all N", "why_tests_cant": "the documented usage has a real alpha, for which it is right", "anchors": ["cpypyqed/tools/initialconditions.py: coherent"]}
{"id": "C108", "title": "Fock states and momentum eigenstates in Python", "statement": "initialconditions.fock(dim,i) and momentum_eigen(k,fin) are the basis state with i quanta, and the one with momentum k on the grid of 2^fin momenta; if there is no such state, an exception is raised.", "quantifier": "for all integers i, k and all sizes", "why_tests_cant": "tests ask for states that exist", "anchors": ["cpypyqed/tools/initialconditions.py: fock, momentum_eigen"]}
{"id": "C109", "title": "The Bloch equations are the master equation of the pumped two-level atom", "statement": "PTLA_Evolved started with the same parameters as PTLA_C++QED gives the same Bloch vector: the three numbers it starts from are <sigma_z>, <sigma_x>, <sigma_y> of the initial state, and the right-hand side it integrates is the change of these under the master equation with the operators of PumpedTwoLevelAtom.", "quantifier": "for all decay rates, detunings, complex drives and all states of the atom", "why_tests_cant": "the comparison of the two programs in the test suite is at one set of parameters, to a tolerance; the equations, written by hand in real components, are right for all parameters only if they follow from the operators", "anchors": ["CPPQEDscripts/PTLA_Evolved.cc", "CPPQEDelements/frees/PumpedTwoLevelAtom.h"]}
{"id": "C110", "title": "The amplitude of a mode with two drives", "statement": "PumpedLossyMode_Evolved integrates the equation of motion of <a> which follows from the operators of the mode with two drives made from the same parameters.", "quantifier": "for all parameters without Kerr terms, all times, and all states not populating the highest level of the mode", "why_tests_cant": "the test has no second drive; the frequency at which the second drive rotates shows only with both detunings different from zero", "anchors": ["CPPQEDscripts/PumpedLossyMode_Evolved.cc", "CPPQEDelements/frees/BichromaticMode.h: BichromaticMode, make"]}
{"id": "C111", "title": "The amplitudes of a mode and of a two-level system in it", "statement": "QbitMode_Evolved integrates the equations of motion of <a> and <sigma> which follow from the operators of the qbit, the mode and the Jaynes-Cummings interaction with the same parameters, neglecting in the latter only terms proportional to the excitation of the two-level system; PTLA_EvolvedHL does the same for the atom alone.", "quantifier": "for all parameters without Kerr terms, complex coupling and drives, and all states not populating the highest level of the mode", "why_tests_cant": "the tests have a real coupling; the agreement is in the limit of weak excitation, so a comparison of numbers always has a deviation to be tolerated", "anchors": ["CPPQEDscripts/QbitMode_Evolved.cc", "CPPQEDscripts/PTLA_EvolvedHL.cc", "CPPQEDelements/interactions/JaynesCummings.h", "CPPQEDelements/frees/Qbit.cc", "CPPQEDelements/frees/Mode.tcc"]}
{"id": "C112", "title": "Fourier transformation of density operators in Python", "statement": "DensityOperator.fft(subsystems) and ifft(subsystems) transform a density operator to momentum space and back as the states are transformed: the result for sum |psi><phi| is the sum over the transformed states, and ifft undoes fft.", "quantifier": "for all numbers of subsystems, all lists of different subsystems with even dimensions (powers of two for the inversion), all density operators", "why_tests_cant": "which of the two halves of the axes is transformed with which sign is the same for real symmetric examples", "anchors": ["cpypyqed/tools/quantumstate.py: DensityOperator.fft, ifft, QuantumState._fft_helper"]}
{"id": "C113", "title": "Reading the data of trajectory files in Python", "statement": "load_evs(file) returns the columns displayed in a trajectory file, whatever commentary is in the file before, between and after the lines of numbers, and evs_header(file) returns the commentary at the beginning of the file.", "quantifier": "for all files a trajectory writes, with any number of lines and columns", "why_tests_cant": "there are arbitrarily many ways commentary and data are interleaved (logging during the run, resumed runs); examples are whole files of typical runs", "anchors": ["cpypyqed/tools/io.py: load_evs, evs_header", "CPPQEDutils/Trajectory.h: run"]}
{"id": "C114", "title": "Reading the quantum jumps of a trajectory in Python", "statement": "load_jumps(file) returns a two-dimensional array with the times and channels of the jumps that are logged in the trajectory file.", "quantifier": "for all trajectory files with a log, with any number of jumps, of runs that were resumed or not", "why_tests_cant": "the example in the documentation has several jumps in one run", "anchors": ["cpypyqed/tools/io.py: load_jumps", "CPPQEDcore/quantumtrajectory/MCWF_TrajectoryLogger.cc: Logger::onEnd"]}
{"id": "C115", "title": "State files are exchanged with Python", "statement": "cpypyqed.read returns the states and times saved by a trajectory (of an ensemble, those of its first member), in order; an array written with cpypyqed.write is read back as it was, and can be used as the initial state of a trajectory.", "quantifier": "for all ranks up to the limit, all shapes, all numpy arrays of real or complex numbers, all numbers of saved states, all further contents of the archives", "why_tests_cant": "which of the ways numpy stores arrays in memory (types, strides) occur in use cannot be enumerated by examples; typical tests write freshly made complex arrays", "anchors": ["cpypyqed/io.cc: read, write", "cpypyqed/blitz2numpy.h: numpyToArray, arrayToNumpy", "CPPQEDutils/Trajectory.h: ReadState, WriteState"]}
{"id": "C116", "title": "The summary of an ensemble of quantum trajectories", "statement": "At the end of an ensemble the log gives the averages over the trajectories of the numbers of steps, overshoots and jumps, the maxima of the overshoots and of the deviation of the norm, and a histogram of the times of all the jumps, with nBins bins (or such that there are nJumpsPerBin jumps in a bin on average), between the first and the last jump, every jump being in exactly one of the bins.", "quantifier": "for all ensembles, all logs, all values of nBins and nJumpsPerBin", "why_tests_cant": "the summary is commentary, which tests do not parse; the extreme samples fall on the borders of bins", "anchors": ["CPPQEDcore/quantumtrajectory/MCWF_TrajectoryLogger.cc: EnsembleLogger::stream", "CPPQEDcore/quantumtrajectory/MCWF_Trajectory.h: Pars"]}
{"id": "C117", "title": "Containers are read as they are written", "statement": "A container (sequence, set of delimiters in braces, pair, tuple, nested in any way) written to a stream is read back from it into a container of the same form, with any liberty in the blanks before the delimiters; nothing is read after the closing delimiter; if the text is not a spelling of such a container, then the stream signals failure.", "quantifier": "for all nested containers, all types of elements which can be written and read, all texts, all custom delimiters containing a visible character", "why_tests_cant": "the texts a stream may contain, and the ways of nesting, cannot be enumerated; the test writes and reads vectors of numbers", "anchors": ["CPPQEDutils/ContainerIO.h: container_io_helper, handleDelimiter, io_body, tuple_io", "CPPQEDelements/utils/ModeFunction.cc: operator>>"]}
{"id": "C118", "title": "The example elements of the structure guide are what the guide says", "statement": "The example mode of the structure guide, in Schroedinger picture and in interaction picture, evolves without jumps with H/i - kappa (2 nTh + 1) a^dagger a, H = -delta a^dagger a + (eta a^dagger + h.c.), and jumps with sqrt(2 kappa (nTh+1)) a and sqrt(2 kappa nTh) a^dagger; its columns are the means of the number operator and of the ladder operator. The example interaction of two modes evolves with H/i, H = g (a + a^dagger)(b + b^dagger), in either picture; the columns of its correlations are the means of the products of the quadratures.", "quantifier": "for all parameters, all cutoffs, all times and sequences of calls, all states", "why_tests_cant": "the examples are compiled, and a script runs the mode without comparing to anything; the states and times cannot be enumerated", "anchors": ["CPPQEDcore/examples/ExampleMode.cc", "CPPQEDcore/examples/ExampleModeImpl.cc", "CPPQEDcore/examples/ExampleInteraction.cc", "CPPQEDcore/doc/structureGuide.markdown"]}
{"id": "C119", "title": "The value of a configuration key of the test driver is that in the nearest importing section, whatever was looked up before", "statement": "When the test driver looks up a key in a section of its configuration, it gets the value written in that section, or else in the nearest of the sections reached by following the import keys; keys ending in _local are taken from the section itself only; if the key is in none of them, the default. What has been looked up before, in whichever sections, makes no difference. The look-up fails exactly if the imports do not come to an end or lead to a section which is not there. The run modes of a test are those under the key runmodes so found (generic if there is none), restricted to those under runmodes_<test>_local if the section has that key; each writes its trajectory and its states into files of its own.", "quantifier": "for all configurations, sections and keys, all chains of imports up to the depth of recursion, and all sequences of earlier look-ups", "why_tests_cant": "looking up rewrites the configuration in place, so that the answer could depend on the history; neither the histories nor the configurations can be enumerated, and the driver itself is not tested", "anchors": ["Testing/testdriver.py: OptionsManager._import_section, OptionsManager.get_option, OutputManager.runmodes, OutputManager._filter_runmodes, OutputManager.output"]}
{"id": "C120", "title": "A verification succeeds exactly if the outputs agree with the expected ones", "statement": "The verification of the test driver succeeds exactly if, for all run modes, the trajectory file has as many lines and columns as the expected one, the state file as many states of the same extents, and every number (time, column, amplitude) differs from the expected one by at most 1e-8 plus 1e-5 of its modulus. With verify=outcome the same holds of the last states and times alone. Any other value of the key is refused.", "quantifier": "for all outputs, of any number of lines, columns and states, and any list of run modes", "why_tests_cant": "the driver is what the tests rely on, and is not tested itself; a verification which succeeds always looks like one that has nothing to complain about", "anchors": ["Testing/testdriver.py: Verifier.run, _verify_full, _verify_ev, _verify_state, _verify_outcome", "Testing/testdriver.py: load_sv"]}
{"id": "C121", "title": "A compilation test succeeds exactly if the target compiles, or fails with the message expected", "statement": "A compilation test without an expected message succeeds exactly if all the dependencies and the target compile. With one it succeeds exactly if the dependencies compile, the target does not, and the message occurs in the output of the compiler.", "quantifier": "for all return codes, all outputs of the compiler and all messages", "why_tests_cant": "the driver is not tested itself, and the outputs cannot be enumerated", "anchors": ["Testing/testdriver.py: CompileTarget.run", "Testing/compilefail/fail.conf"]}
{"id": "C122", "title": "A comparison of trajectories succeeds exactly if the integral of the squared difference is small", "statement": "A column of a trajectory passes the comparison with a reference (another trajectory, or a function) exactly if the integral of the square of the difference of the two polygons, over the times of the trajectory, is less than epsilon. The run modes compared are those of the section which are also listed under runmodes_<test>, if that key is there.", "quantifier": "for all times, data, references and epsilon, all configurations", "why_tests_cant": "the integral is estimated at a few points, and the data that deceive the estimate cannot be found by trying; the driver is not tested itself", "anchors": ["Testing/testdriver.py: TrajectoryComparer._regression, TrajectoryComparer.run, FunctionComparer", "Testing/testdriver.py: OutputManager._filter_runmodes"]}
{"id": "C123", "title": "The references which the physics tests compare to are right", "statement": "The test of the final temperature compares the last density operator with the thermal state of the given number of photons, in the Hilbert-Schmidt norm. What the driver makes of the output of the Bloch equations are the columns which the simulation of the atom shows.", "quantifier": "for all numbers of thermal photons, dimensions, states and epsilon", "why_tests_cant": "the tests are run at one temperature only", "anchors": ["Testing/testdriver.py: final_temperature, StateComparer.run, PTLA_postprocess", "CPPQEDscripts/PTLA_Evolved.cc", "CPPQEDelements/frees/Qbit.cc"]}
{"id": "C124", "title": "The scripts of a particle and a mode simulate the whole light shift", "statement": "The script 1particle1mode simulates, in all its configurations and whatever the picture, the cavity with the detuning, losses and pump given by the user, the particle with its recoil frequency in the potential of the pump (configurations 1, 3, 4), and their interaction U0 n |f(x)|^2 + eta (a^dagger conj(f(x)) g(x) + h.c.), f being the mode function of the cavity along which the particle moves (f=1 and no light shift in configuration 1), g that of the pump (1 in configuration 2) and eta^2=U0 V (eta=0 in configuration 4): the correction the script makes to the detuning is what the interaction leaves out. Couplings of opposite signs, missing driving or spread and other configurations are refused.", "quantifier": "for all configurations, parameters, mode functions, pictures", "why_tests_cant": "the light shift is divided between the script and the interaction, the test suite compares trajectories of the pictures but not with the Hamiltonian", "anchors": ["CPPQEDscripts/1particle1mode.cc", "CPPQEDelements/interactions/ParticleCavity.cc: ParticleOrthogonalToCavity, ParticleAlongCavity, etaEff", "CPPQEDelements/frees/Mode.tcc: make", "CPPQEDelements/frees/Particle.cc: make, makePumped"]}
{"id": "C125", "title": "The ring cavity and its semiclassical counterpart are the same system", "statement": "Ring.cc simulates two modes with the detunings, losses and pumps given, a particle, U0 n0 |f0(x)|^2 + U1 n1 |f1(x)|^2 + (c a0^dagger a1 conj(f0(x)) f1(x) + h.c.) with c^2=U0 U1; Ring_Evolved.cc integrates the time derivatives of <a0>, <a1> in the same system with the particle at rest at its initial position. Both refuse light shifts of opposite signs.", "quantifier": "for all parameters, mode functions, wave numbers, states not populating the highest levels of the modes", "why_tests_cant": "infinitely many parameters; the semiclassical script has no test comparing it with the quantum one", "anchors": ["CPPQEDscripts/Ring.cc", "CPPQEDscripts/Ring_Evolved.cc", "CPPQEDelements/interactions/ParticleTwoModes.cc: ParticleTwoModes, factor", "CPPQEDelements/utils/ModeFunction.cc: modeFunction"]}
{"id": "C126", "title": "Time averages of a quantum trajectory", "statement": "The time averages which a time-averaging quantum trajectory displays at its end are, column by column, the means of the quantities over all instants streamed after the relaxation time, with equal weights, then processed as the columns are. This is so also if the trajectory was interrupted and resumed from its state file, any number of times.", "quantifier": "for all trajectories, all ways of running (end time or number of intervals, adaptive steps, any period of saving), any stopping criterion, any number of sessions", "why_tests_cant": "the number of samples and of sessions is unbounded, and whether a sample is lost depends on how the period of saving divides the length of the run", "anchors": ["CPPQEDcore/quantumtrajectory/TimeAveragingMCWF_Trajectory.h: stream_v, logMoreOnEnd_v, readStateMore_v, writeStateMore_v", "CPPQEDutils/Trajectory.h: run"]}
{"id": "C127", "title": "Projections of a quantum trajectory on given states", "statement": "A projecting quantum trajectory streams, for each of the given states, the squared modulus of its overlap with the state vector, and as last column the sum of these. The last column is the weight of the state vector in the space spanned by the given states, which need not be orthogonal: it is at most the norm squared, and reaches it exactly if the state vector is a superposition of them. The key announces exactly the columns streamed.", "quantifier": "for all dimensions, all linearly independent sets of states, all state vectors", "why_tests_cant": "equality with the weight in the span is a statement about all non-orthogonal sets; the class has no test", "anchors": ["CPPQEDcore/quantumtrajectory/ProjectingMCWF_Trajectory.tcc: help, stream_v, streamKey_v", "CPPQEDcore/quantumtrajectory/ProjectingMCWF_Trajectory.h"]}
{"id": "C128", "title": "Comparing numbers with tolerance", "statement": "Numbers of the tolerant kind can be compared with each other and with ordinary numbers on either side. Exactly one of <, == and > holds of two of them, <=, >= and != are what they should be in terms of these, and numbers whose relative difference is within ten times the machine epsilon are equal, while equal ones differ by at most twice as much. Being smaller is transitive, and being equal is an equivalence, so that the numbers can serve as keys of ordered containers.", "quantifier": "for all real numbers", "why_tests_cant": "trichotomy and transitivity are statements about all pairs and triples of numbers, and fail only at distances of the order of the tolerance", "anchors": ["CPPQEDutils/FuzzyDouble.h: FuzzyDouble", "CPPQEDutils/FuzzyDouble.cc: operator==, operator<, operator>"]}
{"id": "C129", "title": "Two particles in a cavity, the example of a custom script", "statement": "The example script simulates a lossy mode and two pumped particles moving along the cavity: each has its own kinetic energy in the potential of its own pump, and with each the mode interacts by the light shift U0 n cos^2(Kx) and by scattering from the pump; the parameters of both particles are taken from their command line options. The initial state of the particles is symmetric for bosons and antisymmetric for fermions, and is normalised. The correlation displayed is the average of the product of the momenta of the particles. Inconsistent signs of the couplings are refused.", "quantifier": "for all parameters, all initial states of the particles, all density operators", "why_tests_cant": "the equality of the simulated generator with the Hamiltonian of the problem concerns all states and all parameters; the example has no test", "anchors": ["CustomScriptsExample/2ParticlesRingCavitySine.cc", "CustomElementsExample/interactions/MomentumCorrelation.cc: average_v", "CPPQEDelements/interactions/ParticleCavity_.h: ParticleAlongCavity"]}
{"id": "C130", "title": "Which parameters decide how a trajectory is run", "statement": "Running a trajectory with the parameters from the command line: the number dc of steps between outputs takes precedence over Dt and NDt, for trajectories proceeding in steps, and runs to T; otherwise NDt takes precedence over T, so that exactly NDt intervals of length Dt are run and streamed, whatever T is; otherwise the trajectory is run to T. The run is refused exactly if there is neither a usable dc nor a Dt.", "quantifier": "for all values of the parameters, all trajectories which advance as they are told, all stopping criteria", "why_tests_cant": "the precedence concerns all combinations of the parameters, and the number of records is unbounded", "anchors": ["CPPQEDutils/Trajectory.h: run(traj,Pars,ah,...)", "CPPQEDutils/Trajectory.h: run"]}
{"id": "C131", "title": "Generated code for applying tridiagonal operators", "statement": "The code which the generator script writes as the specialisation of applying a tridiagonal operator of the given number of factors does what the general implementation does: it adds the product of the operator's matrix with the state to the derivative, and changes nothing else. It has one statement for each diagonal, in the order in which they are stored.", "quantifier": "for every number of factors, every tridiagonal operator, every state and derivative", "why_tests_cant": "the number of statements is exponential in the number of factors, and no test compares the generated code with the general one", "anchors": ["CPPQEDcore/quantumoperator/applyImpl/generate.py: recurse", "CPPQEDcore/quantumoperator/Tridiagonal.tcc: apply, doApply"]}
{"id": "C132", "title": "Composite transformations of states", "statement": "A composite transformation applied to a state vector is the tensor product of its factors, each acting on its own subsystems, identities included; the input is left alone and the result is in the array, and in the storage, which the caller gave for it. Composing transformations is associative and adds the numbers of subsystems.", "quantifier": "for all lists of factors (matrices, functions, identities) of any ranks and dimensions, all states", "why_tests_cant": "where the result ends up depends on the parity of the number of factors which are not identities, and the equality with the tensor product concerns all states", "anchors": ["CPPQEDcore/quantumdata/Transformation.tcc: Composite::transform, TransformSubsystem, Algorithm, Compose", "CPPQEDcore/quantumdata/Transformation.h: Traits", "CPPQEDcore/quantumdata/Transformation.cc: performTransformation"]}
{"id": "C133", "title": "Norm of state vectors on non-orthogonal bases", "statement": "The norm of a state vector with a metric transformation is the length of the vector having the given components on the basis with this metric, also after copying the state vector and after vector-space operations. The product of such state vectors belongs to the product of the bases, and its norm is the product of the norms.", "quantifier": "for all bases, orthogonal or not, all dimensions and all components", "why_tests_cant": "the equality with the geometric length is for all bases and states; the test only compares the norm with the same formula", "anchors": ["CPPQEDcore/quantumdata/NonOrthogonalStateVector.h: NonOrthogonalStateVector, operator*", "CPPQEDcore/quantumdata/NonOrthogonalStateVector.tcc: norm, update"]}
{"id": "C134", "title": "The evolved state in the object given as the initial state", "statement": "The evolved state can be accessed after the evolution (and between its outputs) in the object which was given as the initial state: a state vector given for a single quantum trajectory, or a density operator given for the Master equation, has the value of the state of the trajectory, and nothing else of the user's changes. An ensemble leaves the initial state unchanged and its trajectories do not disturb one another. In particular, a script which displays averages computed in a state vector sharing its memory with the evolved one displays those of the evolved state.", "quantifier": "for all programs producing the initial state, all sequences of steps with steps given up, ordinary and special jumps, both fresh runs and runs resumed from a state file", "why_tests_cant": "which objects share memory with the trajectory depends on the whole history of the program, and the tests look only at the output of the trajectory", "anchors": ["CPPQEDcore/quantumtrajectory/Evolution_.h: evolve", "CPPQEDcore/quantumtrajectory/MCWF_Trajectory.h: MCWF_Trajectory, stateIO, step", "CPPQEDcore/quantumtrajectory/Master.h: Master, stateIO", "CPPQEDelements/utils/AveragingUtils.h: Transferring", "CPPQEDscripts/QbitMode_Matrix.cc"]}
{"id": "C135", "title": "The script of optomechanics", "statement": "The script simulates a pumped and lossy mode of light and a lossy mechanical oscillator with the coupling - u n (b + b^dagger), in whatever picture is chosen: the amplitude of the oscillator is pushed by the number of photons, its displacement shifts the frequency of the light, and the number of photons is not affected by the coupling.", "quantifier": "for all parameters and cutoffs, all pictures, all density operators not populating the highest levels", "why_tests_cant": "the equality of the simulated generator with that of the problem, and the equations of motion, concern all states and parameters; the script has no test", "anchors": ["CPPQEDscripts/Optomechanics.cc", "CPPQEDelements/interactions/CoupledModes.cc: Base<true,CM_NX>", "CPPQEDelements/frees/Mode.tcc: make"]}
{"id": "C136", "title": "The script of an ion in a cavity with phonons", "statement": "The script simulates an ion with the levels S1/2, P1/2 and D3/2: both levels of P1/2 decay into S1/2 and into D3/2 at the rates gammaPS and gammaPD, distributed by the squares of the Clebsch-Gordan coefficients; the laser, detuned by deltaEta, drives the transitions from S1/2 to P1/2, with sidebands of the phonons; the cavity couples P1/2 with D3/2 by g times the Clebsch-Gordan coefficients.", "quantifier": "for all parameters of the script, all cutoffs, states and times", "why_tests_cant": "the decay rates and energies of the generator are to be compared with those of the problem for all parameters; the script has no test", "anchors": ["CPPQEDscripts/Ca40InCavityWithPhonons.cc", "CPPQEDelements/frees/MultiLevel.h: PumpedLossyMultiLevelSch", "CPPQEDelements/interactions/MLJC.h: Base"]}
{"id": "C137", "title": "Imaginary-time evolution of the Dicke model", "statement": "The script evolves a mode and a spin with the general Dicke interaction in imaginary time: the generator of the evolution without jumps is minus the Hamiltonian, but for a constant, so that the energy of the state never increases. The state is projected upon as many eigenstates of the Hamiltonian as asked for.", "quantifier": "for all parameters of the script, all dimensions and states", "why_tests_cant": "the sign and the place of each parameter after the mapping to imaginary time are to be compared with the Hamiltonian for all parameters; monotonicity of the energy is a claim about all states", "anchors": ["CPPQEDscripts/GeneralDickeImaginaryEvolution.cc", "CPPQEDelements/interactions/GeneralDicke.cc: Base", "CPPQEDelements/frees/Spin.h: Spin", "CPPQEDcore/structure/MatrixOfHamiltonian.h: calculateMatrix"]}
{"id": "C138", "title": "Vectors as parameters", "statement": "A vector of numbers written by the framework is read back as the same vector. On the command line, a vector in brackets with commas between its numbers, with or without whitespace, is assigned to its parameter, and anything which is not such a vector is refused.", "quantifier": "for all lengths of vectors, all numbers, all placements of whitespace and all characters in the place of the separators, debug and release builds", "why_tests_cant": "there are unboundedly many texts; no test gives a vector on the command line", "anchors": ["CPPQEDutils/IO_Manip.h: IO_Manipulator, outputTinyVector, inputTinyVector", "CPPQEDutils/Pars.cc: update"]}
{"id": "C139", "title": "Expectation values in Python", "statement": "The ordered dictionary of the Python tools behaves as a map whose keys come in the order of their first assignment. A collection of expectation values has a trajectory with time and title for each of its rows, and so have its subsystems, its parts and the results of arithmetic upon it.", "quantifier": "for all sequences of assignments and deletions, all data, times, titles (fewer or more than rows), subsystems and slices", "why_tests_cant": "sequences of operations are unbounded; which attributes survive slicing and arithmetic is decided by the array class behind, and no test looks at them", "anchors": ["cpypyqed/tools/utils.py: OrderedDict", "cpypyqed/tools/expvalues.py: ExpectationValueTrajectory, ExpectationValueCollection"]}
{"id": "C140", "title": "Raman transitions", "statement": "The scripts simulate a Lambda atom, pumped on both transitions, or pumped on one and coupled to a cavity mode on the other, with the parameters given. The atom is trapped, without evolving or emitting, exactly in the states in which its ways up cancel and which are on two-photon resonance, and under the Master equation the population of such a state does not decrease.", "quantifier": "for all pumps, couplings, decay rates, detunings, states and density matrices, all cutoffs of the mode", "why_tests_cant": "that a state is trapped holds for all times, and the set of states which are is to be compared with that of physics for all parameters; the scripts have no test", "anchors": ["CPPQEDscripts/Raman.cc", "CPPQEDscripts/CavityRaman.cc", "CPPQEDelements/frees/MultiLevel.h: PumpedLossyMultiLevelSch, HamiltonianSch, LiouvilleanRadiative", "CPPQEDelements/interactions/MLJC.h: Base"]}
{"id": "C141", "title": "Random engines", "statement": "Each random engine has a state of its own, also those made as copies of another. An engine loaded from a saved state goes on with the same numbers as the engine saved. An array filled with random numbers in parts is the same as one filled at once.", "quantifier": "for all sequences of constructing, copying, seeding, drawing, saving and loading any number of engines, all engines whose state can be written and read back, all distributions and lengths of arrays", "why_tests_cant": "the test saves and loads each engine once, after one fill with a uniform distribution; sequences of operations upon several engines and distributions with memory are not tried", "anchors": ["CPPQEDutils/Random.h: GSL_Engine, fill, load, save", "CPPQEDutils/Random.cc: GSL_Engine"]}
{"id": "C142", "title": "Tridiagonal operators are values", "statement": "A Tridiagonal may be used as a value: copies, negatives, hermitian conjugates, direct products and sums have diagonals of their own, and so has an operator constructed from the user's arrays. Changing one of them (operator*=, +=, -=, propagate, furnishWithFreqs, assignment), or the arrays, changes no other; an operator may be added to itself. Operators of the same type may be assigned to each other, and an operation which throws changes nothing.", "quantifier": "for all programs of any length which construct, copy, combine, propagate and assign any number of operators of any rank with any diagonals", "why_tests_cant": "Blitz arrays share memory when copied, so that one forgotten deep copy shows only in programs which change one of two operators and then use the other; tests use a few operators, and none after an exception", "anchors": ["CPPQEDcore/quantumoperator/Tridiagonal.h: Tridiagonal", "CPPQEDcore/quantumoperator/Tridiagonal.tcc: operator*=, operator+=, hermitianConjugate, propagate", "CPPQEDcore/quantumoperator/Tridiagonal.cc: furnishWithFreqs", "CPPQEDutils/BlitzTinyOfArrays.h: TinyOfArrays", "CPPQEDutils/BlitzTinyOfArrays.tcc: TinyOfArrays, negate"]}
{"id": "C143", "title": "The GSL stepper evolves the array it is given", "statement": "A step which ControlledErrorStepperGSL tries upon an array gives its elements the values which the step of GSL gives to the vector of these elements under the same equations of motion, and changes nothing else in memory, also if the array is a transposed or otherwise non-contiguous view; arrays for which this is impossible, or whose size is not that of the arrays the stepper has been used for, are refused.", "quantifier": "for all shapes, layouts and contents of arrays, all systems, all steps of GSL, debug and release builds, first and later steps", "why_tests_cant": "tests use arrays just constructed, which are stored row by row; for others the outcome depends upon all combinations of strides and systems", "anchors": ["CPPQEDutils/ODE_GSL.h: ControlledErrorStepperGSL::try_step, lowLevelSystemFunction", "CPPQEDutils/ArrayTraits.h: Size, Extents, Data, Create, IsStorageContiguous", "CPPQEDutils/BlitzArray.h: Size, Data_c, Create, IsStorageContiguous"]}
{"id": "C144", "title": "Identical subsystems are not told apart", "statement": "If the same objects are given for several subsystems of a composite and for their interactions with the rest, as in the script of two particles and a mode, then exchanging these subsystems is a symmetry: states which are symmetric or antisymmetric stay so under the Hamiltonian and under the exact propagation, symmetric density operators under the master equation, a jump of one of the subsystems does to the exchanged state what that of the other does to the state, with the same rate, and the columns displayed for the subsystems are exchanged with the state, and so coincide in symmetric and antisymmetric states.", "quantifier": "for all composites of any number of subsystems, all renamings of subsystems which take the constituents into themselves, all interactions between any number of subsystems, all states, pure and mixed", "why_tests_cant": "tests compare trajectories of a few systems with stored results; whether places, strides and orders of constituents treat all subsystems alike concerns every rank and every composition", "anchors": ["CPPQEDcore/composites/Composite.tcc: addContribution_v, actWithU_v, actWithJ_v, averageLA", "CPPQEDcore/composites/Composite.h: make", "CPPQEDelements/interactions/IdenticalParticles.h: IdenticalParticles", "CPPQEDscripts/2particles1mode.cc"]}
{"id": "C145", "title": "Density operators know their dimensions", "statement": "Whatever has been done with density operators (construction from dimensions, taking an array by reference, copying, rearranging the subsystems, taking diagonal slices), the dimensions and the total dimension they report are those of their arrays, the same for kets and for bras; an array with other extents for bras than for kets is refused; and rearranging the subsystems moves dimensions, ket indices and bra indices alike, keeping every element and the total dimension.", "quantifier": "for all numbers of subsystems, all dimensions, all permutations, all sequences of operations, in debug and release builds", "why_tests_cant": "tests use a few fixed ranks and square arrays, in one kind of build; the dimensions, the array and its index order are kept apart, so that their agreement is an invariant over all sequences of operations", "anchors": ["CPPQEDutils/BlitzTinyExtensions.h: concatenateTinies, halfCutTiny", "CPPQEDcore/quantumdata/DimensionsBookkeeper.h: DimensionsBookkeeper, setDimensions", "CPPQEDcore/quantumdata/DensityOperator.h: DensityOperator, transposeSelf, diagonalSliceIndex, lbound, ubound, indexWithTiny"]}
