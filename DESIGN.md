# Formal model of QuanGuru: design

## Approach

QuanGuru has two layers. The object layer (`classes/`) is bookkeeping: names, aliases, containers, dirty flags, sweeps, result lists, protocol caches, system trees. It is modelled with plain Gallina functions over lists, `nat`, `Z`, `Q`; Python exceptions are values. The numerical layer (`QuantumToolbox/`) is linear algebra; it is modelled with dynamically shaped matrices (row count, column count, entry function) over mathcomp's abstract rings and `numClosedFieldType` (so exact arithmetic; floating-point rounding is not modelled).

Each area has a model file (definitions with citations), where needed a small specification file, a proof file, and a `Props*.v` file with the property theorems (named after their property), their examples and `Print Assumptions`.

## Trusted base

- Coq 8.16.1's kernel. `coqchk` re-checks the compiled files in the gate.
- No axiom is declared here. `tools/assumptions.py` runs `Print Assumptions` on every theorem of the `Props*.v` files. All theorems of C01-C64, C70-C72, C74, C77-C79 and C82-C97 are "Closed under the global context". The theorems of C65-C69, C73, C75, C76, C80 and C81 (PropsExp.v, PropsClosed.v, PropsRot.v, PropsUJC.v, PropsTherm.v, PropsEnt.v, PropsSteady.v, PropsRmt.v, PropsPar.v) are about the real numbers of the standard library and list nothing but axioms of it: `ClassicalDedekindReals.sig_forall_dec`, `ClassicalDedekindReals.sig_not_dec`, `FunctionalExtensionality.functional_extensionality_dep`, `ClassicalEpsilon.constructive_indefinite_description` and `Classical_Prop.classic`.
- The whole-context listing of `coqchk -o` also names opaque fields of sealed modules of mathcomp and of `Coq.Reals` and `Coq.ssr` (such as `BigOp.bigopE`, `FinfunDef.finfun`, `Algebraics.Implementation.type`). They have definitions inside their modules; `Print Assumptions` lists none of them.
- The reading of Python as Gallina: each definition cites the lines it models and was written by reading; no code was run and nothing is extracted.

## What is modelled and what is not

Numbers. Arithmetic is exact. Floating-point error is not modelled anywhere, except that QDimModel.v models the float division used for dimensions. Explicit rounding in the code:

- spinRotations.py rounds cosine and sine to 15 decimals. C48 is about the gates without this; C67_rounded bounds the difference and C67_rounded_refuted shows that the rounded gates are not all unitary.
- functions.py expectation drops an imaginary part that rounds to 0 at 12 decimals. The model drops it only when it is 0, so a small imaginary part the code loses is kept by the model.
- functions.py fidelityPure rounds the overlap of two kets to 20 decimals. The model does not, so the code can return 1 for kets that differ by less than that.
- functions.py concurrence rounds to 15 decimals. This is modelled by an arbitrary monotone rounding (ConcSpec.v); PropsConc.v constructs one.
- operators.py rounds (d-1)/2 to one decimal. This is modelled (`round1`).

Sparse and dense storage are one matrix type. scipy's `expm` is an argument with laws as hypotheses in C39, C40, C50 and C60, and the power series itself in C65-C68, C75, C76 and C81.

Files of src/quanguru with modelled code: QuantumToolbox/{operators, states, functions, linearAlgebra, evolution, basicGates, spinRotations, Hamiltonians, IPR, thermodynamics, eigenVecVal, quasiProbabilities, rmtDistributions}.py; classes/{base, baseClasses, exceptions, QSimBase, QSimComp, QSim, QSweep, modularSweep, QRes, QPro, QGates, QSystem, QTerms, QDrive, environment}.py (of modularSweep the parallel path as one copy of the objects per sweep point, ResModel.v); extensions/saveReadCSV.py; classes/extensions/couplings.py (JC, Rabi, Dicke). Only the functions cited in the model files are covered, not every function of these files.

Not modelled: classes/QProtocol.py, the rest of classes/extensions, the parts of the older classes of QSys.py that C93-C96 do not cite, extensions/saveReadHFive.py (all commented out), tempConfig.py, simUnits.py, plotting, the process pool of multiprocessing itself, and package initialisation.

## Plan per property

- **C01 Alias dictionary behaves as one ordered map** — Alias.v: keys are objects with a list of strings or plain strings; the dict is an ordered association list; keySearch = exact-hash hit, else first equal key. Refinement proof to an abstract ordered map by induction on the operation list.
- **C02 Overwriting through an alias never duplicates or reorders entries** — Alias.v: direct lemma on setitem/update.
- **C03 Equality by name or alias** — Alias.v: any-shared-member equality; reflexive/symmetric proved; non-transitivity and hash mismatch as _refuted witnesses.
- **C04 Default names are unique** — Named.v: registry state machine (per-class counters, name table), induction over histories.
- **C05 Aliases are exclusive** — Named.v: invariant over histories; alias-then-create counterexample as _refuted.
- **C06 List arguments act as the flattened sequence of single calls** — Recurse.v: rose trees, state+error monad; equality with fold over flattened leaves.
- **C07 Sub-system container is an ordered set** — Container.v: refinement of the add/remove/reset history to an ordered set.
- **C08 Parameter changes reach every dependent object** — ParamBound.v: bound graph; propagation = reachability on acyclic graphs (ranking function); fuel never exhausted.
- **C09 Deleting matrices terminates and clears everything reachable** — ParamBound.v: DFS with visited list; termination measure + reachability characterisation.
- **C10 Deleting matrices twice** — ParamBound.v: the shared default list is part of the state; refuted by a two-call witness.
- **C11 Sweep index decomposition covers the grid exactly once** — Sweep.v: mixed-radix decomposition over N; bijection and lexicographic order.
- **C12 Each sweep point sets every swept parameter correctly** — Sweep.v: prepare/runSweep as list functions; each assignment equals the group index.
- **C13 First sweep flagged combinatorial** — Sweep.v: refuted by witness.
- **C14 Sweep value lists** — Sweep.v: arange over Q.
- **C15 Reshaped results are indexed by the sweep indices** — Res.v: _reShape/_finalise on nested lists (rose trees).
- **C16 Running average equals the mean** — Res.v: running mean over Q.
- **C17 Multi-process and single-process runs give the same results** — Res.v: per-point blank results then merge vs. accumulate.
- **C18 Bound parameters read the source value** — Time.v: parameter store with bound links.
- **C19 Time parameters stay consistent** — Time.v: timeBase setters/getters over Q.
- **C20 Number of evolution steps and stored states** — SimRun.v: evolution loops as event traces.
- **C21 Protocol unitary is the ordered product of its steps** — Protocol.v: steps as trees, unitaries in a monoid.
- **C22 Cached unitaries are never stale** — Protocol.v: cache state machine.
- **C23 Updates are undone** — Protocol.v: setup/setback over a parameter store; refuted for two updates of one attribute.
- **C24 Dimension bookkeeping of flat composite systems** — QSys.v: system heap, addSubSys, dimension.
- **C25 Dimension bookkeeping of nested composite systems** — QSys.v: tree of systems with dimsBefore/After, invariant.
- **C26 Growing a composite that is already inside another** — QSys.v: refuted by witness.
- **C27 Removing a sub-system** — QSys.v: remaining systems proved, removed system's dimension refuted.
- **C28 No system contains itself** — QSys.v: direct cycle rejected; indirect one refuted by witness.
- **C29 Hamiltonian of a composite is the sum of all embedded terms** — Ham.v: tree Hamiltonian over an abstract module of matrices.
- **C30 Cached Hamiltonians are never stale** — Ham.v: cache state machine with dirty flags, invariant over histories.
- **C31 Removing terms updates the Hamiltonian** — Ham.v: refuted for resetTerms, proved for removeTerm if the code supports it.
- **C32 Pauli operators only act on two-level systems** — QSys.v: guard logic; over-restriction as a refuted lemma.
- **C33 Copy of a system has the same terms** — CopyModel.v, CopySpec.v, CopyProofs.v, PropsCopy.v: systems as trees with identities; refuted for two or more terms, proved by induction on the tree for at most one term each.
- **C34 Tensor product laws** — Mat.v: dynamically shaped matrices (rows, cols, entry function) over mathcomp rings; kron with div/mod indices.
- **C35 Composite operators act only on their own system** — Mat.v / Oper.v.
- **C36 Partial trace** — PTrace.v: mixed-radix reshape, sum over traced indices.
- **C37 Vectorisation round trip** — Vec.v: column stacking with div/mod.
- **C38 Super-operators act by left and right multiplication** — Superop.v.
- **C39 The Liouvillian is the Lindblad generator** — Superop.v over numClosedFieldType.
- **C40 Gates applied to open systems** — Superop.v: refuted by witness; conditional positive result.
- **C41 Ladder operators** — Ladder.v over numClosedFieldType (sqrtC).
- **C42 Angular momentum algebra** — Spin.v over numClosedFieldType.
- **C43 Pauli algebra and consistency with spin operators** — Spin.v.
- **C44 Computational basis** — States.v.
- **C45 Superposition states have the requested populations** — States.v.
- **C46 Density matrices** — States.v.
- **C47 Expectation values and fidelities** — Expect.v.
- **C48 Rotations and basic gates are unitary** — Gates.v: cosine/sine values as any pair with c^2+s^2=1 (angle functions are an oracle with the addition law).
- **C49 Jaynes-Cummings and Rabi Hamiltonians** — HamModel.v, HamSpec.v, HamProofs.v, PropsHam.v: entries from the definitions of the ladder operators, conservation by commuting with the excitation number, propagator by checking the differential equation on its entries.
- **C50 Open evolution step count** — Superop.v: iteration.
- **C51 Saved result files do not overwrite each other** — CsvModel.v, CsvSpec.v, CsvProofs.v, PropsCsv.v: the directory is a map from paths to lines; refuted by witness for wide lists, proved for at most ten entries per level, for one wide level, and characterised in general. extensions/saveReadHFive.py is commented out entirely, so there is nothing to model in it.
- **C52 Pulse and drive shapes** — DriveModel.v, DriveSpec.v, DriveProofs.v, PropsDrive.v: ordered field, user functions as arguments that may raise; the update flag is shown to stay set along every history.
- **C53 Sweep point count after changing the sweeps** — SweepModel.v: prepare with the old values as an argument; proved with at least one sweep, refuted when all were removed.
- **C54 Removing a system from the sweeps** — SweepModel.v: removeSweep loop; proved when every sweep contains the system, refuted (KeyError and partial effect) otherwise.
- **C55 Running again without resetting results** — ResModel.v runRes with resetRes=false from a finished state; proved for one sweep, witness for the refutation.
- **C56 Cost of reading a bound parameter** — TimeModel.v: cost of the getter; induction on the chain.
- **C57 Compute of a shared system sees one protocol** — same model as C20; the log of system computes is the trajectory of the first protocol of the system
- **C58 Fixed steps** — same model as C22; induction on nesting and history that the stored matrix of a fixed object is never replaced; refutation by the first request
- **C59 Parity operator** — PropsOper.v: band-matrix calculus.
- **C60 Evolution operators are unitary** — PropsOper.v: exponents are anti-Hermitian; expm is an oracle with two laws.
- **C61 Powers of operators** — PropsOper.v: induction on the power.
- **C62 Standard deviations** — MeasSpec.v, PropsMeas.v: the state is decomposed into kets (psd_decomp of StateProofs.v), the variance is a sum of squared deviations, the uncertainty relation is Cauchy-Schwarz for the deviations.
- **C63 Inverse participation ratio** — MeasSpec.v, PropsMeas.v: bounds for the sum of squares of a probability vector, Parseval for an arbitrary orthonormal basis.
- **C64 Bell states** — MeasSpec.v, PropsMeas.v: exact computation with the model of BellStates by name, C36 for the reduced states.
- **C65 Open-system evolution yields valid density matrices** — RC.v (the complex numbers over the standard library's reals), ExpSeries.v/ExpMatrix.v (convergence, product law), ExpmSpec.v (the series as a specification), LindProofs.v, PropsExp.v: a step of the generator is positive to first order, the exponential is the limit of such steps, and positivity passes to limits.
- **C66 Time evolution composes and conserves what commutes** — ExpScalar.v (scalar exponential, Euler), ExpKron.v (exponential of an embedded operator), PropsClosed.v: product law of the series for commuting matrices, uniqueness of the limit.
- **C67 Rotations and phases by real angles** — PropsRot.v: series of an involution (Euler's formula for matrices), C48 for the algebra of the gates, C66 for spins.
- **C68 The analytical Jaynes-Cummings propagator is the exponential** — PropsUJC.v: Euler's formula gives the hypotheses of C49_UJC_evolves, the exponential acts by phases on eigenvectors, and C49 says only one matrix does.
- **C69 Thermal occupation and polarisation** — ThermModel.v, PropsTherm.v: the real exponential of the standard library; floats are exact reals, so underflow of exp(x)-1 is left out.
- **C70 Trace distance** — traceDistance is modelled over an eigenvalue solver given as an argument (EigModel.v); EigSpec.v assumes only that it returns the roots of the characteristic polynomial with multiplicities and normalised eigenvectors. The spectral theorem (Spectral.v) and uniqueness of the roots (SpecProofs.v) turn eigenvalue sums into traces; the sign and the positive part of the difference attain the bounds. A solver meeting the assumption is constructed in EigInst.v.
- **C71 Sorted eigenvalues and eigenvectors** — sortedEigens is modelled over an eigenvalue solver and an argsort given as arguments (EigModel.v); EigSpec.v states what is assumed of them and EigInst.v constructs instances. The sorted list is a permutation of the spectrum and the same permutation is applied to the vectors (PropsEigs.v).
- **C72 Spectral norm** — spectralNorm is modelled on top of sortedEigens (EigModel.v); diagonalising M^dagger M by the spectral theorem bounds |M v|^2 by its largest eigenvalue, which the corresponding eigenvector attains (PropsEigs.v).
- **C73 Von Neumann entropy** — entropy is modelled over an eigenvalue solver and the two logarithms given as arguments (EigModel.v), over the complex numbers on Coq's reals. Real inequalities for x ln x are in EntReal.v; the spectral theorem gives the sum over eigenvalues; the two parts of a pure state are X X^dagger and (X^dagger X)^T, which have the same nonzero eigenvalues by Sylvester's determinant identity (SchmidtProofs.v).
- **C74 Concurrence of two qubits** — concurrence is modelled over the eigenvalue solver, square root and rounding given as arguments (EigModel.v). Takagi.v factorises complex symmetric matrices; with rho = B B^+ the square roots of the eigenvalues are the singular values of the symmetric matrix B^+ (sy x sy) conj(B), whose diagonal bounds them; phases and a 4 x 4 Hadamard matrix give a mixture that attains the bound (ConcProofs.v, PropsConc.v).
- **C75 Open evolution never increases the trace distance** — over the complex numbers on Coq's reals, with the matrix exponential and an eigenvalue solver as arguments. ChanProofs.v shows for every positive trace-preserving linear map that it contracts the trace distance (positive and negative part of the difference); C65 says that the exponential is such a map; C50 and induction give the runs.
- **C76 steadyState finds the stationary state** — steadyState is modelled over the same arguments (EigModel.v). The powers of the super-operator are bounded (C75), so no eigenvalue exceeds one (SteadyProofs.v); trace preservation gives the eigenvalue one; the positive part of a fixed Hermitian matrix is fixed, so there is a fixed density matrix; a simple eigenvalue has a one-dimensional eigenspace; Cayley-Hamilton factors give the limit, without diagonalisability.
- **C77 Eigenvector statistics** — modelled in EigModel.v over an eigenvalue solver given as an argument; positions by induction over the flattened lists, sums by normalisation of the eigenvectors and Parseval's identity of C63.
- **C78 Wigner function** — the loops over the list of arrays are modelled with their in-place updates, point by point (PhaseModel.v); the real exponential and pi are arguments. The two recurrences of the closed form (PhaseProofs.v) give loop invariants; Hermitian symmetry turns the sum over the upper triangle into the full one.
- **C79 Husimi function** — modelled with numpy's broadcasting of a row over the grid (PhaseModel.v): fliplr of a list of one two-dimensional array reverses its rows, not its entries, so polyval gets the whole row as one coefficient. The documented function is in PhaseSpec.v.
- **C80 Densities of random-matrix theory** — RmtModel.v over the standard library's reals; integrals are Coquelicot's Riemann integral, improper ones by limits written out in RmtSpec.v. The Gaussian integral by the derivative of a parametric integral, moments by induction; the orthogonal class by a two-step recursion on primitives from the two smallest dimensions; the exponential series for Poissonian. gammaln is an argument with its values at 1/2 and 1 and its functional equation on half-integers as hypotheses; a witness is built.
- **C81 Parity, displacement and squeezing** — ParModel.v and OperModel.v with the power series of ExpmSpec.v for expm. Conjugating the generators by a diagonal matrix of phases multiplies the ladder operators by a phase; exponentials of similar, diagonal and commuting matrices.
- **C82 Initial states of single and nested systems** — InitModel.v: trees of systems with the stored state, input and maximal level of each. InitSpec.v says what an input stands for (parts), without stored states. Invariants over histories: the root's input and its stored state (None or the right one); the inputs stored in the single systems are the latest ones; arrays and states keep a quality closed under superPos and kron.
- **C83 Systems and protocols of a simulation** — SimSysModel.v: the ordered dictionary with names or protocols as keys, the sweeps of the simulations (SweepModel.v) and the operations. Invariants over histories: keys are unique, a name has its own system, protocols have their own systems; the loop of _freeEvol moves the pairs, one after the other, to the end (induction over the pairs that are left).
- **C84 Dissipators and thermal baths** — a state of baths, dissipators, protocols and systems with a step per API operation (EnvModel.v); cache freshness, the links of dissipators to protocols and baths, the right matrix and signs as invariants over histories, frames per step; refutations by witnesses.
- **C85 Couplings of a composite: Jaynes-Cummings, Rabi and Dicke** — the search of the decorator with the recursion limit as fuel, terms as positions with operators, Hamiltonians with the matrix model (CoupModel.v); histories refine a ledger of couplings (CoupSpec.v), embedded operators are tensor products of one factor per sub-system, so every matrix element is a product over them; symmetries from the elements, the toolbox by C49.
- **C86 A time-dependent Hamiltonian is taken at step size times the step number** — TimeDepModel.v adds the clock of simulations (over the bounds of TimeModel.v), the functions of the terms, the calls of _timeDependency in the unitary requests of ProtModel.v, and the loop of timeEvolBase. The proof shows that a request inside a step sets the parameters to what they already are, so that it is a request of ProtModel.v at fixed parameters, and uses the freshness invariant of C22 from step to step.
- **C87 Every point of a sweep is a run of its own** — SweepRunModel.v composes the models of sweeps (C11, C12), protocols and time dependence (C22, C86) and results (C15, C17) into one run. The proof carries the cache invariant of C22 and the values of unswept parameters from point to point, and shows that the states of a point are determined by its parameters; results then follow from C15, and the pool from C17.
- **C88 What run returns and where the states of a run are found** — RunEndModel.v adds the lines after the points of a run to the model of results (ResModel.v): the loop over the states and the returned entry of a defaultdict. C88_end by induction over the items (their keys are unique, an invariant of every recording step); C88_sweep and C88_single compose it with C15, C88_trajectories with C87; C88_others by an invariant per object over the points. C88_empty_refuted is the case of the empty list.
- **C89 When a run uses a pool of processes, and of how many** — PoolModel.v: a state of remembered number, reRun and start method, with a list of events (pool opened, simulation run, pool closed) per call; sessions are folds. Memory, leaks, positivity and start method are invariants by induction over the session; PoolSpec.v reads the last pool and the open pools off the events. C89_results composes with C17 and C88: the end of a run reads only what C17 shows to be equal. Not modelled: cpu_count() raising, and what the operating system does to leaked pools.
- **C90 What + and - between quantum systems build** — PlusModel.v: __add__ branch by branch on the heap of QDimModel.v, expressions evaluated left to right; the theorems give the result, its sub-systems, dimension and dimsBefore/After, and the list of addSubSys calls the expression amounts to, which is again a fine history, so that C25 and C27 apply to what follows. By induction on the operands, with the representation invariant of C25.
- **C91 What createSweep creates** — SweepNewModel.v: createSweep with hasattr as a function; the targets of the new sweep are those of SweepModel.v, so that C12 gives the values at every point. By induction on the calls.
- **C92 Which object an attribute of a system or protocol reads and assigns** — FwdModel.v: object.__getattribute__/__setattr__ over an arbitrary table of descriptors, the two overridden methods of QSimComp on top, and the time parameters of TimeModel.v as a table, so that C19 gives the step count read through a system. The session theorem is by induction over the session.
- **C93 Coupling terms of the older composite systems** — OldCoupModel.v: the dictionary of terms, the loop of addTerm with fuel (None is no return), embedding of the operators by Kronecker products, the cached matrix. Invariant: the cached matrix is the sum of the terms in the dictionary, and the keys are 0..n-1.
- **C94 Dimensions kept by the older single and composite systems** — OldDimModel.v: a heap of systems with the recursive setters, additions, removals with the exclusion list and updateDimension, int(a/b) as a function that is exact up to a bound. Flat sessions by an invariant over all systems; nested ones by induction over the tree (OldNestProofs.v).
- **C95 Hamiltonians of the older system classes follow their parameters** — OldHamModel.v: contents assigned by the user beside the kept matrices and marks of terms, systems and the composite system, matrices and their operations as parameters that may raise. An invariant (a kept matrix that is not marked is the value of the contents) over sessions; the specification OldHamSpec.v computes the sums without any kept matrix. Dimensions before and after are taken from C94; couplings, time dependence and protocols are left out.
- **C96 What + and N * between the older systems build** — OldPlusModel.v on top of the heap of OldDimModel.v with numbers for new systems; OldPlusSpec.v gives the tree of an expression without the heap. Induction over expressions with the invariant of nested systems from C94. Terms, simulations and initial states that are handed on are left out.
- **C97 HeatCurrent returns for no input** — HeatModel.v on top of vec2Mat and mat2Vec of StateModel.v, with the operator * as a parameter; PropsHeat.v by the integer square root of the number of rows and case analysis on the shapes.

## Findings

Places where the code does not do what a reader would expect. Most are theorems (`..._refuted` or named below); the properties are stated so as to exclude or include them.

Numerical layer
- Rounded qubit rotations are not exactly unitary (C67_rounded_refuted).
- HusimiQ raises for every density matrix and for most kets, and otherwise does not return the Husimi function (C79).
- EigenVectorDist for beta = 4 does not integrate to one: its exponent is dim - 1 where dim - 3 is needed (C80_symplectic_documented_refuted).
- eigVecStatKet returns a pair of lists, its documented example one list (C77_documented_refuted); the symplectic statistics leave out the last component for odd dimensions (C77_symplectic).
- Wigner silently uses only the upper triangle of its argument (C78_triangle).
- The documented ratio of populations in qubitPolarisation is the inverse of the computed one (C69_documented_refuted).
- Jp, Jm and Jz accept numbers that are not spins (C42_not_a_spin_refuted).
- Collapse operators given as pairs always raise AttributeError (C39_pairs_refuted); an empty list of rates drops the dissipation.
- Gates in open systems act as rho -> U rho U instead of U rho U^dagger (C40).
- evolveOpen without a list of collapse operators raises ValueError for two or more levels (C50_closed_refuted).
- compositeState and densityMatrix silently drop entries of the longer list (C44_composite_truncates, C46_truncates).
- A ket of one level is taken for a density matrix; its fidelity with itself can be -1 (C47_one_level_refuted).
- partialTrace with nothing kept raises IndexError; negative or repeated positions raise ValueError (C36_bad_keep, C36_negative_refuted).
- Hamiltonians.py documents frequency/2 times sigma_z where the code has frequency times sigma_z (C49_documented_refuted); UJC is undefined at resonance with zero coupling (C49_UJC_undefined).
- The documentation of IPR gives the inverse of what the code returns for uniform kets (C63_documented_refuted); BellStates returns a 1x1 zero matrix for an unknown name (C64_unknown_refuted).

Object layer
- The cached adjoint of a copied protocol step is recomputed only when missing or of another shape, so it can be stale. Setting a step's own parameter flags only that step: a second protocol with a copy of it goes stale. Updates at protocol level leak into the cached matrix of a copied step. The setters of ratio and phase flag nothing.
- Update objects that are shared, name one attribute twice or cover several systems leave parameters changed.
- A fixed protocol that was never prepared returns None as its first unitary. A system shared by several protocols has its compute function called with the first protocol's state only.
- Dimension bookkeeping: float division breaks it beyond 2^53; adding to a nested composite breaks it; a removed single system gets dimension 1; removing a composite sets the dimensions of its leaves to 1 and re-adding it can raise ZeroDivisionError; cycles are accepted and then raise RecursionError.
- Terms: only the first term's consistency is checked; resetTerms, `terms = []` and removing the first term leave a stale first term or Hamiltonian; the operator setter of couplings changes sub-terms before its check.
- Copies: only the last term survives, initial states of single systems raise ValueError, couplings of deeper systems cannot be copied, and the type of open-type and empty composites changes.
- CSV files: flat results raise TypeError after the file was emptied; concatenated indices and keys without separators collide; unsupported number types are silently not saved.
- Initial states: an input given to a composite system hides inputs given to its sub-systems later (C82_product_refuted); an assignment two or more levels down leaves a state that was read before unchanged (C82_deepStale); reading a composite system overwrites the stored maximal level of its sub-systems, so that a valid level can give None after a dimension change (C82_level_refuted); an assignment that raises keeps what it has changed before (C82_atomic_refuted); the setter of a protocol uses 1 as the maximal level, whatever the input (C82_protocolLevel_refuted).
- Systems of a simulation: after a run no system can be removed by removeQSystems, KeyError (C83_removeAfterRun); removing by name, and addProtocol with protocolRemove=system.name as the docstring of _freeEvol recommends, do the change and then raise AttributeError (C83_removeByName, C83_replaceByName); removing a system while another one is swept removes it and raises KeyError (C83_sweptElsewhere_refuted); adding a listed system by name moves it to the end (C83_byNameOrder_refuted); a list given to addQSystems drops the protocol (C83_listProtocol); addProtocol of a protocol without a system does nothing, silently (C83_silent); qEvolutions of an empty simulation raises IndexError (C83_evolutions_refuted).
- Dissipators: a protocol keeps the rate of the moment the dissipator was added, so the keyword order of the tutorial (system, jOper, jRate) evolves with rate 0 (C84_constructor); rate, type and temperature changes afterwards never reach it (C84_kept, C84_follows_refuted); a second jump operator of the same shape raises ValueError (C84_opTwice); after a change of dimensions the matrix is None and the operator cannot be given again (C84_lost); another system keeps the old matrix (C84_collapse_refuted); a bath lists only the dissipator attached last (C84_lastOnly); by reading, the setter of jOpers with rates always raises TypeError.
- Couplings: the default choice of JC, Rabi and Dicke fails with ValueError when a qubit and then a plain spin come before the cavity (C85_default_refuted), and runs into the recursion limit without a spin (C85_errors); a cavity given alone is ignored (C85_given_refuted); two systems without a spin raise UnboundLocalError, like Rabi and Dicke of a spin with another operator (C85_operator).
- Time dependence: a system that does not follow the simulation that is run is silently evaluated at time 0 in every step: when protocol.simulation is run, when the system had a time parameter of its own or got one (also `samples`), when it was added to a second simulation, and when a step belongs to a sub-system (C86_protocolSimulation_refuted, C86_ownSize_refuted, C86_samples_refuted, C86_twoSimulations_refuted, C86_subSystemStep_refuted). A protocol without a system keeps its first unitary, and updates of time-dependent parameters are lost (C86_noSystem_refuted, C86_update_refuted).
- Sweeping a parameter that a function of time sets has no effect and raises nothing (C87_timed_refuted).
- `run(resetRes=False)` regroups the results of every object in the process, also those of other simulations: without sweeps each of their lists is replaced by its first element (C88_others_first). `run()` empties them all (C88_others).
- A simulation that stores no states under its own key returns `[]` and keeps that empty list, so that `run(); run(resetRes=False)` raises IndexError (C88_empty_refuted).
- `run(coreCount=n)` without p is not parallel in a new process (C89_coreCount_refuted), `run(p=True)` raises ValueError on a machine with one core (C89_oneCore_refuted), `run(p=True, coreCount='some')` raises UnboundLocalError (C89_wrong), and a run that raises leaves its pool open (C89_leak).
- `a + (b + c)` has its sub-systems in the order b, c, a (C90_assoc_refuted); `Qubit() + QuantumSystem()` raises UnboundLocalError while the other order works (C90_ambiguous_refuted); `QuantumSystem() + composite` returns the composite and drops the left operand (C90_dropped); after `(p + c) - c` the system c has dimension 1 (C90_plusMinus_refuted).
- `createSweep` with a misspelt attribute succeeds and its sweep never changes any attribute (C91_typo_refuted); whether a list of systems of which only some have the attribute is an error depends on the order of the list (C91_order_refuted).
- An AttributeError raised inside a getter or setter of a system or protocol is lost when its simulation has an attribute of that name: the simulation's is read or assigned instead (C92_masked, C92_own_refuted). `q.simTotalTime` and its siblings can be assigned, but reading them gives the tuple `simParameters` (C92_alias_read_refuted).
- The older coupling class: terms of three or more systems silently use only the first two (C93_three_refuted); `addTerm` with two lists of systems in a row never returns (C93_endless); a raising `addTerm` keeps the terms it had added but not in the Hamiltonian (C93_stale_refuted); removing a coupled system raises RuntimeError after dropping the first of its terms, and the next addition can then overwrite another term (C93_remove, C93_lost_refuted).
- The older composite class: assigning a dimension to a system that was taken out rescales the dimensions kept by the remaining ones, because it keeps its superSys (C94_removed_refuted); nested composite systems keep wrong dimensions when a system is added to the inner one later (C94_late_refuted), taken out of the inner one beside a single system (C94_inner_refuted), or when a dimension is assigned three levels down (C94_deep_refuted).
- The older classes: removeTerm of a system that is or once was in a composite system raises AttributeError because a term has no slot _dimsAfter, and the term stays (C95_removeTerm_refuted); of another system it takes the term out but a Hamiltonian that was read before stays (C95_stale_refuted); an order 0 for a term whose matrix was read raises AssertionError and is assigned nevertheless (C95_order_refuted).
- HeatCurrent returns for no input: it applies vec2Mat to the density matrix (ValueError for every dimension of 2 or more) and its last line calls a method `tr` that no matrix type has (C97_density, C97_sparse, C97_returns_refuted).
- The older classes: a + (b + c) puts a last (C96_order_refuted), 0 * q is a composite system of one system (C96_zero_refuted), and an empty composite system + a composite one gives the right operand without the left one (C96_empty_refuted).
- Drives: the shape's flag is never cleared; changed arguments do not set it; a pulse of zero integral raises ZeroDivisionError.
