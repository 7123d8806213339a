{"id": "C01", "title": "Alias dictionary behaves as one ordered map", "statement": "Whatever sequence of set / delete / pop / update / setdefault operations is performed on an aliasDict, a lookup with key k returns the value most recently stored under an entry whose key equals k (same string, or shared name/alias) and not deleted since, and raises KeyError exactly when there is no such entry; the order of the entries is the order in which the keys were first inserted.", "quantifier": "every finite history of dictionary operations and every key", "why_tests_cant": "the history is unbounded; tests try a handful of operations", "anchors": ["src/quanguru/classes/base.py:keySearch", "src/quanguru/classes/base.py:aliasDict"]}
{"id": "C02", "title": "Overwriting through an alias never duplicates or reorders entries", "statement": "Assigning through any alias of an existing key replaces the value of that entry only: the stored key, the number of entries, their order and every other value are unchanged.", "quantifier": "every dictionary contents, every key and alias", "why_tests_cant": "needs every dictionary and every alias of every key", "anchors": ["src/quanguru/classes/base.py:aliasDict.__setitem__", "src/quanguru/classes/base.py:aliasDict.update"]}
{"id": "C03", "title": "Equality by name or alias", "statement": "Two alias objects are equal exactly when they share at least one of their strings (name or alias); an object equals a string exactly when the string is its name or one of its aliases; equality is reflexive and symmetric. It is not transitive, and equal objects need not have equal hashes.", "quantifier": "all names, aliases and pairs/triples of objects", "why_tests_cant": "quantifies over all alias sets; the counterexample triple is easy to miss", "anchors": ["src/quanguru/classes/base.py:aliasClass.__eq__", "src/quanguru/classes/base.py:aliasClass.__hash__", "src/quanguru/classes/base.py:aliasClass._allStringSum"]}
{"id": "C04", "title": "Default names are unique", "statement": "In any history of object creations from classes that have their own label and counters, and of alias assignments, any two distinct objects have distinct default names, and looking up an object by its default name returns that very object provided no user alias collides with a default name.", "quantifier": "every finite interleaving of creations of any classes, aliasing and reset", "why_tests_cant": "histories are unbounded", "anchors": ["src/quanguru/classes/base.py:named.__init__", "src/quanguru/classes/base.py:named.getByNameOrAlias"]}
{"id": "C05", "title": "Aliases are exclusive", "statement": "An alias that is already the name or an alias of another live object is rejected with ValueError and changes nothing; so after any history no two live objects share an alias. (An alias that equals the default name of a later object is not protected.)", "quantifier": "every finite history of creations and alias assignments", "why_tests_cant": "needs all histories; the order alias-then-create is not tested", "anchors": ["src/quanguru/classes/base.py:named.alias", "src/quanguru/classes/base.py:named.getByNameOrAlias"]}
{"id": "C06", "title": "List arguments act as the flattened sequence of single calls", "statement": "A method that accepts lists (add/remove sub-systems, terms, updates, steps, ...) called with an arbitrarily nested list has the same effect, in the same order, as calling it once for each leaf, returns the value of the last call, and when one leaf fails the earlier leaves have been applied and the later ones have not.", "quantifier": "every nesting depth and shape of the list, every effect and every failure position", "why_tests_cant": "nesting is unbounded", "anchors": ["src/quanguru/classes/base.py:_recurseIfList"]}
{"id": "C07", "title": "Sub-system container is an ordered set", "statement": "After any history of addSubSys / removeSubSys / resetSubSys / subSys= on a plain container object, subSys holds exactly the objects that were added and not removed since, each once, in order of (re)insertion, under their own names; adding one that is present changes nothing, and removing one that is absent raises an error.", "quantifier": "every finite history of container operations", "why_tests_cant": "histories are unbounded", "anchors": ["src/quanguru/classes/base.py:qBase.addSubSys", "src/quanguru/classes/base.py:qBase._removeSubSysExc", "src/quanguru/classes/base.py:qBase.resetSubSys", "src/quanguru/classes/base.py:qBase.subSys"]}
{"id": "C08", "title": "Parameter changes reach every dependent object", "statement": "Assigning a new value to a parameter of an object sets the 'updated' flag of that object and of exactly those objects that can be reached from it through the chain of parameter bounds; no other flag changes; assigning an equal value changes no flag.", "quantifier": "every bound graph without cycles, every object in it", "why_tests_cant": "needs every graph shape and depth", "anchors": ["src/quanguru/classes/baseClasses.py:paramBoundBase._paramUpdated", "src/quanguru/classes/QSimBase.py:setAttr"]}
{"id": "C09", "title": "Deleting matrices terminates and clears everything reachable", "statement": "Called with a fresh exclusion list, delMatrices terminates on every object graph, including cyclic ones, and resets the stored matrix of exactly the objects reachable through bounds and sub-systems that were not excluded.", "quantifier": "every finite object graph, cyclic or not, every exclusion list", "why_tests_cant": "termination on every graph is not testable", "anchors": ["src/quanguru/classes/baseClasses.py:paramBoundBase.delMatrices"]}
{"id": "C10", "title": "Deleting matrices twice", "statement": "Calling delMatrices() without arguments a second time should again clear the matrices of the reachable objects.", "quantifier": "every object graph and every number of calls", "why_tests_cant": "needs a particular two-call history in one process; the default list is shared across all objects of the process", "anchors": ["src/quanguru/classes/baseClasses.py:paramBoundBase.delMatrices"]}
{"id": "C11", "title": "Sweep index decomposition covers the grid exactly once", "statement": "For combinatorial sweeps with lengths n1..nk, the flat indices 0..n1*..*nk-1 are mapped one-to-one onto all index tuples (i1<n1,...,ik<nk), in lexicographic order with the last sweep varying fastest.", "quantifier": "every number of sweeps, every list of lengths, every index", "why_tests_cant": "size of the grid is unbounded", "anchors": ["src/quanguru/classes/QSweep.py:Sweep._indicesForSweep", "src/quanguru/classes/QSweep.py:Sweep.prepare"]}
{"id": "C12", "title": "Each sweep point sets every swept parameter correctly", "statement": "Running sweep point ind assigns, for every sweep in the Sweep object, the element of its value list selected by the decomposition of ind: combinatorial sweeps advance independently, and a non-combinatorial sweep advances in lock-step with the sweep group before it.", "quantifier": "every list of sweeps with any combinatorial flags (first one non-combinatorial), every flat index", "why_tests_cant": "number of sweeps and points is unbounded", "anchors": ["src/quanguru/classes/QSweep.py:Sweep.runSweep", "src/quanguru/classes/QSweep.py:Sweep.prepare"]}
{"id": "C13", "title": "First sweep flagged combinatorial", "statement": "Marking the first sweep combinatorial should behave as if it were not marked (it starts the first group).", "quantifier": "every list of sweeps whose first is combinatorial", "why_tests_cant": "not covered by any test", "anchors": ["src/quanguru/classes/QSweep.py:Sweep.runSweep", "src/quanguru/classes/QSweep.py:Sweep.prepare"]}
{"id": "C14", "title": "Sweep value lists", "statement": "A sweep given min, max and step has value list min, min+step, ..., and contains max whenever max-min is a multiple of step; its values never go beyond max by a full step.", "quantifier": "all rational min, max and positive step", "why_tests_cant": "unbounded ranges", "anchors": ["src/quanguru/classes/QSweep.py:_sweep.sweepList"]}
{"id": "C15", "title": "Reshaped results are indexed by the sweep indices", "statement": "After a simulation over sweep groups of lengths n1..nk (in creation order), results[key] of every result object is a nested list of exactly that shape and results[key][i1]...[ik] is what was recorded under that key at the grid point (i1..ik), a one-element list standing for its element; stored states likewise. Keys nobody recorded are absent; a key recorded at some points but not at all of them makes the run fail instead of being misaligned.", "quantifier": "every number and length of sweeps, every set of result objects and keys, every sequence of recording calls per point", "why_tests_cant": "sizes unbounded", "anchors": ["src/quanguru/classes/QRes.py:qResBase._reShape", "src/quanguru/classes/QRes.py"]}
{"id": "C16", "title": "Running average equals the mean", "statement": "Whatever the number of values passed to resAverage for a key, the stored value is the arithmetic mean of the values passed so far.", "quantifier": "every finite sequence of values in a field", "why_tests_cant": "sequence length unbounded", "anchors": ["src/quanguru/classes/QRes.py:qResBase.resAverage"]}
{"id": "C17", "title": "Multi-process and single-process runs give the same results", "statement": "For every recording behaviour that depends only on the sweep point, running the sweep with a process pool, whatever the order in which the workers execute the points, yields the same results and states as running it in a single process, and one fails iff the other fails. (Values stored through 'calculated' are excepted: they stay in the workers.)", "quantifier": "every number of sweep points, every schedule of the workers, every recorded result, every prior state of the result objects", "why_tests_cant": "needs every schedule/size", "anchors": ["src/quanguru/classes/QRes.py", "src/quanguru/classes/modularSweep.py:paralEvol", "src/quanguru/classes/modularSweep.py:nonParalEvol"]}
{"id": "C18", "title": "Bound parameters read the source value", "statement": "A simulation parameter bound to another returns, through any chain of bounds, the current value of the unbound end of the chain. Assigning a property of one simulation is read back by exactly the parameters whose chain passes through it and changes no parameter whose chain does not. When bounds always go upward in a hierarchy (protocol to system to simulation), no history of binds, assignments and reads makes a parameter unreadable. (Two tempting claims are false: that an explicit assignment always breaks the bound, and that the library itself prevents cycles.)", "quantifier": "every chain length and every history of bind/set operations", "why_tests_cant": "histories unbounded", "anchors": ["src/quanguru/classes/QSimBase.py:_parameter"]}
{"id": "C19", "title": "Time parameters stay consistent", "statement": "Whenever reading stepCount succeeds it is floor(totalTime/stepSize)+1 for the totalTime and stepSize readable then, whatever was assigned or bound before; assigning totalTime and stepSize in either order makes it readable. The time list has floor(T/s)+2 points i*s, the last one strictly beyond T by at most one step. (Consequently an assigned stepCount n reads back as n+1 once totalTime is set, and assigning stepCount before totalTime leaves it unreadable.)", "quantifier": "every state reachable by assignments, reads and bounds; all rationals", "why_tests_cant": "unbounded sequences and reals", "anchors": ["src/quanguru/classes/QSimBase.py:timeBase", "src/quanguru/classes/QSim.py:Simulation.timeList"]}
{"id": "C20", "title": "Number of evolution steps and stored states", "statement": "A time evolution with step count n applies each protocol exactly n times per sweep point, in order, computes before the first step and after every step, and (unless deletion is requested) stores the initial state plus one state per step.", "quantifier": "every step count, every number of protocols and sweep points", "why_tests_cant": "step counts unbounded", "anchors": ["src/quanguru/classes/modularSweep.py:timeEvolDefault", "src/quanguru/classes/modularSweep.py:timeEvolBase"]}
{"id": "C21", "title": "Protocol unitary is the ordered product of its steps", "statement": "The unitary of a protocol made of steps s1..sn is U(sn)...U(s1), for any nesting of protocols inside protocols.", "quantifier": "every list and nesting depth of steps, every assignment of step unitaries", "why_tests_cant": "unbounded nesting", "anchors": ["src/quanguru/classes/QPro.py:qProtocol"]}
{"id": "C22", "title": "Cached unitaries are never stale", "statement": "For any history of parameter writes, matrix deletions and unitary requests, every request for the unitary of a (non-fixed) protocol returns the unitary of the parameters as last written, at any nesting and with updates and copies of earlier steps anywhere, provided each step belongs to one protocol, its parameters announce their changes, and no adjoint copies are used. Each proviso is needed: adjoint (hc) copies stay at the old parameters, a step copied into a second protocol can be stale there or carry the first protocol's updates, and a changed ratio is ignored.", "quantifier": "every history of parameter writes and reads", "why_tests_cant": "histories unbounded", "anchors": ["src/quanguru/classes/QPro.py:genericProtocol.getUnitary", "src/quanguru/classes/QPro.py:genericProtocol._defGetUnitary"]}
{"id": "C23", "title": "Updates are undone", "statement": "Requesting the unitary of a step or protocol with parameter updates evaluates it at the updated values and leaves every parameter at the value it had before, provided no two updates of one object set the same parameter, each update sets one system and belongs to one object. Otherwise parameters are left changed.", "quantifier": "every set of updates, every parameter assignment", "why_tests_cant": "needs every combination of updates, including several on one attribute", "anchors": ["src/quanguru/classes/QPro.py:genericProtocol.getUnitary", "src/quanguru/classes/QPro.py:Update"]}
{"id": "C24", "title": "Dimension bookkeeping of flat composite systems", "statement": "After giving any systems any positive dimensions (product below 2^53) and adding them to a fresh system, that system has them as sub-systems in order, its dimension is the product of all, and each sub-system's dimsBefore is the product of the dimensions before it and dimsAfter of those after it.", "quantifier": "every list of sub-systems and dimensions", "why_tests_cant": "unbounded number of sub-systems", "anchors": ["src/quanguru/classes/QSystem.py:QuantumSystem.addSubSys", "src/quanguru/classes/QSystem.py:QuantumSystem.dimension"]}
{"id": "C25", "title": "Dimension bookkeeping of nested composite systems", "statement": "In every history of calls that builds trees of composite systems bottom-up, changes dimensions of single systems, creates terms and removes single systems (total dimensions below 2^53, nesting below half the recursion limit), every system inside a root has dimsBefore = product of the leaf dimensions to its left in the root, dimsAfter = product to its right, and dimsBefore*dimension*dimsAfter = dimension of the root; every system is in exactly such a tree. For larger dimensions this fails (a float division is used).", "quantifier": "every tree shape, every leaf and new dimension", "why_tests_cant": "unbounded trees", "anchors": ["src/quanguru/classes/QSystem.py:QuantumSystem._updateDimension", "src/quanguru/classes/QSystem.py:QuantumSystem.__dimsABUpdate"]}
{"id": "C26", "title": "Growing a composite that is already inside another", "statement": "Adding a sub-system to a composite system that is already inside another composite does NOT keep the bookkeeping of C25 (the expected property is false): there is a history after which all dimensions are right but dimsBefore/dimsAfter of the new system and of the outer composite's later sub-systems are wrong.", "quantifier": "every tree and every position", "why_tests_cant": "order of construction is rarely varied in tests", "anchors": ["src/quanguru/classes/QSystem.py:QuantumSystem.addSubSys"]}
{"id": "C27", "title": "Removing a sub-system", "statement": "After every history of C25, removing a single system from the composite it is directly in succeeds; the removed system is on its own with dimsBefore = dimsAfter = 1, the composite keeps its other sub-systems in order and loses exactly the couplings that mention the removed system, no other single system's dimension and no other composite changes, and the bookkeeping of every root is right. The removed system does not keep its dimension (it becomes 1), and removing a composite resets all its leaves' dimensions to 1, deletes its couplings and leaves dimsAfter 0.", "quantifier": "every tree and every removed sub-system", "why_tests_cant": "unbounded trees", "anchors": ["src/quanguru/classes/QSystem.py:QuantumSystem._removeSubSysExc"]}
{"id": "C28", "title": "No system contains itself", "statement": "In every history of calls no two different systems are sub-systems of each other, and the addition that would make them so raises ValueError with nothing changed; histories of C25 contain no cycles, so every dimension terminates. Adding a system to itself or closing a cycle through a third system is accepted and makes dimension raise RecursionError.", "quantifier": "every history of additions", "why_tests_cant": "indirect cycles need longer histories", "anchors": ["src/quanguru/classes/QSystem.py:QuantumSystem.addSubSys"]}
{"id": "C29", "title": "Hamiltonian of a composite is the sum of all embedded terms", "statement": "The total Hamiltonian of a (nested) composite equals the sum, over all systems and their terms and all coupling terms, of frequency times the product of the embedded operators, each embedded as identity(before) x op x identity(after).", "quantifier": "every tree, every list of terms", "why_tests_cant": "unbounded trees", "anchors": ["src/quanguru/classes/QSystem.py:QuantumSystem.totalHamiltonian", "src/quanguru/classes/QTerms.py:QTerm.totalHamiltonian"]}
{"id": "C30", "title": "Cached Hamiltonians are never stale", "statement": "After any history of changes to frequencies, operators and orders of terms, additions and removals of terms and sub-systems and changes of dimensions, interleaved with reads, totalHamiltonian equals the Hamiltonian computed afresh from the current parameters. Exceptions, each shown by a counterexample: resetTerms, re-assigning the system of a term, unitary() with a fixed free evolution, coupling operators that were rejected, terms moved to an unrelated system.", "quantifier": "every history of writes and reads", "why_tests_cant": "histories unbounded", "anchors": ["src/quanguru/classes/QSystem.py:QuantumSystem.totalHamiltonian", "src/quanguru/classes/QTerms.py:QTerm.totalHamiltonian", "src/quanguru/classes/QTerms.py:QTerm._freeMatrix"]}
{"id": "C31", "title": "Removing terms updates the Hamiltonian", "statement": "After removeTerm the total Hamiltonian no longer contains the removed term and nothing else changed; resetTerms does not have this property (counterexample).", "quantifier": "every system and every read/remove order", "why_tests_cant": "needs read-before-remove histories", "anchors": ["src/quanguru/classes/QSystem.py:QuantumSystem.resetTerms", "src/quanguru/classes/QSystem.py:QuantumSystem.removeTerm"]}
{"id": "C32", "title": "Pauli operators only act on two-level systems", "statement": "Assigning a Pauli operator to a term of a system, creating a term or creating a coupling with one, when that system's dimension is not 1 or 2, raises ValueError and changes nothing; changing the dimension of a system whose first term has a Pauli operator to another value raises ValueError and leaves all dimensions, sub-systems and terms unchanged; a dimension change is accepted when no term has a Pauli operator. Only the first term is checked on dimension changes (a Pauli operator in a later term does not prevent them).", "quantifier": "every system, list of terms and new dimension", "why_tests_cant": "all combinations of terms and dimensions", "anchors": ["src/quanguru/classes/QTerms.py", "src/quanguru/classes/QSystem.py:QuantumSystem.dimension"]}
{"id": "C33", "title": "Copy of a system", "statement": "The copy of a system with at most one term per system (and couplings between direct sub-systems) succeeds, has the same classes, dimensions, initial-state inputs, terms (operators, orders, frequencies, systems by position) and sub-systems all the way down, and consists of new objects only; N * system is the system and N - 1 such copies. A copy never has more than one term: the one that says what the last term of the original says, so systems with two or more terms are not copied faithfully. Copying fails for plain single systems with an initial state, for cavities and spins whose initial state is a vector, and for couplings of deeper systems; the copy of a system of open type is a single system; removed default terms come back; an initial state given to a sub-system after the composite's is lost.", "quantifier": "all systems: any nesting depth, number of sub-systems, dimensions, terms, initial states; all N", "why_tests_cant": "nesting depth, number of sub-systems and terms are unbounded", "anchors": ["src/quanguru/classes/QSystem.py:QuantumSystem.copy", "src/quanguru/classes/QSystem.py:QuantumSystem.__rmul__", "src/quanguru/classes/QSystem.py:QuantumSystem.createTerm", "src/quanguru/classes/QTerms.py:QTerm._checkAndUpdateParamsWhenMultiple"]}
{"id": "C34", "title": "Tensor product laws", "statement": "tensorProd is associative, (A x B)(C x D) = AC x BD, hc(A x B) = hc(A) x hc(B), Tr(A x B) = Tr A Tr B, and integers stand for identities of that dimension.", "quantifier": "all matrices of all shapes over any commutative ring / number field", "why_tests_cant": "dimensions and entries unbounded", "anchors": ["src/quanguru/QuantumToolbox/linearAlgebra.py:tensorProd", "src/quanguru/QuantumToolbox/linearAlgebra.py:hc", "src/quanguru/QuantumToolbox/linearAlgebra.py:trace"]}
{"id": "C35", "title": "Composite operators act only on their own system", "statement": "compositeOp(op, dimB, dimA) is a unital ring *-homomorphism in op, operators embedded at two different sub-systems commute, and the product of such embeddings is the tensor product of the operators.", "quantifier": "all dimensions and operators", "why_tests_cant": "dimensions and entries unbounded", "anchors": ["src/quanguru/QuantumToolbox/operators.py:compositeOp", "src/quanguru/QuantumToolbox/operators.py:operatorPow"]}
{"id": "C36", "title": "Partial trace", "statement": "partialTrace of a square matrix of the product of the dimensions returns the matrix whose entry at digits u, v of the kept subsystems (in increasing order) is the sum over equal digits of all the others. It follows that it keeps the trace, hermiticity and positivity (a density matrix is reduced to a density matrix), maps a product state to the kept factors times the traces of the rest, is linear, does not depend on the order of the keep list, gives every operator on the kept subsystems its expectation value in the whole state, may be taken in stages, and gives both parts of a pure state the same purity. A ket stands for its density matrix. An empty, out of range, repeated or negative keep entry raises, and negative indices do not count from the end.", "quantifier": "all lists of dimensions, keep lists, matrices and kets over any algebraically closed numeric field", "why_tests_cant": "sizes unbounded", "anchors": ["src/quanguru/QuantumToolbox/linearAlgebra.py:partialTrace"]}
{"id": "C37", "title": "Vectorisation round trip", "statement": "vec2Mat(mat2Vec(M)) = M and mat2Vec(vec2Mat(v)) = v, and both are linear bijections.", "quantifier": "all square matrices and vectors of all sizes", "why_tests_cant": "sizes unbounded", "anchors": ["src/quanguru/QuantumToolbox/states.py:mat2Vec", "src/quanguru/QuantumToolbox/states.py:vec2Mat"]}
{"id": "C38", "title": "Super-operators act by left and right multiplication", "statement": "For all A, B and rho: vec2Mat(pre(A) mat2Vec(rho)) = A rho, vec2Mat(post(B) mat2Vec(rho)) = rho B and vec2Mat(prepost(A,B) mat2Vec(rho)) = A rho B.", "quantifier": "all matrices of all sizes", "why_tests_cant": "sizes unbounded", "anchors": ["src/quanguru/QuantumToolbox/evolution.py:_preSO", "src/quanguru/QuantumToolbox/evolution.py:_postSO", "src/quanguru/QuantumToolbox/evolution.py:_prepostSO"]}
{"id": "C39", "title": "The Liouvillian is the Lindblad generator", "statement": "The Liouvillian built from H, collapse operators and rates maps rho to -i[H,rho] + sum of rate*(c rho c^+ - 1/2{c^+ c, rho}); operators of the squared size are added as super-operators; without rates all rates are 1. It preserves the trace, and Hermiticity for Hermitian H and real rates, and so does its exponential. The documented form of a collapse operator as a pair (A, B) always raises AttributeError, and an empty list of rates silently removes the dissipation.", "quantifier": "all sizes, H, numbers of collapse operators and rates", "why_tests_cant": "sizes unbounded", "anchors": ["src/quanguru/QuantumToolbox/evolution.py:Liouvillian", "src/quanguru/QuantumToolbox/evolution.py:dissipator"]}
{"id": "C40", "title": "Gates applied to open systems", "statement": "A spin rotation or flip gate on a closed system is unitary on the whole space for any number of sub-systems. Applied in an open-system simulation it maps rho to U rho U (not U rho U^+): this is right exactly when U is Hermitian, and a flip by pi reverses the sign of the trace of every state.", "quantifier": "all unitaries and density matrices", "why_tests_cant": "no test of the default argument", "anchors": ["src/quanguru/classes/QGates.py:SpinRotation", "src/quanguru/QuantumToolbox/evolution.py:_prepostSO"]}
{"id": "C41", "title": "Ladder operators", "statement": "For each dimension d: create = hc(destroy), number = create*destroy, [destroy, create] is the identity except for 1-d in the last diagonal entry, [number, destroy] = -destroy.", "quantifier": "all dimensions", "why_tests_cant": "dimension unbounded", "anchors": ["src/quanguru/QuantumToolbox/operators.py:destroy", "src/quanguru/QuantumToolbox/operators.py:create", "src/quanguru/QuantumToolbox/operators.py:number"]}
{"id": "C42", "title": "Angular momentum algebra", "statement": "For every spin j (integer or half-integer, given as j or as dimension): [Jx,Jy] = i Jz and cyclic, [Jz,J+-] = +-J+-, hc(J+) = J-, Js = Jx^2+Jy^2+Jz^2 = j(j+1) identity. Numbers j that are not a spin are accepted silently and give matrices violating these relations.", "quantifier": "all spins j", "why_tests_cant": "dimension unbounded", "anchors": ["src/quanguru/QuantumToolbox/operators.py:Jp", "src/quanguru/QuantumToolbox/operators.py:Jm", "src/quanguru/QuantumToolbox/operators.py:Jx", "src/quanguru/QuantumToolbox/operators.py:Jy", "src/quanguru/QuantumToolbox/operators.py:Jz", "src/quanguru/QuantumToolbox/operators.py:Js"]}
{"id": "C43", "title": "Pauli algebra and consistency with spin operators", "statement": "sigma operators satisfy the Pauli relations and sigma_k = 2 J_k for j = 1/2.", "quantifier": "complete (finite) relations over any number field", "why_tests_cant": "exactness rather than floating-point agreement", "anchors": ["src/quanguru/QuantumToolbox/operators.py:sigmax", "src/quanguru/QuantumToolbox/operators.py:sigmay", "src/quanguru/QuantumToolbox/operators.py:sigmaz", "src/quanguru/QuantumToolbox/operators.py:sigmap", "src/quanguru/QuantumToolbox/operators.py:sigmam"]}
{"id": "C44", "title": "Computational basis", "statement": "basis(d, i) is the column with a single 1 at position i (ValueError if i >= d); the basis kets are orthonormal, every ket is the sum of its components along completeBasis(d), and the projectors of completeBasisMat(d) add up to the identity. compositeState(dims, ints) is the basis state of the product dimension at the lexicographic position of the digits (ValueError if one is out of range); lists of different lengths are silently cut to the shorter one.", "quantifier": "all dimensions, levels, numbers of subsystems and kets", "why_tests_cant": "dimension unbounded", "anchors": ["src/quanguru/QuantumToolbox/states.py:basis", "src/quanguru/QuantumToolbox/states.py:completeBasis", "src/quanguru/QuantumToolbox/states.py:compositeState"]}
{"id": "C45", "title": "Superposition states have the requested populations", "statement": "superPos with a dictionary of non-negative weights returns a normalised ket with non-negative amplitudes whose populations are the weights divided by their sum; with populations=False the amplitudes are the given numbers times one common factor; a list gives equal populations and ignores repetitions; an int gives the basis ket. Nothing to superpose raises AttributeError, a level out of range ValueError. A composite of superpositions is normalised and its populations are products of the single ones.", "quantifier": "all dimensions, dictionaries, lists and numbers of subsystems", "why_tests_cant": "unbounded", "anchors": ["src/quanguru/QuantumToolbox/states.py:superPos", "src/quanguru/QuantumToolbox/states.py:normalise"]}
{"id": "C46", "title": "Density matrices", "statement": "densityMatrix of a ket is its projector; the density matrix of a list of kets with non-negative weights is the normalised mixture: Hermitian, positive and of unit trace, and every density matrix is obtained this way. The purity lies between 1/d and 1 and is 1 exactly for projectors on normalised kets. Weights and kets of different numbers are silently cut to the shorter list.", "quantifier": "all dimensions, kets, weights and density matrices", "why_tests_cant": "unbounded", "anchors": ["src/quanguru/QuantumToolbox/states.py:densityMatrix", "src/quanguru/QuantumToolbox/states.py:purity"]}
{"id": "C47", "title": "Expectation values and fidelities", "statement": "expectation is <v|A|v> for a ket and Tr(A rho) for a matrix, the same for a ket and its density matrix, real for Hermitian A and non-negative for positive A. fidelityPure of two kets is |<u|v>|^2 in whatever form they are given, symmetric, in [0,1] for normalised states and 1 exactly for kets equal up to a phase; for density matrices it is Tr(rho sigma), symmetric and in [0,1]. All this needs at least two levels: a 1x1 ket is taken for a density matrix and may have fidelity -1 with itself.", "quantifier": "all dimensions, operators, kets and density matrices", "why_tests_cant": "unbounded", "anchors": ["src/quanguru/QuantumToolbox/functions.py:expectation", "src/quanguru/QuantumToolbox/functions.py:fidelityPure"]}
{"id": "C48", "title": "Rotations and basic gates are unitary", "statement": "Before their rounding to 15 decimals, x/y/zRotation are unitary for every angle and compose additively in the angle; CNOT and Hadamard are involutions and CPHASE is unitary for every angle. (The code rounds cosine and sine of the rotations, after which they are unitary only approximately: see C67.)", "quantifier": "all angles", "why_tests_cant": "continuum of angles", "anchors": ["src/quanguru/QuantumToolbox/spinRotations.py", "src/quanguru/QuantumToolbox/basicGates.py"]}
{"id": "C49", "title": "Jaynes-Cummings and Rabi Hamiltonians", "statement": "RabiHam, JCHam and aJCHam have the documented entries for every cutoff dimension, with the qubit term qubFreq*sigma_z (the documentation says qubFreq/2). They are Hermitian for real parameters. JCHam commutes with the number of excitations, aJCHam with that of the inverted qubit, RabiHam with the parity but, for g != 0, not with the number. UJC(wq, wc, g, t, d) is unitary for real parameters, and it is the only matrix that multiplies each eigenvector of JCHam(wq/2, wc, g, d) (in UJC's order of the basis) by exp(-iEt). It is undefined exactly when g = 0 and wq = wc.", "quantifier": "all cutoff dimensions, all real (where noted: complex) parameters and times, all functions cos, sin, exp with the stated identities", "why_tests_cant": "dimension and parameters unbounded", "anchors": ["src/quanguru/QuantumToolbox/Hamiltonians.py"]}
{"id": "C50", "title": "Open evolution step count", "statement": "evolveOpen with a list of collapse operators returns exactly the initial state (a ket as its projector) followed by one state per completed time step, k with k*dt <= T < (k+1)*dt, each obtained from the previous by the Liouvillian exponential; delStates keeps only the first state but the callback still sees all; all states have the trace of the first and are Hermitian if it is. Without a list of collapse operators every evolution of a system with two or more levels raises ValueError at its first step.", "quantifier": "all total times, steps and generators", "why_tests_cant": "unbounded", "anchors": ["src/quanguru/QuantumToolbox/evolution.py:evolveOpen"]}
{"id": "C51", "title": "Saved result files do not overwrite each other", "statement": "Saving a nested list of results as CSV files succeeds and writes each innermost table to the file named by its position; with at most ten entries in every list, or with one longer level among levels of equal depth, every table can be read back exactly; in general every table can be read back if and only if no two different tables get the same name. Several result objects and keys are all readable if no joint name is another one followed by digits. Other files do not change. It is false for longer lists at two levels (positions [1][11] and [11][1] share a file), for a flat list of numbers (TypeError, the old file is emptied), for entries of other types (silently not saved) and for names that join to the same text.", "quantifier": "every nesting, length, content, path, prior content of the directory, list of result objects", "why_tests_cant": "the collisions need lists of at least twelve entries at two levels, or particular names; nesting and length are unbounded", "anchors": ["src/quanguru/extensions/saveReadCSV.py:saveCSV", "src/quanguru/extensions/saveReadCSV.py:readCSV", "src/quanguru/extensions/saveReadCSV.py:_recursiveSaveList", "src/quanguru/extensions/saveReadCSV.py:_saveDictToCSV", "src/quanguru/extensions/saveReadCSV.py:saveQResCSV", "src/quanguru/classes/base.py:_allStringSum"]}
{"id": "C52", "title": "Pulses and drives", "statement": "A pulse is its factor times its function strictly inside its window (t0, t1) and 0 elsewhere; unset attributes raise TypeError. A drive has a value exactly if all its pulses do, and it is their sum in any order. The integral of a pulse is the midpoint rule, exact for constant and linear functions on every increasing list of points; a pulse added with an angle theta has 2 pi times its integral equal to theta, or ZeroDivisionError is raised and no pulse is added if the integral is 0. totalShape agrees with the current pulses after every history of additions, removals, changes and earlier calls.", "quantifier": "all pulses, windows, functions (also raising ones), lists of pulses, times, lists of points and histories", "why_tests_cant": "real parameters, functions and histories are unbounded", "anchors": ["src/quanguru/classes/QDrive.py:genericDrive", "src/quanguru/classes/QDrive.py:qDrive", "src/quanguru/classes/QDrive.py:pulse", "src/quanguru/classes/QSimBase.py:setAttr"]}
{"id": "C53", "title": "Sweep point count after changing the sweeps", "statement": "The number of points of a run depends only on the sweeps present when the run starts, not on earlier runs; in particular a run after all sweeps were removed has exactly one point.", "quantifier": "all sweep lists and all earlier runs", "why_tests_cant": "The leftover state of any earlier run can matter; a test fixes one history.", "anchors": ["src/quanguru/classes/QSweep.py: Sweep.prepare, Sweep.inds, Sweep.indMultip"]}
{"id": "C54", "title": "Removing a system from the sweeps", "statement": "removeSweep(system) takes the system out of every sweep that contains it and drops the sweeps left without a system.", "quantifier": "all sweep containers and systems", "why_tests_cant": "Whether all sweeps contain the system, and where the first one without it sits, ranges over unboundedly many containers.", "anchors": ["src/quanguru/classes/QSweep.py: Sweep.removeSweep"]}
{"id": "C55", "title": "Running again without resetting results", "statement": "run(resetRes=False) is documented to keep the results of the previous run; after a run over one sweep, a second run over the same sweep leaves under every key of the first run exactly the first run's values: nothing of the second run is kept, so 'both runs are kept' is false.", "quantifier": "every sweep length, every recording behaviour of the two runs", "why_tests_cant": "two-run histories over arbitrary results", "anchors": ["src/quanguru/classes/QSim.py:Simulation.run", "src/quanguru/classes/QRes.py:qResults._finalise", "src/quanguru/classes/QRes.py:qResults._organise"]}
{"id": "C56", "title": "Cost of reading a bound parameter", "statement": "Reading a simulation parameter that is n bounds away from its source evaluates the parameter getter exactly 2^(n+1)-1 times (the existence test evaluates the bound once, the return a second time).", "quantifier": "every chain length and every state of the bounds", "why_tests_cant": "chain length unbounded", "anchors": ["src/quanguru/classes/QSimBase.py:_parameter.value"]}
{"id": "C57", "title": "Compute of a shared system sees one protocol", "statement": "During a run, the compute function of a quantum system is called exactly once per time (before the first step and after each), and when several protocols act on the same system it is given the state of the first of them, never the others'.", "quantifier": "every list of protocols, sharing of systems and step count", "why_tests_cant": "the number of protocols and their order are unbounded", "anchors": ["src/quanguru/classes/modularSweep.py:timeEvolDefault"]}
{"id": "C58", "title": "Fixed steps", "statement": "Once a step or protocol marked fixed has a unitary, it keeps exactly that matrix through any history of parameter changes and requests; but its first unitary request, when it has not been prepared, gives None.", "quantifier": "every history of parameter writes and requests, any nesting", "why_tests_cant": "histories unbounded", "anchors": ["src/quanguru/classes/QPro.py:genericProtocol.fixed", "src/quanguru/classes/QPro.py:genericProtocol._defGetUnitary"]}
{"id": "C59", "title": "Parity operator", "statement": "paritySUM(d) is the diagonal matrix of (-1)^i: Hermitian, its own inverse, commuting with number(d) and anticommuting with destroy(d).", "quantifier": "all dimensions", "why_tests_cant": "dimension unbounded", "anchors": ["src/quanguru/QuantumToolbox/operators.py:paritySUM"]}
{"id": "C60", "title": "Evolution operators are unitary", "statement": "Unitary(H, t) is unitary for Hermitian H and real t; displacement(alpha, d), squeeze(alpha, d) and spinRotation about x, y or z are unitary for every amplitude, dimension, spin and real angle.", "quantifier": "all Hamiltonians, times, amplitudes, dimensions, spins and angles; the matrix exponential is any function with exp(A^+) = exp(A)^+ and exp(A)exp(-A) = 1", "why_tests_cant": "dimension and parameters unbounded", "anchors": ["src/quanguru/QuantumToolbox/evolution.py:Unitary", "src/quanguru/QuantumToolbox/operators.py:displacement", "src/quanguru/QuantumToolbox/operators.py:squeeze", "src/quanguru/QuantumToolbox/spinRotations.py:spinRotation"]}
{"id": "C61", "title": "Powers of operators", "statement": "_matPower(A, p) is the p-fold product (A^(p+q) = A^p A^q, power 0 is refused), and operatorPow(op, dim, p) is the p-th power of op(dim), or of op() when the operator takes no dimension.", "quantifier": "all square matrices and powers", "why_tests_cant": "power unbounded", "anchors": ["src/quanguru/QuantumToolbox/linearAlgebra.py:_matPower", "src/quanguru/QuantumToolbox/operators.py:operatorPow"]}
{"id": "C62", "title": "Standard deviations", "statement": "For every Hermitian operator and every density matrix (or normalised ket of more than one level) standardDev returns a non-negative number together with the real expectation value e; its square is Tr((A-e)^2 rho) (for a ket the squared length of (A-e)v), a ket and its density matrix give the same pair, the standard deviation is zero exactly when the state is an eigenstate with eigenvalue e, and for two operators the product of the standard deviations is at least half the modulus of the expectation value of their commutator.", "quantifier": "all dimensions, all Hermitian operators, all density matrices and normalised kets", "why_tests_cant": "non-negativity, the eigenstate criterion and the uncertainty relation are statements about all operators and all states; a test checks a few of them", "anchors": ["src/quanguru/QuantumToolbox/functions.py:standardDev", "src/quanguru/QuantumToolbox/functions.py:expectation"]}
{"id": "C63", "title": "Inverse participation ratio", "statement": "For a normalised ket of n levels iprKetNB, and iprKet in any orthonormal basis (n > 1), return a number between 1 and n: 1 exactly when the ket is an element of the basis up to a phase, n exactly when all populations in the basis are 1/n. The two functions agree for the computational basis, a global phase does not matter, and a zero ket has no ratio. (The documentation says that the ratio of a uniform ket is 1/n: refuted, it is n.)", "quantifier": "all dimensions, all normalised kets, all orthonormal bases", "why_tests_cant": "the bounds and the characterisation of the extremal states quantify over all kets and all bases", "anchors": ["src/quanguru/QuantumToolbox/IPR.py:iprKet", "src/quanguru/QuantumToolbox/IPR.py:iprKetNB"]}
{"id": "C64", "title": "Bell states", "statement": "Each documented name of BellStates gives the normalised ket (|0a> + (-1)^b |1(1-a)>)/sqrt 2 of its two bits; different bits give orthogonal kets; each qubit alone is maximally mixed (partialTrace returns I/2); the kets are the common eigenstates of sigma_x x sigma_x and sigma_z x sigma_z with the signs given by the bits; and a Hadamard gate on the first qubit followed by CNOT turns the computational basis states into them. (Any other name is not rejected: a 1x1 zero matrix is returned.)", "quantifier": "all names, both qubits", "why_tests_cant": "the behaviour for every other string and the exact identities (not up to rounding) across five functions", "anchors": ["src/quanguru/QuantumToolbox/states.py:BellStates", "src/quanguru/QuantumToolbox/linearAlgebra.py:partialTrace", "src/quanguru/QuantumToolbox/basicGates.py:CNOT", "src/quanguru/QuantumToolbox/basicGates.py:Hadamard"]}
{"id": "C65", "title": "Open-system evolution yields valid density matrices", "statement": "With the matrix exponential defined by its power series (which converges for every square matrix and is unique), the propagator LiouvillianExp builds from a Hermitian Hamiltonian, any list of square collapse operators and non-negative rates maps, for every time t >= 0, every positive matrix to a positive Hermitian matrix with the same trace, so every density matrix to a density matrix; and every state returned by evolveOpen, from a ket or a density matrix, over any number of steps, is a density matrix.", "quantifier": "all dimensions, Hermitian Hamiltonians, lists of collapse operators and non-negative rates, times, initial states and numbers of steps", "why_tests_cant": "positivity of the evolved state is a statement about every initial state and every generator of this form; a test samples a few matrices", "anchors": ["src/quanguru/QuantumToolbox/evolution.py:Liouvillian", "src/quanguru/QuantumToolbox/evolution.py:LiouvillianExp", "src/quanguru/QuantumToolbox/evolution.py:dissipator", "src/quanguru/QuantumToolbox/evolution.py:evolveOpen"]}
{"id": "C66", "title": "Time evolution composes and conserves what commutes", "statement": "With the matrix exponential: propagators of one Hamiltonian compose by adding times, time 0 gives the identity and negative time the adjoint; propagators of commuting Hamiltonians multiply to that of the sum; an operator commuting with the Hamiltonian commutes with the propagator and its expectation value never changes; an eigenstate of energy E only acquires the phase exp(-iEt); evolving an operator embedded in a composite equals embedding the evolution; open-system propagators compose by adding times and leave fixed the states the Liouvillian annihilates; and without collapse operators the open propagator acts as rho -> U rho U^dagger.", "quantifier": "all dimensions, Hamiltonians, times, states, embeddings and collapse operators", "why_tests_cant": "identities of infinite series for every matrix and time; floating-point tests see only some matrices up to rounding", "anchors": ["src/quanguru/QuantumToolbox/evolution.py:Unitary", "src/quanguru/QuantumToolbox/evolution.py:LiouvillianExp", "src/quanguru/QuantumToolbox/evolution.py:Liouvillian", "src/quanguru/QuantumToolbox/operators.py:compositeOp"]}
{"id": "C67", "title": "Rotations and phases by real angles", "statement": "With the real cosine and sine: the qubit rotation gates by an angle are the exponentials of the spin-1/2 operators, equal to spinRotation for j=1/2 in both ways of giving the size; rotations about one axis add their angles, the opposite angle gives the adjoint, angle 2 pi gives minus the identity and 4 pi the identity; spinRotation of any spin adds angles too and about z is diagonal with phases exp(-i x m); controlled phase gates add their angles, are unitary and 2 pi periodic. The code also rounds the cosine and sine of the qubit rotations to 15 decimals: every entry of the gate it returns is within 10^-15 of the exact rotation and the gate is a unitary times a factor, whose square is within 3*10^-15 of one; it is not exactly unitary at every angle.", "quantifier": "all real angles, the three axes and all spins", "why_tests_cant": "holds for every real angle and every spin, exactly", "anchors": ["src/quanguru/QuantumToolbox/spinRotations.py:xRotation", "src/quanguru/QuantumToolbox/spinRotations.py:yRotation", "src/quanguru/QuantumToolbox/spinRotations.py:zRotation", "src/quanguru/QuantumToolbox/basicGates.py:CPHASE", "src/quanguru/QuantumToolbox/spinRotations.py:spinRotation"]}
{"id": "C68", "title": "The analytical Jaynes-Cummings propagator is the exponential", "statement": "For all real frequencies, coupling and time, where no oscillation frequency sqrt(k g^2 + (wq-wc)^2/4) vanishes, the matrix UJC fills in by formula equals Unitary of the Jaynes-Cummings Hamiltonian (frequency wq/2 for sigma_z) in UJC's order of the basis, with the cosine, sine, exponential and matrix exponential of the real and complex numbers.", "quantifier": "all real parameters and times, all cavity dimensions", "why_tests_cant": "equality of a closed formula with an infinite series for every parameter and every truncation of the cavity", "anchors": ["src/quanguru/QuantumToolbox/Hamiltonians.py:UJC", "src/quanguru/QuantumToolbox/Hamiltonians.py:JCHam", "src/quanguru/QuantumToolbox/evolution.py:Unitary"]}
{"id": "C69", "title": "Thermal occupation and polarisation", "statement": "For a non-zero frequency and temperature nBarThermal returns the one number n with n = exp(-hbar w/kT)(n+1); at temperature 0 it returns 0 and at frequency 0 it raises ValueError; for positive frequency and temperature n is positive, strictly increasing in the temperature and strictly decreasing in the frequency. qubitPolarisation returns P1-P0 for the populations with P0+P1=1 and P1/P0 = exp(-w/T), lies strictly between -1 and 1, is odd in the frequency and equals -1/(2n+1); at temperature 0 it raises ZeroDivisionError. (The documented ratio P1/P0 = exp(w/T) is not what is computed, and at negative temperatures n is below -1 without an error.)", "quantifier": "all real frequencies, temperatures and constants", "why_tests_cant": "monotonicity and uniqueness over a continuum of parameters", "anchors": ["src/quanguru/QuantumToolbox/thermodynamics.py:nBarThermal", "src/quanguru/QuantumToolbox/thermodynamics.py:qubitPolarisation"]}
{"id": "C70", "title": "Trace distance", "statement": "traceDistance of two square matrices of one size is a nonnegative number, the same in both orders and zero only for equal matrices; it does not change when both are transformed by one unitary, and it satisfies the triangle inequality for Hermitian matrices. For density matrices it is the largest difference of the probabilities the two states give to any effect, so at most one, with one exactly for orthogonal states, and for pure states it is sqrt(1 - |<u|v>|^2). Matrices of different shapes raise ValueError.", "quantifier": "all sizes, all matrices and states, every order in which the solver returns eigenvalues", "why_tests_cant": "inequalities between eigenvalue sums over all pairs and triples of matrices of every size", "anchors": ["src/quanguru/QuantumToolbox/functions.py:traceDistance"]}
{"id": "C71", "title": "Sorted eigenvalues and eigenvectors", "statement": "sortedEigens of a square matrix returns its eigenvalues with multiplicity in ascending order (lexicographic by real and imaginary part, or by modulus with mag=True) and, at the same position, a normalised eigenvector of each; for a Hermitian matrix the eigenvalues are real and ascending. A matrix that is not square raises an error.", "quantifier": "all sizes, all square matrices, both orders, every order in which the solver returns the eigenvalues", "why_tests_cant": "the pairing and the order must hold for every matrix, degenerate spectra included, and for every order of the solver's output", "anchors": ["src/quanguru/QuantumToolbox/functions.py:sortedEigens"]}
{"id": "C72", "title": "Spectral norm", "statement": "spectralNorm of a nonempty m x n matrix returns the largest factor by which the matrix stretches a vector: the norm of M v is at most that factor times the norm of v, with equality for some normalised v; the second component lists the eigenvalues of M^dagger M in ascending order.", "quantifier": "all shapes m x n with n > 0, all matrices, all vectors", "why_tests_cant": "a supremum over all vectors of every matrix", "anchors": ["src/quanguru/QuantumToolbox/functions.py:spectralNorm"]}
{"id": "C73", "title": "Von Neumann entropy", "statement": "entropy of a density matrix with eigenvalues p_i is -sum p_i ln p_i (0 ln 0 = 0), and the same divided by ln 2 with base2=True. For density matrices of size n it lies between 0 and ln n, it is 0 exactly for pure states and ln n exactly for the completely mixed state; it does not change under a unitary change of basis, it adds up for independent systems, a normalised ket of more than one level has entropy 0, and the two complementary partial traces of a pure state have equal entropy.", "quantifier": "all sizes, all density matrices and kets, all unitaries, all lists of dimensions and kept subsystems, both bases", "why_tests_cant": "inequalities and equalities of transcendental functions of the eigenvalues of every density matrix", "anchors": ["src/quanguru/QuantumToolbox/functions.py:entropy", "src/quanguru/QuantumToolbox/functions.py:partialTrace"]}
{"id": "C74", "title": "Concurrence of two qubits", "statement": "concurrence of a two-qubit density matrix is, up to its rounding to 15 decimals, the least average of 2|ad-bc| over all ways of writing the state as a mixture of kets (a,b,c,d); so it lies between 0 and 1 and is 0 for every separable state, and before rounding only for those. For a ket it is 2|ad-bc|, which is 0 exactly for product kets; it does not change when each qubit is transformed by a unitary of its own. States of another size raise ValueError.", "quantifier": "all two-qubit density matrices and kets, all mixtures of any number of kets, all pairs of local unitaries, every order in which the solver returns the eigenvalues, every monotone rounding that leaves 0 and 1 alone", "why_tests_cant": "a minimum over all decompositions of every mixed state", "anchors": ["src/quanguru/QuantumToolbox/functions.py:concurrence"]}
{"id": "C75", "title": "Open evolution never increases the trace distance", "statement": "For a Hermitian Hamiltonian and non-negative rates, applying the super-operator of LiouvillianExp to two density matrices does not increase their traceDistance. So the traceDistance of the i-th states of two evolveOpen runs that differ only in the initial state does not increase with i.", "quantifier": "all dimensions, Hermitian Hamiltonians, lists of collapse operators, non-negative rates and times, all pairs of density matrices or kets, all numbers of steps", "why_tests_cant": "an inequality over all generators, times and pairs of states", "anchors": ["src/quanguru/QuantumToolbox/evolution.py:LiouvillianExp", "src/quanguru/QuantumToolbox/evolution.py:evolveOpen", "src/quanguru/QuantumToolbox/functions.py:traceDistance"]}
{"id": "C76", "title": "steadyState finds the stationary state", "statement": "For a Hermitian Hamiltonian and non-negative rates, steadyState returns all eigenvalues of the evolution over one unit of time, by increasing modulus, with a normalised eigenvector each; 1 is among them, no modulus exceeds 1, and the last one has modulus 1. If only the last one has modulus 1 it is 1, and the last vector, reshaped by vec2Mat and divided by its trace, is a density matrix, the only one on which the Lindblad generator vanishes; it does not change under evolution over any time, and the states of evolveOpen from any initial state tend to it, for any time step.", "quantifier": "all dimensions, Hermitian Hamiltonians, lists of collapse operators and non-negative rates, every eigenvalue solver and every argsort, all initial states, time steps and tolerances", "why_tests_cant": "a spectral bound for every generator and a limit over unbounded time", "anchors": ["src/quanguru/QuantumToolbox/evolution.py:steadyState", "src/quanguru/QuantumToolbox/evolution.py:evolveOpen", "src/quanguru/QuantumToolbox/functions.py:sortedEigens"]}
{"id": "C77", "title": "Eigenvector statistics", "statement": "The eigenvector statistics of an n-by-n matrix list the squared moduli of all components of the normalised eigenvectors the solver returns, component by component; those of each eigenvector add up to 1. The symplectic form lists, eigenvector by eigenvector, the sums of consecutive pairs of components, floor(n/2) for each; they add up to 1 for even n, and for odd n the last component is left out. eigVecStatKet in an orthonormal basis gives the squared moduli of the overlaps with the basis, which add up to the squared norm of the ket (the populations in the computational basis), together with their sums in pairs if asked for and an empty list otherwise; so it returns a pair of lists, not one list as its documented example says.", "quantifier": "all square matrices of any size, Hermitian or not, every eigenvalue solver, all orthonormal bases and kets (other than one level)", "why_tests_cant": "holds for every dimension, basis and order of eigenvectors", "anchors": ["src/quanguru/QuantumToolbox/eigenVecVal.py:_eigStat", "src/quanguru/QuantumToolbox/eigenVecVal.py:_eigStatEig", "src/quanguru/QuantumToolbox/eigenVecVal.py:_eigStatSymp", "src/quanguru/QuantumToolbox/eigenVecVal.py:_eigsStatEigSymp", "src/quanguru/QuantumToolbox/eigenVecVal.py:eigVecStatKet"]}
{"id": "C78", "title": "Wigner function", "statement": "At each point a = g(x+iy)/2 of the grid, x along the rows and y down the columns, Wigner of a Hermitian matrix is g^2 times the sum over m, n of rho_mn times the Wigner function of |m><n|, given in closed form (Laguerre polynomials); the values are real for real g. So it is linear in the state, g^2/pi times the expectation value of the parity at the origin, positive for the vacuum, and rotates with the state. A ket of two or more levels has the values of its density matrix. Of a matrix that is not Hermitian only the upper triangle and the real part of the diagonal count.", "quantifier": "all dimensions, Hermitian matrices and kets, all grids and scale factors", "why_tests_cant": "an in-place recurrence against a closed form, for every dimension, state and point", "anchors": ["src/quanguru/QuantumToolbox/quasiProbabilities.py:Wigner"]}
{"id": "C79", "title": "Husimi function", "statement": "HusimiQ does not return the Husimi function it documents. It raises AttributeError for every density matrix; for a ket of two or more levels it raises ValueError unless the grid has one point, or as many points along each side as the ket has levels, and then the value in column j depends on the amplitude of level j only, so that it is zero for the vacuum where the Husimi function is positive.", "quantifier": "all dimensions, states, grids and scale factors", "why_tests_cant": "about every size of state and grid", "anchors": ["src/quanguru/QuantumToolbox/quasiProbabilities.py:HusimiQ", "src/quanguru/QuantumToolbox/quasiProbabilities.py:_qfuncPure"]}
{"id": "C80", "title": "Densities of random-matrix theory", "statement": "For each Dyson parameter 0, 1, 2 and 4 WignerDyson (and its alias WignerSurmise) is a probability density on the half-line: it is nowhere negative, integrates to one, has mean spacing one, and behaves like a positive multiple of x^beta near zero. Over the natural numbers Poissonian(n, lam) is positive, adds up to one and has mean lam. EigenVectorDist returns values between 10^-30 and 10^30 only; for beta 1 and 2 it is a density of integral one over the unit interval, cut to that range, for every dimension from two; for beta 4 what it returns integrates to less than one, so it is not a density. Any other Dyson parameter raises.", "quantifier": "all real arguments, all dimensions, all Dyson parameters, all positive lambda", "why_tests_cant": "improper integrals and infinite sums over all dimensions and parameters", "anchors": ["src/quanguru/QuantumToolbox/rmtDistributions.py:EigenVectorDist", "src/quanguru/QuantumToolbox/rmtDistributions.py:WignerDyson", "src/quanguru/QuantumToolbox/rmtDistributions.py:Poissonian"]}
{"id": "C81", "title": "Parity, displacement and squeezing", "statement": "With the matrix exponential itself: parityEXP of the number operator is paritySUM, for every dimension; for any square matrix parityEXP commutes with it, multiplies an eigenvector of integer eigenvalue k by (-1)^k, and is unitary if the matrix is Hermitian. In every truncated space parity turns displacement(alpha) into displacement(-alpha) and commutes with squeeze; squeeze has no entry between number states of different parity; free evolution for a time t turns displacement(alpha) into displacement(e^{-it} alpha) and squeeze(z) into squeeze(e^{-2it} z); displacements (squeezings) along one direction compose by adding, and the one backwards is the adjoint.", "quantifier": "all dimensions, amplitudes, phases, times and square matrices", "why_tests_cant": "about every dimension and complex amplitude, with the exact exponential", "anchors": ["src/quanguru/QuantumToolbox/operators.py:parityEXP", "src/quanguru/QuantumToolbox/operators.py:paritySUM", "src/quanguru/QuantumToolbox/operators.py:displacement", "src/quanguru/QuantumToolbox/operators.py:squeeze"]}
{"id": "C82", "title": "Initial states of single and nested systems", "statement": "Assigning an input to initialState of a system anywhere in a nested composite system succeeds if it is an input for that system (an array with as many rows as its dimension; for a single system a level, a list of levels or a dictionary; for a composite one a list with an input for each sub-system), leaves systems outside of it as they were, and makes it and each sub-system give the state their part of the input stands for: the tensor product of the parts, or None if a level is outside of a dimension. A composite system keeps an input of its own whatever is assigned to its sub-systems, and follows dimension changes. Without one, a composite system of single systems gives, after any history of assignments, reads and dimension changes, the state of the latest inputs of its sub-systems, and raises if one has none. A nested one does so once its stored state has been deleted; if not, what was read stays. Every state that is read has as many rows as the dimension and, if no unnormalised array was assigned, is a normalised ket. Refuted: that the state is always the product of the states of the sub-systems, that nested systems always follow, that reading never changes later results, that a failed assignment has no effect, that a protocol accepts every level a system accepts.", "quantifier": "all nested systems, inputs, positions in the system and histories of assignments, reads, dimension changes and deletions", "why_tests_cant": "the stored inputs and states of all systems of a tree interact over arbitrary histories", "anchors": ["src/quanguru/classes/QSystem.py:QuantumSystem._createInitialState", "src/quanguru/classes/QSystem.py:QuantumSystem.initialState", "src/quanguru/classes/QSystem.py:_initStDec", "src/quanguru/classes/QSimBase.py:stateBase.initialState", "src/quanguru/classes/QSimBase.py:stateBase._setGetMaxInput", "src/quanguru/classes/QPro.py:genericProtocol.initialState"]}
{"id": "C83", "title": "Systems and protocols of a simulation", "statement": "Whatever is added to, removed from or run in a simulation, no protocol or name is listed twice and a system listed under its name is the system of that name. Adding a system that is listed changes nothing; another one comes last. Adding a protocol of a system lists that pair, last if the protocol is new, changes no other pair, and is refused with a TypeError for another system. A run (or qEvolutions) never fails on the listed pairs, gives every system listed under its name its free evolution, keeps the order, the systems and the protocols, and a second one changes nothing. Every protocol is listed with its own system if no system was added with a protocol given apart. With nothing swept, removing a system listed under its name, or a protocol, removes exactly that pair. After a removal that succeeds neither the system, its free evolution, nor their simulations (the protocol, its simulation and, with its last listed pair, its system) are swept or time dependent in the simulation, and nothing else ever leaves the sweeps by it. Refuted: that a listed system can always be removed (after a run it always raises KeyError and stays; while another system is swept, it goes but the call raises; by name it goes but the call raises AttributeError), that adding a listed system by name keeps the order, that a protocol given apart is checked, that qEvolutions of an empty simulation gives a list. Replacing the free evolution with protocolRemove=system.name does it and raises AttributeError.", "quantifier": "all histories of additions, removals, runs and reads of a simulation, all systems and protocols", "why_tests_cant": "keys change their kind at a run and the order depends on the whole history", "anchors": ["src/quanguru/classes/QSim.py:Simulation.addQSystems", "src/quanguru/classes/QSim.py:Simulation.addProtocol", "src/quanguru/classes/QSim.py:Simulation.removeQSystems", "src/quanguru/classes/QSim.py:Simulation.removeProtocol", "src/quanguru/classes/QSim.py:Simulation._freeEvol", "src/quanguru/classes/QSim.py:Simulation.qEvolutions", "src/quanguru/classes/QSim.py:Simulation.run"]}
{"id": "C84", "title": "Dissipators and thermal baths", "statement": "After any history of changes, the thermal occupation of a bath and the rate of a dissipator that are read are those of what is set now: rate times (occupation at the frequency and temperature of its bath, plus type), and reading changes no rate. Adding a dissipator to a protocol, or giving it a system (then to its free evolution), hands over the rate of that moment, changes no other entry, and the protocol keeps it whatever is changed until the dissipator is handed over again. With the keywords system, jOper, jRate in this order the free evolution keeps rate 0; with jRate first it gets the rate. The operator before the system is an AttributeError, a second one of the same shape a ValueError that changes nothing. The matrix of a dissipator is missing or its operator extended with the dimensions of now, as long as its system is not given again; a change of the dimensions removes it, and asking for it brings it back. A protocol that has a dissipator is told of a new rate, and of a new temperature or frequency of a bath it was attached to. Rates are not negative if no negative rate or type was set. Refuted: that the rates of a protocol follow the dissipator, that a protocol is told of the temperature of a dissipator's own bath, and that the matrix follows another system.", "quantifier": "all histories of setting temperatures, frequencies, rates, types, operators, systems, dimensions and baths, all dissipators, baths, protocols and systems, all thermal occupation functions, with or without errors", "why_tests_cant": "staleness depends on the order of changes and reads over unboundedly many objects and histories; tests fix one order", "anchors": ["src/quanguru/classes/environment.py: dissipatorObj, thermalBath", "src/quanguru/classes/QPro.py: genericProtocol", "src/quanguru/classes/QSimBase.py: setAttr"]}
{"id": "C85", "title": "Couplings of a composite: Jaynes-Cummings, Rabi and Dicke", "statement": "After any history of JC, Rabi and Dicke calls on a new composite and of new frequencies for the objects they returned, the total Hamiltonian is the energies of the sub-systems plus every coupling added, with its last frequency: a J+ + a^+ J- (or a b^+ + a^+ b if the spin has another operator than Jz or sigmaz), (a + a^+) sigma_x and (a + a^+) Jx, between the cavity and the spin chosen and as the identity elsewhere. It is Hermitian for real frequencies; with Jaynes-Cummings couplings only it conserves the total number of excitations, with any of them its parity. A cavity and a spin may be given in any order; by default the first cavity and the first spin are coupled. All failing calls leave the composite as it was, and their exceptions are listed. For a qubit and a cavity the result is JCHam and RabiHam of the toolbox with half the qubit frequency (and for Dicke half the coupling). Refuted: that a default exists whenever there are a cavity and a spin, and that a cavity given alone is the one coupled.", "quantifier": "all flat composites with any number of sub-systems and dimensions, all frequencies, all histories of calls with any arguments, all levels", "why_tests_cant": "the symmetries concern every matrix element of Hamiltonians of every size and after every sequence of calls; tests compare a few matrices", "anchors": ["src/quanguru/classes/extensions/couplings.py: JC, Rabi, Dicke, couplerDecorator", "src/quanguru/classes/QSystem.py: QuantumSystem.createTerm, totalHamiltonian", "src/quanguru/classes/QTerms.py: QTerm._dimInput, frequency, totalHamiltonian", "src/quanguru/QuantumToolbox/Hamiltonians.py: JCHam, RabiHam"]}
{"id": "C86", "title": "A time-dependent Hamiltonian is taken at step size times the step number", "statement": "Let terms of systems have time-dependence functions (term.timeDependency = f), let the protocols of a simulation each belong to a system and their steps to that system or its sub-systems, and let the simulations of all these systems follow the simulation that is run: the chain of bounds of each ends in it, as is the case after adding a system none of whose time parameters was assigned. Then step k (from 1) of every protocol in a run applies the unitary computed from the parameters with every function evaluated at time k times the step size (the end of the step, never 0), whatever was computed or cached before, and running again from the same states gives the same states. Provided: no parameter is given two values at the same time, the functions always assign the same parameters, updates are of other parameters, and a protocol does not depend on parameters that only another protocol's system changes. Assigning any time parameter or the number of samples to the system's simulation ends the following. When the systems follow a simulation that was not run, all steps are at time 0; this is what happens, without any error, when protocol.simulation is run, when the system had its own step size, when it was later added to another simulation, and when a step belongs to a sub-system (whose simulation is bound to nothing). A protocol without a system keeps the unitary of its first step, and an update of a parameter that a function sets is lost.", "quantifier": "all functions of time, systems nested to any depth, protocol trees, step counts, step sizes, numbers of protocols, chains of bound simulations and earlier cache contents", "why_tests_cant": "The time used depends on the history of bindings and assignments of the simulations, and stale caches show only for particular nestings of protocols and numbers of steps; a test sees one of them.", "anchors": ["src/quanguru/classes/QSim.py: Simulation._currentTime", "src/quanguru/classes/QTerms.py: QTerm._timeDependency", "src/quanguru/classes/QSystem.py: QuantumSystem._timeDependency", "src/quanguru/classes/QPro.py: genericProtocol.unitary, genericProtocol._getUnitary", "src/quanguru/classes/modularSweep.py: timeEvolBase"]}
{"id": "C87", "title": "Every point of a sweep is a run of its own", "statement": "Let a simulation with protocols used as in C86 be run with one or more sweeps (in groups, each with at least as many values as its first one) of parameters of its systems. Then what is recorded at the grid point (i1, ..., ik) is exactly what a run without sweeps records that starts with newly created protocols whose parameters have the values of that point and are otherwise those before the run: nothing of the points computed earlier (cached matrices, states, values left by functions of time, results) shows. A protocol that keeps its states has under states[name][i1]...[ik] the list of its states in that separate run, the initial one first, then one for every step. The results do not depend on whether and in which order a pool of processes computes the points, nor on indices left by an earlier run, and the same run repeated gives the same results. Provided: no two swept names are the same parameter, and initial states and compute functions do not read parameters that a function of time sets. A sweep of a parameter that a function of time sets has no effect.", "quantifier": "all groups of sweeps, numbers and lists of values, protocol trees, functions of time, numbers of steps, initial states, compute functions, contents of earlier results, and orders in which processes execute the points", "why_tests_cant": "Whether a value of an earlier point is left in some cache depends on the order of the points, the dependency lists and the protocol tree; a test compares a few points of one model.", "anchors": ["src/quanguru/classes/QSim.py: Simulation.run", "src/quanguru/classes/modularSweep.py: runSimulation, nonParalEvol, paralEvol, _runSweepAndPrep, timeEvolDefault", "src/quanguru/classes/QSweep.py: Sweep.runSweep, Sweep.prepare", "src/quanguru/classes/baseClasses.py: updateBase._runUpdate"]}
{"id": "C88", "title": "What run returns and where the states of a run are found", "statement": "run() returns what the simulation has in its states under the name of the system or protocol it belongs to (or its own name): after a run over sweeps a nested list with one entry per grid point, in the order of the sweeps, which is the list of the states that the point stored (with the assumptions of C87: the states of the evolution at that point run on its own), and without sweeps that list itself. Every list of states of the simulation is also found in the states of the object its key names. If a key names no object, run raises KeyError. Results and all other states are not touched by this. What run() returns and stores does not depend on anything stored before. For an object for which the run records nothing, such as those of another simulation: run() empties it, and run(resetRes=False) regroups its lists once more, so without sweeps only the first element of each is left. If nothing is stored under the key, an empty list is returned and kept; a following run(resetRes=False) without sweeps then fails.", "quantifier": "all sequences of records at all points, sweep shapes, numbers of result objects, contents of these before the run, keys, and assignments of names to objects", "why_tests_cant": "What other objects lose and whether a state reaches its object depends on everything stored by any simulation in the process; a test looks at the one simulation it runs.", "anchors": ["src/quanguru/classes/QSim.py: Simulation.run, Simulation.__compute", "src/quanguru/classes/QRes.py: qResBase._reset, qResBase._resetLast, qResBase._organiseSingleProcRes, qResBase._finalise, qResBase._finaliseAll"]}
{"id": "C89", "title": "When a run uses a pool of processes, and of how many", "statement": "In a session of any runs with any settings, some of which may raise: run() with p=None uses a pool exactly if an earlier run of any simulation used one and did not raise, with as many processes as the last of these; coreCount is then ignored, so coreCount alone does not switch multiprocessing on. p=False runs in one process and keeps what is remembered. p=True uses coreCount if it is an integer, all cores but one if it is 'all' in any case of letters, and without coreCount the remembered number or else all cores but one; a pool p stands for a new one of the same size. Fewer than one process (so p=True on a machine with one core) is a ValueError, and with any other argument nothing is run and nothing is remembered. Every run that gets this far runs the simulation once, with a pool that was opened for it and is closed after it unless the simulation raises, in which case it stays open. All pools of a process are started by fork on systems other than Windows with Python 3.8 or later, unless the user chose otherwise before. What is returned and stored does not depend on any of this.", "quantifier": "all sessions of runs, arguments, numbers of cores, platforms, simulations that succeed or raise, and orders in which pools execute the points", "why_tests_cant": "The behaviour of a call depends on the whole history of calls in the process through a class attribute; tests run a few histories on one machine.", "anchors": ["src/quanguru/classes/QSim.py: _poolMemory.run, Simulation.run", "src/quanguru/classes/modularSweep.py: runSimulation, nonParalEvol, paralEvol"]}
{"id": "C90", "title": "What + and - between quantum systems build", "statement": "s1 + s2 + ... + sn of single systems that stand alone gives one new system whose sub-systems are s1, ..., sn in this order and on one level, whose dimension is the product of theirs, with the products of the dimensions to the left and right of each system as its dimensions before and after. A composite (or a plain QuantumSystem not used yet) + a system that is not composite appends the right one to the left one and returns the left one itself; composite + composite nests both in a new system; a single system + a composite puts the single system last in the composite. a + a uses a copy for the right operand. Systems outside the trees of the operands keep all attributes. p - c removes c as removeSubSys does. Not true: + is not associative in the order of the sub-systems, a single system + a plain unused QuantumSystem raises UnboundLocalError, a plain unused QuantumSystem + a composite drops the left operand, and (p + c) - c leaves c with dimension 1.", "quantifier": "all histories of fine calls (C25), systems, numbers of operands and dimensions with product below 2^53", "why_tests_cant": "The branch taken depends on the history of both operands, and the number of operands and the dimensions are unbounded.", "anchors": ["src/quanguru/classes/QSystem.py: QuantumSystem.__add__, __sub__, addSubSys, _isComposite"]}
{"id": "C91", "title": "What createSweep creates", "statement": "createSweep with systems that all have the attribute sweepKey adds one sweep after the existing ones, for that attribute of each of the systems (each once, however often it is listed), with the given values and flag. With the auxiliary object it is for that key of it alone. Without a system it is about the system the simulation belongs to, and raises ValueError if there is none. A key that is not a string is a ValueError, an empty list an IndexError, and an attribute that the first system has and another lacks an AttributeError; a call that raises adds nothing. If such calls are made one after the other, the first not combinatorial, the run of each point gives every attribute that was named the value its group's index selects and changes no other attribute of any object and no auxiliary value. Not true: that a misspelt attribute is an error. If the first system lacks the attribute the call succeeds whatever the other systems have, and no attribute of any object is ever changed by that sweep.", "quantifier": "all sequences of calls, systems, attribute names, values and flags, all points", "why_tests_cant": "Calls interact through the list of sweeps, the index arithmetic and the attributes they share; sequences and lists are unbounded.", "anchors": ["src/quanguru/classes/QSweep.py: Sweep.createSweep, Sweep.prepare, Sweep.runSweep, _sweep", "src/quanguru/classes/baseClasses.py: updateBase._runUpdate"]}
{"id": "C92", "title": "Which object an attribute of a system or protocol reads and assigns", "statement": "An attribute that a system or protocol has is its own, and every exception other than AttributeError comes out as it is. One that it does not have is read from and assigned to its simulation, with the same results, exceptions and effects, so in any session of reads and assignments such accesses can be made on the simulation instead. One that neither has raises AttributeError and changes nothing, so a misspelt parameter is always reported. In particular totalTime, stepSize, stepCount and samples can be assigned as q.totalTime, q.simTotalTime or q.simulation.totalTime, mixed in any order over any systems, with the same parameters and exceptions, and q.stepCount is floor(T/s)+1 afterwards; q.simParameters gives total time, step size, step count and samples in this order. Not true: that the object's own attribute always wins (an AttributeError raised inside its getter or setter is lost, the simulation's attribute of the same name is used instead, and what the setter had changed stays changed), and that q.simTotalTime reads what was assigned to it (it gives the tuple of all the parameters or raises).", "quantifier": "all classes of objects (any getters and setters, with effects and exceptions), all states, all sessions of reads and assignments, all systems and numbers", "why_tests_cant": "Any attribute name, any getter or setter and any sequence of accesses may occur; the fall-back depends on exceptions raised at any depth.", "anchors": ["src/quanguru/classes/QSimComp.py: QSimComp.__getattribute__, __setattr__, simulation, simParameters, simTotalTime, simStepSize, simStepCount, simSamples", "src/quanguru/classes/QSimBase.py: timeBase"]}
{"id": "C93", "title": "Coupling terms of the older composite systems", "statement": "addTerm with groups of a list of systems followed by lists of operators adds one term per list of operators, in the order written, also over several calls. After any sequence of additions, strength assignments and reads, the Hamiltonian of a coupling whose terms are of two systems is the last strength times the sum of its terms: the product of the matrix elements of the two operators where all other systems agree, and 0 elsewhere. JC, Rabi and Dicke of a cavity and a spin have the same Hamiltonian as those of the newer classes. Not true: that a term of three or more systems acts on all of them (only the first two are used), that addTerm with two lists of systems in a row raises (it never returns), that an addTerm that raises changes nothing (the terms before the error stay, while the Hamiltonian stays the one from before), and that a coupled system can be removed (a RuntimeError comes after the first of its terms is dropped, and the next term added can then replace another).", "quantifier": "all sequences of additions, strength assignments and reads, all numbers and dimensions of systems, all operators with any matrix elements, all positions of the coupled systems", "why_tests_cant": "The number of systems, terms and operations is unbounded, and the matrix is kept between reads, so any order of changes and reads matters.", "anchors": ["src/quanguru/classes/QSys.py: qCoupling.addTerm, termCount, totalHam, _qCoupling__coupOrdering, _qCoupling__getCoupling, _constructMatrices, _removeSubSysExc", "src/quanguru/QuantumToolbox/couplings.py: JCold, RabiOld, DickeOld"]}
{"id": "C94", "title": "Dimensions kept by the older single and composite systems", "statement": "In any session with an older composite system of single systems (adding, taking out, adding again, assigning dimensions, reading in between) no exception is raised, every system in it has the product of the dimensions of the systems before it and of those after it, a system outside has 1 and 1, and the total dimension of every system in it is the dimension of the composite system; this holds as long as the total dimension is at most 2^53 and no dimension is assigned to a system that was taken out. For composite systems nested to any depth, each complete before it is put into another, every single and composite system has the dimensions before and after it over all levels. Not true: that the dimension of a system which was taken out no longer matters (assigning it changes what the others have), that a system can be added to an inner composite system later, that taking a system out of an inner composite system updates the single systems beside it, and that assigning a dimension three levels down is reflected everywhere.", "quantifier": "all sessions of additions, removals, dimension assignments and reads, all numbers and dimensions of systems, all nested trees of systems, every division that is exact for whole quotients up to the bound", "why_tests_cant": "Numbers of systems, nesting depth and sessions are unbounded; each step rescales numbers left by all steps before it, by floating-point divisions.", "anchors": ["src/quanguru/classes/QSys.py: genericQSys._dimsBefore, _dimsAfter, dimension, _totalDim, ind", "src/quanguru/classes/QSys.py: compQSystem.addSubSys, __addSub, _removeSubSysExc, updateDimension", "src/quanguru/classes/QSys.py: qSystem.dimension, _removeSubSysExc"]}
{"id": "C95", "title": "Hamiltonians of the older system classes follow their parameters", "statement": "In any session with older single systems and a composite system of them (adding terms, assigning frequencies, operators, positive orders and dimensions, adding systems and taking them out, reading Hamiltonians at any time, going on after an exception), every Hamiltonian that is read, of a term, a system or the composite system, is the sum over the terms as they are assigned at that moment, each operator at the dimensions before and after its system, and raises what that sum raises. So what was read before, and in which order things were assigned, makes no difference. This holds if no term is removed and no dimension is assigned to a system that was taken out. Not true: that removeTerm works (for a system that is or was in a composite system it raises AttributeError and removes nothing; for another one the Hamiltonian that was read before stays), and that an order which is rejected with AssertionError is not assigned.", "quantifier": "all sessions of changes and reads, all numbers of systems and terms, all frequencies, operators and dimensions, all matrix arithmetics, also ones that raise", "why_tests_cant": "Three levels of kept matrices are dropped, marked and made again depending on everything that was read and assigned before; sessions are unbounded.", "anchors": ["src/quanguru/classes/QSys.py: compQSystem.freeHam, totalHam, addSubSys, _removeSubSysExc, updateDimension", "src/quanguru/classes/QSys.py: termTimeDep.operator, order, frequency, freeMat, term._constructMatrices", "src/quanguru/classes/QSys.py: qSystem.dimension, totalHam, addSubSys, addTerm, removeTerm, _removeSubSysExc", "src/quanguru/classes/QSys.py: genericQSys._dimsBefore, _dimsAfter", "src/quanguru/classes/baseClasses.py: paramBoundBase._paramUpdated, delMatrices", "src/quanguru/classes/QSimBase.py: setAttr"]}
{"id": "C96", "title": "What + and N * between the older systems build", "statement": "Any expression of + over different older single and composite systems that stand alone, of N * q and of q + q for single or composite systems q, nested to any depth, raises nothing and gives a system whose sub-systems are those a reader expects: single + single is a new composite system of both, composite + single puts the single one last in the composite one and gives that, composite + composite is a new system of both, N * q is a new system of q and N-1 copies of it, which have the same form and dimensions and are new at every level. Every system in it has the dimensions before and after it over all levels, the dimension of the whole is the product, and systems not in the expression stay as they were. So s0 + ... + sn is one composite system of all of them in this order. q + q is a new system of q and a copy of it, unless q is an empty composite system; p - q removes q as removeSubSys does. Not true: that the order is that of the operands (a + (b + c) has the order b, c, a), that 0 * q is empty or rejected (it is 1 * q), and that the left operand is part of the sum (an empty composite system is dropped).", "quantifier": "all expressions, all trees of systems as operands, numbers and dimensions with product up to the bound of exact division", "why_tests_cant": "Expressions, operand trees and numbers of systems are unbounded, and each addition rescales the dimensions kept by all systems already there.", "anchors": ["src/quanguru/classes/QSys.py: genericQSys.__add__, __sub__, __rmul__, copy", "src/quanguru/classes/QSys.py: compQSystem.addSubSys, __addSub, _removeSubSysExc", "src/quanguru/classes/base.py: qBase.copy"]}
{"id": "C97", "title": "HeatCurrent returns for no input", "statement": "HeatCurrent(Lindbladian, Hamiltonian, denMat) raises ValueError for every square density matrix of dimension 2 or more, whatever the other two arguments are. With sparse matrices of any shapes it raises AttributeError if denMat can be reshaped to the square array that fits the columns of the Lindbladian and the Hamiltonian has one row, and ValueError otherwise. Not true: that it returns the documented trace of the rate of change times the Hamiltonian; it returns for no input.", "quantifier": "all matrices of all shapes; for the first and last part also every way to multiply two of them (sparse or dense)", "why_tests_cant": "a test shows the exception for the matrices it tries; that no shape of input gets through needs all of them", "anchors": ["src/quanguru/QuantumToolbox/thermodynamics.py: HeatCurrent", "src/quanguru/QuantumToolbox/states.py: vec2Mat, mat2Vec"]}
