{"id": "C01", "title": "makeZeroState prepares |0...0>", "statement": "For every qubit count 1<=q<=100 (getVector: q<=30) and every earlier history of API calls, makeZeroState(q) succeeds and getVector of the result is 1 at index 0 and 0 elsewhere.", "quantifier": "every q in range, every reachable library state (tables, caches, pools already filled by any history)", "why_tests_cant": "A test fixes q and starts from a fresh library; the claim ranges over all sizes and all prior contents of the unique table.", "anchors": ["src/dd.cpp:makeZeroState", "src/dd.cpp:makeVEdge", "src/dd.cpp:getVector"]}
{"id": "C02", "title": "makeOneState prepares |1...1>", "statement": "For every q in range and every earlier history, getVector(makeOneState(q)) is 1 at index 2^q-1 and 0 elsewhere.", "quantifier": "every q, every reachable library state", "why_tests_cant": "as C01", "anchors": ["src/dd.cpp:makeOneState"]}
{"id": "C03", "title": "makeGate builds the controlled one-qubit operator", "statement": "For every qubit count, 2x2 matrix g, target and set of positive/negative controls on distinct non-target qubits, getMatrix(makeGate(q,g,t,controls)) is exactly the operator that applies g to bit t when all controls are satisfied and is the identity otherwise (up to an explicit tolerance-induced error bound; exact at tolerance 0).", "quantifier": "all q, matrices, targets, control sets, all reachable library states", "why_tests_cant": "Control positions above/below the target, polarity and number combine exponentially; identity stripping makes the diagram shape depend on the values.", "anchors": ["src/dd.cpp:makeGate", "include/dd.h:Controls", "src/dd.cpp:getMatrix"]}
{"id": "C04", "title": "makeTwoQubitGate builds the controlled two-qubit operator", "statement": "For every 4x4 matrix, ordered pair of distinct targets and control set, the result denotes the operator applying the matrix to (bit target0, bit target1) with target0 the most significant index bit, when the controls are satisfied, identity otherwise.", "quantifier": "all q, matrices, target pairs in either order, control sets, reachable states", "why_tests_cant": "as C03, with two target orders and controls below, between and above the targets", "anchors": ["src/dd.cpp:makeTwoQubitGate"]}
{"id": "C05", "title": "mv_multiply is matrix-vector multiplication", "statement": "For every gate handle and state handle of the same size, getVector(mv_multiply(m,v)) equals the matrix-vector product of getMatrix(m) and getVector(v), within an explicit bound that vanishes at tolerance 0.", "quantifier": "all handles obtainable by any API history, all cache/unique-table contents, all hash functions", "why_tests_cant": "Memoisation makes the result depend on the whole history through the compute caches; tests exercise a few histories.", "anchors": ["src/dd.cpp:mv_multiply", "src/dd.cpp:mv_multiply2"]}
{"id": "C06", "title": "vv_add is vector addition", "statement": "For all state handles of equal size, getVector(vv_add(a,b)) = getVector(a)+getVector(b) within an explicit bound that vanishes at tolerance 0.", "quantifier": "all handles, histories, caches, hash functions", "why_tests_cant": "as C05", "anchors": ["src/dd.cpp:vv_add", "src/dd.cpp:vv_add2"]}
{"id": "C07", "title": "mm_multiply is matrix multiplication", "statement": "For all gate handles, at every common size n the matrix of mm_multiply(a,b) is the product of the matrices of a and b (exact at tolerance 0, within a bound vanishing with the tolerance otherwise).", "quantifier": "all handles, histories, caches, hash functions, all sizes n", "why_tests_cant": "Results cached at one recursion level are reused at other levels because identity levels are stripped; only an invariant over all histories settles that the reuse is sound.", "anchors": ["src/dd.cpp:mm_multiply", "src/dd.cpp:mm_multiply2", "src/dd.cpp:rootVar"]}
{"id": "C08", "title": "mm_add is matrix addition", "statement": "For all gate handles, at every common size the matrix of mm_add(a,b) is the sum of the matrices (exact at tolerance 0, within a bound vanishing with the tolerance otherwise).", "quantifier": "all handles, histories, caches, hash functions, sizes", "why_tests_cant": "as C07", "anchors": ["src/dd.cpp:mm_add", "src/dd.cpp:mm_add2"]}
{"id": "C09", "title": "Multi-threaded execution is safe and schedule independent", "statement": "In the multi-threaded build, for every interleaving of the forked fibers, every assignment of fibers to threads and every thread-local allocator/cache contents, a mv_multiply or vv_add never faults and returns a handle that denotes the same vector as the sequential build (within the same bound; identical at tolerance 0).", "quantifier": "all schedules, thread assignments, inputs, histories", "why_tests_cant": "A test run exhibits a handful of interleavings out of exponentially many.", "anchors": ["src/dd.cpp:vv_add2", "src/dd.cpp:mv_multiply2", "include/table.hpp:lookup"]}
{"id": "C10", "title": "Operation caches are transparent", "statement": "Clearing (or never filling, or arbitrarily evicting) the compute caches never changes the vector or matrix any operation denotes: results depend only on the operands' denotations.", "quantifier": "all pairs of library states that agree on the operands' denotations, all operations", "why_tests_cant": "needs all cache contents, including hash collisions and LFU evictions", "anchors": ["include/cache.hpp:AddCache", "include/cache.hpp:MulCache"]}
{"id": "C11", "title": "Canonicity: equal states get equal handles", "statement": "With exact comparisons (tolerance 0), two non-zero handles denote the same vector (matrix) if and only if their weights and node pointers are identical; and the unique table never holds two nodes with the same content.", "quantifier": "all pairs of handles in all reachable states", "why_tests_cant": "uniqueness is a global invariant of the table over every history", "anchors": ["include/table.hpp:lookup", "src/dd.cpp:normalizeV", "src/dd.cpp:normalizeM"]}
{"id": "C12", "title": "Normalisation: root weight is the largest amplitude", "statement": "For every non-zero state or gate handle, |root weight| equals the largest modulus of any amplitude (entry), and it is attained.", "quantifier": "all handles in all reachable states", "why_tests_cant": "follows from an invariant of every node ever created", "anchors": ["src/dd.cpp:normalizeV", "src/dd.cpp:normalizeM"]}
{"id": "C13", "title": "gc preserves the states passed to it", "statement": "For every list of live state handles, gc(states, force) returns handles with exactly the same getVector, whether or not the collection triggers; below the threshold and without force it changes nothing. Operations performed afterwards remain correct (no stale cache or probability entry survives).", "quantifier": "all handle lists, all reachable states, both force values, all thresholds, any later operations", "why_tests_cant": "address reuse after collection makes stale-cache bugs history dependent", "anchors": ["src/dd.cpp:gc", "src/dd.cpp:vNode_to_vec", "src/dd.cpp:vec_to_vNode"]}
{"id": "C14", "title": "gc_mat preserves the gates passed to it", "statement": "As C13 for gate handles and gc_mat.", "quantifier": "all handle lists, reachable states, thresholds, later operations", "why_tests_cant": "as C13", "anchors": ["src/dd.cpp:gc_mat", "src/dd.cpp:mNode_to_vec", "src/dd.cpp:vec_to_mNode"]}
{"id": "C15", "title": "Memory safety of in-contract programs", "statement": "Every client program that respects the size contract of each call (including gc with all live handles) runs without null/dangling dereference, out-of-range level index or assertion failure.", "quantifier": "all finite client programs, all schedules", "why_tests_cant": "quantifies over every program", "anchors": ["src/dd.cpp", "include/table.hpp", "include/cache.hpp"]}
{"id": "C16", "title": "Serialisation round trip", "statement": "Encoding any state with vNode_to_vec and rebuilding it with vec_to_vNode (in the same or in another, arbitrarily filled table) yields a node denoting the same vector; the index table lists children before parents.", "quantifier": "all states, all target tables", "why_tests_cant": "sharing patterns are unbounded", "anchors": ["src/dd.cpp:vNode_to_vec", "src/dd.cpp:vec_to_vNode", "src/dd.cpp:send_dd", "src/dd.cpp:receive_dd"]}
{"id": "C17", "title": "get_nNodes counts the nodes of the diagram", "statement": "get_nNodes(e) equals the number of distinct non-terminal nodes reachable from e.", "quantifier": "all states", "why_tests_cant": "all sharing patterns", "anchors": ["src/dd.cpp:get_nNodes", "src/dd.cpp:vNode_to_vec"]}
{"id": "C18", "title": "probabilities returns |amplitude|^2 normalised", "statement": "For every non-zero state handle and any contents of the probability memo left by earlier calls, probabilities(v)[i] = |v_i|^2 / sum_j |v_j|^2 for all i, and the list has 2^n entries summing to 1.", "quantifier": "all states, all histories of the memo table", "why_tests_cant": "the memo is global and persists between calls", "anchors": ["src/dd.cpp:probabilities", "src/dd.cpp:assignProbabilities"]}
{"id": "C19", "title": "measureAll samples the Born distribution", "statement": "For every non-zero state the set of threshold sequences for which measureAll(v) returns bitstring b is a product of half-open intervals of total length |v_b|^2/||v||^2; in particular outcomes of probability zero are never returned, for every random stream.", "quantifier": "all states, all random streams", "why_tests_cant": "distribution statement; finite sampling cannot prove it", "anchors": ["src/dd.cpp:measureAll"]}
{"id": "C20", "title": "measureAll collapse", "statement": "With collapse=true the state handle is replaced by the basis state that was returned; with collapse=false it is unchanged.", "quantifier": "all states, all random streams", "why_tests_cant": "as C19", "anchors": ["src/dd.cpp:measureAll"]}
{"id": "C21", "title": "measureOneCollapsing implements projective measurement", "statement": "For every state of norm 1 and qubit index, the outcome is 0 exactly when the drawn threshold is below the Born probability of 0, and the new state is the renormalised projection; if the norm differs from 1 by more than epsilon an exception is thrown and nothing is modified.", "quantifier": "all states, qubits, thresholds, histories", "why_tests_cant": "as C05 + breadth-first accumulation over shared nodes", "anchors": ["src/dd.cpp:measureOneCollapsing", "src/dd.cpp:determineMeasurementProbabilities"]}
{"id": "C22", "title": "measureOne returns the Born probability of 0", "statement": "measureOne(v,i) = sum over indices with bit i = 0 of |v_j|^2 divided by the total.", "quantifier": "all states and qubits", "why_tests_cant": "as C21", "anchors": ["src/dd.cpp:measureOne", "src/dd.cpp:determineMeasurementProbabilities"]}
{"id": "C23", "title": "Gate matrices are unitary", "statement": "Every constant gate matrix and every parametrised gate matrix, for all angles, is unitary; named gates are mutually inverse or square as documented (S*Sdag=I, T^2=S, SX^2=X, ...).", "quantifier": "all real angles", "why_tests_cant": "continuum of parameters", "anchors": ["include/common.h:Hmat..Vdagmat", "src/dd.cpp:rx..iswap_matrix"]}
{"id": "C24", "title": "SWAP, CX, CSWAP permute basis states", "statement": "SWAP(q,a,b), CX(q,t,c), CSWAP(q,a,b,c) denote the permutation matrices of the documented bit maps, for all sizes and qubits.", "quantifier": "all sizes and qubit choices", "why_tests_cant": "as C03/C07", "anchors": ["src/dd.cpp:makeSwap", "src/dd.cpp:CX", "src/dd.cpp:CSWAP"]}
{"id": "C25", "title": "makeLargeGate builds the operator of a 2^k x 2^k matrix", "statement": "makeLargeGate(q,g,targets) denotes the operator applying g to the listed target qubits (bit i of the matrix index = targets[i]) and rejects matrices that are not square powers of two or do not fit the targets; it never reads out of bounds.", "quantifier": "all matrices, target lists, sizes", "why_tests_cant": "all target permutations and sizes", "anchors": ["src/dd.cpp:makeLargeGate"]}
{"id": "C26", "title": "applyGlobal multiplies by a global phase", "statement": "applyGlobal(x, a) multiplies every amplitude/entry by exp(i a) and changes no probability.", "quantifier": "all handles and angles", "why_tests_cant": "as C05", "anchors": ["qdd/bindings.cpp:applyGlobal"]}
{"id": "C27", "title": "vv_kronecker is the tensor product of states", "statement": "getVector(vv_kronecker(a,b)) at index i*2^nb+j is a_i*b_j.", "quantifier": "all states", "why_tests_cant": "as C06", "anchors": ["src/dd.cpp:vv_kronecker", "src/dd.cpp:vv_kronecker2"]}
{"id": "C28", "title": "mm_kronecker is the tensor product of gates", "statement": "The matrix of mm_kronecker(a,b) at sizes na+nb is the Kronecker product of the matrices of a (na qubits) and b (nb qubits).", "quantifier": "all gate handles and sizes", "why_tests_cant": "as C07", "anchors": ["src/dd.cpp:mm_kronecker", "src/dd.cpp:mm_kronecker2"]}
{"id": "C29", "title": "End-to-end circuit simulation", "statement": "For every circuit (list of controlled one-/two-qubit gates) with garbage collections anywhere, the final getVector equals the product of the ideal gate operators applied to |0..0> (exact at tolerance 0).", "quantifier": "all circuits of any length and width, all gc points, all schedules", "why_tests_cant": "composition over unbounded circuits", "anchors": ["qdd/qdd_backend.py:_evaluate_circuit", "src/dd.cpp"]}
{"id": "C30", "title": "merge_circuit fuses gates without changing the circuit", "statement": "Splitting a circuit into groups, multiplying each group with mm_multiply and applying the groups gives the same final state as gate-by-gate application; the grouping preserves order and loses no gate.", "quantifier": "all circuits and group thresholds", "why_tests_cant": "all circuits", "anchors": ["qdd/qdd_backend.py:merge_circuit"]}
{"id": "C31", "title": "getMPIGate extracts the (row,col) block", "statement": "For every gate of the full system, getMPIGate(root,row,col,W) is the block of the full matrix at block position (row,col) when split in W x W blocks.", "quantifier": "all gates, world sizes, ranks", "why_tests_cant": "all gate shapes, including identity-stripped ones", "anchors": ["src/dd.cpp:getMPIGate"]}
{"id": "C32", "title": "mv_multiply_MPI computes the distributed product", "statement": "For every world size 2^g, every gate and every distributed state, after the ring exchange rank r holds exactly slice r of the product; every message sent is received by the matching rank and the exchange terminates.", "quantifier": "all ranks, world sizes, gates, states, message timings", "why_tests_cant": "all timings and world sizes", "anchors": ["src/dd.cpp:mv_multiply_MPI", "src/dd.cpp:mv_multiply_MPI_bcast3"]}
{"id": "C33", "title": "probabilitiesMPI / getVectorMPI return the full-length distribution", "statement": "When 2^g ranks hold the slices of an n-qubit state, getVectorMPI returns its 2^n amplitudes and probabilitiesMPI its 2^n normalised squared moduli, entry i belonging to basis state i, and the state is left as it was.", "quantifier": "all distributed states", "why_tests_cant": "slices that are zero occur only in some states", "anchors": ["src/dd.cpp:probabilitiesMPI", "qdd/bindings.cpp:_getVectorMPI"]}
{"id": "C34", "title": "measureOneMPI / measureOneCollapsingMPI measure the given qubit of a distributed state", "statement": "For every qubit, local or global, measureOneMPI returns the Born probability of 0; measureOneCollapsingMPI draws 0 iff the threshold is below the weight of 0, and collapse leaves the ranks holding the slices of the projected state with its norm restored, under every interleaving of the ranks.", "quantifier": "all world sizes and qubits", "why_tests_cant": "needs worlds larger than 2", "anchors": ["src/dd.cpp:measureOneCollapsingMPI", "src/dd.cpp:measureOneMPI"]}
{"id": "C35", "title": "Automatic swap insertion keeps the logical circuit", "statement": "Under do_swap_v1/do_swap_v2, for every circuit the physical circuit executed on permuted qubits followed by restore_swap is equivalent to the logical circuit: the maintained map is always a permutation and every gate lands on local qubits.", "quantifier": "all circuits, numbers of local/global qubits", "why_tests_cant": "all gate sequences", "anchors": ["qdd/qdd_backend.py:do_swap_v1", "qdd/qdd_backend.py:do_swap_v2", "qdd/qdd_backend.py:restore_swap"]}
{"id": "C36", "title": "Stable-circuit classification is sound", "statement": "A circuit classified stable (one simulation, many samples) gives the same outcome distribution as re-simulating each shot: no measured qubit is operated on afterwards, and no operation is conditioned or resets.", "quantifier": "all instruction sequences", "why_tests_cant": "all circuits", "anchors": ["qdd/qdd_backend.py:_create_experiment_header", "qdd/qdd_backend.py:_run_experiment"]}
{"id": "C37", "title": "Classical conditions are evaluated on the condition's register", "statement": "A gate conditioned on register == value executes iff the register's bits equal value; a gate conditioned on a bit executes iff the bit equals the value.", "quantifier": "all register layouts and values", "why_tests_cant": "registers at non-zero offset", "anchors": ["qdd/qdd_backend.py:_evaluate_circuit"]}
{"id": "C38", "title": "Sampled bitstrings land in the measured classical bits", "statement": "In the counts, the character for classical bit c is the outcome of the last measurement into c; unmeasured bits read 0.", "quantifier": "all measurement maps and outcomes", "why_tests_cant": "all maps", "anchors": ["qdd/qdd_backend.py:_evaluate_circuit"]}
{"id": "C39", "title": "run() validates shots and reports errors as failed jobs", "statement": "run() accepts exactly 0 < shots <= max_shots (or None for the distribution); every exception becomes a failed job, never a wrong result.", "quantifier": "all option values", "why_tests_cant": "all inputs", "anchors": ["qdd/qdd_backend.py:run", "qdd/qdd_backend.py:_validate"]}
{"id": "C40", "title": "Exact (shots=None) distributions are over the classical bits", "statement": "With shots=None the returned distribution equals the limiting distribution of sampled counts.", "quantifier": "all circuits", "why_tests_cant": "all measurement maps and conditioned circuits", "anchors": ["qdd/qdd_backend.py:_evaluate_circuit"]}
{"id": "C41", "title": "Counts sum to the number of shots", "statement": "For every circuit and shots value the returned counts are positive and sum to shots.", "quantifier": "all outcome sequences", "why_tests_cant": "all streams", "anchors": ["qdd/qdd_backend.py:_evaluate_circuit"]}
{"id": "C42", "title": "Sampler returns results in submission order", "statement": "The i-th quasi distribution returned belongs to the i-th submitted (circuit, parameter) pair, including repeated circuits.", "quantifier": "all submission lists", "why_tests_cant": "all lists with repetitions", "anchors": ["qdd/qdd_sampler.py:_ExperimentManager"]}
{"id": "C43", "title": "Estimator returns the expectation of the submitted observable", "statement": "The i-th value is the expectation of the i-th observable on the i-th circuit with the i-th parameters.", "quantifier": "all submissions and observables", "why_tests_cant": "all groupings", "anchors": ["qdd/qdd_estimator.py"]}
{"id": "C44", "title": "Statevector backend respects the size limit of getVector", "statement": "For every accepted circuit the state vector extraction is defined (no int shift overflow).", "quantifier": "all accepted qubit numbers", "why_tests_cant": "boundary 31..100", "anchors": ["qdd/qdd_sv_backend.py", "src/dd.cpp:getVector"]}
{"id": "C45", "title": "modpow, gcd and inverse_mod are correct", "statement": "modpow(b,e,m) = b^e mod m for 2 <= m <= 2^32 (64-bit wrap modelled); gcd is the greatest common divisor; inverse_mod returns an inverse when it exists.", "quantifier": "all 64-bit inputs", "why_tests_cant": "2^128 inputs", "anchors": ["src/algorithms/shor.cpp", "include/algorithms/shor.hpp"]}
{"id": "C46", "title": "Shor post-processing returns only true factors", "statement": "Whenever post_processing reports success the two numbers are non-trivial factors whose product is n.", "quantifier": "all measured values and n", "why_tests_cant": "all inputs", "anchors": ["src/algorithms/shor.cpp:post_processing"]}
{"id": "C47", "title": "Cache find returns only what was set", "statement": "A find on the add (multiply) cache returns either a miss or exactly a result that was stored on the same thread since the last clear for operands equal (within tolerance; identical pointers) to the query, in either order for addition; clearAll forgets everything; a find directly after a first set of the operands returns the stored result.", "quantifier": "all sequences of set/find/clear, all hash functions, collisions and LFU evictions", "why_tests_cant": "all collision patterns", "anchors": ["include/cache.hpp:AddCache", "include/cache.hpp:MulCache"]}
{"id": "C48", "title": "The allocator never hands out a live node", "statement": "getNode never returns a slot that is registered in the unique table or already handed out, registered nodes are never modified by other threads, equal nodes are never registered twice, and get_allocations never under-reports the slots handed out by the calling thread.", "quantifier": "all sequences of getNode/returnNode/lookup on any threads", "why_tests_cant": "all sequences", "anchors": ["include/table.hpp:getNode", "include/table.hpp:returnNode", "include/table.hpp:get_allocations"]}
{"id": "C49", "title": "prune zeroes exactly the small amplitudes of the given state", "statement": "prune(v,thr) changes only amplitudes whose path weight falls below thr and only in the state passed.", "quantifier": "all states, thresholds and other live handles", "why_tests_cant": "sharing with other handles", "anchors": ["src/dd.cpp:prune"]}
{"id": "C50", "title": "save_binary / load_binary round trip", "statement": "load_binary(save_binary(v)) denotes the same state as v.", "quantifier": "all states", "why_tests_cant": "all root weights", "anchors": ["src/dd.cpp:save_binary", "src/dd.cpp:load_binary"]}
{"id": "C51", "title": "Thread-local caches are race free", "statement": "In the multi-threaded build without a global cache no cache entry is read while another thread writes it.", "quantifier": "all schedules of fibers over threads", "why_tests_cant": "schedules in which a fiber migrates while suspended", "anchors": ["src/dd.cpp:vv_add2", "src/dd.cpp:mv_multiply2"]}
{"id": "C52", "title": "Every schedule terminates", "statement": "Every DD operation finishes after finitely many steps under every schedule; no fiber waits forever on a join.", "quantifier": "all inputs and schedules", "why_tests_cant": "infinite schedules", "anchors": ["src/dd.cpp:vv_add2", "src/dd.cpp:mv_multiply2"]}
{"id": "C53", "title": "Work-stealing deque loses and duplicates no task", "statement": "Under every (sequentially consistent) interleaving of owner push/pop and thieves' steal each pushed task is returned at most once, and a task is returned to someone before the deque reports empty to the owner.", "quantifier": "all interleavings", "why_tests_cant": "all schedules", "anchors": ["include/wsq.hpp"]}
{"id": "C54", "title": "Epoch reclamation never frees a reachable node", "statement": "A retired object is freed only when every thread that could hold a reference has left its critical section (guards not nested).", "quantifier": "all interleavings", "why_tests_cant": "all schedules", "anchors": ["include/epoch.h", "src/epoch.cpp"]}
{"id": "C55", "title": "Norm preservation", "statement": "Applying a unitary (controlled) gate with mv_multiply preserves the squared norm of the state (exact at tolerance 0), so the total probability reported stays 1 along every circuit.", "quantifier": "all circuits of unitary gates", "why_tests_cant": "unbounded circuits", "anchors": ["src/dd.cpp:mv_multiply", "src/dd.cpp:probabilities"]}
{"id": "C56", "title": "Calls leave other handles unchanged", "statement": "No call (operation, collection of the other kind, measurement with or without collapse, probability query) changes what any other live handle reads as: every state and gate the client still holds has the same vector / matrix before and after.", "quantifier": "all reachable clients, all calls, all schedules, all other live handles", "why_tests_cant": "sharing of nodes between handles is arbitrary", "anchors": ["src/dd.cpp", "include/table.hpp:lookup", "include/table.hpp:getNode"]}
{"id": "C57", "title": "measureAllMPI samples the Born distribution of the distributed state", "statement": "measureAllMPI returns the n-character string of a basis state of non-zero amplitude; the set of draws leading to basis state i has probability |v_i|^2/|v|^2; the ranks' slices are left unchanged.", "quantifier": "all distributed states, numbers of ranks, thresholds and draws of every rank", "why_tests_cant": "continuum of draws and all states", "anchors": ["src/dd.cpp:measureAllMPI"]}
{"id": "C58", "title": "The Qiskit backend returns what its circuit loop prescribes, whatever the engine does inside", "statement": "For every circuit of (multi-)controlled one- and two-qubit gates, measurements, resets, barriers and conditions, every number of shots and every sequence of draws, running the shots with the decision-diagram library (from any reachable state of the library, any schedule of its fibers, any collections and cache evictions between calls) yields exactly the strings that the loop yields on ideal state vectors, and no call fails.", "quantifier": "all circuits of the supported kinds, shots, draws, library histories and schedules (exact comparison of weights)", "why_tests_cant": "unbounded histories of the shared library and all schedules", "anchors": ["qdd/qdd_backend.py:_evaluate_circuit", "src/dd.cpp:mv_multiply", "src/dd.cpp:measureAll", "src/dd.cpp:measureOneCollapsing"]}
{"id": "C59", "title": "Qiskit gates act as Qiskit documents them", "statement": "For every supported Qiskit gate class, parameters, number of controls, control state and choice of qubits, running the gate on the backend multiplies the state by the unitary that Qiskit documents for it, and a circuit by the product in order.", "quantifier": "all gate classes, real parameters, control counts and states, qubit choices, circuits", "why_tests_cant": "continuous parameters and all qubit choices", "anchors": ["qdd/qdd_backend.py:_supported_qiskit_gates", "qdd/qdd_backend.py:_evaluate_circuit", "qdd/qdd_gate.py"]}
{"id": "C60", "title": "A collection reclaims everything that was not passed", "statement": "When gc / gc_mat is carried out (forced, or the calling thread's pool reached the threshold), afterwards the table holds exactly the nodes reachable from the handles that were passed: nothing else stays allocated (the number of nodes of a single passed state is get_nNodes of the result), and a handle not passed dangles.", "quantifier": "all reachable library states, handle lists, threads, thresholds", "why_tests_cant": "all heap shapes and histories", "anchors": ["src/dd.cpp:gc", "src/dd.cpp:gc_mat", "src/dd.cpp:vec_to_vNode", "include/table.hpp"]}
{"id": "C61", "title": "merge_circuit returns the operator of the circuit", "statement": "QddBackend.merge_circuit(circuit, gc_freq) returns a gate whose matrix is the product of the circuit's gates in order, times its global phase -- the operator that the backend's own loop applies -- for every collection period, and every other handle of the caller keeps its value.", "quantifier": "all circuits, collection periods, library states, schedules, handles held by the caller", "why_tests_cant": "unbounded circuits and heap histories", "anchors": ["qdd/qdd_backend.py:merge_circuit", "src/dd.cpp:mm_multiply", "src/dd.cpp:gc_mat"]}
{"id": "C62", "title": "The repository's Grover search finds the marked string", "statement": "For every oracle string of n >= 1 characters, the search program (setup, CalculateIterations(n) multiplications by the iteration matrix built from the gate list) ends with a state whose amplitudes are those of the textbook analysis -- (-1)^k sin((2k+1)t) on the marked string, equal amplitudes on the others -- and reading all qubits prints 1 followed by the reversed oracle string with probability at least 1 - 2/2^n and at least 1/2.", "quantifier": "all oracle strings and sizes, all draws, all hash functions, cache contents, collections, builds and schedules", "why_tests_cant": "every oracle of every size; unbounded number of iterations", "anchors": ["test/test_performance.cpp:grover", "test/test_performance.cpp:groverIteration", "test/test_performance.cpp:buildUnitary", "test/test_performance.cpp:CalculateIterations", "src/algorithms/grover.cpp"]}
{"id": "C63", "title": "Rounding loss is an explicit multiple of the tolerance", "statement": "Comparing amplitudes up to the tolerance tau perturbs each result by at most an explicit multiple of tau: every entry of a gate by 2 tau 3^n (B+3/2), of a sum by 2 tau 8^n (B+8), of a product by 2 tau (2^n (a+b) + (22*16^n+1) ab + 1), and the state of a k-gate unitary circuit is within (1 + 180 tau 16^n sqrt(2^n))^k - 1 of the ideal state in the 2-norm.", "quantifier": "all operands (entry bounds a, b, B), sizes n with 2 tau 8^n <= 1, circuits, histories, caches, schedules and tolerances", "why_tests_cant": "the loss accumulates over recursion levels, cached approximate matches and gates; tests see single runs only", "anchors": ["include/dd.h:Complex::TOLERANCE", "src/dd.cpp:makeVEdge", "src/dd.cpp:makeMEdge", "src/dd.cpp:vv_add2", "src/dd.cpp:mv_multiply2", "src/dd.cpp:mm_add2", "src/dd.cpp:mm_multiply2"]}
{"id": "C64", "title": "mv_multiply_MPI_bcast computes the distributed product", "statement": "For every world size 2^g, every gate and every distributed state, after the broadcasts of mv_multiply_MPI_bcast rank r holds exactly slice r of the product, whether or not the MPI library's broadcast synchronises; no rank blocks forever or aborts.", "quantifier": "all ranks, world sizes, gates, states, interleavings of the ranks", "why_tests_cant": "all timings and world sizes", "anchors": ["src/dd.cpp:mv_multiply_MPI_bcast3", "qdd/bindings.cpp:_mv_multiply_MPI_bcast"]}
{"id": "C65", "title": "initMT and terminateMT can be called at any time and in any order", "statement": "initMT(n) starts n-1 worker threads, never accesses the shared list of schedulers out of bounds, returns once every thread is registered, and returns the number of threads in use; terminateMT stops the workers and returns; a program may start and stop the threads as often as it likes (QddBackend does so for every job with n_threads > 1).", "quantifier": "all sequences of calls, thread counts and interleavings of the main thread and the workers", "why_tests_cant": "races between thread start, barrier and notification; histories of calls", "anchors": ["qdd/bindings.cpp:init_mt", "qdd/bindings.cpp:terminate_mt", "src/task.cpp:my_ws::my_ws", "src/task.cpp:Scheduler::spawn", "src/task.cpp:Scheduler::~Scheduler", "qdd/qdd_backend.py:_run_experiment"]}
{"id": "C66", "title": "Rounding errors cannot break the data structure", "statement": "Whatever the rounding of double arithmetic does to amplitudes (round to nearest even, to nearest away, toward zero, any monotone symmetric rounding; gradual underflow; any values of sqrt, cos, sin and of quotients by zero), every in-contract call of every client returns a usable result after finitely many steps under every schedule, and no call, collection, measurement, read-out, save or load ever dereferences an unregistered node, misses a memo entry, reads an empty queue or fails an assertion.", "quantifier": "all rounding functions, all reachable clients, all calls, schedules, draws", "why_tests_cant": "tests run one rounding mode on a few circuits; the code compares rounded values everywhere, so a single unlucky value could leave a dangling or wrong-level child", "anchors": ["src/dd.cpp", "include/dd.h:Complex", "include/cache.hpp", "include/table.hpp"]}
{"id": "C67", "title": "Double arithmetic gives the right amplitudes to a known accuracy", "statement": "Run in double arithmetic (every addition, multiplication and division of amplitudes rounded, comparisons up to the tolerance 2^-42), a circuit of k one- and two-qubit gates on n qubits gives amplitudes -- as getVector returns them -- within K(n,k) (2^-41 + g) of the exact product of unitaries applied to |0...0>, where g bounds the error of the gate entries the client passes and K depends on n and k only: not on the gates, the schedule, hash and cache contents, what other calls and collections happen in between. For the library's own gates g is at most twice the error of sqrt, cos and sin plus the rounding of the half angle. The bound is computable: 1e-6 for 50 gates on 5 qubits, 1e-3 for 100 gates on 10.", "quantifier": "all circuits, angles, rounding functions with a relative and an underflow error, library functions, schedules, cache states, interleaved client activity", "why_tests_cant": "accumulation of rounding, tolerance merging and normalisation over unbounded circuits and every sharing of nodes cannot be sampled", "anchors": ["src/dd.cpp", "include/dd.h:Complex", "src/dd.cpp:normalizeV", "src/dd.cpp:mv_multiply2", "src/dd.cpp:vv_add2", "src/dd.cpp:getVector", "include/common.h"]}
{"id": "C68", "title": "Sampling in double arithmetic follows the quantum distribution to a known accuracy", "statement": "Run in double arithmetic, after a circuit of k one- and two-qubit gates on n qubits: probabilities(e) returns 2^n numbers in [0,1], each within eps of the exact probability |<i|psi>|^2; measureAll, fed with independent uniform draws, returns outcome b exactly when the draws fall in a box of volume within eps of |<b|psi>|^2 (the boxes tile the cube, their volumes add up to 1), never returns an outcome of amplitude 0, and when collapsing leaves the basis state of the outcome; neither changes the state of any handle. eps = K(n,k)(2^-41 + g), K depending on n and k only; for 50 gates on 5 qubits eps <= 1e-5. For any state (not only one made by a circuit) the bounds are relative to |a_i|^2/||a||^2 and depend on n only.", "quantifier": "all circuits, rounding functions with a relative and an underflow error, draws, schedules, contents of caches and of the probability memo, interleaved client activity", "why_tests_cant": "statistical tests see deviations of the order of 1/sqrt(shots) only; the memo is shared by all later measurements of all states, so its error must be controlled for every history", "anchors": ["src/dd.cpp", "src/dd.cpp:probabilities", "src/dd.cpp:assignProbabilities", "src/dd.cpp:measureAll", "include/dd.h:Complex"]}
{"id": "C69", "title": "Measuring one qubit in double arithmetic: right odds, right state, no spurious exception", "statement": "Run in double arithmetic, after a circuit of k one- and two-qubit gates on n qubits with error bound err(n,k) <= 1/10: measureOne and measureOneCollapsing do not throw when their epsilon exceeds err (the default 0.001 does for 50 gates on 5 qubits, where err <= 1e-5); measureOne returns a number in [0,1] within err of the exact probability P(0) that the qubit reads 0; measureOneCollapsing reads 0 exactly when its draw is below a number within err of P(0), and leaves a vector within err'/Q, in 2-norm, of the exact state projected on the outcome and renormalised, Q being the exact probability of the outcome (Q >= err). No other handle changes. For a state not made by a circuit the same holds with |a|^2 within 1/4 of 1.", "quantifier": "all circuits, qubits, draws, epsilons, rounding functions with a relative and an underflow error, schedules, contents of caches and of the probability memo, interleaved client activity", "why_tests_cant": "the sums run over the whole diagram through two hash maps keyed by node; errors add up over exponentially many paths, and the collapse divides by a rounded probability", "anchors": ["src/dd.cpp", "src/dd.cpp:determineMeasurementProbabilities", "src/dd.cpp:measureOne", "src/dd.cpp:measureOneCollapsing", "include/dd.h:measureOne"]}
{"id": "C70", "title": "A Qiskit job in double arithmetic returns samples of the circuit's distribution to a known accuracy", "statement": "Run in double arithmetic, a backend job of z shots succeeds and the joint distribution of the z returned strings is within z*eps (for every event) of the distribution prescribed by the circuit, for both ways the backend works: re-simulating every shot (measurements, resets, conditions in mid-circuit), and simulating once and sampling (all measurements final), including the global phase, the collections between instructions and the shared probability memo. With shots=None/0 the returned probabilities and the statevector are within an explicit error of the exact ones. eps = K (2^-41 + g) with K depending on the circuit's shape only; in doubles, for 50 gates on 5 qubits sampled at the end, eps <= 1/2000.", "quantifier": "all circuits of one- and two-qubit gates with any controls, measurements, resets, barriers, conditions; all shots; rounding functions with a relative and an underflow error; schedules, histories of the library, interleaved client activity", "why_tests_cant": "statistical tests see deviations of the order of 1/sqrt(shots) only; the chance of a branch that is almost impossible is divided out by the collapse, so errors have to be controlled for every branch of every circuit", "anchors": ["qdd/qdd_backend.py:_evaluate_circuit", "src/dd.cpp:measureAll", "src/dd.cpp:measureOneCollapsing", "src/dd.cpp:mv_multiply", "qdd/bindings.cpp:applyGlobal"]}
{"id": "C71", "title": "Gates fused into one matrix in double arithmetic: matrix sums, products, swaps and collections are accurate", "statement": "Run in double arithmetic on the thread that calls them, mm_add, mm_multiply and makeSwap always return, keep every vector and matrix of the client, and return the sum, the product and the exchange of two qubits within explicit errors. A product of gates built by repeated mm_multiply, with other calls, measurements, evictions and collections of vectors and matrices in between (gc_mat keeps its first matrix exactly and the others within the tolerance), is entrywise within emat of the product of the exact unitaries, and a state to which gates and fused matrices are applied is within emerge of the ideal state of all the gates, and reads back so; the errors are at most K (2^-41 + g) with K depending on the sizes only. In doubles: H and CX fused, collected, applied and read on 2 qubits within 2^-29; ten pairs of gates on 5 qubits within 10^-5; makeSwap on 10 qubits within 10^-3.", "quantifier": "all matrices and circuits of one- and two-qubit gates with any controls, all groupings, rounding functions with a relative and an underflow error, histories of the library, interleaved client activity, cache and hash configurations", "why_tests_cant": "matrix operations return early on identity matrices, so rounding decides which path is taken and errors depend on cached results of other calls; tests with a few gates never see it", "anchors": ["src/dd.cpp:mm_add", "src/dd.cpp:mm_multiply", "src/dd.cpp:makeSwap", "src/dd.cpp:gc_mat", "qdd/qdd_backend.py:merge_circuit"]}
{"id": "C72", "title": "The work-stealing scheduler runs every task once, on one thread, in order", "statement": "With threads started by initMT(n), n > 1, every fiber (task) is at any time in exactly one place: waiting in one queue, running on one thread, blocked or ended; the main and dispatcher contexts never leave their thread; no queue is accessed out of bounds, no null context is resumed. A thread with ready fibers of its own runs them in the order they became ready, so a ready fiber with p before it runs after at most p+1 calls of pick_next of its thread. A thread without runs the front fiber of a randomly drawn other thread unless that is pinned; pick_next stops looking at the latest with the first other thread drawn after n-1 draws, i.e. it is still looking after n-1+m draws with probability at most n^-m.", "quantifier": "all numbers of threads, histories of fibers created, woken, blocked, yielding and ended, interleavings and outcomes of the random draws", "why_tests_cant": "all interleavings and all outcomes of the draws", "anchors": ["src/task.cpp:my_ws::pick_next", "src/task.cpp:my_ws::awakened", "include/task.h:my_ws::steal"]}
{"id": "C73", "title": "Printed vectors, sparse listings and drawings show the state", "statement": "For every live handle: printVector prints the amplitudes in the order of their indices (the number 0 for the zero vector); printVectorMPI prints the amplitudes of the distributed vector rank after rank, with one line (all 0) for a rank whose slice is the terminal; printVector_sparse prints exactly the indices whose amplitude has modulus above its threshold 0.001, with that amplitude, in increasing order; getEigenVector, getEigenMatrix and printMatrix show the arrays of getVector and getMatrix. genDot of a vector or a matrix draws every node reached from the root exactly once and no other, and one edge per child (in a matrix: per child that is not approximately zero); multiplying the weights along the arrows picked by the bits of an index, with the weight on the terminal line, gives back every amplitude or entry; the number of nodes it reports for a vector is the one get_nNodes returns.", "quantifier": "all clients, handles, sizes, states, thresholds, distributed worlds", "why_tests_cant": "the recursion shares nodes and skips levels and zero children; which nodes are drawn and whether the picture determines the state depend on the diagram", "anchors": ["src/dd.cpp:vEdge::printVector", "src/dd.cpp:vEdge::printVectorMPI", "src/dd.cpp:vEdge::printVector_sparse", "src/dd.cpp:mEdge::printMatrix", "src/dd.cpp:genDot", "src/dd.cpp:genDot2", "src/dd.cpp:vEdge::getEigenVector", "src/dd.cpp:mEdge::getEigenMatrix", "qdd/bindings.cpp"]}
{"id": "C74", "title": "A fixed seed makes sampling reproducible", "statement": "QddSampler and QddEstimator document seed and seed_simulator (and QddBackend the option seed_simulator) as setting a fixed seed for the sampling: running the same circuit with the same seed, number of shots and options gives the same result.  The seed of run() takes precedence over that of the backend.", "quantifier": "all circuits, shot counts, seeds, ways to give them, and states of the process's random generator", "why_tests_cant": "a test sees one state of the generator; whether the seed reaches it is a property of all runs", "anchors": ["qdd/qdd_sampler.py:QddSampler._call", "qdd/qdd_estimator.py:QddEstimator._call", "qdd/qdd_backend.py:QddBackend._run_internal,_evaluate_circuit", "qdd/bindings.cpp:mt"]}
{"id": "C75", "title": "The Estimator's reported variance is the variance of its value", "statement": "The variance in the metadata of an Estimator result is the variance per shot of the returned value: the value is the mean over the shots, and variance / shots is the square of its standard error.", "quantifier": "all circuits, observables, groupings of their terms and sampled outcomes", "why_tests_cant": "correct on average for single terms; wrong for terms measured together, whose outcomes are correlated", "anchors": ["qdd/qdd_estimator.py:_PostProcessing.run,_pauli_expval_with_variance"]}
{"id": "C76", "title": "Expectation values in double arithmetic", "statement": "Run in double arithmetic, the circuit of an experiment of the Estimator (the circuit, its change of basis, measurements), sampled z times, gives for every Pauli that the basis measures a value whose expectation is within eps of <psi|P|psi>, however many shots are taken; the chance that the value itself is off by delta or more is at most (1 - <P>^2) / (z delta^2) + z eps. An observable sum c_i P_i is estimated within eps times the sum of |c_i|. In approximation mode (shots=None) the value computed from the probabilities is within an explicit error. eps depends on the number of qubits and gates and on the accuracy of the arithmetic only: below 2^-23 for the Bell state measured in XX, below 1/2000 for 50 gates on 5 qubits.", "quantifier": "all circuits of library gates, bases, Paulis, shot counts, schedules, cache contents, collections between shots; all arithmetics with the stated accuracy", "why_tests_cant": "sampled values carry statistical noise; the error of the arithmetic is below it in any test and its growth with the number of shots cannot be seen", "anchors": ["qdd/qdd_estimator.py:_pauli_expval_with_variance,_pauli_expval_with_variance_from_dist,_PostProcessing.run", "qdd/qdd_backend.py:QddBackend._evaluate_circuit", "src/dd.cpp:measureAll,probabilities"]}
{"id": "C77", "title": "Counts and quasi-distributions in double arithmetic", "statement": "Run in double arithmetic, the share of the shots that give an outcome -- counts divided by shots, what the Sampler returns as quasi-distribution -- expects to be within eps of the probability p of that outcome, however many shots are taken, and is off by delta or more with a chance of at most p (1 - p) / (z delta^2) + z eps, when the circuit is simulated once and sampled; when every shot is re-simulated the expected share is within z eps. Probabilities returned for shots=None are within an explicit error. eps depends on the circuit and the accuracy of the arithmetic only.", "quantifier": "all supported circuits of library gates, outcomes, shot counts, schedules, cache contents, collections between shots; all arithmetics with the stated accuracy", "why_tests_cant": "statistical noise hides the error of the arithmetic in any test", "anchors": ["qdd/qdd_sampler.py:QddSampler._call", "qdd/qdd_backend.py:QddBackend._evaluate_circuit", "src/dd.cpp:measureAll,measureOneCollapsing,probabilities"]}
