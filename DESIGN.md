# Formal model of Fujitsu-UTokyo-QDD/QDD in Coq 8.16.1

Sources: `/repo` (C++ decision-diagram engine, MPI layer, Python/Qiskit layer).  Everything is under
`rocq/theories`; each definition of a model file cites the lines of `/repo` it models and says where it
simplifies.  Proof files (suffix `P`, `Q`, `X`, ... or listed below) contain no new model of code.

## 1. The model

### 1.1 Engine (src/dd.cpp, include/*.hpp)

| file | models | remarks |
|---|---|---|
| `Num.v`, `RNum.v` | arithmetic | The model is written once over `NumOps`.  Theorems use `RNum tau`: doubles are replaced by real numbers, `Complex::TOLERANCE` stays as the parameter `tau`. |
| `State.v` | unique tables, allocator pools, free lists, operation caches, probability memo | Pointers are `Null / Term / Node address`.  All hash functions, bucket counts and thread counts are arbitrary parameters (`Cfg`).  Null or dangling dereference, failed `assert`, index out of range and over-wide shifts are the failing outcome `Wrong`/`None`.  After a collection addresses restart at 1, so stale pointers are *reused*, the worst case. |
| `DD.v` | makeM/VEdge, normalisation, add, multiply, Kronecker, as programs (`comp`) over atomic memory actions | `run` is the sequential build; `step` lets any forked fiber take the next action on any thread (multi-threaded build). |
| `Gates.v`, `Large.v` | gate tables, makeGate, makeTwoQubitGate, named gates, makeLargeGate | |
| `GC.v`, `Prune.v` | gc, gc_mat, serialisation, get_nNodes, prune | |
| `Measure.v` | getVector/getMatrix, probabilities, measureAll, measureOne(Collapsing) | random draws are arguments |
| `Api.v` | the client: a library state and the handles it holds; `reachable` = any finite sequence of in-contract calls, collections, threshold changes and evictions | |
| `Alloc.v` | the allocator and table at the level of single memory actions | justifies treating `lookup` (intern) as one atomic action |
| `Async.v`, `Wsq.v`, `Epoch.v`, `Race.v` | fibers, work-stealing deque, epoch reclamation, thread-local caches | |
| `Sched.v` | initMT/terminateMT, the threads of the Scheduler, registration and barrier of my_ws | interleaving of main thread and workers |
| `Print.v` | printVector, printVectorMPI, printVector_sparse, printMatrix, genDot, getEigenVector/Matrix | lines and drawings as lists; text formatting abstracted |
| `Seeds.v` | seed options of sampler, estimator and backend; the process-wide generator | generator = the numbers it will produce; jobs one after the other |
| `EstVar.v` | variance in the Estimator's metadata | np.real_if_close left out; specification in `EstVarS.v` |
| `Steal.v` | my_ws::awakened, pick_next, steal: which fiber a thread runs | Boost queues and scheduler calls as assumed |
| `MPI.v`, `MPIB.v`, `MPIM.v` | getMPIGate, the ring and broadcast products (mv_multiply_MPI, _bcast3), distributed measurement; machines `Async.v`, `Coll.v` | org/new/bcast/bcast2 (dead code) |
| `Shor.v`, `Grover.v` | classical part of Shor, Grover search of test_performance.cpp | |

### 1.2 Python layer (qdd/*.py, qdd/bindings.cpp)

| file | models |
|---|---|
| `Backend.v` | QddBackend: options, run, headers, classification, the circuit loop, counts |
| `Qiskit.v` | the gate tables: class and parameters to matrix, controls, QDDGate |
| `Merge.v` | merge_circuit |
| `Swap.v` | do_swap_v1 / v2, restore_swap, the qubit map |
| `Sampler.v`, `Estimator.v` | QddSampler, QddEstimator |

`BackLink.v` proves that the ideal effects used by `Backend.v` for gates, measurement and reset are those of the
engine (C58).

### 1.3 Specification

`Spec.v` (vectors, matrices, gates by index arithmetic, Born rule; no reference to the model), `BackSpec.v` (ideal
circuit distributions), the first parts of `PauliP.v`, `QiskitP.v` (documented Qiskit matrices) and `Prog.v` (meaning
of client programs).  Theorem statements use this vocabulary and `reads_v` / `reads_m`, which say what getVector /
getMatrix return for a handle.

## 2. Proof method

One invariant `Inv` over the library state (tables well formed, normalised, unique; cache entries sound; memo sound) and a
rely/guarantee weakest precondition `wpr` over `comp`, sound for `run` and for every schedule of `step`.  Each API
operation is proved once against `wpr`; `reachable` clients satisfy `Inv`, so the property theorems do not mention it.
Whole programs are treated by refinement (`Prog.v`: `exec_refines`, `exec_exists`).  The Python layer is modelled as
functions returning trees of random draws (`Flip`) with exceptions as outcomes.

Positive tolerance: theorems on single calls, circuits and collections hold for every `0 <= tau < 1/2` with an explicit
error bound that is 0 at `tau = 0` and has a closed form linear in `tau` (`ErrLin.v`, C63).  The matrix caches are keyed by node pairs and
reused across levels the nodes do not mention.  At `tau = 0` that is sound because equal matrices have equal diagrams
(C11), under every schedule (`MM.v`, `MM2.v`).  At `tau > 0` canonicity fails; mm_add, mm_multiply and SWAP are then
proved for execution on one thread (`run_on`, `MMTol.v`, `MMTol2.v`; the code creates no fibers in them): on an identity
level the second diagonal block is the same recursive call as the first and finds its (possibly rounded) cached result,
so the level is stripped.  Merging, programs and MPI are proved at `tau = 0`.

Where the code does not satisfy the natural property, the full statement stays in `properties.jsonl`, a `_refuted`
theorem exhibits reachable states on which it fails, and a `_partial` theorem proves what does hold.

## 3. Properties

Status and exact theorem names are in `MANIFEST.json`.

| id | property | status | method |
|----|----|----|----|
| C01 | makeZeroState prepares |0...0> | proved | wpr proof over Inv |
| C02 | makeOneState prepares |1...1> | proved | wpr proof over Inv |
| C03 | makeGate builds the controlled one-qubit operator | proved | induction on levels of makeGate; wpr |
| C04 | makeTwoQubitGate builds the controlled two-qubit operator | proved | as C03 |
| C05 | mv_multiply is matrix-vector multiplication | proved | wpr induction on current_var with error bound |
| C06 | vv_add is vector addition | proved | as C05 |
| C07 | mm_multiply is matrix multiplication | proved | tau=0: canonicity shows a cached product is valid at every level; tau>0: induction on levels over one-thread runs with a frame condition on the product cache |
| C08 | mm_add is matrix addition | proved | as C07 |
| C09 | Multi-threaded execution is safe and schedule independent | proved | soundness of wpr for all schedules + refinement of whole programs (Prog.v) |
| C10 | Operation caches are transparent | proved | as C09 |
| C11 | Canonicity: equal states get equal handles | proved | induction on levels from Inv |
| C12 | Normalisation: root weight is the largest amplitude | proved | from normalisation in Inv |
| C13 | gc preserves the states passed to it | proved | serialisation lemmas (GC.v to_vec/from_vec) |
| C14 | gc_mat preserves the gates passed to it | proved | as C13 |
| C15 | Memory safety of in-contract programs | proved | wpr excludes the failing outcome |
| C16 | Serialisation round trip | proved | as C13 |
| C17 | get_nNodes counts the nodes of the diagram | proved | counting lemma on to_vec |
| C18 | probabilities returns |amplitude|^2 normalised | proved | memo soundness |
| C19 | measureAll samples the Born distribution | proved | intervals of draws; product of conditionals |
| C20 | measureAll collapse | proved | as C19 |
| C21 | measureOneCollapsing implements projective measurement | proved | projection theorem |
| C22 | measureOne returns the Born probability of 0 | proved | as C21 |
| C23 | Gate matrices are unitary | proved | trigonometry over R |
| C24 | SWAP, CX, CSWAP permute basis states | proved | composition of C03, C07 |
| C25 | makeLargeGate builds the operator of a 2^k x 2^k matrix | partial | refutation + partial |
| C26 | applyGlobal multiplies by a global phase | proved | weight algebra |
| C27 | vv_kronecker is the tensor product of states | proved | induction on levels |
| C28 | mm_kronecker is the tensor product of gates | partial | refutation + partial |
| C29 | End-to-end circuit simulation | proved | induction on the circuit, 2-norm error |
| C30 | merge_circuit fuses gates without changing the circuit | proved | as C29 |
| C31 | getMPIGate extracts the (row,col) block | partial | refutation + partial |
| C32 | mv_multiply_MPI computes the distributed product | partial | interleaving model of the ring, invariant over rounds |
| C33 | probabilitiesMPI / getVectorMPI return the full-length distribution | partial | refutation + partial |
| C34 | measureOneMPI / measureOneCollapsingMPI measure the given qubit of a distributed state | partial | refutation + partial |
| C35 | Automatic swap insertion keeps the logical circuit | partial | simulation between swapped and logical runs |
| C36 | Stable-circuit classification is sound | partial | distributions as trees of draws |
| C37 | Classical conditions are evaluated on the condition's register | partial | refutation + partial |
| C38 | Sampled bitstrings land in the measured classical bits | proved | invariant on the loop |
| C39 | run() validates shots and reports errors as failed jobs | partial | case analysis of the validation code |
| C40 | Exact (shots=None) distributions are over the classical bits | partial | refutation + partial |
| C41 | Counts sum to the number of shots | proved | counting |
| C42 | Sampler returns results in submission order | partial | invariant over histories of submissions |
| C43 | Estimator returns the expectation of the submitted observable | partial | Pauli algebra + refutations |
| C44 | Statevector backend respects the size limit of getVector | partial | arithmetic + refutation |
| C45 | modpow, gcd and inverse_mod are correct | proved | 64-bit arithmetic |
| C46 | Shor post-processing returns only true factors | proved | gcd algebra |
| C47 | Cache find returns only what was set | proved | history invariant of the cache |
| C48 | The allocator never hands out a live node | proved | allocator state machine |
| C49 | prune zeroes exactly the small amplitudes of the given state | partial | refutation + partial |
| C50 | save_binary / load_binary round trip | partial | refutation + partial |
| C51 | Thread-local caches are race free | partial | interleaving model; refutation + partial |
| C52 | Every schedule terminates | proved | well-founded measure on steps |
| C53 | Work-stealing deque loses and duplicates no task | proved | interleaving invariant |
| C54 | Epoch reclamation never frees a reachable node | proved | interleaving invariant |
| C55 | Norm preservation | proved | unitarity |
| C56 | Calls leave other handles unchanged | proved | frame part of wpr |
| C57 | measureAllMPI samples the Born distribution of the distributed state | partial | as C19 over ranks |
| C58 | The Qiskit backend returns what its circuit loop prescribes, whatever the engine does inside | proved | refinement Backend loop -> engine |
| C59 | Qiskit gates act as Qiskit documents them | partial | per-class matrix computation + circuit induction |
| C60 | A collection reclaims everything that was not passed | proved | reachability = reload table |
| C61 | merge_circuit returns the operator of the circuit | partial | loop invariant + refutations |
| C62 | The repository's Grover search finds the marked string | proved | linear algebra of the gate lists, induction on iterations, trigonometric bound |
| C63 | Rounding loss is an explicit multiple of the tolerance | proved | closed forms of the error recursions |
| C64 | mv_multiply_MPI_bcast computes the distributed product | partial | broadcast machine (Coll.v), annotations per block; refutation + partial |
| C65 | initMT and terminateMT can be called at any time and in any order | partial | interleaving model of main thread and workers, inductive invariant; measure for termination; progress; refutations |
| C66 | Rounding errors cannot break the data structure | proved | structural invariant over an abstract arithmetic, the rely-guarantee calculus again without amplitudes; instances for rounded reals and Flocq binary64 |
| C67 | Double arithmetic gives the right amplitudes to a known accuracy | proved | error recursions per operation over the abstract error laws, induction on the circuit; rational evaluation of the bounds |
| C68 | Sampling in double arithmetic follows the quantum distribution to a known accuracy | proved | relative errors of the memoised norms along the paths, threshold boxes; distance of normalised vectors |
| C69 | Measuring one qubit in double arithmetic: right odds, right state, no spurious exception | proved | error of the level-by-level sums of determineMeasurementProbabilities by induction on the queue, then quotient, square root and one gate |
| C70 | A Qiskit job in double arithmetic returns samples of the circuit's distribution to a known accuracy | proved | relational execution of the job in rounded arithmetic; total-variation induction over instructions and shots on top of C67-C69 |
| C71 | Gates fused into one matrix in double arithmetic: matrix sums, products, swaps and collections are accurate | proved | error recursion for the identity shortcuts of mm_add2 and mm_multiply2 by induction on levels, then induction on the client relation with unitarity |
| C72 | The work-stealing scheduler runs every task once, on one thread, in order | proved | interleaving model of the ready queues; counting invariant on places; counting of draw sequences |
| C73 | Printed vectors, sparse listings and drawings show the state | proved | simulation of the printing loops against the denotation; invariant of the drawing recursion (which nodes and edges are drawn) |
| C74 | A fixed seed makes sampling reproducible | partial | refutation; characterisation by expectation trees (certain outcome iff every run has it) |
| C75 | The Estimator's reported variance is the variance of its value | partial | sample moments and expectation trees; refutation |
| C76 | Expectation values in double arithmetic | proved | induction on the shots over C68, C70; composition with C43; Chebyshev |
| C77 | Counts and quasi-distributions in double arithmetic | proved | as C76, composition with C42 |

Each theorem family has a concrete reachable instance meeting its hypotheses (`Examples.v`, `*X.v` files and the
`_example` theorems).  `seeded/LOG.jsonl` records the wrong programs the theorems were tested against.

## 4. Trusted base

Coq's kernel (8.16.1) and the reading of the code into the model.  No axioms are declared; `Print Assumptions` lists
only the following standard-library axioms:

* **no axiom (closed under the global context)** (51 theorems): all other theorems of MANIFEST.json
* **ClassicalDedekindReals.sig_forall_dec** (4 theorems): C32_two_ranks, C59_qddgate_partial, C64_two_ranks, selects_unique
* **ClassicalDedekindReals.sig_forall_dec, FunctionalExtensionality.functional_extensionality_dep** (16 theorems): C35_v1_local, C35_v2_local, C42_frequencies, C59_qddgate_refuted, C66_rounded_calls_safe, C66_rounded_seq_calls_safe, C66_rounded_collections_safe, C66_rounded_measurement_safe, C66_rounded_readout_safe, C66_rounded_mm_kronecker_safe, weight_sum, C75_gap, C75_iff, C75_alone_partial, C75_ungrouped_partial, quasi_share
* **ClassicalDedekindReals.sig_forall_dec, ClassicalDedekindReals.sig_not_dec, FunctionalExtensionality.functional_extensionality_dep** (237 theorems): all other theorems of MANIFEST.json
* **ClassicalDedekindReals.sig_forall_dec, ClassicalDedekindReals.sig_not_dec, Classical_Prop.classic, FunctionalExtensionality.functional_extensionality_dep** (28 theorems): C58_same_counts, C58_runs, C62_grover, C62_search_succeeds, C66_binary64, C67_binary64_circuit, C67_rotation_gates, C68_binary64_circuit, C69_binary64_circuit, sqrt_ok64, C70_resimulated_runs, C70_sampled, C70_sampled_runs, C70_rounded, C70_binary64_resimulated, C70_binary64_sampled, C71_binary64_merged, C71_binary64_swap, fsamples_total, C76_value, C76_concentrates, C76_runs, C76_observable, C76_binary64, C77_sampled, C77_binary64, mean_close, mean_concentrates

(The three axioms other than `classic` are those of the standard library's real numbers; proofs using only `lra`,
integers or lists are closed.)  `Require`-ing Coquelicot, mathcomp's ssreflect and the reals also loads, without any
theorem depending on them, the opaque module fields that `vcheck` lists (`Rdefinitions.RbaseSymbolsImpl.*`,
`RinvImpl.*`, `ssrunder.Under_rel.*`).

## 5. What is not modelled

* Overflow, NaN, signed zeros, FMA contraction: nowhere modelled.  Rounding: theorems are over the reals except C66 (safety under any rounding, SafeF.v) and C67 (accuracy under rounding, FpF.v; binary64 through Flocq's FLT format without an upper exponent bound; C68, C69, C70 and C71 (probabilities, measureAll, measureOne, backend jobs, matrix operations under rounding); mm_add, mm_multiply and makeSwap under rounding on the calling thread only, steps of the client in C67-C71).  `LIMIT` of vv_add is an arbitrary integer.
* C++ memory model below single table, cache and deque actions: sequentially consistent interleavings in `Wsq`,
  `Epoch`, `Race`, `Async`; fences and relaxed orders are ignored; the set of threads in `Epoch` is fixed.
* Intern (`lookup`) is one atomic action in `DD.v` (justified by `Alloc.v`); collections and measurements are sequential
  calls on one thread, as the code requires.
* `int` counters do not wrap (GC_SIZE arithmetic, node counts); allocation never fails.
* MPI: send/receive are FIFO channels (eager or rendezvous); collectives are functions over the ranks; boost archives and
  files are the identity on their content.  mv_multiply_MPI_org/_new/_bcast/_bcast2 (called by nothing) are not modelled.
* Printing and drawing (`Print.v`): the text of numbers, addresses and lines (std::ostream) is not modelled, only what is printed in which order; dumping tables (`dump`) is not.
* Numbers: amplitudes are exact reals compared up to a tolerance in the theorems about amplitudes other than C67 (amplitudes), C68
  (probabilities, sampling) , C69 (one qubit), C70 (backend jobs, FpBack*.v), C76, C77 (expectation values, relative frequencies, FpEst.v, FpFreq.v) and C71 (matrix sums and products, makeSwap, fused gates, FpMM*.v), which are over rounded arithmetic with error laws (class `Accur`, `FpA.v`; instances in `FpF.v`). C66 (memory safety, termination) is
  proved over an abstract arithmetic (class `Arith`, `SafeA.v`: laws about exact zeros, one, comparisons and sums of squares), which every
  monotone symmetric idempotent rounding satisfies (`FNum`, `SafeF.v`), in particular Flocq's binary64 rounding to nearest even. Not modelled:
  overflow to infinity, NaN, the sign of zero, x87 excess precision and fused multiply-add.
* The threads of the Scheduler (start, registration, barrier, stop) are modelled in `Sched.v`; which fiber a thread runs (`my_ws::pick_next`, stealing)
  in `Steal.v`; both are arbitrary schedules everywhere else; CPU affinity is not modelled.
* Python: Qiskit and numpy are not modelled; the parts of Qiskit that the code calls (transpile, assign_parameters, group_commuting,
  circuit keys) are parameters with the stated assumptions; job threads (QddJob evaluates in submit); time stamps, metadata other than the Estimator's variance (EstVar.v);
  Sampler/Estimator approximation noise; `Estimator(approximation=True)` without run_options (raises TypeError in `__init__`); a user register named like the
  one measure_all adds.  Qiskit's documented gate matrices are transcribed by hand.
* UnitaryGate: makeLargeGate reads out of bounds for three or more targets (C25_refuted), so circuits with UnitaryGate are
  excluded from C58; GC frequency 0 in merge_circuit (ZeroDivisionError) is excluded.
* Swap.v takes the MPI calls with their ideal effect; Python sets are iterated in an arbitrary order (any choice function).
* Grover: the real number floor(pi/4 * 2^(n/2)) instead of the long double computation; src/algorithms/grover.cpp has the
  same gate lists but calls Scheduler members that do not exist at this commit.
* Shor: only the classical part (modpow, gcd, inverse, continued fractions and post-processing); the quantum circuit of
  src/algorithms/shor.cpp does not compile against this commit's Scheduler.
