{
 "claims": [
  {
   "property": "C01",
   "status": "proved",
   "theorems": [
    "C01_makeZeroState"
   ],
   "note": "every reachable client, every tolerance in [0,1/2), every schedule"
  },
  {
   "property": "C02",
   "status": "proved",
   "theorems": [
    "C02_makeOneState"
   ],
   "note": ""
  },
  {
   "property": "C03",
   "status": "proved",
   "theorems": [
    "C03_makeGate",
    "C03_makeGate_python",
    "C03_makeGate_by_name",
    "C03_makeIdent"
   ],
   "note": "bound egate (0 at tolerance 0)"
  },
  {
   "property": "C04",
   "status": "proved",
   "theorems": [
    "C04_makeTwoQubitGate"
   ],
   "note": "bound egate (0 at tolerance 0)"
  },
  {
   "property": "C05",
   "status": "proved",
   "theorems": [
    "C05_mv_multiply"
   ],
   "note": "bound emv (0 at tolerance 0)"
  },
  {
   "property": "C06",
   "status": "proved",
   "theorems": [
    "C06_vv_add"
   ],
   "note": "bound eadd (0 at tolerance 0)"
  },
  {
   "property": "C07",
   "status": "proved",
   "theorems": [
    "C07_mm_multiply_on",
    "C07_mm_multiply",
    "C56_frame_on"
   ],
   "note": "every tolerance, executed on any one thread (mm_multiply creates no fiber), within emm of the exact product; at tolerance 0 exact and also interleaved with other fibers (C07_mm_multiply)"
  },
  {
   "property": "C08",
   "status": "proved",
   "theorems": [
    "C08_mm_add_on",
    "C08_mm_add",
    "C56_frame_on"
   ],
   "note": "as C07, error eaddm"
  },
  {
   "property": "C09",
   "status": "proved",
   "theorems": [
    "C09_C10_executions_agree",
    "C09_C10_mv_multiply",
    "C09_C10_vv_add",
    "C15_calls_safe"
   ],
   "note": "whole programs at tolerance 0; single calls within twice the bound at positive tolerance"
  },
  {
   "property": "C10",
   "status": "proved",
   "theorems": [
    "C09_C10_executions_agree",
    "C09_C10_mv_multiply",
    "C09_C10_vv_add"
   ],
   "note": "reachable clients include arbitrary eviction (astep a_evict)"
  },
  {
   "property": "C11",
   "status": "proved",
   "theorems": [
    "C11_canonical_v",
    "C11_canonical_m",
    "C11_no_duplicate_nodes"
   ],
   "note": "tolerance 0 (the statement's hypothesis)"
  },
  {
   "property": "C12",
   "status": "proved",
   "theorems": [
    "C12_root_weight_max_v",
    "C12_root_weight_max_m"
   ],
   "note": ""
  },
  {
   "property": "C13",
   "status": "proved",
   "theorems": [
    "C13_gc"
   ],
   "note": "first handle exact; further handles up to gc_slack at positive tolerance (lookup merges nodes within the tolerance), exact at 0"
  },
  {
   "property": "C14",
   "status": "proved",
   "theorems": [
    "C14_gc_mat"
   ],
   "note": "as C13"
  },
  {
   "property": "C15",
   "status": "proved",
   "theorems": [
    "C15_calls_safe",
    "C15_seq_calls_safe",
    "C15_readout_safe",
    "C13_gc",
    "C14_gc_mat",
    "C18_probabilities",
    "C19_C20_measureAll",
    "C21_measureOneCollapsing",
    "C22_measureOne"
   ],
   "note": "mm_add / mm_multiply / SWAP: at every tolerance on one thread (C15_seq_calls_safe), at tolerance 0 under every schedule"
  },
  {
   "property": "C16",
   "status": "proved",
   "theorems": [
    "C16_roundtrip_v",
    "C16_roundtrip_m"
   ],
   "note": "up to 2 n tau at positive tolerance, exact at 0"
  },
  {
   "property": "C17",
   "status": "proved",
   "theorems": [
    "C17_get_nNodes"
   ],
   "note": ""
  },
  {
   "property": "C18",
   "status": "proved",
   "theorems": [
    "C18_probabilities"
   ],
   "note": ""
  },
  {
   "property": "C19",
   "status": "proved",
   "theorems": [
    "C19_C20_measureAll",
    "C19_born_rule"
   ],
   "note": ""
  },
  {
   "property": "C20",
   "status": "proved",
   "theorems": [
    "C19_C20_measureAll"
   ],
   "note": ""
  },
  {
   "property": "C21",
   "status": "proved",
   "theorems": [
    "C21_measureOneCollapsing",
    "C21_rejects_unnormalised"
   ],
   "note": ""
  },
  {
   "property": "C22",
   "status": "proved",
   "theorems": [
    "C22_measureOne"
   ],
   "note": ""
  },
  {
   "property": "C23",
   "status": "proved",
   "theorems": [
    "C23_constant_gates_unitary",
    "C23_constant_relations",
    "C23_constant_values",
    "C23_rotation_gates_unitary",
    "C23_rotation_values",
    "C23_rotations_compose",
    "C23_names",
    "C23_named_unitary",
    "C23_unknown_name_refuted"
   ],
   "note": "finding: an unknown name yields the zero matrix"
  },
  {
   "property": "C24",
   "status": "proved",
   "theorems": [
    "C24_CX",
    "C24_CSWAP",
    "C24_SWAP_on",
    "C24_SWAP"
   ],
   "note": "SWAP (a product of three CX): every tolerance on one thread with error eswap; at tolerance 0 also under every schedule"
  },
  {
   "property": "C25",
   "status": "partial",
   "theorems": [
    "C25_makeLargeGate_partial",
    "C25_refuted",
    "C25_checks",
    "C25_argument_preserved",
    "C25_argument_overwritten"
   ],
   "note": "full property refuted: the code reads past the end of its target list for three or more targets; partial theorem assumes those reads succeed (any value)"
  },
  {
   "property": "C26",
   "status": "proved",
   "theorems": [
    "C26_applyGlobal_v",
    "C26_applyGlobal_m",
    "C26_phase_invisible"
   ],
   "note": ""
  },
  {
   "property": "C27",
   "status": "proved",
   "theorems": [
    "C27_vv_kronecker"
   ],
   "note": ""
  },
  {
   "property": "C28",
   "status": "partial",
   "theorems": [
    "C28_mm_kronecker_partial",
    "C28_refuted"
   ],
   "note": "full property refuted: the pinned mm_kronecker ignores identity stripping; partial theorem covers operands with no stripped levels"
  },
  {
   "property": "C29",
   "status": "proved",
   "theorems": [
    "C29_circuit",
    "C29_circuit_exact",
    "C29_circuit_progress"
   ],
   "note": "bound ecirc in the 2-norm (0 at tolerance 0)"
  },
  {
   "property": "C30",
   "status": "proved",
   "theorems": [
    "C30_merge_exact",
    "C30_merge_same"
   ],
   "note": "tolerance 0"
  },
  {
   "property": "C47",
   "status": "proved",
   "theorems": [
    "C47_add_find",
    "C47_mul_find",
    "C47_clear",
    "C47_add_hit",
    "C47_mul_hit",
    "C47_steps_history"
   ],
   "note": ""
  },
  {
   "property": "C45",
   "status": "proved",
   "theorems": [
    "C45_modpow",
    "C45_modpow_wraps",
    "C45_gcd",
    "C45_inverse_mod"
   ],
   "note": "beyond 2^32 the 64-bit products wrap (shown)"
  },
  {
   "property": "C46",
   "status": "proved",
   "theorems": [
    "C46_true_factors",
    "C46_defined",
    "C46_sample_too_short"
   ],
   "note": "finding: with the sample of the circuit itself the call throws for every n above 8 (its only caller is commented out)"
  },
  {
   "property": "C48",
   "status": "proved",
   "theorems": [
    "C48_getNode_fresh",
    "C48_allocations",
    "C48_registered_stable",
    "C48_no_duplicates",
    "C48_no_duplicates_exact",
    "C48_intern_is_micro",
    "C48_scratch_is_micro",
    "C48_total_allocations_refuted"
   ],
   "note": "finding: the allocation counter gc decides on is per thread"
  },
  {
   "property": "C51",
   "status": "partial",
   "theorems": [
    "C51_no_migration_partial",
    "C51_migration_refuted"
   ],
   "note": "false as stated: a fiber keeps a reference to the cache of the thread it started on and may resume on another one, so a hit can return the result of other operands (torn entry); proved when fibers do not migrate"
  },
  {
   "property": "C52",
   "status": "proved",
   "theorems": [
    "C52_terminates",
    "C52_no_deadlock",
    "C15_calls_safe"
   ],
   "note": ""
  },
  {
   "property": "C53",
   "status": "proved",
   "theorems": [
    "C53_deque",
    "C53_empty_means_empty",
    "C53_size",
    "C53_owner_wait_free"
   ],
   "note": "sequentially consistent interleavings; fences and relaxed memory orders not modelled; steal_half does not compile and is left out"
  },
  {
   "property": "C54",
   "status": "proved",
   "theorems": [
    "C54_safe",
    "C54_nested_refuted"
   ],
   "note": "for guards that are not nested, sequentially consistent memory; finding: nested guards free a node the outer guard protects"
  },
  {
   "property": "C55",
   "status": "proved",
   "theorems": [
    "C55_norm_preserved"
   ],
   "note": "tolerance 0"
  },
  {
   "property": "C56",
   "status": "proved",
   "theorems": [
    "C56_frame",
    "C56_frame_on",
    "C13_gc",
    "C14_gc_mat",
    "C19_C20_measureAll",
    "C21_measureOneCollapsing"
   ],
   "note": ""
  },
  {
   "property": "C31",
   "status": "partial",
   "theorems": [
    "C31_getMPIGate_partial",
    "C31_getMPIGate_defined",
    "C31_refuted_general",
    "C31_refuted"
   ],
   "note": "getMPIGate returns block (row,col) for gates with no stripped level above the rank blocks; the full claim is refuted: identity levels are not expanded (X on qubit 0 with two ranks gives the zero block)."
  },
  {
   "property": "C32",
   "status": "partial",
   "theorems": [
    "C32_ring_partial",
    "C32_ring_finishes",
    "C32_two_ranks",
    "C32_example",
    "C32_refuted",
    "C32_ring_safe"
   ],
   "note": "For every interleaving, eager or rendezvous sends: no deadlock, termination, and the slices of the ideal state, for gates whose blocks are visible (see C31); refuted for gates on local qubits, because of getMPIGate. Tolerance 0 for the amplitudes; no deadlock, termination, no abort and well-formed handles for every gate and tolerance (C32_ring_safe)."
  },
  {
   "property": "C33",
   "status": "partial",
   "theorems": [
    "C33_probabilitiesMPI_partial",
    "C33_getVectorMPI_partial",
    "C33_refuted",
    "worlds_exist"
   ],
   "note": "proved when no rank holds vEdge::zero; refuted otherwise: getVectorMPI asserts and probabilitiesMPI returns too few entries, already for the initial state on two ranks"
  },
  {
   "property": "C34",
   "status": "partial",
   "theorems": [
    "C34_weights",
    "C34_measureOneMPI_partial",
    "C34_refuted",
    "C34_outcome_partial",
    "C34_collapse_partial",
    "C34_two_ranks",
    "C34_collapse_refuted"
   ],
   "note": "probabilities and outcome proved for local qubits and the lowest global qubit, collapse for gates the ring handles (two ranks: the top qubit); refuted for the other global qubits (the bit test looks at the parity of the rank) and for collapsing local qubits (getMPIGate)"
  },
  {
   "property": "C57",
   "status": "partial",
   "theorems": [
    "C57_measureAllMPI_partial",
    "C57_born_rule",
    "C57_refuted"
   ],
   "note": "for draws th > 0; refuted for th = 0 when rank 0 holds nothing (the string is too short)"
  },
  {
   "property": "C49",
   "status": "partial",
   "theorems": [
    "C49_partial",
    "C49_unshared_partial",
    "C49_other_handle_refuted",
    "C49_exact_refuted"
   ],
   "note": "every handle: amplitudes are kept or zeroed and small ones of the passed state are zeroed; exact when the diagram shares no node; refuted in general: prune edits shared nodes in place, so other handles change and the passed state can lose amplitudes above the threshold"
  },
  {
   "property": "C50",
   "status": "partial",
   "theorems": [
    "C50_scaled_partial",
    "C50_refuted"
   ],
   "note": "the state comes back without its root weight; refuted for the Bell state"
  },
  {
   "property": "C36",
   "status": "partial",
   "theorems": [
    "C36_evaluate_partial",
    "C36_stable_is_resimulation_partial",
    "shot_unstable_dist",
    "shot_stable_dist",
    "C36_refuted"
   ],
   "note": "for circuits whose gates respect the declared qubits and without conditional measurements: each shot (sampled or re-simulated) has the distribution of the circuit; refuted for conditioned measurements: classify ignores conditions on measure instructions"
  },
  {
   "property": "C37",
   "status": "partial",
   "theorems": [
    "C37_conditions_partial",
    "C37_refuted"
   ],
   "note": "bit conditions and registers starting at classical bit 0 are right; refuted for other registers: the value is compared with the register's own bits read at position 0.."
  },
  {
   "property": "C38",
   "status": "proved",
   "theorems": [
    "C38_sampled",
    "C38_resimulated"
   ],
   "note": ""
  },
  {
   "property": "C39",
   "status": "partial",
   "theorems": [
    "C39_no_exception",
    "C39_bad_shots",
    "C39_success_partial",
    "C39_default_shots_refuted",
    "C39_binds_refuted",
    "C39_rejected"
   ],
   "note": "no exception escapes, bad shots fail the job, success gives one result per circuit when there is one binding per circuit; refuted for the default shots option (not validated, negative gives empty counts) and for too few bindings (circuits silently dropped)"
  },
  {
   "property": "C40",
   "status": "partial",
   "theorems": [
    "C40_identity_partial",
    "C40_stable_refuted",
    "C40_unmeasured_refuted",
    "C40_correlated_refuted",
    "C40_product"
   ],
   "note": "exact when every qubit k is measured last into bit k; refuted otherwise: the list is indexed by qubits, unmeasured qubits included, and mid-circuit measurements give the product of marginals"
  },
  {
   "property": "C41",
   "status": "proved",
   "theorems": [
    "C41_counts",
    "C41_counts_returned"
   ],
   "note": ""
  },
  {
   "property": "C44",
   "status": "partial",
   "theorems": [
    "C44_accepted",
    "C44_getVector_partial",
    "C44_refuted"
   ],
   "note": "accepted up to 100 qubits, defined exactly up to 30: refuted for 31..100"
  },
  {
   "property": "C35",
   "status": "partial",
   "theorems": [
    "C35_same_results",
    "C35_map",
    "C35_v1_local",
    "C35_v2_local",
    "C35_local_refuted",
    "C35_count_refuted",
    "C35_too_many_processes"
   ],
   "note": "for every circuit, number of processes, swap version and outcome of the measurements: same results as without swaps, the map is a permutation and describes where each qubit is; single swaps bring the looked-at instruction to local positions; refuted: not every gate is applied on local positions (the test compares simulator positions with logical qubits, and count skips instructions). MPI calls taken with their ideal effect."
  },
  {
   "property": "C58",
   "status": "proved",
   "theorems": [
    "C58_same_counts",
    "C58_runs"
   ],
   "note": "backend loop executed on the engine model (Prog.exec1): same strings as Backend.v for the same draws, and an execution exists; UnitaryGate and QDDGate instructions are excluded by hypothesis lib_ok; exact comparison (tau = 0)"
  },
  {
   "property": "C42",
   "status": "partial",
   "theorems": [
    "C42_order",
    "C42_returned_partial",
    "C42_frequencies",
    "C42_repeated_refuted"
   ],
   "note": "whenever results are returned, for every history, result i is obtained from the i-th submitted pair with its own draws, and is the relative frequencies of its samples; results are returned when no parametrised circuit is repeated; refuted for repetitions: submitting a parametrised circuit twice in one call always raises"
  },
  {
   "property": "C43",
   "status": "partial",
   "theorems": [
    "C43_expectation_partial",
    "C43_raise_or_expectation_partial",
    "C43_approximation_partial",
    "C43_identity_refuted",
    "C43_values_raise",
    "C43_identity_first_raise",
    "C43_no_grouping_identity_raise",
    "C43_approximation_refuted"
   ],
   "note": "for any history of submissions: with shots, each value returned is on average (over the draws) the expectation of the observable; with grouping proved when each circuit's observables and values form a product, without grouping when there is no identity term; without identity terms no value is ever silently wrong (raise or right); approximation=True exact when the terms act on the first qubits. Refuted in general: identity terms make another basis be read silently (0 instead of 2), differing value lists and identity-only circuits raise, approximation=True reads the wrong qubits. Qiskit's key, parameters, assign and grouping functions are parameters with stated hypotheses; skip_transpilation=True"
  },
  {
   "property": "C59",
   "status": "partial",
   "theorems": [
    "C59_gate_table_partial",
    "C59_circuit_partial",
    "C59_ctrl_state_refuted",
    "C59_open_cx_refuted",
    "C59_qddgate_partial",
    "C59_qddgate_refuted"
   ],
   "note": "every gate class of the tables, with any number of controls all expecting 1, is translated into the documented matrix on its qubits, and so is any circuit of them; refuted for other control states (ctrl_state is ignored) and for a QDDGate applied to permuted qubits; Qiskit's documented matrices are transcribed by hand in QiskitP.v"
  },
  {
   "property": "C60",
   "status": "proved",
   "theorems": [
    "C60_gc_reclaims",
    "C60_gc_mat_reclaims",
    "C60_gc_size"
   ],
   "note": "any tolerance"
  },
  {
   "property": "C61",
   "status": "partial",
   "theorems": [
    "C61_merge_partial",
    "C61_runs",
    "C61_same_state",
    "C61_unitary_raises",
    "C61_reset_refuted",
    "C61_condition_refuted",
    "C61_stale_refuted"
   ],
   "note": "exact comparison (tau = 0); circuits of (controlled) one- and two-qubit gates and QDDGates, measurements and barriers skipped: every execution returns the product and the global phase, other handles unchanged, if the caller holds no gate when a collection is carried out; refuted otherwise: UnitaryGate raises TypeError, resets and conditions are silently dropped, and for every collection period there is a caller whose gate dangles after merge_circuit"
  },
  {
   "property": "C62",
   "status": "proved",
   "theorems": [
    "C62_grover",
    "C62_search_succeeds"
   ],
   "note": "exact comparison (tau = 0); CalculateIterations with real instead of long double arithmetic; example C62_example (oracle 101, probability 25/32)"
  },
  {
   "property": "C63",
   "status": "proved",
   "theorems": [
    "C63_makeGate",
    "C63_makeTwoQubitGate",
    "C63_vv_add",
    "C63_mv_multiply",
    "C63_mm_add",
    "C63_mm_multiply",
    "C63_SWAP",
    "C63_circuit"
   ],
   "note": "products and circuits: while 2*tau*8^n <= 1 (n <= 13 at the code's tolerance 2^-42); arithmetic on reals, not doubles; examples ex_C07_C08_C24_code, ex_C63_code"
  },
  {
   "property": "C64",
   "status": "partial",
   "theorems": [
    "C64_bcast_partial",
    "C64_bcast_finishes",
    "C64_bcast_safe",
    "C64_two_ranks",
    "C64_example",
    "C64_example_control",
    "C64_refuted"
   ],
   "note": "Every interleaving, synchronising broadcasts or not: slices of the ideal state at tolerance 0 for gates whose blocks are visible (see C31); no deadlock, termination, no abort for every gate and tolerance (C64_bcast_safe); refuted for gates on local qubits, because of getMPIGate."
  },
  {
   "property": "C65",
   "status": "partial",
   "theorems": [
    "C65_partial",
    "C65_ready",
    "C65_stopped",
    "C65_init",
    "C65_term",
    "C65_refuted",
    "C65_refuted_backend",
    "C65_refuted_ub",
    "C65_refuted_hang",
    "C65_example"
   ],
   "note": "Programs that start the threads once: no out-of-bounds access, finite executions, initMT always returns the right number, a thread that may steal sees every scheduler registered; terminateMT returns if the workers were waiting. Refuted: starting the threads a second time never completes (out-of-bounds write, or a hang), so neither does a second job of the backend with n_threads > 1; terminateMT can miss a worker and hang."
  },
  {
   "property": "C66",
   "status": "proved",
   "theorems": [
    "C66_calls_safe",
    "C66_seq_calls_safe",
    "C66_collections_safe",
    "C66_measurement_safe",
    "C66_readout_safe",
    "C66_mm_kronecker_safe",
    "C66_rounded_calls_safe",
    "C66_rounded_seq_calls_safe",
    "C66_rounded_collections_safe",
    "C66_rounded_measurement_safe",
    "C66_rounded_readout_safe",
    "C66_rounded_mm_kronecker_safe",
    "C66_binary64"
   ],
   "note": "for every arithmetic satisfying the laws of class Arith (SafeA.v); the laws are proved for every rounding function (SafeF.v) and the rounding for binary64 with tolerance 2^-42; no overflow, NaN or signed zero; mm_add, mm_multiply and SWAP on the calling thread; examples bell_client, measure_client"
  },
  {
   "property": "C67",
   "status": "proved",
   "theorems": [
    "C67_circuit",
    "C67_circuit_progress",
    "C67_error_linear",
    "C67_rounded_circuit",
    "C67_binary64_circuit",
    "C67_number",
    "C67_named_gates",
    "C67_rotation_gates",
    "C67_zero_state",
    "C67_add",
    "C67_apply",
    "C67_gate1",
    "C67_gate2",
    "C67_kronecker",
    "C67_getVector",
    "C67_gc"
   ],
   "note": "for every arithmetic satisfying the error laws of class Accur (FpA.v); the laws are proved for every rounding function with relative error u <= tol/64 and underflow error eta <= u tol^2 (FpF.v), and those for binary64. No overflow, NaN, FMA contraction or extended precision; mm_add, mm_multiply and makeSwap are not operations of this client (safety in C66, values over the reals elsewhere). Examples: bell_client (any rounding), bell_binary64 (amplitudes within 2^-31 of 1/sqrt 2, 0, 0, 1/sqrt 2), accuracy_5_50"
  },
  {
   "property": "C68",
   "status": "proved",
   "theorems": [
    "C68_probabilities",
    "C68_measureAll",
    "C68_measureAll_num",
    "C68_circuit",
    "C68_error_linear",
    "C68_rounded_circuit",
    "C68_binary64_circuit",
    "C68_number",
    "weight_sum",
    "selects_unique"
   ],
   "note": "same arithmetic and client as C67 (FpMeas.v, FpMeasP.v, FpMeasX.v). looks_up/weight/selects (top of FpMeasP.v) are the specification of sampling by thresholds; weight_sum and selects_unique show that the boxes tile the cube of draws. Examples: bell_sampling (doubles: 00 and 11 within 2^-29 of 1/2, 01 and 10 at most 2^-29), sampling_5_50. Draws are arguments: the quality of the random generator is not modelled. Measuring one qubit: C69"
  },
  {
   "property": "C69",
   "status": "proved",
   "theorems": [
    "C69_measureOne",
    "C69_collapse",
    "C69_near",
    "C69_circuit",
    "C69_error_linear",
    "C69_rounded_circuit",
    "C69_binary64_circuit",
    "C69_number",
    "sqrt_ok64"
   ],
   "note": "same arithmetic and client as C67 (FpOne.v, FpOneP.v, FpOneX.v). probq, project (Spec.v), bornq, after (FpOneP.v) are the specification. The square root is assumed accurate to 2 tol relative (sqrt_ok), which a correctly rounded one is (sqrt_ok64). Examples: bell_one (doubles, either qubit, default epsilon: no exception, within 2^-26 of 1/2, collapsed vector within 2^-25), one_5_50. The hypothesis e1 n <= 1/10 excludes sizes where the bound is void (in doubles more than 14 qubits)"
  },
  {
   "property": "C70",
   "status": "proved",
   "theorems": [
    "C70_resimulated",
    "C70_resimulated_runs",
    "C70_sampled",
    "C70_sampled_runs",
    "C70_exact",
    "C70_error_linear",
    "C70_rounded",
    "C70_number",
    "C70_number_sampled",
    "C70_binary64_resimulated",
    "C70_binary64_sampled"
   ],
   "note": "same arithmetic and client as C67 (FpBack.v: shots re-simulated; FpBackS.v: simulated once and sampled, and shots=None/0; FpBackX.v: bounds as multiples of 2^-41 + g, and as computable rationals). The right-hand side is the distribution of the loop on ideal states (Backend.evaluate / BackSpec), the one C36 and C58 use. Draws are idealised as uniform on [0,1) and compared with the machine's threshold; executions exist (_runs) so the statements are not vacuous. Examples: job_teleport (measurement, conditional gate, conditional reset in doubles: every shot within 1/2000), job_bell (z shots within z 2^-24), job_5_50. shots=None with resets or an unstable final state is not covered (C40)"
  },
  {
   "property": "C71",
   "status": "proved",
   "theorems": [
    "C71_mm_add",
    "C71_mm_multiply",
    "C71_makeSwap",
    "C71_gc_mat",
    "C71_fused",
    "C71_merged",
    "C71_merged_progress",
    "C71_error_linear",
    "C71_rounded_merged",
    "C71_rounded_fused",
    "C71_rounded_swap",
    "C71_number",
    "C71_binary64_merged",
    "C71_binary64_swap"
   ],
   "note": "same arithmetic and client as C67 (FpMM.v, FpMM2.v: the operations; FpMMP.v: clients that fuse gates, relation fmerge; FpMMX.v: bounds as multiples of 2^-41 + g; FpMMQ.v: in numbers). circ_op is the product of the gates' unitaries, ideal the state after them (Circuit.v). mm operations run on the calling thread (run_on); under every schedule they are covered in exact arithmetic (C06, C07). C71_merged_progress shows that such clients never get stuck. Examples: fused_client, fused_binary64, accuracy_pairs"
  },
  {
   "property": "C72",
   "status": "proved",
   "theorems": [
    "C72_safe",
    "C72_once",
    "C72_pinned",
    "C72_order",
    "C72_returns",
    "C72_chance",
    "C72_takes",
    "C72_behind",
    "C72_alone",
    "C72_example"
   ],
   "note": "Steal.v models awakened, pick_next and steal with Boost's queues and the calls Boost's scheduler makes around them (assumed behaviour of Boost 1.7x: context_spinlock_queue, attach/detach assertions, resume). exec n l o: events l on n threads; everyone/everybody: the fibers in all places / all fibers created; drawn: the draws of the current pick_next. Limits, proved: with one thread and an empty queue pick_next never returns (C72_alone; initMT never builds such a Scheduler), and fibers behind a dispatcher in a queue are hidden from the other threads (C72_behind). Witness: C72_example."
  },
  {
   "property": "C73",
   "status": "proved",
   "theorems": [
    "C73_printVector",
    "C73_printVectorMPI",
    "C73_sparse",
    "C73_arrays",
    "C73_dot_vector",
    "C73_dot_matrix",
    "C73_sparse_empty",
    "C73_dot_terminal"
   ],
   "note": "Print.v models the loops; the lines of genDot are a list, text formatting is abstracted. picture_v/picture_m read a drawing back using only its lines. Findings: printVector_sparse prints nothing for a normalised state all of whose amplitudes are below 0.001, e.g. H on each of 20 qubits (C73_sparse_empty); the label q<d> of a vector node is n-1 minus its qubit, that of a matrix node is its qubit (C73_dot_vector, C73_dot_matrix); genDot of a multiple of the identity fails an assertion, of the zero vector gives the empty text (C73_dot_terminal). Witness: ex_C73."
  },
  {
   "property": "C74",
   "status": "partial",
   "theorems": [
    "C74_precedence",
    "C74_seed_ignored",
    "C74_reproducible_iff_partial",
    "C74_exact_partial",
    "C74_refuted"
   ],
   "note": "Seeds.v models the way of the seed options into actual_options and a process as jobs consuming one generator; Backend.v what run() does. The property fails: the seed is stored and never read, and the generator is seeded from random_device. C74_refuted: H; measure, one shot, twice in one process with any seed: 0 then 1. What holds: C74_reproducible_iff_partial, sampling an accepted circuit is reproducible for every state of the generator iff one outcome has probability 1; C74_exact_partial, with shots=None a circuit whose measurements are final uses no random number; C74_precedence, the documented precedence is followed up to actual_options. Concrete cases: ex_C74 (a certain outcome), C74_refuted (an accepted circuit without)."
  },
  {
   "property": "C75",
   "status": "partial",
   "theorems": [
    "C75_gap",
    "C75_iff",
    "C75_alone_partial",
    "C75_ungrouped_partial",
    "C75_standard_error",
    "C75_refuted"
   ],
   "note": "EstVar.v models the variances of _PostProcessing.run with counts; EstVarS.v says what mean, variance and covariance of samples are. The property fails for terms measured in one circuit (abelian_grouping, the default): the code adds c^2 (1 - mean^2) of the terms and drops their covariances (C75_gap: by how much; C75_iff: right iff they cancel). C75_refuted: H on q0, observables Z0 - Z0Z1 (value always 0, reported variance 2) and Z0 + Z0Z1 (variance 4, reported 2). What holds: a term measured alone and ungrouped estimates (C75_alone_partial, C75_ungrouped_partial); C75_standard_error: for every accepted circuit the squared error of the mean of z shots is the one-shot variance divided by z, and the sample variance expects to be (1-1/z) of it. Real coefficients; the approximation=True noise is not modelled. Concrete case: C75_refuted (an accepted circuit and its run)."
  },
  {
   "property": "C76",
   "status": "proved",
   "theorems": [
    "fsamples_total",
    "C76_value",
    "C76_concentrates",
    "C76_runs",
    "C76_exact",
    "C76_observable",
    "C76_binary64",
    "one_shot",
    "add_meas_sampled"
   ],
   "note": "FpEst.v: the circuit of one experiment (Estimator.add_meas) run and sampled by the engine with rounded numbers (frun, fsamples of C70). <psi|P|psi> is PauliP.pauli_expect. The error of the mean does not grow with the shots because every shot is drawn within esampled of the right distribution whatever came before (fsamples_total). Circuits of library gates without UnitaryGate or QDDGate. The mean itself (numpy, at most z additions of +-1 weighted by counts) is computed in R; which experiment serves which term is C43. Concrete case ex_C76: the Bell state measured in XX by binary64, z shots: runs exist and the value expects to be within 2^-23 of 1; job_5_50 (FpBackX.v) bounds esampled for 50 gates on 5 qubits."
  },
  {
   "property": "C77",
   "status": "proved",
   "theorems": [
    "C77_sampled",
    "C77_resimulated",
    "C77_exact",
    "C77_binary64",
    "mean_close",
    "mean_concentrates",
    "quasi_share",
    "bell_dist"
   ],
   "note": "FpFreq.v: share s l (occurrences / shots) is what Sampler.post returns (quasi_share, with C42_frequencies). Jobs are those of C70 (frun, fsamples; fshots); the exact distribution is BackSpec.dist. mean_close and mean_concentrates hold for every statistic of a shot with values in [-1,1]. A re-simulated job can fail (exception of measureOneCollapsing) with a chance that grows with the shots, a failed job counts as share 0: hence the factor z. Existence of the runs: C70_sampled_runs, C70_resimulated_runs. Divisions counts/shots (Python floats) are computed in R. Concrete case ex_C77: the Bell circuit in binary64, z shots: shares within 2^-24 of 1/2, 1/2 and 0."
  }
 ]
}