(* Api.v -- client programs of the library: the calls, their documented
   preconditions (numbers of qubits agree, indices in range, states that are
   measured are not the zero vector, a collection is given every live handle),
   and the states a client can reach.  The properties quantify over them. *)
From Coq Require Import ZArith Bool List.
From Verif Require Import Num State DD Gates GC Measure.
Import ListNotations.
Open Scope Z_scope.

Section Api.
Context {NO : NumOps} {CF : Cfg}.

(* A value held by the client: a state (KV) or a gate (KM) on [h_n] qubits. *)
Record handle := H { h_k : kind; h_n : nat; h_e : edge }.
Definition client : Type := state * list handle.

(* indices of qubits, and a set of controls on other qubits, at most one per
   qubit (std::set<Control>, src/dd.cpp:324-378, 385-490) *)
Definition qubit (n : nat) (q : Z) : Prop := 0 <= q < Z.of_nat n.
Definition controls_ok (n : nat) (targets : list Z) (l : list control) : Prop :=
  NoDup (map fst l) /\ forall x, In x l -> qubit n (fst x) /\ ~ In (fst x) targets.
Definition size_ok (n : nat) : Prop := (1 <= n)%nat /\ Z.of_nat n <= NQUBITS.

(* In-contract calls that return a handle of kind [k] on [n] qubits.
   Sources: src/dd.cpp:284-310 (states), 324-490 (gates), 860-1053 (mm_add,
   mm_multiply), 1105-1226 (vv_add, vv_kronecker), 1366-1482 (mv_multiply), 1902-1972 (named gates),
   qdd/bindings.cpp:88-100 (applyGlobal).
   mm_add / mm_multiply / SWAP under an arbitrary schedule of the surrounding
   fibers: with exact comparison (tolerance 0); at every tolerance they are in
   [seq_call] below, executed on one thread (they create no fiber themselves). *)
Inductive call (hs : list handle) : kind -> nat -> comp -> Prop :=
| k_zero n : size_ok n -> call hs KV n (makeZeroState n)
| k_one n : size_ok n -> call hs KV n (makeOneState n)
| k_gate n g t l : size_ok n -> qubit n t -> controls_ok n [t] l ->
    call hs KM n (makeGate (Z.of_nat n) g t (mkControls l))
| k_gate2 n g t0 t1 l : size_ok n -> qubit n t0 -> qubit n t1 -> t0 <> t1 -> controls_ok n [t0; t1] l ->
    call hs KM n (makeTwoQubitGate (Z.of_nat n) g t0 t1 (mkControls l))
| k_cx n t c : size_ok n -> qubit n t -> qubit n c -> t <> c -> call hs KM n (CX (Z.of_nat n) t c)
| k_swap n t0 t1 : ntol = n0 -> size_ok n -> qubit n t0 -> qubit n t1 -> t0 <> t1 ->
    call hs KM n (makeSwap (Z.of_nat n) t0 t1)
| k_cswap n t0 t1 c : size_ok n -> qubit n t0 -> qubit n t1 -> qubit n c ->
    t0 <> t1 -> c <> t0 -> c <> t1 -> call hs KM n (CSWAP (Z.of_nat n) t0 t1 c)
| k_iswap n t0 t1 : size_ok n -> qubit n t0 -> qubit n t1 -> t0 <> t1 ->
    call hs KM n (ISWAP (Z.of_nat n) t0 t1)
| k_add n a b lim : In (H KV n a) hs -> In (H KV n b) hs -> call hs KV n (vv_add lim a b)
| k_mul n g v : In (H KM n g) hs -> In (H KV n v) hs -> call hs KV n (mv_multiply g v)
| k_mmadd n a b : ntol = n0 -> In (H KM n a) hs -> In (H KM n b) hs -> call hs KM n (mm_add a b)
| k_mmmul n a b : ntol = n0 -> In (H KM n a) hs -> In (H KM n b) hs -> call hs KM n (mm_multiply a b)
| k_kron na nb a b : In (H KV na a) hs -> In (H KV nb b) hs -> is_term (en a) = false -> is_term (en b) = false ->
    Z.of_nat (na + nb) <= NQUBITS -> call hs KV (na + nb) (vv_kronecker a b)
| k_global k n e a : In (H k n e) hs -> call hs k n (CRet (applyGlobal e a))
(* makeIdent : src/dd.cpp:280-282 *)
| k_ident n : size_ok n -> call hs KM n makeIdent.

(* Matrix operations at any tolerance, on the thread that calls them.
   src/dd.cpp:860-1053 (mm_add, mm_multiply), 1928-1936 (makeSwap) *)
Inductive seq_call (hs : list handle) : nat -> comp -> Prop :=
| q_mmadd n a b : In (H KM n a) hs -> In (H KM n b) hs -> seq_call hs n (mm_add a b)
| q_mmmul n a b : In (H KM n a) hs -> In (H KM n b) hs -> seq_call hs n (mm_multiply a b)
| q_swap n t0 t1 : size_ok n -> qubit n t0 -> qubit n t1 -> t0 <> t1 ->
    seq_call hs n (makeSwap (Z.of_nat n) t0 t1).

(* the handles returned by a collection, in the order they were passed *)
Definition rehandle (k : kind) (ns : list nat) (es : list edge) : list handle :=
  map (fun x => H k (fst x) (snd x)) (combine ns es).
Definition of_kind (k : kind) (hs : list handle) : Prop := forall h, In h hs -> h_k h = k.

(* a random number generator in [0,1) (std::uniform_real_distribution) *)
Definition unif (x : num) : Prop := nleb n0 x = true /\ nltb x n1 = true.

(* cache entries may vanish at any time: every entry of s' is an entry of s *)
Definition evicted (s s' : state) : Prop :=
  tb s' = tb s /\ probs s' = probs s /\ gc_v s' = gc_v s /\ gc_m s' = gc_m s /\
  (forall i k lv key e, ac s' i k lv key = Some e -> ac s i k lv key = Some e) /\
  (forall i k lv key e, In e (mc s' i k lv key) -> m_valid e = true -> In e (mc s i k lv key)) /\
  (forall i k lv key, length (mc s' i k lv key) = length (mc s i k lv key)).

Inductive astep : client -> client -> Prop :=
(* a call, executed under any schedule of its fibers *)
| a_call s hs k n c e s' : call hs k n c -> steps (Cfg_ok c s) (Cfg_ok (CRet e) s') ->
    astep (s, hs) (s', H k n e :: hs)
(* forgetting, copying, reordering handles *)
| a_drop s hs hs' : incl hs' hs -> astep (s, hs) (s, hs')
(* a gate on n qubits is also a gate on m >= n qubits *)
| a_resize s hs n m e : In (H KM n e) hs -> (n <= m)%nat -> Z.of_nat m <= NQUBITS ->
    astep (s, hs) (s, H KM m e :: hs)
(* collections, called from any thread, given every live state (gate) *)
| a_gc s ns es ms i force es' s' : length ns = length es -> of_kind KM ms ->
    gc i es force s = Some (es', s') ->
    astep (s, rehandle KV ns es ++ ms) (s', rehandle KV ns es' ++ ms)
| a_gc_mat s ns es vs i force es' s' : length ns = length es -> of_kind KV vs ->
    gc_mat i es force s = Some (es', s') ->
    astep (s, rehandle KM ns es ++ vs) (s', rehandle KM ns es' ++ vs)
| a_thr s hs v m : astep (s, hs) (set_gc_thr v m s, hs)
(* measurement *)
| a_probs s hs n e l s' : In (H KV n e) hs -> is_term (en e) = false -> (n <= 30)%nat ->
    probabilities e s = Some (l, s') -> astep (s, hs) (s', hs)
| a_all s hs n e col ths r e' s' : In (H KV n e) hs -> is_term (en e) = false -> ew e <> c0 ->
    (n <= length ths)%nat -> (forall x, In x ths -> unif x) ->
    measureAll e col ths s = Some (r, e', s') -> astep (s, hs) (s', H KV n e' :: hs)
| a_one s hs n e q eps th r s' : In (H KV n e) hs -> is_term (en e) = false -> ew e <> c0 -> qubit n q ->
    unif th -> measureOneCollapsing e q eps th s = Some (r, s') ->
    astep (s, hs) (s', match r with Ret (_, e') => H KV n e' :: hs | Throw => hs end)
| a_one' s hs n e q eps r s' : In (H KV n e) hs -> is_term (en e) = false -> qubit n q ->
    measureOne e q eps s = Some (r, s') -> astep (s, hs) (s', hs)
(* cache eviction *)
| a_evict s hs s' : evicted s s' -> astep (s, hs) (s', hs)
(* a matrix operation on thread i, at any tolerance *)
| a_run s hs n c i e s' : seq_call hs n c -> run_on i c s = Some (e, s') ->
    astep (s, hs) (s', H KM n e :: hs).

Inductive reachable : client -> Prop :=
| r_init : reachable (state_init, [])
| r_step c c' : reachable c -> astep c c' -> reachable c'.

End Api.
