(* Prog.v -- whole client programs (properties C09, C10, C29, C30): a program is
   a list of instructions over the handles made so far; its meaning is defined
   on ideal vectors and matrices (Spec.v); the library executes it with any hash
   functions, cache contents, evictions, collections, build (sequential or
   multi-threaded) and any schedule of the fibers.  With exact comparison every
   execution computes the ideal values, hence all executions agree. *)
From Coq Require Import Reals Lra Psatz ZArith Bool List Lia Arith FunctionalExtensionality.
From Coquelicot Require Import Complex.
From Verif Require Import Num State DD Gates GC Measure Api RNum Wf Sums Err Inv Wp Make Add MulV Canon MM MM2
  GateP StateP Kron Spec SpecP Readout GCP MeasureP MeasAllP MeasOneP ApplyP ApiP Obs Props1 Props2.
Import ListNotations.
Open Scope Z_scope.

(* ---- ideal values ---- *)
Inductive ival := IV (n : nat) (v : vector) | IM (n : nat) (A : matrix).
Definition ieq (x y : ival) : Prop :=
  match x, y with
  | IV n v, IV m w => n = m /\ veq n v w
  | IM n A, IM m B => n = m /\ meq n A B
  | _, _ => False
  end.
Definition phase (a : R) : C := (cos a, sin a).

(* ---- instructions (operands: positions among the handles made so far) ---- *)
Inductive instr :=
| P_zero (n : nat) | P_one (n : nat)
| P_gate (n : nat) (g : nat -> nat -> C) (t : Z) (l : ctls)
| P_gate2 (n : nat) (g : nat -> nat -> C) (t0 t1 : Z) (l : ctls)
| P_cx (n : nat) (t c : Z) | P_swap (n : nat) (t0 t1 : Z) | P_cswap (n : nat) (t0 t1 c : Z)
| P_add (i j : nat) (lim : Z) | P_mul (i j : nat) | P_mmadd (i j : nat) | P_mmmul (i j : nat)
| P_kron (i j : nat) | P_global (i : nat) (a : R) | P_ident (n : nat)
| P_measure (i : nat) (collapse : bool) (ths : list R)
| P_measure1 (i : nat) (q : Z) (eps th : R).

(* ---- ideal meaning: the value produced and the bits observed ---- *)
Definition out := list bool.
Definition isem (x : instr) (env : list ival) (r : ival) (o : out) : Prop :=
  match x with
  | P_zero n => size_ok n /\ r = IV n (basis 0) /\ o = []
  | P_one n => size_ok n /\ r = IV n (basis (2 ^ n - 1)) /\ o = []
  | P_gate n g t l => size_ok n /\ qubit n t /\ controls_ok n [t] l /\ r = IM n (gate1 n g (Z.to_nat t) l) /\ o = []
  | P_gate2 n g t0 t1 l => size_ok n /\ qubit n t0 /\ qubit n t1 /\ t0 <> t1 /\ controls_ok n [t0; t1] l /\
      r = IM n (gate2 n g (Z.to_nat t0) (Z.to_nat t1) l) /\ o = []
  | P_cx n t c => size_ok n /\ qubit n t /\ qubit n c /\ t <> c /\ o = [] /\
      exists p, (forall i, (i < 2 ^ n)%nat -> flips (Z.to_nat t) (Z.to_nat c) i (p i)) /\ r = IM n (perm_matrix p)
  | P_swap n t0 t1 => size_ok n /\ qubit n t0 /\ qubit n t1 /\ t0 <> t1 /\ o = [] /\
      exists p, (forall i, (i < 2 ^ n)%nat -> swaps (Z.to_nat t0) (Z.to_nat t1) i (p i)) /\ r = IM n (perm_matrix p)
  | P_cswap n t0 t1 c => size_ok n /\ qubit n t0 /\ qubit n t1 /\ qubit n c /\ t0 <> t1 /\ c <> t0 /\ c <> t1 /\ o = [] /\
      exists p, (forall i, (i < 2 ^ n)%nat -> cswaps (Z.to_nat t0) (Z.to_nat t1) (Z.to_nat c) i (p i)) /\ r = IM n (perm_matrix p)
  | P_add i j _ => exists n v w, nth_error env i = Some (IV n v) /\ nth_error env j = Some (IV n w) /\
      r = IV n (fun b => Cplus (v b) (w b)) /\ o = []
  | P_mul i j => exists n A v, nth_error env i = Some (IM n A) /\ nth_error env j = Some (IV n v) /\ r = IV n (mv n A v) /\ o = []
  | P_mmadd i j => exists n A B, nth_error env i = Some (IM n A) /\ nth_error env j = Some (IM n B) /\
      r = IM n (fun a b => Cplus (A a b) (B a b)) /\ o = []
  | P_mmmul i j => exists n A B, nth_error env i = Some (IM n A) /\ nth_error env j = Some (IM n B) /\ r = IM n (mm n A B) /\ o = []
  | P_kron i j => exists na nb v w, nth_error env i = Some (IV na v) /\ nth_error env j = Some (IV nb w) /\
      nonzero_v na v /\ nonzero_v nb w /\ Z.of_nat (na + nb) <= NQUBITS /\ r = IV (na + nb) (kronv nb v w) /\ o = []
  | P_global i a => o = [] /\
      ((exists n v, nth_error env i = Some (IV n v) /\ r = IV n (fun b => Cmult (phase a) (v b))) \/
       (exists n A, nth_error env i = Some (IM n A) /\ r = IM n (fun b c => Cmult (phase a) (A b c))))
  | P_ident n => size_ok n /\ r = IM n ident /\ o = []
  | P_measure i col ths => exists n v b, nth_error env i = Some (IV n v) /\ nonzero_v n v /\ (n <= length ths)%nat /\
      (forall x, In x ths -> (0 <= x < 1)%R) /\ (b < 2 ^ n)%nat /\
      (forall k, (k < n)%nat -> (lo_of v b k <= nth (n - 1 - k) ths 0 < hi_of v b k)%R) /\
      r = IV n (if col then basis b else v) /\ o = bitstring n b
  | P_measure1 i q eps th => exists n v (z : bool), let k := Z.to_nat q in let b := if z then 1%nat else 0%nat in
      nth_error env i = Some (IV n v) /\ nonzero_v n v /\ qubit n q /\ (0 <= th < 1)%R /\
      (Rabs (norm2v n v - 1) <= eps)%R /\ (z = false <-> (th < probq n v k 0 / norm2v n v)%R) /\
      r = IV n (fun i => Cdiv (project k b v i) (RtoC (sqrt (probq n v k b)))) /\ o = [z]
  end.
(* a program: the environment after it, newest first, and all observations *)
Inductive irun : list instr -> list ival -> list out -> Prop :=
| ir_nil : irun [] [] []
| ir_cons x p env os r o : irun p env os -> isem x env r o -> irun (x :: p) (r :: env) (o :: os).

Section Exec.
Context (tau : R) {HTol : Tol tau}.
Let Htau : (0 <= tau < 1 / 2)%R := tol_ok.
#[local] Hint Extern 0 NumOps => exact (RNum tau) : typeclass_instances.
Context {CF : Cfg}.
Notation state := (@state (RNum tau)).
Notation edge := (@edge (RNum tau)).
Notation handle := (@handle (RNum tau)).
Notation comp := (@comp (RNum tau)).
Notation reads_v := (reads_v tau).
Notation reads_m := (reads_m tau).
Ltac toR := change (@num (RNum tau)) with R in *.

(* ---- execution by the library ---- *)
(* the library call an instruction stands for *)
Definition compile (x : instr) (hs : list handle) : option (kind * nat * comp) :=
  let at_ := nth_error hs in
  match x with
  | P_zero n => Some (KV, n, makeZeroState n)
  | P_one n => Some (KV, n, makeOneState n)
  | P_gate n g t l => Some (KM, n, makeGate (Z.of_nat n) g t (mkControls l))
  | P_gate2 n g t0 t1 l => Some (KM, n, makeTwoQubitGate (Z.of_nat n) g t0 t1 (mkControls l))
  | P_cx n t c => Some (KM, n, CX (Z.of_nat n) t c)
  | P_swap n t0 t1 => Some (KM, n, makeSwap (Z.of_nat n) t0 t1)
  | P_cswap n t0 t1 c => Some (KM, n, CSWAP (Z.of_nat n) t0 t1 c)
  | P_add i j lim => match at_ i, at_ j with Some a, Some b => Some (KV, h_n a, vv_add lim (h_e a) (h_e b)) | _, _ => None end
  | P_mul i j => match at_ i, at_ j with Some a, Some b => Some (KV, h_n a, mv_multiply (h_e a) (h_e b)) | _, _ => None end
  | P_mmadd i j => match at_ i, at_ j with Some a, Some b => Some (KM, h_n a, mm_add (h_e a) (h_e b)) | _, _ => None end
  | P_mmmul i j => match at_ i, at_ j with Some a, Some b => Some (KM, h_n a, mm_multiply (h_e a) (h_e b)) | _, _ => None end
  | P_kron i j => match at_ i, at_ j with Some a, Some b => Some (KV, (h_n a + h_n b)%nat, vv_kronecker (h_e a) (h_e b)) | _, _ => None end
  | P_global i a => match at_ i with Some b => Some (h_k b, h_n b, CRet (applyGlobal (h_e b) a)) | _ => None end
  | P_ident n => Some (KM, n, makeIdent)
  | P_measure _ _ _ | P_measure1 _ _ _ _ => None
  end.
Inductive exec1 : instr -> state * list handle -> state * list handle -> out -> Prop :=
| x_call x s hs k n c e s' : compile x hs = Some (k, n, c) -> steps (Cfg_ok c s) (Cfg_ok (CRet e) s') ->
    exec1 x (s, hs) (s', H k n e :: hs) []
| x_measure i col ths s hs n e r e' s' : nth_error hs i = Some (H KV n e) -> measureAll e col ths s = Some (r, e', s') ->
    exec1 (P_measure i col ths) (s, hs) (s', H KV n e' :: hs) r
| x_measure1 i q eps th s hs n e z e' s' : nth_error hs i = Some (H KV n e) ->
    measureOneCollapsing e q eps th s = Some (Ret (z, e'), s') ->
    exec1 (P_measure1 i q eps th) (s, hs) (s', H KV n e' :: hs) [z].
(* what may happen between two instructions: collections given all states (all
   gates), in-place, from any thread; threshold changes; evictions from the
   caches; calls of probabilities and measureOne, which only fill a memo *)
Definition is_kind (k : kind) (h : handle) : bool := kind_eqb (h_k h) k.
Fixpoint refill (k : kind) (hs : list handle) (es : list edge) : list handle :=
  match hs with
  | [] => []
  | h :: r => if is_kind k h then match es with e :: es' => H k (h_n h) e :: refill k r es' | [] => [] end
              else h :: refill k r es
  end.
Inductive silent : state * list handle -> state * list handle -> Prop :=
| z_gc i force s hs es' s' : gc i (map h_e (filter (is_kind KV) hs)) force s = Some (es', s') ->
    silent (s, hs) (s', refill KV hs es')
| z_gc_mat i force s hs es' s' : gc_mat i (map h_e (filter (is_kind KM) hs)) force s = Some (es', s') ->
    silent (s, hs) (s', refill KM hs es')
| z_thr v m s hs : silent (s, hs) (set_gc_thr v m s, hs)
| z_evict s s' hs : evicted s s' -> silent (s, hs) (s', hs)
| z_probs s hs n e l s' : In (H KV n e) hs -> is_term (en e) = false -> (n <= 30)%nat ->
    probabilities e s = Some (l, s') -> silent (s, hs) (s', hs)
| z_one s hs n e q eps r s' : In (H KV n e) hs -> is_term (en e) = false -> qubit n q ->
    measureOne e q eps s = Some (r, s') -> silent (s, hs) (s', hs).
Inductive exec : list instr -> state * list handle -> list out -> Prop :=
| x_nil : exec [] (state_init, []) []
| x_cons x p c c' o os : exec p c os -> exec1 x c c' o -> exec (x :: p) c' (o :: os)
| x_silent p c c' os : exec p c os -> silent c c' -> exec p c' os.

(* a handle holds an ideal value *)
Definition holds (s : state) (h : handle) (x : ival) : Prop :=
  match x with
  | IV n v => h_k h = KV /\ h_n h = n /\ reads_v s n (h_e h) v
  | IM n A => h_k h = KM /\ h_n h = n /\ reads_m s n (h_e h) A
  end.

(* ---- proofs ---- *)
Lemma F2_nth {A B} (P : A -> B -> Prop) l l' : Forall2 P l l' -> forall i y, nth_error l' i = Some y ->
  exists x, nth_error l i = Some x /\ P x y.
Proof.
  induction 1 as [|a b l l' Hab _ IH]; intros [|i] y Hy; try discriminate; cbn in *.
  - injection Hy as <-. eauto.
  - eauto.
Qed.
Lemma holds_V s hs env i n v : Forall2 (holds s) hs env -> nth_error env i = Some (IV n v) ->
  exists e, nth_error hs i = Some (H KV n e) /\ In (H KV n e) hs /\ reads_v s n e v.
Proof.
  intros HF Hi. destruct (F2_nth _ _ _ HF _ _ Hi) as ([k m e] & Hh & Hk & Hm & Hr). cbn in *. subst k m.
  exists e. split; auto. split; auto. eapply nth_error_In; eauto.
Qed.
Lemma holds_M s hs env i n A : Forall2 (holds s) hs env -> nth_error env i = Some (IM n A) ->
  exists e, nth_error hs i = Some (H KM n e) /\ In (H KM n e) hs /\ reads_m s n e A.
Proof.
  intros HF Hi. destruct (F2_nth _ _ _ HF _ _ Hi) as ([k m e] & Hh & Hk & Hm & Hr). cbn in *. subst k m.
  exists e. split; auto. split; auto. eapply nth_error_In; eauto.
Qed.
Lemma returns_holds c s k n r (P : edge -> state -> Prop) : (forall e s', P e s' -> holds s' (H k n e) r) ->
  returns tau c s P -> returns tau c s (fun e s' => holds s' (H k n e) r).
Proof. intros HP. apply (returns_mono tau). exact HP. Qed.
Lemma returns_CRet s (e : edge) (P : edge -> state -> Prop) : P e s -> returns tau (CRet e) s P.
Proof.
  intros HP. unfold returns. split; [|split].
  - intros Hs. inversion Hs as [|a b d Ha Hb]; clear Hs. inversion Ha as [i c s1 g Hact| | | | |]. discriminate Hact.
  - exists e, s. reflexivity.
  - intros e' s' Hs. inversion Hs as [|a b d Ha Hb]; clear Hs; [subst; exact HP|].
    inversion Ha as [i c s1 g Hact| | | | |]. discriminate Hact.
Qed.
Ltac hv HF Hi := let e := fresh "e" in let a := fresh "Hat" in let b := fresh "Hin" in let d := fresh "Hrd" in
  destruct (holds_V _ _ _ _ _ _ HF Hi) as (e & a & b & d).
Ltac hm HF Hi := let e := fresh "e" in let a := fresh "Hat" in let b := fresh "Hin" in let d := fresh "Hrd" in
  destruct (holds_M _ _ _ _ _ _ HF Hi) as (e & a & b & d).
Lemma compile_spec x s hs env r o : tau = 0%R -> reachable (s, hs) -> Forall2 (holds s) hs env -> isem x env r o ->
  match x with P_measure _ _ _ | P_measure1 _ _ _ _ => True | _ =>
    o = [] /\ exists k n c, compile x hs = Some (k, n, c) /\ call hs k n c /\
      returns tau c s (fun e s' => holds s' (H k n e) r)
  end.
Proof.
  intros H0 Hr HF Hs.
  assert (H0' : @ntol (RNum tau) = @n0 (RNum tau)) by exact H0.
  destruct x; cbn [isem] in Hs; try exact I.
  - destruct Hs as (Hn & -> & ->). split; auto. eexists _, _, _. split; [reflexivity|]. split; [now apply k_zero|].
    eapply returns_holds; [|eapply (C01_makeZeroState tau); eauto]. intros e s' Hx. repeat split; auto; apply Hx.
  - destruct Hs as (Hn & -> & ->). split; auto. eexists _, _, _. split; [reflexivity|]. split; [now apply k_one|].
    eapply returns_holds; [|eapply (C02_makeOneState tau); eauto]. intros e s' Hx. repeat split; auto; apply Hx.
  - destruct Hs as (Hn & Hq & Hc & -> & ->). split; auto. eexists _, _, _. split; [reflexivity|]. split; [now apply k_gate|].
    destruct (bound2 g 2) as (B & HB & Hg).
    eapply returns_holds; [|eapply (C03_makeGate tau s hs n g t l B); eauto]. intros e s' [_ Hx]. specialize (Hx H0).
    repeat split; auto; apply Hx.
  - destruct Hs as (Hn & Hq & Hq' & Hd & Hc & -> & ->). split; auto. eexists _, _, _. split; [reflexivity|]. split; [now apply k_gate2|].
    destruct (bound2 g 4) as (B & HB & Hg).
    eapply returns_holds; [|eapply (C04_makeTwoQubitGate tau s hs n g t0 t1 l B); eauto]. intros e s' [_ Hx]. specialize (Hx H0).
    repeat split; auto; apply Hx.
  - destruct Hs as (Hn & Hq & Hq' & Hd & -> & p & Hp & ->). split; auto. eexists _, _, _. split; [reflexivity|]. split; [now apply k_cx|].
    destruct (C24_CX tau s hs n t c Hr Hn Hq Hq' Hd) as (p' & Hp' & HX).
    eapply returns_holds; [|exact HX]. intros e s' [_ Hx]. specialize (Hx H0). split; auto. split; auto. cbn [h_e].
    eapply (reads_m_meq tau); [|exact Hx]. intros a b Ha Hb. unfold perm_matrix.
    replace (p' b) with (p b); auto. apply Nat.bits_inj. intros l. rewrite (Hp b Hb l), (Hp' b Hb l). reflexivity.
  - destruct Hs as (Hn & Hq & Hq' & Hd & -> & p & Hp & ->). split; auto. eexists _, _, _. split; [reflexivity|]. split; [now apply k_swap|].
    destruct (C24_SWAP tau s hs n t0 t1 H0 Hr Hn Hq Hq' Hd) as (p' & Hp' & HX).
    eapply returns_holds; [|exact HX]. intros e s' Hx. split; auto. split; auto. cbn [h_e].
    eapply (reads_m_meq tau); [|exact Hx]. intros a b Ha Hb. unfold perm_matrix.
    replace (p' b) with (p b); auto. apply Nat.bits_inj. intros l. rewrite (Hp b Hb l), (Hp' b Hb l). reflexivity.
  - destruct Hs as (Hn & Hq & Hq' & Hc & Hd & Hd1 & Hd2 & -> & p & Hp & ->). split; auto. eexists _, _, _. split; [reflexivity|]. split; [now apply k_cswap|].
    destruct (C24_CSWAP tau s hs n t0 t1 c Hr Hn Hq Hq' Hc Hd Hd1 Hd2) as (p' & Hp' & HX).
    eapply returns_holds; [|exact HX]. intros e s' [_ Hx]. specialize (Hx H0). split; auto. split; auto. cbn [h_e].
    eapply (reads_m_meq tau); [|exact Hx]. intros a b Ha Hb. unfold perm_matrix.
    replace (p' b) with (p b); auto. pose proof (Hp b Hb) as X1. pose proof (Hp' b Hb) as X2. unfold cswaps in X1, X2.
    destruct (Nat.testbit b (Z.to_nat c)); [|congruence]. apply Nat.bits_inj. intros l. rewrite (X1 l), (X2 l). reflexivity.
  - destruct Hs as (n & v & w & Hi & Hj & -> & ->). split; auto. hv HF Hi. hv HF Hj.
    cbn [compile]. rewrite Hat, Hat0. cbn [h_n h_e]. eexists _, _, _. split; [reflexivity|]. split; [now apply k_add|].
    destruct (C12_root_weight_max_v tau _ _ _ _ _ Hr Hin Hrd) as (Ha & _).
    destruct (C12_root_weight_max_v tau _ _ _ _ _ Hr Hin0 Hrd0) as (Hb & _).
    eapply returns_holds; [|eapply (C06_vv_add tau s hs n lim e e0 v w (Cmod (ew e) + Cmod (ew e0))); eauto].
    + intros e1 s' [_ Hx]. specialize (Hx H0). repeat split; auto; apply Hx.
    + intros a b Ha' Hb'. specialize (Ha a Ha'). specialize (Hb b Hb'). toR. lra.
  - destruct Hs as (n & A & v & Hi & Hj & -> & ->). split; auto. hm HF Hi. hv HF Hj.
    cbn [compile]. rewrite Hat, Hat0. cbn [h_n h_e]. eexists _, _, _. split; [reflexivity|]. split; [now apply k_mul|].
    destruct (C12_root_weight_max_m tau _ _ _ _ _ Hr Hin Hrd) as (Ha & _).
    destruct (C12_root_weight_max_v tau _ _ _ _ _ Hr Hin0 Hrd0) as (Hb & _).
    eapply returns_holds; [|eapply (C05_mv_multiply tau s hs n e e0 A v (Cmod (ew e)) (Cmod (ew e0))); eauto].
    intros e1 s' [_ Hx]. specialize (Hx H0). repeat split; auto; apply Hx.
  - destruct Hs as (n & A & v & Hi & Hj & -> & ->). split; auto. hm HF Hi. hm HF Hj.
    cbn [compile]. rewrite Hat, Hat0. cbn [h_n h_e]. eexists _, _, _. split; [reflexivity|]. split; [now apply k_mmadd|].
    eapply returns_holds; [|eapply (C08_mm_add tau s hs n e e0 A v); eauto].
    intros e1 s' Hx. repeat split; auto; apply Hx.
  - destruct Hs as (n & A & v & Hi & Hj & -> & ->). split; auto. hm HF Hi. hm HF Hj.
    cbn [compile]. rewrite Hat, Hat0. cbn [h_n h_e]. eexists _, _, _. split; [reflexivity|]. split; [now apply k_mmmul|].
    eapply returns_holds; [|eapply (C07_mm_multiply tau s hs n e e0 A v); eauto].
    intros e1 s' Hx. repeat split; auto; apply Hx.
  - destruct Hs as (na & nb & v & w & Hi & Hj & Hnv & Hnw & Hsz & -> & ->). split; auto. hv HF Hi. hv HF Hj.
    cbn [compile]. rewrite Hat, Hat0. cbn [h_n h_e]. eexists _, _, _. split; [reflexivity|].
    destruct (nonzero_w tau na v s hs e Hr Hin Hrd Hnv) as (_ & T1 & _).
    destruct (nonzero_w tau nb w s hs e0 Hr Hin0 Hrd0 Hnw) as (_ & T2 & _).
    split; [now apply k_kron|].
    destruct (C12_root_weight_max_v tau _ _ _ _ _ Hr Hin Hrd) as (Ha & _).
    destruct (C12_root_weight_max_v tau _ _ _ _ _ Hr Hin0 Hrd0) as (Hb & _).
    eapply returns_holds; [|eapply (C27_vv_kronecker tau s hs na nb e e0 v w (Cmod (ew e)) (Cmod (ew e0))); eauto].
    intros e1 s' [_ Hx]. specialize (Hx H0). repeat split; auto; apply Hx.
  - destruct Hs as (-> & [(n & v & Hi & ->)|(n & A & Hi & ->)]); split; auto; [hv HF Hi|hm HF Hi];
      cbn [compile]; rewrite Hat; cbn [h_n h_e h_k]; eexists _, _, _; (split; [reflexivity|]); (split; [now apply k_global|]);
      apply returns_CRet; (split; [reflexivity|]); (split; [reflexivity|]); cbn [h_e].
    + apply (C26_applyGlobal_v tau s hs); auto.
    + apply (C26_applyGlobal_m tau s hs); auto.
  - destruct Hs as (Hn & -> & ->). split; auto. eexists _, _, _. split; [reflexivity|]. split; [now apply k_ident|].
    apply returns_CRet. split; [reflexivity|]. split; [reflexivity|]. apply (C03_makeIdent tau s hs n Hr).
Qed.

(* ---- silent steps ---- *)
Lemma refill_holds_V s s' : forall hs env es', length es' = length (filter (is_kind KV) hs) ->
  (forall j h e', nth_error (filter (is_kind KV) hs) j = Some h -> nth_error es' j = Some e' ->
     forall v, reads_v s (h_n h) (h_e h) v -> reads_v s' (h_n h) e' v) ->
  (forall n e A, In (H KM n e) hs -> reads_m s n e A -> reads_m s' n e A) ->
  Forall2 (holds s) hs env -> Forall2 (holds s') (refill KV hs es') env.
Proof.
  intros hs env es' Hl Hj Hm HF. revert es' Hl Hj Hm. induction HF as [|h x hs env Hx HF IH]; intros es' Hl Hj Hm; [constructor|].
  destruct h as [k n e]. cbn [refill]. destruct k; cbn [filter is_kind kind_eqb h_k] in *.
  - destruct es' as [|e' es']; [discriminate|]. cbn in Hl. constructor.
    + destruct x as [m v|m A]; destruct Hx as (Hk & Hn & Hr); cbn in Hk, Hn, Hr; [|discriminate]. subst m. cbn [h_n].
      repeat split; auto; apply (Hj 0%nat (H KV n e) e' eq_refl eq_refl); exact Hr.
    + apply IH; [lia| |].
      * intros j h e2 Hh He2. exact (Hj (S j) h e2 Hh He2).
      * intros m e2 A Hin. apply Hm. now right.
  - constructor.
    + destruct x as [m v|m A]; destruct Hx as (Hk & Hn & Hr); cbn in Hk, Hn, Hr; [discriminate|]. subst m.
      repeat split; auto; apply Hm; auto; now left.
    + apply IH; auto. intros m e2 A Hin. apply Hm. now right.
Qed.
Lemma refill_holds_M s s' : forall hs env es', length es' = length (filter (is_kind KM) hs) ->
  (forall j h e', nth_error (filter (is_kind KM) hs) j = Some h -> nth_error es' j = Some e' ->
     forall v, reads_m s (h_n h) (h_e h) v -> reads_m s' (h_n h) e' v) ->
  (forall n e A, In (H KV n e) hs -> reads_v s n e A -> reads_v s' n e A) ->
  Forall2 (holds s) hs env -> Forall2 (holds s') (refill KM hs es') env.
Proof.
  intros hs env es' Hl Hj Hm HF. revert es' Hl Hj Hm. induction HF as [|h x hs env Hx HF IH]; intros es' Hl Hj Hm; [constructor|].
  destruct h as [k n e]. cbn [refill]. destruct k; cbn [filter is_kind kind_eqb h_k] in *.
  - constructor.
    + destruct x as [m v|m A]; destruct Hx as (Hk & Hn & Hr); cbn in Hk, Hn, Hr; [|discriminate]. subst m.
      repeat split; auto; apply Hm; auto; now left.
    + apply IH; auto. intros m e2 A Hin. apply Hm. now right.
  - destruct es' as [|e' es']; [discriminate|]. cbn in Hl. constructor.
    + destruct x as [m v|m A]; destruct Hx as (Hk & Hn & Hr); cbn in Hk, Hn, Hr; [discriminate|]. subst m. cbn [h_n].
      repeat split; auto; apply (Hj 0%nat (H KM n e) e' eq_refl eq_refl); exact Hr.
    + apply IH; [lia| |].
      * intros j h e2 Hh He2. exact (Hj (S j) h e2 Hh He2).
      * intros m e2 A Hin. apply Hm. now right.
Qed.
Definition other (k : kind) : kind := match k with KV => KM | KM => KV end.
Lemma split_incl k (hs : list handle) : let F := filter (is_kind k) hs in
  incl (rehandle k (map h_n F) (map h_e F) ++ filter (is_kind (other k)) hs) hs.
Proof.
  cbn zeta. intros h Hh. apply in_app_or in Hh. destruct Hh as [Hh|Hh]; [|now apply filter_In in Hh].
  unfold rehandle in Hh. apply in_map_iff in Hh. destruct Hh as ((n & e) & <- & Hc). cbn [fst snd].
  assert (Hx : exists h, In h (filter (is_kind k) hs) /\ h_n h = n /\ h_e h = e).
  { revert Hc. induction (filter (is_kind k) hs) as [|a l IH]; cbn; [tauto|]. intros [Hc|Hc].
    - injection Hc as <- <-. exists a. auto.
    - destruct (IH Hc) as (h & ? & ?). exists h. auto. }
  destruct Hx as ([k' n' e'] & Hf & Hn & He). cbn in Hn, He. subst n' e'. apply filter_In in Hf. destruct Hf as [Hf Hk].
  unfold is_kind in Hk. cbn in Hk. destruct k, k'; try discriminate; exact Hf.
Qed.
Lemma refill_incl k : forall (hs : list handle) es', length es' = length (filter (is_kind k) hs) ->
  incl (refill k hs es') (rehandle k (map h_n (filter (is_kind k) hs)) es' ++ filter (is_kind (other k)) hs).
Proof.
  induction hs as [|h hs IH]; intros es' Hl; cbn [refill]; [intros x []|].
  destruct h as [k' n e]. cbn [filter] in *. unfold is_kind in *. cbn [h_k] in *.
  destruct k, k'; cbn [kind_eqb] in *.
  - destruct es' as [|e' es']; [discriminate|]. cbn in Hl. intros x [<-|Hx]; [left; reflexivity|]. right. apply IH; auto.
  - intros x [<-|Hx]; [apply in_or_app; right; now left|]. apply IH in Hx; auto. apply in_app_or in Hx. apply in_or_app.
    destruct Hx; auto. right. now right.
  - intros x [<-|Hx]; [apply in_or_app; right; now left|]. apply IH in Hx; auto. apply in_app_or in Hx. apply in_or_app.
    destruct Hx; auto. right. now right.
  - destruct es' as [|e' es']; [discriminate|]. cbn in Hl. intros x [<-|Hx]; [left; reflexivity|]. right. apply IH; auto.
Qed.
Lemma of_kind_filter k (hs : list handle) : of_kind k (filter (is_kind k) hs).
Proof. intros h Hh. apply filter_In in Hh. destruct Hh as [_ Hh]. unfold is_kind in Hh. destruct (h_k h), k; try discriminate; auto. Qed.
Lemma reads_v_tb s s' hs n e v : reachable (s', hs) -> In (H KV n e) hs -> tb s' KV = tb s KV -> reads_v s n e v -> reads_v s' n e v.
Proof.
  intros Hr Hi Ht Hv. destruct (reach_V tau _ _ _ _ Hr Hi) as (A1 & A2 & A3).
  eapply (reads_v_veq tau); [exact (Logic.proj1 Hv)|]. unfold Obs.vecof. rewrite <- Ht.
  apply (reads_vecof tau); auto. eapply reach_Inv; eauto.
Qed.
Lemma reads_m_tb s s' hs n e A : reachable (s', hs) -> In (H KM n e) hs -> tb s' KM = tb s KM -> reads_m s n e A -> reads_m s' n e A.
Proof.
  intros Hr Hi Ht Hv. destruct (reach_M tau _ _ _ _ Hr Hi) as (A1 & A3).
  eapply (reads_m_meq tau); [exact (Logic.proj1 Hv)|]. unfold Obs.matof. rewrite <- Ht.
  apply (reads_matof tau); auto. eapply reach_Inv; eauto.
Qed.
Lemma holds_frame s s' hs env : Forall2 (holds s) hs env ->
  (forall m h v, In (H KV m h) hs -> reads_v s m h v -> reads_v s' m h v) ->
  (forall m h A, In (H KM m h) hs -> reads_m s m h A -> reads_m s' m h A) -> Forall2 (holds s') hs env.
Proof.
  induction 1 as [|h x hs env Hx HF IH]; intros Hv Hm; constructor.
  - destruct h as [k n e]. destruct x as [m v|m A]; destruct Hx as (Hk & Hn & Hr); cbn in Hk, Hn, Hr; subst k m;
      (split; [reflexivity|]); (split; [reflexivity|]); [apply Hv|apply Hm]; auto; now left.
  - apply IH; intros; [apply Hv|apply Hm]; auto; now right.
Qed.
Lemma holds_tb s s' hs env : reachable (s', hs) -> tb s' = tb s -> Forall2 (holds s) hs env -> Forall2 (holds s') hs env.
Proof.
  intros Hr Ht HF. apply (holds_frame s); auto; intros m h v Hi Hv; [eapply (reads_v_tb s)|eapply (reads_m_tb s)]; eauto; now rewrite Ht.
Qed.
Lemma silent_ok s hs s' hs' env : tau = 0%R -> reachable (s, hs) -> Forall2 (holds s) hs env -> silent (s, hs) (s', hs') ->
  reachable (s', hs') /\ Forall2 (holds s') hs' env.
Proof.
  intros H0 Hr HF Hs. inversion Hs as [i force s1 hs1 es' s1' Hg|i force s1 hs1 es' s1' Hg|v m s1 hs1|s1 s1' hs1 He
    |s1 hs1 n e l s1' Hin Ht Hn Hp|s1 hs1 n e q eps r s1' Hin Ht Hq Hp]; subst; clear Hs.
  - pose (Fv := filter (is_kind KV) hs).
    assert (Hr2 : reachable (s, rehandle KV (map h_n Fv) (map h_e Fv) ++ filter (is_kind KM) hs)).
    { eapply r_step; [exact Hr|]. apply a_drop. apply (split_incl KV). }
    destruct (C13_gc tau s (map h_n Fv) (map h_e Fv) (filter (is_kind KM) hs) i force Hr2) as (es2 & s2 & Hg2 & Hlen & Hv & Hm & _ & _ & Hr3).
    { now rewrite !map_length. } { apply of_kind_filter. }
    unfold Fv in Hg2. rewrite Hg in Hg2. injection Hg2 as <- <-. rewrite map_length in Hlen. split.
    + eapply r_step; [exact Hr3|]. apply a_drop. now apply refill_incl.
    + apply (refill_holds_V s); auto.
      * intros j h e' Hh He' v Hrd. fold Fv in Hh.
        assert (Hin : In (H KV (h_n h) (h_e h)) hs).
        { pose proof (nth_error_In _ _ Hh) as Hf. apply filter_In in Hf. destruct Hf as [Hf Hk]. unfold is_kind in Hk.
          destruct h as [[|] n e]; [exact Hf|discriminate]. }
        destruct (C12_root_weight_max_v tau _ _ _ _ _ Hr Hin Hrd) as (Hx & _).
        apply (Hv j (h_n h) (h_e h) e' v (Cmod (ew (h_e h)))); auto; now apply map_nth_error.
      * intros n e A Hin Hrd. apply Hm; auto. apply filter_In. split; auto.
  - pose (Fv := filter (is_kind KM) hs).
    assert (Hr2 : reachable (s, rehandle KM (map h_n Fv) (map h_e Fv) ++ filter (is_kind KV) hs)).
    { eapply r_step; [exact Hr|]. apply a_drop. apply (split_incl KM). }
    destruct (C14_gc_mat tau s (map h_n Fv) (map h_e Fv) (filter (is_kind KV) hs) i force Hr2) as (es2 & s2 & Hg2 & Hlen & Hv & Hm & _ & _ & Hr3).
    { now rewrite !map_length. } { apply of_kind_filter. }
    unfold Fv in Hg2. rewrite Hg in Hg2. injection Hg2 as <- <-. rewrite map_length in Hlen. split.
    + eapply r_step; [exact Hr3|]. apply a_drop. now apply refill_incl.
    + apply (refill_holds_M s); auto.
      * intros j h e' Hh He' v Hrd. fold Fv in Hh.
        assert (Hin : In (H KM (h_n h) (h_e h)) hs).
        { pose proof (nth_error_In _ _ Hh) as Hf. apply filter_In in Hf. destruct Hf as [Hf Hk]. unfold is_kind in Hk.
          destruct h as [[|] n e]; [discriminate|exact Hf]. }
        destruct (C12_root_weight_max_m tau _ _ _ _ _ Hr Hin Hrd) as (Hx & _).
        apply (Hv j (h_n h) (h_e h) e' v (Cmod (ew (h_e h)))); auto; now apply map_nth_error.
      * intros n e A Hin Hrd. apply Hm; auto. apply filter_In. split; auto.
  - assert (Hr2 : reachable (set_gc_thr v m s, hs')) by (eapply r_step; [exact Hr|apply a_thr]). split; auto.
    apply (holds_tb s); auto.
  - assert (Hr2 : reachable (s', hs')) by (eapply r_step; [exact Hr|now apply a_evict]). split; auto.
    apply (holds_tb s); auto. apply He.
  - assert (Hr2 : reachable (s', hs')) by (eapply r_step; [exact Hr|eapply a_probs; eauto]). split; auto.
    destruct (reach_V tau _ _ _ _ Hr Hin) as (A1 & A2 & A3). pose proof (wfp_nt tau _ _ _ A3 Ht) as Hw.
    assert (H100 : (n <= 30)%nat) by exact Hn.
    destruct (probabilities_spec tau s n e (reach_Inv tau _ _ Hr) ltac:(lia) Hw) as (s2 & Hp2 & Px & _).
    rewrite Hp in Hp2. injection Hp2 as _ <-. apply (holds_tb s); auto. exact (pe_tb _ _ _ Px).
  - assert (Hr2 : reachable (s', hs')) by (eapply r_step; [exact Hr|eapply a_one'; eauto]). split; auto.
    destruct (reach_V tau _ _ _ _ Hr Hin) as (A1 & A2 & A3). pose proof (wfp_nt tau _ _ _ A3 Ht) as Hw.
    assert (Hk : (Z.to_nat q < n)%nat) by (unfold qubit in Hq; lia).
    destruct (measureOne_spec tau s n e _ eps (reach_Inv tau _ _ Hr) Hk A1 Hw) as (s2 & Px & _ & Hp2).
    replace (Z.of_nat (Z.to_nat q)) with q in Hp2 by (unfold qubit in Hq; lia).
    rewrite Hp in Hp2. injection Hp2 as _ <-. apply (holds_tb s); auto. exact (pe_tb _ _ _ Px).
Qed.


(* ---- one instruction ---- *)
Lemma exec1_ok x s hs s' hs' env r o o' : tau = 0%R -> reachable (s, hs) -> Forall2 (holds s) hs env -> isem x env r o ->
  exec1 x (s, hs) (s', hs') o' -> o' = o /\ reachable (s', hs') /\ Forall2 (holds s') hs' (r :: env).
Proof.
  intros H0 Hr HF Hs Hx. pose proof (compile_spec x s hs env r o H0 Hr HF Hs) as Hc.
  inversion Hx as [x1 s1 hs1 k n c e s1' Hcomp Hst|i col ths s1 hs1 n e b e' s1' Hat Hm|i q eps th s1 hs1 n e z e' s1' Hat Hm]; subst; clear Hx.
  - assert (Hc' : o = [] /\ exists k n c, compile x hs = Some (k, n, c) /\ call hs k n c /\
      returns tau c s (fun e s' => holds s' (H k n e) r)) by (destruct x; try exact Hc; discriminate Hcomp).
    clear Hc. destruct Hc' as (-> & k2 & n2 & c2 & Hcomp2 & Hcall & _ & _ & Hret). rewrite Hcomp in Hcomp2.
    injection Hcomp2 as <- <- <-. split; auto. destruct (C56_frame tau s hs k n c e s' Hr Hcall Hst) as [Fv Fm].
    split; [eapply r_step; [exact Hr|eapply a_call; eauto]|]. constructor; [now apply Hret|]. now apply (holds_frame s).
  - destruct Hs as (m & v & b' & Hi & Hnz & Hl & Hths & Hb & Hint & -> & ->). hv HF Hi. rewrite Hat in Hat0.
    injection Hat0 as <- <-. destruct (C19_C20_measureAll tau s hs n e v col ths Hr Hin Hrd Hnz Hl Hths)
      as (b2 & e2 & s2 & Hm2 & Hb2 & _ & Huniq & Hcol & Hfr & Hfm & Hr2).
    rewrite Hm in Hm2. injection Hm2 as -> <- <-.
    assert (Eb : b' = b2) by (apply Huniq; auto). subst b2. split; [reflexivity|]. split; [exact Hr2|]. constructor.
    + destruct col; [split; [reflexivity|]; split; [reflexivity|]; exact Hcol|]. subst e'.
      split; [reflexivity|]; split; [reflexivity|]. cbn [h_e]. apply Hfr; auto.
    + now apply (holds_frame s).
  - destruct Hs as (m & v & z' & Hs). cbn zeta in Hs. destruct Hs as (Hi & Hnz & Hq & Hth & He & Hz & -> & ->). hv HF Hi. rewrite Hat in Hat0.
    injection Hat0 as <- <-. pose proof (C21_measureOneCollapsing tau s hs n e v q eps th Hr Hin Hrd Hnz Hq Hth) as HC.
    cbn zeta in HC. destruct (HC He) as (z2 & e2 & s2 & Hm2 & Hd & _ & [_ Hx] & Hfv & Hfm & Hr2). specialize (Hx H0).
    rewrite Hm in Hm2. injection Hm2 as <- <- <-.
    assert (Ez : z = z').
    { clear -Hd Hz. destruct z, z'; auto; exfalso.
      - assert (true = false) by (apply Hd, Hz; reflexivity). discriminate.
      - assert (true = false) by (apply Hz, Hd; reflexivity). discriminate. }
    subst z'. split; [reflexivity|]. split; [exact Hr2|]. constructor; [|now apply (holds_frame s)].
    split; [reflexivity|]; split; [reflexivity|]. exact Hx.
Qed.

(* ---- every execution computes the ideal values ---- *)
Theorem exec_refines p c os env os' : tau = 0%R -> exec p c os -> irun p env os' ->
  os = os' /\ reachable c /\ Forall2 (holds (fst c)) (snd c) env.
Proof.
  intros H0 Hx. revert env os'. induction Hx as [|x p c c' o os Hx IH H1|p c c' os Hx IH Hs]; intros env os' Hi.
  - inversion Hi; subst. split; auto. split; [constructor|constructor].
  - inversion Hi as [|x1 p1 env1 os1 r o1 Hi1 Hs1]; subst. destruct (IH _ _ Hi1) as (-> & Hr & HF).
    destruct c as [s hs], c' as [s' hs']. cbn [fst snd] in *.
    destruct (exec1_ok x s hs s' hs' env1 r o1 o H0 Hr HF Hs1 H1) as (-> & Hr' & HF'). auto.
  - destruct (IH _ _ Hi) as (-> & Hr & HF). destruct c as [s hs], c' as [s' hs']. cbn [fst snd] in *.
    destruct (silent_ok s hs s' hs' env H0 Hr HF Hs) as [Hr' HF']. auto.
Qed.
(* ---- no execution gets stuck or goes wrong ---- *)
Lemma exec1_can x s hs env r o : tau = 0%R -> reachable (s, hs) -> Forall2 (holds s) hs env -> isem x env r o ->
  (exists c', exec1 x (s, hs) c' o) /\
  (forall k n cm, compile x hs = Some (k, n, cm) -> ~ steps (Cfg_ok cm s) Wrong).
Proof.
  intros H0 Hr HF Hs.
  pose proof (compile_spec x s hs env r o H0 Hr HF Hs) as Hc.
  assert (Hcall : o = [] /\ (exists k n c, compile x hs = Some (k, n, c) /\ call hs k n c /\
      returns tau c s (fun e s' => holds s' (H k n e) r)) ->
    (exists c', exec1 x (s, hs) c' o) /\
    (forall k n cm, compile x hs = Some (k, n, cm) -> ~ steps (Cfg_ok cm s) Wrong)).
  { intros (-> & k & n & cm & E1 & _ & (Hnw & (e & s' & Hrun) & _)). split.
    - exists (s', H k n e :: hs). eapply x_call; [exact E1|]. pose proof (run_steps cm s) as Hru. now rewrite Hrun in Hru.
    - intros k2 n2 cm2 E2. rewrite E1 in E2. injection E2 as <- <- <-. exact Hnw. }
  destruct x; try (apply Hcall; exact Hc); clear Hc Hcall; split; try (intros k2 n2 cm2 E2; discriminate E2).
  - destruct Hs as (n & v & b & Hn & Hnz & Hl & Hths & Hb & Hint & -> & ->). hv HF Hn.
    destruct (C19_C20_measureAll tau s hs n e v collapse ths Hr Hin Hrd Hnz Hl Hths) as (b2 & e2 & s2 & Hm2 & Hb2 & _ & Huniq & _).
    assert (Eb : b = b2) by (apply Huniq; auto). subst b2. eexists. eapply x_measure; eauto.
  - destruct Hs as (n & v & z' & Hs). cbn zeta in Hs. destruct Hs as (Hn & Hnz & Hq & Hth & He & Hz & -> & ->). hv HF Hn.
    pose proof (C21_measureOneCollapsing tau s hs n e v q eps th Hr Hin Hrd Hnz Hq Hth) as HC.
    cbn zeta in HC. destruct (HC He) as (z2 & e2 & s2 & Hm2 & Hd & _).
    assert (Ez : z2 = z').
    { clear -Hd Hz. destruct z2, z'; auto; exfalso.
      - assert (true = false) by (apply Hd, Hz; reflexivity). discriminate.
      - assert (true = false) by (apply Hz, Hd; reflexivity). discriminate. }
    subst z2. eexists. eapply x_measure1; eauto.
Qed.
Theorem exec_progress x p c os env os' r o : tau = 0%R -> exec p c os -> irun p env os' -> isem x env r o ->
  (exists c', exec1 x c c' o) /\
  (forall k n cm, compile x (snd c) = Some (k, n, cm) -> ~ steps (Cfg_ok cm (fst c)) Wrong).
Proof.
  intros H0 Hx Hi Hs. destruct (exec_refines _ _ _ _ _ H0 Hx Hi) as (-> & Hr & HF). destruct c as [s hs]. cbn [fst snd] in *.
  now apply (exec1_can x s hs env r o).
Qed.
(* every program with an ideal meaning has an execution *)
Theorem exec_exists p env os : tau = 0%R -> irun p env os -> exists c, exec p c os.
Proof.
  intros H0. induction 1 as [|x p env os r o Hi (c & Hx) Hs]; [eexists; constructor|].
  destruct (exec_progress x p c os env os r o H0 Hx Hi Hs) as ((c' & H1) & _). exists c'. econstructor; eauto.
Qed.
End Exec.

(* ---- C09, C10 : all executions of a program agree ---- *)
(* two handles, held by two clients (possibly of different builds), read alike *)
Definition alike (tau : R) (s1 : @state (RNum tau)) (h1 : @handle (RNum tau)) (s2 : @state (RNum tau)) (h2 : @handle (RNum tau)) : Prop :=
  h_k h1 = h_k h2 /\ h_n h1 = h_n h2 /\
  match h_k h1 with
  | KV => forall v, reads_v tau s1 (h_n h1) (h_e h1) v <-> reads_v tau s2 (h_n h2) (h_e h2) v
  | KM => forall A, reads_m tau s1 (h_n h1) (h_e h1) A <-> reads_m tau s2 (h_n h2) (h_e h2) A
  end.
Lemma holds_alike tau s1 h1 s2 h2 x : holds tau s1 h1 x -> holds tau s2 h2 x -> alike tau s1 h1 s2 h2.
Proof.
  destruct h1 as [k1 n1 e1], h2 as [k2 n2 e2]. unfold alike. destruct x as [n v|n A]; cbn [holds h_k h_n h_e];
    intros (-> & -> & R1) (-> & -> & R2); (split; [reflexivity|]); (split; [reflexivity|]); cbn.
  - intros w. split; intros Hw.
    + apply (reads_v_veq tau) with v; auto. exact (reads_v_det tau _ _ _ _ _ R1 Hw).
    + apply (reads_v_veq tau) with v; auto. exact (reads_v_det tau _ _ _ _ _ R2 Hw).
  - intros w. split; intros Hw.
    + apply (reads_m_meq tau) with A; auto. exact (reads_m_det tau _ _ _ _ _ R1 Hw).
    + apply (reads_m_meq tau) with A; auto. exact (reads_m_det tau _ _ _ _ _ R2 Hw).
Qed.
(* Two executions of one program: CF1 and CF2 may differ in the build (mt_on),
   the hash functions and the pointer ordering; the executions may differ in
   every scheduling decision, in the threads running each fiber, in the cache
   contents, the evictions, the collections.  They print the same measurement
   outcomes and end with handles that read alike. *)
Theorem C09_C10_executions_agree (tau : R) (HTol : Tol tau) (CF1 CF2 : Cfg) p c1 c2 os1 os2 env os : tau = 0%R ->
  irun p env os -> @exec tau CF1 p c1 os1 -> @exec tau CF2 p c2 os2 ->
  os1 = os2 /\ Forall2 (fun h1 h2 => alike tau (fst c1) h1 (fst c2) h2) (snd c1) (snd c2).
Proof.
  intros H0 Hi H1 H2.
  destruct (@exec_refines tau HTol CF1 p c1 os1 env os H0 H1 Hi) as (-> & _ & F1).
  destruct (@exec_refines tau HTol CF2 p c2 os2 env os H0 H2 Hi) as (-> & _ & F2). split; auto.
  clear -F1 F2. revert F1 F2. generalize (snd c1) (snd c2). intros l1 l2 F1. revert l2.
  induction F1 as [|h1 x l1 env Hx F1 IH]; intros l2 F2; inversion F2; subst; constructor; auto.
  eapply holds_alike; eauto.
Qed.
