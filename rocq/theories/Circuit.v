(* Circuit.v -- properties C29 and C30: simulating a circuit gate by gate, or with
   groups of gates fused by mm_multiply first, with collections and unrelated
   activity anywhere. *)
From Coq Require Import Reals Lra Psatz ZArith Bool List Lia Arith FunctionalExtensionality.
From Coquelicot Require Import Complex.
From Verif Require Import Num State DD Gates GC Measure Api RNum Wf Sums Err Inv Wp Make Add MulV Canon MM MM2
  GateP StateP Kron Spec SpecP Readout GCP MeasureP MeasAllP MeasOneP ApplyP ApiP Obs Props1 Props2 Prog.
Import ListNotations.
Open Scope Z_scope.

(* ---- circuits and their ideal meaning ---- *)
Inductive op := U1 (g : nat -> nat -> C) (t : Z) (l : ctls) | U2 (g : nat -> nat -> C) (t0 t1 : Z) (l : ctls).
Definition op_ok (n : nat) (o : op) : Prop :=
  match o with
  | U1 g t l => qubit n t /\ controls_ok n [t] l
  | U2 g t0 t1 l => qubit n t0 /\ qubit n t1 /\ t0 <> t1 /\ controls_ok n [t0; t1] l
  end.
Definition op_unitary (o : op) : Prop := match o with U1 g _ _ => unitary 1 g | U2 g _ _ _ => unitary 2 g end.
Definition op_mat (n : nat) (o : op) : matrix :=
  match o with
  | U1 g t l => gate1 n g (Z.to_nat t) l
  | U2 g t0 t1 l => gate2 n g (Z.to_nat t0) (Z.to_nat t1) l
  end.
(* the state after the circuit; circuits are written last operation first *)
Fixpoint ideal (n : nat) (ops : list op) : vector :=
  match ops with [] => basis 0 | o :: r => mv n (op_mat n o) (ideal n r) end.

(* ---- the two ways of running a circuit, as programs (Prog.v) ---- *)
(* qdd/qdd_backend.py:653-1043 (gate by gate), 430-503 (merge_circuit) *)
Definition op_instr (n : nat) (o : op) : instr :=
  match o with U1 g t l => P_gate n g t l | U2 g t0 t1 l => P_gate2 n g t0 t1 l end.
Fixpoint direct (n : nat) (ops : list op) : list instr :=
  match ops with [] => [P_zero n] | o :: r => P_mul 0 1 :: op_instr n o :: direct n r end.
Fixpoint fuse (n : nat) (g : list op) : list instr :=
  match g with [] => [P_gate n ident 0 []] | o :: r => P_mmmul 0 1 :: op_instr n o :: fuse n r end.
Fixpoint merged (n : nat) (groups : list (list op)) : list instr :=
  match groups with
  | [] => [P_zero n]
  | g :: r => P_mul 0 (1 + 2 * length g) :: fuse n g ++ merged n r
  end.

Lemma op_isem n o env : size_ok n -> op_ok n o -> isem (op_instr n o) env (IM n (op_mat n o)) [].
Proof. intros Hn. destruct o; cbn; tauto. Qed.
Lemma direct_run n ops : size_ok n -> (forall o, In o ops -> op_ok n o) ->
  exists env os, irun (direct n ops) (IV n (ideal n ops) :: env) os.
Proof.
  intros Hn. induction ops as [|o r IH]; intros Hok.
  - exists [], [[]]. cbn. repeat constructor; apply Hn.
  - destruct IH as (env & os & Hr); [intros; apply Hok; now right|]. cbn [direct ideal].
    exists (IM n (op_mat n o) :: IV n (ideal n r) :: env), ([] :: [] :: os).
    econstructor; [econstructor; [exact Hr|apply op_isem; auto; apply Hok; now left]|].
    exists n, (op_mat n o), (ideal n r). cbn. repeat split; reflexivity.
Qed.
Fixpoint mprod (n : nat) (g : list op) : matrix :=
  match g with [] => gate1 n ident 0 [] | o :: r => mm n (op_mat n o) (mprod n r) end.
Fixpoint apply_ops (n : nat) (g : list op) (v : vector) : vector :=
  match g with [] => v | o :: r => mv n (op_mat n o) (apply_ops n r v) end.
Fixpoint ideal_m (n : nat) (groups : list (list op)) : vector :=
  match groups with [] => basis 0 | g :: r => mv n (mprod n g) (ideal_m n r) end.
Lemma fuse_run n g p env os : size_ok n -> (forall o, In o g -> op_ok n o) -> irun p env os ->
  exists ms os', length ms = (2 * length g)%nat /\ irun (fuse n g ++ p) (IM n (mprod n g) :: ms ++ env) os'.
Proof.
  intros Hn Hok Hp. induction g as [|o r IH].
  - exists [], ([] :: os). split; auto. cbn. constructor; auto. cbn. split; [exact Hn|].
    split; [unfold qubit; destruct Hn; lia|]. split; [|split; reflexivity]. split; [constructor|]. intros x [].
  - destruct IH as (ms & os' & Hl & Hr); [intros; apply Hok; now right|].
    exists (IM n (op_mat n o) :: IM n (mprod n r) :: ms), ([] :: [] :: os'). split; [cbn; lia|]. cbn [fuse app mprod].
    econstructor; [econstructor; [exact Hr|apply op_isem; auto; apply Hok; now left]|].
    exists n, (op_mat n o), (mprod n r). cbn. repeat split; reflexivity.
Qed.
Lemma merged_run n groups : size_ok n -> (forall g o, In g groups -> In o g -> op_ok n o) ->
  exists env os, irun (merged n groups) (IV n (ideal_m n groups) :: env) os.
Proof.
  intros Hn. induction groups as [|g r IH]; intros Hok.
  - exists [], [[]]. cbn. repeat constructor; apply Hn.
  - destruct IH as (env & os & Hr); [intros g' o Hg Ho; apply (Hok g'); auto; now right|].
    destruct (fuse_run n g _ _ _ Hn (fun o Ho => Hok g o (or_introl eq_refl) Ho) Hr) as (ms & os' & Hl & Hf).
    cbn [merged ideal_m]. eexists _, _. econstructor; [exact Hf|]. cbn [isem].
    exists n, (mprod n g), (ideal_m n r). split; [reflexivity|]. split; [|split; reflexivity].
    cbn [nth_error]. replace (2 * length g)%nat with (length ms) by exact Hl.
    change (S (length ms)) with (1 + length ms)%nat. cbn [plus nth_error]. rewrite nth_error_app2, Nat.sub_diag by lia. reflexivity.
Qed.
Lemma apply_ops_ext n g v w : veq n v w -> veq n (apply_ops n g v) (apply_ops n g w).
Proof. intros Hv. induction g as [|o r IH]; cbn; auto. intros i Hi. apply mv_ext; auto using meq_refl. Qed.
Lemma mprod_apply n g v : (1 <= n)%nat -> veq n (mv n (mprod n g) v) (apply_ops n g v).
Proof.
  intros Hn. induction g as [|o r IH]; cbn [mprod apply_ops].
  - eapply veq_trans; [|apply mv_ident]. intros i Hi. apply mv_ext; auto using veq_refl. apply gate1_ident; lia.
  - eapply veq_trans; [apply mv_mm|]. intros i Hi. apply mv_ext; auto using meq_refl.
Qed.
Lemma apply_ideal n g r : apply_ops n g (ideal n r) = ideal n (g ++ r).
Proof. induction g as [|o g IH]; cbn; auto. now rewrite IH. Qed.
Lemma ideal_merged n groups : (1 <= n)%nat -> veq n (ideal_m n groups) (ideal n (concat groups)).
Proof.
  intros Hn. induction groups as [|g r IH]; cbn [ideal_m concat]; [apply veq_refl|].
  eapply veq_trans; [apply mprod_apply; auto|]. rewrite <- apply_ideal. now apply apply_ops_ext.
Qed.

(* ---- l2 norm ---- *)
Definition l2 (N : nat) (f : nat -> C) : R := sqrt (rsum N (fun i => (Cmod (f i) ^ 2)%R)).
Lemma rsum_nonneg N f : (forall i, (i < N)%nat -> (0 <= f i)%R) -> (0 <= rsum N f)%R.
Proof. induction N as [|N IH]; intros Hf; cbn; [lra|]. pose proof (Hf N ltac:(lia)). specialize (IH (fun i Hi => Hf i ltac:(lia))). lra. Qed.
Lemma rsum_sq_nonneg N (f : nat -> C) : (0 <= rsum N (fun i => (Cmod (f i) ^ 2)%R))%R.
Proof. apply rsum_nonneg. intros. apply pow2_ge_0. Qed.
Lemma l2_S N f : l2 (S N) f = Cmod (l2 N f, Cmod (f N)).
Proof.
  unfold l2, Cmod at 2. cbn [rsum fst snd]. f_equal. rewrite pow2_sqrt; auto. apply rsum_sq_nonneg.
Qed.
Lemma l2_pos N f : (0 <= l2 N f)%R. Proof. apply sqrt_pos. Qed.
Lemma Cmod_mono a b x y : (0 <= a <= b)%R -> (0 <= x <= y)%R -> (Cmod (a, x) <= Cmod (b, y))%R.
Proof. intros Ha Hx. unfold Cmod. cbn [fst snd]. apply sqrt_le_1_alt. nra. Qed.
Lemma l2_triangle N f g : (l2 N (fun i => Cplus (f i) (g i)) <= l2 N f + l2 N g)%R.
Proof.
  induction N as [|N IH].
  - unfold l2. cbn. rewrite sqrt_0. lra.
  - rewrite !l2_S. eapply Rle_trans; [|apply (Cmod_triangle (l2 N f, Cmod (f N)) (l2 N g, Cmod (g N)))].
    unfold Cplus at 2. cbn [fst snd]. apply Cmod_mono; split; [apply l2_pos|exact IH|apply Cmod_ge_0|apply Cmod_triangle].
Qed.
Lemma l2_ge N f i : (i < N)%nat -> (Cmod (f i) <= l2 N f)%R.
Proof.
  intros Hi. unfold l2. rewrite <- (sqrt_pow2 (Cmod (f i))) by apply Cmod_ge_0. apply sqrt_le_1_alt.
  induction N as [|N IH]; [lia|]. cbn [rsum]. destruct (Nat.eq_dec i N) as [->|Hne].
  - pose proof (rsum_sq_nonneg N f). lra.
  - specialize (IH ltac:(lia)). pose proof (pow2_ge_0 (Cmod (f N))). lra.
Qed.
Lemma rsum_const N c : rsum N (fun _ => c) = (INR N * c)%R.
Proof. induction N as [|N IH]; cbn [rsum]; [cbn; ring|]. rewrite IH, S_INR. ring. Qed.
Lemma rsum_le N f g : (forall i, (i < N)%nat -> (f i <= g i)%R) -> (rsum N f <= rsum N g)%R.
Proof. induction N as [|N IH]; intros Hf; cbn; [lra|]. pose proof (Hf N ltac:(lia)). specialize (IH (fun i Hi => Hf i ltac:(lia))). lra. Qed.
Lemma l2_le N f d : (0 <= d)%R -> (forall i, (i < N)%nat -> (Cmod (f i) <= d)%R) -> (l2 N f <= sqrt (INR N) * d)%R.
Proof.
  intros Hd Hf. unfold l2. rewrite <- (sqrt_pow2 d) at 1 by auto. rewrite <- sqrt_mult by (auto using pos_INR, pow2_ge_0).
  apply sqrt_le_1_alt. rewrite <- rsum_const. apply rsum_le. intros i Hi. specialize (Hf i Hi). pose proof (Cmod_ge_0 (f i)). nra.
Qed.
Lemma l2_ext N f g : (forall i, (i < N)%nat -> f i = g i) -> l2 N f = l2 N g.
Proof. intros Hf. unfold l2. f_equal. apply rsum_ext'. intros i Hi. now rewrite Hf. Qed.
Definition dist (n : nat) (v w : vector) : R := l2 (2 ^ n) (fun i => Cminus (v i) (w i)).
Lemma dist_tri n u v w : (dist n u w <= dist n u v + dist n v w)%R.
Proof.
  unfold dist. eapply Rle_trans; [|apply l2_triangle]. right. apply l2_ext. intros i _. ring.
Qed.
Lemma dist_of_close n v w d : (0 <= d)%R -> vclose n d v w -> (dist n v w <= sqrt (INR (2 ^ n)) * d)%R.
Proof. intros Hd Hc. apply l2_le; auto. Qed.
Lemma close_of_dist n v w d : (dist n v w <= d)%R -> vclose n d v w.
Proof. intros Hd i Hi. eapply Rle_trans; [|exact Hd]. apply (l2_ge (2 ^ n) (fun i => Cminus (v i) (w i))). exact Hi. Qed.
Lemma csum_minus N f g : csum N (fun i => Cminus (f i) (g i)) = Cminus (csum N f) (csum N g).
Proof. induction N as [|N IH]; cbn; [ring|]. rewrite IH. ring. Qed.
Lemma dist_unitary n A v w : unitary n A -> dist n (mv n A v) (mv n A w) = dist n v w.
Proof.
  intros HU. unfold dist, l2. f_equal. pose proof (unitary_norm n A (fun i => Cminus (v i) (w i)) HU) as Hn. unfold norm2v in Hn.
  rewrite <- Hn. apply rsum_ext'. intros i Hi. do 2 f_equal. unfold mv. rewrite <- csum_minus. apply csum_ext'. intros; ring.
Qed.
(* unitary matrices have entries of modulus at most 1 *)
Lemma unitary_entry n A i j : unitary n A -> (i < 2 ^ n)%nat -> (j < 2 ^ n)%nat -> (Cmod (A i j) <= 1)%R.
Proof.
  intros HU Hi Hj. pose proof (unitary_norm n A (basis j) HU) as Hn.
  assert (Hb : norm2v n (basis j) = 1%R).
  { unfold norm2v. rewrite (rsum_ext' _ _ (fun i => if Nat.eqb i j then 1%R else 0%R)).
    - clear -Hj. revert Hj. generalize (2 ^ n)%nat. intros N Hj. induction N as [|N IH]; [lia|]. cbn [rsum].
      destruct (Nat.eqb_spec N j) as [->|Hne].
      + assert (Hz : rsum j (fun i => if Nat.eqb i j then 1%R else 0%R) = 0%R).
        { rewrite (rsum_ext' _ _ (fun _ => 0%R)); [rewrite rsum_const; ring|]. intros i Hi. destruct (Nat.eqb_spec i j); auto; lia. }
        rewrite Hz. ring.
      + rewrite IH by lia. ring.
    - intros k Hk. unfold basis. destruct (Nat.eqb k j); [rewrite Cmod_1|rewrite Cmod_0]; ring. }
  assert (Hm : forall i, (i < 2 ^ n)%nat -> mv n A (basis j) i = A i j).
  { intros k Hk. unfold mv. rewrite (csum_one _ _ j Hj).
    - unfold basis. rewrite Nat.eqb_refl. ring.
    - intros l Hl Hne. unfold basis. destruct (Nat.eqb_spec l j); [congruence|]. ring. }
  pose proof (l2_ge (2 ^ n) (mv n A (basis j)) i Hi) as Hl. rewrite Hm in Hl by exact Hi.
  unfold l2 in Hl. unfold norm2v in Hn at 1. rewrite Hn, Hb, sqrt_1 in Hl. exact Hl.
Qed.

Lemma op_unitary_mat n o : op_ok n o -> op_unitary o -> unitary n (op_mat n o).
Proof.
  destruct o as [g t l|g t0 t1 l]; cbn [op_ok op_unitary op_mat].
  - intros [Hq [Hnd Hc]] HU. apply gate1_unitary; auto; [unfold qubit in Hq; lia|]. intros x Hx. destruct (Hc x Hx) as [H1 H2].
    split; [exact H1|]. intros [Ht|[]]. apply H2. left. unfold qubit in *. lia.
  - intros (Hq0 & Hq1 & Hne & Hnd & Hc) HU. unfold qubit in *. apply gate2_unitary; auto; try lia.
    intros x Hx. destruct (Hc x Hx) as [H1 H2]. unfold qubit in *.
    split; [exact H1|]. intros [Ht|[Ht|[]]]; apply H2; [left|right; left]; lia.
Qed.
Lemma norm_basis0 n : norm2v n (basis 0) = 1%R.
Proof.
  unfold norm2v. assert (Hp : (0 < 2 ^ n)%nat) by (apply Nat.neq_0_lt_0, Nat.pow_nonzero; lia). revert Hp. generalize (2 ^ n)%nat.
  intros N Hp. induction N as [|[|N] IH]; [lia| |].
  - cbn [rsum]. change (basis 0 0%nat) with (RtoC 1). rewrite Cmod_1. ring.
  - change (rsum (S (S N)) (fun i => (Cmod (basis 0 i) ^ 2)%R)) with (rsum (S N) (fun i => (Cmod (basis 0 i) ^ 2)%R) + Cmod (basis 0 (S N)) ^ 2)%R.
    rewrite IH by lia. change (basis 0 (S N)) with (RtoC 0). rewrite Cmod_0. ring.
Qed.
Lemma ideal_norm n ops : (forall o, In o ops -> op_ok n o /\ op_unitary o) -> norm2v n (ideal n ops) = 1%R.
Proof.
  induction ops as [|o r IH]; intros Hok; cbn [ideal]; [apply norm_basis0|].
  destruct (Hok o (or_introl eq_refl)) as [H1 H2]. rewrite unitary_norm by now apply op_unitary_mat.
  apply IH. intros o' Ho. apply Hok. now right.
Qed.
Lemma ideal_le1 n ops i : (forall o, In o ops -> op_ok n o /\ op_unitary o) -> (i < 2 ^ n)%nat -> (Cmod (ideal n ops i) <= 1)%R.
Proof.
  intros Hok Hi. pose proof (ideal_norm n ops Hok) as Hn. pose proof (l2_ge (2 ^ n) (ideal n ops) i Hi) as Hl.
  unfold l2 in Hl. unfold norm2v in Hn. now rewrite Hn, sqrt_1 in Hl.
Qed.
Lemma csum_bound N (f : nat -> C) d : (forall i, (i < N)%nat -> (Cmod (f i) <= d)%R) -> (Cmod (csum N f) <= INR N * d)%R.
Proof.
  induction N as [|N IH]; intros Hf; cbn [csum].
  - rewrite Cmod_0. cbn. lra.
  - eapply Rle_trans; [apply Cmod_triangle|]. rewrite S_INR. pose proof (Hf N ltac:(lia)). specialize (IH (fun i Hi => Hf i ltac:(lia))). lra.
Qed.
Lemma mv_close n A A' w eg W : (0 <= eg)%R -> mclose n eg A' A -> (forall i, (i < 2 ^ n)%nat -> (Cmod (w i) <= W)%R) ->
  vclose n (INR (2 ^ n) * (eg * W)) (mv n A' w) (mv n A w).
Proof.
  intros He HA Hw i Hi. unfold mv. rewrite <- csum_minus. apply csum_bound. intros j Hj.
  replace (Cminus (Cmult (A' i j) (w j)) (Cmult (A i j) (w j))) with (Cmult (Cminus (A' i j) (A i j)) (w j)) by ring.
  rewrite Cmod_mult. apply Rmult_le_compat; auto using Cmod_ge_0.
Qed.

Section Run.
Context (tau : R) {HTol : Tol tau}.
Let Htau : (0 <= tau < 1 / 2)%R := tol_ok.
#[local] Hint Extern 0 NumOps => exact (RNum tau) : typeclass_instances.
Context {CF : Cfg}.
Notation state := (@state (RNum tau)).
Notation edge := (@edge (RNum tau)).
Notation handle := (@handle (RNum tau)).
Notation comp := (@comp (RNum tau)).
Notation reads_v := (reads_v tau).
Notation reads_m := (reads_m tau).
Notation reads_v_upto := (reads_v_upto tau).
Ltac toR := change (@num (RNum tau)) with R in *.

(* ---- C29, exact comparison: gate by gate, as an execution of [direct] ---- *)
Theorem C29_circuit_exact n ops s h hs os : tau = 0%R -> size_ok n -> (forall o, In o ops -> op_ok n o) ->
  exec tau (direct n ops) (s, h :: hs) os -> h_k h = KV /\ h_n h = n /\ reads_v s n (h_e h) (ideal n ops).
Proof.
  intros H0 Hn Hok Hx. destruct (direct_run n ops Hn Hok) as (env & os' & Hi).
  destruct (exec_refines tau _ _ _ _ _ H0 Hx Hi) as (_ & _ & HF). cbn [fst snd] in HF. inversion HF as [|a b c d Ha Hb]. exact Ha.
Qed.
(* ---- C30: fusing groups of gates first gives the same state ---- *)
Theorem C30_merge_exact n groups s h hs os : tau = 0%R -> size_ok n -> (forall g o, In g groups -> In o g -> op_ok n o) ->
  exec tau (merged n groups) (s, h :: hs) os -> h_k h = KV /\ h_n h = n /\ reads_v s n (h_e h) (ideal n (concat groups)).
Proof.
  intros H0 Hn Hok Hx. destruct (merged_run n groups Hn Hok) as (env & os' & Hi).
  destruct (exec_refines tau _ _ _ _ _ H0 Hx Hi) as (_ & _ & HF). cbn [fst snd] in HF. inversion HF as [|a b c d Ha Hb]; clear HF.
  destruct Ha as (Q1 & Q2 & Q3). split; auto. split; auto. eapply (reads_v_veq tau); [|exact Q3]. apply ideal_merged. apply Hn.
Qed.

(* ---- C29 with a positive tolerance: circuits interleaved with anything ---- *)
Definition op_comp (n : nat) (o : op) : comp :=
  match o with
  | U1 g t l => makeGate (Z.of_nat n) g t (mkControls l)
  | U2 g t0 t1 l => makeTwoQubitGate (Z.of_nat n) g t0 t1 (mkControls l)
  end.
(* [circ n ops c e]: the operations ops (last first) were applied to |0...0>, giving
   the state handle e, in the middle of other activity, ending in client c *)
Inductive circ (n : nat) : list op -> state * list handle -> edge -> Prop :=
| c_start s hs e s' : reachable (s, hs) -> steps (Cfg_ok (makeZeroState n) s) (Cfg_ok (CRet e) s') ->
    circ n [] (s', H KV n e :: hs) e
| c_op o ops s hs e g s1 e' s2 : circ n ops (s, hs) e ->
    steps (Cfg_ok (op_comp n o) s) (Cfg_ok (CRet g) s1) ->
    steps (Cfg_ok (mv_multiply g e) s1) (Cfg_ok (CRet e') s2) ->
    circ n (o :: ops) (s2, H KV n e' :: H KM n g :: hs) e'
(* anything else the client does in between *)
| c_call ops s hs e k m c x s' : circ n ops (s, hs) e -> call hs k m c -> steps (Cfg_ok c s) (Cfg_ok (CRet x) s') ->
    circ n ops (s', H k m x :: hs) e
| c_drop ops s hs e hs' : circ n ops (s, hs) e -> incl hs' hs -> In (H KV n e) hs' -> circ n ops (s, hs') e
| c_gc ops s e ns es ms i force e' es' s' : circ n ops (s, rehandle KV (n :: ns) (e :: es) ++ ms) e ->
    length ns = length es -> of_kind KM ms -> gc i (e :: es) force s = Some (e' :: es', s') ->
    circ n ops (s', rehandle KV (n :: ns) (e' :: es') ++ ms) e'
| c_gc_mat ops s e ns es vs i force es' s' : circ n ops (s, rehandle KM ns es ++ vs) e ->
    length ns = length es -> of_kind KV vs -> gc_mat i es force s = Some (es', s') ->
    circ n ops (s', rehandle KM ns es' ++ vs) e
| c_evict ops s hs e s' : circ n ops (s, hs) e -> evicted s s' -> circ n ops (s', hs) e
| c_thr ops s hs e v m : circ n ops (s, hs) e -> circ n ops (set_gc_thr v m s, hs) e
| c_probs ops s hs e m x l s' : circ n ops (s, hs) e -> In (H KV m x) hs -> is_term (en x) = false -> (m <= 30)%nat ->
    probabilities x s = Some (l, s') -> circ n ops (s', hs) e
| c_sample ops s hs e m x v ths r x' s' : circ n ops (s, hs) e -> In (H KV m x) hs -> reads_v s m x v -> nonzero_v m v ->
    (m <= length ths)%nat -> (forall y, In y ths -> (0 <= y < 1)%R) ->
    measureAll x false ths s = Some (r, x', s') -> circ n ops (s', H KV m x' :: hs) e.

(* accumulated error after k operations, in the 2-norm *)
Definition eop (n : nat) (W : R) : R := (emv tau n (1 + egate tau n 1) W + INR (2 ^ n) * (egate tau n 1 * W))%R.
Fixpoint ecirc (n k : nat) : R :=
  match k with O => 0%R | S j => (ecirc n j + sqrt (INR (2 ^ n)) * eop n (1 + ecirc n j))%R end.
Lemma eop_pos n W : (0 <= W)%R -> (0 <= eop n W)%R.
Proof.
  intros HW. unfold eop. pose proof (egate_pos tau n 1 ltac:(lra)) as He. pose proof (emv_pos tau n (1 + egate tau n 1) W ltac:(lra) HW).
  pose proof (pos_INR (2 ^ n)). apply Rplus_le_le_0_compat; auto. apply Rmult_le_pos; auto. apply Rmult_le_pos; auto.
Qed.
Lemma ecirc_pos n k : (0 <= ecirc n k)%R.
Proof.
  induction k as [|k IH]; cbn [ecirc]; [lra|]. pose proof (eop_pos n (1 + ecirc n k) ltac:(lra)). pose proof (sqrt_pos (INR (2 ^ n))). nra.
Qed.
Lemma ecirc_0 n k : tau = 0%R -> ecirc n k = 0%R.
Proof.
  intros H0. induction k as [|k IH]; cbn [ecirc]; auto. rewrite IH. unfold eop. rewrite (emv_0 tau), (egate_0 tau) by exact H0. ring.
Qed.
Lemma op_returns n o s hs : reachable (s, hs) -> size_ok n -> op_ok n o -> op_unitary o ->
  call hs KM n (op_comp n o) /\ returns tau (op_comp n o) s (fun e s' => reads_m_upto tau (egate tau n 1) s' n e (op_mat n o)).
Proof.
  intros Hr Hn Hok HU. destruct o as [g t l|g t0 t1 l]; cbn [op_ok op_unitary op_comp op_mat] in *.
  - destruct Hok as [Hq Hc]. split; [now apply k_gate|].
    eapply (returns_mono tau); [|apply (C03_makeGate tau s hs n g t l 1); auto; [lra|]].
    + intros e s' [Hx _]. exact Hx.
    + intros i j Hi Hj. exact (unitary_entry 1 g i j HU Hi Hj).
  - destruct Hok as (Hq0 & Hq1 & Hne & Hc). split; [now apply k_gate2|].
    eapply (returns_mono tau); [|apply (C04_makeTwoQubitGate tau s hs n g t0 t1 l 1); auto; [lra|]].
    + intros e s' [Hx _]. exact Hx.
    + intros i j Hi Hj. exact (unitary_entry 2 g i j HU Hi Hj).
Qed.
Lemma circ_ok n ops c e : size_ok n -> (forall o, In o ops -> op_ok n o /\ op_unitary o) -> circ n ops c e ->
  reachable c /\ In (H KV n e) (snd c) /\
  exists w, reads_v (fst c) n e w /\ (dist n w (ideal n ops) <= ecirc n (length ops))%R.
Proof.
  intros Hn Hok Hc. induction Hc as
    [s hs e s' Hr Hst|o ops s hs e g s1 e' s2 Hc IH Hg Hm|ops s hs e k m c x s' Hc IH Hcall Hst|ops s hs e hs' Hc IH Hi Hin
    |ops s e ns es ms i force e' es' s' Hc IH Hl Hms Hgc|ops s e ns es vs i force es' s' Hc IH Hl Hvs Hgc
    |ops s hs e s' Hc IH Hev|ops s hs e v m Hc IH|ops s hs e m x l s' Hc IH Hx Ht Hm Hp
    |ops s hs e m x v ths r x' s' Hc IH Hx Hrd Hnz Hlen Hths Hm]; cbn [fst snd] in *.
  - destruct (C01_makeZeroState tau s hs n Hr Hn) as (_ & _ & Hret). specialize (Hret e s' Hst).
    split; [eapply r_step; [exact Hr|eapply a_call; [apply k_zero; exact Hn|exact Hst]]|]. split; [now left|].
    exists (basis 0). split; auto. cbn [ideal length ecirc]. unfold dist.
    rewrite (l2_ext _ _ (fun _ => RtoC 0)) by (intros; ring). unfold l2. rewrite (rsum_ext' _ _ (fun _ => 0%R)).
    + rewrite rsum_const, Rmult_0_r, sqrt_0. lra.
    + intros i _. rewrite Cmod_0. ring.
  - assert (Hok' : forall o, In o ops -> op_ok n o /\ op_unitary o) by (intros o' Ho; apply Hok; now right).
    destruct (IH Hok') as (Hr & Hin & w & Hw & Hd). clear IH.
    destruct (Hok o (or_introl eq_refl)) as [Ho HU].
    destruct (op_returns n o s hs Hr Hn Ho HU) as (Hcall & _ & _ & Hret). specialize (Hret g s1 Hg).
    destruct (C56_frame tau s hs _ _ _ g s1 Hr Hcall Hg) as [Fv _].
    assert (Hr1 : reachable (s1, H KM n g :: hs)) by (eapply r_step; [exact Hr|eapply a_call; eauto]).
    pose proof (Fv n e w Hin Hw) as Hw1. destruct Hret as (A & HA & HcA).
    assert (Hcall2 : call (H KM n g :: hs) KV n (mv_multiply g e)) by (apply k_mul; [now left|now right]).
    set (ec := ecirc n (length ops)) in *. pose proof (ecirc_pos n (length ops)) as Hec. fold ec in Hec.
    pose proof (egate_pos tau n 1 ltac:(lra)) as Heg.
    assert (HwW : forall i, (i < 2 ^ n)%nat -> (Cmod (w i) <= 1 + ec)%R).
    { intros i Hi. pose proof (close_of_dist _ _ _ _ Hd i Hi) as Hx. pose proof (ideal_le1 n ops i Hok' Hi) as Hy.
      replace (w i) with (Cplus (ideal n ops i) (Cminus (w i) (ideal n ops i))) by ring.
      eapply Rle_trans; [apply Cmod_triangle|]. lra. }
    pose proof (op_unitary_mat n o Ho HU) as HUm.
    assert (HAA : forall i j, (i < 2 ^ n)%nat -> (j < 2 ^ n)%nat -> (Cmod (A i j) <= 1 + egate tau n 1)%R).
    { intros i j Hi Hj. pose proof (unitary_entry n _ i j HUm Hi Hj) as Hx. specialize (HcA i j Hi Hj).
      replace (A i j) with (Cplus (op_mat n o i j) (Cminus (A i j) (op_mat n o i j))) by ring.
      eapply Rle_trans; [apply Cmod_triangle|]. lra. }
    destruct (C05_mv_multiply tau s1 _ n g e A w _ _ Hr1 (or_introl eq_refl) (or_intror Hin) HA Hw1 HAA HwW) as (_ & _ & Hret2).
    destruct (Hret2 e' s2 Hm) as [(w' & Hw' & Hcl) _].
    split; [eapply r_step; [exact Hr1|eapply a_call; eauto]|]. split; [now left|].
    exists w'. split; auto. cbn [ideal length ecirc]. fold ec.
    eapply Rle_trans; [apply (dist_tri n w' (mv n (op_mat n o) w))|].
    rewrite dist_unitary by exact HUm.
    assert (Hc2 : vclose n (eop n (1 + ec)) w' (mv n (op_mat n o) w)).
    { intros i Hi. replace (Cminus (w' i) (mv n (op_mat n o) w i)) with
        (Cplus (Cminus (w' i) (mv n A w i)) (Cminus (mv n A w i) (mv n (op_mat n o) w i))) by ring.
      eapply Rle_trans; [apply Cmod_triangle|]. unfold eop. apply Rplus_le_compat; [now apply Hcl|].
      now apply (mv_close n (op_mat n o) A w _ _ Heg HcA HwW). }
    pose proof (dist_of_close n _ _ _ (eop_pos n (1 + ec) ltac:(lra)) Hc2). lra.
  - destruct (IH Hok) as (Hr & Hin & w & Hw & Hd). destruct (C56_frame tau s hs _ _ _ x s' Hr Hcall Hst) as [Fv _].
    split; [eapply r_step; [exact Hr|eapply a_call; eauto]|]. split; [now right|]. exists w. split; auto.
  - destruct (IH Hok) as (Hr & _ & w & Hw & Hd). split; [eapply r_step; [exact Hr|now apply a_drop]|]. split; auto. exists w. auto.
  - destruct (IH Hok) as (Hr & Hin & w & Hw & Hd).
    destruct (C13_gc tau s (n :: ns) (e :: es) ms i force Hr) as (es2 & s2 & Hg2 & _ & Hv & _ & _ & _ & Hr2); auto.
    { cbn. now rewrite Hl. }
    rewrite Hgc in Hg2. injection Hg2 as <- <-. split; auto. split; [now left|]. exists w. split; auto.
    destruct (C12_root_weight_max_v tau _ _ _ _ _ Hr Hin Hw) as (Hx & _).
    destruct (Hv 0%nat n e e' w _ eq_refl eq_refl eq_refl Hw Hx) as [Hu _]. unfold gc_slack in Hu. cbn [Nat.eqb] in Hu.
    eapply (upto_0_v tau); [reflexivity|exact Hu].
  - destruct (IH Hok) as (Hr & Hin & w & Hw & Hd).
    destruct (C14_gc_mat tau s ns es vs i force Hr Hl Hvs) as (es2 & s2 & Hg2 & _ & _ & Hv & _ & _ & Hr2).
    rewrite Hgc in Hg2. injection Hg2 as <- <-. split; auto.
    assert (Hin' : In (H KV n e) vs).
    { apply in_app_or in Hin. destruct Hin as [Hin|Hin]; auto. apply in_rehandle in Hin. destruct Hin as (a & b & Hab & _). discriminate Hab. }
    split; [apply in_or_app; now right|]. exists w. split; auto.
  - destruct (IH Hok) as (Hr & Hin & w & Hw & Hd). assert (Hr2 : reachable (s', hs)) by (eapply r_step; [exact Hr|now apply a_evict]).
    split; auto. split; auto. exists w. split; auto. eapply (reads_v_tb tau s); eauto. now rewrite (Logic.proj1 Hev).
  - destruct (IH Hok) as (Hr & Hin & w & Hw & Hd). assert (Hr2 : reachable (set_gc_thr v m s, hs)) by (eapply r_step; [exact Hr|apply a_thr]).
    split; auto. split; auto. exists w. split; auto. eapply (reads_v_tb tau s); eauto.
  - destruct (IH Hok) as (Hr & Hin & w & Hw & Hd). assert (Hr2 : reachable (s', hs)) by (eapply r_step; [exact Hr|exact (a_probs s hs m x l s' Hx Ht Hm Hp)]).
    split; auto. split; auto. exists w. split; auto.
    destruct (reach_V tau _ _ _ _ Hr Hx) as (A1 & A2 & A3). pose proof (wfp_nt tau _ _ _ A3 Ht) as Hwp.
    destruct (probabilities_spec tau s m x (reach_Inv tau _ _ Hr) (conj A2 Hm) Hwp) as (s2 & Hp2 & Px & _).
    rewrite Hp in Hp2. injection Hp2 as _ <-. eapply (reads_v_tb tau s); eauto. now rewrite (pe_tb _ _ _ Px).
  - destruct (IH Hok) as (Hr & Hin & w & Hw & Hd).
    destruct (C19_C20_measureAll tau s hs m x v false ths Hr Hx Hrd Hnz Hlen Hths) as (b2 & e2 & s2 & Hm2 & _ & _ & _ & _ & Fv & _ & Hr2).
    rewrite Hm in Hm2. injection Hm2 as _ <- <-. split; auto. split; [now right|]. exists w. split; auto.
Qed.
(* C29: for unitary circuits, the state read at the end is within ecirc of the
   ideal one (in the 2-norm, hence entrywise); exactly equal at tolerance 0 *)
Theorem C29_circuit n ops s hs e : size_ok n -> (forall o, In o ops -> op_ok n o /\ op_unitary o) -> circ n ops (s, hs) e ->
  (exists w, reads_v s n e w /\ (dist n w (ideal n ops) <= ecirc n (length ops))%R) /\
  reads_v_upto (ecirc n (length ops)) s n e (ideal n ops) /\
  (tau = 0%R -> reads_v s n e (ideal n ops)).
Proof.
  intros Hn Hok Hc. destruct (circ_ok n ops (s, hs) e Hn Hok Hc) as (Hr & Hin & w & Hw & Hd). cbn [fst snd] in *.
  split; [eauto|]. assert (Hu : reads_v_upto (ecirc n (length ops)) s n e (ideal n ops)).
  { exists w. split; auto. now apply close_of_dist. }
  split; auto. intros H0. eapply (upto_0_v tau); [|exact Hu]. now apply ecirc_0.
Qed.
(* ... and the next operation can always be carried out, under every schedule *)
Theorem C29_circuit_progress n ops o s hs e : size_ok n -> (forall o, In o ops -> op_ok n o /\ op_unitary o) ->
  op_ok n o -> op_unitary o -> circ n ops (s, hs) e ->
  returns tau (op_comp n o) s (fun g s1 => returns tau (mv_multiply g e) s1 (fun e' s2 =>
    circ n (o :: ops) (s2, H KV n e' :: H KM n g :: hs) e')).
Proof.
  intros Hn Hok Ho HU Hc. destruct (circ_ok n ops (s, hs) e Hn Hok Hc) as (Hr & Hin & _). cbn [fst snd] in *.
  destruct (op_returns n o s hs Hr Hn Ho HU) as (Hcall & Hnw & Hrun & _). split; [exact Hnw|]. split; [exact Hrun|].
  intros g s1 Hg. assert (Hr1 : reachable (s1, H KM n g :: hs)) by (eapply r_step; [exact Hr|eapply a_call; eauto]).
  assert (Hcall2 : call (H KM n g :: hs) KV n (mv_multiply g e)) by (apply k_mul; [now left|now right]).
  destruct (C15_calls_safe tau s1 _ _ _ _ Hr1 Hcall2) as [H1 H2]. split; [exact H1|]. split; [exact H2|].
  intros e' s2 Hm. eapply c_op; eauto.
Qed.
End Run.
(* C30: the merged circuit and the gate-by-gate circuit end in states that read alike *)
Theorem C30_merge_same (tau : R) (HTol : Tol tau) (CF1 CF2 : Cfg) n groups s1 h1 hs1 os1 s2 h2 hs2 os2 : tau = 0%R -> size_ok n ->
  (forall g o, In g groups -> In o g -> op_ok n o) ->
  @exec tau CF1 (merged n groups) (s1, h1 :: hs1) os1 -> @exec tau CF2 (direct n (concat groups)) (s2, h2 :: hs2) os2 ->
  alike tau s1 h1 s2 h2.
Proof.
  intros H0 Hn Hok H1 H2. destruct (@C30_merge_exact tau HTol CF1 n groups s1 h1 hs1 os1 H0 Hn Hok H1) as (A1 & A2 & A3).
  destruct (@C29_circuit_exact tau HTol CF2 n (concat groups) s2 h2 hs2 os2 H0 Hn) as (B1 & B2 & B3); auto.
  { intros o Ho. apply in_concat in Ho. destruct Ho as (g & Hg & Ho). eauto. }
  apply (holds_alike tau s1 h1 s2 h2 (IV n (ideal n (concat groups)))); repeat split; auto; try apply A3; apply B3.
Qed.
