(* BackendP.v -- properties C36 (classification and sampling), C37 (conditions),
   C38 (strings), C41 (counts) of the Qiskit backend. *)
From Coq Require Import Reals Lra Psatz ZArith Bool List Lia Arith FunctionalExtensionality.
From Coquelicot Require Import Complex.
From Verif Require Import Spec SpecP LargeP ApplyP MeasAllP Props2 Backend BackSpec.
Import ListNotations.
Open Scope nat_scope.

(* ---- draws ---- *)
Lemma Ex_ext {A} (t : tree A) f g : (forall a, f a = g a) -> Ex t f = Ex t g.
Proof. intros H. induction t as [a| |p k IH]; cbn; auto. now rewrite !IH. Qed.
Lemma Ex_bind {A B} (t : tree A) (k : A -> tree B) f : Ex (bind t k) f = Ex t (fun a => Ex (k a) f).
Proof. induction t as [a| |p t IH]; cbn; auto. now rewrite !IH. Qed.
Lemma Ex_scal {A} (t : tree A) c f : Ex t (fun a => c * f a)%R = (c * Ex t f)%R.
Proof. induction t as [a| |p t IH]; cbn; [reflexivity|ring|]. rewrite !IH. ring. Qed.
Lemma total_app {A} (a b : list (list (R * R) * option A)) f : total (a ++ b) f = (total a f + total b f)%R.
Proof. induction a as [|x a IH]; [unfold total; cbn; ring|]. unfold total in *. cbn [app fold_right]. rewrite IH. ring. Qed.
Lemma total_cons {A} (a : list (list (R * R) * option A)) f lo hi :
  total (map (fun x => ((lo, hi) :: fst x, snd x)) a) f = ((hi - lo) * total a f)%R.
Proof.
  induction a as [|[b [o|]] a IH]; unfold total in *; cbn [map fold_right fst snd volume]; [ring| |]; rewrite IH; ring.
Qed.
(* the expectation is the volume of the draws: a run on uniform draws returns a
   with probability [Prob t a] *)
Theorem Ex_is_volume {A} (t : tree A) f : Ex t f = total (leaves t) f.
Proof.
  induction t as [a| |p k IH]; [unfold total; cbn; ring|unfold total; cbn; ring|]. cbn [Ex leaves].
  rewrite total_app, !total_cons, !IH. ring.
Qed.
Theorem run_is_box {A} (t : tree A) : forall ths o rest, (forall x, In x ths -> (0 <= x < 1)%R) -> run t ths = Some (o, rest) ->
  exists b, In (b, o) (leaves t) /\ in_box b ths.
Proof.
  induction t as [a| |p k IH]; intros ths o rest Hu Hr; cbn in Hr.
  - injection Hr as <- <-. exists []. split; [left; reflexivity|exact Logic.I].
  - injection Hr as <- <-. exists []. split; [left; reflexivity|exact Logic.I].
  - destruct ths as [|th ths]; [discriminate|].
    assert (Hth : (0 <= th < 1)%R) by (apply Hu; left; reflexivity).
    assert (Hu' : forall x, In x ths -> (0 <= x < 1)%R) by (intros x Hx; apply Hu; right; exact Hx).
    destruct (Rlt_dec th p) as [Hlt|Hge].
    + destruct (IH false ths o rest Hu' Hr) as (b & Hb & Hi). exists ((0%R, p) :: b). split.
      * cbn. apply in_or_app. left. apply in_map_iff. exists (b, o). split; auto.
      * cbn. split; [lra|exact Hi].
    + destruct (IH true ths o rest Hu' Hr) as (b & Hb & Hi). exists ((p, 1%R) :: b). split.
      * cbn. apply in_or_app. right. apply in_map_iff. exists (b, o). split; auto.
      * cbn. split; [lra|exact Hi].
Qed.

(* ---- sums ---- *)
Lemma rsum_add N f g : rsum N (fun i => (f i + g i)%R) = (rsum N f + rsum N g)%R.
Proof. induction N as [|N IH]; cbn; [ring|]. rewrite IH. ring. Qed.
Lemma rsum_0 N f : (forall i, i < N -> f i = 0%R) -> rsum N f = 0%R.
Proof. induction N as [|N IH]; intros H; cbn; auto. rewrite IH, H; auto; try lia. ring. Qed.
Lemma rsum_nonneg N f : (forall i, i < N -> (0 <= f i)%R) -> (0 <= rsum N f)%R.
Proof. induction N as [|N IH]; intros H; cbn; [lra|]. specialize (IH ltac:(auto)). pose proof (H N ltac:(lia)). lra. Qed.
Lemma rsum_zero_inv N f : (forall i, i < N -> (0 <= f i)%R) -> rsum N f = 0%R -> forall i, i < N -> f i = 0%R.
Proof.
  induction N as [|N IH]; intros H Hs i Hi; [lia|]. cbn in Hs.
  pose proof (rsum_nonneg N f ltac:(auto)). pose proof (H N ltac:(lia)).
  assert (i = N \/ i < N) as [->|Hl] by lia; [lra|]. apply IH; auto. lra.
Qed.
Lemma rsum_zero_iff N (f : nat -> R) x : (x < N) -> (forall i, i < N -> i <> x -> f i = 0%R) -> rsum N f = f x.
Proof.
  induction N as [|N IH]; intros Hx H; [lia|]. cbn. destruct (Nat.eq_dec x N) as [->|Hne].
  - rewrite rsum_0; [ring|]. intros i Hi. apply H; lia.
  - rewrite IH; auto; try lia. rewrite (H N); auto; try lia. ring.
Qed.

(* ---- vectors ---- *)
Lemma mv_scaled n A c v : veq n (mv n A (scaled c v)) (scaled c (mv n A v)).
Proof.
  intros i Hi. unfold mv, scaled. rewrite <- csum_scal. apply csum_ext'. intros j Hj. ring.
Qed.
Lemma norm2v_veq n v w : veq n v w -> norm2v n v = norm2v n w.
Proof. intros H. unfold norm2v. apply rsum_ext'. intros i Hi. now rewrite H. Qed.
Lemma norm2v_scaled n c v : norm2v n (scaled c v) = (Cmod c ^ 2 * norm2v n v)%R.
Proof. unfold norm2v, scaled. rewrite <- rsum_scal. apply rsum_ext'. intros i Hi. rewrite Cmod_mult. ring. Qed.
Lemma norm2v_nonneg n v : (0 <= norm2v n v)%R.
Proof. apply rsum_nonneg. intros i Hi. apply pow2_ge_0. Qed.
Lemma norm2v_0 n v : norm2v n v = 0%R -> veq n v (fun _ => RtoC 0).
Proof.
  intros H i Hi. apply Cmod_eq_0. unfold norm2v in H.
  pose proof (rsum_zero_inv _ _ (fun j _ => pow2_ge_0 (Cmod (v j))) H i Hi) as Hz. cbn beta in Hz. nra.
Qed.
Lemma project_scaled q b c v i : project q b (scaled c v) i = scaled c (project q b v) i.
Proof. unfold project, scaled. destruct (Nat.eqb _ _); [reflexivity|ring]. Qed.
Lemma project_veq n q b v w : veq n v w -> veq n (project q b v) (project q b w).
Proof. intros H i Hi. unfold project. destruct (Nat.eqb _ _); auto. Qed.
Lemma norm2v_project n v q b : norm2v n (project q b v) = probq n v q b.
Proof.
  unfold norm2v, probq, project. apply rsum_ext'. intros i Hi. destruct (Nat.eqb _ _); auto. rewrite Cmod_0. ring.
Qed.
Lemma mv_veq n A v w : veq n v w -> veq n (mv n A v) (mv n A w).
Proof. intros H i Hi. apply mv_ext; auto. apply meq_refl. Qed.

(* ---- weight is a quadratic form ---- *)
Lemma weight_veq n l : forall v w cl s, veq n v w -> weight n l v cl s = weight n l w cl s.
Proof.
  induction l as [|x l IH]; intros v w cl s H; cbn.
  - destruct (list_eq_dec _ cl s); auto. now apply norm2v_veq.
  - destruct (cond_holds cl (cnd x)); [|now apply IH].
    destruct (op x); auto.
    + apply IH. now apply mv_veq.
    + f_equal; apply IH; now apply project_veq.
    + f_equal; apply IH; [|apply mv_veq]; now apply project_veq.
Qed.
Lemma weight_scaled n l : forall c v cl s, weight n l (scaled c v) cl s = (Cmod c ^ 2 * weight n l v cl s)%R.
Proof.
  induction l as [|x l IH]; intros c v cl s; cbn [weight].
  - destruct (list_eq_dec _ cl s); [apply norm2v_scaled|ring].
  - destruct (cond_holds cl (cnd x)); [|apply IH].
    destruct (op x); try ring; try apply IH.
    + rewrite <- IH. apply weight_veq. apply mv_scaled.
    + rewrite Rmult_plus_distr_l, <- !IH. f_equal; apply weight_veq; intros i Hi; apply project_scaled.
    + rewrite Rmult_plus_distr_l, <- !IH. f_equal; apply weight_veq.
      * intros i Hi; apply project_scaled.
      * intros i Hi. rewrite <- mv_scaled by exact Hi. apply mv_veq; auto. intros j Hj. apply project_scaled.
Qed.
Lemma weight_zero n l v cl s : norm2v n v = 0%R -> weight n l v cl s = 0%R.
Proof.
  intros H. rewrite (weight_veq n l v (scaled (RtoC 0) v)).
  - rewrite weight_scaled, Cmod_0. ring.
  - intros i Hi. unfold scaled. rewrite (norm2v_0 n v H i Hi). ring.
Qed.

(* ---- conditions (C37) ---- *)
Lemma reg_value_lt bits cl : reg_value bits cl < 2 ^ length bits.
Proof. induction bits as [|b r IH]; cbn; [lia|]. unfold b2n. destruct (nth b cl false); lia. Qed.
Lemma reg_value_testbit bits cl : forall k, k < length bits -> Nat.testbit (reg_value bits cl) k = nth (nth k bits 0) cl false.
Proof.
  induction bits as [|b r IH]; intros k Hk; cbn in Hk; [lia|].
  change (reg_value (b :: r) cl) with (b2n (nth b cl false) + 2 * reg_value r cl).
  replace (b2n (nth b cl false) + 2 * reg_value r cl) with (2 * reg_value r cl + Nat.b2n (nth b cl false))
    by (unfold b2n, Nat.b2n; destruct (nth b cl false); lia).
  destruct k as [|k]; [now rewrite Nat.testbit_0_r|]. rewrite Nat.testbit_succ_r. apply IH. lia.
Qed.
Lemma skip_correct cl c : cond_ok c -> skip cl c = negb (cond_holds cl c).
Proof.
  destruct c as [[b v|bits v]|]; intros H; cbn; auto.
  destruct H as (k & -> & Hv). destruct (reg_value (seq 0 k) cl =? v) eqn:E.
  - apply Nat.eqb_eq in E. cbn [negb]. apply not_true_iff_false. intros Hx. apply existsb_exists in Hx as (i & Hi & Hne).
    apply in_seq in Hi. rewrite <- E, reg_value_testbit in Hne by (rewrite seq_length; lia).
    rewrite seq_nth in Hne by lia. cbn in Hne. now rewrite eqb_reflx in Hne.
  - cbn [negb]. apply existsb_exists. apply Nat.eqb_neq in E.
    assert (exists i, i < k /\ Nat.testbit (reg_value (seq 0 k) cl) i <> Nat.testbit v i) as (i & Hi & Hne).
    { destruct (existsb (fun i => negb (Bool.eqb (Nat.testbit (reg_value (seq 0 k) cl) i) (Nat.testbit v i))) (seq 0 k)) eqn:Ex.
      - apply existsb_exists in Ex as (i & Hi & Hne). exists i. apply in_seq in Hi. split; [lia|]. intros Heq. rewrite Heq, eqb_reflx in Hne. discriminate.
      - exfalso. apply E. apply (bits_inj_n k).
        + pose proof (reg_value_lt (seq 0 k) cl) as Hl. now rewrite seq_length in Hl.
        + exact Hv.
        + intros l Hl. destruct (Bool.bool_dec (Nat.testbit (reg_value (seq 0 k) cl) l) (Nat.testbit v l)) as [|Hn]; auto.
          exfalso. apply not_true_iff_false in Ex. apply Ex. apply existsb_exists. exists l. split; [apply in_seq; lia|].
          destruct (Nat.testbit (reg_value (seq 0 k) cl) l), (Nat.testbit v l); cbn; auto; contradiction. }
    exists i. split; [apply in_seq; lia|]. rewrite reg_value_testbit in Hne by (rewrite seq_length; lia). rewrite seq_nth in Hne by lia.
    cbn in Hne. destruct (nth i cl false), (Nat.testbit v i); cbn; auto; contradiction.
Qed.
(* C37, for single bits and for registers that start at clbit 0 *)
Theorem C37_conditions_partial cl : forall c, cond_ok (Some c) ->
  match c with
  | CBit b v => skip cl (Some c) = false <-> nth b cl false = v
  | CReg bits v => skip cl (Some c) = false <-> reg_value bits cl = v
  end.
Proof.
  intros c Hc. rewrite (skip_correct cl (Some c) Hc). destruct c as [b v|bits v]; cbn.
  - rewrite negb_false_iff. apply eqb_true_iff.
  - rewrite negb_false_iff. apply Nat.eqb_eq.
Qed.

(* ---- re-simulation computes the distribution ---- *)
Lemma unitary_X n q : q < n -> unitary n (gate1 n X q []).
Proof.
  intros H. apply gate1_unitary; auto; [intros x []|].
  split; intros i j Hi Hj; destruct i as [|[|i]]; try (cbn in Hi; lia); destruct j as [|[|j]]; try (cbn in Hj; lia);
    unfold mm, adjoint, ident, X; cbn; apply injective_projections; cbn; ring.
Qed.
Lemma Ex_meas1 {A} eps n q v (k : bool -> vector -> tree A) f : (0 <= eps)%R -> norm2v n v = 1%R ->
  Ex (meas1 eps n q v k) f =
   (probq n v q 0 * Ex (k false (fun i => Cdiv (project q 0 v i) (RtoC (sqrt (probq n v q 0))))) f +
    probq n v q 1 * Ex (k true (fun i => Cdiv (project q 1 v i) (RtoC (sqrt (probq n v q 1))))) f)%R.
Proof.
  intros He Hn. unfold meas1. rewrite Hn. destruct (Rlt_dec eps (Rabs (1 - 1))) as [Hl|_].
  - rewrite Rminus_diag_eq, Rabs_R0 in Hl by reflexivity. lra.
  - cbn [Ex b2n]. pose proof (probq_total n v q) as Ht. rewrite Hn in Ht.
    replace (probq n v q 0 / 1)%R with (probq n v q 0) by field. replace (1 - probq n v q 0)%R with (probq n v q 1) by lra. reflexivity.
Qed.
Lemma norm_collapse n v q b : (0 < probq n v q b)%R -> norm2v n (fun i => Cdiv (project q b v i) (RtoC (sqrt (probq n v q b)))) = 1%R.
Proof.
  intros H. rewrite (norm2v_veq n _ (scaled (/ RtoC (sqrt (probq n v q b)))%C (project q b v))).
  - rewrite norm2v_scaled, norm2v_project, Cmod_inv, Cmod_R.
    + rewrite Rabs_pos_eq by apply sqrt_pos. pose proof (sqrt_lt_R0 _ H). rewrite pow_inv, pow2_sqrt by lra. field. lra.
    + intros Hz. apply RtoC_inj in Hz. pose proof (sqrt_lt_R0 _ H). lra.
  - intros i Hi. unfold scaled, Cdiv. ring.
Qed.
Lemma weight_collapse n l v q b cl s : (0 < probq n v q b)%R ->
  (probq n v q b * weight n l (fun i => Cdiv (project q b v i) (RtoC (sqrt (probq n v q b)))) cl s = weight n l (project q b v) cl s)%R.
Proof.
  intros H. rewrite (weight_veq n l _ (scaled (/ RtoC (sqrt (probq n v q b)))%C (project q b v))).
  - rewrite weight_scaled, Cmod_inv, Cmod_R.
    + rewrite Rabs_pos_eq by apply sqrt_pos. pose proof (sqrt_lt_R0 _ H). rewrite pow_inv, pow2_sqrt by lra. field. lra.
    + intros Hz. apply RtoC_inj in Hz. pose proof (sqrt_lt_R0 _ H). lra.
  - intros i Hi. unfold scaled, Cdiv. ring.
Qed.
Definition insts_ok (n ncl : nat) (l : list inst) : Prop := forall x, In x l -> supported n ncl x /\ cond_ok (cnd x).
Lemma exec_weight eps n ncl : (0 <= eps)%R -> forall l v cl log s, insts_ok n ncl l -> norm2v n v = 1%R ->
  Ex (exec eps n false l v cl log) (fun '(_, cl', _) => if list_eq_dec Bool.bool_dec cl' s then 1%R else 0%R) = weight n l v cl s.
Proof.
  intros He. induction l as [|x l IH]; intros v cl log s Hok Hn; cbn [exec weight].
  - cbn. destruct (list_eq_dec _ cl s); [now rewrite Hn|reflexivity].
  - assert (Hok' : insts_ok n ncl l) by (intros y Hy; apply Hok; right; exact Hy).
    destruct (Hok x (or_introl eq_refl)) as [Hs Hc]. rewrite (skip_correct cl _ Hc).
    destruct (cond_holds cl (cnd x)); cbn [negb]; [|now apply IH].
    unfold supported in Hs. destruct (op x) as [g|q c|q|qs|qs|qs|qs]; try contradiction.
    + apply IH; auto. rewrite unitary_norm; auto.
    + rewrite Ex_meas1 by assumption. f_equal.
      * destruct (Rle_lt_or_eq_dec _ _ (probq_nonneg n v q 0)) as [Hp|Hz].
        -- rewrite IH; auto; [now apply weight_collapse|now apply norm_collapse].
        -- rewrite <- Hz, Rmult_0_l. symmetry. apply weight_zero. now rewrite norm2v_project.
      * destruct (Rle_lt_or_eq_dec _ _ (probq_nonneg n v q 1)) as [Hp|Hz].
        -- rewrite IH; auto; [now apply weight_collapse|now apply norm_collapse].
        -- rewrite <- Hz, Rmult_0_l. symmetry. apply weight_zero. now rewrite norm2v_project.
    + rewrite Ex_meas1 by assumption. f_equal.
      * destruct (Rle_lt_or_eq_dec _ _ (probq_nonneg n v q 0)) as [Hp|Hz].
        -- rewrite IH; auto; [now apply weight_collapse|now apply norm_collapse].
        -- rewrite <- Hz, Rmult_0_l. symmetry. apply weight_zero. now rewrite norm2v_project.
      * destruct (Rle_lt_or_eq_dec _ _ (probq_nonneg n v q 1)) as [Hp|Hz].
        -- rewrite IH; auto; [|rewrite unitary_norm; [now apply norm_collapse|now apply unitary_X]].
           rewrite (weight_veq n l _ (scaled (/ RtoC (sqrt (probq n v q 1)))%C (mv n (gate1 n X q []) (project q 1 v)))).
           ++ rewrite weight_scaled, Cmod_inv, Cmod_R.
              ** rewrite Rabs_pos_eq by apply sqrt_pos. pose proof (sqrt_lt_R0 _ Hp). rewrite pow_inv, pow2_sqrt by lra. field. lra.
              ** intros Hz. apply RtoC_inj in Hz. pose proof (sqrt_lt_R0 _ Hp). lra.
           ++ eapply veq_trans; [|apply mv_scaled]. apply mv_veq. intros i Hi. unfold scaled, Cdiv. ring.
        -- rewrite <- Hz, Rmult_0_l. symmetry. apply weight_zero. rewrite unitary_norm by now apply unitary_X. now rewrite norm2v_project.
    + apply IH; auto.
Qed.
Lemma norm_basis0 n : norm2v n (basis 0) = 1%R.
Proof.
  unfold norm2v. rewrite (rsum_zero_iff _ _ 0).
  - unfold basis. cbn. rewrite Cmod_1. ring.
  - pose proof (Nat.pow_nonzero 2 n). lia.
  - intros i Hi Hne. unfold basis. apply Nat.eqb_neq in Hne. rewrite Hne, Cmod_0. ring.
Qed.
Lemma rev_eq_dec (a s : list bool) : (if str_dec (rev a) (rev s) then 1 else 0)%R = (if list_eq_dec Bool.bool_dec a s then 1 else 0)%R.
Proof.
  destruct (list_eq_dec Bool.bool_dec a s) as [->|Hne]; destruct (str_dec (rev _) (rev _)) as [He|Hn]; auto; try contradiction.
  exfalso. apply Hne. rewrite <- (rev_involutive a), <- (rev_involutive s). now f_equal.
Qed.
Lemma shot_unstable_dist eps c : (0 <= eps)%R -> insts_ok (nq c) (nc c) (data c) -> forall s,
  Prob str_dec (shot_unstable eps c) (rev s) = dist c s.
Proof.
  intros He Hok s. unfold Prob, shot_unstable, dist. rewrite Ex_bind.
  rewrite <- (exec_weight eps (nq c) (nc c) He (data c) (basis 0) (repeat false (nc c)) [] s Hok (norm_basis0 _)).
  apply Ex_ext. intros [[v cl] log]. cbn [Ex]. apply rev_eq_dec.
Qed.

(* ---- stable circuits ---- *)
(* a gate acts on its qubits only.  For QDDGate this is a condition on the
   client's diagram: the backend does not look at its qubits *)
Definition acts_on (n : nat) (A : matrix) (qs : list nat) : Prop :=
  forall i j, i < 2 ^ n -> j < 2 ^ n -> A i j <> RtoC 0 -> agree_off n qs i j = true.
Definition gate_wf (n : nat) (g : gop) : Prop :=
  match g with G1 _ qs => qs <> [] | G2 _ qs => 2 <= length qs | GU _ _ => True | GQ A qs => acts_on n A qs end.
Lemma agree_off_incl n S T i j : incl S T -> agree_off n S i j = true -> agree_off n T i j = true.
Proof. intros Hs. rewrite !agree_off_spec. intros H l Hl Hn. apply H; auto. Qed.
Lemma last_In (qs : list nat) : qs <> [] -> In (last qs 0) qs.
Proof.
  induction qs as [|q qs IH]; intros H; [contradiction|]. destruct qs as [|q' qs]; [left; reflexivity|]. right. apply IH. discriminate.
Qed.
Lemma gate_acts_on n g : gate_wf n g -> acts_on n (gate_mat n (fun q => q) g) (gqs g).
Proof.
  destruct g as [g qs|g qs|g qs|A qs]; intros Hw i j Hi Hj; cbn [gate_mat gqs gate_wf] in *.
  - unfold gate1. intros Hne. destruct (agree_off n [last qs 0] i j) eqn:E; [|contradiction].
    apply (agree_off_incl n [last qs 0]); auto. intros x [<-|[]]. now apply last_In.
  - unfold gate2. intros Hne. destruct (agree_off n _ i j) eqn:E in Hne; [|contradiction].
    eapply agree_off_incl; [|exact E]. intros x [<-|[<-|[]]]; apply nth_In; lia.
  - unfold gate_on. rewrite map_id. intros Hne. destruct (agree_off n qs i j) eqn:E; [reflexivity|contradiction].
  - intros Hne. now apply Hw.
Qed.
Lemma acts_on_project n A qs q b v : acts_on n A qs -> ~ In q qs -> q < n -> veq n (mv n A (project q b v)) (project q b (mv n A v)).
Proof.
  intros Ha Hq Hqn i Hi. unfold mv, project.
  assert (H : forall j, j < 2 ^ n -> A i j <> RtoC 0 -> bit i q = bit j q).
  { intros j Hj Hne. pose proof (Logic.proj1 (agree_off_spec n qs i j) (Ha i j Hi Hj Hne) q Hqn Hq) as Hb. unfold bit. now rewrite Hb. }
  destruct (Nat.eqb (bit i q) b) eqn:E.
  - apply csum_ext'. intros j Hj. destruct (Ceq_dec (A i j) (RtoC 0)) as [->|Hne]; [ring|].
    now rewrite <- (H j Hj Hne), E.
  - apply csum_zero. intros j Hj. destruct (Ceq_dec (A i j) (RtoC 0)) as [->|Hne]; [ring|].
    rewrite <- (H j Hj Hne), E. ring.
Qed.
(* no operation on a measured qubit, no condition, reset or channel *)
Fixpoint Stable (measured : list nat) (l : list inst) : Prop :=
  match l with
  | [] => True
  | x :: r =>
      match op x with
      | BMeasure q c => Stable (q :: measured) r
      | o => has_cond x = false /\ (forall q, In q (qargs o) -> ~ In q measured) /\ is_reset o = false /\ is_kraus o = false /\ Stable measured r
      end
  end.
Fixpoint mdict (l : list inst) (m : dict) : dict :=
  match l with
  | [] => m
  | x :: r => match op x with BMeasure q c => mdict r (dset m c q) | _ => mdict r m end
  end.
Lemma step_false n i x measured m : fst (fst (classify_step n i x false measured m)) = false.
Proof.
  unfold classify_step. destruct (op x); try reflexivity; destruct (_ || _); try reflexivity. destruct (_ && _); reflexivity.
Qed.
Lemma classify_false n l : forall i measured m, fst (fst (classify n i l false measured m)) = false.
Proof.
  induction l as [|x l IH]; intros i measured m; cbn [classify]; auto.
  pose proof (step_false n i x measured m) as Hs. destruct (classify_step n i x false measured m) as [[st me] m'] eqn:E.
  cbn in Hs. subst st. cbn beta iota. destruct (negb false && _); auto.
Qed.
Lemma step_true n i x measured m st me m' : classify_step n i x true measured m = (st, me, m') -> st = true ->
  match op x with
  | BMeasure q c => me = q :: measured /\ m' = dset m c q
  | o => me = measured /\ m' = m /\ has_cond x = false /\ (forall q, In q (qargs o) -> ~ In q measured) /\ is_reset o = false /\ is_kraus o = false
  end.
Proof.
  unfold classify_step. intros H ->. destruct (op x) eqn:E; try (injection H as <- <-; auto; fail);
    match type of H with context [if ?b then _ else _] => destruct b eqn:Eb end; try discriminate;
    apply orb_false_iff in Eb as [Eb E4]; apply orb_false_iff in Eb as [Eb E3]; apply orb_false_iff in Eb as [E1 E2].
  all: assert (Hq : forall q, In q (qargs (op x)) -> ~ In q measured) by
      (intros z Hq Hm; apply not_true_iff_false in E2; apply E2; apply existsb_exists; exists z; rewrite <- E;
       split; [exact Hq|]; apply existsb_exists; exists z; split; [exact Hm|apply Nat.eqb_refl]); rewrite E in Hq.
  all: try (injection H as <- <-; repeat split; auto; fail).
  destruct (negb (i =? 0) && _) in H; [discriminate|]. injection H as <- <-. repeat split; auto.
Qed.
Lemma classify_true n l : forall i measured m me m', classify n i l true measured m = (true, me, m') ->
  Stable measured l /\ m' = mdict l m.
Proof.
  induction l as [|x l IH]; intros i measured m me m' H; cbn [classify] in H.
  - injection H as <- <-. split; [exact Logic.I|reflexivity].
  - destruct (classify_step n i x true measured m) as [[st me1] m1] eqn:E. destruct st.
    + cbn [negb andb] in H. apply IH in H as [H1 H2]. pose proof (step_true n i x measured m true me1 m1 E eq_refl) as Hs.
      cbn [Stable mdict]. destruct (op x); try (destruct Hs as (-> & -> & Hs); repeat split; try tauto; fail).
      destruct Hs as [-> ->]. auto.
    + pose proof (classify_false n l (S i) me1 m1) as Hf. destruct (negb false && _) in H.
      * discriminate.
      * rewrite H in Hf. discriminate.
Qed.
(* the state after the gates, and the classical bits of basis state i *)
Fixpoint finalv (n : nat) (l : list inst) (v : vector) : vector :=
  match l with
  | [] => v
  | x :: r => match op x with BGate g => finalv n r (mv n (gate_mat n (fun q => q) g) v) | _ => finalv n r v end
  end.
Fixpoint readout (l : list inst) (i : nat) (cl : list bool) : list bool :=
  match l with
  | [] => cl
  | x :: r => match op x with BMeasure q c => readout r i (upd cl c (Nat.testbit i q)) | _ => readout r i cl end
  end.
Lemma finalv_veq n l : forall v w, veq n v w -> veq n (finalv n l v) (finalv n l w).
Proof. induction l as [|x l IH]; intros v w H; cbn; auto. destruct (op x); auto. apply IH. now apply mv_veq. Qed.
Definition gates_wf (n : nat) (l : list inst) : Prop := forall x g, In x l -> op x = BGate g -> gate_wf n g.
Definition plain_measures (l : list inst) : Prop := forall x q c, In x l -> op x = BMeasure q c -> cnd x = None.
Lemma finalv_project n l : forall measured v q b, Stable measured l -> gates_wf n l -> In q measured -> q < n ->
  veq n (finalv n l (project q b v)) (project q b (finalv n l v)).
Proof.
  induction l as [|x l IH]; intros measured v q b Hs Hw Hq Hn; cbn [finalv]; [apply veq_refl|].
  assert (Hw' : gates_wf n l) by (intros y g Hy Hg; eapply Hw; eauto; right; exact Hy).
  cbn [Stable] in Hs. destruct (op x) as [g|q' c|q'|qs|qs|qs|qs] eqn:E; try (destruct Hs as (_ & _ & _ & _ & Hs); eapply IH; eauto; fail).
  - destruct Hs as (_ & Hd & _ & _ & Hs). eapply veq_trans; [|eapply IH; eauto]. apply finalv_veq.
    eapply acts_on_project; eauto; [apply gate_acts_on; eapply Hw; [left; reflexivity|exact E]|].
    intros Hx. exact (Hd q Hx Hq).
  - eapply IH; eauto. right; exact Hq.
Qed.
Lemma bit_01 i q : bit i q = 0 \/ bit i q = 1. Proof. unfold bit. destruct (Nat.testbit i q); auto. Qed.
Lemma weight_stable n ncl l : forall measured v cl s, Stable measured l -> insts_ok n ncl l -> gates_wf n l -> plain_measures l ->
  weight n l v cl s = rsum (2 ^ n) (fun i => if list_eq_dec Bool.bool_dec (readout l i cl) s then Cmod (finalv n l v i) ^ 2 else 0)%R.
Proof.
  induction l as [|x l IH]; intros measured v cl s Hs Hok Hw Hp; cbn [weight finalv readout].
  - destruct (list_eq_dec _ cl s); [reflexivity|]. symmetry. apply rsum_0. auto.
  - assert (Hw' : gates_wf n l) by (intros y g Hy Hg; eapply Hw; eauto; right; exact Hy).
    assert (Hp' : plain_measures l) by (intros y q c Hy Hg; eapply Hp; eauto; right; exact Hy).
    assert (Hok' : insts_ok n ncl l) by (intros y Hy; apply Hok; right; exact Hy).
    destruct (Hok x (or_introl eq_refl)) as [Hsup _]. unfold supported in Hsup.
    assert (Hc : cnd x = None).
    { cbn [Stable] in Hs. destruct (op x) as [g|q c|q|qs|qs|qs|qs] eqn:E;
      try (destruct Hs as (Hc & _); unfold has_cond in Hc; destruct (cnd x); [discriminate|reflexivity]).
      eapply Hp; [left; reflexivity|exact E]. }
    rewrite Hc. cbn [cond_holds Stable] in *. destruct (op x) as [g|q c|q|qs|qs|qs|qs] eqn:E; try contradiction.
    + destruct Hs as (_ & _ & _ & _ & Hs). now apply (IH measured).
    + destruct Hsup as [Hq _]. rewrite !(IH (q :: measured)) by assumption. rewrite <- rsum_add. apply rsum_ext'. intros i Hi.
      assert (Hb : forall b, Cmod (finalv n l (project q b v) i) = (if Nat.eqb (bit i q) b then Cmod (finalv n l v i) else 0)%R).
      { intros b. rewrite (finalv_project n l (q :: measured) v q b Hs Hw' (or_introl eq_refl) Hq i Hi). unfold project.
        destruct (Nat.eqb _ _); [reflexivity|apply Cmod_0]. }
      rewrite !Hb. unfold bit. destruct (Nat.testbit i q); cbn [Nat.eqb].
      * destruct (list_eq_dec _ (readout l i (upd cl c false)) s), (list_eq_dec _ (readout l i (upd cl c true)) s); ring.
      * destruct (list_eq_dec _ (readout l i (upd cl c false)) s), (list_eq_dec _ (readout l i (upd cl c true)) s); ring.
    + destruct Hs as (_ & _ & Hr & _). discriminate.
    + destruct Hs as (_ & _ & _ & _ & Hs). now apply (IH measured).
Qed.
Lemma exec_stable eps n ncl l : forall measured v cl log, Stable measured l -> insts_ok n ncl l ->
  exec eps n true l v cl log = Leaf (finalv n l v, cl, log).
Proof.
  induction l as [|x l IH]; intros measured v cl log Hs Hok; cbn [exec finalv]; auto.
  assert (Hok' : insts_ok n ncl l) by (intros y Hy; apply Hok; right; exact Hy).
  destruct (Hok x (or_introl eq_refl)) as [Hsup _]. unfold supported in Hsup. cbn [Stable] in Hs.
  destruct (op x) as [g|q c|q|qs|qs|qs|qs] eqn:E; try contradiction.
  - destruct Hs as (Hc & _ & _ & _ & Hs). unfold has_cond in Hc. destruct (cnd x); [discriminate|]. cbn [skip]. eapply IH; eauto.
  - destruct (skip _ _); eapply IH; eauto.
  - destruct Hs as (_ & _ & Hr & _). discriminate.
  - destruct Hs as (Hc & _ & _ & _ & Hs). unfold has_cond in Hc. destruct (cnd x); [discriminate|]. cbn [skip]. eapply IH; eauto.
Qed.

(* ---- sampling the final state ---- *)
Lemma marg_base v k b : marg v k (b * 2 ^ k) = rsum (2 ^ k) (fun i => (Cmod (v (b * 2 ^ k + i)%nat) ^ 2)%R).
Proof. unfold marg. rewrite Nat.div_mul by (apply Nat.pow_nonzero; lia). reflexivity. Qed.
Lemma rsum_split N M f : rsum (N + M) f = (rsum N f + rsum M (fun i => f (N + i)%nat))%R.
Proof. induction M as [|M IH]; [rewrite Nat.add_0_r; cbn; ring|]. rewrite Nat.add_succ_r. cbn. rewrite IH. ring. Qed.
Lemma measall_Ex v f k : forall b, (marg v k (b * 2 ^ k) * Ex (measall k v (b * 2 ^ k)) f =
  rsum (2 ^ k) (fun i => Cmod (v (b * 2 ^ k + i)%nat) ^ 2 * f (b * 2 ^ k + i)%nat))%R.
Proof.
  induction k as [|k IH]; intros b.
  - rewrite marg_base. cbn [measall Ex]. cbn. rewrite !Nat.add_0_r. ring.
  - assert (Hp : 2 ^ S k = 2 ^ k + 2 ^ k) by (cbn; lia).
    assert (E0 : b * 2 ^ S k = (2 * b) * 2 ^ k) by lia.
    assert (E1 : Nat.setbit (b * 2 ^ S k) k = (2 * b + 1) * 2 ^ k).
    { rewrite E0. apply Nat.bits_inj. intros l. rewrite Nat.setbit_eqb.
      destruct (Nat.eqb_spec k l) as [->|Hne].
      - cbn [orb]. replace l with (0 + l) at 2 by lia. rewrite Nat.mul_pow2_bits_add. symmetry. apply Nat.testbit_odd_0.
      - cbn [orb]. destruct (Nat.lt_ge_cases l k) as [Hl|Hl].
        + now rewrite !Nat.mul_pow2_bits_low.
        + replace l with ((l - k) + k) by lia. rewrite !Nat.mul_pow2_bits_add. destruct (l - k) as [|d] eqn:Ed; [lia|].
          now rewrite Nat.testbit_even_succ, Nat.testbit_odd_succ by lia. }
    assert (Ec : Nat.clearbit (b * 2 ^ S k) k = b * 2 ^ S k).
    { apply Nat.bits_inj. intros l. rewrite Nat.clearbit_eqb. destruct (Nat.eqb_spec k l) as [->|Hne]; [|cbn [negb]; now rewrite andb_true_r].
      cbn [negb]. rewrite andb_false_r. symmetry. apply Nat.mul_pow2_bits_low. lia. }
    assert (Hm : marg v (S k) (b * 2 ^ S k) = (marg v k (2 * b * 2 ^ k) + marg v k ((2 * b + 1) * 2 ^ k))%R).
    { rewrite !marg_base, Hp, rsum_split. f_equal; apply rsum_ext'; intros i Hi; do 3 f_equal; lia. }
    assert (Hr : (rsum (2 ^ S k) (fun i => Cmod (v (b * 2 ^ S k + i)%nat) ^ 2 * f (b * 2 ^ S k + i)%nat) =
       marg v k (2 * b * 2 ^ k) * Ex (measall k v (2 * b * 2 ^ k)) f + marg v k ((2 * b + 1) * 2 ^ k) * Ex (measall k v ((2 * b + 1) * 2 ^ k)) f)%R).
    { rewrite !IH, Hp, rsum_split. f_equal; apply rsum_ext'; intros i Hi.
      - replace (b * (2 ^ k + 2 ^ k) + i) with (2 * b * 2 ^ k + i) by lia. reflexivity.
      - replace (b * (2 ^ k + 2 ^ k) + (2 ^ k + i)) with ((2 * b + 1) * 2 ^ k + i) by lia. reflexivity. }
    rewrite Hr. cbn [measall Ex]. rewrite E1. unfold cond0. rewrite Ec.
    assert (Hn : forall c, (0 <= marg v k c)%R) by (intros c; apply rsum_nonneg; intros; apply pow2_ge_0).
    pose proof (Hn (2 * b * 2 ^ k)) as H0. pose proof (Hn ((2 * b + 1) * 2 ^ k)) as H1.
    destruct (Req_dec (marg v (S k) (b * 2 ^ S k)) 0) as [Hz|Hz].
    + assert (Ha : marg v k (2 * b * 2 ^ k) = 0%R) by lra. assert (Hb : marg v k ((2 * b + 1) * 2 ^ k) = 0%R) by lra. rewrite Hz, Ha, Hb. ring.
    + rewrite Hm in *. rewrite E0. field. exact Hz.
Qed.
Lemma measall_dist v n f : norm2v n v = 1%R -> Ex (measall n v 0) f = rsum (2 ^ n) (fun i => Cmod (v i) ^ 2 * f i)%R.
Proof.
  intros H. pose proof (measall_Ex v f n 0) as Hm. rewrite Nat.mul_0_l in Hm.
  assert (Hg : marg v n 0 = 1%R).
  { rewrite <- H. unfold marg, norm2v. rewrite Nat.div_0_l by (apply Nat.pow_nonzero; lia). reflexivity. }
  rewrite Hg, Rmult_1_l in Hm. exact Hm.
Qed.
(* the tree is the sampling procedure of Spec.v, hence the library's (C19) *)
Lemma measall_run v k : forall b ths r rest, (forall l, l < k -> Nat.testbit b l = false) -> run (measall k v b) ths = Some (Some r, rest) ->
  (forall l, k <= l -> Nat.testbit r l = Nat.testbit b l) /\
  (forall l, l < k -> Nat.testbit r l = true <-> (cond0 v l r <= nth (k - 1 - l) ths 0)%R).
Proof.
  induction k as [|k IH]; intros b ths r rest Hb Hr; cbn [measall run] in Hr.
  - injection Hr as <- <-. split; [auto|lia].
  - destruct ths as [|th ths]; [discriminate|].
    set (b' := if (if Rlt_dec th (cond0 v k b) then false else true) then Nat.setbit b k else b) in Hr.
    assert (Hb' : forall l, l < k -> Nat.testbit b' l = false).
    { intros l Hl. unfold b'. destruct (Rlt_dec _ _); [apply Hb; lia|]. rewrite Nat.setbit_neq by lia. apply Hb. lia. }
    destruct (IH b' ths r rest Hb' Hr) as [H1 H2]. split.
    + intros l Hl. rewrite H1 by lia. unfold b'. destruct (Rlt_dec _ _); auto. apply Nat.setbit_neq. lia.
    + intros l Hl. assert (l = k \/ l < k) as [->|Hlk] by lia.
      * replace (S k - 1 - k) with 0 by lia. cbn [nth]. rewrite H1 by lia.
        assert (Hc : cond0 v k r = cond0 v k b).
        { assert (Hdiv : forall m x y, (forall l, m <= l -> Nat.testbit x l = Nat.testbit y l) -> x / 2 ^ m = y / 2 ^ m).
          { intros m x y Hxy. rewrite <- !Nat.shiftr_div_pow2. apply Nat.bits_inj. intros l'. rewrite !Nat.shiftr_spec' . apply Hxy. lia. }
          unfold cond0, marg.
          assert (Hrb : forall l, S k <= l -> Nat.testbit r l = Nat.testbit b l).
          { intros l' Hl'. rewrite H1 by lia. unfold b'. destruct (Rlt_dec _ _); auto. apply Nat.setbit_neq. lia. }
          rewrite (Hdiv (S k) r b Hrb), (Hdiv k (Nat.clearbit r k) (Nat.clearbit b k)); [reflexivity|].
          intros l' Hl'. destruct (Nat.eq_dec l' k) as [->|Hne]; [now rewrite !Nat.clearbit_eq|].
          rewrite !Nat.clearbit_neq by lia. apply Hrb. lia. }
        rewrite Hc. unfold b'. destruct (Rlt_dec th (cond0 v k b)) as [Hlt|Hge].
        -- rewrite Hb by lia. split; [discriminate|lra].
        -- rewrite Nat.setbit_eq. split; [lra|reflexivity].
      * rewrite (H2 l Hlk). replace (S k - 1 - l) with (S (k - 1 - l)) by lia. reflexivity.
Qed.
Theorem measall_draws n v ths b rest : run (measall n v 0) ths = Some (Some b, rest) -> draws n v ths b /\ b < 2 ^ n.
Proof.
  intros H. destruct (measall_run v n 0 ths b rest (fun l _ => Nat.bits_0 l) H) as [H1 H2]. split.
  - intros k Hk. apply H2. exact Hk.
  - apply lt_pow2_bits. intros l Hl. rewrite H1 by exact Hl. apply Nat.bits_0.
Qed.

(* ---- assembling the string (C38) ---- *)
Lemma upd_len {A} (l : list A) k x : length (upd l k x) = length l.
Proof. revert k. induction l as [|y l IH]; intros [|k]; cbn; auto. Qed.
Lemma upd_nth {A} (l : list A) k x j d : nth j (upd l k x) d = if (j =? k) && (k <? length l) then x else nth j l d.
Proof.
  revert k j. induction l as [|y l IH]; intros [|k] [|j]; cbn; auto.
  - now rewrite andb_false_r.
  - rewrite IH. reflexivity.
Qed.
Fixpoint dget (d : dict) (k : nat) : option nat :=
  match d with [] => None | (k', v) :: r => if k =? k' then Some v else dget r k end.
Lemma dget_dset d k v j : dget (dset d k v) j = if j =? k then Some v else dget d j.
Proof.
  induction d as [|[k' v'] d IH]; cbn; [destruct (j =? k); reflexivity|].
  destruct (Nat.eqb_spec k k') as [->|Hne]; cbn.
  - destruct (j =? k'); reflexivity.
  - rewrite IH. destruct (Nat.eqb_spec j k') as [->|]; [|reflexivity]. destruct (Nat.eqb_spec k' k); [lia|reflexivity].
Qed.
Lemma dset_keys d k v x : In x (map fst (dset d k v)) <-> x = k \/ In x (map fst d).
Proof.
  induction d as [|[k' v'] d IH]; cbn; [intuition|]. destruct (Nat.eqb_spec k k') as [->|Hne]; cbn; [intuition|]. rewrite IH. intuition.
Qed.
Lemma dset_nodup d k v : NoDup (map fst d) -> NoDup (map fst (dset d k v)).
Proof.
  induction d as [|[k' v'] d IH]; cbn; intros H; [repeat constructor; auto|]. inversion H as [|? ? Hn Hd]; subst.
  destruct (Nat.eqb_spec k k') as [->|Hne]; cbn; [now constructor|]. constructor; auto. rewrite dset_keys. intros [->|Hi]; [lia|contradiction].
Qed.
Lemma dget_none d k : ~ In k (map fst d) -> dget d k = None.
Proof. induction d as [|[k' v'] d IH]; cbn; intros H; auto. destruct (Nat.eqb_spec k k') as [->|]; [tauto|]. apply IH. tauto. Qed.
Definition fillin (f : nat -> bool) (m : dict) (acc : list bool) : list bool := fold_left (fun acc kv => upd acc (fst kv) (f (snd kv))) m acc.
Lemma fillin_len f m : forall acc, length (fillin f m acc) = length acc.
Proof. induction m as [|[k v] m IH]; intros acc; cbn; auto. unfold fillin in IH. rewrite IH. apply upd_len. Qed.
Lemma fillin_nth f m : forall acc j, NoDup (map fst m) -> j < length acc ->
  nth j (fillin f m acc) false = match dget m j with Some q => f q | None => nth j acc false end.
Proof.
  induction m as [|[k v] m IH]; intros acc j Hn Hj; cbn; auto. inversion Hn as [|? ? Hk Hd]; subst.
  unfold fillin in IH. rewrite IH; auto; [|now rewrite upd_len]. cbn [fst snd]. destruct (Nat.eqb_spec j k) as [->|Hne].
  - rewrite dget_none by exact Hk. rewrite upd_nth, Nat.eqb_refl. replace (k <? length acc) with true by (symmetry; apply Nat.ltb_lt; lia). reflexivity.
  - destruct (dget m j); auto. rewrite upd_nth. destruct (Nat.eqb_spec j k); [lia|reflexivity].
Qed.
Lemma list_ext (a b : list bool) : length a = length b -> (forall j, j < length a -> nth j a false = nth j b false) -> a = b.
Proof. intros H1 H2. eapply nth_ext; eauto. Qed.
Lemma fillin_dset f m k v acc : NoDup (map fst m) -> fillin f (dset m k v) acc = upd (fillin f m acc) k (f v).
Proof.
  intros Hn. apply list_ext; [now rewrite upd_len, !fillin_len|]. intros j Hj. rewrite fillin_len in Hj.
  rewrite fillin_nth by (auto; now apply dset_nodup). rewrite dget_dset, upd_nth, fillin_len, fillin_nth by auto.
  destruct (Nat.eqb_spec j k) as [->|]; cbn [andb]; auto. now replace (k <? length acc) with true by (symmetry; apply Nat.ltb_lt; lia).
Qed.
Lemma mdict_readout i l : forall m acc, NoDup (map fst m) ->
  fillin (Nat.testbit i) (mdict l m) acc = readout l i (fillin (Nat.testbit i) m acc).
Proof.
  induction l as [|x l IH]; intros m acc Hn; cbn [mdict readout]; auto. destruct (op x); auto.
  rewrite IH by now apply dset_nodup. now rewrite fillin_dset.
Qed.
Lemma bitstring_nth n b q : q < n -> nth (length (bitstring n b) - 1 - q) (bitstring n b) false = Nat.testbit b q.
Proof.
  intros H. unfold bitstring. rewrite map_length, rev_length, seq_length.
  rewrite nth_indep with (d' := Nat.testbit b 0) by (rewrite map_length, rev_length, seq_length; lia).
  rewrite map_nth, rev_nth by (rewrite seq_length; lia). rewrite seq_length, seq_nth by lia. f_equal. lia.
Qed.
Lemma assemble_fillin n ncl m b : (forall k q, In (k, q) m -> q < n) ->
  assemble ncl m (bitstring n b) = rev (fillin (Nat.testbit b) m (repeat false ncl)).
Proof.
  intros H. unfold assemble. f_equal. generalize (repeat false ncl). induction m as [|[k q] m IH]; intros acc; cbn; auto.
  rewrite bitstring_nth by (apply (H k); left; reflexivity). apply IH. intros k' q' Hi. apply (H k'). right. exact Hi.
Qed.
Lemma dset_In d k v x : In x (dset d k v) -> x = (k, v) \/ In x d.
Proof. induction d as [|[k' v'] d IH]; cbn; [intuition|]. destruct (k =? k'); cbn; intuition. Qed.
Lemma mdict_qubits n ncl l : forall m, insts_ok n ncl l -> (forall k q, In (k, q) m -> q < n) -> forall k q, In (k, q) (mdict l m) -> q < n.
Proof.
  induction l as [|x l IH]; intros m Hok Hm k q Hi; cbn in Hi; [eapply Hm; eauto|].
  assert (Hok' : insts_ok n ncl l) by (intros y Hy; apply Hok; right; exact Hy).
  destruct (Hok x (or_introl eq_refl)) as [Hsup _]. unfold supported in Hsup.
  destruct (op x) as [g|q0 c0|q0|qs|qs|qs|qs] eqn:E; try (eapply IH; eauto; fail).
  eapply IH; [eauto| |exact Hi]. intros k' q' Hd. apply dset_In in Hd as [Hd|Hd]; [injection Hd as -> ->; tauto|eauto].
Qed.
(* ---- one shot ---- *)
Definition circ_ok (c : circ) : Prop :=
  insts_ok (nq c) (nc c) (data c) /\ gates_wf (nq c) (data c) /\ plain_measures (data c).
Lemma Cmod_phase a : Cmod (cos a, sin a) = 1%R.
Proof.
  unfold Cmod. cbn [fst snd]. pose proof (sin2_cos2 a) as H. unfold Rsqr in H.
  replace (cos a ^ 2 + sin a ^ 2)%R with 1%R by (ring_simplify; lra). apply sqrt_1.
Qed.
Lemma finalv_norm n ncl l : forall v, insts_ok n ncl l -> norm2v n (finalv n l v) = norm2v n v.
Proof.
  induction l as [|x l IH]; intros v Hok; cbn [finalv]; auto.
  assert (Hok' : insts_ok n ncl l) by (intros y Hy; apply Hok; right; exact Hy).
  destruct (Hok x (or_introl eq_refl)) as [Hsup _]. unfold supported in Hsup.
  destruct (op x); auto. rewrite IH by exact Hok'. now apply unitary_norm.
Qed.
Lemma shot_stable_dist eps c p req : circ_ok c -> validate_circuit req c = Some p -> stable_final_state p = true ->
  exec eps (nq c) true (data c) (basis 0) (repeat false (nc c)) [] =
    Leaf (finalv (nq c) (data c) (basis 0), repeat false (nc c), []) /\
  forall s, Prob str_dec (shot_stable c p (phase (gphase c) (finalv (nq c) (data c) (basis 0)))) (rev s) = dist c s.
Proof.
  intros (Hok & Hw & Hp) Hv Hst. unfold validate_circuit in Hv. destruct (max_qubits <? nq c); [discriminate|].
  destruct (classify (nq c) 0 (data c) true [] []) as [[st me] m] eqn:E. destruct (_ && _); [discriminate|].
  injection Hv as <-. cbn in Hst. subst st. apply classify_true in E as [Hs ->].
  split; [eapply exec_stable; eauto|]. intros s. unfold Prob, shot_stable. rewrite Ex_bind. cbn [clbit_final_values Ex].
  set (w := finalv (nq c) (data c) (basis 0)).
  assert (Hn : norm2v (nq c) w = 1%R) by (unfold w; erewrite finalv_norm by eauto; apply norm_basis0).
  rewrite measall_dist.
  - unfold dist. rewrite (weight_stable (nq c) (nc c) (data c) [] (basis 0) _ s Hs Hok Hw Hp). apply rsum_ext'. intros i Hi.
    rewrite assemble_fillin by (eapply mdict_qubits; eauto; intros k q []). rewrite rev_eq_dec.
    rewrite mdict_readout by constructor. cbn [fillin fold_left]. unfold phase, scaled. fold w.
    rewrite Cmod_mult, Cmod_phase. change (fold_left _ [] (repeat false (nc c))) with (repeat false (nc c)).
    destruct (list_eq_dec _ _ s); ring.
  - unfold phase. rewrite norm2v_scaled, Cmod_phase, Hn. ring.
Qed.

(* ---- C36 ---- *)
(* probability of the list L of sampled strings, in shot order *)
Definition prob_samples (t : tree rdata) (L : list (list bool)) : R :=
  Ex t (fun d => match d with Counts l => if list_eq_dec str_dec l L then 1%R else 0%R | Probs _ => 0%R end).
Definition prodR (l : list R) : R := fold_right Rmult 1%R l.
Lemma replicate_prob (t : tree (list bool)) m : forall L,
  Ex (replicate m t) (fun l => if list_eq_dec str_dec l L then 1%R else 0%R) =
  if length L =? m then prodR (map (Prob str_dec t) L) else 0%R.
Proof.
  induction m as [|m IH]; intros L; cbn [replicate].
  - cbn [Ex]. destruct L; cbn; reflexivity.
  - rewrite Ex_bind. destruct L as [|s L].
    + cbn [length Nat.eqb]. rewrite (Ex_ext t _ (fun _ => 0 * 1)%R); [rewrite Ex_scal; ring|].
      intros a. rewrite Ex_bind. cbn [Ex]. rewrite (Ex_ext _ _ (fun _ => 0 * 1)%R); [rewrite Ex_scal; ring|].
      intros l. destruct (list_eq_dec str_dec (a :: l) []); [discriminate|ring].
    + cbn [length Nat.eqb map prodR fold_right]. fold (prodR (map (Prob str_dec t) L)).
      rewrite (Ex_ext t _ (fun a => (if length L =? m then prodR (map (Prob str_dec t) L) else 0) * (if str_dec a s then 1 else 0))%R).
      * rewrite Ex_scal. fold (Prob str_dec t s). destruct (length L =? m); ring.
      * intros a. rewrite Ex_bind. cbn [Ex]. rewrite <- IH.
        rewrite (Ex_ext _ _ (fun l => (if str_dec a s then 1 else 0) * (if list_eq_dec str_dec l L then 1 else 0))%R); [rewrite Ex_scal; ring|].
        intros l. destruct (str_dec a s) as [->|Hne]; destruct (list_eq_dec str_dec l L) as [->|Hn];
          destruct (list_eq_dec str_dec (_ :: _) (s :: L)) as [He|Hx]; try ring; try congruence.
Qed.
(* Sampling `shots` times: whichever way the circuit was classified, the shots are
   independent and each follows the circuit's distribution.  In particular a
   circuit classified stable gives the distribution of re-simulating each shot.
   Excluded: conditional measurements (refuted below). *)
Theorem C36_evaluate_partial eps c p req z L : (0 <= eps)%R -> circ_ok c -> validate_circuit req c = Some p -> (0 < z)%Z ->
  prob_samples (evaluate eps c p (Some z)) L =
  if length L =? Z.to_nat z then prodR (map (fun s => dist c (rev s)) L) else 0%R.
Proof.
  intros He Hok Hv Hz. unfold prob_samples, evaluate.
  assert (Hmap : forall t, (forall s, Prob str_dec t (rev s) = dist c s) -> map (Prob str_dec t) L = map (fun s => dist c (rev s)) L).
  { intros t Ht. apply map_ext. intros s. rewrite <- Ht, rev_involutive. reflexivity. }
  assert (Hz0 : (z =? 0)%Z = false) by (apply Z.eqb_neq; lia). assert (Hz1 : (z <=? 0)%Z = false) by (apply Z.leb_gt; lia).
  destruct (stable_final_state p) eqn:Est.
  - destruct (shot_stable_dist eps c p req Hok Hv Est) as [Hx Hd]. rewrite Hx. cbn [bind]. rewrite Hz0, Ex_bind. cbn [Ex].
    rewrite replicate_prob. now rewrite (Hmap _ Hd).
  - rewrite Hz1, Ex_bind. cbn [Ex]. rewrite replicate_prob.
    rewrite (Hmap (shot_unstable eps c)); auto. intros s. apply shot_unstable_dist; auto. apply Hok.
Qed.
(* the stated form: stable sampling = re-simulating each shot *)
Theorem C36_stable_is_resimulation_partial eps c p req s : (0 <= eps)%R -> circ_ok c -> validate_circuit req c = Some p -> stable_final_state p = true ->
  exists w, exec eps (nq c) true (data c) (basis 0) (repeat false (nc c)) [] = Leaf (w, repeat false (nc c), []) /\
  Prob str_dec (shot_stable c p (phase (gphase c) w)) s = Prob str_dec (shot_unstable eps c) s.
Proof.
  intros He Hok Hv Hst. destruct (shot_stable_dist eps c p req Hok Hv Hst) as [Hx Hd]. eexists. split; [exact Hx|].
  rewrite <- (rev_involutive s). rewrite Hd. symmetry. apply shot_unstable_dist; auto. apply Hok.
Qed.
