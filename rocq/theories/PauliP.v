(* PauliP.v -- Pauli observables: their expectation values (specification), and how
   measuring after a change of basis gives them.  Nothing here refers to the
   Estimator except the type of Paulis and the two gates it inserts. *)
From Coq Require Import Reals Lra Psatz ZArith Bool List Lia Arith FunctionalExtensionality.
From Coquelicot Require Import Complex.
From Verif Require Import Num Gates RNum Spec SpecP GateMat BackendP Estimator.
Import ListNotations.
Open Scope nat_scope.

(* ---- specification ---- *)
(* I, X, Y, Z by (x, z) *)
Definition sigma (xz : bool * bool) : matrix :=
  match xz with (false, false) => ident | (true, false) => PX | (true, true) => PY | (false, true) => PZ end.
Fixpoint cprod (n : nat) (f : nat -> C) : C := match n with O => RtoC 1 | S k => Cmult (cprod k f) (f k) end.
(* the tensor product of the Pauli matrices: entry (i, j) *)
Definition pauli_mat (n : nat) (p : pauli) : matrix := fun i j => cprod n (fun q => sigma (nth q p (false, false)) (bit i q) (bit j q)).
(* <v| P |v> *)
Definition pauli_expect (n : nat) (v : vector) (p : pauli) : C :=
  csum (2 ^ n) (fun i => csum (2 ^ n) (fun j => Cmult (Cmult (Cconj (v i)) (pauli_mat n p i j)) (v j))).
(* <v| O |v> for O a sum of terms *)
Definition obs_expect (n : nat) (v : vector) (o : obs) : C :=
  fold_right (fun t acc => Cplus (Cmult (snd t) (pauli_expect n v (fst t))) acc) (RtoC 0) o.

(* ---- one-qubit gates on different qubits commute ---- *)
Lemma setb_comm i a b x y : a <> b -> setb (setb i a x) b y = setb (setb i b y) a x.
Proof.
  intros H. apply Nat.bits_inj. intros l. rewrite !setb_testbit.
  destruct (Nat.eqb_spec l a), (Nat.eqb_spec l b); subst; try reflexivity. contradiction.
Qed.
Lemma bit_setb_same i a x : x < 2 -> bit (setb i a x) a = x.
Proof. intros H. rewrite bit_setb by exact H. now rewrite Nat.eqb_refl. Qed.
Lemma bit_setb_other i a b x : x < 2 -> a <> b -> bit (setb i a x) b = bit i b.
Proof. intros H Hn. rewrite bit_setb by exact H. destruct (Nat.eqb_spec b a); congruence. Qed.
Lemma gate1_comm n a b g h v : a < n -> b < n -> a <> b ->
  veq n (mv n (gate1 n g a []) (mv n (gate1 n h b []) v)) (mv n (gate1 n h b []) (mv n (gate1 n g a []) v)).
Proof.
  intros Ha Hb Hn i Hi. rewrite !gate1_action by auto. cbn [ctl_ok forallb].
  rewrite !gate1_action by (auto using setb_lt). cbn [ctl_ok forallb].
  rewrite !bit_setb_other by (auto; lia). rewrite !(setb_comm i b a) by auto. ring.
Qed.
Lemma gate1_mv_mm n a g h v : a < n -> veq n (mv n (gate1 n g a []) (mv n (gate1 n h a []) v)) (mv n (gate1 n (mm 1 g h) a []) v).
Proof.
  intros Ha. eapply veq_trans; [apply veq_sym, mv_mm|]. intros i Hi. apply mv_ext; auto; [|apply veq_refl].
  apply gate1_mm; auto. intros x [].
Qed.
Lemma gate1_mv_meq n a g h v : a < n -> meq 1 g h -> veq n (mv n (gate1 n g a []) v) (mv n (gate1 n h a []) v).
Proof. intros Ha H i Hi. apply mv_ext; auto; [now apply gate1_meq|apply veq_refl]. Qed.

(* ---- applying a one-qubit matrix to each listed qubit ---- *)
Fixpoint each1 (n : nat) (g : nat -> matrix) (qs : list nat) (v : vector) : vector :=
  match qs with [] => v | q :: r => each1 n g r (mv n (gate1 n (g q) q []) v) end.
Lemma each1_veq n g qs : forall v w, veq n v w -> veq n (each1 n g qs v) (each1 n g qs w).
Proof. induction qs as [|q r IH]; intros v w H; cbn; auto. apply IH. now apply mv_veq. Qed.
Lemma each1_meq n g h qs : (forall q, In q qs -> q < n) -> (forall q, In q qs -> meq 1 (g q) (h q)) -> forall v, veq n (each1 n g qs v) (each1 n h qs v).
Proof.
  induction qs as [|q r IH]; intros Hb H v; cbn; [apply veq_refl|].
  eapply veq_trans; [apply IH; intros; [apply Hb|apply H]; now right|]. apply each1_veq. apply gate1_mv_meq; [apply Hb|apply H]; now left.
Qed.
Lemma each1_comm n g h q qs v : q < n -> ~ In q qs -> (forall x, In x qs -> x < n) ->
  veq n (each1 n g qs (mv n (gate1 n h q []) v)) (mv n (gate1 n h q []) (each1 n g qs v)).
Proof.
  intros Hq. revert v. induction qs as [|a r IH]; intros v Hn Hb; cbn; [apply veq_refl|].
  eapply veq_trans; [apply each1_veq; apply gate1_comm; [apply Hb; now left|exact Hq|]|].
  - intros ->. apply Hn. now left.
  - apply IH; [|intros; apply Hb; now right]. intros Hi. apply Hn. now right.
Qed.
Lemma each1_unitary n g qs : (forall q, In q qs -> q < n /\ unitary 1 (g q)) -> forall v w,
  inner n (each1 n g qs v) (each1 n g qs w) = inner n v w.
Proof.
  induction qs as [|q r IH]; intros H v w; cbn; auto. rewrite IH by (intros; apply H; now right).
  destruct (H q) as [Hq Hu]; [now left|]. apply unitary_inner. apply gate1_unitary; auto. intros x [].
Qed.
(* if d q after g q equals g q after a q on every qubit, the same holds for all of them *)
Lemma each1_intertwine n g a d qs : NoDup qs -> (forall q, In q qs -> q < n) -> (forall q, In q qs -> meq 1 (mm 1 (g q) (a q)) (mm 1 (d q) (g q))) ->
  forall v, veq n (each1 n g qs (each1 n a qs v)) (each1 n d qs (each1 n g qs v)).
Proof.
  induction qs as [|q r IH]; intros Hnd Hb H v; cbn [each1]; [apply veq_refl|]. inversion Hnd as [|? ? Hq Hr]; subst.
  assert (Hqn : q < n) by (apply Hb; now left).
  assert (Hbr : forall x, In x r -> x < n) by (intros; apply Hb; now right).
  specialize (IH Hr Hbr (fun x Hx => H x (or_intror Hx))).
  (* g_r g_q a_r a_q v *)
  eapply veq_trans; [apply each1_veq; apply veq_sym; apply each1_comm; auto|].
  eapply veq_trans; [apply IH|]. apply each1_veq.
  eapply veq_trans; [apply each1_veq|apply each1_comm; auto].
  eapply veq_trans; [apply gate1_mv_mm; auto|].
  eapply veq_trans; [apply gate1_mv_meq; [auto|apply H; now left]|].
  apply veq_sym, gate1_mv_mm; auto.
Qed.

(* ---- the tensor product is the product of its factors ---- *)
Lemma cprod_ext n f g : (forall q, q < n -> f q = g q) -> cprod n f = cprod n g.
Proof. induction n as [|n IH]; intros H; cbn; auto. rewrite IH, H by auto. reflexivity. Qed.
Lemma cprod_split n f k : k < n -> cprod n f = Cmult (f k) (cprod n (fun q => if q =? k then RtoC 1 else f q)).
Proof.
  induction n as [|n IH]; intros H; [lia|]. cbn. destruct (Nat.eq_dec k n) as [->|Hne].
  - rewrite Nat.eqb_refl. rewrite (cprod_ext n (fun q => if q =? n then RtoC 1 else f q) f).
    + ring. + intros q Hq. destruct (Nat.eqb_spec q n); [lia|reflexivity].
  - rewrite IH by lia. destruct (Nat.eqb_spec n k); [lia|]. ring.
Qed.
Lemma cprod_zero n f k : k < n -> f k = RtoC 0 -> cprod n f = RtoC 0.
Proof. intros H E. rewrite (cprod_split n f k H), E. ring. Qed.
Lemma cprod_one n f : (forall q, q < n -> f q = RtoC 1) -> cprod n f = RtoC 1.
Proof. induction n as [|n IH]; intros H; cbn; auto. rewrite IH, H by auto. ring. Qed.
Definition upto (s : nat -> matrix) (k : nat) (q : nat) : matrix := if q <? k then s q else ident.
Definition tens (n : nat) (s : nat -> matrix) : matrix := fun i j => cprod n (fun q => s q (bit i q) (bit j q)).
Lemma tens_0 n s : meq n (tens n (upto s 0)) ident.
Proof.
  intros i j Hi Hj. unfold tens, upto. cbn [Nat.ltb Nat.leb]. unfold ident. destruct (Nat.eqb_spec i j) as [->|Hne].
  - apply cprod_one. intros q Hq. now rewrite Nat.eqb_refl.
  - destruct (forallb (fun q => bit i q =? bit j q) (seq 0 n)) eqn:E.
    + exfalso. apply Hne. apply (bits_inj_n n); auto. intros l Hl. rewrite !testbit_bit.
      rewrite forallb_forall in E. specialize (E l). rewrite in_seq in E. apply Nat.eqb_eq in E; [now rewrite E|lia].
    + apply (Bool.not_true_iff_false) in E.
      assert (exists q, q < n /\ bit i q <> bit j q) as (q & Hq & Hb).
      { clear - E. induction n as [|n IH]; [exfalso; apply E; reflexivity|]. rewrite seq_S, forallb_app in E. cbn in E.
        destruct (Nat.eq_dec (bit i n) (bit j n)) as [e|ne]; [|exists n; lia].
        destruct IH as (q & Hq & Hb); [|exists q; lia]. intros h. apply E. rewrite h. cbn. rewrite e, Nat.eqb_refl. reflexivity. }
      apply (cprod_zero n _ q Hq). destruct (Nat.eqb_spec (bit i q) (bit j q)); [contradiction|reflexivity].
Qed.
Lemma tens_step n s k v : k < n -> veq n (mv n (gate1 n (s k) k []) (mv n (tens n (upto s k)) v)) (mv n (tens n (upto s (S k))) v).
Proof.
  intros Hk i Hi. rewrite gate1_action by auto. cbn [ctl_ok forallb]. unfold mv.
  rewrite <- !csum_scal, <- csum_plus. apply csum_ext'. intros j Hj.
  assert (Hb : forall b, b < 2 -> tens n (upto s k) (setb i k b) j =
     Cmult (if b =? bit j k then RtoC 1 else RtoC 0) (cprod n (fun q => if q =? k then RtoC 1 else upto s (S k) q (bit i q) (bit j q)))).
  { intros b Hb. unfold tens. rewrite (cprod_split n _ k Hk). rewrite bit_setb_same by auto. f_equal.
    - unfold upto. rewrite (proj2 (Nat.ltb_ge k k)) by lia. unfold ident. reflexivity.
    - apply cprod_ext. intros q Hq. destruct (Nat.eqb_spec q k) as [|Hne]; [reflexivity|]. rewrite bit_setb_other by auto.
      unfold upto. destruct (Nat.ltb_spec q k), (Nat.ltb_spec q (S k)); try lia; reflexivity. }
  rewrite !Hb by lia. unfold tens at 1. rewrite (cprod_split n (fun q => upto s (S k) q (bit i q) (bit j q)) k Hk).
  replace (upto s (S k) k) with (s k) by (unfold upto; now rewrite (proj2 (Nat.ltb_lt k (S k))) by lia).
  set (P := cprod n _). pose proof (bit_lt2 j k) as B. assert (bit j k = 0 \/ bit j k = 1) as [->| ->] by lia; cbn [Nat.eqb]; ring.
Qed.
Lemma each1_tens_upto n s v k : k <= n -> veq n (each1 n s (seq 0 k) v) (mv n (tens n (upto s k)) v).
Proof.
  induction k as [|k IH]; intros Hk.
  - cbn. eapply veq_trans; [apply veq_sym, mv_ident|]. intros i Hi. apply mv_ext; auto; [apply meq_sym, tens_0|apply veq_refl].
  - rewrite seq_S. cbn [Nat.add].
    assert (Happ : forall l w, each1 n s (l ++ [k]) w = mv n (gate1 n (s k) k []) (each1 n s l w)).
    { induction l as [|a l IHl]; intros w; cbn; [reflexivity|]. apply IHl. }
    rewrite Happ. eapply veq_trans; [apply mv_veq, IH; lia|]. apply tens_step. lia.
Qed.
Lemma each1_tens n s v : veq n (each1 n s (seq 0 n) v) (mv n (tens n s) v).
Proof.
  eapply veq_trans; [apply each1_tens_upto; lia|]. intros i Hi. apply mv_ext; auto; [|apply veq_refl].
  intros a b _ _. unfold tens. apply cprod_ext. intros q Hq. unfold upto. now rewrite (proj2 (Nat.ltb_lt q n)) by auto.
Qed.
Lemma expect_inner n v p : pauli_expect n v p = inner n v (mv n (pauli_mat n p) v).
Proof.
  unfold pauli_expect, inner, mv. apply csum_ext'. intros i Hi. rewrite <- csum_scal. apply csum_ext'. intros j Hj. ring.
Qed.

(* ---- the change of basis ---- *)
(* the gates of _create_meas_circuit on a qubit of the basis *)
Definition rot1 (xz : bool * bool) : matrix :=
  match xz with (true, true) => mm 1 gH gSdg | (true, false) => gH | _ => ident end.
Definition diag1 (xz : bool * bool) : matrix := if snd xz || fst xz then PZ else ident.
Lemma rot1_unitary xz : unitary 1 (rot1 xz).
Proof.
  destruct (C23_constant_gates_unitary 0) as (_ & UH & _).
  assert (US : unitary 1 gSdg) by (unfold gSdg; apply (C23_constant_gates_unitary 0)).
  destruct xz as [[] []]; cbn; [apply unitary_mm; auto|exact UH|apply unitary_ident|apply unitary_ident].
Qed.
Ltac c2 := intros i j Hi Hj; cbn in Hi, Hj; apply lt2 in Hi; apply lt2 in Hj; destruct Hi as [->| ->], Hj as [->| ->];
  unfold rot1, diag1, sigma, gH, gSdg; cbn [fst snd orb];
  unfold mm, ident, PX, PY, PZ, m2x2, Hmat, Sdagmat, mk2, cf_one, cf_mone, cf_zero, cf_i, cf_mi, cf_SQRT2_2, cf_mSQRT2_2, copp, c0, c1;
  rewrite ?SQRT2_n; cbn -[s2 IZR]; unfold Cplus, Cmult, Copp, RtoC, Ci; cbn -[s2 IZR];
  apply injective_projections; cbn -[s2 IZR]; ring.
(* measuring in the basis b: a Pauli that is I or b on the qubit becomes I or Z *)
Lemma rot1_diag b p : p = (false, false) \/ p = b -> meq 1 (mm 1 (rot1 b) (sigma p)) (mm 1 (diag1 p) (rot1 b)).
Proof.
  intros [->| ->].
  - cbn. eapply meq_trans; [apply mm_ident_r|apply meq_sym, mm_ident_l].
  - destruct b as [[] []]; c2.
Qed.

(* ---- expectation values from measured bits ---- *)
Definition at_q (p : pauli) (q : nat) : bool * bool := nth q p (false, false).
Definition sgn1 (p : pauli) (i q : nat) : R := if pnon p q && Nat.testbit i q then (-1)%R else 1%R.
Definition zsign (p : pauli) (qs : list nat) (i : nat) : R := fold_right (fun q acc => (sgn1 p i q * acc)%R) 1%R qs.
Lemma diag1_act n p q v i : q < n -> i < 2 ^ n -> mv n (gate1 n (diag1 (at_q p q)) q []) v i = Cmult (RtoC (sgn1 p i q)) (v i).
Proof.
  intros Hq Hi. rewrite gate1_action by auto. cbn [ctl_ok forallb]. unfold diag1, sgn1, pnon, pz, px. fold (at_q p q).
  rewrite testbit_bit. pose proof (bit_lt2 i q) as B. pose proof (setb_self i q) as S. destruct (snd (at_q p q) || fst (at_q p q)); cbn [andb].
  - assert (bit i q = 0 \/ bit i q = 1) as [E|E] by lia; rewrite E in *; cbn [Nat.eqb]; unfold PZ, m2x2; rewrite S; ring.
  - unfold ident. assert (bit i q = 0 \/ bit i q = 1) as [E|E] by lia; rewrite E in *; cbn [Nat.eqb]; rewrite S; ring.
Qed.
Lemma zsign_act n p qs : (forall q, In q qs -> q < n) -> forall v i, i < 2 ^ n ->
  each1 n (fun q => diag1 (at_q p q)) qs v i = Cmult (RtoC (zsign p qs i)) (v i).
Proof.
  induction qs as [|q r IH]; intros Hb v i Hi; cbn [each1 zsign fold_right].
  - ring.
  - rewrite IH by (auto; intros; apply Hb; now right). rewrite diag1_act by (auto; apply Hb; now left).
    fold (zsign p r i). rewrite RtoC_mult. ring.
Qed.
(* the Pauli is the identity or the basis on every qubit *)
Definition measured_by (n : nat) (b p : pauli) : Prop := forall q, q < n -> at_q p q = (false, false) \/ at_q p q = at_q b q.
Definition rotated (n : nat) (b : pauli) (v : vector) : vector := each1 n (fun q => rot1 (at_q b q)) (seq 0 n) v.
Theorem measured_expect n b p v : measured_by n b p ->
  pauli_expect n v p = RtoC (rsum (2 ^ n) (fun i => Cmod (rotated n b v i) ^ 2 * zsign p (seq 0 n) i)%R).
Proof.
  intros H. rewrite expect_inner.
  assert (Hs : forall q, In q (seq 0 n) -> q < n) by (intros q Hq; apply in_seq in Hq; lia).
  rewrite <- (each1_unitary n (fun q => rot1 (at_q b q)) (seq 0 n)) by (intros q Hq; split; [now apply Hs|apply rot1_unitary]).
  rewrite (inner_ext n _ _ (rotated n b v) (each1 n (fun q => diag1 (at_q p q)) (seq 0 n) (rotated n b v))).
  - unfold inner. rewrite <- csum_RtoC. apply csum_ext'. intros i Hi. rewrite zsign_act by auto.
    rewrite RtoC_mult, Cmod2_conj. ring.
  - apply veq_refl.
  - eapply veq_trans; [apply each1_veq, veq_sym, (each1_tens n (fun q => sigma (at_q p q)))|].
    apply each1_intertwine; [apply seq_NoDup|exact Hs|]. intros q Hq. apply rot1_diag. apply H. now apply Hs.
Qed.
(* qubits outside the support are left alone *)
Lemma each1_filter n g (f : nat -> bool) qs : (forall q, In q qs -> q < n) -> (forall q, In q qs -> f q = false -> meq 1 (g q) ident) ->
  forall v, veq n (each1 n g (filter f qs) v) (each1 n g qs v).
Proof.
  induction qs as [|q r IH]; intros Hb H v; cbn; [apply veq_refl|].
  assert (Hr : forall v, veq n (each1 n g (filter f r) v) (each1 n g r v)) by (apply IH; intros; [apply Hb|apply H]; auto; now right).
  destruct (f q) eqn:E; cbn [each1].
  - apply Hr.
  - eapply veq_trans; [apply Hr|]. apply each1_veq. apply veq_sym. eapply veq_trans; [apply gate1_mv_meq; [apply Hb; now left|apply H; auto; now left]|].
    eapply veq_trans; [|apply mv_ident]. intros i Hi. apply mv_ext; auto; [|apply veq_refl]. apply gate1_ident. apply Hb; now left.
Qed.
Lemma zsign_filter p (f : nat -> bool) i qs : (forall q, In q qs -> f q = false -> pnon p q = false) -> zsign p (filter f qs) i = zsign p qs i.
Proof.
  induction qs as [|q r IH]; intros H; cbn; auto. destruct (f q) eqn:E; cbn [zsign fold_right]; fold (zsign p r i); fold (zsign p (filter f r) i).
  - rewrite IH; auto. intros; apply H; auto; now right.
  - rewrite IH by (intros; apply H; auto; now right). unfold sgn1. rewrite (H q); auto; [|now left]. cbn. ring.
Qed.
