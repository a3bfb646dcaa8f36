(* GroverP.v -- property C62: the Grover search of test/test_performance.cpp ends in
   the state the textbook gives, for every oracle, and finds the marked string with
   high probability. *)
From Coq Require Import Reals Lra Psatz ZArith Bool List Lia Arith.
From Coquelicot Require Import Complex.
From Verif Require Import Num State DD Gates GC Measure Api RNum Wf Spec SpecP Readout MeasAllP BackendP PauliP Obs Props1 Props2 Prog Circuit Examples Grover GroverL.
Import ListNotations.
Open Scope nat_scope.

(* ---- the loops run the iteration exactly CalculateIterations times ---- *)
Lemma pre_loop_ok it : forall f j, j <= it -> it - j < f -> exists j', pre_loop f it j = Some j' /\ j <= j' <= it /\ (it - j') mod 8 = 0.
Proof.
  induction f as [|f IH]; intros j Hj Hf; [lia|]. cbn [pre_loop]. destruct (Nat.eqb_spec ((it - j) mod 8) 0) as [H0|H0]; cbn [negb].
  - exists j. auto.
  - assert (j < it). { destruct (Nat.eq_dec j it) as [->|]; [|lia]. rewrite Nat.sub_diag in H0. cbn in H0. lia. }
    destruct (IH (S j)) as (j' & H1 & H2 & H3); [lia|lia|]. exists j'. split; auto. lia.
Qed.
Lemma main_loop_ok it : forall f j d, j <= it -> (it - j) mod 8 = 0 -> it - j < f -> main_loop f it j d = Some (d + (it - j)).
Proof.
  induction f as [|f IH]; intros j d Hj H8 Hf; [lia|]. cbn [main_loop]. destruct (Nat.ltb_spec j it) as [h|h].
  - assert (H1 := Nat.div_mod (it - j) 8 ltac:(lia)). rewrite H8 in H1.
    assert (Hge : 8 <= it - j) by lia. rewrite IH; try lia.
    + f_equal. lia.
    + replace (it - (j + 8)) with (8 * ((it - j) / 8 - 1) + 0) by lia. rewrite Nat.add_0_r, Nat.mul_comm. apply Nat.mod_mul. lia.
  - f_equal. lia.
Qed.
Theorem multiplications_ok it : multiplications it = Some it.
Proof.
  unfold multiplications. destruct (pre_loop_ok it (S it) 0) as (j & -> & Hj & H8); try lia. rewrite main_loop_ok by (auto; lia). f_equal. lia.
Qed.

(* ---- what the gate lists mean ---- *)
Definition gates_mean (T : nat) (g : list instr) (ms : list matrix) : Prop :=
  Forall2 (fun x A => forall env, isem x env (IM T A) []) g ms.
Definition run_mats (T : nat) (ms : list matrix) (v : vector) : vector := fold_left (fun w A => mv T A w) ms v.
Definition prod_mats (T : nat) (A : matrix) (ms : list matrix) : matrix := fold_left (fun P B => mm T B P) ms A.
Lemma run_mats_veq T ms : forall v w, veq T v w -> veq T (run_mats T ms v) (run_mats T ms w).
Proof. induction ms as [|A ms IH]; intros v w H; cbn; auto. apply IH. now apply mv_veq. Qed.
Lemma prod_run T ms : forall A v, veq T (mv T (prod_mats T A ms) v) (run_mats T (A :: ms) v).
Proof.
  induction ms as [|B ms IH]; intros A v; [apply veq_refl|]. cbn [prod_mats fold_left]. eapply veq_trans; [apply IH|].
  cbn [run_mats fold_left]. apply (run_mats_veq T ms). apply mv_mm.
Qed.
Lemma gates_run T : forall g ms, gates_mean T g ms -> forall p env os, irun p env os ->
  exists os', irun (rev g ++ p) (rev (map (IM T) ms) ++ env) os'.
Proof.
  intros g ms Hg. induction Hg as [|x A g ms Hx Hg IH]; intros p env os Hp; [exists os; exact Hp|].
  cbn [rev map]. rewrite <- !app_assoc. cbn [app]. apply (IH _ _ ([] :: os)). constructor; auto.
Qed.
(* the products: the gates still to be multiplied lie right above position k *)
Lemma products_run T k : forall ms2 P junk p env os, length junk + length ms2 = k ->
  irun p (IM T P :: junk ++ rev (map (IM T) ms2) ++ env) os ->
  exists junk' os', length junk' = length junk + length ms2 /\
    irun (repeat (P_mmmul k 0) (length ms2) ++ p) (IM T (prod_mats T P ms2) :: junk' ++ rev (map (IM T) ms2) ++ env) os'.
Proof.
  intros ms2.
  assert (G : forall r done P junk p env os, length ms2 = length done + length r -> ms2 = done ++ r -> length junk + length r = k ->
    irun p (IM T P :: junk ++ rev (map (IM T) ms2) ++ env) os ->
    exists junk' os', length junk' = length junk + length r /\
      irun (repeat (P_mmmul k 0) (length r) ++ p) (IM T (prod_mats T P r) :: junk' ++ rev (map (IM T) ms2) ++ env) os').
  { induction r as [|B r IH]; intros done P junk p env os Hlen Hms Hj Hp.
    - exists junk, os. split; [cbn; lia|exact Hp].
    - assert (Hat : nth_error (IM T P :: junk ++ rev (map (IM T) ms2) ++ env) k = Some (IM T B)).
      { cbn in Hj. replace k with (S (length junk + length r)) by lia. cbn [nth_error].
        rewrite nth_error_app2 by lia. replace (length junk + length r - length junk) with (length r) by lia.
        rewrite Hms, map_app, rev_app_distr. cbn [map rev]. rewrite <- !app_assoc. rewrite nth_error_app2 by (rewrite rev_length, map_length; lia).
        rewrite rev_length, map_length, Nat.sub_diag. reflexivity. }
      cbn [length repeat]. destruct (IH (done ++ [B]) (mm T B P) (IM T P :: junk) (P_mmmul k 0 :: p) env ([] :: os)) as (junk' & os' & H1 & H2).
      + rewrite app_length. cbn in *. lia.
      + rewrite <- app_assoc. exact Hms.
      + cbn in *. lia.
      + constructor; [exact Hp|]. exists T, B, P. repeat split; auto.
      + exists junk', os'. split; [cbn in *; lia|]. cbn [prod_mats fold_left] in *.
        rewrite repeat_cons, <- app_assoc. exact H2. }
  intros P junk p env os Hj Hp. apply (G ms2 [] P junk p env os); auto.
Qed.
Lemma F2_len {A B} (P : A -> B -> Prop) l l' : Forall2 P l l' -> length l = length l'.
Proof. induction 1; cbn; auto. Qed.
Lemma rev_rep {A} (x : A) k : rev (repeat x k) = repeat x k.
Proof. induction k as [|k IH]; [reflexivity|]. cbn [repeat rev]. rewrite IH. symmetry. apply repeat_cons. Qed.
Lemma built_run T g A ms p env os : gates_mean T g (A :: ms) -> irun p env os ->
  exists junk os', length junk = 2 * length ms /\ irun (rev (built g) ++ p) (IM T (prod_mats T A ms) :: junk ++ env) os'.
Proof.
  intros Hg Hp. pose proof (F2_len _ _ _ Hg) as Hl. cbn in Hl. destruct (gates_run T g _ Hg p env os Hp) as (os1 & H1).
  unfold built. rewrite rev_app_distr, Hl. cbn [map rev] in H1. rewrite <- app_assoc in H1. cbn [app] in H1.
  destruct ms as [|B ms]; [exists [], os1; split; auto|].
  cbn [length buildUnitary]. set (k := length ms). cbn [rev]. rewrite rev_rep.
  change (2 * S k) with (2 * length (B :: ms)).
  destruct (products_run T k ms (mm T B A) [] (P_mmmul k (S k) :: rev g ++ p) ((IM T B) :: IM T A :: env) ([] :: os1)) as (junk & os2 & H2 & H3).
  - reflexivity.
  - constructor.
    + cbn [app rev map] in *. rewrite <- app_assoc in H1. exact H1.
    + cbn [app]. exists T, B, A. rewrite !nth_error_app2 by (rewrite rev_length, map_length; lia). rewrite rev_length, map_length. fold k.
      replace (S k - k) with 1 by lia. rewrite Nat.sub_diag. repeat split.
  - exists (junk ++ rev (map (IM T) ms) ++ [IM T B; IM T A]), os2. split.
    + rewrite !app_length, rev_length, map_length. cbn in *. lia.
    + cbn [prod_mats fold_left] in *. rewrite <- !app_assoc in *. cbn [app] in *. fold k in H3. exact H3.
Qed.

(* ---- the gate lists of the search ---- *)
Definition layer_mats (T n : nat) (g : matrix) : list matrix := map (fun i => gate1 T g i []) (seq 0 n).
Lemma run_mats_app T a b v : run_mats T (a ++ b) v = run_mats T b (run_mats T a v).
Proof. apply fold_left_app. Qed.
Lemma run_layer T n g v : run_mats T (layer_mats T n g) v = lay T n g v.
Proof. unfold layer_mats, lay. revert v. induction (seq 0 n) as [|x l IH]; intros v; [reflexivity|]. cbn [map each1]. rewrite <- IH. reflexivity. Qed.
Lemma gate_means T g t l : size_ok T -> t < T -> controls_ok T [Z.of_nat t] l ->
  forall env, isem (P_gate T g (Z.of_nat t) l) env (IM T (gate1 T g t l)) [].
Proof.
  intros HT Ht Hl env. cbn [isem]. rewrite Nat2Z.id. split; [exact HT|]. split; [unfold qubit; lia|]. split; [exact Hl|]. split; reflexivity.
Qed.
Lemma no_ctls T t : controls_ok T [t] [].
Proof. split; [constructor|]. intros x []. Qed.
Lemma layer_means T n g : size_ok T -> n <= T -> gates_mean T (on_data T n g) (layer_mats T n g).
Proof.
  intros HT Hn. unfold on_data, layer_mats. assert (Hx : forall x, In x (seq 0 n) -> x < T) by (intros x Hx; apply in_seq in Hx; lia).
  induction (seq 0 n) as [|x l IH]; cbn; constructor; [|apply IH; intros; apply Hx; now right].
  apply gate_means; auto using no_ctls. apply Hx. now left.
Qed.
Lemma seq_ctls T n t (f : nat -> bool) : n <= T -> ~ (t < n) -> controls_ok T [Z.of_nat t] (map (fun i => (Z.of_nat i, f i)) (seq 0 n)).
Proof.
  intros HT Ht. split.
  - rewrite map_map. cbn [fst]. apply FinFun.Injective_map_NoDup; [intros a b; lia|apply seq_NoDup].
  - intros x Hx. apply in_map_iff in Hx. destruct Hx as (i & <- & Hi). apply in_seq in Hi. cbn [fst]. unfold qubit. split; [lia|].
    intros [h|[]]. lia.
Qed.
Definition iter_mats (o : list bool) (n : nat) : list matrix :=
  let T := n + 1 in
  [ident] ++ layer_mats T n gH ++ layer_mats T n gX ++ [gate1 T gH (n - 1) []] ++ [gate1 T gX (n - 1) (pos_ctls (n - 1))]
  ++ [gate1 T gH (n - 1) []] ++ layer_mats T n gX ++ layer_mats T n gH.
Definition iter_gate (o : list bool) (n : nat) : matrix := gate1 (n + 1) gZ n (oracle_ctls o n).
Lemma iter_run o n p env os : size_ok (n + 1) -> 0 < n -> irun p env os ->
  exists junk os', irun (rev (groverIteration o n) ++ p) (IM (n + 1) (prod_mats (n + 1) (iter_gate o n) (iter_mats o n)) :: junk ++ env) os'.
Proof.
  intros HT Hn Hp. unfold groverIteration.
  set (g := [P_gate (n + 1) gZ (Z.of_nat n) _] ++ _).
  destruct (built_run (n + 1) g (iter_gate o n) (iter_mats o n) p env os) as (junk & os' & _ & H2); [|exact Hp|exists junk, os'; exact H2].
  unfold g, iter_mats. cbn [app]. constructor; [|constructor; [|apply Forall2_app; [|apply Forall2_app; [|constructor; [|constructor; [|constructor; [|apply Forall2_app]]]]]]].
  - apply gate_means; auto; [lia|]. apply seq_ctls; lia.
  - intros e. cbn. auto.
  - apply layer_means; auto; lia.
  - apply layer_means; auto; lia.
  - apply gate_means; auto using no_ctls; lia.
  - apply gate_means; auto; [lia|]. apply seq_ctls; lia.
  - apply gate_means; auto using no_ctls; lia.
  - apply layer_means; auto; lia.
  - apply layer_means; auto; lia.
Qed.
Lemma iter_act o n v : 0 < n -> veq (n + 1) (mv (n + 1) (prod_mats (n + 1) (iter_gate o n) (iter_mats o n)) v)
  (diffuse (n + 1) n (mv (n + 1) (iter_gate o n) v)).
Proof.
  intros Hn. eapply veq_trans; [apply prod_run|]. unfold iter_mats. set (T := n + 1). set (w := mv T (iter_gate o n) v).
  change (run_mats T (iter_gate o n :: [ident] ++ layer_mats T n gH ++ layer_mats T n gX ++ [gate1 T gH (n - 1) []] ++
    [gate1 T gX (n - 1) (pos_ctls (n - 1))] ++ [gate1 T gH (n - 1) []] ++ layer_mats T n gX ++ layer_mats T n gH) v)
  with (run_mats T (layer_mats T n gH ++ layer_mats T n gX ++ [gate1 T gH (n - 1) []] ++
    [gate1 T gX (n - 1) (pos_ctls (n - 1))] ++ [gate1 T gH (n - 1) []] ++ layer_mats T n gX ++ layer_mats T n gH) (mv T ident w)).
  eapply veq_trans; [apply run_mats_veq, mv_ident|]. rewrite !run_mats_app, !run_layer. apply veq_refl.
Qed.
Lemma setup_run n p env os : size_ok (n + 1) -> irun p env os ->
  exists junk os', length junk = 2 * n /\
    irun (rev (groverSetup n) ++ p) (IM (n + 1) (prod_mats (n + 1) (gate1 (n + 1) gX n []) (layer_mats (n + 1) n gH)) :: junk ++ env) os'.
Proof.
  intros HT Hp. unfold groverSetup. set (g := P_gate (n + 1) gX (Z.of_nat n) [] :: _).
  destruct (built_run (n + 1) g (gate1 (n + 1) gX n []) (layer_mats (n + 1) n gH) p env os) as (junk & os' & H1 & H2); [|exact Hp|].
  - constructor; [apply gate_means; auto using no_ctls; lia|]. apply layer_means; auto; lia.
  - exists junk, os'. split; [|exact H2]. rewrite H1. unfold layer_mats. now rewrite map_length, seq_length.
Qed.

(* ---- the whole program ---- *)
Fixpoint iterate {A} (k : nat) (f : A -> A) (x : A) : A := match k with O => x | S m => f (iterate m f x) end.
Lemma tail_run T A k : forall v junk p env os j, irun p (IV T v :: junk ++ IM T A :: env) os -> length junk = j ->
  exists junk' os', length junk' = j + k /\
    irun (rev (map (fun i => P_mul (S j + i) 0) (seq 0 k)) ++ p) (IV T (iterate k (mv T A) v) :: junk' ++ IM T A :: env) os'.
Proof.
  intros v junk p env os j Hp Hj. induction k as [|k IH].
  - exists junk, os. split; [lia|exact Hp].
  - destruct IH as (junk1 & os1 & H1 & H2). exists (IV T (iterate k (mv T A) v) :: junk1), ([] :: os1). split; [cbn; lia|].
    rewrite seq_S, map_app, rev_app_distr. cbn [map rev app plus iterate]. constructor; [exact H2|].
    exists T, A, (iterate k (mv T A) v). replace (S (j + k)) with (S (length junk1)) by lia. cbn [nth_error].
    rewrite nth_error_app2, Nat.sub_diag by lia. repeat split.
Qed.
Definition grover_state (o : list bool) : vector :=
  let n := length o in let T := n + 1 in
  iterate (CalculateIterations n) (mv T (prod_mats T (iter_gate o n) (iter_mats o n)))
    (mv T (prod_mats T (gate1 T gX n []) (layer_mats T n gH)) (basis 0)).
Lemma grover_run o : let n := length o in 0 < n -> size_ok (n + 1) ->
  exists p env os, grover o n = Some p /\ irun (rev p) (IV (n + 1) (grover_state o) :: env) os.
Proof.
  cbn zeta. set (n := length o). intros Hn HT. unfold grover. rewrite multiplications_ok. unfold grover_state. fold n.
  set (k := CalculateIterations n). set (U := prod_mats (n + 1) (iter_gate o n) (iter_mats o n)).
  set (S0 := prod_mats (n + 1) (gate1 (n + 1) gX n []) (layer_mats (n + 1) n gH)).
  destruct (iter_run o n [] [] [] HT Hn ir_nil) as (j1 & os1 & H1). fold U in H1.
  destruct (setup_run n _ _ _ HT H1) as (j2 & os2 & L2 & H2). fold S0 in H2.
  assert (H3 : irun (P_mul 1 0 :: P_zero (n + 1) :: rev (groverSetup n) ++ rev (groverIteration o n) ++ [])
    (IV (n + 1) (mv (n + 1) S0 (basis 0)) :: (IV (n + 1) (basis 0) :: IM (n + 1) S0 :: j2) ++ IM (n + 1) U :: j1 ++ []) ([] :: [] :: os2)).
  { constructor; [constructor; [exact H2|]|].
    - cbn. auto.
    - exists (n + 1), S0, (basis 0). repeat split. }
  destruct (tail_run (n + 1) U k _ _ _ _ _ (2 * n + 2) H3) as (j3 & os3 & _ & H4); [cbn; lia|].
  eexists _, _, os3. split; [reflexivity|]. rewrite !rev_app_distr. rewrite <- !app_assoc.
  replace (map (fun j => P_mul (2 * (n + 1) + 1 + j) 0) (seq 0 k)) with (map (fun i => P_mul (S (2 * n + 2) + i) 0) (seq 0 k)).
  - rewrite app_nil_r in H4. cbn [rev app] in H4 |- *. exact H4.
  - apply map_ext. intros i. f_equal. lia.
Qed.

(* ---- the amplitudes ---- *)
(* the angle of the textbook analysis *)
Definition theta (n : nat) : R := asin (/ sqrt (2 ^ n)).
Definition amp_marked (n k : nat) : R := ((-1) ^ k * sin ((2 * INR k + 1) * theta n))%R.
Definition amp_other (n k : nat) : R := ((-1) ^ k * (cos ((2 * INR k + 1) * theta n) / sqrt (2 ^ n - 1)))%R.
Section Angle.
Context (n : nat) (Hn : 0 < n).
Local Open Scope R_scope.
Let N : R := 2 ^ n.
Lemma N_ge2 : 2 <= N.
Proof using Hn. unfold N. destruct n as [|m]; [lia|]. cbn. pose proof (pow_R1_Rle 2 m ltac:(lra)). lra. Qed.
Lemma sqrtN : 1 < sqrt N /\ sqrt N * sqrt N = N.
Proof using Hn.
  pose proof N_ge2. split; [|apply sqrt_sqrt; lra]. rewrite <- sqrt_1 at 1. apply sqrt_lt_1; lra.
Qed.
Lemma invN : 0 < / sqrt N < 1.
Proof using Hn. destruct sqrtN as [H1 _]. split; [apply Rinv_0_lt_compat; lra|]. rewrite <- Rinv_1. apply Rinv_lt_contravar; lra. Qed.
Lemma sin_theta : sin (theta n) = / sqrt N.
Proof using Hn. unfold theta. apply sin_asin. pose proof invN. fold N. lra. Qed.
Lemma cos_theta : cos (theta n) = sqrt (N - 1) / sqrt N.
Proof using Hn.
  unfold theta. pose proof invN as Hi. destruct sqrtN as [H1 H2]. pose proof N_ge2. rewrite cos_asin by (fold N; lra). fold N.
  rewrite <- sqrt_div_alt by lra. f_equal. unfold Rsqr. rewrite <- Rinv_mult, H2. field. lra.
Qed.
Lemma amp_step k : let a := amp_marked n k in let b := amp_other n k in let m := (- a + (N - 1) * b) / N in
  - a - 2 * m = amp_marked n (S k) /\ b - 2 * m = amp_other n (S k).
Proof using Hn.
  cbn zeta. unfold amp_marked, amp_other. fold N. rewrite S_INR.
  replace ((2 * (INR k + 1) + 1) * theta n) with ((2 * INR k + 1) * theta n + 2 * theta n) by ring.
  rewrite sin_plus, cos_plus, sin_2a, cos_2a_sin, sin_theta, cos_theta.
  destruct sqrtN as [H1 H2]. pose proof N_ge2 as HN.
  assert (Hr : 0 < sqrt (N - 1)) by (apply sqrt_lt_R0; lra). assert (Hr2 : sqrt (N - 1) * sqrt (N - 1) = N - 1) by (apply sqrt_sqrt; lra).
  set (x := sin _). set (y := cos _). set (r := sqrt (N - 1)) in *. set (q := sqrt N) in *. cbn [pow].
  set (e := (-1) ^ k). rewrite <- Hr2. clearbody x y r q e.
  assert (HNr : N = r * r + 1) by lra.
  assert (E1 : 1 - 2 * / q * / q = 1 - 2 / (r * r + 1)) by (rewrite Rmult_assoc, <- Rinv_mult, H2, HNr; reflexivity).
  assert (E2 : 2 * / q * (r / q) = 2 * r / (r * r + 1)) by (rewrite <- HNr, <- H2; field; lra).
  rewrite E1, E2, HNr. split; field; split; nra.
Qed.
End Angle.
Lemma amp_0 n : 0 < n -> amp_marked n 0 = (/ sqrt (2 ^ n))%R /\ amp_other n 0 = (/ sqrt (2 ^ n))%R.
Proof.
  intros Hn. unfold amp_marked, amp_other. cbn [INR pow]. replace ((2 * 0 + 1) * theta n)%R with (theta n) by ring.
  rewrite sin_theta, cos_theta by auto. pose proof (N_ge2 n Hn). destruct (sqrtN n Hn) as [H1 _].
  assert (0 < sqrt (2 ^ n - 1))%R by (apply sqrt_lt_R0; lra). split; [ring|]. field. lra.
Qed.
Lemma grover_amplitudes o : let n := length o in 0 < n -> let k := CalculateIterations n in
  veq (n + 1) (grover_state o) (st o (amp_marked n k) (amp_other n k)).
Proof.
  cbn zeta. set (n := length o). intros Hn. unfold grover_state. fold n. generalize (CalculateIterations n). intros k.
  induction k as [|k IH]; cbn [iterate].
  - destruct (amp_0 n Hn) as [-> ->]. eapply veq_trans; [apply prod_run|].
    change (run_mats (n + 1) (gate1 (n + 1) gX n [] :: layer_mats (n + 1) n gH) (basis 0))
      with (run_mats (n + 1) (layer_mats (n + 1) n gH) (mv (n + 1) (gate1 (n + 1) gX n []) (basis 0))).
    rewrite run_layer. apply (setup_act o).
  - eapply veq_trans; [apply mv_veq; exact IH|]. eapply veq_trans; [apply iter_act; exact Hn|].
    eapply veq_trans.
    { unfold diffuse. apply lay_veq, lay_veq. unfold mid. apply mv_veq, mv_veq, mv_veq, lay_veq, lay_veq. apply (oracle_act o). }
    fold n. eapply veq_trans; [apply (diffuse_act o); exact Hn|]. cbn zeta. fold n.
    destruct (amp_step n Hn k) as [E1 E2]. cbn zeta in E1, E2. rewrite <- E1, <- E2. apply veq_refl.
Qed.

(* ---- the success probability ---- *)
Section Success.
Local Open Scope R_scope.
Lemma Rpow_half n : Rpower 2 (INR n / 2) = sqrt (2 ^ n).
Proof.
  rewrite <- Rpower_pow by lra. rewrite <- Rpower_sqrt by (apply exp_pos). rewrite Rpower_mult. f_equal.
Qed.
Lemma sin_sq_le x d : Rabs x <= d -> sin x * sin x <= d * d.
Proof.
  assert (G : forall y, 0 <= y -> Rabs (sin y) <= y).
  { intros y Hy. destruct (Req_dec y 0) as [->|Hne]; [rewrite sin_0, Rabs_R0; lra|]. apply Rabs_le. split; [|left; apply sin_lt_x; lra].
    destruct (Rle_dec y PI) as [h|h]; [pose proof (sin_ge_0 y Hy h); lra|]. pose proof (SIN_bound y). pose proof PI2_1. unfold PI in *.
    assert (1 < PI / 2) by apply PI2_1. unfold PI in *. lra. }
  intros Hx. assert (Ha : Rabs (sin x) <= Rabs x).
  { destruct (Rcase_abs x) as [h|h].
    - rewrite (Rabs_left x h). rewrite <- Rabs_Ropp, <- sin_neg. apply G. lra.
    - rewrite (Rabs_right x h). apply G. lra. }
  assert (Hs : sin x * sin x = Rabs (sin x) * Rabs (sin x)) by (rewrite <- Rabs_mult, Rabs_right; [reflexivity|]; apply Rle_ge; nra).
  pose proof (Rabs_pos (sin x)). rewrite Hs. nra.
Qed.
Lemma sin_lower x : 0 <= x <= 1 -> x - x * x * x / 6 <= sin x.
Proof.
  intros Hx. destruct (pre_sin_bound x 0) as [H _]; [lra|lra|]. unfold sin_approx, sin_term in H. cbn in H. 
  replace (x - x * x * x / 6) with (1 * (x * 1 / 1) + -1 * 1 * (x * (x * (x * 1)) / (1 + 1 + 1 + 1 + 1 + 1))) by field. lra.
Qed.
Lemma theta_pos n : (0 < n)%nat -> 0 < theta n <= PI / 2.
Proof.
  intros Hn. pose proof (sin_theta n Hn) as Hs. pose proof (invN n Hn) as Hi. pose proof (asin_bound (/ sqrt (2 ^ n))) as Hb.
  fold (theta n) in Hb. split; [|lra]. destruct (Rlt_le_dec 0 (theta n)) as [h|h]; auto.
  assert (H0 : 0 <= sin (- theta n)) by (apply sin_ge_0; pose proof PI_RGT_0; lra). rewrite sin_neg, Hs in H0. lra.
Qed.
Lemma theta_ge n : (0 < n)%nat -> / sqrt (2 ^ n) <= theta n.
Proof. intros Hn. rewrite <- sin_theta by auto. left. apply sin_lt_x. now apply theta_pos. Qed.
Lemma S_small n : (4 <= n)%nat -> / sqrt (2 ^ n) <= / 4.
Proof.
  intros Hn. apply Rinv_le_contravar; [lra|]. rewrite <- (sqrt_pow2 4) by lra. apply sqrt_le_1_alt.
  replace (4 ^ 2) with (2 ^ 4) by lra. apply Rle_pow; [lra|lia].
Qed.
Lemma theta_small n : (4 <= n)%nat -> theta n <= 3 / 10 /\ theta n - theta n * theta n * theta n / 6 <= / sqrt (2 ^ n).
Proof.
  intros Hn. pose proof (theta_pos n ltac:(lia)) as Ht. pose proof (S_small n Hn) as HS. pose proof (sin_theta n ltac:(lia)) as Hs.
  assert (H3 : theta n <= 3 / 10).
  { destruct (Rle_lt_dec (theta n) (3 / 10)) as [h|h]; auto. exfalso. pose proof (sin_lower (3 / 10) ltac:(lra)) as Hl.
    assert (sin (3 / 10) <= sin (theta n)) by (apply sin_incr_1; pose proof PI2_1; lra). lra. }
  split; auto. rewrite <- Hs. apply sin_lower. lra.
Qed.
Lemma iterations_near n : (4 <= n)%nat ->
  INR (CalculateIterations n) <= PI / 4 * sqrt (2 ^ n) < INR (CalculateIterations n) + 1.
Proof.
  intros Hn. unfold CalculateIterations. destruct (Nat.leb_spec n 3); [lia|]. rewrite Rpow_half. set (r := PI / 4 * sqrt (2 ^ n)).
  assert (Hr : 0 <= r). { unfold r. pose proof PI_RGT_0. pose proof (sqrt_pos (2 ^ n)). nra. }
  pose proof (base_Int_part r) as [H1 H2]. assert (Hz : (0 <= Int_part r)%Z).
  { assert (-1 < IZR (Int_part r)) by lra. apply lt_IZR in H0. lia. }
  rewrite INR_IZR_INZ, Z2Nat.id by exact Hz. lra.
Qed.
Lemma success_large n : (4 <= n)%nat -> 1 - 2 / 2 ^ n <= amp_marked n (CalculateIterations n) ^ 2.
Proof.
  intros Hn. pose proof (iterations_near n Hn) as Hk. set (k := CalculateIterations n) in *. unfold amp_marked.
  pose proof (theta_pos n ltac:(lia)) as Ht. pose proof (theta_ge n ltac:(lia)) as Hg. destruct (theta_small n Hn) as [H3 H6].
  pose proof (S_small n Hn) as HS. destruct (sqrtN n ltac:(lia)) as [Hx1 Hx2].
  set (x := sqrt (2 ^ n)) in *. set (th := theta n) in *. set (S := / x) in *.
  assert (HxS : x * S = 1) by (unfold S; field; lra).
  assert (HS0 : 0 < S) by (unfold S; apply Rinv_0_lt_compat; lra).
  set (d := (2 * INR k + 1) * th - PI / 2).
  pose proof PI_RGT_0 as Hpi. pose proof PI_4 as Hpi4. pose proof (pos_INR k) as Hk0.
  assert (Hxt : 1 <= x * th) by nra.
  assert (Hlo : - th <= d). { unfold d. assert ((PI / 2 * x - 1) * th <= (2 * INR k + 1) * th) by (apply Rmult_le_compat_r; lra). nra. }
  assert (Hhi : d <= th + PI / 2 * (x * th - 1)). { unfold d. assert ((2 * INR k + 1) * th <= (PI / 2 * x + 1) * th) by (apply Rmult_le_compat_r; lra). nra. }
  assert (Hth : th * (985 / 1000) <= S) by nra.
  assert (Hth2 : th <= 1016 / 1000 * S) by lra.
  assert (Hc : th * th * th <= (1016 / 1000 * S) * (1016 / 1000 * S) * (1016 / 1000 * S)).
  { apply Rmult_le_compat; nra. }
  assert (Hm : x * th - 1 <= 1 / 20 * S).
  { assert (x * th - 1 <= x * (th * th * th / 6)) by nra.
    assert (x * (th * th * th / 6) <= x * ((1016 / 1000 * S) * (1016 / 1000 * S) * (1016 / 1000 * S)) / 6) by nra.
    assert (x * ((1016 / 1000 * S) * (1016 / 1000 * S) * (1016 / 1000 * S)) / 6 = (x * S) * (S * S) * (1016 * 1016 * 1016 / 6000000000)) by field.
    rewrite HxS in H1. nra. }
  assert (Hd : Rabs d <= 12 / 10 * S).
  { apply Rabs_le. split; [lra|]. assert (PI / 2 * (x * th - 1) <= 2 * (1 / 20 * S)) by (apply Rmult_le_compat; lra). lra. }
  pose proof (sin_sq_le d _ Hd) as Hsd.
  assert (Hcs : cos ((2 * INR k + 1) * th) * cos ((2 * INR k + 1) * th) = sin d * sin d).
  { replace ((2 * INR k + 1) * th) with (PI / 2 + d) by (unfold d; ring). rewrite cos_plus, cos_PI2, sin_PI2. ring. }
  assert (H1 : ((-1) ^ k) * ((-1) ^ k) = 1) by (rewrite <- Rpow_mult_distr; replace (-1 * -1) with 1 by ring; apply pow1).
  pose proof (sin2_cos2 ((2 * INR k + 1) * th)) as Hsc. unfold Rsqr in Hsc.
  assert (HSN : S * S = / 2 ^ n) by (unfold S; rewrite <- Rinv_mult, Hx2; reflexivity).
  replace (((-1) ^ k * sin ((2 * INR k + 1) * th)) ^ 2) with ((((-1) ^ k) * ((-1) ^ k)) * (sin ((2 * INR k + 1) * th) * sin ((2 * INR k + 1) * th))) by ring.
  rewrite H1. unfold Rdiv. rewrite <- HSN. nra.
Qed.
Lemma sin_3a a : sin (3 * a) = 3 * sin a - 4 * sin a * sin a * sin a.
Proof.
  replace (3 * a) with (2 * a + a) by ring. rewrite sin_plus, sin_2a, cos_2a_sin. pose proof (sin2_cos2 a) as H. unfold Rsqr in H.
  replace (2 * sin a * cos a * cos a) with (2 * sin a * (cos a * cos a)) by ring. replace (cos a * cos a) with (1 - sin a * sin a) by lra. ring.
Qed.
Lemma success_small n : (0 < n <= 3)%nat -> let s := / 2 ^ n in amp_marked n (CalculateIterations n) ^ 2 = s * (3 - 4 * s) * (3 - 4 * s).
Proof.
  intros Hn. cbn zeta. unfold CalculateIterations. destruct (Nat.leb_spec n 3); [|lia]. unfold amp_marked. cbn [INR].
  replace ((2 * 1 + 1) * theta n) with (3 * theta n) by ring. rewrite sin_3a, sin_theta by lia. destruct (sqrtN n ltac:(lia)) as [H1 H2].
  assert (HS : / sqrt (2 ^ n) * / sqrt (2 ^ n) = / 2 ^ n) by (rewrite <- Rinv_mult, H2; reflexivity).
  rewrite <- HS. ring.
Qed.
Lemma success n : (0 < n)%nat -> 1 / 2 <= amp_marked n (CalculateIterations n) ^ 2 /\ 1 - 2 / 2 ^ n <= amp_marked n (CalculateIterations n) ^ 2.
Proof.
  intros Hn. destruct (le_lt_dec 4 n) as [h|h].
  - pose proof (success_large n h) as H. split; auto. eapply Rle_trans; [|exact H].
    assert (2 ^ 4 <= 2 ^ n) by (apply Rle_pow; [lra|lia]). assert (/ 2 ^ n <= / 2 ^ 4) by (apply Rinv_le_contravar; lra). unfold Rdiv. lra.
  - rewrite success_small by lia. assert (n = 1 \/ n = 2 \/ n = 3)%nat as [->|[->| ->]] by lia; cbn [pow]; split; lra.
Qed.
Lemma amp_norm n k : (0 < n)%nat -> amp_marked n k ^ 2 + (2 ^ n - 1) * amp_other n k ^ 2 = 1.
Proof.
  intros Hn. unfold amp_marked, amp_other. pose proof (N_ge2 n Hn). assert (Hr2 : sqrt (2 ^ n - 1) * sqrt (2 ^ n - 1) = 2 ^ n - 1) by (apply sqrt_sqrt; lra).
  assert (0 < sqrt (2 ^ n - 1)) by (apply sqrt_lt_R0; lra). rewrite <- Hr2 at 1.
  assert (H1 : ((-1) ^ k) * ((-1) ^ k) = 1) by (rewrite <- Rpow_mult_distr; replace (-1 * -1) with 1 by ring; apply pow1).
  pose proof (sin2_cos2 ((2 * INR k + 1) * theta n)) as Hsc. unfold Rsqr in Hsc. set (x := sin _) in *. set (y := cos _) in *. set (r := sqrt (2 ^ n - 1)) in *.
  set (e := (-1) ^ k) in *. clearbody x y r e. replace ((e * x) ^ 2) with ((e * e) * (x * x)) by ring.
  replace (r * r * (e * (y / r)) ^ 2) with ((e * e) * (y * y)) by (field; lra). rewrite H1. lra.
Qed.
End Success.
Lemma st_norm o a b : norm2v (length o + 1) (st o a b) = (a ^ 2 + (2 ^ length o - 1) * b ^ 2)%R.
Proof.
  set (n := length o). unfold norm2v. replace (2 ^ (n + 1)) with (2 ^ n + 2 ^ n) by (rewrite Nat.add_1_r; cbn; lia). rewrite Readout.rsum_add.
  rewrite (rsum_ext (2 ^ n) (fun i => (Cmod (st o a b i) ^ 2)%R) (fun _ => 0%R)).
  - rewrite rsum_const. pose proof (st_sum o (a ^ 2) (b ^ 2)) as Hs. cbn zeta in Hs. fold n in Hs.
    rewrite (csum_ext' _ _ (fun j => RtoC (Cmod (st o a b (2 ^ n + j)) ^ 2))) in Hs.
    + rewrite csum_RtoC in Hs. apply RtoC_inj in Hs. rewrite Hs. ring.
    + intros j _. unfold st. fold n. destruct (_ <? _); [rewrite Cmod_0; f_equal; ring|]. destruct (_ =? _); rewrite Cmod_R; f_equal; symmetry; apply pow2_abs.
  - intros i Hi. unfold st. fold n. destruct (Nat.ltb_spec i (2 ^ n)); [|lia]. rewrite Cmod_0. ring.
Qed.

(* ---- the theorems ---- *)
Section Top.
#[local] Hint Extern 0 NumOps => exact (RNum 0) : typeclass_instances.
#[local] Instance T0 : Tol 0. Proof. unfold Tol. lra. Qed.
Context {CF : @Cfg (RNum 0)}.
Notation exec := (exec 0).
Notation reads_v := (reads_v 0).

(* The search runs to the end, and every way of running it (any hash functions,
   caches, evictions, collections, build and schedule) ends with a newest handle
   that reads: amplitude (-1)^k sin((2k+1)t) on the marked string (data qubit i =
   character i of the oracle, ancilla 1), (-1)^k cos((2k+1)t) / sqrt(2^n - 1) on
   every other string with ancilla 1, and 0 with ancilla 0, where k is the number
   of iterations and t = asin(1/sqrt(2^n)). *)
Theorem C62_grover (o : list bool) : let n := length o in 0 < n -> size_ok (n + 1) ->
  exists p, grover o n = Some p /\ (exists c os, exec (rev p) c os) /\
  forall c os, exec (rev p) c os ->
    exists e hs v, snd c = H KV (n + 1) e :: hs /\ reachable c /\ reads_v (fst c) (n + 1) e v /\
      let k := CalculateIterations n in
      let t := asin (/ sqrt (2 ^ n)) in
      (forall i, i < 2 ^ n -> v i = RtoC 0) /\
      forall x, x < 2 ^ n -> v (2 ^ n + x) = RtoC
        (if forallb (fun q => Bool.eqb (Nat.testbit x q) (nth q o false)) (seq 0 n)
         then (-1) ^ k * sin ((2 * INR k + 1) * t) else (-1) ^ k * (cos ((2 * INR k + 1) * t) / sqrt (2 ^ n - 1)))%R.
Proof.
  cbn zeta. set (n := length o). intros Hn HT. destruct (grover_run o Hn HT) as (p & env & os0 & Hg & Hrun). fold n in Hg, Hrun.
  exists p. split; [exact Hg|]. split.
  { destruct (exec_exists 0 _ _ _ eq_refl Hrun) as (c & Hc). eauto. }
  intros c os Hx. destruct (exec_refines 0 _ _ _ _ _ eq_refl Hx Hrun) as (_ & Hr & HF). destruct c as [s hs]. cbn [fst snd] in *.
  inversion HF as [|h y hs' env' Hh HF']; subst. destruct h as [k m e]. destruct Hh as (Hk & Hm & Hv). cbn in Hk, Hm, Hv. subst k m.
  exists e, hs', (st o (amp_marked n (CalculateIterations n)) (amp_other n (CalculateIterations n))).
  split; [reflexivity|]. split; [exact Hr|]. split; [eapply (reads_v_veq 0); [apply (grover_amplitudes o Hn)|exact Hv]|].
  split.
  - intros i Hi. unfold st. fold n. destruct (Nat.ltb_spec i (2 ^ n)); [reflexivity|lia].
  - intros x Hxn. unfold st, marked. fold n. destruct (Nat.ltb_spec (2 ^ n + x) (2 ^ n)); [lia|].
    assert (Hm : forallb (fun q => Bool.eqb (Nat.testbit x q) (nth q o false)) (seq 0 n) = (x =? value o)).
    { destruct (Nat.eqb_spec x (value o)) as [->|Hne].
      - apply forallb_forall. intros q _. rewrite value_bit. apply eqb_reflx.
      - apply not_true_is_false. intros Hf. apply Hne. rewrite forallb_forall in Hf. apply (bits_inj_n n); auto; [apply value_lt|].
        intros l Hl. rewrite value_bit. apply eqb_prop. apply Hf. apply in_seq. lia. }
    rewrite Hm. unfold amp_marked, amp_other, theta.
    destruct (Nat.eqb_spec (2 ^ n + x) (2 ^ n + value o)), (Nat.eqb_spec x (value o)); try lia; reflexivity.
Qed.

(* Reading all qubits after the search prints 1 followed by the oracle string, last
   character first, for the draws in a box of volume at least 1 - 2/2^n and at
   least 1/2. *)
Theorem C62_search_succeeds (o : list bool) : let n := length o in 0 < n -> size_ok (n + 1) ->
  exists lo hi : nat -> R,
    (forall k, 0 <= lo k /\ hi k <= 1)%R /\
    (let prob := rprod (n + 1) (fun k => hi k - lo k) in 1 / 2 <= prob /\ 1 - 2 / 2 ^ n <= prob)%R /\
    forall p s e hs os ths col, grover o n = Some p -> exec (rev p) (s, H KV (n + 1) e :: hs) os ->
      (n + 1 <= length ths) -> (forall x, In x ths -> 0 <= x < 1)%R ->
      exists r e' s', measureAll e col ths s = Some (r, e', s') /\
        (r = true :: rev o <-> forall k, k < n + 1 -> (lo k <= nth (n - k) ths 0%R < hi k)%R).
Proof.
  cbn zeta. set (n := length o). intros Hn HT.
  set (v := st o (amp_marked n (CalculateIterations n)) (amp_other n (CalculateIterations n))).
  assert (Hlt : marked o < 2 ^ (n + 1)) by (unfold marked; fold n; pose proof (value_lt o); fold n in H; rewrite Nat.add_1_r; cbn; lia).
  assert (Hvm : v (marked o) = RtoC (amp_marked n (CalculateIterations n))).
  { unfold v, st. rewrite Nat.eqb_refl. unfold marked. fold n. destruct (Nat.ltb_spec (2 ^ n + value o) (2 ^ n)); [lia|reflexivity]. }
  destruct (success n Hn) as [Hs1 Hs2].
  assert (Hv0 : v (marked o) <> RtoC 0). { rewrite Hvm. intros E0. apply RtoC_inj in E0. rewrite E0 in Hs1. lra. }
  destruct (C19_born_rule (n + 1) v (marked o) Hlt Hv0) as [Hb1 Hb2].
  assert (Hnorm : norm2v (n + 1) v = 1%R). { unfold v. rewrite (st_norm o). fold n. now apply amp_norm. }
  exists (lo_of v (marked o)), (hi_of v (marked o)). split; [exact Hb2|]. split.
  { cbn zeta. rewrite Hb1, Hnorm, Hvm, Cmod_R, pow2_abs. unfold Rdiv at 2. rewrite Rinv_1, Rmult_1_r. split; [exact Hs1|].
    replace (amp_marked n (CalculateIterations n) ^ 2 / 1)%R with (amp_marked n (CalculateIterations n) ^ 2)%R by field. exact Hs2. }
  intros p s e hs os ths col Hg Hx Hlen Hths.
  destruct (grover_run o Hn HT) as (p' & env & os0 & Hg' & Hrun). fold n in Hg', Hrun. rewrite Hg in Hg'. injection Hg' as <-.
  destruct (exec_refines 0 _ _ _ _ _ eq_refl Hx Hrun) as (_ & Hr & HF). cbn [fst snd] in *.
  inversion HF as [|h y hs' env' Hh HF']; subst. destruct Hh as (_ & _ & Hv). cbn in Hv.
  assert (Hrv : reads_v s (n + 1) e v) by (eapply (reads_v_veq 0); [apply (grover_amplitudes o Hn)|exact Hv]).
  assert (Hnz : nonzero_v (n + 1) v) by (exists (marked o); auto).
  destruct (C19_C20_measureAll 0 s _ (n + 1) e v col ths Hr (or_introl eq_refl) Hrv Hnz Hlen Hths) as (b & e' & s' & Hm & Hb & _ & Hiff & _).
  exists (bitstring (n + 1) b), e', s'. split; [exact Hm|].
  assert (Hbs : bitstring (n + 1) (marked o) = true :: rev o).
  { unfold bitstring. rewrite Nat.add_1_r, seq_S, rev_app_distr. cbn [rev app map plus]. f_equal.
    - unfold marked. rewrite testbit_add_pow by apply value_lt. fold n. now rewrite Nat.eqb_refl.
    - rewrite map_rev. f_equal. apply (nth_ext _ _ false false); [rewrite map_length, seq_length; reflexivity|].
      intros i Hi. rewrite map_length, seq_length in Hi. rewrite (nth_indep _ false (Nat.testbit (marked o) 0)) by (now rewrite map_length, seq_length).
      rewrite map_nth, seq_nth by auto. cbn [plus]. unfold marked. rewrite testbit_add_pow by apply value_lt. fold n.
      destruct (Nat.eqb_spec i n); [lia|]. apply value_bit. }
  rewrite <- Hbs. specialize (Hiff (marked o) Hlt). replace (n + 1 - 1) with n in Hiff by lia. split.
  - intros E0. apply Hiff. apply bitstring_inj in E0; auto.
  - intros Hk. apply Hiff in Hk. now rewrite Hk.
Qed.
End Top.

(* ---- a concrete case: the oracle "101" on three data qubits, one iteration ---- *)
Section Ex.
#[local] Hint Extern 0 NumOps => exact (RNum 0) : typeclass_instances.
#[local] Instance T0' : Tol 0. Proof. unfold Tol. lra. Qed.
Example C62_example (mt : bool) : let CF := cfg_of mt 0 in let o := [true; false; true] in
  exists p c os e hs v, grover o 3 = Some p /\ @exec 0 CF (rev p) c os /\ snd c = H KV 4 e :: hs /\
    reads_v 0 (fst c) 4 e v /\ (Cmod (v 13%nat) ^ 2 = 25 / 32)%R.
Proof.
  intros CF o. assert (HT : size_ok (3 + 1)) by (unfold size_ok, NQUBITS; lia).
  destruct (@C62_grover CF o ltac:(cbn; lia) HT) as (p & Hg & (c & os & Hx) & Hall). cbn [length o] in *.
  destruct (Hall c os Hx) as (e & hs & v & Hc & _ & Hv & _ & Ha).
  exists p, c, os, e, hs, v. split; [exact Hg|]. split; [exact Hx|]. split; [exact Hc|]. split; [exact Hv|].
  specialize (Ha 5 ltac:(cbn; lia)). change (2 ^ 3 + 5) with 13 in Ha. rewrite Ha. cbn [forallb seq o nth].
  change (Nat.testbit 5 0) with true. change (Nat.testbit 5 1) with false. change (Nat.testbit 5 2) with true. cbn [Bool.eqb andb].
  rewrite Cmod_R, pow2_abs. pose proof (success_small 3 ltac:(lia)) as Hs. cbn zeta in Hs. unfold amp_marked, theta in Hs. rewrite Hs. cbn [pow]. lra.
Qed.
End Ex.
