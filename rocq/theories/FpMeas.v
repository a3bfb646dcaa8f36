(* FpMeas.v -- C68: probabilities and measurement over a rounded arithmetic
   (follows MeasureP.v and MeasAllP.v). *)
From Coq Require Import Reals Lra Psatz ZArith Bool List Lia Arith.
From Coquelicot Require Import Complex.
From Verif Require SafeF.
From Verif Require Import Num State DD Gates Measure RNum Wf Sums Err Inv Wp Make Add MulV Canon GateP StateP Spec Readout MeasureP MeasAllP
  FpA FpE FpW FpM FpAdd FpMul FpGate FpState FpRead.
Import ListNotations.
Open Scope Z_scope.

Section FpMeas.
Context {NO : NumOps} {AC : Accur NO} {CF : Cfg}.
Notation dl := (@dl NO AC).
Notation state := (@State.state NO).
Notation edge := (@State.edge NO).
Notation node := (@State.node NO).

(* ---- relative errors ---- *)
Lemma dl_b : (0 <= dl <= 1 / 800)%R.
Proof. pose proof dl_pos. pose proof dl_small. lra. Qed.
Lemma lowp j : (0 < (1 - dl) ^ j <= 1)%R.
Proof.
  pose proof dl_b. induction j as [|j IH]; cbn [pow]; [lra|]. split; [apply Rmult_lt_0_compat; lra|].
  apply Rle_trans with (1 * 1)%R; [apply Rmult_le_compat; lra|lra].
Qed.
Lemma highp j : (1 <= (1 + dl) ^ j)%R.
Proof. apply pow_R1_Rle. pose proof dl_b. lra. Qed.
Lemma bern j : (1 - INR j * dl <= (1 - dl) ^ j)%R.
Proof.
  pose proof dl_b. induction j as [|j IH]; [cbn [pow INR]; lra|]. rewrite S_INR. cbn [pow].
  pose proof (pos_INR j). assert (0 <= INR j * dl)%R by (apply Rmult_le_pos; lra).
  apply Rle_trans with ((1 - dl) * (1 - INR j * dl))%R; [|apply Rmult_le_compat_l; lra].
  assert (0 <= INR j * dl * dl)%R by (apply Rmult_le_pos; lra). lra.
Qed.
Lemma within_weaken j j' x X : (j <= j')%nat -> (0 <= X)%R -> within j x X -> within j' x X.
Proof.
  intros Hj HX [H1 H2]. pose proof dl_b as Hd. replace j' with (j + (j' - j))%nat by lia. unfold within. rewrite !pow_add.
  set (d := (j' - j)%nat). pose proof (lowp d) as L. pose proof (highp d) as U. pose proof (lowp j) as Lj. pose proof (highp j) as Uj. split.
  - eapply Rle_trans; [|exact H1]. apply Rmult_le_compat_l; [exact HX|]. rewrite <- (Rmult_1_r ((1 - dl) ^ j)) at 2. apply Rmult_le_compat_l; lra.
  - eapply Rle_trans; [exact H2|]. apply Rmult_le_compat_l; [exact HX|]. rewrite <- (Rmult_1_r ((1 + dl) ^ j)) at 1. apply Rmult_le_compat_l; lra.
Qed.
Lemma within_nonneg j x X : (0 <= X)%R -> within j x X -> (0 <= x)%R.
Proof. intros HX [H1 _]. pose proof (lowp j). eapply Rle_trans; [|exact H1]. apply Rmult_le_pos; lra. Qed.
Lemma within_refl x : within 0 x x.
Proof. unfold within. cbn [pow]. lra. Qed.
Lemma within_0 j : within j 0 0.
Proof. unfold within. lra. Qed.
Lemma within_mul i j x X y Y : (0 <= X)%R -> (0 <= Y)%R -> within i x X -> within j y Y -> within (i + j) (x * y) (X * Y).
Proof.
  intros HX HY Hx Hy. pose proof (within_nonneg _ _ _ HX Hx) as Px. pose proof (within_nonneg _ _ _ HY Hy) as Py.
  destruct Hx as [H1 H2], Hy as [H3 H4]. pose proof (lowp i). pose proof (lowp j). unfold within. rewrite !pow_add. split.
  - replace (X * Y * ((1 - dl) ^ i * (1 - dl) ^ j))%R with ((X * (1 - dl) ^ i) * (Y * (1 - dl) ^ j))%R by ring.
    apply Rmult_le_compat; auto; apply Rmult_le_pos; lra.
  - replace (X * Y * ((1 + dl) ^ i * (1 + dl) ^ j))%R with ((X * (1 + dl) ^ i) * (Y * (1 + dl) ^ j))%R by ring.
    apply Rmult_le_compat; auto.
Qed.
Lemma within_round j x X y : (0 <= X)%R -> within j x X -> (Rabs (y - x) <= dl * x)%R -> within (S j) y X.
Proof.
  intros HX Hx Hy. pose proof dl_b as Hd. apply SafeF.abs_between in Hy. destruct Hx as [H1 H2]. unfold within. cbn [pow]. split.
  - replace (X * ((1 - dl) * (1 - dl) ^ j))%R with ((1 - dl) * (X * (1 - dl) ^ j))%R by ring.
    eapply Rle_trans; [apply Rmult_le_compat_l; [lra|exact H1]|]. lra.
  - replace (X * ((1 + dl) * (1 + dl) ^ j))%R with ((1 + dl) * (X * (1 + dl) ^ j))%R by ring.
    eapply Rle_trans; [|apply Rmult_le_compat_l; [lra|exact H2]]. lra.
Qed.
Lemma within_add j x X y Y : within j x X -> within j y Y -> within j (x + y) (X + Y).
Proof. intros [H1 H2] [H3 H4]. unfold within. lra. Qed.
Lemma within_half j x X : (j <= 400)%nat -> (1 <= X)%R -> within j x X -> (1 / 2 <= x)%R.
Proof.
  intros Hj HX [H _]. pose proof (bern j) as B. pose proof (lowp j) as L. pose proof dl_b as Hd.
  assert (Hij : (INR j * dl <= 400 * (1 / 800))%R).
  { apply Rmult_le_compat; try lra; [apply pos_INR|]. replace 400%R with (INR 400) by (rewrite INR_IZR_INZ; reflexivity). apply le_INR. exact Hj. }
  apply Rle_trans with (1 * (1 - dl) ^ j)%R; [lra|]. eapply Rle_trans; [|exact H]. apply Rmult_le_compat_r; lra.
Qed.

(* ---- the sums ---- *)
Definition chd (nd : node) (b : nat) : edge := nth b (nch nd) zeroE.
Lemma chd_null k t nd b : nodeok k t nd -> (b < arity k)%nat -> nth b (nch nd) nullE = chd nd b.
Proof. intros H Hb. unfold chd. apply nth_indep. rewrite (no_len _ _ _ H). exact Hb. Qed.
Lemma psum_0 t p : psum t 0 p = 1%R.
Proof. unfold psum. cbn. rewrite Cmod_1. ring. Qed.
Lemma val_sq k t m (c : edge) ix : (Cmod (val k t m c ix) ^ 2 = Cmod (cv (ew c)) ^ 2 * Cmod (valp k t m (en c) ix) ^ 2)%R.
Proof. unfold FpA.val. rewrite Cmod_mult. apply Rpow_mult_distr. Qed.
Lemma psum_half t m a nd b : reg KV t a nd -> nv nd = Z.of_nat m ->
  rbsum m (fun k => (Cmod (valp KV t (S m) (Node a) (ixset k m b)) ^ 2)%R)
   = (Cmod (cv (ew (chd nd b))) ^ 2 * psum t m (en (chd nd b)))%R.
Proof.
  intros Hr Hv. unfold psum. rewrite <- rbsum_scal. apply rbsum_ext. intros k.
  rewrite (valp_S_node KV t m a nd _ Hr Hv). rewrite ixset_same.
  rewrite (val_local KV t m _ (ixset k m b) k).
  - apply val_sq.
  - intros l Hl. apply ixset_other. lia.
Qed.
(* weight of the half b of a node of level m *)
Definition qb (t : table) (m : nat) (nd : node) (b : nat) : R :=
  (Cmod (cv (ew (chd nd b))) ^ 2 * psum t m (en (chd nd b)))%R.
Lemma psum_S t m a nd : reg KV t a nd -> nv nd = Z.of_nat m -> psum t (S m) (Node a) = (qb t m nd 0 + qb t m nd 1)%R.
Proof. intros Hr Hv. unfold qb. rewrite <- !(psum_half t m a nd _ Hr Hv). reflexivity. Qed.
Lemma psum_nonneg t n p : (0 <= psum t n p)%R.
Proof. apply rbsum_nonneg. intros k. apply pow2_ge_0. Qed.
Lemma qb_nonneg t m nd b : (0 <= qb t m nd b)%R.
Proof. apply Rmult_le_pos; [apply pow2_ge_0|apply psum_nonneg]. Qed.
Lemma child_wfe t a nd m b : TInv KV t -> reg KV t a nd -> nv nd = Z.of_nat m -> wfe KV t m (chd nd b).
Proof. intros HT Hr Hv. pose proof (reg_child KV t a nd b HT Hr) as X. rewrite Hv, Nat2Z.id in X. exact X. Qed.
Lemma psum_ge1 t : TInv KV t -> forall n p, wfp KV t n p -> (1 <= psum t n p)%R.
Proof.
  intros HT. induction n as [|m IH]; intros p Hp.
  - rewrite psum_0. lra.
  - destruct Hp as (a & nd & -> & Hr & Hv). rewrite (psum_S t m a nd Hr Hv).
    pose proof (reg_ok KV t a nd HT Hr) as Hok.
    destruct (no_max _ _ _ Hok) as (i & Hi & H1). cbn in Hi. fold (chd nd i) in H1.
    assert (Hw : wfp KV t m (en (chd nd i))).
    { apply (wfe_nz KV t m _ (child_wfe t a nd m i HT Hr Hv)). rewrite H1, cv_1. apply C1_nz. }
    pose proof (IH _ Hw) as Hpos.
    pose proof (qb_nonneg t m nd 0). pose proof (qb_nonneg t m nd 1).
    assert (Hone : (1 <= qb t m nd i)%R) by (unfold qb; rewrite H1, cv_1, Cmod_1; lra).
    destruct i as [|[|i]]; [| |lia]; lra.
Qed.
Lemma valp_le_psum t ix : TInv KV t -> (forall l, (ix l < 2)%nat) -> forall n p, wfp KV t n p -> (Cmod (valp KV t n p ix) ^ 2 <= psum t n p)%R.
Proof.
  intros HT Hix. induction n as [|m IH]; intros p Hp.
  - rewrite psum_0. cbn. rewrite Cmod_1. lra.
  - destruct Hp as (a & nd & -> & Hr & Hv). rewrite (psum_S t m a nd Hr Hv), (valp_S_node KV t m a nd _ Hr Hv), val_sq. fold (chd nd (ix m)).
    pose proof (qb_nonneg t m nd 0). pose proof (qb_nonneg t m nd 1).
    assert (Hx : (Cmod (cv (ew (chd nd (ix m)))) ^ 2 * Cmod (valp KV t m (en (chd nd (ix m))) ix) ^ 2 <= qb t m nd (ix m))%R).
    { destruct (child_wfe t a nd m (ix m) HT Hr Hv) as [Hc|[Hc _]].
      - apply Rmult_le_compat_l; [apply pow2_ge_0|]. now apply IH.
      - unfold qb. rewrite Hc, Cmod_0. cbn [pow]. lra. }
    pose proof (Hix m) as Hb. destruct (ix m) as [|[|]]; [lra|lra|lia].
Qed.
Lemma prob_ok_val t pr n p x : prob_ok t pr p x -> wfp KV t n p -> within (3 * n) (nr x) (psum t n p).
Proof.
  intros [[-> Hx]|(m & a & nd & -> & H2 & H3 & H4 & _)] Hw.
  - destruct n; [rewrite psum_0, Hx; apply within_refl|]. destruct Hw as (b & nb & Hb & _). discriminate.
  - destruct n; [discriminate|]. destruct Hw as (b & nb & Hb & Hr & Hv). inversion Hb; subst b.
    pose proof (reg_fun _ _ _ _ _ H2 Hr). subst nb. replace n with m by lia. exact H4.
Qed.

(* only the memo may grow *)
Record pext (s s' : state) : Prop := {
  pe_tb : tb s' = tb s; pe_ac : ac s' = ac s; pe_mc : mc s' = mc s;
  pe_v : gc_v s' = gc_v s; pe_m : gc_m s' = gc_m s;
  pe_pr : forall p, probs s p <> None -> probs s' p <> None
}.
Lemma pext_refl s : pext s s. Proof. constructor; auto. Qed.
Lemma pext_trans a b c : pext a b -> pext b c -> pext a c.
Proof. intros [] []. constructor; try congruence. auto. Qed.
Lemma prob_ok_mono t (pr pr' : ptr -> option num) p x : (forall q, pr q <> None -> pr' q <> None) ->
  prob_ok t pr p x -> prob_ok t pr' p x.
Proof.
  intros H [A|(m & a & nd & H1 & H2 & H3 & H4 & H5)]; [left; exact A|right].
  exists m, a, nd. split; [exact H1|]. split; [exact H2|]. split; [exact H3|]. split; [exact H4|]. intros c Hc. apply H. apply H5. exact Hc.
Qed.
Lemma prset_inv s p x : Inv s -> prob_ok (tb s KV) (probs s) p x ->
  Inv (prset s p x) /\ pext s (prset s p x) /\ probs (prset s p x) p <> None.
Proof.
  intros HI Hok.
  assert (Hm : forall r, probs s r <> None -> (if ptr_eqb p r then Some x else probs s r) <> None).
  { intros r Hr. destruct (ptr_eqb p r); [discriminate|exact Hr]. }
  split; [|split].
  - constructor; [exact (inv_tb _ HI)|exact (inv_ac _ HI)|exact (inv_mc _ HI)| |exact (inv_len _ HI)].
    intros q y Hy. cbn in Hy |- *.
    destruct (ptr_eqb p q) eqn:Hpq.
    + apply ptr_eqb_eq in Hpq. subst q. inversion Hy; subst y. exact (prob_ok_mono _ _ _ _ _ Hm Hok).
    + exact (prob_ok_mono _ _ _ _ _ Hm (inv_pr _ HI q y Hy)).
  - constructor; auto.
  - cbn. rewrite ptr_eqb_refl. discriminate.
Qed.

(* the value computed for an edge: squared weight times the sum below it *)
Definition cval (t : table) (m : nat) (e : edge) (x : num) : Prop :=
  (iszero (ew e) = false -> within (3 * m + 2) (nr x) (Cmod (cv (ew e)) ^ 2 * psum t m (en e))) /\
  (ew e = c0 -> nr x = 0%R).
Lemma cval_mul t pr n (e : edge) x : TInv KV t -> Z.of_nat n <= NQUBITS -> wfe KV t n e -> prob_ok t pr (en e) x ->
  cval t n e (nmul (norm2 (ew e)) x) /\ cval t n e (nmul x (norm2 (ew e))).
Proof.
  intros HT Hn W Hx.
  assert (Hz : ew e = c0 -> nr (nmul (norm2 (ew e)) x) = 0%R /\ nr (nmul x (norm2 (ew e))) = 0%R).
  { intros ->. apply nmul_0. apply norm_0. }
  assert (Hnz : iszero (ew e) = false -> within (3 * n + 2) (nr (nmul (norm2 (ew e)) x)) (Cmod (cv (ew e)) ^ 2 * psum t n (en e)) /\
     within (3 * n + 2) (nr (nmul x (norm2 (ew e)))) (Cmod (cv (ew e)) ^ 2 * psum t n (en e))).
  { intros Hw. pose proof (wfe_nz KV t n e W (z_nz _ Hw)) as Wp. pose proof (prob_ok_val _ _ _ _ _ Hx Wp) as Hv.
    pose proof (psum_ge1 t HT n _ Wp) as Hp.
    assert (Hh : (1 / 2 <= nr x)%R) by (eapply within_half; [|exact Hp|exact Hv]; unfold NQUBITS in Hn; lia).
    destruct (pmul_err x (ew e) Hh Hw) as [E1 E2].
    assert (Hnn : within 1 (nr (norm2 (ew e))) (Cmod (cv (ew e)) ^ 2)).
    { apply (within_round 0 (Cmod (cv (ew e)) ^ 2)); [apply pow2_ge_0|apply within_refl|]. now apply norm_err. }
    assert (Hm : within (3 * n + 1) (nr x * nr (norm2 (ew e))) (Cmod (cv (ew e)) ^ 2 * psum t n (en e))).
    { rewrite (Rmult_comm (Cmod (cv (ew e)) ^ 2)). apply within_mul; auto; [lra|apply pow2_ge_0]. }
    assert (Hq : (0 <= Cmod (cv (ew e)) ^ 2 * psum t n (en e))%R) by (apply Rmult_le_pos; [apply pow2_ge_0|lra]).
    replace (3 * n + 2)%nat with (S (3 * n + 1)) by lia. split; eapply within_round; eauto. }
  split; (split; [intros Hw; destruct (Hnz Hw); assumption|intros Hw; destruct (Hz Hw); assumption]).
Qed.
Lemma cval_child t a nd m b x : TInv KV t -> reg KV t a nd -> nv nd = Z.of_nat m -> (b < 2)%nat -> cval t m (chd nd b) x ->
  within (3 * m + 2) (nr x) (qb t m nd b) /\ (cv (ew (chd nd b)) = RtoC 0 -> nr x = 0%R) /\ (iszero (ew (chd nd b)) = true -> cv (ew (chd nd b)) = RtoC 0).
Proof.
  intros HT Hr Hv Hb [H1 H2]. pose proof (reg_ok KV t a nd HT Hr) as Hok.
  assert (Hin : In (chd nd b) (nch nd)) by (apply nth_In; rewrite (no_len _ _ _ Hok); exact Hb).
  assert (Hz : iszero (ew (chd nd b)) = true -> chd nd b = zeroE) by (now apply (no_zero _ _ _ Hok)).
  split; [|split].
  - destruct (iszero (ew (chd nd b))) eqn:E0; [|now apply H1]. specialize (Hz eq_refl). unfold qb. rewrite Hz in *. cbn [ew zeroE] in *.
    rewrite (H2 eq_refl), cv_0, Cmod_0. replace (0 ^ 2 * psum t m (en zeroE))%R with 0%R by (cbn [pow]; ring). apply within_0.
  - intros Hc. apply H2. now apply cv_z.
  - intros E0. rewrite (Hz E0). apply cv_0.
Qed.

Lemma assignP_spec : forall fuel n e s, Inv s -> wfe KV (tb s KV) n e -> (n <= fuel)%nat -> Z.of_nat n <= NQUBITS ->
  exists x s', assignP fuel e s = Some (x, s') /\ pext s s' /\ Inv s' /\ probs s' (en e) <> None /\ cval (tb s KV) n e x.
Proof.
  assert (Hterm : forall n e s, Inv s -> wfe KV (tb s KV) n e -> Z.of_nat n <= NQUBITS -> en e = Term ->
     exists x s', Some (nmul (norm2 (ew e)) n1, prset s (en e) n1) = Some (x, s') /\ pext s s' /\ Inv s' /\ probs s' (en e) <> None /\ cval (tb s KV) n e x).
  { intros n e s HI W Hn Ht. assert (Hok : prob_ok (tb s KV) (probs s) (en e) n1) by (left; split; [exact Ht|apply nr_1]).
    destruct (prset_inv s (en e) n1 HI Hok) as (A & B & D). eexists _, _.
    split; [reflexivity|]. split; [exact B|]. split; [exact A|]. split; [exact D|]. now apply (cval_mul _ (probs s)); [apply HI| | |]. }
  assert (Hmemo : forall n e s x, Inv s -> wfe KV (tb s KV) n e -> Z.of_nat n <= NQUBITS -> probs s (en e) = Some x ->
     exists x' s', Some (nmul (norm2 (ew e)) x, s) = Some (x', s') /\ pext s s' /\ Inv s' /\ probs s' (en e) <> None /\ cval (tb s KV) n e x').
  { intros n e s x HI W Hn Hx. eexists _, _. split; [reflexivity|]. split; [apply pext_refl|]. split; [exact HI|]. split; [congruence|].
    apply (cval_mul _ (probs s)); auto; [apply HI|]. now apply inv_pr. }
  induction fuel as [|f IH]; intros n e s HI W Hn HQ; cbn [assignP].
  - destruct (probs s (en e)) as [x|] eqn:Hx; [now apply Hmemo|].
    assert (Ht : en e = Term). { destruct W as [W|[_ W]]; auto. destruct n; [exact W|lia]. }
    replace (is_term (en e)) with true by (rewrite Ht; reflexivity). apply Hterm; auto.
  - destruct (probs s (en e)) as [x|] eqn:Hx; [now apply Hmemo|].
    destruct (is_term (en e)) eqn:Ht.
    { apply Hterm; auto. destruct (en e); (discriminate || reflexivity). }
    destruct n as [|m]. { destruct W as [W|[_ W]]; rewrite W in Ht; discriminate. }
    pose proof W as W'. destruct W as [W|[_ W]]; [|rewrite W in Ht; discriminate].
    destruct W as (a & nd & Hp & Hr & Hv).
    rewrite Hp in *. rewrite (readn_reg KV s a nd Hr).
    pose proof (inv_tb _ HI KV) as HT. pose proof (reg_ok KV _ a nd HT Hr) as Hok.
    rewrite (chd_null KV _ nd 0 Hok), (chd_null KV _ nd 1 Hok) by (cbn; lia).
    pose proof (child_wfe _ a nd m 0 HT Hr Hv) as W0. pose proof (child_wfe _ a nd m 1 HT Hr Hv) as W1.
    destruct (IH m (chd nd 0) s HI W0 ltac:(lia) ltac:(lia)) as (x0 & s1 & A1 & A2 & A3 & A4 & A5). rewrite A1.
    assert (W1' : wfe KV (tb s1 KV) m (chd nd 1)) by (rewrite (pe_tb _ _ A2); exact W1).
    destruct (IH m (chd nd 1) s1 A3 W1' ltac:(lia) ltac:(lia)) as (x1 & s2 & B1 & B2 & B3 & B4 & B5). rewrite B1.
    rewrite (pe_tb _ _ A2) in B5.
    assert (Htb : tb s2 = tb s) by (rewrite (pe_tb _ _ B2); apply (pe_tb _ _ A2)).
    destruct (cval_child _ a nd m 0 x0 HT Hr Hv ltac:(lia) A5) as (X0 & _). destruct (cval_child _ a nd m 1 x1 HT Hr Hv ltac:(lia) B5) as (X1 & _).
    pose proof (qb_nonneg (tb s KV) m nd 0) as Q0. pose proof (qb_nonneg (tb s KV) m nd 1) as Q1.
    assert (Hsum : within (3 * S m) (nr (nadd x0 x1)) (psum (tb s KV) (S m) (Node a))).
    { rewrite (psum_S _ m a nd Hr Hv). replace (3 * S m)%nat with (S (3 * m + 2)) by lia.
      eapply within_round; [lra|apply within_add; eassumption|].
      apply nadd_err; [exact (within_nonneg _ _ _ Q0 X0)|exact (within_nonneg _ _ _ Q1 X1)]. }
    assert (Hok2 : prob_ok (tb s2 KV) (probs s2) (Node a) (nadd x0 x1)).
    { right. exists m, a, nd. rewrite Htb. split; [reflexivity|]. split; [exact Hr|]. split; [exact Hv|]. split; [exact Hsum|].
      intros c Hc. destruct (In_nth _ _ zeroE Hc) as (i & Hi & <-). rewrite (no_len _ _ _ Hok) in Hi. cbn in Hi.
      destruct i as [|[|i]]; [| |lia].
      - fold (chd nd 0). apply (pe_pr _ _ B2). exact A4.
      - exact B4. }
    destruct (prset_inv s2 (Node a) _ B3 Hok2) as (C1 & C2 & C3).
    eexists _, _. split; [reflexivity|]. split; [exact (pext_trans _ _ _ A2 (pext_trans _ _ _ B2 C2))|]. split; [exact C1|]. split; [exact C3|].
    rewrite <- Htb. apply (cval_mul _ (probs s2)); auto; [apply B3|rewrite Htb; exact W'|rewrite Hp; exact Hok2].
Qed.

(* computed weights of the two halves *)
Lemma cprobs_spec s m p : Inv s -> Z.of_nat (S m) <= NQUBITS -> wfp KV (tb s KV) (S m) p -> probs s p <> None -> forall w,
  exists a nd p0 p1, p = Node a /\ reg KV (tb s KV) a nd /\ nv nd = Z.of_nat m /\ nodeok KV (tb s KV) nd /\
   cprobs s (E w p) = Some (p0, p1, nd) /\
   within (3 * m + 2) (nr p0) (qb (tb s KV) m nd 0) /\ within (3 * m + 2) (nr p1) (qb (tb s KV) m nd 1) /\
   (cv (ew (chd nd 0)) = RtoC 0 -> nr p0 = 0%R) /\ (cv (ew (chd nd 1)) = RtoC 0 -> nr p1 = 0%R) /\
   (forall b, (b < 2)%nat -> probs s (en (chd nd b)) <> None).
Proof.
  intros HI Hm (a & nd & -> & Hr & Hv) Hpr w. exists a, nd.
  pose proof (inv_tb _ HI KV) as HT. pose proof (reg_ok KV _ a nd HT Hr) as Hok.
  destruct (probs s (Node a)) as [x|] eqn:Hx; [|congruence].
  destruct (inv_pr _ HI _ _ Hx) as [[X _]|(m' & a' & nd' & H1 & H2 & H3 & H4 & H5)]; [discriminate|].
  inversion H1; subst a'. pose proof (reg_fun _ _ _ _ _ Hr H2). subst nd'.
  assert (Hc : forall b, (b < 2)%nat -> probs s (en (chd nd b)) <> None).
  { intros b Hb. apply H5. apply nth_In. rewrite (no_len _ _ _ Hok). exact Hb. }
  unfold cprobs. cbn [en]. rewrite (readn_reg KV s a nd Hr).
  rewrite (chd_null KV _ nd 0 Hok), (chd_null KV _ nd 1 Hok) by (cbn; lia).
  pose proof (Hc 0%nat ltac:(lia)). pose proof (Hc 1%nat ltac:(lia)).
  destruct (probs s (en (chd nd 0))) as [x0|] eqn:E0; [|congruence].
  destruct (probs s (en (chd nd 1))) as [x1|] eqn:E1; [|congruence].
  pose proof (child_wfe _ a nd m 0 HT Hr Hv) as W0. pose proof (child_wfe _ a nd m 1 HT Hr Hv) as W1.
  assert (Hm' : Z.of_nat m <= NQUBITS) by lia.
  destruct (cval_mul _ (probs s) m _ _ HT Hm' W0 (inv_pr _ HI _ _ E0)) as [_ V0].
  destruct (cval_mul _ (probs s) m _ _ HT Hm' W1 (inv_pr _ HI _ _ E1)) as [_ V1].
  destruct (cval_child _ a nd m 0 _ HT Hr Hv ltac:(lia) V0) as (X0 & Z0 & _). destruct (cval_child _ a nd m 1 _ HT Hr Hv ltac:(lia) V1) as (X1 & Z1 & _).
  eexists _, _. split; [reflexivity|]. split; [exact Hr|]. split; [exact Hv|]. split; [exact Hok|]. split; [reflexivity|].
  split; [exact X0|]. split; [exact X1|]. split; [exact Z0|]. split; [exact Z1|exact Hc].
Qed.

(* the probability of 0 as computed at a node of level m, against the exact ratio *)
Definition econd (m : nat) : R := ((1 + dl) ^ (3 * m + 3) / (1 - dl) ^ (3 * m + 3) - 1 + 2 * dl)%R.
Lemma econd_pos m : (0 <= econd m)%R.
Proof.
  unfold econd. pose proof (lowp (3 * m + 3)) as L. pose proof (highp (3 * m + 3)) as U. pose proof dl_b.
  assert (1 <= (1 + dl) ^ (3 * m + 3) / (1 - dl) ^ (3 * m + 3))%R; [|lra].
  apply (Rmult_le_reg_r ((1 - dl) ^ (3 * m + 3))); [lra|]. unfold Rdiv. rewrite Rmult_assoc, Rinv_l by lra. lra.
Qed.
Lemma ratio_close A B q Q p t : (0 < B)%R -> (B <= 1)%R -> (1 <= A)%R -> (0 <= q)%R -> (0 < Q)%R -> (q <= Q)%R ->
  (q * B <= p <= q * A)%R -> (Q * B <= t <= Q * A)%R -> (0 < t)%R -> (Rabs (p / t - q / Q) <= A / B - 1)%R.
Proof.
  intros HB HB1 HA Hq HQ HqQ [p1 p2] [t1 t2] Ht.
  set (r := (q / Q)%R). assert (Hr : (0 <= r <= 1)%R).
  { unfold r. split; [apply Rmult_le_pos; [lra|apply Rlt_le, Rinv_0_lt_compat; lra]|].
    apply (Rmult_le_reg_r Q); [lra|]. unfold Rdiv. rewrite Rmult_assoc, Rinv_l by lra. lra. }
  assert (Eq : q = (r * Q)%R) by (unfold r; field; lra).
  assert (HAB : (1 <= A / B)%R).
  { apply (Rmult_le_reg_r B); [lra|]. unfold Rdiv. rewrite Rmult_assoc, Rinv_l by lra. lra. }
  assert (HBA : (2 - A / B <= B / A)%R).
  { set (z := (A / B)%R) in *. replace (B / A)%R with (/ z)%R by (unfold z; field; lra).
    assert (Hz : (0 < / z)%R) by (apply Rinv_0_lt_compat; lra).
    assert (Hzz : (z * / z = 1)%R) by (apply Rinv_r; lra). nra. }
  apply Rabs_le. split.
  - (* p/t >= r B/A *)
    assert (H1 : (r * (B / A) <= p / t)%R).
    { apply (Rmult_le_reg_r (t * A)); [apply Rmult_lt_0_compat; lra|].
      replace (r * (B / A) * (t * A))%R with (r * B * t)%R by (field; lra).
      replace (p / t * (t * A))%R with (p * A)%R by (field; lra).
      apply Rle_trans with (r * B * (Q * A))%R; [apply Rmult_le_compat_l; [apply Rmult_le_pos; lra|lra]|].
      rewrite Eq in p1. replace (r * B * (Q * A))%R with (r * Q * B * A)%R by ring. apply Rmult_le_compat_r; lra. }
    assert (H2 : (r * (2 - A / B) <= r * (B / A))%R) by (apply Rmult_le_compat_l; lra).
    assert (H3 : (r * (A / B - 1) <= 1 * (A / B - 1))%R) by (apply Rmult_le_compat_r; lra). lra.
  - assert (H1 : (p / t <= r * (A / B))%R).
    { apply (Rmult_le_reg_r (t * B)); [apply Rmult_lt_0_compat; lra|].
      replace (r * (A / B) * (t * B))%R with (r * A * t)%R by (field; lra).
      replace (p / t * (t * B))%R with (p * B)%R by (field; lra).
      apply Rle_trans with (r * A * (Q * B))%R; [|apply Rmult_le_compat_l; [apply Rmult_le_pos; lra|lra]].
      rewrite Eq in p2. replace (r * A * (Q * B))%R with (r * Q * A * B)%R by ring. apply Rmult_le_compat_r; lra. }
    assert (H3 : (r * (A / B - 1) <= 1 * (A / B - 1))%R) by (apply Rmult_le_compat_r; lra). lra.
Qed.
Lemma cond_spec m p0 p1 q0 q1 : Z.of_nat (S m) <= NQUBITS -> (0 <= q0)%R -> (0 <= q1)%R -> (1 <= q0 + q1)%R ->
  within (3 * m + 2) (nr p0) q0 -> within (3 * m + 2) (nr p1) q1 ->
  let t := nadd p0 p1 in let p := ndiv p0 t in
  nltb n0 t = true /\ neqb t n0 = false /\ (0 <= nr p <= 1)%R /\ (Rabs (nr p - q0 / (q0 + q1)) <= econd m)%R /\
  (nr p0 = 0 -> nr p = 0)%R /\ (nr p1 = 0 -> nr p = 1)%R.
Proof.
  intros Hm H0 H1 HQ W0 W1 t p. pose proof dl_b as Hd. unfold NQUBITS in Hm.
  pose proof (within_nonneg _ _ _ H0 W0) as P0. pose proof (within_nonneg _ _ _ H1 W1) as P1.
  destruct (nadd_err p0 p1 P0 P1) as [Ea Em]. fold t in Ea, Em.
  assert (Wt : within (3 * m + 3) (nr t) (q0 + q1)).
  { replace (3 * m + 3)%nat with (S (3 * m + 2)) by lia. eapply within_round; [lra|apply within_add; eassumption|exact Ea]. }
  assert (Ht : (1 / 2 <= nr t)%R) by (eapply within_half; [|exact HQ|exact Wt]; lia).
  destruct (ndiv_err p0 t P0 Ht) as (Ed & Eg & El). fold p in Ed, Eg, El. specialize (El Em).
  assert (W0' : within (3 * m + 3) (nr p0) q0) by (eapply within_weaken; [|exact H0|exact W0]; lia).
  split; [apply nr_lt; rewrite nr_0; lra|]. split.
  { apply not_true_is_false. intros X. apply nr_eq0 in X. lra. }
  split; [lra|]. split; [|split].
  - pose proof (ratio_close ((1 + dl) ^ (3 * m + 3)) ((1 - dl) ^ (3 * m + 3)) q0 (q0 + q1) (nr p0) (nr t)) as Hr.
    pose proof (lowp (3 * m + 3)) as L. pose proof (highp (3 * m + 3)) as U.
    specialize (Hr ltac:(lra) ltac:(lra) ltac:(lra) H0 ltac:(lra) ltac:(lra) W0' Wt ltac:(lra)).
    assert (Hle : (nr p0 / nr t <= 1)%R).
    { apply (Rmult_le_reg_r (nr t)); [lra|]. unfold Rdiv. rewrite Rmult_assoc, Rinv_l by lra. lra. }
    assert (Hd2 : (dl * (nr p0 / nr t + 1) <= dl * 2)%R) by (apply Rmult_le_compat_l; lra).
    replace (nr p - q0 / (q0 + q1))%R with ((nr p - nr p0 / nr t) + (nr p0 / nr t - q0 / (q0 + q1)))%R by ring.
    eapply Rle_trans; [apply Rabs_triang|]. unfold econd. lra.
  - intros Hz. now apply ndiv_0.
  - intros Hz. apply ndiv_1; auto. unfold t. symmetry. now apply nadd_0.
Qed.

(* ---- probabilities ---- *)
Lemma nmul_0l x y : nr x = 0%R -> nr (nmul x y) = 0%R. Proof. intros H. exact (Logic.proj1 (nmul_0 x y H)). Qed.
Lemma nmul_0r x y : nr y = 0%R -> nr (nmul x y) = 0%R. Proof. intros H. exact (Logic.proj2 (nmul_0 y x H)). Qed.
Lemma Cmult_int (x y : C) : Cmult x y = RtoC 0 -> x = RtoC 0 \/ y = RtoC 0.
Proof.
  intros H. apply (f_equal Cmod) in H. rewrite Cmod_mult, Cmod_0 in H. apply Rmult_integral in H as [H|H]; apply Cmod_eq_0 in H; auto.
Qed.
Fixpoint eprob (l : nat) : R := match l with O => 0%R | S j => (econd j + 4 * dl + eprob j)%R end.
Lemma eprob_pos l : (0 <= eprob l)%R.
Proof. induction l as [|l IH]; cbn [eprob]; [lra|]. pose proof (econd_pos l). pose proof dl_b. lra. Qed.
Lemma abs_le_of x d : (- d <= x <= d)%R -> (Rabs x <= d)%R.
Proof. intros H. apply Rabs_le. lra. Qed.

Lemma prob_path_zero s i : Inv s -> forall l m cur prob, Z.of_nat (S m) <= NQUBITS -> wfp KV (tb s KV) (S m) (en cur) -> probs s (en cur) <> None ->
  nr prob = 0%R -> exists x, prob_path s l i cur prob = Some x /\ nr x = 0%R.
Proof.
  intros HI. induction l as [|j IH]; intros m cur prob Hm Hw Hp H0; [exists prob; auto|].
  cbn [prob_path]. destruct cur as [w p]. cbn [en] in *.
  destruct (cprobs_spec s m p HI Hm Hw Hp w) as (a & nd & p0 & p1 & _ & _ & _ & _ & -> & _). cbv zeta.
  set (p0' := if nltb _ _ then _ else _).
  assert (Hz : nr (if Nat.testbit i j then nmul prob (nsub n1 p0') else nmul prob p0') = 0%R).
  { destruct (Nat.testbit i j); now apply nmul_0l. }
  replace (neqb (if Nat.testbit i j then nmul prob (nsub n1 p0') else nmul prob p0') n0) with true by (symmetry; now apply nr_eq0).
  apply (IH m); auto.
Qed.
Lemma wfp_lev t n p m : wfp KV t n p -> (n = S m)%nat -> exists a nd, p = Node a /\ reg KV t a nd /\ nv nd = Z.of_nat m.
Proof. intros H ->. exact H. Qed.
(* exact share of the half b *)
Definition sh (t : table) (m : nat) (nd : node) (b : nat) : R := (qb t m nd b / (qb t m nd 0 + qb t m nd 1))%R.
Lemma sh_range t m nd b : (b < 2)%nat -> (1 <= qb t m nd 0 + qb t m nd 1)%R -> (0 <= sh t m nd b <= 1)%R.
Proof.
  intros Hb Hq. pose proof (qb_nonneg t m nd 0) as Q0. pose proof (qb_nonneg t m nd 1) as Q1. unfold sh. split.
  - apply Rmult_le_pos; [apply qb_nonneg|apply Rlt_le, Rinv_0_lt_compat; lra].
  - apply (Rmult_le_reg_r (qb t m nd 0 + qb t m nd 1)); [lra|]. unfold Rdiv. rewrite Rmult_assoc, Rinv_l by lra. destruct b as [|[|]]; [lra|lra|lia].
Qed.
Lemma sh_1 t m nd : (1 <= qb t m nd 0 + qb t m nd 1)%R -> sh t m nd 1 = (1 - sh t m nd 0)%R.
Proof. intros H. unfold sh. field. lra. Qed.
(* the value at level m+1 is the share of the half times the value below *)
Definition rest (t : table) (n : nat) (p : ptr) (ix : nat -> nat) : R := (Cmod (valp KV t n p ix) ^ 2 / psum t n p)%R.
Lemma rest_S t m a nd ix : TInv KV t -> reg KV t a nd -> nv nd = Z.of_nat m -> (ix m < 2)%nat ->
  (wfp KV t m (en (chd nd (ix m))) /\ rest t (S m) (Node a) ix = (sh t m nd (ix m) * rest t m (en (chd nd (ix m))) ix)%R) \/
  (cv (ew (chd nd (ix m))) = RtoC 0 /\ rest t (S m) (Node a) ix = 0%R /\ sh t m nd (ix m) = 0%R).
Proof.
  intros HT Hr Hv Hb.
  assert (Hp : (1 <= psum t (S m) (Node a))%R) by (apply psum_ge1; auto; exists a, nd; auto).
  unfold rest, sh. rewrite (psum_S t m a nd Hr Hv) in *. rewrite (valp_S_node KV t m a nd _ Hr Hv), val_sq. fold (chd nd (ix m)).
  destruct (child_wfe t a nd m (ix m) HT Hr Hv) as [Hc|[Hc _]].
  - left. split; [exact Hc|]. pose proof (psum_ge1 t HT m _ Hc). unfold qb at 3. field. lra.
  - right. split; [exact Hc|]. unfold qb at 3. rewrite Hc, Cmod_0. split; unfold Rdiv; cbn [pow]; ring.
Qed.
Lemma rest_range t n p ix : TInv KV t -> (forall l, (ix l < 2)%nat) -> wfp KV t n p -> (0 <= rest t n p ix <= 1)%R.
Proof.
  intros HT Hix Hp. pose proof (psum_ge1 t HT n p Hp) as H1. pose proof (valp_le_psum t ix HT Hix n p Hp) as H2. unfold rest. split.
  - apply Rmult_le_pos; [apply pow2_ge_0|apply Rlt_le, Rinv_0_lt_compat; lra].
  - apply (Rmult_le_reg_r (psum t n p)); [lra|]. unfold Rdiv. rewrite Rmult_assoc, Rinv_l by lra. lra.
Qed.
Lemma unit_prod x X y Y d e : (0 <= y <= 1)%R -> (0 <= X <= 1)%R -> (Rabs (x - X) <= d)%R -> (Rabs (y - Y) <= e)%R -> (Rabs (x * y - X * Y) <= d + e)%R.
Proof.
  intros Hy HX H1 H2. replace (x * y - X * Y)%R with ((x - X) * y + X * (y - Y))%R by ring.
  eapply Rle_trans; [apply Rabs_triang|]. rewrite !Rabs_mult, (Rabs_pos_eq y), (Rabs_pos_eq X) by lra.
  pose proof (Rabs_pos (x - X)). pose proof (Rabs_pos (y - Y)).
  assert (Rabs (x - X) * y <= Rabs (x - X) * 1)%R by (apply Rmult_le_compat_l; lra).
  assert (X * Rabs (y - Y) <= 1 * Rabs (y - Y))%R by (apply Rmult_le_compat_r; lra). lra.
Qed.
Lemma prob_path_spec s i : Inv s -> forall l cur prob P eps, Z.of_nat l <= NQUBITS -> wfp KV (tb s KV) l (en cur) -> probs s (en cur) <> None ->
  (0 <= nr prob <= 1)%R -> (0 <= P <= 1)%R -> (Rabs (nr prob - P) <= eps)%R ->
  exists x, prob_path s l i cur prob = Some x /\ (0 <= nr x <= 1)%R /\
    (Rabs (nr x - P * rest (tb s KV) l (en cur) (bix i)) <= eps + eprob l)%R /\
    (valp KV (tb s KV) l (en cur) (bix i) = RtoC 0 -> nr x = 0%R).
Proof.
  intros HI. pose proof (inv_tb _ HI KV) as HT.
  induction l as [|j IH]; intros cur prob P eps HQ Hw Hp Hprob HP He.
  - cbn [prob_path]. exists prob. split; [reflexivity|]. split; [exact Hprob|]. split.
    + unfold rest. rewrite psum_0. cbn [FpA.valp eprob]. rewrite Cmod_1. replace (P * (1 ^ 2 / 1))%R with P by field. lra.
    + cbn [FpA.valp]. intros X. exfalso. exact (C1_nz X).
  - cbn [prob_path]. destruct cur as [w p]. cbn [en] in *.
    pose proof (psum_ge1 _ HT _ _ Hw) as Hpos. pose proof Hw as Hw'.
    destruct (cprobs_spec s j p HI HQ Hw Hp w) as (a & nd & p0 & p1 & -> & Hr & Hv & Hok & Hc & W0 & W1 & Z0 & Z1 & Hm). rewrite Hc.
    rewrite (psum_S _ j a nd Hr Hv) in Hpos.
    pose proof (qb_nonneg (tb s KV) j nd 0) as Q0. pose proof (qb_nonneg (tb s KV) j nd 1) as Q1.
    destruct (cond_spec j p0 p1 _ _ HQ Q0 Q1 Hpos W0 W1) as (L1 & _ & L3 & L4 & L5 & L6). cbv zeta in *. rewrite L1.
    set (p0' := ndiv p0 (nadd p0 p1)) in *. fold (sh (tb s KV) j nd 0) in L4.
    set (b := bix i j). assert (Hb : (b < 2)%nat) by apply bit_lt.
    (* the computed share of the half taken *)
    set (q := if Nat.testbit i j then nsub n1 p0' else p0').
    assert (Hq : (0 <= nr q <= 1)%R /\ (Rabs (nr q - sh (tb s KV) j nd b) <= econd j + 2 * dl)%R /\ (cv (ew (chd nd b)) = RtoC 0 -> nr q = 0%R)).
    { unfold q, b, bix, bit. pose proof dl_b. destruct (Nat.testbit i j).
      - split; [now apply nsub_unit|]. split.
        + rewrite sh_1 by exact Hpos. pose proof (nsub_err p0') as He1. rewrite (Rabs_pos_eq (nr p0')) in He1 by lra.
          replace (nr (nsub n1 p0') - (1 - sh (tb s KV) j nd 0))%R with ((nr (nsub n1 p0') - (1 - nr p0')) - (nr p0' - sh (tb s KV) j nd 0))%R by ring.
          eapply Rle_trans; [apply Rabs_triang|]. rewrite Rabs_Ropp. assert (dl * (1 + nr p0') <= dl * 2)%R by (apply Rmult_le_compat_l; lra). lra.
        + intros X. apply nsub_1. auto.
      - split; [exact L3|]. split; [lra|]. intros X. auto. }
    destruct Hq as (Hq1 & Hq2 & Hq3).
    replace (if Nat.testbit i j then nmul prob (nsub n1 p0') else nmul prob p0') with (nmul prob q) by (unfold q; destruct (Nat.testbit i j); reflexivity).
    set (prob' := nmul prob q).
    assert (Hp1 : (0 <= nr prob' <= 1)%R) by (now apply nmul_unit).
    pose proof (sh_range (tb s KV) j nd b Hb Hpos) as Hsr.
    assert (HP' : (0 <= P * sh (tb s KV) j nd b <= 1)%R) by nra.
    assert (He' : (Rabs (nr prob' - P * sh (tb s KV) j nd b) <= eps + (econd j + 4 * dl))%R).
    { pose proof (nmul_err prob q) as E1. fold prob' in E1. pose proof dl_b.
      assert (E2 : (Rabs (nr prob * nr q) <= 1)%R) by (rewrite Rabs_pos_eq; nra).
      assert (E3 : (dl * (Rabs (nr prob * nr q) + 1) <= dl * 2)%R) by (apply Rmult_le_compat_l; lra).
      pose proof (unit_prod _ _ _ _ _ _ Hq1 HP He Hq2) as E4.
      replace (nr prob' - P * sh (tb s KV) j nd b)%R with ((nr prob' - nr prob * nr q) + (nr prob * nr q - P * sh (tb s KV) j nd b))%R by ring.
      eapply Rle_trans; [apply Rabs_triang|]. lra. }
    assert (Hnth : nth (if Nat.testbit i j then 1%nat else 0%nat) (nch nd) nullE = chd nd b).
    { apply (chd_null KV (tb s KV) nd _ Hok). unfold b, bix, bit. destruct (Nat.testbit i j); cbn; lia. }
    rewrite Hnth. clear Hnth.
    assert (Hzero : nr prob' = 0%R -> exists x, prob_path s j i (E w (Node a)) prob' = Some x /\ nr x = 0%R).
    { intros Hz. apply (prob_path_zero s i HI j j); auto. }
    pose proof (eprob_pos j) as Hej. cbn [eprob].
    assert (Hb' : (bix i j < 2)%nat) by exact Hb.
    pose proof (rest_S _ j a nd (bix i) HT Hr Hv Hb') as RS. fold b in RS. destruct RS as [[Wc Er]|(Wz & Er & Es)].
    + rewrite Er. pose proof (rest_range _ j _ (bix i) HT (bit_lt i) Wc) as Hrr. fold b in Hrr.
      destruct (neqb prob' n0) eqn:Hn.
      * apply nr_eq0 in Hn. destruct (Hzero Hn) as (x & Hx & Hx0). exists x. split; [exact Hx|]. rewrite Hx0. split; [lra|]. split; [|reflexivity].
        rewrite Hn in He'. rewrite Rminus_0_l, Rabs_Ropp in He'. rewrite Rabs_pos_eq in He' by lra.
        rewrite Rminus_0_l, Rabs_Ropp, Rabs_pos_eq by nra.
        rewrite <- Rmult_assoc. apply Rle_trans with (P * sh (tb s KV) j nd b * 1)%R; [apply Rmult_le_compat_l; lra|lra].
      * destruct (IH (chd nd b) prob' (P * sh (tb s KV) j nd b)%R (eps + (econd j + 4 * dl))%R) as (x & X1 & X2 & X3 & X4); auto; [lia|].
        exists x. split; [exact X1|]. split; [exact X2|]. split.
        -- rewrite <- Rmult_assoc. eapply Rle_trans; [exact X3|]. lra.
        -- intros Hz. apply X4. rewrite (valp_S_node KV _ j a nd _ Hr Hv) in Hz. fold b in Hz. fold (chd nd b) in Hz. unfold FpA.val in Hz.
           destruct (Ceq_dec (cv (ew (chd nd b))) (RtoC 0)) as [Hcz|Hcz].
           ++ exfalso. assert (nr prob' = 0%R) by (apply nmul_0r; auto). apply nr_eq0 in H. congruence.
           ++ apply Cmult_int in Hz. tauto.
    + assert (Hz : nr prob' = 0%R) by (apply nmul_0r; auto).
      rewrite Er. replace (neqb prob' n0) with true by (symmetry; now apply nr_eq0).
      destruct (Hzero Hz) as (x & Hx & Hx0). exists x. split; [exact Hx|]. rewrite Hx0. split; [lra|]. split; [|reflexivity].
      rewrite Rmult_0_r, Rminus_0_r, Rabs_R0. pose proof (econd_pos j). pose proof dl_b. pose proof (Rabs_pos (nr prob - P)). lra.
Qed.
Lemma all_some_nth {A} (f : nat -> option A) (d : A) P : forall N a, (forall i, (a <= i < a + N)%nat -> exists x, f i = Some x /\ P i x) ->
  exists l, all_some (map f (seq a N)) = Some l /\ length l = N /\ forall i, (i < N)%nat -> P (a + i)%nat (nth i l d).
Proof.
  induction N as [|N IH]; intros a Ha; cbn [seq map all_some].
  - exists []. split; [reflexivity|]. split; [reflexivity|]. intros i Hi. lia.
  - destruct (Ha a ltac:(lia)) as (x & Hx & HP). rewrite Hx. destruct (IH (S a)) as (l & Hl & Hlen & HPl).
    { intros i Hi. apply Ha. lia. }
    rewrite Hl. exists (x :: l). split; [reflexivity|]. split; [cbn; lia|]. intros [|i] Hi; cbn [nth].
    + rewrite Nat.add_0_r. exact HP.
    + replace (a + S i)%nat with (S a + i)%nat by lia. apply HPl. lia.
Qed.
Lemma getVarV s m p : wfp KV (tb s KV) (S m) p -> getVar KV p s = Some (Z.of_nat m).
Proof. intros (a & nd & -> & Hr & Hv). unfold getVar. rewrite (readn_reg KV s a nd Hr), Hv. reflexivity. Qed.
Theorem probabilities_spec s n e : Inv s -> (1 <= n <= 30)%nat -> wfp KV (tb s KV) n (en e) ->
  exists l s', probabilities e s = Some (l, s') /\ pext s s' /\ Inv s' /\ length l = (2 ^ n)%nat /\
    forall i, (i < 2 ^ n)%nat -> (0 <= nr (nth i l n0) <= 1)%R /\ (Rabs (nr (nth i l n0) - rest (tb s KV) n (en e) (bix i)) <= eprob n)%R /\
      (valp KV (tb s KV) n (en e) (bix i) = RtoC 0 -> nr (nth i l n0) = 0%R).
Proof.
  intros HI Hn Hw. destruct n as [|m]; [lia|]. assert (HQ : Z.of_nat (S m) <= NQUBITS) by (unfold NQUBITS; lia).
  unfold probabilities. rewrite (getVarV s m (en e) Hw).
  replace (shift_ok (Z.of_nat m + 1)) with true by (symmetry; unfold shift_ok; apply andb_true_intro; split; [apply Z.leb_le|apply Z.ltb_lt]; lia).
  destruct (assignP_spec PFUEL (S m) e s HI (or_introl Hw) ltac:(unfold PFUEL; lia) HQ) as (x & s1 & A1 & A2 & A3 & A4 & _).
  unfold assignProbabilities. rewrite A1. replace (Z.to_nat (Z.of_nat m + 1)) with (S m) by lia.
  assert (Hw1 : wfp KV (tb s1 KV) (S m) (en e)) by (rewrite (pe_tb _ _ A2); exact Hw).
  destruct (all_some_nth (fun i => prob_path s1 (S m) i e n1) n0
     (fun i x => (0 <= nr x <= 1)%R /\ (Rabs (nr x - rest (tb s KV) (S m) (en e) (bix i)) <= eprob (S m))%R /\
      (valp KV (tb s KV) (S m) (en e) (bix i) = RtoC 0 -> nr x = 0%R)) (2 ^ S m) 0) as (l & Hl & Hlen & HP).
  { intros i _. assert (E1 : (0 <= nr n1 <= 1)%R) by (rewrite nr_1; lra). assert (E2 : (Rabs (nr n1 - 1) <= 0)%R) by (rewrite nr_1, Rminus_eq_0, Rabs_R0; lra).
    destruct (prob_path_spec s1 i A3 (S m) e n1 1%R 0%R HQ Hw1 A4 E1 ltac:(lra) E2) as (y & Y1 & Y2 & Y3 & Y4). exists y. split; [exact Y1|].
    rewrite (pe_tb _ _ A2) in Y3, Y4. rewrite Rmult_1_l, Rplus_0_l in Y3. auto. }
  rewrite Hl. exists l, s1. split; [reflexivity|]. split; [exact A2|]. split; [exact A3|]. split; [exact Hlen|]. exact HP.
Qed.

(* ---- measureAll ---- *)
(* the number the draw for qubit k is compared with, when the higher qubits read as in b *)
Fixpoint thr (s : state) (l : nat) (cur : edge) (k : nat) (b : nat -> nat) : R :=
  match l with
  | O => 0%R
  | S j =>
      match cprobs s cur with
      | None => 0%R
      | Some (p0, p1, nd) =>
          if Nat.eqb k j then nr (ndiv p0 (nadd p0 p1)) else thr s j (nth (b j) (nch nd) nullE) k b
      end
  end.
Definition blen (T : R) (c : nat) : R := if Nat.eqb c 1 then (1 - T)%R else T.
Fixpoint esamp (l : nat) : R := match l with O => 0%R | S j => (econd j + esamp j)%R end.
Lemma esamp_pos l : (0 <= esamp l)%R.
Proof. induction l as [|l IH]; cbn [esamp]; [lra|]. pose proof (econd_pos l). lra. Qed.
Lemma thr_num s k b : forall l cur, exists x : num, thr s l cur k b = nr x.
Proof.
  induction l as [|l IH]; intros cur; cbn [thr]; [exists n0; now rewrite nr_0|]. destruct (cprobs s cur) as [[[p0 p1] nd]|]; [|exists n0; now rewrite nr_0].
  destruct (Nat.eqb k l); [eauto|apply IH].
Qed.
Lemma thr_local s k b b' : (forall x, (k < x)%nat -> b x = b' x) -> forall l cur, thr s l cur k b = thr s l cur k b'.
Proof.
  intros H. induction l as [|j IH]; intros cur; [reflexivity|]. cbn [thr]. destruct (cprobs s cur) as [[[p0 p1] nd]|]; [|reflexivity].
  destruct (Nat.eqb_spec k j) as [->|Hne]; [reflexivity|]. destruct (Nat.lt_ge_cases k j) as [Hk|Hk].
  - rewrite (H j Hk). apply IH.
  - clear IH. revert Hk. generalize (nth (b j) (nch nd) nullE), (nth (b' j) (nch nd) nullE).
    assert (Hz : forall l c, (l <= k)%nat -> thr s l c k b = 0%R /\ thr s l c k b' = 0%R).
    { induction l as [|m IHm]; intros c Hl; [auto|]. cbn [thr]. destruct (cprobs s c) as [[[q0 q1] n']|]; [|auto].
      destruct (Nat.eqb_spec k m); [lia|]. split; apply IHm; lia. }
    intros e1 e2 Hk. destruct (Hz j e1 Hk) as [-> _]. destruct (Hz j e2 Hk) as [_ ->]. reflexivity.
Qed.
Lemma cprobs_term s w : Inv s -> cprobs s (E w Term) = None.
Proof.
  intros HI. unfold cprobs. cbn [en readn nch nth]. destruct (probs s (en nullE)) as [x|] eqn:Hx; [|reflexivity].
  destruct (inv_pr _ HI _ _ Hx) as [[X _]|(m & a & nd & X & _)]; discriminate X.
Qed.
Lemma thr_range s k b : Inv s -> (forall x, (b x < 2)%nat) -> forall l cur, Z.of_nat l <= NQUBITS -> wfe KV (tb s KV) l cur -> probs s (en cur) <> None ->
  (0 <= thr s l cur k b <= 1)%R.
Proof.
  intros HI Hb2. pose proof (inv_tb _ HI KV) as HT. induction l as [|j IH]; intros cur HQ Hw Hp; cbn [thr]; [lra|].
  destruct cur as [w p]. destruct Hw as [Hw|[_ Hw]]; cbn [en] in *.
  - pose proof (psum_ge1 _ HT _ _ Hw) as Hpos.
    destruct (cprobs_spec s j p HI HQ Hw Hp w) as (a & nd & p0 & p1 & -> & Hr & Hv & Hok & Hc & W0 & W1 & Z0 & Z1 & Hm). rewrite Hc.
    rewrite (psum_S _ j a nd Hr Hv) in Hpos.
    destruct (cond_spec j p0 p1 _ _ HQ (qb_nonneg _ _ _ _) (qb_nonneg _ _ _ _) Hpos W0 W1) as (_ & _ & L3 & _).
    destruct (Nat.eqb k j); [exact L3|]. rewrite (chd_null KV _ nd _ Hok) by (cbn; apply Hb2).
    apply IH; [lia|now apply child_wfe with (a := a)|]. apply Hm, Hb2.
  - subst p. rewrite cprobs_term by exact HI. lra.
Qed.
Lemma rprod_ext N f g : (forall k, (k < N)%nat -> f k = g k) -> rprod N f = rprod N g.
Proof. induction N as [|N IH]; intros H; cbn [rprod]; [reflexivity|]. rewrite IH, H; auto. Qed.
Lemma rprod_unit N f : (forall k, (k < N)%nat -> (0 <= f k <= 1)%R) -> (0 <= rprod N f <= 1)%R.
Proof.
  induction N as [|N IH]; intros H; cbn [rprod]; [lra|]. pose proof (H N ltac:(lia)) as H1. assert (H2 : (0 <= rprod N f <= 1)%R) by (apply IH; auto). nra.
Qed.
Lemma blen_range T c : (0 <= T <= 1)%R -> (0 <= blen T c <= 1)%R.
Proof. unfold blen. destruct (Nat.eqb c 1); lra. Qed.
(* the volume of the box of draws that give b, against the exact probability *)
Lemma box_spec s b : Inv s -> (forall x, (b x < 2)%nat) -> forall l cur, Z.of_nat l <= NQUBITS -> wfp KV (tb s KV) l (en cur) -> probs s (en cur) <> None ->
  (Rabs (rprod l (fun k => blen (thr s l cur k b) (b k)) - rest (tb s KV) l (en cur) b) <= esamp l)%R /\
  (valp KV (tb s KV) l (en cur) b = RtoC 0 -> rprod l (fun k => blen (thr s l cur k b) (b k)) = 0%R).
Proof.
  intros HI Hb2. pose proof (inv_tb _ HI KV) as HT. induction l as [|j IH]; intros cur HQ Hw Hp.
  - cbn [rprod]. split.
    + unfold rest. rewrite psum_0. cbn [FpA.valp esamp]. rewrite Cmod_1. replace (1 - 1 ^ 2 / 1)%R with 0%R by field. rewrite Rabs_R0. lra.
    + cbn [FpA.valp]. intros X. exfalso. exact (C1_nz X).
  - destruct cur as [w p]. cbn [en] in *. pose proof (psum_ge1 _ HT _ _ Hw) as Hpos.
    destruct (cprobs_spec s j p HI HQ Hw Hp w) as (a & nd & p0 & p1 & -> & Hr & Hv & Hok & Hc & W0 & W1 & Z0 & Z1 & Hm).
    rewrite (psum_S _ j a nd Hr Hv) in Hpos. cbn [rprod].
    assert (Et : thr s (S j) (E w (Node a)) j b = nr (ndiv p0 (nadd p0 p1))) by (cbn [thr]; rewrite Hc, Nat.eqb_refl; reflexivity).
    assert (El : rprod j (fun k => blen (thr s (S j) (E w (Node a)) k b) (b k)) = rprod j (fun k => blen (thr s j (chd nd (b j)) k b) (b k))).
    { apply rprod_ext. intros k Hk. cbn [thr]. rewrite Hc. destruct (Nat.eqb_spec k j); [lia|].
      rewrite (chd_null KV _ nd _ Hok) by (cbn; apply Hb2). reflexivity. }
    rewrite El, Et. clear El Et.
    destruct (cond_spec j p0 p1 _ _ HQ (qb_nonneg _ _ _ _) (qb_nonneg _ _ _ _) Hpos W0 W1) as (_ & _ & L3 & L4 & L5 & L6). cbv zeta in *.
    set (p0' := ndiv p0 (nadd p0 p1)) in *. fold (sh (tb s KV) j nd 0) in L4.
    assert (Hq2 : (Rabs (blen (nr p0') (b j) - sh (tb s KV) j nd (b j)) <= econd j)%R).
    { unfold blen. pose proof (Hb2 j) as Hb. destruct (b j) as [|[|]]; [exact L4| |lia]. cbn [Nat.eqb]. rewrite sh_1 by exact Hpos.
      replace (1 - nr p0' - (1 - sh (tb s KV) j nd 0))%R with (- (nr p0' - sh (tb s KV) j nd 0))%R by ring. rewrite Rabs_Ropp. exact L4. }
    assert (Hq3 : cv (ew (chd nd (b j))) = RtoC 0 -> blen (nr p0') (b j) = 0%R).
    { unfold blen. pose proof (Hb2 j) as Hb. destruct (b j) as [|[|]]; [| |lia]; cbn [Nat.eqb]; intros X; [auto|]. rewrite (L6 (Z1 X)). ring. }
    pose proof (child_wfe _ a nd j (b j) HT Hr Hv) as Wc.
    assert (Hthr : forall k, (0 <= thr s j (chd nd (b j)) k b <= 1)%R).
    { intros k. apply thr_range; auto; lia. }
    assert (Hpu : (0 <= rprod j (fun k => blen (thr s j (chd nd (b j)) k b) (b k)) <= 1)%R) by (apply rprod_unit; intros k _; apply blen_range, Hthr).
    cbn [esamp]. pose proof (esamp_pos j). pose proof (econd_pos j). pose proof (blen_range _ (b j) L3) as Hbl.
    destruct (rest_S _ j a nd b HT Hr Hv (Hb2 j)) as [[Wp Er]|(Wz & Er & Es)].
    + rewrite Er. destruct (IH (chd nd (b j)) ltac:(lia) Wp (Hm _ (Hb2 j))) as [B1 B2]. split.
      * rewrite (Rmult_comm (sh (tb s KV) j nd (b j))). rewrite (Rplus_comm (econd j)). apply unit_prod; auto. now apply rest_range.
      * intros Hz. rewrite (valp_S_node KV _ j a nd _ Hr Hv) in Hz. fold (chd nd (b j)) in Hz. unfold FpA.val in Hz.
        apply Cmult_int in Hz as [Hz|Hz]; [rewrite (Hq3 Hz); ring|rewrite (B2 Hz); ring].
    + rewrite Er, (Hq3 Wz), Rmult_0_r, Rminus_0_r, Rabs_R0. split; [lra|reflexivity].
Qed.
Lemma sample_spec s : Inv s -> forall l ths cur res, Z.of_nat l <= NQUBITS -> wfp KV (tb s KV) l (en cur) -> probs s (en cur) <> None ->
  (l <= length ths)%nat -> (forall th, In th ths -> (0 <= nr th < 1)%R) -> (l <= length res)%nat ->
  (forall i, (i < l)%nat -> nth i res false = false) ->
  exists b res', sample s l ths cur res = Some res' /\ (forall k, (b k < 2)%nat) /\
    length res' = length res /\
    (forall i, nth i res' false = if Nat.ltb i l then Nat.eqb (b i) 1 else nth i res false) /\
    (forall k, (k < l)%nat -> if Nat.eqb (b k) 1 then (thr s l cur k b <= nr (nth (l - 1 - k) ths n0))%R
                               else (nr (nth (l - 1 - k) ths n0) < thr s l cur k b)%R) /\
    valp KV (tb s KV) l (en cur) b <> RtoC 0.
Proof.
  intros HI. pose proof (inv_tb _ HI KV) as HT.
  induction l as [|j IH]; intros ths cur res HQ Hw Hp Hlt Hth Hlr Hres.
  - exists (fun _ => 0%nat), res. cbn [sample]. split; [reflexivity|]. split; [intros; lia|]. split; [reflexivity|].
    split; [reflexivity|]. split; [intros k Hk; lia|]. cbn [FpA.valp]. exact C1_nz.
  - destruct ths as [|th r]; [cbn in Hlt; lia|]. cbn [sample].
    destruct cur as [w p]. cbn [en] in *.
    pose proof (psum_ge1 _ HT _ _ Hw) as Hpos.
    destruct (cprobs_spec s j p HI HQ Hw Hp w) as (a & nd & p0 & p1 & -> & Hr & Hv & Hok & Hc & W0 & W1 & Z0 & Z1 & Hm). rewrite Hc.
    rewrite (psum_S _ j a nd Hr Hv) in Hpos.
    destruct (cond_spec j p0 p1 _ _ HQ (qb_nonneg _ _ _ _) (qb_nonneg _ _ _ _) Hpos W0 W1) as (_ & L2 & L3 & _ & L5 & L6). cbv zeta in *.
    rewrite L2. cbn [negb]. set (p0' := ndiv p0 (nadd p0 p1)) in *.
    destruct (Hth th (or_introl eq_refl)) as [Hth0 Hth1].
    (* common part: descend into child c *)
    assert (Hgo : forall c res0, (c < 2)%nat -> cv (ew (chd nd c)) <> RtoC 0 ->
       (if Nat.eqb c 1 then (nr p0' <= nr th)%R else (nr th < nr p0')%R) ->
       length res0 = length res -> (forall i, nth i res0 false = if Nat.eqb i j then Nat.eqb c 1 else nth i res false) ->
       exists b res', sample s j r (chd nd c) res0 = Some res' /\ (forall k, (b k < 2)%nat) /\
         length res' = length res /\
         (forall i, nth i res' false = if Nat.ltb i (S j) then Nat.eqb (b i) 1 else nth i res false) /\
         (forall k, (k < S j)%nat -> if Nat.eqb (b k) 1 then (thr s (S j) (E w (Node a)) k b <= nr (nth (S j - 1 - k) (th :: r) n0))%R
                               else (nr (nth (S j - 1 - k) (th :: r) n0) < thr s (S j) (E w (Node a)) k b)%R) /\
         valp KV (tb s KV) (S j) (Node a) b <> RtoC 0).
    { intros c res0 Hc2 Hwc Hdec Hlen0 Hn0.
      assert (Wc : wfp KV (tb s KV) j (en (chd nd c))).
      { apply (wfe_nz KV _ _ _ (child_wfe _ a nd j c HT Hr Hv)). exact Hwc. }
      destruct (IH r (chd nd c) res0) as (b & res' & H1 & H2 & H3 & H4 & H5 & H6); auto; try lia.
      - cbn in Hlt. lia.
      - intros x Hx. apply Hth. right. exact Hx.
      - intros i Hi. rewrite Hn0. destruct (Nat.eqb_spec i j); [lia|]. apply Hres. lia.
      - exists (ixset b j c), res'. split; [exact H1|]. split.
        { intros k. unfold ixset. destruct (Nat.eqb k j); auto. }
        split; [lia|]. split.
        { intros i. rewrite H4, Hn0. unfold ixset. destruct (Nat.ltb_spec i j); destruct (Nat.ltb_spec i (S j));
            destruct (Nat.eqb_spec i j); try lia; try reflexivity. }
        split.
        + intros k Hk. cbn [thr]. rewrite Hc. destruct (Nat.eqb_spec k j) as [->|Hne].
          * rewrite ixset_same. replace (S j - 1 - j)%nat with 0%nat by lia. cbn [nth]. exact Hdec.
          * assert (Hkj : (k < j)%nat) by lia. pose proof (H5 k Hkj) as Hd.
            replace (S j - 1 - k)%nat with (S (j - 1 - k)) by lia. cbn [nth].
            rewrite (ixset_other _ j c k) by lia. rewrite ixset_same. rewrite (chd_null KV _ nd c Hok) by exact Hc2.
            assert (Ek : thr s j (chd nd c) k (ixset b j c) = thr s j (chd nd c) k b).
            { clear - Hkj. assert (Hg : forall l cur, (l <= j)%nat -> thr s l cur k (ixset b j c) = thr s l cur k b).
              { induction l as [|m IHm]; intros cur Hl; [reflexivity|]. cbn [thr]. destruct (cprobs s cur) as [[[q0 q1] n']|]; [|reflexivity].
                destruct (Nat.eqb k m); [reflexivity|]. rewrite (ixset_other _ j c m) by lia. apply IHm. lia. }
              apply Hg. lia. }
            rewrite Ek. exact Hd.
        + rewrite (valp_S_node KV _ j a nd _ Hr Hv). rewrite ixset_same. fold (chd nd c). unfold FpA.val.
          rewrite (valp_local KV _ j _ (ixset b j c) b) by (intros l Hl; apply ixset_other; lia).
          intros X. apply Cmult_int in X. tauto. }
    rewrite (chd_null KV _ nd 0 Hok), (chd_null KV _ nd 1 Hok) by (cbn; lia).
    destruct (nltb th p0') eqn:Hd.
    + apply nr_lt in Hd. apply (Hgo 0%nat res); auto.
      * intros X. rewrite (L5 (Z0 X)) in Hd. lra.
      * intros i. destruct (Nat.eqb_spec i j); [subst; apply Hres; lia|reflexivity].
    + assert (Hd' : (nr p0' <= nr th)%R).
      { apply Rnot_lt_le. intros X. apply nr_lt in X. congruence. }
      rewrite Hv, Nat2Z.id. apply (Hgo 1%nat); auto.
      * intros X. rewrite (L6 (Z1 X)) in Hd'. lra.
      * apply len_upd_nth.
      * intros i. rewrite nth_upd_nth by lia. reflexivity.
Qed.

(* the collapsed state is the basis state of the outcome *)
Lemma wpr_rebuild b n s0 : (forall l, (b l < 2)%nat) -> Z.of_nat n <= NQUBITS -> forall bits i e s (Q : post), Inv s -> rel s0 s ->
  (i + length bits = n)%nat -> isbs i b e s ->
  (forall l, (l < length bits)%nat -> nth l bits false = Nat.eqb (b (i + l)%nat) 1) ->
  (forall e' s', rel s0 s' -> isbs n b e' s' -> Q e' s') ->
  wpr (rebuild bits (Z.of_nat i) e) Q s.
Proof.
  intros Hb2 Hn. induction bits as [|x r IH]; intros i e s Q HI Hrel Hi Hbs Hbits HQ; cbn [rebuild].
  - apply wpr_ret. intros s' Hr. cbn in Hi. rewrite Nat.add_0_r in Hi. subst i.
    apply HQ; [exact (rel_trans _ _ _ Hrel Hr)|]. exact (isbs_stable n b e s s' HI Hr Hbs).
  - cbn in Hi. apply wpr_bind; [exact HI|].
    pose proof (Hbits 0%nat ltac:(cbn; lia)) as H0. cbn [nth] in H0. rewrite Nat.add_0_r in H0.
    assert (Hz : iszero (ew e) = false). { destruct Hbs as [-> _]. apply iszero_c1'. }
    assert (Hmk : (if x then makeVEdge (Z.of_nat i) zeroE e else makeVEdge (Z.of_nat i) e zeroE) = mkV1 (Z.of_nat i) x e).
    { destruct x; [apply makeVEdge_hi|apply makeVEdge_lo]; auto. }
    rewrite Hmk. apply (wpr_mkV1 x i b e s); auto.
    + lia.
    + rewrite H0. destruct (Nat.eqb_spec (b i) 1); [auto|]. specialize (Hb2 i). lia.
    + intros e' s' Hr Hbs'. replace (Z.of_nat i + 1) with (Z.of_nat (S i)) by lia.
      apply (IH (S i) e' s' Q (rel_inv _ _ Hr)); auto.
      * exact (rel_trans _ _ _ Hrel Hr).
      * lia.
      * intros l Hl. specialize (Hbits (S l) ltac:(cbn; lia)). cbn [nth] in Hbits. rewrite Hbits. f_equal. f_equal. lia.
Qed.

Lemma psum_norm2v t n e : norm2v n (vecF (val KV t n e)) = (Cmod (cv (ew e)) ^ 2 * psum t n (en e))%R.
Proof.
  unfold norm2v, psum. rewrite rbsum_rsum. unfold vecF.
  transitivity (rsum (2 ^ n) (fun i => (Cmod (cv (ew e)) ^ 2 * Cmod (valp KV t n (en e) (bix i)) ^ 2)%R)).
  - apply rsum_ext. intros i _. apply val_sq.
  - generalize (2 ^ n)%nat. induction n0 as [|N IH]; cbn [rsum]; [ring|]. rewrite IH. ring.
Qed.
Lemma rest_amp t n e i : cv (ew e) <> RtoC 0 -> TInv KV t -> wfp KV t n (en e) ->
  rest t n (en e) (bix i) = (Cmod (vecF (val KV t n e) i) ^ 2 / norm2v n (vecF (val KV t n e)))%R.
Proof.
  intros Hz HT Hw. rewrite psum_norm2v. unfold vecF. rewrite val_sq. pose proof (psum_ge1 t HT n _ Hw). unfold rest.
  assert (Hc : (Cmod (cv (ew e)) ^ 2 <> 0)%R) by (apply pow_nonzero; intros X; apply Cmod_eq_0 in X; contradiction).
  field. split; [lra|]. intros X. apply Hc. rewrite X. ring.
Qed.
Lemma amp_zero t n e i : cv (ew e) <> RtoC 0 -> vecF (val KV t n e) i = RtoC 0 -> valp KV t n (en e) (bix i) = RtoC 0.
Proof. intros Hz H. unfold vecF, FpA.val in H. apply Cmult_int in H. tauto. Qed.

Theorem measureAll_spec_num s n e : Inv s -> (1 <= n)%nat -> Z.of_nat n <= NQUBITS -> wfp KV (tb s KV) n (en e) -> cv (ew e) <> RtoC 0 ->
  exists (T : nat -> nat -> R), (forall k b, exists x : num, T k b = nr x) /\
    (forall k b b', (b / 2 ^ S k = b' / 2 ^ S k)%nat -> T k b = T k b') /\
    (forall k b, (0 <= T k b <= 1)%R) /\
    (forall b, (Rabs (rprod n (fun k => blen (T k b) (bit b k)) - Cmod (vecF (val KV (tb s KV) n e) b) ^ 2 / norm2v n (vecF (val KV (tb s KV) n e))) <= esamp n)%R /\
       (vecF (val KV (tb s KV) n e) b = RtoC 0 -> rprod n (fun k => blen (T k b) (bit b k)) = 0%R)) /\
    forall collapse ths, (n <= length ths)%nat -> (forall th, In th ths -> (0 <= nr th < 1)%R) ->
      exists B e' s1 s', measureAll e collapse ths s = Some (bitstring n B, e', s') /\ (B < 2 ^ n)%nat /\
        (forall k, (k < n)%nat -> (Nat.testbit B k = true <-> (T k B <= nr (nth (n - 1 - k) ths n0))%R)) /\
        vecF (val KV (tb s KV) n e) B <> RtoC 0 /\
        pext s s1 /\ Inv s1 /\ Inv s' /\ rel s1 s' /\
        (if collapse then isbs n (bix B) e' s' else e' = e /\ s' = s1).
Proof.
  intros HI Hn1 Hn Hw He. destruct n as [|m]; [lia|].
  assert (Hs1 : exists s1, (match probs s (en e) with
             | Some _ => Some s
             | None => match assignProbabilities e s with Some (_, s1) => Some s1 | None => None end
             end) = Some s1 /\ pext s s1 /\ Inv s1 /\ probs s1 (en e) <> None).
  { destruct (probs s (en e)) as [x|] eqn:Hx.
    - exists s. split; [reflexivity|]. split; [apply pext_refl|]. split; [exact HI|congruence].
    - destruct (assignP_spec PFUEL (S m) e s HI (or_introl Hw)) as (x & s1 & A1 & A2 & A3 & A4 & _).
      { unfold PFUEL. unfold NQUBITS in Hn. lia. } { exact Hn. }
      unfold assignProbabilities. rewrite A1. exists s1. auto. }
  destruct Hs1 as (s1 & Es1 & Hpe & HI1 & Hpr).
  pose proof Hw as Hw1. rewrite <- (pe_tb _ _ Hpe) in Hw1.
  exists (fun k b => thr s1 (S m) e k (bix b)). split; [intros k b; apply thr_num|]. split; [|split; [|split]].
  - intros k b b' Hb. apply thr_local. intros x Hx. unfold bix, bit. replace x with ((x - S k) + S k)%nat by lia.
    rewrite <- !Nat.div_pow2_bits. rewrite Hb. reflexivity.
  - intros k b. apply thr_range; auto; [intros x; apply bit_lt|now left].
  - intros b. destruct (box_spec s1 (bix b) HI1 (bit_lt b) (S m) e Hn Hw1 Hpr) as [B1 B2].
    rewrite (pe_tb _ _ Hpe) in B1, B2. rewrite (rest_amp _ _ _ _ He (inv_tb _ HI KV) Hw) in B1. split; [exact B1|].
    intros Hz. apply B2. now apply amp_zero.
  - intros collapse ths Hlt Hth. unfold measureAll. rewrite (getVarV s m (en e) Hw). replace (Z.to_nat (Z.of_nat m + 1)) with (S m) by lia.
    rewrite Es1.
    destruct (sample_spec s1 HI1 (S m) ths e (repeat false (S m)) Hn Hw1 Hpr Hlt Hth) as (b & res & Hs & Hb2 & Hlen & Hnth & Hd & Hpos).
    { rewrite repeat_length. lia. }
    { intros i Hi. apply nth_repeat. }
    rewrite Hs. destruct (ofbits (S m) b Hb2) as (B & HB & Hbits).
    rewrite repeat_length in Hlen.
    assert (Hres : res = map (Nat.testbit B) (seq 0 (S m))).
    { apply nth_ext with (d := false) (d' := false); [rewrite map_length, seq_length; exact Hlen|].
      intros i Hi. rewrite Hlen in Hi. rewrite Hnth. destruct (Nat.ltb_spec i (S m)); [|lia].
      rewrite <- (Hbits i) by auto. rewrite (nth_indep _ false (Nat.testbit B 0)) by (rewrite map_length, seq_length; lia).
      rewrite map_nth, seq_nth by lia. unfold bix, bit. cbn [Nat.add]. destruct (Nat.testbit B i); reflexivity. }
    assert (Hstr : rev res = bitstring (S m) B). { rewrite Hres. unfold bitstring. rewrite map_rev. reflexivity. }
    assert (HD : forall k, (k < S m)%nat -> (Nat.testbit B k = true <-> (thr s1 (S m) e k (bix B) <= nr (nth (S m - 1 - k) ths n0))%R)).
    { intros k Hk. specialize (Hd k Hk). rewrite <- (Hbits k Hk) in Hd.
      assert (Et : thr s1 (S m) e k b = thr s1 (S m) e k (bix B)).
      { clear - Hbits. assert (Hg : forall l cur, (l <= S m)%nat -> thr s1 l cur k b = thr s1 l cur k (bix B)).
        { induction l as [|x IHx]; intros cur Hl; [reflexivity|]. cbn [thr]. destruct (cprobs s1 cur) as [[[q0 q1] n']|]; [|reflexivity].
          destruct (Nat.eqb k x); [reflexivity|]. rewrite (Hbits x) by lia. apply IHx. lia. }
        apply Hg. lia. }
      rewrite Et in Hd. assert (Eb : bix B k = if Nat.testbit B k then 1%nat else 0%nat) by reflexivity. rewrite Eb in Hd. destruct (Nat.testbit B k); cbn [Nat.eqb] in Hd; split; auto; try discriminate.
      intros X. exfalso; lra. }
    assert (HP : vecF (val KV (tb s KV) (S m) e) B <> RtoC 0).
    { intros X. apply (amp_zero _ _ _ _ He) in X. apply Hpos. rewrite (pe_tb _ _ Hpe).
      rewrite (valp_local KV _ (S m) _ b (bix B)) by (intros l Hl; symmetry; apply Hbits; lia). exact X. }
    destruct collapse.
    + assert (Hwp : wpr (rebuild res 0 oneE) (fun e' s' => isbs (S m) (bix B) e' s') s1).
      { change 0 with (Z.of_nat 0). apply (wpr_rebuild (bix B) (S m) s1); auto.
        - intros l. apply bit_lt.
        - apply rel_refl. exact HI1.
        - apply isbs_term.
        - intros l Hl. rewrite Hnth. destruct (Nat.ltb_spec l (S m)); [|lia]. rewrite <- (Hbits l) by auto. reflexivity. }
      destruct (wpr_run _ _ _ HI1 Hwp) as (e' & s' & Hrun & Hrel & Hbs).
      exists B, e', s1, s'. rewrite Hrun, Hstr. split; [reflexivity|]. split; [exact HB|]. split; [exact HD|]. split; [exact HP|].
      split; [exact Hpe|]. split; [exact HI1|]. split; [exact (rel_inv _ _ Hrel)|]. split; [exact Hrel|exact Hbs].
    + exists B, e, s1, s1. rewrite Hstr. split; [reflexivity|]. split; [exact HB|]. split; [exact HD|]. split; [exact HP|].
      split; [exact Hpe|]. split; [exact HI1|]. split; [exact HI1|]. split; [apply rel_refl; exact HI1|]. auto.
Qed.
Theorem measureAll_spec s n e : Inv s -> (1 <= n)%nat -> Z.of_nat n <= NQUBITS -> wfp KV (tb s KV) n (en e) -> cv (ew e) <> RtoC 0 ->
  exists (T : nat -> nat -> R),
    (forall k b b', (b / 2 ^ S k = b' / 2 ^ S k)%nat -> T k b = T k b') /\
    (forall k b, (0 <= T k b <= 1)%R) /\
    (forall b, (Rabs (rprod n (fun k => blen (T k b) (bit b k)) - Cmod (vecF (val KV (tb s KV) n e) b) ^ 2 / norm2v n (vecF (val KV (tb s KV) n e))) <= esamp n)%R /\
       (vecF (val KV (tb s KV) n e) b = RtoC 0 -> rprod n (fun k => blen (T k b) (bit b k)) = 0%R)) /\
    forall collapse ths, (n <= length ths)%nat -> (forall th, In th ths -> (0 <= nr th < 1)%R) ->
      exists B e' s1 s', measureAll e collapse ths s = Some (bitstring n B, e', s') /\ (B < 2 ^ n)%nat /\
        (forall k, (k < n)%nat -> (Nat.testbit B k = true <-> (T k B <= nr (nth (n - 1 - k) ths n0))%R)) /\
        vecF (val KV (tb s KV) n e) B <> RtoC 0 /\
        pext s s1 /\ Inv s1 /\ Inv s' /\ rel s1 s' /\
        (if collapse then isbs n (bix B) e' s' else e' = e /\ s' = s1).
Proof. intros HI Hn1 Hn Hw He. destruct (measureAll_spec_num s n e HI Hn1 Hn Hw He) as (T & _ & HT). exists T. exact HT. Qed.
End FpMeas.
