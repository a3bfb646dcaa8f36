(* EstVarP.v -- C75: the variance in the Estimator's metadata. *)
From Coq Require Import Reals Lra Psatz ZArith Bool List Lia Arith FunctionalExtensionality.
From Coquelicot Require Import Complex.
From Verif Require Import Num Gates RNum Spec SpecP GateMat LargeP ApplyP MeasAllP Props2 Backend BackSpec BackendP BackendQ BackendX
  Estimator PauliP EstimatorP SeedsP EstVar EstVarS.
Import ListNotations.
Open Scope nat_scope.

(* ---- sums, means ---- *)
Lemma total_ext {A} (f g : A -> R) l : (forall a, In a l -> f a = g a) -> total_of f l = total_of g l.
Proof. induction l as [|a l IH]; cbn; intros H; auto. rewrite H by now left. f_equal. apply IH. intros; apply H; now right. Qed.
Lemma total_plus {A} (f g : A -> R) l : total_of (fun a => f a + g a)%R l = (total_of f l + total_of g l)%R.
Proof. induction l as [|a l IH]; cbn; [ring|]. unfold total_of in IH. rewrite IH. ring. Qed.
Lemma total_scal {A} k (f : A -> R) l : total_of (fun a => k * f a)%R l = (k * total_of f l)%R.
Proof. induction l as [|a l IH]; cbn; [ring|]. unfold total_of in IH. rewrite IH. ring. Qed.
Lemma total_const {A} k (l : list A) : total_of (fun _ => k) l = (INR (length l) * k)%R.
Proof. induction l as [|a l IH]; [cbn; ring|]. cbn [length]. rewrite S_INR. cbn. unfold total_of in IH. rewrite IH. ring. Qed.
Lemma mean_ext {A} (f g : A -> R) l : (forall a, In a l -> f a = g a) -> mean_of f l = mean_of g l.
Proof. intros H. unfold mean_of. now rewrite (total_ext f g). Qed.
Lemma mean_plus {A} (f g : A -> R) l : mean_of (fun a => f a + g a)%R l = (mean_of f l + mean_of g l)%R.
Proof. unfold mean_of. rewrite total_plus. unfold Rdiv. ring. Qed.
Lemma mean_scal {A} k (f : A -> R) l : mean_of (fun a => k * f a)%R l = (k * mean_of f l)%R.
Proof. unfold mean_of. rewrite total_scal. unfold Rdiv. ring. Qed.
Lemma mean_const {A} k (l : list A) : l <> [] -> mean_of (fun _ => k) l = k.
Proof. intros H. unfold mean_of. rewrite total_const. field. apply not_0_INR. destruct l; cbn; [contradiction|lia]. Qed.
Lemma cov_eq {A} (f g : A -> R) l : l <> [] -> cov_of f g l = (mean_of (fun a => f a * g a) l - mean_of f l * mean_of g l)%R.
Proof.
  intros H. unfold cov_of. set (mf := mean_of f l). set (mg := mean_of g l).
  rewrite (mean_ext _ (fun a => f a * g a + ((- mg) * f a + ((- mf) * g a + mf * mg)))%R) by (intros; ring).
  rewrite !mean_plus, !mean_scal, (mean_const mg l H). fold mf mg. ring.
Qed.
Lemma var_cov {A} (f : A -> R) l : var_of f l = cov_of f f l.
Proof. unfold var_of, cov_of. apply mean_ext. intros; ring. Qed.
Lemma cov_plus {A} (f g h : A -> R) l : l <> [] -> cov_of (fun a => f a + g a)%R h l = (cov_of f h l + cov_of g h l)%R.
Proof.
  intros H. rewrite !cov_eq by auto. rewrite (mean_ext (fun a => (f a + g a) * h a)%R (fun a => f a * h a + g a * h a)%R) by (intros; ring).
  rewrite !mean_plus. ring.
Qed.
Lemma cov_sym {A} (f g : A -> R) l : cov_of f g l = cov_of g f l.
Proof. unfold cov_of. apply mean_ext. intros; ring. Qed.
Lemma var_plus {A} (f g : A -> R) l : l <> [] -> var_of (fun a => f a + g a)%R l = (var_of f l + var_of g l + 2 * cov_of f g l)%R.
Proof.
  intros H. rewrite !var_cov, cov_plus by auto. rewrite (cov_sym f), (cov_sym g (fun a => _)), !cov_plus by auto. rewrite (cov_sym g f). ring.
Qed.
Lemma cov_total {A B} (f : A -> R) (g : B -> A -> R) ts l : l <> [] ->
  cov_of f (fun a => total_of (fun t => g t a) ts) l = total_of (fun t => cov_of f (g t) l) ts.
Proof.
  intros H. induction ts as [|t ts IH].
  - rewrite cov_eq by auto. rewrite (mean_ext _ (fun _ => 0%R)) by (intros; cbn; ring). rewrite (mean_const 0%R) by auto.
    cbn. rewrite (mean_const 0%R l H). ring.
  - change (cov_of f (fun a => g t a + total_of (fun t => g t a) ts)%R l = (cov_of f (g t) l + total_of (fun t => cov_of f (g t) l) ts)%R).
    rewrite <- IH, (cov_sym f), cov_plus by auto. now rewrite (cov_sym (g t)), (cov_sym (fun a => total_of _ ts)).
Qed.
Lemma total_map {A B} (f : A -> B) (g : B -> R) l : total_of g (map f l) = total_of (fun a => g (f a)) l.
Proof. induction l as [|a l IH]; cbn; auto. unfold total_of in IH. now rewrite IH. Qed.
(* the variance of a sum *)
Lemma var_sum {A B} (g : B -> A -> R) ts l : l <> [] ->
  var_of (fun a => total_of (fun t => g t a) ts) l = (total_of (fun t => var_of (g t) l) ts + 2 * covariances (map g ts) l)%R.
Proof.
  intros H. induction ts as [|t ts IH].
  - rewrite var_cov, cov_eq by auto. cbn. rewrite (mean_ext _ (fun _ => 0%R)) by (intros; ring). rewrite !(mean_const 0%R l H). ring.
  - change (var_of (fun a => g t a + total_of (fun t => g t a) ts)%R l =
      (var_of (g t) l + total_of (fun t => var_of (g t) l) ts + 2 * (total_of (fun h => cov_of (g t) h l) (map g ts) + covariances (map g ts) l))%R).
    rewrite var_plus, IH, cov_total, total_map by auto. ring.
Qed.

(* ---- one entry: the terms measured in one circuit ---- *)
Lemma sign_sq p qs o : (psign p qs o ^ 2 = 1)%R.
Proof. unfold psign. destruct (_ =? _); ring. Qed.
Lemma expval_is_mean p qs l : expval_counts p qs (counter l) = mean_of (fun s => psign p qs (int2 s)) l.
Proof. apply expval_mean. Qed.
Lemma variance_is_var p qs l : l <> [] -> variance_counts p qs (counter l) = var_of (fun s => psign p qs (int2 s)) l.
Proof.
  intros H. unfold variance_counts. rewrite expval_is_mean, var_cov, cov_eq by auto.
  rewrite (mean_ext (fun a => _ * _)%R (fun _ => 1%R)) by (intros a _; rewrite <- (sign_sq p qs (int2 a)); ring).
  rewrite mean_const by auto. ring.
Qed.
Lemma var_scal {A} k (f : A -> R) l : var_of (fun a => k * f a)%R l = (k ^ 2 * var_of f l)%R.
Proof.
  unfold var_of. rewrite <- (mean_scal (k ^ 2)). rewrite (mean_scal k f). apply mean_ext. intros; ring.
Qed.
Definition realterms (ts : list (pauli * R)) : obs := map (fun t => (fst t, RtoC (snd t))) ts.
Lemma csumo_real {A} (f : A -> option C) (g : A -> R) l : (forall a, In a l -> f a = Some (RtoC (g a))) -> csumo (map f l) = Some (RtoC (total_of g l)).
Proof.
  induction l as [|a l IH]; intros H; [reflexivity|]. cbn [map csumo fold_right]. rewrite H by now left.
  unfold csumo in IH. rewrite IH by (intros; apply H; now right). cbn. now rewrite RtoC_plus.
Qed.
(* The value the Estimator computes from the sampled strings l is the mean of what
   the shots contribute; the variance in the metadata falls short of the sample
   variance of these contributions by twice the covariances of the terms. *)
Theorem C75_gap results i b l ts : nth_error results i = Some (b, Counts l) -> l <> [] ->
  entry_value false results (Some i, realterms ts) = Some (RtoC (mean_of (contribution b ts) l)) /\
  entry_variance results (Some i, realterms ts) =
    Some (RtoC (var_of (contribution b ts) l - 2 * covariances (map (fun t s => snd t * psign (fst t) (support b) (int2 s))%R ts) l)).
Proof.
  intros Hr Hl. unfold entry_value, entry_variance. cbn [fst snd]. rewrite Hr. unfold realterms. rewrite !map_map. cbn [fst snd]. split.
  - rewrite (csumo_real _ (fun t => snd t * mean_of (fun s => psign (fst t) (support b) (int2 s)) l)%R).
    + do 2 f_equal. unfold contribution. clear Hr. induction ts as [|t ts IH].
      * cbn. now rewrite (mean_const 0%R l Hl).
      * change (snd t * mean_of (fun s => psign (fst t) (support b) (int2 s)) l + total_of (fun t => snd t * mean_of (fun s => psign (fst t) (support b) (int2 s)) l) ts =
          mean_of (fun s => snd t * psign (fst t) (support b) (int2 s) + total_of (fun t => snd t * psign (fst t) (support b) (int2 s)) ts) l)%R.
        now rewrite IH, mean_plus, mean_scal.
    + intros t _. cbn [option_map expval]. rewrite expval_is_mean. f_equal. rewrite <- RtoC_mult. f_equal. ring.
  - rewrite (csumo_real _ (fun t => var_of (fun s => snd t * psign (fst t) (support b) (int2 s))%R l)).
    + do 2 f_equal. unfold contribution.
      pose proof (var_sum (fun (t : pauli * R) s => (snd t * psign (fst t) (support b) (int2 s))%R) ts l Hl) as E. cbn beta in E. rewrite E. ring.
    + intros t _. f_equal. rewrite variance_is_var, var_scal by auto. rewrite <- !RtoC_mult. f_equal. ring.
Qed.
(* so it is right for a term measured alone, and for terms whose covariances cancel *)
Corollary C75_alone_partial results i b l p co : nth_error results i = Some (b, Counts l) -> l <> [] ->
  entry_variance results (Some i, realterms [(p, co)]) = Some (RtoC (var_of (contribution b [(p, co)]) l)).
Proof. intros Hr Hl. rewrite (Logic.proj2 (C75_gap results i b l _ Hr Hl)). do 2 f_equal. cbn. ring. Qed.
Corollary C75_iff results i b l ts : nth_error results i = Some (b, Counts l) -> l <> [] ->
  entry_variance results (Some i, realterms ts) = Some (RtoC (var_of (contribution b ts) l)) <->
  covariances (map (fun t s => snd t * psign (fst t) (support b) (int2 s))%R ts) l = 0%R.
Proof.
  intros Hr Hl. rewrite (Logic.proj2 (C75_gap results i b l _ Hr Hl)). split.
  - intros H. injection H as H. lra.
  - intros ->. do 2 f_equal. ring.
Qed.

(* ---- over the draws ---- *)
Lemma Fair_const {A} (t : tree A) k : Fair t -> Ex t (fun _ => k) = k.
Proof.
  induction t as [a| |p kk IH]; cbn; intros Ht; auto; [contradiction|]. destruct Ht as (Hp & H0 & H1).
  assert (E0 : (p * Ex (kk false) (fun _ => k) = p * k)%R).
  { destruct (Rle_lt_or_eq_dec _ _ (Logic.proj1 Hp)) as [Hl|<-]; [rewrite IH; auto|ring]. }
  assert (E1 : ((1 - p) * Ex (kk true) (fun _ => k) = (1 - p) * k)%R).
  { destruct (Rle_lt_or_eq_dec _ _ (Logic.proj2 Hp)) as [Hl|Hl]; [rewrite IH; auto|subst p; ring]. }
  rewrite E0, E1. ring.
Qed.
(* shots are independent repetitions of one shot *)
Lemma evaluate_shots eps c p req : (0 <= eps)%R -> circ_ok c -> validate_circuit req c = Some p ->
  exists shot, Fair shot /\ forall z, (0 < z)%Z -> evaluate eps c p (Some z) = bind (replicate (Z.to_nat z) shot) (fun l => Leaf (Counts l)).
Proof.
  intros He Hc Hv. pose proof Hc as (Hok & _ & _). destruct (stable_final_state p) eqn:Es.
  - destruct (shot_stable_dist eps c p req Hc Hv Es) as [Hx _].
    exists (shot_stable c p (phase (gphase c) (finalv (nq c) (data c) (basis 0)))). split.
    + unfold shot_stable. apply Fair_bind; [|intros l; exact Logic.I].
      apply Fair_measall; [intros l _; apply Nat.bits_0|]. rewrite marg_top.
      * unfold phase. rewrite norm2v_scaled, Cmod_phase. erewrite finalv_norm by eauto. rewrite norm_basis0. lra.
      * apply Nat.neq_0_lt_0, Nat.pow_nonzero. lia.
    + intros z Hz. unfold evaluate. rewrite Es, Hx. cbn [bind]. destruct (Z.eqb_spec z 0); [lia|]. reflexivity.
  - exists (shot_unstable eps c). split.
    + unfold shot_unstable. apply Fair_bind; [|intros ((a & b) & d); exact Logic.I]. eapply Fair_exec; eauto. apply norm_basis0.
    + intros z Hz. unfold evaluate. rewrite Es. destruct (Z.leb_spec z 0); [lia|]. reflexivity.
Qed.
Lemma Ex_sum {A} (t : tree A) g m : Fair t -> Ex (replicate m t) (total_of g) = (INR m * Ex t g)%R.
Proof.
  intros H. induction m as [|m IH]; [cbn; ring|]. cbn [replicate]. rewrite Ex_bind.
  rewrite (Ex_ext _ _ (fun a => (g a + INR m * Ex t g)%R)).
  - rewrite Ex_plus, Fair_const by auto. rewrite S_INR. ring.
  - intros a. rewrite Ex_bind. cbn [Ex]. rewrite (Ex_ext _ _ (fun l => (g a + total_of g l)%R)) by reflexivity.
    rewrite Ex_plus, (Fair_const _ _ (Fair_replicate t m H)), IH. reflexivity.
Qed.
Lemma Ex_sum2 {A} (t : tree A) g m : Fair t ->
  Ex (replicate m t) (fun l => total_of g l ^ 2)%R = (INR m * Ex t (fun a => g a ^ 2) + INR m * (INR m - 1) * Ex t g ^ 2)%R.
Proof.
  intros H. induction m as [|m IH]; [cbn; ring|]. cbn [replicate]. rewrite Ex_bind.
  set (E2 := Ex t (fun a => g a ^ 2)%R) in *. set (E1 := Ex t g) in *.
  rewrite (Ex_ext _ _ (fun a => (g a ^ 2 + (2 * (INR m * E1) * g a + (INR m * E2 + INR m * (INR m - 1) * E1 ^ 2)))%R)).
  - rewrite !Ex_plus, Ex_scal, !Fair_const by auto. fold E2 E1. rewrite S_INR. ring.
  - intros a. rewrite Ex_bind. cbn [Ex].
    rewrite (Ex_ext _ _ (fun l => (g a ^ 2 + (2 * g a * total_of g l + total_of g l ^ 2))%R)) by (intros l; cbn; unfold total_of; ring).
    rewrite !Ex_plus, Ex_scal, (Fair_const _ _ (Fair_replicate t m H)), IH, Ex_sum by auto. fold E1. ring.
Qed.
Lemma replicate_len {A} (t : tree A) m f : Fair t -> forall h, (forall l, length l = m -> f l = h l) -> Ex (replicate m t) f = Ex (replicate m t) h.
Proof.
  intros Ht. revert f. induction m as [|m IH]; intros f h H; cbn [replicate]; [cbn; now apply H|].
  rewrite !Ex_bind. apply Ex_ext. intros a. rewrite !Ex_bind. apply IH. intros l Hl. cbn. apply H. cbn. now rewrite Hl.
Qed.
(* expectation of a number computed from the samples of a job with z shots *)
Definition expect (eps : R) (c : circ) (p : cprop) (z : Z) (f : list (list bool) -> R) : R :=
  Ex (evaluate eps c p (Some z)) (fun d => match d with Counts l => f l | Probs _ => 0%R end).
Lemma var_moments {A} (g : A -> R) l m : length l = m -> 0 < m ->
  var_of g l = (/ INR m * total_of (fun a => g a ^ 2)%R l + - / INR m ^ 2 * total_of g l ^ 2)%R.
Proof.
  intros Hl Hm. assert (Hne : l <> []) by (destruct l; [cbn in Hl; lia|discriminate]).
  rewrite var_cov, cov_eq by auto. unfold mean_of. rewrite Hl.
  rewrite (total_ext (fun a => g a * g a)%R (fun a => g a ^ 2)%R) by (intros; ring). field. apply not_0_INR. lia.
Qed.
(* For a job with z shots: the expectation of the mean is that of one shot (mu), its
   squared error is the variance of one shot (s2) divided by z -- the standard error
   -- and the sample variance expects to be (1 - 1/z) s2. *)
Theorem C75_standard_error eps c p req z g : (0 <= eps)%R -> circ_ok c -> validate_circuit req c = Some p -> (0 < z)%Z ->
  let mu := expect eps c p 1 (mean_of g) in
  let s2 := (expect eps c p 1 (mean_of (fun s => g s ^ 2)%R) - mu ^ 2)%R in
  expect eps c p z (mean_of g) = mu /\
  expect eps c p z (fun l => (mean_of g l - mu) ^ 2)%R = (s2 / IZR z)%R /\
  expect eps c p z (var_of g) = ((1 - 1 / IZR z) * s2)%R.
Proof.
  intros He Hc Hv Hz mu s2. destruct (evaluate_shots eps c p req He Hc Hv) as (shot & Hf & Hev).
  assert (HE : forall z f, (0 < z)%Z -> expect eps c p z f = Ex (replicate (Z.to_nat z) shot) f).
  { intros z' f Hz'. unfold expect. rewrite Hev by auto. rewrite Ex_bind. reflexivity. }
  assert (H1 : forall h, expect eps c p 1 (mean_of h) = Ex shot h).
  { intros h. rewrite HE by lia. change (Z.to_nat 1) with 1. cbn [replicate]. rewrite Ex_bind. apply Ex_ext. intros a. cbn.
    unfold mean_of. cbn. field. }
  assert (Em : mu = Ex shot g) by apply H1. assert (Es : s2 = (Ex shot (fun s => g s ^ 2) - mu ^ 2)%R) by (unfold s2; now rewrite H1).
  set (m := Z.to_nat z) in *. assert (Hm : 0 < m) by (unfold m; lia). assert (Hi : IZR z = INR m) by (unfold m; rewrite INR_IZR_INZ; f_equal; lia).
  assert (Hm0 : INR m <> 0%R) by (apply not_0_INR; lia).
  rewrite !HE, Hi by auto. fold m. split; [|split].
  - rewrite (replicate_len shot m _ Hf (fun l => / INR m * total_of g l)%R) by (intros l Hl; unfold mean_of; rewrite Hl; unfold Rdiv; ring).
    rewrite Ex_scal, Ex_sum by auto. rewrite Em. field. auto.
  - rewrite (replicate_len shot m _ Hf (fun l => / INR m ^ 2 * total_of g l ^ 2 + ((- 2 * mu / INR m) * total_of g l + mu ^ 2))%R)
      by (intros l Hl; unfold mean_of; rewrite Hl; field; auto).
    rewrite !Ex_plus, !Ex_scal, Ex_sum2, Ex_sum by auto. rewrite (Fair_const _ _ (Fair_replicate shot m Hf)), Es, Em. field. auto.
  - rewrite (replicate_len shot m _ Hf _ (fun l Hl => var_moments g l m Hl Hm)).
    rewrite Ex_plus, !Ex_scal, Ex_sum2, Ex_sum by auto. rewrite Es, Em. field. auto.
Qed.

(* ---- the finding ---- *)
(* H on the first of two qubits; the observables Z0 - Z0 Z1 and Z0 + Z0 Z1, whose
   terms are measured together *)
Definition hc : circ := Circ 2 0 [I (BGate (G1 Hm [0])) None] 0%R.
Definition pZ0 : pauli := [(false, true); (false, false)].
Definition pZZ : pauli := [(false, true); (false, true)].
Definition bZZ : pauli := paulis2basis [pZ0; pZZ].
Lemma h2_basis i : i < 4 -> mv 2 (gate1 2 Hm 0 []) (basis 0) i = if i <? 2 then RtoC r2 else RtoC 0.
Proof.
  intros Hi. rewrite gate1_action by (cbn; lia).
  assert (Hs : @SQRT2 (RNum 0) = r2) by (rewrite SQRT2_n; reflexivity).
  assert (i = 0 \/ i = 1 \/ i = 2 \/ i = 3) as [->|[->|[->| ->]]] by lia; unfold Hm, Hmat, basis; cbn -[SQRT2 Cmult Cplus]; unfold cf_SQRT2_2, cf_mSQRT2_2;
    rewrite ?Hs; apply injective_projections; cbn -[r2]; ring.
Qed.
Lemma hcm_ok : circ_ok (add_meas bZZ hc) /\ validate_circuit true (add_meas bZZ hc) = Some (Prop_ true [(0, 0); (1, 1)]).
Proof.
  split; [|reflexivity]. split; [|split].
  - intros x Hx. cbn in Hx. destruct Hx as [<-|[<-|[<-|[]]]]; (split; [|exact Logic.I]); [|cbn; lia|cbn; lia].
    cbn. apply gate1_unitary; [lia|intros x []|apply Hm_unitary].
  - intros x g Hx E. cbn in Hx. destruct Hx as [<-|[<-|[<-|[]]]]; cbn in E; try discriminate; injection E as <-; cbn; discriminate.
  - intros x q c Hx E. cbn in Hx. destruct Hx as [<-|[<-|[<-|[]]]]; cbn in E; try discriminate; reflexivity.
Qed.
Lemma hcm_run eps : (0 <= eps)%R -> run (evaluate eps (add_meas bZZ hc) (Prop_ true [(0, 0); (1, 1)]) (Some 2%Z)) [0%R; 0%R; 0%R; (1 / 2)%R] =
  Some (Some (Counts [[false; false]; [false; true]]), []).
Proof.
  intros He. destruct hcm_ok as [Hok Hv]. destruct (shot_stable_dist eps _ _ true Hok Hv eq_refl) as [Hx _].
  set (w := phase (gphase (add_meas bZZ hc)) (finalv (nq (add_meas bZZ hc)) (data (add_meas bZZ hc)) (basis 0))).
  assert (Hw : forall b, b < 4 -> (Cmod (w b) ^ 2 = if b <? 2 then / 2 else 0)%R).
  { intros b Hb. unfold w, phase, scaled. rewrite Cmod_mult, Cmod_phase, Rmult_1_l.
    change (finalv _ _ _ b) with (mv 2 (gate1 2 Hm 0 []) (basis 0) b). rewrite h2_basis by lia.
    destruct (b <? 2); [apply Cmod_r2|rewrite Cmod_0; ring]. }
  assert (M00 : marg w 0 0 = (/ 2)%R) by (rewrite marg_0, Hw by lia; reflexivity).
  assert (M01 : marg w 0 1 = (/ 2)%R) by (rewrite marg_0, Hw by lia; reflexivity).
  assert (M02 : marg w 0 2 = 0%R) by (rewrite marg_0, Hw by lia; reflexivity).
  assert (M03 : marg w 0 3 = 0%R) by (rewrite marg_0, Hw by lia; reflexivity).
  assert (M10 : marg w 1 0 = 1%R) by (rewrite marg_split; change (Nat.clearbit 0 0) with 0; change (Nat.setbit 0 0) with 1; rewrite M00, M01; lra).
  assert (M12 : marg w 1 2 = 0%R) by (rewrite marg_split; change (Nat.clearbit 2 0) with 2; change (Nat.setbit 2 0) with 3; rewrite M02, M03; lra).
  assert (M20 : marg w 2 0 = 1%R) by (rewrite marg_split; change (Nat.clearbit 0 1) with 0; change (Nat.setbit 0 1) with 2; rewrite M10, M12; lra).
  assert (C1 : cond0 w 1 0 = 1%R) by (unfold cond0; change (Nat.clearbit 0 1) with 0; rewrite M10, M20; field).
  assert (C0 : cond0 w 0 0 = (/ 2)%R) by (unfold cond0; change (Nat.clearbit 0 0) with 0; rewrite M00, M10; field).
  assert (Hshot : forall th r, (th < 1)%R -> run (shot_stable (add_meas bZZ hc) (Prop_ true [(0, 0); (1, 1)]) w) (0%R :: th :: r) =
    Some (Some [false; if Rlt_dec th (/ 2) then false else true], r)).
  { intros th r Hth. unfold shot_stable. rewrite run_bind. change (nq (add_meas bZZ hc)) with 2. cbn [measall run]. rewrite C1.
    destruct (Rlt_dec 0 1) as [_|]; [|lra]. cbn [measall run]. rewrite C0. destruct (Rlt_dec th (/ 2)); reflexivity. }
  unfold evaluate. cbn [stable_final_state]. rewrite Hx. cbn [bind Z.eqb]. fold w. change (Z.to_nat 2) with 2. cbn [replicate].
  rewrite !run_bind. rewrite (Hshot 0%R) by lra. rewrite !run_bind. rewrite (Hshot (1 / 2)%R) by lra.
  destruct (Rlt_dec 0 (/ 2)); [|lra]. destruct (Rlt_dec (1 / 2) (/ 2)); [lra|]. reflexivity.
Qed.
(* FINDING: the terms of Z0 - Z0 Z1 always agree on this state, so every shot
   contributes 0 and the value 0 has no error; the metadata reports variance 2.  The
   contributions to Z0 + Z0 Z1 are 2 and -2, of variance 4; again 2 is reported. *)
Theorem C75_refuted eps : (0 <= eps)%R -> exists l, 
  circ_ok (add_meas bZZ hc) /\ validate_circuit true (add_meas bZZ hc) = Some (Prop_ true [(0, 0); (1, 1)]) /\
  run (evaluate eps (add_meas bZZ hc) (Prop_ true [(0, 0); (1, 1)]) (Some 2%Z)) [0%R; 0%R; 0%R; (1 / 2)%R] = Some (Some (Counts l), []) /\
  let results := [(bZZ, Counts l)] in
  let minus := [(pZ0, 1%R); (pZZ, (-1)%R)] in
  let plus := [(pZ0, 1%R); (pZZ, 1%R)] in
  ((forall s, In s l -> contribution bZZ minus s = 0%R) /\ post_value false results [(Some 0, realterms minus)] = Some (RtoC 0) /\
   var_of (contribution bZZ minus) l = 0%R /\ post_variance results [(Some 0, realterms minus)] = Some (RtoC 2)) /\
  (map (contribution bZZ plus) l = [2%R; (-2)%R] /\ var_of (contribution bZZ plus) l = 4%R /\
   post_variance results [(Some 0, realterms plus)] = Some (RtoC 2)).
Proof.
  intros He. exists [[false; false]; [false; true]]. destruct hcm_ok as [Hok Hv]. split; [exact Hok|]. split; [exact Hv|]. split; [now apply hcm_run|].
  intros results minus plus.
  set (l := [[false; false]; [false; true]]) in *. assert (Hl : l <> []) by discriminate.
  assert (S : psign pZ0 (support bZZ) (int2 [false; false]) = 1%R /\ psign pZ0 (support bZZ) (int2 [false; true]) = (-1)%R /\
              psign pZZ (support bZZ) (int2 [false; false]) = 1%R /\ psign pZZ (support bZZ) (int2 [false; true]) = (-1)%R) by (repeat split; reflexivity).
  destruct S as (S1 & S2 & S3 & S4).
  assert (Km : contribution bZZ minus [false; false] = 0%R /\ contribution bZZ minus [false; true] = 0%R).
  { unfold contribution, minus, total_of. cbn [fold_right fst snd]. rewrite S1, S2, S3, S4. split; ring. }
  assert (Kp : contribution bZZ plus [false; false] = 2%R /\ contribution bZZ plus [false; true] = (-2)%R).
  { unfold contribution, plus, total_of. cbn [fold_right fst snd]. rewrite S1, S2, S3, S4. split; ring. }
  destruct Km as [Km1 Km2], Kp as [Kp1 Kp2].
  assert (V : forall p, p = pZ0 \/ p = pZZ -> variance_counts p (support bZZ) (counter l) = 1%R).
  { intros p Hp. unfold variance_counts. rewrite expval_is_mean. unfold mean_of, total_of, l. cbn [fold_right length].
    destruct Hp as [->| ->]; rewrite ?S1, ?S2, ?S3, ?S4; cbn [INR]; field. }
  assert (PV : forall a b, post_variance results [(Some 0, realterms [(pZ0, a); (pZZ, b)])] = Some (RtoC (a ^ 2 + b ^ 2))).
  { intros a b. unfold post_variance, entry_variance, realterms, csumo. cbn [map fold_right fst snd nth_error results].
    rewrite !V by auto. f_equal. apply injective_projections; cbn; ring. }
  split.
  - split; [intros s [<-|[<-|[]]]; auto|]. split.
    + unfold post_value. cbn [map csumo fold_right]. rewrite (Logic.proj1 (C75_gap results 0 bZZ l minus eq_refl Hl)).
      replace (mean_of (contribution bZZ minus) l) with 0%R.
      * f_equal. apply injective_projections; cbn; ring.
      * unfold mean_of, total_of, l. cbn [fold_right length INR]. rewrite Km1, Km2. field.
    + split.
      * unfold var_of, mean_of, total_of, l. cbn [fold_right length INR]. rewrite Km1, Km2. field.
      * unfold minus. rewrite PV. do 2 f_equal. ring.
  - split; [unfold l; cbn [map]; now rewrite Kp1, Kp2|]. split.
    + unfold var_of, mean_of, total_of, l. cbn [fold_right length INR]. rewrite Kp1, Kp2. field.
    + unfold plus. rewrite PV. do 2 f_equal. ring.
Qed.
(* Without grouping every entry is an identity or one measured Pauli: the metadata
   is the sum, over the experiments, of the sample variances of their shots. *)
Definition own_variance (results : list (pauli * rdata)) (e : option nat * (pauli * R)) : R :=
  match fst e with
  | None => 0%R
  | Some i => match nth_error results i with Some (b, Counts l) => var_of (contribution b [snd e]) l | _ => 0%R end
  end.
Theorem C75_ungrouped_partial results es :
  (forall i t, In (Some i, t) es -> exists b l, nth_error results i = Some (b, Counts l) /\ l <> []) ->
  post_variance results (map (fun e => (fst e, realterms [snd e])) es) = Some (RtoC (total_of (own_variance results) es)).
Proof.
  intros H. unfold post_variance. rewrite map_map. apply csumo_real. intros [[i|] [p co]] Hi; unfold own_variance; cbn [fst snd].
  - destruct (H i (p, co) Hi) as (b & l & Hr & Hl). rewrite Hr. now apply C75_alone_partial.
  - cbn. f_equal. apply injective_projections; cbn; ring.
Qed.
