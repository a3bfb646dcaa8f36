(* FpEst.v -- property C76: the Estimator's expectation values when the engine computes
   in rounded arithmetic.  C43 says that with exact arithmetic the value of a Pauli
   expects to be <psi|P|psi>; here the circuit of one experiment (circuit, change of
   basis, measurements: Estimator.add_meas) is run and sampled by the engine with
   numbers that are rounded (frun, fsamples of FpBackS.v; C70). *)
From Coq Require Import Reals Lra Psatz ZArith QArith Qreals Bool List Lia Arith.
From Coquelicot Require Import Complex.
From Flocq Require Import Core.
From Verif Require Backend BackSpec BackendP BackendQ BackendX BackLink Estimator PauliP EstimatorP SeedsP EstVar EstVarS EstVarP.
From Verif Require Import Num State DD Gates GC Measure Api RNum Wf Sums Err Inv Wp Make Add MulV GateP StateP Kron Spec SpecP Readout
  MeasAllP ApplyP ApiP Obs Props1 Props2 Circuit GateMat SafeF FpA FpE FpW FpM FpAdd FpMul FpGate FpState FpRead FpMeas FpOne FpGC FpKron FpCirc FpProp FpMeasP FpOneP
  FpLin FpF FpX FpQ FpMeasX FpOneX FpBack FpBackS FpBackX.
Import List ListNotations.
Open Scope R_scope.

Section Est.
Context {NO : NumOps} {AC : Accur NO} {CF : Cfg}.
Notation tree := Backend.tree.
Notation Ex := BackSpec.Ex.
Notation Leaf := Backend.Leaf.
Notation total_of := EstVarS.total_of.
Notation mean_of := EstVarS.mean_of.

(* ---- sums over the samples ---- *)
Lemma fsamples_ext n ncl m k : forall acc c e Tr f g, fsamples n ncl m k acc c e Tr ->
  (forall l, length l = (k + length acc)%nat -> f l = g l) -> Ex Tr f = Ex Tr g.
Proof.
  induction k as [|k IH]; intros acc c e Tr f g HT Hfg; cbn [fsamples] in HT.
  - subst Tr. cbn. apply Hfg. now rewrite rev_length.
  - destruct HT as (s & hs & x & T & s' & sub & Hms & HD & -> & Hsub). pose proof (Logic.proj1 HD) as HT.
    rewrite !fsamples_Ex by exact HT. apply rsum_ext'. intros b Hb. f_equal. eapply IH; [now apply Hsub|]. intros l Hl. apply Hfg. rewrite Hl. cbn [length]. lia.
Qed.
Lemma weighted_const n T a : looks_up T -> rsum (2 ^ n) (fun b => weight n T b * a)%R = a.
Proof.
  intros HT. rewrite (rsum_ext' _ _ (fun b => a * weight n T b)%R) by (intros; ring). rewrite rsum_scale, weight_sum by exact HT. ring.
Qed.
(* the error of the mean does not grow with the number of shots: each shot is drawn
   from nearly the right distribution, whatever the shots before *)
Theorem fsamples_total n ncl m w d h : norm2v n w = 1 -> (0 <= d < 1) -> (forall s, Rabs (h s) <= 1) -> forall k acc c e Tr,
  freach c -> In (H KV n e) (snd c) -> (dist n (amps (fst c) n e) w <= d) -> fsamples n ncl m k acc c e Tr ->
  Rabs (Ex Tr (total_of h) - (total_of h (rev acc) + INR k * Ex (ishot n ncl m w) h)) <= INR k * (INR (2 ^ n) * (esamp n + 4 * d)).
Proof.
  intros Hw Hd Hh. set (err := (INR (2 ^ n) * (esamp n + 4 * d))). set (mu := Ex (ishot n ncl m w) h). induction k as [|k IH]; intros acc c e Tr Hr Hi Hdi HT; cbn [fsamples] in HT.
  - subst Tr. cbn. replace (_ - _) with 0 by ring. rewrite Rabs_R0. lra.
  - destruct HT as (s & hs & x & T & s' & sub & Hms & HD & -> & Hsub). destruct (fmoves_ok _ _ _ _ _ Hms Hr Hi) as (A1 & A2 & A3). cbn [fst snd] in *.
    rewrite (dist_veq n _ (amps s n x) w) in Hdi by (intros i Hl; symmetry; now apply A3).
    destruct (fdraw_ok s hs n x w d T s' A1 A2 Hw Hdi (Logic.proj2 Hd) HD) as (B1 & B2 & B3). pose proof (Logic.proj1 HD) as HT.
    rewrite fsamples_Ex by exact HT. set (sb := fun b => Backend.assemble ncl m (bitstring n b)).
    assert (Hta : forall s0 l, total_of h (rev (s0 :: l)) = total_of h (rev l) + h s0).
    { intros s0 l. cbn [rev]. induction (rev l) as [|y l' IHl]; cbn; [ring|]. unfold EstVarS.total_of in IHl. rewrite IHl. ring. }
    assert (Hmu : mu = rsum (2 ^ n) (fun b => Cmod (w b) ^ 2 * h (sb b))) by (unfold mu; now rewrite ishot_Ex).
    set (base := total_of h (rev acc) + INR k * mu).
    rewrite (rsum_ext' _ _ (fun b => (weight n T b * h (sb b) + weight n T b * base) + weight n T b * (Ex (sub b) (total_of h) - (base + h (sb b))))) by (intros; ring).
    rewrite !rsum_plus, weighted_const by exact HT.
    assert (E1 : Rabs (rsum (2 ^ n) (fun b => weight n T b * h (sb b)) - mu) <= err).
    { rewrite Hmu. eapply Rle_trans; [apply (rsum_diff (2 ^ n) _ _ (fun _ => esamp n + 4 * d))|rewrite rsum_const; right; reflexivity].
      intros b Hb. rewrite <- Rmult_minus_distr_r, Rabs_mult. specialize (B1 b Hb). specialize (Hh (sb b)).
      eapply Rle_trans; [|exact B1]. rewrite <- (Rmult_1_r (Rabs (weight n T b - _))) at 2. apply Rmult_le_compat_l; [apply Rabs_pos|exact Hh]. }
    assert (E2 : Rabs (rsum (2 ^ n) (fun b => weight n T b * (Ex (sub b) (total_of h) - (base + h (sb b))))) <= INR k * err).
    { rewrite <- (Rminus_0_r (rsum _ _)). replace 0 with (rsum (2 ^ n) (fun _ => 0)) at 1 by (rewrite rsum_const; ring).
      eapply Rle_trans; [apply (rsum_diff (2 ^ n) _ _ (fun b => weight n T b * (INR k * err)))|rewrite weighted_const by exact HT; right; reflexivity].
      intros b Hb. rewrite Rminus_0_r, Rabs_mult, (Rabs_pos_eq _ (weight_pos n T b HT)). apply Rmult_le_compat_l; [now apply weight_pos|].
      assert (Hd' : dist n (amps s' n x) w <= d) by (rewrite B3; exact Hdi).
      pose proof (IH (sb b :: acc) _ _ _ B2 (or_introl eq_refl) Hd' (Hsub b Hb)) as Hx. rewrite Hta in Hx.
      replace (base + h (sb b)) with (total_of h (rev acc) + h (sb b) + INR k * mu) by (unfold base; ring). exact Hx. }
    set (X := rsum (2 ^ n) (fun b => weight n T b * h (sb b))) in *. set (Y := rsum (2 ^ n) (fun b => weight n T b * (Ex (sub b) (total_of h) - (base + h (sb b))))) in *. rewrite S_INR.
    replace (X + base + Y - (total_of h (rev acc) + (INR k + 1) * mu)) with ((X - mu) + Y) by (unfold base; ring).
    eapply Rle_trans; [apply Rabs_triang|]. lra.
Qed.

(* ---- the circuit of an experiment ---- *)
Lemma meas_data_ops b qs : forall j x, In x (Estimator.meas_data b j qs) ->
  Backend.cnd x = None /\ ((exists q k, Backend.op x = Backend.BMeasure q k) \/
   exists q, In q qs /\ (Backend.op x = Backend.BGate (Backend.G1 Estimator.gSdg [q]) \/ Backend.op x = Backend.BGate (Backend.G1 Estimator.gH [q]))).
Proof.
  induction qs as [|q qs IH]; intros j x Hx; [destruct Hx|]. cbn [Estimator.meas_data] in Hx. apply in_app_or in Hx as [Hx|[<-|Hx]].
  - assert (Hx' : x = Backend.I (Backend.BGate (Backend.G1 Estimator.gSdg [q])) None \/ x = Backend.I (Backend.BGate (Backend.G1 Estimator.gH [q])) None).
    { destruct (Estimator.px b q), (Estimator.pz b q); cbn in Hx; intuition. }
    destruct Hx' as [->| ->]; (split; [reflexivity|right; exists q; split; [now left|cbn; auto]]).
  - split; [reflexivity|]. left. cbn. eauto.
  - destruct (IH _ _ Hx) as (A1 & [A2|(q' & A2 & A3)]); (split; [exact A1|]); [now left|]. right. exists q'. split; [now right|exact A3].
Qed.
Lemma support_lt b n q : length b = n -> In q (Estimator.support b) -> (q < n)%nat.
Proof. intros Hb Hq. apply EstimatorP.support_In in Hq. lia. Qed.
Lemma add_meas_circuit b c : circuit_ok c -> EstimatorP.pure (Backend.nq c) (Backend.data c) -> length b = Backend.nq c -> circuit_ok (Estimator.add_meas b c).
Proof.
  intros (Hn & Hi & Hlo & Hu) Hp Hb. set (n := Backend.nq c) in *. assert (Hq : forall q, In q (Estimator.support b) -> (q < n)%nat) by (intros q Hq; now apply (support_lt b n)).
  split; [exact Hn|]. unfold Estimator.add_meas. cbn [Backend.nq Backend.nc Backend.data]. fold n. split; [|split].
  - intros x Hx. apply in_app_or in Hx as [Hx|Hx].
    + destruct (Hp x Hx) as [E Ho]. rewrite E. split; [|exact Logic.I]. unfold BackSpec.supported. destruct (Backend.op x); auto; contradiction.
    + apply (EstimatorP.meas_data_supported n _ b (Estimator.support b) 0); [exact Hq|lia|exact Hx].
  - intros x g Hx Hg. apply in_app_or in Hx as [Hx|Hx]; [now apply (Hlo x)|]. destruct (meas_data_ops _ _ _ _ Hx) as (_ & [(q & k & Hy)|(q & Hin & Hy)]); [congruence|].
    assert (Hone : forall G, BackLink.gate_lib n (Backend.G1 G [q])).
    { intros G. cbn. split; [lia|]. split; [constructor; [intros []|constructor]|]. intros q' [<-|[]]. now apply Hq. }
    destruct Hy as [Hy|Hy]; rewrite Hy in Hg; injection Hg as <-; apply Hone.
  - intros x g Hx Hg. apply in_app_or in Hx as [Hx|Hx]; [now apply (Hu x)|]. destruct (meas_data_ops _ _ _ _ Hx) as (_ & [(q & k & Hy)|(q & Hin & Hy)]); [congruence|].
    destruct Hy as [Hy|Hy]; rewrite Hy in Hg; injection Hg as <-; cbn [gate_unit]; [unfold Estimator.gSdg; apply (C23_constant_gates_unitary 0)|exact (Logic.proj1 (Logic.proj2 (C23_constant_gates_unitary 0)))].
Qed.
Definition ex_prop (b : Estimator.pauli) : Backend.cprop := Backend.Prop_ true (combine (seq 0 (length (Estimator.support b))) (Estimator.support b)).
Lemma experiment_valid b c : EstimatorP.pure (Backend.nq c) (Backend.data c) -> length b = Backend.nq c -> (Backend.nq c <= 100)%nat -> Estimator.support b <> [] ->
  Backend.validate_circuit true (Estimator.add_meas b c) = Some (ex_prop b).
Proof.
  intros Hp Hb Hn Hs. set (n := Backend.nq c) in *. set (qs := Estimator.support b) in *.
  assert (Hq : forall q, In q qs -> (q < n)%nat) by (intros q Hq; now apply (support_lt b n)).
  assert (Hst : BackendP.Stable [] (Backend.data c ++ Estimator.meas_data b 0 qs)).
  { apply (EstimatorP.stable_pure n); auto. apply EstimatorP.stable_meas; [apply EstimatorP.support_NoDup|]. intros q _ []. }
  assert (Hni : EstimatorP.no_init (Backend.data c ++ Estimator.meas_data b 0 qs)).
  { intros x l Hx. apply in_app_or in Hx as [Hx|Hx]; [|eapply EstimatorP.no_init_meas; eauto]. destruct (Hp x Hx) as [_ Ho]. intros E. rewrite E in Ho. contradiction. }
  destruct (EstimatorP.classify_forward n (Backend.data c ++ Estimator.meas_data b 0 qs) 0 [] [] Hst Hni) as (me & Hcl & _ & Hme).
  assert (Hlen : (0 < length me)%nat).
  { apply Hme. destruct qs as [|q r] eqn:E; [contradiction|]. destruct (EstimatorP.has_measure b 0 q r) as (x & a & k & Hx & Ex_). exists x, a, k. split; auto. apply in_or_app. now right. }
  assert (Hd : BackendP.mdict (Backend.data c ++ Estimator.meas_data b 0 qs) [] = combine (seq 0 (length qs)) qs).
  { rewrite EstimatorP.mdict_app, (EstimatorP.mdict_pure n (Backend.data c)) by auto. rewrite EstimatorP.mdict_meas; [reflexivity|]. intros x []. }
  unfold Backend.validate_circuit. cbn [Backend.nq Estimator.add_meas Backend.data]. fold qs n. unfold Backend.max_qubits. destruct (Nat.ltb_spec 100 n) as [h|_]; [lia|]. rewrite Hcl.
  rewrite (Logic.proj2 (Nat.eqb_neq (length me) 0)) by lia. cbn [andb]. now rewrite Hd.
Qed.
Lemma add_meas_sampled b c : circuit_ok c -> EstimatorP.pure (Backend.nq c) (Backend.data c) -> length b = Backend.nq c -> Estimator.support b <> [] ->
  sampled_ok (Estimator.add_meas b c) (ex_prop b) true.
Proof.
  intros Hc Hp Hb Hs. assert (Hn : (Backend.nq c <= 100)%nat) by (destruct Hc as ((_ & Hn) & _); unfold NQUBITS in Hn; lia). pose proof (add_meas_circuit b c Hc Hp Hb) as Hm. split; [exact Hm|]. split; [|split; [now apply experiment_valid|reflexivity]].
  destruct Hm as (_ & Hi & Hlo & _). split; [exact Hi|]. split.
  - intros x g Hx Hg. specialize (Hlo x g Hx Hg). destruct g as [G qs|G qs|G qs|G qs]; cbn in *; try contradiction; destruct Hlo as (A & _); [destruct qs; [cbn in A; lia|discriminate]|exact A].
  - intros x q k Hx Ho. cbn [Estimator.add_meas Backend.data] in Hx. apply in_app_or in Hx as [Hx|Hx]; [now apply (Hp x Hx)|now apply (meas_data_ops _ _ _ _ Hx)].
Qed.

(* ---- one shot, with exact arithmetic ---- *)
Definition shot_sign (p b : Estimator.pauli) (s : list bool) : R := Estimator.psign p (Estimator.support b) (Estimator.int2 s).
Lemma shot_sign1 p b s : Rabs (shot_sign p b s) = 1.
Proof. unfold shot_sign, Estimator.psign. destruct (_ =? 1)%nat; [rewrite Rabs_left; lra|apply Rabs_R1]. Qed.
Section Job.
Context (gd : R) (c : Backend.circ) (b : Estimator.pauli).
Let n := Backend.nq c.
Let m := Estimator.add_meas b c.
Context (Hc : circuit_ok c) (Hp : EstimatorP.pure n (Backend.data c)) (Hb : length b = n) (Hs : Estimator.support b <> []).
Lemma one_shot p : PauliP.measured_by n b p ->
  RtoC (Ex (ishot n (Backend.nc m) (Backend.clbit_final_values (ex_prop b)) (finalw m)) (shot_sign p b)) = PauliP.pauli_expect n (BackendP.finalv n (Backend.data c) (basis 0)) p.
Proof.
  intros Hm. destruct (add_meas_sampled b c Hc Hp Hb Hs) as (_ & Hco & Hv & Hst). assert (Hn : (n <= 100)%nat) by (destruct Hc as ((_ & Hn) & _); unfold NQUBITS in Hn; fold n in Hn; lia).
  destruct (EstimatorP.experiment false 0 c b (Some 1%Z) Hp Hb Hn Hs) as (pr & Hv' & _ & _ & He); [exists 1%Z; split; [reflexivity|lia]|].
  assert (pr = ex_prop b) as -> by congruence. specialize (He p Hm ltac:(discriminate)). fold n in He. rewrite <- He. f_equal.
  destruct (BackendP.shot_stable_dist 0 (Estimator.add_meas b c) (ex_prop b) true Hco Hv Hst) as (Hex & _).
  unfold Backend.evaluate. rewrite Hst, Hex. cbn [Backend.bind Z.eqb]. change (Z.to_nat 1) with 1%nat. cbn [Backend.replicate].
  rewrite !BackendP.Ex_bind. apply BackendP.Ex_ext. intros s. rewrite !BackendP.Ex_bind. cbn [BackSpec.Ex EstimatorP.expval_of].
  rewrite EstVarP.expval_is_mean. unfold EstVarS.mean_of, EstVarS.total_of. cbn. unfold shot_sign. field.
Qed.
(* ---- one experiment with rounded arithmetic ---- *)
Context (z : Z) (Hz : (0 < z)%Z) (Hgd : 0 <= gd).
Let k := length (gops (Backend.data m)).
Context (Hec : ecirc n gd k <= 1 / 10) (Hej : ejob n gd k < 1).
(* the circuit is run and sampled z times; T is the distribution of the results *)
Definition experiment (T : tree (list (list bool))) : Prop :=
  exists cfg e, frun gd m cfg e /\ fsamples n (Backend.nc m) (Backend.clbit_final_values (ex_prop b)) (Z.to_nat z) [] cfg e T.
Definition value (p : Estimator.pauli) (l : list (list bool)) : R := Estimator.expval_counts p (Estimator.support b) (Backend.counter l).
Theorem C76_value T p : experiment T -> PauliP.measured_by n b p ->
  Cmod (Cminus (RtoC (Ex T (value p))) (PauliP.pauli_expect n (BackendP.finalv n (Backend.data c) (basis 0)) p)) <= esampled n gd k.
Proof.
  intros (cfg & e & Hrun & HT) Hm. destruct (add_meas_sampled b c Hc Hp Hb Hs) as (Hmc & Hco & _ & _). rewrite <- (one_shot p Hm).
  destruct (frun_ok gd m cfg e Hmc Hgd Hec Hrun) as (Hr & Hin & Hd). change (Backend.nq m) with n in *. fold k in Hd.
  assert (Hej0 : 0 <= ejob n gd k < 1) by (split; [eapply Rle_trans; [|exact Hd]; apply sqrt_pos|exact Hej]).
  pose proof (finalw_norm m Hco) as Hw. change (Backend.nq m) with n in Hw.
  pose proof (fsamples_total n _ _ (finalw m) _ (shot_sign p b) Hw Hej0 (fun s => Req_le _ _ (shot_sign1 p b s)) (Z.to_nat z) [] cfg e T Hr Hin Hd HT) as Hx.
  assert (Hz0 : 0 < INR (Z.to_nat z)) by (apply lt_0_INR; lia).
  assert (HE : Ex T (value p) = / INR (Z.to_nat z) * Ex T (total_of (shot_sign p b))).
  { rewrite <- BackendP.Ex_scal. eapply fsamples_ext; [exact HT|]. intros l Hl. unfold value. rewrite EstVarP.expval_is_mean. unfold EstVarS.mean_of. rewrite Hl. cbn [length]. rewrite Nat.add_0_r.
    unfold Rdiv. rewrite Rmult_comm. reflexivity. }
  rewrite HE. set (mu := Ex (ishot _ _ _ _) _) in *. cbn [rev] in Hx. cbn [EstVarS.total_of fold_right] in Hx.
  rewrite <- RtoC_minus, Cmod_R. replace (/ INR (Z.to_nat z) * Ex T (total_of (shot_sign p b)) - mu) with (/ INR (Z.to_nat z) * (Ex T (total_of (shot_sign p b)) - (0 + INR (Z.to_nat z) * mu))) by (field; lra).
  rewrite Rabs_mult, Rabs_pos_eq by (apply Rlt_le, Rinv_0_lt_compat; exact Hz0).
  apply (Rmult_le_reg_l (INR (Z.to_nat z))); [exact Hz0|]. rewrite <- Rmult_assoc, Rinv_r, Rmult_1_l by lra. exact Hx.
Qed.
(* the chance that the value is off by delta or more: Chebyshev's bound for independent
   shots with exact arithmetic, and the error of the arithmetic once per shot *)
Lemma Ex_mono {A} (t : tree A) f g : SeedsP.Fair t -> (forall a, f a <= g a) -> Ex t f <= Ex t g.
Proof.
  intros Ht Hfg. induction t as [a| |q kk IH]; cbn in *; [apply Hfg|lra|]. destruct Ht as (Hq & H0 & H1).
  assert (A0 : q * Ex (kk false) f <= q * Ex (kk false) g).
  { destruct (Rle_lt_or_eq_dec 0 q (Logic.proj1 Hq)) as [Hl|<-]; [apply Rmult_le_compat_l; [lra|now apply IH, H0]|lra]. }
  assert (A1 : (1 - q) * Ex (kk true) f <= (1 - q) * Ex (kk true) g).
  { destruct (Rle_lt_or_eq_dec q 1 (Logic.proj2 Hq)) as [Hl| ->]; [apply Rmult_le_compat_l; [lra|now apply IH, H1]|lra]. }
  lra.
Qed.
Theorem C76_concentrates T p delta : experiment T -> PauliP.measured_by n b p -> 0 < delta ->
  let mu := fst (PauliP.pauli_expect n (BackendP.finalv n (Backend.data c) (basis 0)) p) in
  chance T (fun l => if Rle_dec delta (Rabs (value p l - mu)) then true else false) <= (1 - mu ^ 2) / (IZR z * delta ^ 2) + IZR z * esampled n gd k.
Proof.
  intros (cfg & e & Hrun & HT) Hm Hde mu. pose proof (add_meas_sampled b c Hc Hp Hb Hs) as Hso. pose proof Hso as (Hmc & Hco & Hv & Hst).
  destruct (C70_sampled gd 0 m (ex_prop b) true z cfg e T Hso Hz Hgd (Rle_refl 0) Hec Hej Hrun HT) as (Hch & _).
  set (Pd := fun l => if Rle_dec delta (Rabs (value p l - mu)) then true else false). specialize (Hch Pd). change (Backend.nq m) with n in Hch. fold k in Hch.
  assert (Hid : chance (Backend.evaluate 0 m (ex_prop b) (Some z)) (counted Pd) <= (1 - mu ^ 2) / (IZR z * delta ^ 2)).
  2:{ apply Rabs_le_between in Hch || idtac. unfold Rabs in Hch. destruct (Rcase_abs _); lra. }
  set (g := shot_sign p b).
  destruct (EstVarP.C75_standard_error 0 m (ex_prop b) true z g (Rle_refl 0) Hco Hv Hz) as (_ & Hvar & _).
  assert (Hmu : EstVarP.expect 0 m (ex_prop b) 1 (mean_of g) = mu).
  { unfold mu. rewrite <- (one_shot p Hm). cbn [fst RtoC].
    destruct (BackendP.shot_stable_dist 0 m (ex_prop b) true Hco Hv Hst) as (Hex & _). unfold EstVarP.expect, Backend.evaluate. rewrite Hst, Hex. cbn [Backend.bind Z.eqb]. change (Z.to_nat 1) with 1%nat. cbn [Backend.replicate].
    rewrite !BackendP.Ex_bind. apply BackendP.Ex_ext. intros s. rewrite !BackendP.Ex_bind. cbn. unfold EstVarS.mean_of, EstVarS.total_of. cbn. fold g. field. }
  assert (Hsq : EstVarP.expect 0 m (ex_prop b) 1 (mean_of (fun s => g s ^ 2)) = 1).
  { destruct (EstVarP.evaluate_shots 0 m (ex_prop b) true (Rle_refl 0) Hco Hv) as (shot & Hf & Hev). unfold EstVarP.expect. rewrite Hev by lia. change (Z.to_nat 1) with 1%nat. cbn [Backend.replicate].
    rewrite !BackendP.Ex_bind. rewrite (BackendP.Ex_ext _ _ (fun _ => 1)); [now apply EstVarP.Fair_const|]. intros s. rewrite !BackendP.Ex_bind. cbn. unfold EstVarS.mean_of, EstVarS.total_of. cbn.
    assert (g s * (g s * 1) = 1) as ->; [|field]. pose proof (shot_sign1 p b s) as Ha. fold g in Ha. unfold Rabs in Ha. destruct (Rcase_abs _); [replace (g s) with (-1) by lra|rewrite Ha]; ring. }
  rewrite Hmu, Hsq in Hvar.
  apply Rle_trans with (EstVarP.expect 0 m (ex_prop b) z (fun l => / delta ^ 2 * (mean_of g l - mu) ^ 2)).
  - unfold chance, EstVarP.expect. destruct (EstVarP.evaluate_shots 0 m (ex_prop b) true (Rle_refl 0) Hco Hv) as (shot & Hf & Hev). rewrite Hev by exact Hz. rewrite !BackendP.Ex_bind.
    apply Ex_mono; [now apply SeedsP.Fair_replicate|]. intros l. cbn [BackSpec.Ex counted]. unfold Pd, value. rewrite EstVarP.expval_is_mean. change (fun s => Estimator.psign p (Estimator.support b) (Estimator.int2 s)) with g. set (x := mean_of g l - mu).
    assert (Hd2 : 0 < delta ^ 2) by (apply pow_lt; exact Hde). destruct (Rle_dec delta (Rabs x)) as [Hle|_].
    + apply (Rmult_le_reg_l (delta ^ 2)); [exact Hd2|]. replace (delta ^ 2 * (/ delta ^ 2 * x ^ 2)) with (x ^ 2) by (field; lra). cbv iota. rewrite Rmult_1_r, <- (pow2_abs x). apply pow_incr. lra.
    + apply Rmult_le_pos; [apply Rlt_le, Rinv_0_lt_compat; exact Hd2|apply pow2_ge_0].
  - assert (Hx : EstVarP.expect 0 m (ex_prop b) z (fun l => / delta ^ 2 * (mean_of g l - mu) ^ 2) = / delta ^ 2 * EstVarP.expect 0 m (ex_prop b) z (fun l => (mean_of g l - mu) ^ 2)).
    { unfold EstVarP.expect. rewrite <- BackendP.Ex_scal. apply BackendP.Ex_ext. intros [l|l]; ring. }
    rewrite Hx, Hvar. right. assert (0 < IZR z) by (apply (IZR_lt 0); exact Hz). field. split; lra.
Qed.
(* the experiments can be run *)
Theorem C76_runs cfg : fits gd (Backend.data m) -> (exists a, angle_ok gd (Backend.gphase c) a) -> freach cfg -> exists T, experiment T.
Proof.
  intros Hf Ha Hr. destruct (C70_sampled_runs gd m (ex_prop b) true (Z.to_nat z) cfg (add_meas_sampled b c Hc Hp Hb Hs) Hgd Hec Hej Hf Ha Hr) as ((c' & e & Hrun) & Hsam).
  destruct (Hsam c' e Hrun) as (T & HT). exists T, c', e. split; [exact Hrun|exact HT].
Qed.
(* approximation mode (shots=None): the value is computed from the probabilities *)
Lemma expval_probs_close p qs l l' ep : length l = length l' -> (forall i, (i < length l)%nat -> Rabs (nth i l 0 - nth i l' 0) <= ep) ->
  Rabs (Estimator.expval_probs p qs l - Estimator.expval_probs p qs l') <= INR (length l) * ep.
Proof.
  intros Hl Hi. assert (E : forall l0 : list R, l0 = map (fun i => nth i l0 0) (seq 0 (length l0))).
  { intros l0. apply (nth_ext _ _ 0 0); [now rewrite map_length, seq_length|]. intros i Hlt. rewrite (nth_indep _ 0 (nth 0 l0 0)) at 1 by exact Hlt.
    rewrite (nth_indep (map _ _) 0 (nth 0 l0 0)) by (rewrite map_length, seq_length; exact Hlt). rewrite (map_nth (fun j => nth j l0 0) _ 0%nat), seq_nth by exact Hlt. apply nth_indep. exact Hlt. }
  rewrite (E l), (E l') at 1. rewrite !EstimatorP.expval_probs_sum, <- Hl.
  rewrite <- (rsum_const (length l) ep). apply (rsum_diff (length l) _ _ (fun _ => ep)). intros i Hlt. rewrite <- Rmult_minus_distr_r, Rabs_mult.
  pose proof (shot_sign1 p b) as _. assert (Hsg : Rabs (Estimator.psign p qs i) = 1) by (unfold Estimator.psign; destruct (_ =? 1)%nat; [rewrite Rabs_left; lra|apply Rabs_R1]).
  rewrite Hsg, Rmult_1_r. now apply Hi.
Qed.
Theorem C76_exact p s hs e : (n <= 30)%nat -> EstimatorP.prefix b -> PauliP.measured_by n b p -> frun gd m (s, hs) e ->
  exists l s', probabilities e s = Some (l, s') /\
    Cmod (Cminus (RtoC (Estimator.expval_probs p (Estimator.support b) (map nr l))) (PauliP.pauli_expect n (BackendP.finalv n (Backend.data c) (basis 0)) p)) <=
      INR (2 ^ n) * (eprob n + 4 * ejob n gd k).
Proof.
  intros Hn30 Hpre Hm Hrun. destruct (C70_exact gd 0 m (ex_prop b) true s hs e (add_meas_sampled b c Hc Hp Hb Hs) Hgd Hn30 Hec Hej Hrun) as ((l & l' & s' & He & _ & Hl & Hpr & Hl' & Hcl) & _).
  change (Backend.nq m) with n in *. fold k in Hcl. exists l', s'. split; [exact Hpr|].
  destruct (EstimatorP.experiment true 0 c b None Hp Hb ltac:(lia) Hs eq_refl) as (pr & Hv' & _ & _ & Hx).
  assert (pr = ex_prop b) as ->. { destruct (add_meas_sampled b c Hc Hp Hb Hs) as (_ & _ & Hv & _). congruence. }
  specialize (Hx p Hm (fun _ => Hpre)). fold n in Hx. rewrite <- Hx. unfold m in He. rewrite He. cbn [BackSpec.Ex EstimatorP.expval_of]. rewrite <- RtoC_minus, Cmod_R.
  rewrite <- Hl'. rewrite <- (map_length nr l'). apply expval_probs_close; [rewrite map_length; congruence|].
  intros i Hi. rewrite map_length, Hl' in Hi. rewrite (nth_indep _ 0 (nr n0)) by (rewrite map_length; lia). rewrite map_nth. now apply Hcl.
Qed.
End Job.
(* ---- an observable: a sum of terms, each with the experiment that measures it ---- *)
(* v is what the value of the term t expects to be, for some experiment on c whose
   basis measures t *)
Definition estimated (gd : R) (c : Backend.circ) (z : Z) (err : R) (t : Estimator.pauli) (v : R) : Prop :=
  exists b T, length b = Backend.nq c /\ Estimator.support b <> [] /\ PauliP.measured_by (Backend.nq c) b t /\
    ecirc (Backend.nq c) gd (length (gops (Backend.data (Estimator.add_meas b c)))) <= 1 / 10 /\
    ejob (Backend.nq c) gd (length (gops (Backend.data (Estimator.add_meas b c)))) < 1 /\
    esampled (Backend.nq c) gd (length (gops (Backend.data (Estimator.add_meas b c)))) <= err /\
    experiment gd c b z T /\ v = Ex T (value b t).
Definition weighted_sum (o : Estimator.obs) (vs : list R) : C := fold_right (fun tv acc => Cplus (Cmult (snd (fst tv)) (RtoC (snd tv))) acc) (RtoC 0) (combine o vs).
Definition weights (o : Estimator.obs) : R := fold_right (fun t acc => Cmod (snd t) + acc) 0 o.
Theorem C76_observable gd c z err o vs : circuit_ok c -> EstimatorP.pure (Backend.nq c) (Backend.data c) -> (0 < z)%Z -> 0 <= gd ->
  Forall2 (fun t v => estimated gd c z err (fst t) v) o vs ->
  Cmod (Cminus (weighted_sum o vs) (PauliP.obs_expect (Backend.nq c) (BackendP.finalv (Backend.nq c) (Backend.data c) (basis 0)) o)) <= weights o * err.
Proof.
  intros Hc Hp Hz Hgd HF. induction HF as [|[t co] v o vs Ht HF IH]; unfold weighted_sum, weights, PauliP.obs_expect in *; cbn [combine fold_right fst snd] in *.
  - replace (Cminus (RtoC 0) (RtoC 0)) with (RtoC 0) by ring. rewrite Cmod_0. lra.
  - destruct Ht as (b & T & A1 & A2 & A3 & A4 & A5 & A6 & A7 & ->).
    pose proof (C76_value gd c b Hc Hp A1 A2 z Hz Hgd A4 A5 T t A7 A3) as Hv.
    match goal with |- Cmod (Cminus (Cplus (Cmult co ?x) ?y) (Cplus (Cmult co ?x') ?y')) <= _ =>
      replace (Cminus (Cplus (Cmult co x) y) (Cplus (Cmult co x') y')) with (Cplus (Cmult co (Cminus x x')) (Cminus y y')) by ring end.
    eapply Rle_trans; [apply Cmod_triangle|]. rewrite Cmod_mult, Rmult_plus_distr_r. apply Rplus_le_compat; [|exact IH].
    apply Rmult_le_compat_l; [apply Cmod_ge_0|]. eapply Rle_trans; [exact Hv|exact A6].
Qed.
End Est.

(* ---- binary64 ---- *)
Section B64.
Context (dz sq co si : fnum rnd64 -> fnum rnd64).
Notation FN := (FNum rnd64 tol64 dz sq co si).
Notation FC := (FAccur rnd64 tol64 (bpow radix2 (-53)) (bpow radix2 (-1075)) dz sq co si).
#[local] Hint Extern 0 NumOps => exact FN : typeclass_instances.
#[local] Hint Extern 0 (Accur _) => exact FC : typeclass_instances.
Context {CF : @Cfg FN}.
Theorem C76_binary64 c b z T p : circuit_ok c -> EstimatorP.pure (Backend.nq c) (Backend.data c) -> length b = Backend.nq c -> Estimator.support b <> [] ->
  (0 < z)%Z -> let n := Backend.nq c in let k := length (gops (Backend.data (Estimator.add_meas b c))) in
  Q2R (qjob d64 n (1 # 2 ^ 50) k) <= 1 / 10 -> experiment (/ 2 ^ 50) c b z T -> PauliP.measured_by n b p ->
  let exact := PauliP.pauli_expect n (BackendP.finalv n (Backend.data c) (basis 0)) p in let err := Q2R (qsampled d64 n (1 # 2 ^ 50) k) in
  Cmod (Cminus (RtoC (BackSpec.Ex T (value b p))) exact) <= err /\
  forall delta, 0 < delta -> chance T (fun l => if Rle_dec delta (Rabs (value b p l - fst exact)) then true else false) <= (1 - fst exact ^ 2) / (IZR z * delta ^ 2) + IZR z * err.
Proof.
  intros Hc Hp Hb Hs Hz n k Hj HT Hm exact err. pose proof gd64 as Hg. pose proof (@C70_number_sampled FN FC d64 dl64 n _ _ k Hg) as (L1 & L2 & L3).
  assert (He1 : @ecirc FN FC n (/ 2 ^ 50) k <= 1 / 10) by lra. assert (He2 : @ejob FN FC n (/ 2 ^ 50) k < 1) by lra. split.
  - eapply Rle_trans; [|exact L3]. exact (@C76_value FN FC CF (/ 2 ^ 50) c b Hc Hp Hb Hs z Hz (Logic.proj1 Hg) He1 He2 T p HT Hm).
  - intros delta Hd. eapply Rle_trans; [exact (@C76_concentrates FN FC CF (/ 2 ^ 50) c b Hc Hp Hb Hs z Hz (Logic.proj1 Hg) He1 He2 T p delta HT Hm Hd)|].
    apply Rplus_le_compat_l, Rmult_le_compat_l; [apply IZR_le; lia|exact L3].
Qed.
End B64.

(* the Bell state measured in the basis XX: two gates, a Hadamard gate on each qubit *)
Definition bellp : Backend.circ := Backend.Circ 2 0 [Backend.I (Backend.BGate (Backend.G1 BackendX.Hm [0%nat])) None; Backend.I (Backend.BGate (Backend.G1 Backend.X [0; 1]%nat)) None] 0.
Definition bXX : Estimator.pauli := [(true, false); (true, false)].
Lemma bellp_circ : circuit_ok bellp.
Proof.
  destruct bell_circ as ((A1 & A2 & A3 & A4) & _). split; [exact A1|]. cbn [bellp Backend.nq Backend.nc Backend.data] in *. split; [|split].
  - intros x Hx. assert (Hx' : In x (Backend.data BackendX.bellc)) by (cbn; destruct Hx as [<-|[<-|[]]]; auto). destruct (A2 x Hx') as [B1 B2]. split; [|exact B2].
    destruct Hx as [<-|[<-|[]]]; exact B1.
  - intros x g Hx Hg. apply (A3 x g); [cbn; destruct Hx as [<-|[<-|[]]]; auto|exact Hg].
  - intros x g Hx Hg. apply (A4 x g); [cbn; destruct Hx as [<-|[<-|[]]]; auto|exact Hg].
Qed.
Lemma bellp_pure : EstimatorP.pure 2 (Backend.data bellp).
Proof.
  destruct bellp_circ as (_ & A2 & _). intros x Hx. pose proof (A2 x Hx) as [B1 _]. destruct Hx as [<-|[<-|[]]]; (split; [reflexivity|exact B1]).
Qed.
Lemma bellp_state i : (i < 4)%nat -> BackendP.finalv 2 (Backend.data bellp) (basis 0) i = if ((i =? 0) || (i =? 3))%nat%bool then RtoC BackendX.r2 else RtoC 0.
Proof.
  intros Hi. change (BackendP.finalv 2 (Backend.data bellp) (basis 0) i) with (mv 2 (gate1 2 Backend.X 1 (BackLink.ctl_ids [0%nat])) (mv 2 (gate1 2 BackendX.Hm 0 []) (basis 0)) i).
  rewrite gate1_action by (cbn; lia).
  assert (H0 : forall j, (j < 4)%nat -> mv 2 (gate1 2 BackendX.Hm 0 []) (basis 0) j = if (j <? 2)%nat then RtoC BackendX.r2 else RtoC 0) by exact EstVarP.h2_basis.
  assert (i = 0 \/ i = 1 \/ i = 2 \/ i = 3)%nat as [->|[->|[->| ->]]] by lia; cbn -[mv Cmult Cplus]; rewrite ?H0 by lia; cbn; apply injective_projections; cbn; ring.
Qed.
Lemma bellp_XX : PauliP.pauli_expect 2 (BackendP.finalv 2 (Backend.data bellp) (basis 0)) bXX = RtoC 1.
Proof.
  unfold PauliP.pauli_expect. change (2 ^ 2)%nat with 4%nat. cbn [csum]. rewrite !bellp_state by lia. cbn. pose proof BackendX.r2_sq as Hr. cbn in Hr.
  apply injective_projections; cbn; nra.
Qed.
Lemma num_bellp : (Qle_bool (qsampled d64 2 (1 # 2 ^ 50) 4) (1 # 2 ^ 23) && Qle_bool (qjob d64 2 (1 # 2 ^ 50) 4) (1 # 2 ^ 23))%bool = true.
Proof. vm_compute. reflexivity. Qed.
Section Jobs.
Context (dz : fnum rnd64 -> fnum rnd64).
Notation FN := (FNum rnd64 tol64 dz (cr sqrt) (cr cos) (cr sin)).
Notation FC := (FAccur rnd64 tol64 (bpow radix2 (-53)) (bpow radix2 (-1075)) dz (cr sqrt) (cr cos) (cr sin)).
#[local] Hint Extern 0 NumOps => exact FN : typeclass_instances.
#[local] Hint Extern 0 (Accur _) => exact FC : typeclass_instances.
Context {CF : @Cfg FN}.
Example ex_C76 z : (0 < z)%Z ->
  (exists T, experiment (/ 2 ^ 50) bellp bXX z T) /\
  forall T, experiment (/ 2 ^ 50) bellp bXX z T -> Cmod (Cminus (RtoC (BackSpec.Ex T (value bXX bXX))) (RtoC 1)) <= / 2 ^ 23.
Proof.
  intros Hz. pose proof num_bellp as Hx. apply andb_prop in Hx as [Hx Hy]. apply Qle_bool_iff, Qle_Rle in Hx, Hy.
  assert (Hq : Q2R (1 # 2 ^ 23) = / 2 ^ 23) by (unfold Q2R; cbn; lra). rewrite Hq in Hx, Hy.
  assert (Hsm : / 2 ^ 23 <= 1 / 10) by (cbn; lra). pose proof (@C70_number_sampled FN FC d64 dl64 2 _ _ 4 gd64) as (L1 & L2 & L3). split.
  - apply (@C76_runs FN FC CF (/ 2 ^ 50) bellp bXX bellp_circ bellp_pure eq_refl ltac:(discriminate) z (Logic.proj1 gd64)) with (cfg := (state_init, [])).
    + change (@ecirc FN FC 2 (/ 2 ^ 50) 4 <= 1 / 10). lra.
    + change (@ejob FN FC 2 (/ 2 ^ 50) 4 < 1). lra.
    + intros x g o Hi Hg Ho. repeat (destruct Hi as [<-|Hi]; [cbn in Hg; try discriminate; injection Hg as <-; cbn in Ho; injection Ho as <-; eexists; first [apply (Hm_fits dz)|apply (X_fits dz)]|]). destruct Hi.
    + exists n0. exact (angle0 dz).
    + apply fr_init.
  - intros T HT.     rewrite <- bellp_XX. eapply Rle_trans; [|exact Hx].
    apply (C76_binary64 dz (cr sqrt) (cr cos) (cr sin) bellp bXX z T bXX bellp_circ bellp_pure eq_refl ltac:(discriminate) Hz).
    + change (Q2R (qjob d64 2 (1 # 2 ^ 50) 4) <= 1 / 10). lra.
    + exact HT.
    + intros q _. now right.
Qed.
End Jobs.
