(* FpFreq.v -- property C77: relative frequencies -- a job's counts divided by its
   shots, the Sampler's quasi-distribution -- when the engine computes in rounded
   arithmetic. *)
From Coq Require Import Reals Lra Psatz ZArith QArith Qreals Bool List Lia Arith.
From Coquelicot Require Import Complex.
From Flocq Require Import Core.
From Verif Require Backend BackSpec BackendP BackendQ BackendX BackLink Sampler SamplerP SeedsP EstVarS EstVarP.
From Verif Require Import Num State DD Gates GC Measure Api RNum Wf Sums Err Inv Wp Make Add MulV GateP StateP Kron Spec SpecP Readout
  MeasAllP ApplyP ApiP Obs Props1 Props2 Circuit GateMat SafeF FpA FpE FpW FpM FpAdd FpMul FpGate FpState FpRead FpMeas FpOne FpGC FpKron FpCirc FpProp FpMeasP FpOneP
  FpLin FpF FpX FpQ FpMeasX FpOneX FpBack FpBackS FpBackX FpEst.
Import List ListNotations.
Open Scope R_scope.

(* the fraction of the shots that gave s *)
Definition share (s : list bool) (l : list (list bool)) : R := INR (count_occ BackSpec.str_dec l s) / INR (length l).
(* the number a quasi-distribution with counts has for an outcome; 0 if it has none *)
Definition quasi_at (q : Sampler.quasi) (s : list bool) : R :=
  match q with
  | Sampler.QCounts d _ => match find (fun x => if BackSpec.str_dec (fst x) s then true else false) d with Some (_, f) => f | None => 0 end
  | Sampler.QProbs _ => 0
  end.
Definition is_str (s s' : list bool) : R := if BackSpec.str_dec s' s then 1 else 0.
Lemma share_mean s l : share s l = EstVarS.mean_of (is_str s) l.
Proof.
  unfold share, EstVarS.mean_of. f_equal. unfold EstVarS.total_of, is_str. induction l as [|x l IH]; [reflexivity|]. cbn [count_occ fold_right].
  destruct (BackSpec.str_dec x s); [rewrite S_INR, IH; ring|rewrite IH; ring].
Qed.
(* the Sampler returns the shares (post-processing of one circuit) *)
Theorem quasi_share l q s : l <> [] -> Sampler.post false (Backend.Counts l) = Some q -> quasi_at q s = share s l.
Proof.
  intros Hl Hq. destruct q as [d m|d]; [|discriminate]. destruct (SamplerP.C42_frequencies l d m Hl Hq) as (_ & Hnd & Hf & Hin). cbn [quasi_at].
  destruct (find _ d) as [[s' f]|] eqn:Ef.
  - apply find_some in Ef as [Hi Hs]. cbn [fst] in Hs. destruct (BackSpec.str_dec s' s) as [->|]; [|discriminate]. exact (Hf s f Hi).
  - unfold share. rewrite (Logic.proj1 (count_occ_not_In BackSpec.str_dec l s)); [unfold Rdiv; cbn; ring|].
    intros Hs. destruct (Hin s Hs) as (f & Hi). pose proof (find_none _ _ Ef _ Hi) as Hx. cbn [fst] in Hx. destruct (BackSpec.str_dec s s); [discriminate|congruence].
Qed.

Section Freq.
Context {NO : NumOps} {AC : Accur NO} {CF : Cfg}.
Notation tree := Backend.tree.
Notation Ex := BackSpec.Ex.
Notation mean_of := EstVarS.mean_of.
(* ---- circuits simulated once and sampled ---- *)
Section Job.
Context (gd : R) (c0 : Backend.circ) (p : Backend.cprop) (req : bool) (z : Z).
Let n := Backend.nq c0.
Let k := length (gops (Backend.data c0)).
Context (Hso : sampled_ok c0 p req) (Hz : (0 < z)%Z) (Hgd : 0 <= gd) (Hec : ecirc n gd k <= 1 / 10) (Hej : ejob n gd k < 1).
Definition sampled_job (T : tree (list (list bool))) : Prop :=
  exists cfg e, frun gd c0 cfg e /\ fsamples n (Backend.nc c0) (Backend.clbit_final_values p) (Z.to_nat z) [] cfg e T.
Lemma shot_expect h : EstVarP.expect 0 c0 p 1 (mean_of h) = Ex (ishot n (Backend.nc c0) (Backend.clbit_final_values p) (finalw c0)) h.
Proof.
  destruct Hso as (_ & Hco & Hv & Hst). destruct (BackendP.shot_stable_dist 0 c0 p req Hco Hv Hst) as (Hex & _). unfold EstVarP.expect, Backend.evaluate. rewrite Hst, Hex.
  cbn [Backend.bind Z.eqb]. change (Z.to_nat 1) with 1%nat. cbn [Backend.replicate]. rewrite !BackendP.Ex_bind. apply BackendP.Ex_ext. intros s. rewrite !BackendP.Ex_bind. cbn. unfold EstVarS.mean_of, EstVarS.total_of. cbn. field.
Qed.
(* any statistic of one shot with values in [-1,1] *)
Theorem mean_close T h : (forall s, Rabs (h s) <= 1) -> sampled_job T -> Rabs (Ex T (mean_of h) - EstVarP.expect 0 c0 p 1 (mean_of h)) <= esampled n gd k.
Proof.
  intros Hh (cfg & e & Hrun & HT). destruct Hso as (Hmc & Hco & _ & _). rewrite shot_expect.
  destruct (frun_ok gd c0 cfg e Hmc Hgd Hec Hrun) as (Hr & Hin & Hd). fold n k in Hd, Hin.
  assert (Hej0 : 0 <= ejob n gd k < 1) by (split; [eapply Rle_trans; [|exact Hd]; apply sqrt_pos|exact Hej]).
  pose proof (finalw_norm c0 Hco) as Hw. fold n in Hw.
  pose proof (fsamples_total n _ _ (finalw c0) _ h Hw Hej0 Hh (Z.to_nat z) [] cfg e T Hr Hin Hd HT) as Hx.
  assert (Hz0 : 0 < INR (Z.to_nat z)) by (apply lt_0_INR; lia).
  assert (HE : Ex T (mean_of h) = / INR (Z.to_nat z) * Ex T (EstVarS.total_of h)).
  { rewrite <- BackendP.Ex_scal. eapply fsamples_ext; [exact HT|]. intros l Hl. unfold EstVarS.mean_of. rewrite Hl. cbn [length]. rewrite Nat.add_0_r. unfold Rdiv. apply Rmult_comm. }
  rewrite HE. set (mu := Ex (ishot _ _ _ _) _) in *. cbn [rev] in Hx. cbn [EstVarS.total_of fold_right] in Hx.
  replace (/ INR (Z.to_nat z) * Ex T (EstVarS.total_of h) - mu) with (/ INR (Z.to_nat z) * (Ex T (EstVarS.total_of h) - (0 + INR (Z.to_nat z) * mu))) by (field; lra).
  rewrite Rabs_mult, Rabs_pos_eq by (apply Rlt_le, Rinv_0_lt_compat; exact Hz0).
  apply (Rmult_le_reg_l (INR (Z.to_nat z))); [exact Hz0|]. rewrite <- Rmult_assoc, Rinv_r, Rmult_1_l by lra. exact Hx.
Qed.
Theorem mean_concentrates T h delta : sampled_job T -> 0 < delta ->
  let mu := EstVarP.expect 0 c0 p 1 (mean_of h) in let s2 := EstVarP.expect 0 c0 p 1 (mean_of (fun s => h s ^ 2)) - mu ^ 2 in
  chance T (fun l => if Rle_dec delta (Rabs (mean_of h l - mu)) then true else false) <= s2 / (IZR z * delta ^ 2) + IZR z * esampled n gd k.
Proof.
  intros (cfg & e & Hrun & HT) Hde mu s2. pose proof Hso as (Hmc & Hco & Hv & Hst).
  destruct (C70_sampled gd 0 c0 p req z cfg e T Hso Hz Hgd (Rle_refl 0) Hec Hej Hrun HT) as (Hch & _).
  set (Pd := fun l => if Rle_dec delta (Rabs (mean_of h l - mu)) then true else false). specialize (Hch Pd). fold n k in Hch.
  assert (Hid : chance (Backend.evaluate 0 c0 p (Some z)) (counted Pd) <= s2 / (IZR z * delta ^ 2)).
  2:{ unfold Rabs in Hch. destruct (Rcase_abs _); lra. }
  destruct (EstVarP.C75_standard_error 0 c0 p req z h (Rle_refl 0) Hco Hv Hz) as (_ & Hvar & _). fold mu s2 in Hvar.
  apply Rle_trans with (EstVarP.expect 0 c0 p z (fun l => / delta ^ 2 * (mean_of h l - mu) ^ 2)).
  - unfold chance, EstVarP.expect. destruct (EstVarP.evaluate_shots 0 c0 p req (Rle_refl 0) Hco Hv) as (shot & Hf & Hev). rewrite Hev by exact Hz. rewrite !BackendP.Ex_bind.
    apply Ex_mono; [now apply SeedsP.Fair_replicate|]. intros l. cbn [BackSpec.Ex counted]. unfold Pd. set (x := mean_of h l - mu).
    assert (Hd2 : 0 < delta ^ 2) by (apply pow_lt; exact Hde). destruct (Rle_dec delta (Rabs x)) as [Hle|_].
    + apply (Rmult_le_reg_l (delta ^ 2)); [exact Hd2|]. replace (delta ^ 2 * (/ delta ^ 2 * x ^ 2)) with (x ^ 2) by (field; lra). cbv iota. rewrite Rmult_1_r, <- (pow2_abs x). apply pow_incr. lra.
    + apply Rmult_le_pos; [apply Rlt_le, Rinv_0_lt_compat; exact Hd2|apply pow2_ge_0].
  - assert (Hx : EstVarP.expect 0 c0 p z (fun l => / delta ^ 2 * (mean_of h l - mu) ^ 2) = / delta ^ 2 * EstVarP.expect 0 c0 p z (fun l => (mean_of h l - mu) ^ 2)).
    { unfold EstVarP.expect. rewrite <- BackendP.Ex_scal. apply BackendP.Ex_ext. intros [l|l]; ring. }
    rewrite Hx, Hvar. right. assert (0 < IZR z) by (apply (IZR_lt 0); exact Hz). field. split; lra.
Qed.
Lemma is_str_expect s : EstVarP.expect 0 c0 p 1 (mean_of (is_str s)) = BackSpec.dist c0 (rev s).
Proof.
  rewrite shot_expect. destruct Hso as (_ & Hco & Hv & Hst). destruct (BackendP.shot_stable_dist 0 c0 p req Hco Hv Hst) as (_ & Hds).
  rewrite <- (Hds (rev s)), rev_involutive. reflexivity.
Qed.
Theorem C77_sampled T s : sampled_job T ->
  Rabs (Ex T (share s) - BackSpec.dist c0 (rev s)) <= esampled n gd k /\
  forall delta, 0 < delta -> chance T (fun l => if Rle_dec delta (Rabs (share s l - BackSpec.dist c0 (rev s))) then true else false) <=
    BackSpec.dist c0 (rev s) * (1 - BackSpec.dist c0 (rev s)) / (IZR z * delta ^ 2) + IZR z * esampled n gd k.
Proof.
  intros HT. assert (Hsh : forall f : list (list bool) -> R, Ex T (fun l => f l) = Ex T f) by reflexivity. split.
  - rewrite (BackendP.Ex_ext T (share s) (mean_of (is_str s))) by (intros; apply share_mean). rewrite <- is_str_expect. apply mean_close; [|exact HT].
    intros s'. unfold is_str. destruct (BackSpec.str_dec s' s); [rewrite Rabs_R1|rewrite Rabs_R0]; lra.
  - intros delta Hd. pose proof (mean_concentrates T (is_str s) delta HT Hd) as Hx. cbv zeta in Hx.
    assert (Hsq : EstVarP.expect 0 c0 p 1 (mean_of (fun s' => is_str s s' ^ 2)) = BackSpec.dist c0 (rev s)).
    { rewrite <- is_str_expect. unfold EstVarP.expect. apply BackendP.Ex_ext. intros [l|l]; [|reflexivity]. apply EstVarP.mean_ext. intros s' _. unfold is_str. destruct (BackSpec.str_dec s' s); ring. }
    rewrite Hsq, is_str_expect in Hx. replace (BackSpec.dist c0 (rev s) - BackSpec.dist c0 (rev s) ^ 2) with (BackSpec.dist c0 (rev s) * (1 - BackSpec.dist c0 (rev s))) in Hx by ring.
    eapply Rle_trans; [|exact Hx]. right. unfold chance. apply BackendP.Ex_ext. intros l. rewrite share_mean. reflexivity.
Qed.
End Job.
(* ---- circuits re-simulated for every shot: a job can fail, with a chance that grows
   with the number of shots ---- *)
Theorem C77_resimulated gd eps c0 z c T s : circuit_ok c0 -> (0 < z)%Z -> good_sqrt -> 0 <= gd -> 0 < nr eps -> e1 (Backend.nq c0) <= 1 / 10 -> freach c ->
  fshots gd eps c0 (Z.to_nat z) [] c T ->
  Rabs (Ex T (share s) - BackSpec.dist c0 (rev s)) <= IZR z * eA (Backend.nq c0) gd (nr eps) (Backend.data c0).
Proof.
  intros (Hn & Hi & Hlo & Hu) Hz HS Hgd Hep He Hr HT.
  assert (H01 : forall l, 0 <= share s l <= 1).
  { intros l. unfold share. destruct l as [|x l]; [cbn; unfold Rdiv; rewrite Rmult_0_l; lra|]. pose proof (count_occ_bound BackSpec.str_dec s (x :: l)) as Hb.
    apply le_INR in Hb. pose proof (pos_INR (count_occ BackSpec.str_dec (x :: l) s)) as Hp. assert (Hl : 0 < INR (length (x :: l))) by (apply lt_0_INR; cbn; lia).
    split; [apply Rmult_le_pos; [exact Hp|apply Rlt_le, Rinv_0_lt_compat; exact Hl]|]. apply (Rmult_le_reg_r (INR (length (x :: l)))); [exact Hl|]. unfold Rdiv. rewrite Rmult_assoc, Rinv_l, Rmult_1_r, Rmult_1_l by lra. exact Hb. }
  pose proof (fshots_sound gd eps c0 Hn HS Hgd Hep He Hi Hlo Hu (Z.to_nat z) [] c T (share s) H01 Hr HT) as Hx. cbn [rev app] in Hx.
  rewrite INR_IZR_INZ, Z2Nat.id in Hx by lia.
  set (shot := Backend.shot_unstable (nr eps) c0) in *. assert (Hf : SeedsP.Fair shot).
  { unfold shot, Backend.shot_unstable. apply SeedsP.Fair_bind; [|intros ((a & b) & d); exact Logic.I]. eapply SeedsP.Fair_exec; [now apply Rlt_le|exact Hi|apply BackendP.norm_basis0]. }
  assert (Hid : Ex (Backend.replicate (Z.to_nat z) shot) (fun l => share s l) = BackSpec.dist c0 (rev s)).
  { assert (Hz0 : INR (Z.to_nat z) <> 0) by (apply not_0_INR; lia).
    rewrite (EstVarP.replicate_len shot (Z.to_nat z) _ Hf (fun l => / INR (Z.to_nat z) * EstVarS.total_of (is_str s) l)).
    2:{ intros l Hl. rewrite share_mean. unfold EstVarS.mean_of. rewrite Hl. unfold Rdiv. apply Rmult_comm. }
    rewrite BackendP.Ex_scal, EstVarP.Ex_sum by exact Hf. rewrite <- Rmult_assoc, Rinv_l, Rmult_1_l by exact Hz0.
    rewrite <- (BackendP.shot_unstable_dist (nr eps) c0 (Rlt_le _ _ Hep) Hi (rev s)), rev_involutive. reflexivity. }
  rewrite Hid in Hx. exact Hx.
Qed.
(* shots=None, shots=0: the probability of a basis state *)
Theorem C77_exact gd c0 p req s hs e : sampled_ok c0 p req -> 0 <= gd ->
  let n := Backend.nq c0 in let k := length (gops (Backend.data c0)) in (n <= 30)%nat -> ecirc n gd k <= 1 / 10 -> ejob n gd k < 1 -> frun gd c0 (s, hs) e ->
  exists l s', probabilities e s = Some (l, s') /\ length l = (2 ^ n)%nat /\
    forall i, (i < 2 ^ n)%nat -> Rabs (nr (nth i l n0) - Cmod (finalw c0 i) ^ 2) <= eprob n + 4 * ejob n gd k.
Proof.
  intros Hso Hgd n k Hn30 Hec Hej Hrun. destruct (C70_exact gd 0 c0 p req s hs e Hso Hgd Hn30 Hec Hej Hrun) as ((l & l' & s' & _ & He & Hl & Hpr & Hl' & Hcl) & _).
  exists l', s'. split; [exact Hpr|]. split; [exact Hl'|]. intros i Hi. destruct (Hcl i Hi) as (_ & Hx).
  replace (Cmod (finalw c0 i) ^ 2) with (nth i l 0); [exact Hx|]. destruct Hso as (_ & Hco & Hv & Hst). destruct (BackendP.shot_stable_dist 0 c0 p req Hco Hv Hst) as (Hex & _).
  unfold Backend.evaluate in He. rewrite Hst, Hex in He. cbn [Backend.bind Z.eqb] in He. injection He as <-. pose proof (finalw_norm c0 Hco) as Hw.
  change (Backend.phase (Backend.gphase c0) (BackendP.finalv (Backend.nq c0) (Backend.data c0) (basis 0))) with (finalw c0). fold n in Hw. fold n.
  unfold Backend.probs. rewrite (nth_indep _ 0 ((fun i => Cmod (finalw c0 i) ^ 2 / norm2v n (finalw c0)) 0%nat)) by (rewrite map_length, seq_length; exact Hi).
  rewrite (map_nth (fun i => Cmod (finalw c0 i) ^ 2 / norm2v n (finalw c0))), seq_nth by exact Hi. cbn [Nat.add]. rewrite Hw. field.
Qed.
End Freq.

(* ---- binary64; the Bell circuit ---- *)
Section B64.
Context (dz sq co si : fnum rnd64 -> fnum rnd64).
Notation FN := (FNum rnd64 tol64 dz sq co si).
Notation FC := (FAccur rnd64 tol64 (bpow radix2 (-53)) (bpow radix2 (-1075)) dz sq co si).
#[local] Hint Extern 0 NumOps => exact FN : typeclass_instances.
#[local] Hint Extern 0 (Accur _) => exact FC : typeclass_instances.
Context {CF : @Cfg FN}.
Theorem C77_binary64 c0 p req z T s : sampled_ok c0 p req -> (0 < z)%Z -> let n := Backend.nq c0 in let k := length (gops (Backend.data c0)) in
  Q2R (qjob d64 n (1 # 2 ^ 50) k) <= 1 / 10 -> sampled_job (/ 2 ^ 50) c0 p z T ->
  let d := BackSpec.dist c0 (rev s) in let err := Q2R (qsampled d64 n (1 # 2 ^ 50) k) in
  Rabs (BackSpec.Ex T (share s) - d) <= err /\
  forall delta, 0 < delta -> chance T (fun l => if Rle_dec delta (Rabs (share s l - d)) then true else false) <= d * (1 - d) / (IZR z * delta ^ 2) + IZR z * err.
Proof.
  intros Hso Hz n k Hj HT d err. pose proof gd64 as Hg. pose proof (@C70_number_sampled FN FC d64 dl64 n _ _ k Hg) as (L1 & L2 & L3).
  assert (He1 : @ecirc FN FC n (/ 2 ^ 50) k <= 1 / 10) by lra. assert (He2 : @ejob FN FC n (/ 2 ^ 50) k < 1) by lra.
  destruct (@C77_sampled FN FC CF (/ 2 ^ 50) c0 p req z Hso Hz (Logic.proj1 Hg) He1 He2 T s HT) as (A & B). split.
  - eapply Rle_trans; [exact A|exact L3].
  - intros delta Hd. eapply Rle_trans; [exact (B delta Hd)|]. apply Rplus_le_compat_l, Rmult_le_compat_l; [apply IZR_le; lia|exact L3].
Qed.
End B64.
Definition bell_prop : Backend.cprop := Backend.Prop_ true [(1, 0); (0, 1)]%nat.
Lemma bell_dist : BackSpec.dist BackendX.bellc [false; false] = / 2 /\ BackSpec.dist BackendX.bellc [true; true] = / 2 /\ BackSpec.dist BackendX.bellc [false; true] = 0.
Proof.
  destruct bell_circ as (_ & Hco & Hv & Hst). destruct (BackendP.shot_stable_dist 0 BackendX.bellc _ true Hco Hv Hst) as (_ & Hds).
  pose proof (finalw_norm BackendX.bellc Hco) as Hw. change (Backend.nq BackendX.bellc) with 2%nat in Hw.
  assert (Hp : forall b, (b < 4)%nat -> Cmod (finalw BackendX.bellc b) ^ 2 = if ((b =? 0) || (b =? 3))%nat%bool then / 2 else 0).
  { intros b Hb. unfold finalw, Backend.phase, Backend.scaled. rewrite Cmod_mult, BackendP.Cmod_phase, Rmult_1_l.
    change (BackendP.finalv (Backend.nq BackendX.bellc) (Backend.data BackendX.bellc) (basis 0) b) with (BackendP.finalv 2 (Backend.data bellp) (basis 0) b). rewrite bellp_state by exact Hb.
    destruct (_ || _)%bool; [apply BackendX.Cmod_r2|rewrite Cmod_0; ring]. }
  assert (H : forall s, BackSpec.dist BackendX.bellc s = rsum 4 (fun b => Cmod (finalw BackendX.bellc b) ^ 2 * is_str (rev s) (Backend.assemble 2 (Backend.clbit_final_values bell_prop) (bitstring 2 b)))).
  { intros s. rewrite <- (Hds s). exact (ishot_Ex 2 2 (Backend.clbit_final_values bell_prop) (finalw BackendX.bellc) (is_str (rev s)) Hw). }
  rewrite !H. cbn [rsum]. rewrite !Hp by lia. cbn. unfold is_str.
  repeat split; repeat (destruct (BackSpec.str_dec _ _) as [?|?]; cbn; try congruence); lra.
Qed.
Section Jobs.
Context (dz : fnum rnd64 -> fnum rnd64).
Notation FN := (FNum rnd64 tol64 dz (cr sqrt) (cr cos) (cr sin)).
Notation FC := (FAccur rnd64 tol64 (bpow radix2 (-53)) (bpow radix2 (-1075)) dz (cr sqrt) (cr cos) (cr sin)).
#[local] Hint Extern 0 NumOps => exact FN : typeclass_instances.
#[local] Hint Extern 0 (Accur _) => exact FC : typeclass_instances.
Context {CF : @Cfg FN}.
(* the Bell circuit, z shots: "00" and "11" expect a share of 1/2 each, "01" none *)
Example ex_C77 z : (0 < z)%Z -> (exists T, sampled_job (/ 2 ^ 50) BackendX.bellc bell_prop z T) /\
  forall T, sampled_job (/ 2 ^ 50) BackendX.bellc bell_prop z T ->
    Rabs (BackSpec.Ex T (share [false; false]) - / 2) <= / 2 ^ 24 /\ Rabs (BackSpec.Ex T (share [true; true]) - / 2) <= / 2 ^ 24 /\ Rabs (BackSpec.Ex T (share [true; false])) <= / 2 ^ 24.
Proof.
  intros Hz. split.
  - destruct (job_bell dz z Hz) as ((c & e & T & H1 & H2) & _). exists T, c, e. split; [exact H1|exact H2].
  - intros T HT. pose proof num_bellc as Hx. apply andb_prop in Hx as [Hx _]. apply andb_prop in Hx as [Hx Hy]. apply Qle_bool_iff, Qle_Rle in Hx, Hy.
    assert (Hq : Q2R (1 # 2 ^ 24) = / 2 ^ 24) by (unfold Q2R; cbn; lra). rewrite Hq in Hx, Hy. assert (Hsm : / 2 ^ 24 <= 1 / 10) by (cbn; lra).
    assert (HB : forall s, Rabs (BackSpec.Ex T (share s) - BackSpec.dist BackendX.bellc (rev s)) <= / 2 ^ 24).
    { intros s. eapply Rle_trans; [|exact Hx]. apply (C77_binary64 dz (cr sqrt) (cr cos) (cr sin) BackendX.bellc bell_prop true z T s bell_circ Hz); [|exact HT].
      change (Q2R (qjob d64 2 (1 # 2 ^ 50) 2) <= 1 / 10). lra. }
    destruct bell_dist as (D1 & D2 & D3). pose proof (HB [false; false]) as B1. pose proof (HB [true; true]) as B2. pose proof (HB [true; false]) as B3. cbn [rev app] in B1, B2, B3.
    rewrite D1 in B1. rewrite D2 in B2. rewrite D3, Rminus_0_r in B3. auto.
Qed.
End Jobs.
