(* SeedsP.v -- C74: when a job is reproducible. *)
From Coq Require Import Reals Lra Psatz ZArith Bool List Lia Arith.
From Coquelicot Require Import Complex.
From Verif Require Import Spec SpecP LargeP ApplyP MeasAllP Props2 Backend BackSpec BackendP BackendQ BackendX Seeds.
Import ListNotations.
Open Scope nat_scope.

(* numbers a generator produces *)
Definition uniform_range (ths : list R) : Prop := forall x, In x ths -> (0 <= x < 1)%R.

(* ---- computations that never raise, with probabilities ---- *)
Fixpoint Fair {A} (t : tree A) : Prop :=
  match t with
  | Leaf _ => True
  | Raise => False
  | Flip p k => (0 <= p <= 1)%R /\ ((0 < p)%R -> Fair (k false)) /\ ((p < 1)%R -> Fair (k true))
  end.
Lemma Fair_bind {A B} (t : tree A) (f : A -> tree B) : Fair t -> (forall a, Fair (f a)) -> Fair (bind t f).
Proof.
  intros Ht Hf. induction t as [a| |p k IH]; cbn in *; auto. destruct Ht as (Hp & H0 & H1).
  split; [exact Hp|]. split; intros H; apply IH; auto.
Qed.
Lemma Fair_replicate {A} (t : tree A) m : Fair t -> Fair (replicate m t).
Proof. intros H. induction m as [|m IH]; cbn; auto. apply Fair_bind; auto. intros a. apply Fair_bind; cbn; auto. Qed.
Lemma Ex_range {A} (t : tree A) f : Fair t -> (forall a, 0 <= f a <= 1)%R -> (0 <= Ex t f <= 1)%R.
Proof.
  intros Ht Hf. induction t as [a| |p k IH]; cbn in *; auto; [lra|]. destruct Ht as (Hp & H0 & H1).
  assert (E0 : (0 <= p * Ex (k false) f <= p)%R).
  { destruct (Rle_lt_or_eq_dec _ _ (Logic.proj1 Hp)) as [Hl|<-]; [|lra]. specialize (IH false (H0 Hl)). nra. }
  assert (E1 : (0 <= (1 - p) * Ex (k true) f <= 1 - p)%R).
  { destruct (Rle_lt_or_eq_dec _ _ (Logic.proj2 Hp)) as [Hl|Hl]; [|subst p; lra]. specialize (IH true (H1 Hl)). nra. }
  lra.
Qed.
(* some draws complete a fair computation, and it never raises *)
Lemma Fair_runs {A} (t : tree A) : Fair t -> exists ths a, uniform_range ths /\ run t ths = Some (Some a, []).
Proof.
  induction t as [a| |p k IH]; cbn; intros Ht; [exists [], a; split; auto; intros x []|contradiction|].
  destruct Ht as (Hp & H0 & H1). destruct (Rle_lt_or_eq_dec _ _ (Logic.proj1 Hp)) as [Hl|Hl].
  - destruct (IH false (H0 Hl)) as (ths & a & Hr & E). exists (0%R :: ths), a. split.
    + intros x [<-|Hx]; [lra|auto].
    + destruct (Rlt_dec 0 p); [exact E|contradiction].
  - destruct (IH true (H1 ltac:(lra))) as (ths & a & Hr & E). exists (0%R :: ths), a. split.
    + intros x [<-|Hx]; [lra|auto].
    + destruct (Rlt_dec 0 p); [lra|exact E].
Qed.
Lemma Fair_no_raise {A} (t : tree A) : Fair t -> forall ths o rest, uniform_range ths -> run t ths = Some (o, rest) -> o <> None.
Proof.
  induction t as [a| |p k IH]; cbn; intros Ht ths o rest Hu E; [congruence|contradiction|].
  destruct Ht as (Hp & H0 & H1). destruct ths as [|th ths]; [discriminate|].
  assert (Hth := Hu th (or_introl eq_refl)). assert (Hu' : uniform_range ths) by (intros x Hx; apply Hu; now right).
  destruct (Rlt_dec th p); eapply IH; eauto; [apply H0|apply H1]; lra.
Qed.
(* an outcome is certain exactly when every run has it *)
Lemma Prob1_iff {A} (t : tree A) (f : A -> R) : Fair t -> (forall a, f a = 0%R \/ f a = 1%R) ->
  Ex t f = 1%R <-> (forall ths o rest, uniform_range ths -> run t ths = Some (o, rest) -> exists a, o = Some a /\ f a = 1%R).
Proof.
  intros Ht Hf. assert (Hf' : forall a, (0 <= f a <= 1)%R) by (intros a; destruct (Hf a); lra).
  induction t as [a| |p k IH]; cbn in Ht |- *; [|contradiction|].
  - split.
    + intros H ths o rest _ E. injection E as <- <-. eauto.
    + intros H. destruct (H [] (Some a) []) as (b & Hb & Hf1); [intros x []|reflexivity|]. now injection Hb as <-.
  - destruct Ht as (Hp & H0 & H1). split.
    + intros H ths o rest Hu E. destruct ths as [|th ths]; [discriminate|].
      assert (Hth := Hu th (or_introl eq_refl)). assert (Hu' : uniform_range ths) by (intros x Hx; apply Hu; now right).
      destruct (Rlt_dec th p) as [Hl|Hl].
      * assert (F0 : Fair (k false)) by (apply H0; lra). apply (IH false F0) with (ths := ths) (rest := rest); auto.
        pose proof (Ex_range _ f F0 Hf') as R0. destruct (Rle_lt_or_eq_dec _ _ (Logic.proj2 Hp)) as [Hl1|Hl1]; [|subst p; lra].
        pose proof (Ex_range _ f (H1 Hl1) Hf') as R1. nra.
      * assert (F1 : Fair (k true)) by (apply H1; lra). apply (IH true F1) with (ths := ths) (rest := rest); auto.
        pose proof (Ex_range _ f F1 Hf') as R1. destruct (Rle_lt_or_eq_dec _ _ (Logic.proj1 Hp)) as [Hl0|Hl0]; [|subst p; lra].
        pose proof (Ex_range _ f (H0 Hl0) Hf') as R0. nra.
    + intros H.
      assert (E0 : (p * Ex (k false) f = p)%R).
      { destruct (Rle_lt_or_eq_dec _ _ (Logic.proj1 Hp)) as [Hl|<-]; [|lra].
        rewrite (Logic.proj2 (IH false (H0 Hl))); [lra|]. intros ths o rest Hu E. apply (H (0%R :: ths) o rest).
        - intros x [<-|Hx]; [lra|auto].
        - destruct (Rlt_dec 0 p); [exact E|lra]. }
      assert (E1 : ((1 - p) * Ex (k true) f = 1 - p)%R).
      { destruct (Rle_lt_or_eq_dec _ _ (Logic.proj2 Hp)) as [Hl|Hl]; [|subst p; lra].
        rewrite (Logic.proj2 (IH true (H1 Hl))); [lra|]. intros ths o rest Hu E. apply (H (p :: ths) o rest).
        - intros x [<-|Hx]; [lra|auto].
        - destruct (Rlt_dec p p); [lra|exact E]. }
      lra.
Qed.
(* a run uses a prefix of the draws *)
Lemma run_prefix {A} (t : tree A) : forall ths o rest, run t ths = Some (o, rest) ->
  exists pre, ths = pre ++ rest /\ forall l, run t (pre ++ l) = Some (o, l).
Proof.
  induction t as [a| |p k IH]; cbn; intros ths o rest E.
  - injection E as <- <-. now exists [].
  - injection E as <- <-. now exists [].
  - destruct ths as [|th ths]; [discriminate|]. destruct (IH _ _ _ _ E) as (pre & -> & Hp).
    exists (th :: pre). split; [reflexivity|]. intros l. cbn. apply Hp.
Qed.

(* ---- the backend's computations are fair ---- *)
Lemma Fair_meas1 {A} eps n q v (k : bool -> vector -> tree A) : (0 <= eps)%R -> norm2v n v = 1%R ->
  (forall b, (0 < probq n v q (b2n b))%R -> Fair (k b (fun i => Cdiv (project q (b2n b) v i) (RtoC (sqrt (probq n v q (b2n b))))))) ->
  Fair (meas1 eps n q v k).
Proof.
  intros He Hn Hk. unfold meas1. rewrite Hn. destruct (Rlt_dec eps (Rabs (1 - 1))) as [Hl|_].
  - rewrite Rminus_diag_eq, Rabs_R0 in Hl by reflexivity. lra.
  - cbn [Fair]. pose proof (probq_total n v q) as Ht. rewrite Hn in Ht.
    pose proof (probq_nonneg n v q 0). pose proof (probq_nonneg n v q 1).
    replace (probq n v q 0 / 1)%R with (probq n v q 0) by field. split; [lra|].
    split; intros Hp; [apply (Hk false)|apply (Hk true)]; cbn; lra.
Qed.
Lemma Fair_exec eps n ncl : (0 <= eps)%R -> forall l v cl log, insts_ok n ncl l -> norm2v n v = 1%R -> Fair (exec eps n false l v cl log).
Proof.
  intros He. induction l as [|x l IH]; intros v cl log Hok Hn; cbn [exec]; [exact Logic.I|].
  assert (Hok' : insts_ok n ncl l) by (intros y Hy; apply Hok; right; exact Hy).
  destruct (Hok x (or_introl eq_refl)) as [Hs Hc]. destruct (skip cl (cnd x)); [now apply IH|].
  unfold supported in Hs. destruct (op x) as [g|q c|q|qs|qs|qs|qs]; try contradiction.
  - apply IH; auto. rewrite unitary_norm; auto.
  - apply Fair_meas1; auto. intros b Hp. apply IH; auto. now apply norm_collapse.
  - apply Fair_meas1; auto. intros b Hp. apply IH; auto.
    destruct b; [rewrite unitary_norm by now apply unitary_X|]; now apply norm_collapse.
  - apply IH; auto.
Qed.
Lemma Fair_measall v k : forall b, (forall l, l < k -> Nat.testbit b l = false) -> (0 < marg v k b)%R -> Fair (measall k v b).
Proof.
  induction k as [|k IH]; intros b Hb Hm; cbn [measall Fair]; [exact Logic.I|].
  assert (Ec : Nat.clearbit b k = b).
  { apply Nat.bits_inj. intros l. rewrite Nat.clearbit_eqb. destruct (Nat.eqb_spec k l) as [<-|Hne]; cbn [negb].
    - rewrite andb_false_r. symmetry. apply Hb. lia.
    - now rewrite andb_true_r. }
  pose proof (marg_split v k b) as Hs. rewrite Ec in Hs. unfold cond0. rewrite Ec.
  pose proof (marg_nonneg v k b) as N0. pose proof (marg_nonneg v k (Nat.setbit b k)) as N1.
  assert (Hd : (marg v k b / marg v (S k) b * marg v (S k) b = marg v k b)%R) by (field; lra).
  set (p := (marg v k b / marg v (S k) b)%R) in *.
  split; [split; apply (Rmult_le_reg_r (marg v (S k) b)); lra|]. split; intros Hp.
  - apply IH; [intros l Hl; apply Hb; lia|]. nra.
  - apply IH; [|nra]. intros l Hl. rewrite Nat.setbit_neq by lia. apply Hb. lia.
Qed.
Lemma Fair_evaluate eps c p req z : (0 <= eps)%R -> circ_ok c -> validate_circuit req c = Some p -> (0 < z)%Z ->
  Fair (evaluate eps c p (Some z)).
Proof.
  intros He Hc Hv Hz. pose proof Hc as (Hok & _ & _). unfold evaluate. destruct (stable_final_state p) eqn:Es.
  - destruct (shot_stable_dist eps c p req Hc Hv Es) as [Hx _]. rewrite Hx. cbn [bind].
    destruct (Z.eqb_spec z 0); [lia|]. apply Fair_bind; [|intros l; exact Logic.I].
    apply Fair_replicate. unfold shot_stable. apply Fair_bind; [|intros l; exact Logic.I].
    apply Fair_measall; [intros l _; apply Nat.bits_0|]. rewrite marg_top.
    + unfold phase. rewrite norm2v_scaled, Cmod_phase. erewrite finalv_norm by eauto. rewrite norm_basis0. lra.
    + apply Nat.neq_0_lt_0, Nat.pow_nonzero. lia.
  - destruct (Z.leb_spec z 0); [lia|]. apply Fair_bind; [|intros l; exact Logic.I].
    apply Fair_replicate. unfold shot_unstable. apply Fair_bind; [|intros ((a & b) & d); exact Logic.I].
    eapply Fair_exec; eauto. apply norm_basis0.
Qed.

(* ---- jobs ---- *)
Lemma run_catch_some {A} (t : tree A) h : forall ths a rest, run t ths = Some (Some a, rest) -> run (catch t h) ths = Some (Some a, rest).
Proof.
  induction t as [a| |p k IH]; cbn; intros ths b rest E; [exact E|discriminate|].
  destruct ths as [|th ths]; [discriminate|]. now apply IH.
Qed.
Section Jobs.
Context (eps : R) {P : Type}.
(* sampling one circuit z times, with the seed options [bs] of the backend and [kw]
   of run() *)
Definition sample_job (ds bs : option Z) (c : circ) (z : Z) (kw : option (option Z)) : tree job :=
  run_seeded eps false ds bs (Some [fun _ : option P => Some c]) (Ropts (Some (Some z)) None) kw.
Definition exact_job (ds bs : option Z) (c : circ) (kw : option (option Z)) : tree job :=
  run_seeded eps false ds bs (Some [fun _ : option P => Some c]) (Ropts (Some None) None) kw.
(* The documented precedence of the seed options is followed up to the options of
   the experiment: seed_simulator of run, then seed of run, then the backend's. *)
Theorem C74_precedence (ds bs : option Z) (o : @ropts P) a :
  let got := ac_seed (actual_options ds bs o (seed_keyword a)) in
  (forall s, a_simulator a = Some (Some s) -> got = Some s) /\
  (forall z, a_simulator a = None -> a_seed a = Some z -> got = Some z) /\
  (a_simulator a = None -> a_seed a = None -> got = bs).
Proof.
  destruct a as [[s|] [z|]]; cbn; unfold seed_option; (split; [|split]); intros; try discriminate; try congruence.
Qed.
(* Whatever is run, the seed options change nothing. *)
Theorem C74_seed_ignored sv ds circs (o : @ropts P) bs kw ths :
  run (run_seeded eps sv ds bs circs o kw) ths = run (run_backend eps sv ds circs o) ths.
Proof. reflexivity. Qed.

Lemma job_run ds bs c p z kw : (0 <= eps)%R -> circ_ok c -> validate_circuit true c = Some p -> (0 < z <= 1000000)%Z ->
  forall ths r rest, uniform_range ths ->
  run (sample_job ds bs c z kw) ths = Some (r, rest) <->
  exists l, run (evaluate eps c p (Some z)) ths = Some (Some (Counts l), rest) /\ r = Some (Done [Counts l]).
Proof.
  intros He Hc Hv Hz ths r rest Hu. pose proof (Fair_evaluate eps c p true z He Hc Hv ltac:(lia)) as Hf.
  assert (Hs : shots_ok (Some (Some z)) = true).
  { unfold shots_ok, max_shots. destruct (Z.ltb_spec 0 z); [|lia]. destruct (Z.leb_spec z 1000000); [reflexivity|lia]. }
  unfold sample_job, run_seeded. cbn [r_shots r_binds bound map all_some]. rewrite Hs. cbn [negb all_some map]. rewrite Hv.
  cbn [combine traverse fst snd]. unfold evaluate_with, actual_options. cbn [ac_shots r_shots]. split.
  - intros E. apply run_catch in E as (a & -> & E).
    rewrite !run_bind in E. destruct (run (evaluate eps c p (Some z)) ths) as [[[d|] rr]|] eqn:Er.
    + destruct E as [E|[-> E]]; [|discriminate].
      cbn in E. injection E as <- <-. destruct (C41_counts_returned eps c p z ths d rr ltac:(lia) Er) as (l & ->). eauto.
    + exfalso. eapply (Fair_no_raise _ Hf); eauto.
    + destruct E as [E|[_ E]]; discriminate.
  - intros (l & Er & ->). apply run_catch_some. rewrite !run_bind, Er. reflexivity.
Qed.
Lemma dist_range c : (0 <= eps)%R -> circ_ok c -> forall s, (0 <= dist c s <= 1)%R.
Proof.
  intros He (Hok & _ & _) s. rewrite <- (shot_unstable_dist eps c He Hok s). unfold Prob. apply Ex_range.
  - unfold shot_unstable. apply Fair_bind; [|intros ((a & b) & d); exact Logic.I]. eapply Fair_exec; eauto. apply norm_basis0.
  - intros a. destruct (str_dec a (rev s)); lra.
Qed.
Lemma prodR_1 l : (forall x, In x l -> (0 <= x <= 1)%R) -> prodR l = 1%R -> forall x, In x l -> x = 1%R.
Proof.
  intros Hl H.
  assert (Hp : forall l, (forall x, In x l -> (0 <= x <= 1)%R) -> (0 <= prodR l <= 1)%R).
  { clear. induction l as [|a l IH]; cbn; intros Hl; [lra|].
    pose proof (Hl a (or_introl eq_refl)). assert (H1 : (0 <= prodR l <= 1)%R) by (apply IH; intros; apply Hl; now right).
    unfold prodR in H1. nra. }
  induction l as [|a l IH]; cbn in *; intros x Hx; [contradiction|].
  assert (Ha := Hl a (or_introl eq_refl)). assert (Hl' : forall x, In x l -> (0 <= x <= 1)%R) by (intros; apply Hl; now right).
  pose proof (Hp l Hl') as H1. unfold prodR in H1. destruct Hx as [<-|Hx]; [nra|]. apply IH; auto. unfold prodR. nra.
Qed.
(* Sampling an accepted circuit twice in one process with the same options --
   whatever the seed is -- returns the same result for every state of the generator
   exactly when the circuit has only one possible outcome. *)
Theorem C74_reproducible_iff_partial ds bs c p z kw : (0 <= eps)%R -> circ_ok c -> validate_circuit true c = Some p -> (0 < z <= 1000000)%Z ->
  (forall ths r1 r2, uniform_range ths -> session [sample_job ds bs c z kw; sample_job ds bs c z kw] ths = Some [r1; r2] -> r1 = r2) <->
  (exists s, dist c s = 1%R).
Proof.
  intros He Hc Hv Hz. pose proof (Fair_evaluate eps c p true z He Hc Hv ltac:(lia)) as Hf.
  set (is (L : list (list bool)) (d : rdata) := match d with Counts l => if list_eq_dec str_dec l L then 1%R else 0%R | Probs _ => 0%R end).
  assert (His : forall L d, is L d = 0%R \/ is L d = 1%R) by (intros L [l|l]; cbn; auto; destruct (list_eq_dec _ l L); auto).
  split.
  - intros H. destruct (Fair_runs _ Hf) as (ths & d & Hu & E).
    destruct (C41_counts_returned eps c p z ths d [] ltac:(lia) E) as (L & ->).
    assert (Hall : forall ths' o rest, uniform_range ths' -> run (evaluate eps c p (Some z)) ths' = Some (o, rest) -> exists a, o = Some a /\ is L a = 1%R).
    { intros ths' o rest Hu' E'. destruct o as [d'|]; [|exfalso; eapply Fair_no_raise; eauto].
      destruct (C41_counts_returned eps c p z ths' d' rest ltac:(lia) E') as (L' & ->). exists (Counts L'). split; [reflexivity|].
      destruct (run_prefix _ _ _ _ E) as (pre & Hpre & Hrun). rewrite app_nil_r in Hpre. subst pre.
      assert (Hu2 : uniform_range (ths ++ ths')) by (intros x Hx; apply in_app_or in Hx as [Hx|Hx]; auto).
      assert (Hs : session [sample_job ds bs c z kw; sample_job ds bs c z kw] (ths ++ ths') = Some [Some (Done [Counts L]); Some (Done [Counts L'])]).
      { cbn [session]. rewrite (Logic.proj2 (job_run ds bs c p z kw He Hc Hv Hz (ths ++ ths') (Some (Done [Counts L])) ths' Hu2)) by eauto.
        rewrite (Logic.proj2 (job_run ds bs c p z kw He Hc Hv Hz ths' (Some (Done [Counts L'])) rest Hu')) by eauto. reflexivity. }
      specialize (H _ _ _ Hu2 Hs). injection H as <-. cbn. destruct (list_eq_dec str_dec L L); [reflexivity|contradiction]. }
    apply (Prob1_iff _ (is L) Hf (His L)) in Hall.
    change (Ex (evaluate eps c p (Some z)) (is L)) with (prob_samples (evaluate eps c p (Some z)) L) in Hall.
    rewrite (C36_evaluate_partial eps c p true z L He Hc Hv ltac:(lia)) in Hall.
    destruct (Nat.eqb_spec (length L) (Z.to_nat z)) as [Hlen|_]; [|lra].
    destruct L as [|s L]; [cbn in Hlen; lia|]. exists (rev s).
    apply (prodR_1 (map (fun s => dist c (rev s)) (s :: L))); [|exact Hall|now left].
    intros x Hx. apply in_map_iff in Hx as (y & <- & _). now apply dist_range.
  - intros (s & Hd) ths r1 r2 Hu H. set (L := repeat (rev s) (Z.to_nat z)).
    assert (HL : Ex (evaluate eps c p (Some z)) (is L) = 1%R).
    { change (prob_samples (evaluate eps c p (Some z)) L = 1%R). rewrite (C36_evaluate_partial eps c p true z L He Hc Hv ltac:(lia)).
      unfold L. rewrite repeat_length, Nat.eqb_refl. induction (Z.to_nat z) as [|m IH]; cbn; [reflexivity|]. rewrite rev_involutive, Hd. unfold prodR in IH. rewrite IH. lra. }
    pose proof (Logic.proj1 (Prob1_iff _ (is L) Hf (His L)) HL) as Hall.
    assert (Hone : forall th r rest, uniform_range th -> run (sample_job ds bs c z kw) th = Some (r, rest) -> r = Some (Done [Counts L])).
    { intros th r rest Hu' E. apply (job_run ds bs c p z kw He Hc Hv Hz) in E as (l & E & ->); auto.
      destruct (Hall _ _ _ Hu' E) as (a & Ha & Hi). injection Ha as <-. cbn in Hi. destruct (list_eq_dec str_dec l L) as [->|]; [reflexivity|lra]. }
    cbn [session] in H. destruct (run _ ths) as [[o1 rest1]|] eqn:E1; [|discriminate].
    destruct (run _ rest1) as [[o2 rest2]|] eqn:E2; [|discriminate]. injection H as <- <-.
    rewrite (Hone _ _ _ Hu E1). symmetry. eapply Hone; [|exact E2].
    destruct (run_prefix _ _ _ _ E1) as (pre & -> & _). intros x Hx. apply Hu, in_or_app. now right.
Qed.
(* shots = None, stable circuit without conditions: no random number is used, so
   the result is the same whatever the generator's state *)
Theorem C74_exact_partial ds bs c p kw : circ_ok c -> validate_circuit true c = Some p -> stable_final_state p = true ->
  (forall x, In x (data c) -> cnd x = None) ->
  exists l, length l = 2 ^ nq c /\ forall ths, run (exact_job ds bs c kw) ths = Some (Some (Done [Probs l]), ths).
Proof.
  intros (Hok & Hw & Hp) Hv Hst Hcn. pose proof Hv as Hv'. unfold validate_circuit in Hv. destruct (max_qubits <? nq c); [discriminate|].
  destruct (classify (nq c) 0 (data c) true [] []) as [[st me] m] eqn:E. destruct (_ && _); [discriminate|].
  injection Hv as <-. cbn in Hst. subst st. apply classify_true in E as [Hs ->].
  unfold exact_job, run_seeded. cbn [r_shots r_binds bound map all_some shots_ok negb]. rewrite Hv'.
  cbn [combine traverse fst snd]. unfold evaluate_with, actual_options. cbn [ac_shots r_shots].
  unfold evaluate. replace (existsb has_cond (data c)) with false.
  2:{ symmetry. apply not_true_iff_false. intros Hx. apply existsb_exists in Hx as (x & Hx & Hcx). unfold has_cond in Hcx. rewrite (Hcn x Hx) in Hcx. discriminate. }
  cbn [stable_final_state]. rewrite (exec_none_stable eps (nq c) (nc c) (data c) [] _ _ Hs Hok). cbn [bind].
  eexists. split; [|intros ths; reflexivity]. unfold probs. now rewrite map_length, seq_length.
Qed.
End Jobs.

(* FINDING: H then measure, one shot, run twice in one process with the same seed
   (given to run() or to the backend) returns 0 and then 1. *)
Theorem C74_refuted eps (P : Type) ds bs : (0 <= eps)%R ->
  circ_ok cH /\ uniform_range [0%R; (1 / 2)%R] /\
  forall kw : option (option Z),
    session [sample_job eps (P := P) ds bs cH 1 kw; sample_job eps (P := P) ds bs cH 1 kw] [0%R; (1 / 2)%R] =
    Some [Some (Done [Counts [[false]]]); Some (Done [Counts [[true]]])].
Proof.
  intros He. destruct cH_ok as (Hok & Hv & _). split; [exact Hok|]. split; [intros x [<-|[<-|[]]]; lra|]. intros kw.
  destruct (shot_stable_dist eps cH _ true Hok Hv eq_refl) as [Hx _].
  set (w := phase (gphase cH) (finalv (nq cH) (data cH) (basis 0))).
  assert (Hw : forall b, b < 2 -> (Cmod (w b) ^ 2 = / 2)%R).
  { intros b Hb. unfold w, phase, scaled. rewrite Cmod_mult, Cmod_phase, Rmult_1_l. cbn [finalv data cH op gate_mat last removelast ctl_of map meas nq].
    rewrite h_basis by lia. apply Cmod_r2. }
  assert (Hc0 : cond0 w 0 0 = (/ 2)%R).
  { unfold cond0. rewrite marg_split, !marg_0. cbn [Nat.clearbit Nat.setbit]. change (Nat.clearbit 0 0) with 0. change (Nat.setbit 0 0) with 1.
    rewrite !Hw by lia. field. }
  assert (Hev : evaluate eps cH (Prop_ true [(0, 0)]) (Some 1%Z) =
    Flip (/ 2) (fun b => Leaf (Counts [[b]]))).
  { unfold evaluate. cbn [stable_final_state]. rewrite Hx. cbn [bind Z.eqb]. fold w. change (Z.to_nat 1) with 1. cbn [replicate]. unfold shot_stable.
    cbn [measall nq cH bind]. rewrite Hc0. cbn. f_equal. apply FunctionalExtensionality.functional_extensionality. intros [|]; reflexivity. }
  assert (Hj : forall th rest, uniform_range (th :: rest) -> run (sample_job eps (P := P) ds bs cH 1 kw) (th :: rest) =
    Some (Some (Done [Counts [[if Rlt_dec th (/ 2) then false else true]]]), rest)).
  { intros th rest Hu. apply (job_run eps ds bs cH _ 1 kw He Hok Hv ltac:(lia)); [exact Hu|]. rewrite Hev. cbn [run]. eauto. }
  cbn [session]. rewrite Hj by (intros x [<-|[<-|[]]]; lra). rewrite Hj by (intros x [<-|[]]; lra).
  destruct (Rlt_dec 0 (/ 2)); [|lra]. destruct (Rlt_dec (1 / 2) (/ 2)); [lra|]. reflexivity.
Qed.
(* and no state of the generator makes a circuit with a certain outcome differ *)
Theorem ex_C74 : circ_ok cX /\ validate_circuit true cX = Some (Prop_ true [(0, 0)]) /\ dist cX [true; false] = 1%R.
Proof. split; [apply cX_ok|]. split; [reflexivity|apply cX_dist]. Qed.
