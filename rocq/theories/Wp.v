(* Wp.v -- a rely/guarantee weakest precondition for [comp], sound for every
   schedule ([steps]) and hence for the sequential execution ([run]). *)
From Coq Require Import Reals Lra Psatz ZArith Bool List Lia.
From Coquelicot Require Import Complex.
From Verif Require Import Num State DD RNum Wf Sums Err Inv.
Import ListNotations.
Open Scope Z_scope.

Section Sem.
Context {NO : NumOps} {CF : Cfg}.
(* facts about the operational semantics that hold for every number type *)
Lemma steps_trans g1 g2 g3 : steps g1 g2 -> steps g2 g3 -> steps g1 g3.
Proof. induction 1; auto. intros. econstructor; eauto. Qed.
Lemma steps_one g1 g2 : step g1 g2 -> steps g1 g2.
Proof. intros. econstructor; eauto. constructor. Qed.
Lemma steps_l c1 s g : steps (Cfg_ok c1 s) g -> forall c2 f,
  match g with
  | Cfg_ok c1' s' => steps (Cfg_ok (CPar c1 c2 f) s) (Cfg_ok (CPar c1' c2 f) s')
  | Wrong => steps (Cfg_ok (CPar c1 c2 f) s) Wrong
  end.
Proof.
  remember (Cfg_ok c1 s) as g0. intros H. revert c1 s Heqg0.
  induction H as [g|g g' g'' H1 H2 IH]; intros c1 s -> c2 f.
  - constructor.
  - destruct g' as [c' s'|].
    + specialize (IH _ _ eq_refl c2 f). destruct g''; (eapply steps_trans; [apply steps_one, step_l; eauto|auto]).
    + inversion H2; subst; [|inversion H]. apply steps_one. now apply step_l_wrong.
Qed.
Lemma steps_r c2 s g : steps (Cfg_ok c2 s) g -> forall c1 f,
  match g with
  | Cfg_ok c2' s' => steps (Cfg_ok (CPar c1 c2 f) s) (Cfg_ok (CPar c1 c2' f) s')
  | Wrong => steps (Cfg_ok (CPar c1 c2 f) s) Wrong
  end.
Proof.
  remember (Cfg_ok c2 s) as g0. intros H. revert c2 s Heqg0.
  induction H as [g|g g' g'' H1 H2 IH]; intros c2 s -> c1 f.
  - constructor.
  - destruct g' as [c' s'|].
    + specialize (IH _ _ eq_refl c1 f). destruct g''; (eapply steps_trans; [apply steps_one, step_r; eauto|auto]).
    + inversion H2; subst; [|inversion H]. apply steps_one. now apply step_r_wrong.
Qed.

(* the sequential executions are some of the schedules *)
Theorem run_on_steps i c : forall s,
  match run_on i c s with
  | Some (e, s') => steps (Cfg_ok c s) (Cfg_ok (CRet e) s')
  | None => steps (Cfg_ok c s) Wrong
  end.
Proof.
  assert (Hstep : forall c s g g', act1 i c s = Some g -> steps g g' -> steps (Cfg_ok c s) g').
  { intros c0 s g g' H1 H2. econstructor; [|exact H2]. eapply step_act; eauto. }
  induction c; intros s; cbn.
  - constructor.
  - apply steps_one. eapply (step_act i). reflexivity.
  - destruct (readn k p s) as [nd|] eqn:E.
    + specialize (H nd s). destruct (run_on i (f nd) s) as [[e s']|]; eapply Hstep; eauto; cbn; now rewrite E.
    + apply steps_one. eapply (step_act i). cbn. now rewrite E.
  - destruct (intern k i nd s) as [[p s']|] eqn:E.
    + specialize (H p s'). destruct (run_on i (f p) s') as [[e s2]|]; eapply Hstep; eauto; cbn; now rewrite E.
    + apply steps_one. eapply (step_act i). cbn. now rewrite E.
  - specialize (IHc (scratch k i nd s)). destruct (run_on i c _) as [[e s2]|]; eapply Hstep; eauto; reflexivity.
  - destruct (afind k i l r s) as [e0|] eqn:E.
    + specialize (H e0 s). destruct (run_on i (f e0) s) as [[e s']|]; eapply Hstep; eauto; cbn; now rewrite E.
    + apply steps_one. eapply (step_act i). cbn. now rewrite E.
  - destruct (aset k i l r res s) as [s'|] eqn:E.
    + specialize (IHc s'). destruct (run_on i c s') as [[e s2]|]; eapply Hstep; eauto; cbn; now rewrite E.
    + apply steps_one. eapply (step_act i). cbn. now rewrite E.
  - destruct (mfind k i l r s) as [[e0 s']|] eqn:E.
    + specialize (H e0 s'). destruct (run_on i (f e0) s') as [[e s2]|]; eapply Hstep; eauto; cbn; now rewrite E.
    + apply steps_one. eapply (step_act i). cbn. now rewrite E.
  - destruct (mset k i l r res s) as [s'|] eqn:E.
    + specialize (IHc s'). destruct (run_on i c s') as [[e s2]|]; eapply Hstep; eauto; cbn; now rewrite E.
    + apply steps_one. eapply (step_act i). cbn. now rewrite E.
  - specialize (IHc1 s). destruct (run_on i c1 s) as [[e1 s1]|].
    2:{ exact (steps_l _ _ _ IHc1 c2 f). }
    specialize (IHc2 s1). destruct (run_on i c2 s1) as [[e2 s2]|].
    2:{ eapply steps_trans; [exact (steps_l _ _ _ IHc1 c2 f)|].
        exact (steps_r _ _ _ IHc2 (CRet e1) f). }
    specialize (H e1 e2 s2).
    destruct (run_on i (f e1 e2) s2) as [[e s3]|];
      (eapply steps_trans; [exact (steps_l _ _ _ IHc1 c2 f)|];
       eapply steps_trans; [exact (steps_r _ _ _ IHc2 (CRet e1) f)|];
       eapply steps_cons; [apply step_join|exact H]).
Qed.

Lemma run_on_0 c : forall s, run_on 0%nat c s = run c s.
Proof.
  induction c; intros s; cbn; auto.
  - destruct (readn k p s); auto.
  - destruct (intern k 0%nat nd s) as [[p s']|]; auto.
  - destruct (afind k 0%nat l r s); auto.
  - destruct (aset k 0%nat l r res s); auto.
  - destruct (mfind k 0%nat l r s) as [[e s']|]; auto.
  - destruct (mset k 0%nat l r res s); auto.
  - rewrite IHc1. destruct (run c1 s) as [[e1 s1]|]; auto. rewrite IHc2.
    destruct (run c2 s1) as [[e2 s2]|]; auto.
Qed.
Theorem run_steps c s :
  match run c s with
  | Some (e, s') => steps (Cfg_ok c s) (Cfg_ok (CRet e) s')
  | None => steps (Cfg_ok c s) Wrong
  end.
Proof. rewrite <- run_on_0. apply run_on_steps. Qed.
Lemma run_on_bind i c g : forall s, run_on i (bind c g) s =
  match run_on i c s with Some (e, s') => run_on i (g e) s' | None => None end.
Proof.
  induction c; intros s; cbn; auto.
  - destruct (readn k p s); auto.
  - destruct (intern k i nd s) as [[p s']|]; auto.
  - destruct (afind k i l r s); auto.
  - destruct (aset k i l r res s); auto.
  - destruct (mfind k i l r s) as [[e s']|]; auto.
  - destruct (mset k i l r res s); auto.
  - destruct (run_on i c1 s) as [[e1 s1]|]; auto.
    destruct (run_on i c2 s1) as [[e2 s2]|]; auto.
Qed.

(* a configuration that has not returned can always take a step *)
Theorem step_progress c s : (exists e, c = CRet e) \/ exists g, step (Cfg_ok c s) g.
Proof.
  induction c; try (right; eexists; apply (step_act 0%nat); cbn; reflexivity).
  - eauto.
  - right. destruct IHc1 as [[e1 ->]|[[c1' s'|] H1]].
    + destruct IHc2 as [[e2 ->]|[[c2' s'|] H2]].
      * eexists. apply step_join.
      * eexists. apply step_r; eauto.
      * eexists. apply step_r_wrong; eauto.
    + eexists. apply step_l; eauto.
    + eexists. apply step_l_wrong; eauto.
Qed.

(* every schedule is finite *)
Definition nstep (g' g : config) : Prop := step g g'.
Lemma Acc_Wrong : Acc nstep Wrong.
Proof. constructor. intros g H. inversion H. Qed.
Lemma step_inv_CPar c1 c2 f s g : step (Cfg_ok (CPar c1 c2 f) s) g ->
  (exists c1' s', step (Cfg_ok c1 s) (Cfg_ok c1' s') /\ g = Cfg_ok (CPar c1' c2 f) s') \/
  (exists c2' s', step (Cfg_ok c2 s) (Cfg_ok c2' s') /\ g = Cfg_ok (CPar c1 c2' f) s') \/
  g = Wrong \/
  (exists e1 e2, c1 = CRet e1 /\ c2 = CRet e2 /\ g = Cfg_ok (f e1 e2) s).
Proof.
  intros H. inversion H; subst; eauto 10. discriminate.
Qed.
(* every step yields a strictly smaller program, whatever the state *)
Definition shrink (b a : comp) : Prop := exists s s', step (Cfg_ok a s) (Cfg_ok b s').
Lemma shrink_wf : forall c, Acc shrink c.
Proof.
  induction c; try (constructor; intros b (s1 & s2 & Hs); inversion Hs as [? ? ? ? Ha| | | | |]; subst; cbn in Ha;
       try discriminate; injection Ha as Ha;
       repeat match type of Ha with context[match ?x with _ => _ end] => destruct x end;
       try discriminate; inversion Ha; subst; auto).
  revert c2 IHc2. induction IHc1 as [a1 _ IHa].
  intros c2 IHc2. induction IHc2 as [a2 A2 IHb].
  constructor. intros b (s1 & s2 & Hs).
  apply step_inv_CPar in Hs as [(x & s' & Hx & Hg)|[(x & s' & Hx & Hg)|[Hg|(e1 & e2 & -> & -> & Hg)]]];
    try discriminate; injection Hg as -> ->.
  - apply IHa; [exists s1, s'; auto|]. constructor. exact A2.
  - apply IHb. exists s1, s'; auto.
  - apply H.
Qed.
Theorem schedules_finite g : Acc nstep g.
Proof.
  destruct g as [c s|]; [|apply Acc_Wrong]. revert s.
  induction (shrink_wf c) as [c _ IH]. intros s. constructor. intros [c' s'|] H; [|apply Acc_Wrong].
  apply IH. exists s, s'; auto.
Qed.
End Sem.

Section Wp.
Context (tau : R) {HTol : Tol tau}.
#[local] Hint Extern 0 NumOps => exact (RNum tau) : typeclass_instances.
Context {CF : Cfg}.
Notation state := (@state (RNum tau)).
Notation edge := (@edge (RNum tau)).
Notation Inv := (Inv tau).
Notation rel := (rel tau).

Definition post := edge -> state -> Prop.
Definition stable (Q : post) : Prop := forall e s s', Inv s -> rel s s' -> Q e s -> Q e s'.

Fixpoint wpr (c : comp) (Q : post) (s : state) : Prop :=
  forall s', rel s s' ->
  match c with
  | CRet e => Q e s'
  | CFail => False
  | CRead k p f => exists nd, readn k p s' = Some nd /\ wpr (f nd) Q s'
  | CIntern k nd f => forall i : tid, exists p s2, intern k i nd s' = Some (p, s2) /\ rel s' s2 /\ wpr (f p) Q s2
  | CScratch k nd c' => forall i : tid, wpr c' Q (scratch k i nd s')
  | CAFind k l r f => forall i : tid, exists e, afind k i l r s' = Some e /\ wpr (f e) Q s'
  | CASet k l r e c' => forall i : tid, exists s2, aset k i l r e s' = Some s2 /\ rel s' s2 /\ wpr c' Q s2
  | CMFind k l r f => forall i : tid, exists e s2, mfind k i l r s' = Some (e, s2) /\ rel s' s2 /\ wpr (f e) Q s2
  | CMSet k l r e c' => forall i : tid, exists s2, mset k i l r e s' = Some s2 /\ rel s' s2 /\ wpr c' Q s2
  | CPar c1 c2 f => exists Q1 Q2, stable Q1 /\ stable Q2 /\ wpr c1 Q1 s' /\ wpr c2 Q2 s' /\      forall e1 e2 s2, rel s' s2 -> Q1 e1 s2 -> Q2 e2 s2 -> wpr (f e1 e2) Q s2
  end.

Lemma wpr_rel c Q s s' : rel s s' -> wpr c Q s -> wpr c Q s'.
Proof.
  intros Hr. destruct c; cbn; intros H s2 Hr2; exact (H s2 (rel_trans _ _ _ _ Hr Hr2)).
Qed.

Lemma wpr_mono c (Q Q' : post) s : Inv s -> (forall e s', rel s s' -> Q e s' -> Q' e s') ->
  wpr c Q s -> wpr c Q' s.
Proof.
  revert s. induction c; intros s HI HQ; cbn; intros H' s' Hr; specialize (H' s' Hr);
    pose proof (rel_inv _ _ _ Hr) as HI'.
  - auto.
  - auto.
  - destruct H' as (nd & H1 & H2). exists nd; split; auto. apply H; auto. intros; apply HQ; auto. eapply rel_trans; eauto.
  - intros i. destruct (H' i) as (p & s2 & H1 & H2 & H3). exists p, s2; split; [|split]; auto.
    apply H; auto. { eapply rel_inv; eauto. }
    intros; apply HQ; auto. repeat (eapply rel_trans; eauto).
  - intros i. pose proof (scratch_rel tau k i nd s' HI') as Hs.
    apply IHc; auto. { eapply rel_inv; eauto. }
    intros; apply HQ; auto. repeat (eapply rel_trans; eauto).
  - intros i. destruct (H' i) as (e & H1 & H2). exists e; split; auto. apply H; auto.
    intros; apply HQ; auto. eapply rel_trans; eauto.
  - intros i. destruct (H' i) as (s2 & H1 & H2 & H3). exists s2; split; [|split]; auto.
    apply IHc; auto. { eapply rel_inv; eauto. }
    intros; apply HQ; auto. repeat (eapply rel_trans; eauto).
  - intros i. destruct (H' i) as (p & s2 & H1 & H2 & H3). exists p, s2; split; [|split]; auto.
    apply H; auto. { eapply rel_inv; eauto. }
    intros; apply HQ; auto. repeat (eapply rel_trans; eauto).
  - intros i. destruct (H' i) as (s2 & H1 & H2 & H3). exists s2; split; [|split]; auto.
    apply IHc; auto. { eapply rel_inv; eauto. }
    intros; apply HQ; auto. repeat (eapply rel_trans; eauto).
  - destruct H' as (Q1 & Q2 & S1 & S2 & H1 & H2 & H3). exists Q1, Q2.
    split; [|split; [|split; [|split]]]; auto. intros e1 e2 s2 Hr2 HQ1 HQ2.
    apply H; auto. { eapply rel_inv; eauto. }
    intros; apply HQ; auto. repeat (eapply rel_trans; eauto).
Qed.

Lemma wpr_bind c g Q s : Inv s -> wpr c (fun e s' => wpr (g e) Q s') s -> wpr (bind c g) Q s.
Proof.
  revert s. induction c; intros s HI; cbn; intros H';
    try (intros s' Hr; specialize (H' s' Hr); pose proof (rel_inv _ _ _ Hr) as HI').
  - apply (H' s). now apply rel_refl.
  - auto.
  - destruct H' as (nd & H1 & H2). exists nd; split; auto.
  - intros i. destruct (H' i) as (p & s2 & H1 & H2 & H3). exists p, s2; split; [|split]; auto.
    apply H; auto. eapply rel_inv; eauto.
  - intros i. apply IHc; auto. eapply rel_inv; now apply scratch_rel.
  - intros i. destruct (H' i) as (e & H1 & H2). exists e; split; auto.
  - intros i. destruct (H' i) as (s2 & H1 & H2 & H3). exists s2; split; [|split]; auto.
    apply IHc; auto. eapply rel_inv; eauto.
  - intros i. destruct (H' i) as (p & s2 & H1 & H2 & H3). exists p, s2; split; [|split]; auto.
    apply H; auto. eapply rel_inv; eauto.
  - intros i. destruct (H' i) as (s2 & H1 & H2 & H3). exists s2; split; [|split]; auto.
    apply IHc; auto. eapply rel_inv; eauto.
  - destruct H' as (Q1 & Q2 & S1 & S2 & H1 & H2 & H3). exists Q1, Q2.
    split; [|split; [|split; [|split]]]; auto. intros e1 e2 s2 Hr2 HQ1 HQ2.
    apply H; auto. eapply rel_inv; eauto.
Qed.

Lemma wpr_ret e (Q : post) s : (forall s', rel s s' -> Q e s') -> wpr (CRet e) Q s.
Proof. intros H s' Hr. auto. Qed.

(* soundness *)
Lemma wpr_step c s g Q : step (Cfg_ok c s) g -> Inv s -> wpr c Q s ->
  exists c' s', g = Cfg_ok c' s' /\ rel s s' /\ wpr c' Q s'.
Proof.
  intros Hs. remember (Cfg_ok c s) as g0. revert c s Q Heqg0.
  induction Hs; intros cc ss Q [= <- <-] HI Hw.
  - destruct c; cbn in H, Hw; specialize (Hw s (rel_refl _ _ HI)); try discriminate; injection H as <-.
    + destruct Hw.
    + destruct Hw as (nd & -> & H2). eexists _, _; split; [reflexivity|]; split; [now apply rel_refl|exact H2].
    + destruct (Hw i) as (p & s2 & -> & H2 & H3). eauto.
    + specialize (Hw i). eexists _, _. split; [reflexivity|]. split; auto. now apply scratch_rel.
    + destruct (Hw i) as (e & -> & H2). eexists _, _; split; [reflexivity|]; split; [now apply rel_refl|exact H2].
    + destruct (Hw i) as (s2 & -> & H2 & H3). eauto.
    + destruct (Hw i) as (e & s2 & -> & H2 & H3). eauto.
    + destruct (Hw i) as (s2 & -> & H2 & H3). eauto.
  - destruct (Hw s (rel_refl _ _ HI)) as (Q1 & Q2 & S1 & S2 & H1 & H2 & H3).
    destruct (IHHs _ _ Q1 eq_refl HI H1) as (? & ? & [= <- <-] & Hr & Hw').
    eexists _, _. split; [reflexivity|]. split; auto. intros s2 Hr2. exists Q1, Q2.
    split; [|split; [|split; [|split]]]; auto.
    + eapply wpr_rel; eauto.
    + eapply wpr_rel; [|exact H2]. eapply rel_trans; eauto.
    + intros. apply H3; auto. eapply rel_trans; eauto. eapply rel_trans; eauto.
  - destruct (Hw s (rel_refl _ _ HI)) as (Q1 & Q2 & S1 & S2 & H1 & H2 & H3).
    destruct (IHHs _ _ Q2 eq_refl HI H2) as (? & ? & [= <- <-] & Hr & Hw').
    eexists _, _. split; [reflexivity|]. split; auto. intros s2 Hr2. exists Q1, Q2.
    split; [|split; [|split; [|split]]]; auto.
    + eapply wpr_rel; [|exact H1]. eapply rel_trans; eauto.
    + eapply wpr_rel; eauto.
    + intros. apply H3; auto. eapply rel_trans; eauto. eapply rel_trans; eauto.
  - destruct (Hw s (rel_refl _ _ HI)) as (Q1 & Q2 & S1 & S2 & H1 & H2 & H3).
    destruct (IHHs _ _ Q1 eq_refl HI H1) as (? & ? & [=] & _).
  - destruct (Hw s (rel_refl _ _ HI)) as (Q1 & Q2 & S1 & S2 & H1 & H2 & H3).
    destruct (IHHs _ _ Q2 eq_refl HI H2) as (? & ? & [=] & _).
  - destruct (Hw s (rel_refl _ _ HI)) as (Q1 & Q2 & S1 & S2 & H1 & H2 & H3).
    eexists _, _. split; [reflexivity|]. split; [now apply rel_refl|].
    apply H3; [now apply rel_refl| |].
    + apply (H1 s). now apply rel_refl.
    + apply (H2 s). now apply rel_refl.
Qed.

Lemma wpr_steps c s g Q : steps (Cfg_ok c s) g -> Inv s -> wpr c Q s ->
  exists c' s', g = Cfg_ok c' s' /\ rel s s' /\ wpr c' Q s'.
Proof.
  intros H. remember (Cfg_ok c s) as g0. revert c s Heqg0.
  induction H; intros c s -> HI Hw.
  - eexists _, _. split; [reflexivity|]. split; auto. now apply rel_refl.
  - destruct (wpr_step _ _ _ _ H HI Hw) as (c' & s' & -> & Hr & Hw').
    destruct (IHsteps _ _ eq_refl (rel_inv _ _ _ Hr) Hw') as (c2 & s2 & -> & Hr2 & Hw2).
    eexists _, _. split; [reflexivity|]. split; auto. eapply rel_trans; eauto.
Qed.

(* no schedule goes wrong, and every result satisfies the postcondition *)
Theorem wpr_safe c s Q : Inv s -> wpr c Q s -> ~ steps (Cfg_ok c s) Wrong.
Proof. intros HI Hw H. destruct (wpr_steps _ _ _ _ H HI Hw) as (? & ? & [=] & _). Qed.
Theorem wpr_result c s Q e s' : Inv s -> wpr c Q s -> steps (Cfg_ok c s) (Cfg_ok (CRet e) s') ->
  rel s s' /\ Q e s'.
Proof.
  intros HI Hw H. destruct (wpr_steps _ _ _ _ H HI Hw) as (? & ? & [= <- <-] & Hr & Hw').
  split; auto. apply (Hw' s'). apply rel_refl. eapply rel_inv; eauto.
Qed.
Theorem wpr_run c s Q : Inv s -> wpr c Q s -> exists e s', run c s = Some (e, s') /\ rel s s' /\ Q e s'.
Proof.
  intros HI Hw. pose proof (run_steps c s) as H. destruct (run c s) as [[e s']|].
  - exists e, s'. split; auto. eapply wpr_result; eauto.
  - exfalso. eapply wpr_safe; eauto.
Qed.

Theorem wpr_run_on i c s Q : Inv s -> wpr c Q s -> exists e s', run_on i c s = Some (e, s') /\ rel s s' /\ Q e s'.
Proof.
  intros HI Hw. pose proof (run_on_steps i c s) as H. destruct (run_on i c s) as [[e s']|].
  - exists e, s'. split; auto. eapply wpr_result; eauto.
  - exfalso. eapply wpr_safe; eauto.
Qed.

(* forked or sequential, two sub-computations *)
Lemma wpr_fork2 lim cv c1 c2 f (Q Q1 Q2 : post) s : Inv s -> stable Q1 -> stable Q2 ->
  wpr c1 Q1 s -> wpr c2 Q2 s ->
  (forall e1 e2 s2, rel s s2 -> Q1 e1 s2 -> Q2 e2 s2 -> wpr (f e1 e2) Q s2) ->
  wpr (fork2 lim cv c1 c2 f) Q s.
Proof.
  intros HI S1 S2 H1 H2 H3. unfold fork2. destruct (mt_on && (lim <? cv)).
  - intros s' Hr. exists Q1, Q2. split; [|split; [|split; [|split]]]; auto.
    + eapply wpr_rel; eauto.
    + eapply wpr_rel; eauto.
    + intros. apply H3; auto. eapply rel_trans; eauto.
  - apply wpr_bind; auto. eapply wpr_mono; [auto| |exact H1]. intros e1 s1 Hr1 HQ1.
    pose proof (rel_inv _ _ _ Hr1) as HI1.
    apply wpr_bind; auto. eapply wpr_mono; [auto| |eapply wpr_rel; [exact Hr1|exact H2]].
    intros e2 s2 Hr2 HQ2. apply H3; auto. eapply rel_trans; eauto. eapply S1; eauto.
Qed.

(* reading a registered node *)
Lemma wpr_read k a nd f (Q : post) s : Inv s -> reg tau k (tb s k) a nd ->
  wpr (f nd) Q s -> wpr (CRead k (Node a) f) Q s.
Proof.
  intros HI Hr Hw s' Hr'. exists nd. split; [|eapply wpr_rel; eauto].
  apply (readn_reg tau). now apply (rel_ext _ _ _ k Hr').
Qed.
Lemma wpr_scratch k nd c (Q : post) s : Inv s -> wpr c Q s -> wpr (CScratch k nd c) Q s.
Proof.
  intros HI Hw s' Hr i. eapply wpr_rel; [|exact Hw]. eapply rel_trans; [exact Hr|].
  apply scratch_rel; auto. eapply rel_inv; eauto.
Qed.
Lemma wpr_intern k nd f (Q : post) s : Inv s -> nodeok tau k (tb s k) nd ->
  (forall b nd' s2, rel s s2 -> reg tau k (tb s2 k) b nd' -> node_eqb nd nd' = true -> wpr (f (Node b)) Q s2) ->
  wpr (CIntern k nd f) Q s.
Proof.
  intros HI Hok Hw s' Hr i. pose proof (rel_inv _ _ _ Hr) as HI'.
  destruct (intern_rel tau k i nd s' HI') as (b & nd' & s2 & H1 & H2 & H3 & H4).
  - eapply nodeok_ext; [apply (rel_ext _ _ _ k Hr)|auto].
  - exists (Node b), s2. split; auto. split; auto. eapply Hw; eauto. eapply rel_trans; eauto.
Qed.
End Wp.
