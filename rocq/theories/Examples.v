(* Examples.v -- concrete, non-trivial cases meeting the hypotheses of the
   theorems of Props1-3, Prog, Circuit, GateMat: a Bell pair prepared with H and
   CX on two qubits, at tolerance 0 and, where the theorem allows it, at the
   code's tolerance 2^-42. *)
From Coq Require Import Reals Lra Psatz ZArith Bool List Lia Arith String.
From Coquelicot Require Import Complex.
From Verif Require Import Num State DD Gates GC Measure Api RNum Wf Sums Err Inv Wp Make Add MulV Canon MM MM2
  GateP StateP Kron Spec SpecP Readout GCP MeasureP MeasAllP MeasOneP ApplyP ApiP Obs Props1 Props2 Prog Circuit GateMat Props3 ErrLin.
Import ListNotations.
Open Scope Z_scope.

#[export] Instance Tol0 : Tol 0.
Proof. unfold Tol. lra. Qed.
Definition code_tol : R := (/ 2 ^ 42)%R.          (* include/dd.h:35-36 *)
#[export] Instance Tol_code : Tol code_tol.
Proof. unfold Tol, code_tol. split; [apply Rlt_le, Rinv_0_lt_compat; apply pow_lt; lra|].
  unfold Rdiv. rewrite Rmult_1_l. apply Rinv_lt_contravar; [apply Rmult_lt_0_compat; [lra|apply pow_lt; lra]|].
  replace 2%R with (2 ^ 1)%R at 1 by lra. apply Rlt_pow; [lra|lia]. Qed.
(* a sequential and a multi-threaded build with some hash functions *)
Definition cfg_of (mt : bool) (tau : R) : @Cfg (RNum tau) :=
  {| hnode := fun _ nd => nv nd; hpair := fun _ _ _ => 7;
     hptr := fun p => match p with Node a => Zpos a | _ => 0 end; mt_on := mt |}.

Definition rt2 : R := sqrt (/ 2).
Definition bell : vector := fun i => match i with O => RtoC rt2 | 3%nat => RtoC rt2 | _ => RtoC 0 end.
Lemma rt2_sq : (rt2 * rt2 = / 2)%R.
Proof. unfold rt2. apply sqrt_sqrt. lra. Qed.
Lemma rt2_pos : (0 < rt2)%R.
Proof. unfold rt2. apply sqrt_lt_R0. lra. Qed.
Lemma size2 : size_ok 2. Proof. unfold size_ok, NQUBITS. lia. Qed.
Lemma q0 : qubit 2 0. Proof. unfold qubit. lia. Qed.
Lemma q1 : qubit 2 1. Proof. unfold qubit. lia. Qed.
Lemma ctl0 n T : controls_ok n T [].
Proof. split; [constructor|intros x []]. Qed.

Section At0.
#[local] Hint Extern 0 NumOps => exact (RNum 0) : typeclass_instances.
Context (mt : bool).
#[local] Instance CFx : @Cfg (RNum 0) := cfg_of mt 0.
Notation HM := (@Hmat (RNum 0)).

Definition bell_prog : list instr := [P_mul 0 1; P_cx 2 1 0; P_mul 0 1; P_gate 2 HM 0 []; P_zero 2].
Definition cxp : nat -> nat := cx_map 1 0.
Lemma cxp_flips i : flips (Z.to_nat 1) (Z.to_nat 0) i (cxp i).
Proof. apply cx_flips. Qed.
Lemma bell_ideal : veq 2 (mv 2 (perm_matrix cxp) (mv 2 (gate1 2 HM 0 []) (basis 0))) bell.
Proof.
  assert (Hs : @SQRT2 (RNum 0) = rt2) by (rewrite SQRT2_n; reflexivity).
  intros i Hi. cbn in Hi. assert (Hc : i = 0%nat \/ i = 1%nat \/ i = 2%nat \/ i = 3%nat) by lia.
  destruct Hc as [->|[->|[->| ->]]]; cbn -[SQRT2 Cmult Cplus]; unfold cf_SQRT2_2, cf_mSQRT2_2; cbn -[SQRT2 Cmult Cplus]; rewrite ?Hs;
    apply injective_projections; cbn -[rt2]; ring.
Qed.
Lemma bell_irun : exists env os, irun bell_prog env os /\ nth_error env 0 = Some (IV 2 (mv 2 (perm_matrix cxp) (mv 2 (gate1 2 HM 0 []) (basis 0)))) /\
  nth_error env 3 = Some (IM 2 (gate1 2 HM 0 [])) /\ nth_error env 4 = Some (IV 2 (basis 0)) /\ List.length env = 5%nat.
Proof.
  exists [IV 2 (mv 2 (perm_matrix cxp) (mv 2 (gate1 2 HM 0 []) (basis 0))); IM 2 (perm_matrix cxp);
          IV 2 (mv 2 (gate1 2 HM 0 []) (basis 0)); IM 2 (gate1 2 HM 0 []); IV 2 (basis 0)], [[]; []; []; []; []].
  split; [|repeat split].
  - eapply ir_cons. eapply ir_cons. eapply ir_cons. eapply ir_cons. eapply ir_cons. apply ir_nil.
    + cbn. repeat split; try reflexivity; apply size2.
    + cbn. split; [apply size2|]. split; [apply q0|]. split; [apply ctl0|]. split; reflexivity.
    + cbn. eexists. eexists. eexists. repeat split; reflexivity.
    + cbn. split; [apply size2|]. split; [apply q1|]. split; [apply q0|]. split; [lia|]. split; [reflexivity|].
      exists cxp. split; [intros; apply cxp_flips|reflexivity].
    + cbn. eexists. eexists. eexists. repeat split; reflexivity.
Qed.
(* a reachable client holding the Bell state, the H gate and |00> *)
Lemma bell_client : exists s eb eg ez hs, reachable (s, H KV 2 eb :: hs) /\ In (H KM 2 eg) hs /\ In (H KV 2 ez) hs /\
  reads_v 0 s 2 eb bell /\ reads_m 0 s 2 eg (gate1 2 HM 0 []) /\ reads_v 0 s 2 ez (basis 0).
Proof.
  destruct bell_irun as (env & os & Hi & E0 & E3 & E4 & El).
  destruct (exec_exists 0 bell_prog env os eq_refl Hi) as ([s hs] & Hx).
  destruct (exec_refines 0 bell_prog (s, hs) os env os eq_refl Hx Hi) as (_ & Hr & Hf). cbn [fst snd] in *.
  destruct env as [|v0 [|v1 [|v2 [|v3 [|v4 [|v5 r]]]]]]; try discriminate El.
  cbn in E0, E3, E4. injection E0 as ->. injection E3 as ->. injection E4 as ->.
  inversion Hf as [|h0 ? hs1 ? H0 F1]; subst. inversion F1 as [|h1 ? hs2 ? H1 F2]; subst. inversion F2 as [|h2 ? hs3 ? H2 F3]; subst.
  inversion F3 as [|h3 ? hs4 ? H3 F4]; subst. inversion F4 as [|h4 ? hs5 ? H4 F5]; subst.
  destruct h0 as [k0 n0 e0], h3 as [k3 n3 e3], h4 as [k4 n4 e4]. cbn in H0, H3, H4.
  destruct H0 as (-> & -> & H0). destruct H3 as (-> & -> & H3). destruct H4 as (-> & -> & H4).
  exists s, e0, e3, e4, (h1 :: h2 :: H KM 2 e3 :: H KV 2 e4 :: hs5).
  split; [exact Hr|]. split; [cbn; auto|]. split; [cbn; auto|].
  split; [eapply (reads_v_veq 0); [apply bell_ideal|exact H0]|]. split; assumption.
Qed.
Lemma bell_nonzero : nonzero_v 2 bell.
Proof. exists 0%nat. split; [cbn; lia|]. cbn. intros E. injection E as E. pose proof rt2_pos. lra. Qed.
Lemma bell_norm : norm2v 2 bell = 1%R.
Proof. unfold norm2v. cbn -[rt2 Cmod pow]. rewrite !Cmod_R, Rabs_pos_eq by (pose proof rt2_pos; lra). rewrite Rabs_R0. pose proof rt2_sq. cbn [pow]. nra. Qed.
Lemma bell_le1 i : (i < 2 ^ 2)%nat -> (Cmod (bell i) <= 1)%R.
Proof.
  intros Hi. cbn in Hi. pose proof rt2_sq. pose proof rt2_pos.
  assert (Hc : i = 0%nat \/ i = 1%nat \/ i = 2%nat \/ i = 3%nat) by lia.
  destruct Hc as [->|[->|[->| ->]]]; cbn -[rt2 Cmod]; rewrite Cmod_R; try (rewrite Rabs_pos_eq by lra; nra); rewrite Rabs_R0; lra.
Qed.

(* C18 on it: the probabilities of the Bell state *)
Example ex_C18 : exists s hs e l s', reachable (s, hs) /\ In (H KV 2 e) hs /\ probabilities e s = Some (l, s') /\
  nth 0 l 0%R = (/ 2)%R /\ nth 1 l 0%R = 0%R /\ nth 2 l 0%R = 0%R /\ nth 3 l 0%R = (/ 2)%R.
Proof.
  destruct bell_client as (s & eb & eg & ez & hs & Hr & _ & _ & Hb & _ & _).
  destruct (C18_probabilities 0 s (H KV 2 eb :: hs) 2 eb bell Hr (or_introl eq_refl) ltac:(lia) Hb bell_nonzero) as (l & s' & Hp & _ & Hn & _).
  exists s, (H KV 2 eb :: hs), eb, l, s'. split; [exact Hr|]. split; [now left|]. split; [exact Hp|].
  rewrite !Hn by (cbn; lia). rewrite bell_norm. cbn -[rt2 Cmod pow].
  rewrite !Cmod_R, (Rabs_pos_eq rt2) by (pose proof rt2_pos; lra). rewrite Rabs_R0. pose proof rt2_sq. cbn [pow]. repeat split; nra.
Qed.
(* C19: sampling it gives 00 or 11, for every pair of draws *)
Example ex_C19 (t0 t1 : R) : (0 <= t0 < 1)%R -> (0 <= t1 < 1)%R -> exists s hs e r e' s', reachable (s, hs) /\ In (H KV 2 e) hs /\
  measureAll e true [t0; t1] s = Some (r, e', s') /\ (r = [false; false] \/ r = [true; true]).
Proof.
  intros T0 T1. destruct bell_client as (s & eb & eg & ez & hs & Hr & _ & _ & Hb & _ & _).
  destruct (C19_C20_measureAll 0 s (H KV 2 eb :: hs) 2 eb bell true [t0; t1] Hr (or_introl eq_refl) Hb bell_nonzero) as (b & e' & s' & Hm & Hlt & Hnz & _).
  { cbn. lia. }
  { intros x [<-|[<-|[]]]; assumption. }
  exists s, (H KV 2 eb :: hs), eb, (bitstring 2 b), e', s'. split; [exact Hr|]. split; [now left|]. split; [exact Hm|].
  cbn in Hlt. assert (Hc : b = 0%nat \/ b = 1%nat \/ b = 2%nat \/ b = 3%nat) by lia.
  destruct Hc as [->|[->|[->| ->]]]; cbn in Hnz; try (now elim Hnz); auto.
Qed.
(* hypotheses of C05, C06, C07, C08, C11, C12, C13, C16, C17, C21, C22, C26, C27, C55, C56 *)
Example ex_hypotheses : exists s eb eg ez hs, reachable (s, hs) /\
  In (H KV 2 eb) hs /\ In (H KM 2 eg) hs /\ In (H KV 2 ez) hs /\
  reads_v 0 s 2 eb bell /\ reads_m 0 s 2 eg (gate1 2 HM 0 []) /\ reads_v 0 s 2 ez (basis 0) /\
  nonzero_v 2 bell /\ norm2v 2 bell = 1%R /\ (forall i, (i < 2 ^ 2)%nat -> (Cmod (bell i) <= 1)%R) /\
  unitary 2 (gate1 2 HM 0 []) /\ is_term (en eb) = false /\ is_term (en ez) = false /\
  call hs KV 2 (mv_multiply eg eb) /\ call hs KV 2 (vv_add 0 eb ez) /\ call hs KM 2 (mm_multiply eg eg) /\
  call hs KV 4 (vv_kronecker eb ez).
Proof.
  destruct bell_client as (s & eb & eg & ez & hs & Hr & Hg & Hz & Hb & Hm & H0).
  exists s, eb, eg, ez, (H KV 2 eb :: hs). split; [exact Hr|]. split; [now left|]. split; [now right|]. split; [now right|].
  split; [exact Hb|]. split; [exact Hm|]. split; [exact H0|]. split; [apply bell_nonzero|]. split; [apply bell_norm|].
  split; [apply bell_le1|].
  assert (Hu : unitary 2 (gate1 2 HM 0 [])).
  { apply (op_unitary_mat 2 (U1 HM 0 [])); [split; [apply q0|apply ctl0]|]. cbn. apply (C23_constant_gates_unitary 0). }
  split; [exact Hu|].
  assert (Tb : is_term (en eb) = false).
  { destruct (is_term (en eb)) eqn:E; [|reflexivity]. destruct Hb as (_ & Hz' & _). specialize (Hz' E 0%nat ltac:(cbn; lia)).
    cbn in Hz'. injection Hz' as Hz'. pose proof rt2_pos. lra. }
  assert (Tz : is_term (en ez) = false).
  { destruct (is_term (en ez)) eqn:E; [|reflexivity]. destruct H0 as (_ & Hz' & _). specialize (Hz' E 0%nat ltac:(cbn; lia)).
    cbn in Hz'. injection Hz' as Hz'. lra. }
  split; [exact Tb|]. split; [exact Tz|].
  assert (Ig : In (H KM 2 eg) (H KV 2 eb :: hs)) by now right. assert (Ib : In (H KV 2 eb) (H KV 2 eb :: hs)) by now left.
  assert (Iz : In (H KV 2 ez) (H KV 2 eb :: hs)) by now right.
  split; [now apply k_mul|]. split; [now apply k_add|]. split; [now apply k_mmmul|].
  change 4%nat with (2 + 2)%nat. apply k_kron; auto. unfold NQUBITS. cbn. lia.
Qed.
(* C13: a collection given the Bell state and |00> keeps both *)
Example ex_C13 force : exists s eb ez ms es' s', reachable (s, rehandle KV [2; 2]%nat [eb; ez] ++ ms) /\ of_kind KM ms /\
  gc 0%nat [eb; ez] force s = Some (es', s') /\ exists eb' ez', es' = [eb'; ez'] /\ reads_v 0 s' 2 eb' bell /\ reads_v 0 s' 2 ez' (basis 0).
Proof.
  destruct bell_client as (s & eb & eg & ez & hs & Hr & Hg & Hz & Hb & Hm & H0).
  assert (Hr2 : reachable (s, rehandle KV [2; 2]%nat [eb; ez] ++ [H KM 2 eg])).
  { eapply r_step; [exact Hr|]. apply a_drop. intros x [<-|[<-|[<-|[]]]]; [now left|now right|now right]. }
  assert (Hk : of_kind KM [@H (RNum 0) KM 2 eg]) by (intros h [<-|[]]; reflexivity).
  destruct (C13_gc 0 s [2; 2]%nat [eb; ez] [H KM 2 eg] 0%nat force Hr2 eq_refl Hk) as (es' & s' & Hgc & Hl & Hk' & _).
  exists s, eb, ez, [H KM 2 eg], es', s'. split; [exact Hr2|]. split; [exact Hk|]. split; [exact Hgc|].
  destruct es' as [|eb' [|ez' [|]]]; try discriminate Hl. exists eb', ez'. split; [reflexivity|]. split.
  - apply (Hk' 0%nat 2%nat eb eb' bell 1%R eq_refl eq_refl eq_refl Hb bell_le1). reflexivity.
  - apply (Hk' 1%nat 2%nat ez ez' (basis 0) 1%R eq_refl eq_refl eq_refl H0); [|reflexivity].
    intros b _. unfold basis. destruct (Nat.eqb b 0); rewrite Cmod_R; [rewrite Rabs_R1|rewrite Rabs_R0]; lra.
Qed.
(* C21: measuring qubit 0 of the Bell state *)
Example ex_C21 (th : R) : (0 <= th < 1)%R -> exists s hs e z e' s', reachable (s, hs) /\ In (H KV 2 e) hs /\
  measureOneCollapsing e 0 0%R th s = Some (Ret (z, e'), s') /\ (z = false <-> (th < / 2)%R) /\
  reads_v 0 s' 2 e' (if z then basis 3 else basis 0).
Proof.
  intros Hth. destruct bell_client as (s & eb & eg & ez & hs & Hr & _ & _ & Hb & _ & _).
  pose proof rt2_sq as Hq. pose proof rt2_pos as Hp.
  assert (Hn : (Rabs (norm2v 2 bell - 1) <= 0)%R) by (rewrite bell_norm, Rminus_eq_0, Rabs_R0; lra).
  destruct (C21_measureOneCollapsing 0 s (H KV 2 eb :: hs) 2 eb bell 0 0%R th Hr (or_introl eq_refl) Hb bell_nonzero q0 Hth Hn)
    as (z & e' & s' & Hm & Hz & _ & [_ Hrd] & _).
  assert (P0 : forall b, (b = 0%nat \/ b = 1%nat) -> probq 2 bell 0 b = (/ 2)%R).
  { intros b [->| ->]; unfold probq; cbn -[rt2 Cmod pow]; rewrite ?Cmod_R, ?(Rabs_pos_eq rt2), ?Rabs_R0 by lra; cbn [pow]; nra. }
  exists s, (H KV 2 eb :: hs), eb, z, e', s'. split; [exact Hr|]. split; [now left|]. split; [exact Hm|].
  rewrite bell_norm in Hz. change (Z.to_nat 0) with 0%nat in *. rewrite (P0 0%nat) in Hz by auto. unfold Rdiv in Hz. rewrite Rinv_1, Rmult_1_r in Hz. split; [exact Hz|].
  specialize (Hrd eq_refl). rewrite P0 in Hrd by (destruct z; auto). fold rt2 in Hrd.
  eapply (reads_v_veq 0); [|exact Hrd].
  intros i Hi. cbn in Hi. assert (Hc : i = 0%nat \/ i = 1%nat \/ i = 2%nat \/ i = 3%nat) by lia.
  assert (Hd : Cdiv (RtoC rt2) (RtoC rt2) = RtoC 1) by (rewrite <- RtoC_div by lra; f_equal; field; lra).
  assert (Hz0 : Cdiv (RtoC 0) (RtoC rt2) = RtoC 0) by (unfold Cdiv; ring).
  destruct z, Hc as [->|[->|[->| ->]]]; unfold project, bell, basis; cbn -[rt2 Cdiv]; auto.
Qed.
(* C29, C30: a three-gate circuit and the same with two gates fused *)
Definition ops3 : list op := [U1 (@Zmat (RNum 0)) 1 [(0, true)]; U1 (@Xmat (RNum 0)) 1 [(0, true)]; U1 HM 0 []].
Lemma ops3_ok : forall o, In o ops3 -> op_ok 2 o /\ op_unitary o.
Proof.
  assert (Hc : controls_ok 2 [1] [(0, true)]).
  { split; [constructor; [intros []|constructor]|]. intros x [<-|[]]. cbn. split; [apply q0|]. intros [E|[]]; discriminate. }
  pose proof (C23_constant_gates_unitary 0) as (_ & U2 & U3 & _ & U5 & _).
  intros o [<-|[<-|[<-|[]]]]; cbn; (split; [split; [apply q0 || apply q1|exact Hc || apply ctl0]|assumption]).
Qed.
Example ex_C29_C30 : exists s1 h1 hs1 os1 s2 h2 hs2 os2,
  exec 0 (merged 2 [[U1 (@Zmat (RNum 0)) 1 [(0, true)]; U1 (@Xmat (RNum 0)) 1 [(0, true)]]; [U1 HM 0 []]]) (s1, h1 :: hs1) os1 /\
  exec 0 (direct 2 ops3) (s2, h2 :: hs2) os2 /\ alike 0 s1 h1 s2 h2 /\ reads_v 0 s2 2 (h_e h2) (ideal 2 ops3).
Proof.
  set (gs := [[U1 (@Zmat (RNum 0)) 1 [(0, true)]; U1 (@Xmat (RNum 0)) 1 [(0, true)]]; [U1 HM 0 []]]).
  assert (Hok : forall g o, In g gs -> In o g -> op_ok 2 o).
  { intros g o Hg Ho. assert (Hin : In o ops3). { change ops3 with (List.concat gs). apply in_concat. eauto. } apply ops3_ok in Hin. tauto. }
  destruct (merged_run 2 gs size2 Hok) as (env1 & os1 & R1).
  destruct (direct_run 2 ops3 size2 ltac:(intros o Ho; apply ops3_ok in Ho; tauto)) as (env2 & os2 & R2).
  destruct (exec_exists 0 _ _ _ eq_refl R1) as ([s1 hs1] & X1). destruct (exec_exists 0 _ _ _ eq_refl R2) as ([s2 hs2] & X2).
  destruct (exec_refines 0 _ _ _ _ _ eq_refl X1 R1) as (_ & _ & F1). destruct (exec_refines 0 _ _ _ _ _ eq_refl X2 R2) as (_ & _ & F2).
  cbn [fst snd] in *. destruct hs1 as [|h1 hs1]; [inversion F1|]. destruct hs2 as [|h2 hs2]; [inversion F2|].
  exists s1, h1, hs1, os1, s2, h2, hs2, os2. split; [exact X1|]. split; [exact X2|]. split.
  - exact (C30_merge_same 0 _ CFx CFx 2 gs s1 h1 hs1 os1 s2 h2 hs2 os2 eq_refl size2 Hok X1 X2).
  - refine (Logic.proj2 (Logic.proj2 (C29_circuit_exact 0 2 ops3 s2 h2 hs2 os2 eq_refl size2 _ X2))).
    intros o Ho; apply ops3_ok in Ho; tauto.
Qed.
End At0.

(* ---- at the code's tolerance ---- *)
Section Code.
#[local] Hint Extern 0 NumOps => exact (RNum code_tol) : typeclass_instances.
Context (mt : bool).
#[local] Instance CFc : @Cfg (RNum code_tol) := cfg_of mt code_tol.
Definition ops1 : list op := [U1 (@Xmat (RNum code_tol)) 1 [(0, true)]; U1 (@Hmat (RNum code_tol)) 0 []].
Lemma ops1_ok : forall o, In o ops1 -> op_ok 2 o /\ op_unitary o.
Proof.
  assert (Hc : controls_ok 2 [1] [(0, true)]).
  { split; [constructor; [intros []|constructor]|]. intros x [<-|[]]. cbn. split; [apply q0|]. intros [E|[]]; discriminate. }
  pose proof (C23_constant_gates_unitary code_tol) as (_ & U2 & U3 & _).
  intros o [<-|[<-|[]]]; cbn; (split; [split; [apply q0 || apply q1|exact Hc || apply ctl0]|assumption]).
Qed.
(* the circuit H; CX runs, and ends within ecirc of the Bell state *)
Lemma runs c (s : state) e s' : run c s = Some (e, s') -> steps (Cfg_ok c s) (Cfg_ok (CRet e) s').
Proof. intros E. pose proof (run_steps c s) as H. now rewrite E in H. Qed.
Example ex_C29_code : exists s hs e, circ code_tol 2 ops1 (s, hs) e /\
  reads_v_upto code_tol (ecirc code_tol 2 2) s 2 e (ideal 2 ops1).
Proof.
  assert (Hgo : forall ops, (forall o, In o ops -> In o ops1) -> exists s hs e, circ code_tol 2 ops (s, hs) e).
  { induction ops as [|o ops IH]; intros Hin.
    - destruct (C01_makeZeroState code_tol state_init [] 2 (r_init) size2) as (_ & (e & s' & Hrun) & _).
      exists s', [H KV 2 e], e. eapply (c_start code_tol 2 state_init []); [apply r_init|]. now apply runs.
    - destruct IH as (s & hs & e & Hc); [intros; apply Hin; now right|].
      assert (Hok : forall o, In o ops -> op_ok 2 o /\ op_unitary o) by (intros o' Ho; apply ops1_ok, Hin; now right).
      destruct (ops1_ok o) as [H1 H2]; [apply Hin; now left|].
      destruct (C29_circuit_progress code_tol 2 ops o s hs e size2 Hok H1 H2 Hc) as (_ & (g & s1 & Hrun) & Hall).
      assert (S1 : steps (Cfg_ok (op_comp code_tol 2 o) s) (Cfg_ok (CRet g) s1)) by now apply runs.
      destruct (Hall _ _ S1) as (_ & (e' & s2 & Hrun2) & Hall2).
      assert (S2 : steps (Cfg_ok (mv_multiply g e) s1) (Cfg_ok (CRet e') s2)) by now apply runs.
      exists s2, (H KV 2 e' :: H KM 2 g :: hs), e'. now apply Hall2. }
  destruct (Hgo ops1 ltac:(auto)) as (s & hs & e & Hc). exists s, hs, e. split; [exact Hc|].
  exact (Logic.proj1 (Logic.proj2 (C29_circuit code_tol 2 ops1 s hs e size2 ops1_ok Hc))).
Qed.

Lemma code_tol_small n : (n <= 13)%nat -> (2 * code_tol * 8 ^ n <= 1)%R.
Proof.
  intros Hn. unfold code_tol. assert (8 ^ n <= 8 ^ 13)%R by (apply Rle_pow; [lra|auto]).
  assert (0 < / 2 ^ 42)%R by (apply Rinv_0_lt_compat, pow_lt; lra).
  apply Rle_trans with (2 * / 2 ^ 42 * 8 ^ 13)%R; [apply Rmult_le_compat_l; lra|]. lra.
Qed.
(* two gates, one of them the exchange gate built by two matrix products, are
   multiplied and added, at the code's tolerance and on thread i *)
Example ex_C07_C08_C24_code (i : tid) : exists s hs g w A B,
  reachable (s, hs) /\ In (H KM 2 g) hs /\ In (H KM 2 w) hs /\
  reads_m code_tol s 2 g A /\ reads_m code_tol s 2 w B /\
  (exists a b, (forall i j, (i < 2 ^ 2)%nat -> (j < 2 ^ 2)%nat -> (Cmod (A i j) <= a)%R) /\
               (forall i j, (i < 2 ^ 2)%nat -> (j < 2 ^ 2)%nat -> (Cmod (B i j) <= b)%R)) /\
  (exists e s', run_on i (mm_multiply g w) s = Some (e, s') /\ reachable (s', H KM 2 e :: hs)) /\
  (exists e s', run_on i (mm_add g w) s = Some (e, s') /\ reachable (s', H KM 2 e :: hs)).
Proof.
  destruct (C24_CX code_tol state_init [] 2 1 0 (r_init) size2 q1 q0 ltac:(lia)) as (p & _ & _ & (g & s1 & Hg) & _).
  assert (R1 : reachable (s1, [H KM 2 g])).
  { eapply r_step; [apply r_init|]. eapply a_call; [|apply runs, Hg]. apply k_cx; [apply size2|apply q1|apply q0|lia]. }
  destruct (C24_SWAP_on code_tol s1 _ i 2 0 1 R1 size2 q0 q1 ltac:(lia)) as (p' & _ & w & s2 & Hw & _).
  assert (R2 : reachable (s2, [H KM 2 w; H KM 2 g])).
  { eapply r_step; [exact R1|]. eapply a_run; [|exact Hw]. apply q_swap; [apply size2|apply q0|apply q1|lia]. }
  assert (Ig : In (H KM 2 g) [H KM 2 w; H KM 2 g]) by (right; now left).
  assert (Iw : In (H KM 2 w) [H KM 2 w; H KM 2 g]) by now left.
  destruct (handle_reads_m code_tol s2 _ 2 g R2 Ig) as (A & RA).
  destruct (handle_reads_m code_tol s2 _ 2 w R2 Iw) as (B & RB).
  exists s2, [H KM 2 w; H KM 2 g], g, w, A, B. split; [exact R2|]. split; [exact Ig|]. split; [exact Iw|].
  split; [exact RA|]. split; [exact RB|]. split; [|split].
  - exists (Cmod (ew g)), (Cmod (ew w)). split.
    + apply (C12_root_weight_max_m code_tol _ _ _ _ _ R2 Ig RA).
    + apply (C12_root_weight_max_m code_tol _ _ _ _ _ R2 Iw RB).
  - destruct (C15_seq_calls_safe code_tol s2 _ i 2 _ R2 (q_mmmul _ 2 g w Ig Iw)) as (e & s' & Hx).
    exists e, s'. split; auto. eapply r_step; [exact R2|]. eapply a_run; [|exact Hx]. now apply q_mmmul.
  - destruct (C15_seq_calls_safe code_tol s2 _ i 2 _ R2 (q_mmadd _ 2 g w Ig Iw)) as (e & s' & Hx).
    exists e, s'. split; auto. eapply r_step; [exact R2|]. eapply a_run; [|exact Hx]. now apply q_mmadd.
Qed.
(* two qubits: a product of gates with entries of modulus at most 1 *)
Example ex_C63_code : (2 * code_tol * (2 ^ 2 * (1 + 1) + (22 * 16 ^ 2 + 1) * (1 * 1) + 1) <= / 10 ^ 8)%R.
Proof. unfold code_tol. lra. Qed.
End Code.
