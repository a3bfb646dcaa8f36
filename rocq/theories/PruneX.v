(* PruneX.v -- C49 and C50 on concrete states: instances of the theorems of
   PruneP, and the cases in which the English properties fail. *)
From Coq Require Import Reals Lra Psatz ZArith Bool List Lia Arith.
From Coquelicot Require Import Complex.
From Verif Require Import Num State DD Gates GC Measure Api Prune RNum Wf Sums Err Inv Wp Make Add MulV Canon MM MM2
  GateP StateP Kron Spec SpecP Readout GCP MeasureP MeasAllP MeasOneP ApplyP ApiP Obs Props1 Props2 Prog Circuit GateMat Props3 Examples PruneP.
Import ListNotations.
Open Scope Z_scope.

Section At0.
#[local] Hint Extern 0 NumOps => exact (RNum 0) : typeclass_instances.
Context (mt : bool).
#[local] Instance CFp : @Cfg (RNum 0) := cfg_of mt 0.

(* the reflection taking |0> to 0.8|0> + 0.6|1> *)
Definition RM : nat -> nat -> C := fun i j => match i, j with
  | O, O => RtoC (8/10) | S O, S O => RtoC (-(8/10)) | _, _ => RtoC (6/10) end.
Definition v86 : vector := fun i => match i with O => RtoC (8/10) | _ => RtoC (6/10) end.
Definition v86sq : vector := fun i => match i with O => RtoC (64/100) | 3%nat => RtoC (36/100) | _ => RtoC (48/100) end.

Lemma size1 : size_ok 1. Proof. unfold size_ok, NQUBITS. lia. Qed.
Lemma client1 : exists s e hs, reachable (s, H KV 1 e :: hs) /\ reads_v 0 s 1 e v86.
Proof.
  set (env := [IV 1 (mv 1 (gate1 1 RM 0 []) (basis 0)); IM 1 (gate1 1 RM 0 []); IV 1 (basis 0)]).
  assert (Hi : irun [P_mul 0 1; P_gate 1 RM 0 []; P_zero 1] env [[]; []; []]).
  { eapply ir_cons. eapply ir_cons. eapply ir_cons. apply ir_nil.
    - cbn. repeat split; try reflexivity; apply size1.
    - cbn. split; [apply size1|]. split; [unfold qubit; lia|]. split; [apply ctl0|]. split; reflexivity.
    - cbn. eexists. eexists. eexists. repeat split; reflexivity. }
  destruct (exec_exists 0 _ env _ eq_refl Hi) as ([s hs] & Hx).
  destruct (exec_refines 0 _ (s, hs) _ env _ eq_refl Hx Hi) as (_ & Hr & Hf). cbn [fst snd] in *.
  inversion Hf as [|h0 ? hs1 ? H0 F1]; subst. destruct h0 as [k0 n0 e0]. cbn in H0. destruct H0 as (-> & -> & H0).
  exists s, e0, hs1. split; [exact Hr|]. eapply (reads_v_veq 0); [|exact H0].
  intros i Hl. cbn in Hl. assert (Hc : i = 0%nat \/ i = 1%nat) by lia.
  destruct Hc as [->| ->]; cbn -[Cmult Cplus]; apply injective_projections; cbn; field.
Qed.
Lemma client2 : exists s e hs, reachable (s, H KV 2 e :: hs) /\ reads_v 0 s 2 e v86sq.
Proof.
  set (x1 := mv 2 (gate1 2 RM 0 []) (basis 0)). set (x2 := mv 2 (gate1 2 RM 1 []) x1).
  set (env := [IV 2 x2; IM 2 (gate1 2 RM 1 []); IV 2 x1; IM 2 (gate1 2 RM 0 []); IV 2 (basis 0)]).
  assert (Hi : irun [P_mul 0 1; P_gate 2 RM 1 []; P_mul 0 1; P_gate 2 RM 0 []; P_zero 2] env [[]; []; []; []; []]).
  { eapply ir_cons. eapply ir_cons. eapply ir_cons. eapply ir_cons. eapply ir_cons. apply ir_nil.
    - cbn. repeat split; try reflexivity; apply size2.
    - cbn. split; [apply size2|]. split; [apply q0|]. split; [apply ctl0|]. split; reflexivity.
    - cbn. eexists. eexists. eexists. repeat split; reflexivity.
    - cbn. split; [apply size2|]. split; [apply q1|]. split; [apply ctl0|]. split; reflexivity.
    - cbn. eexists. eexists. eexists. repeat split; reflexivity. }
  destruct (exec_exists 0 _ env _ eq_refl Hi) as ([s hs] & Hx).
  destruct (exec_refines 0 _ (s, hs) _ env _ eq_refl Hx Hi) as (_ & Hr & Hf). cbn [fst snd] in *.
  inversion Hf as [|h0 ? hs1 ? H0 F1]; subst. destruct h0 as [k0 n0 e0]. cbn in H0. destruct H0 as (-> & -> & H0).
  exists s, e0, hs1. split; [exact Hr|]. eapply (reads_v_veq 0); [|exact H0].
  intros i Hl. cbn in Hl. assert (Hc : i = 0%nat \/ i = 1%nat \/ i = 2%nat \/ i = 3%nat) by lia.
  unfold x2, x1. destruct Hc as [->|[->|[->| ->]]]; cbn -[Cmult Cplus]; apply injective_projections; cbn; field.
Qed.

(* one qubit: nothing is shared within the state *)
Lemma unshared1 s e hs : reachable (s, H KV 1 e :: hs) -> unshared 0 (tb s KV) 1 e.
Proof.
  intros Hr. unfold unshared. cbn. destruct (en e); try constructor. destruct (heap (tb s KV) a); [|constructor].
  assert (E : flat_map (fun _ : edge => @nil positive) (nch n) = []) by (induction (nch n); auto). rewrite E.
  constructor; [intros []|constructor].
Qed.

(* FINDING: prune changes the nodes in place, so a copy of the handle that was
   not passed changes too: it read (0.8, 0.6) and now reads (0.8, 0). *)
Theorem C49_other_handle_refuted : exists s hs e cnt st, reachable (s, H KV 1 e :: hs) /\ reads_v 0 s 1 e v86 /\
  prune KV e (7/10)%R (tb s KV) (term_init KV) = Some (cnt, st) /\
  reads_v 0 (after 0 s st) 1 e (fun i => match i with O => RtoC (8/10) | _ => RtoC 0 end).
Proof.
  destruct client1 as (s & e & hs & Hr & Hv).
  destruct (C49_unshared_partial 0 s _ 1 e v86 (7/10) (term_init KV) Hr (or_introl eq_refl) Hv ltac:(lra) (term_zero_init 0) (unshared1 _ _ _ Hr))
    as (cnt & st & E1 & R1).
  destruct (prune_call 0 s _ 1 e v86 (7/10) (term_init KV) Hr (or_introl eq_refl) Hv ltac:(lra) (term_zero_init 0))
    as (cnt' & st' & E2 & _ & _ & Zc & _).
  rewrite E1 in E2. injection E2 as <- <-.
  assert (Hcut : veq 1 (cut (7/10) v86) (fun i => match i with O => RtoC (8/10) | _ => RtoC 0 end)).
  { intros i Hl. cbn in Hl. assert (Hc : i = 0%nat \/ i = 1%nat) by lia. unfold cut.
    destruct Hc as [->| ->]; cbn -[Cmod]; rewrite Cmod_R, Rabs_pos_eq by lra;
      [destruct (Rltb_spec (8/10) (7/10)); [lra|reflexivity] | destruct (Rltb_spec (6/10) (7/10)); [reflexivity|lra]]. }
  exists s, hs, e, cnt, st. split; [exact Hr|]. split; [exact Hv|]. split; [exact E1|].
  destruct Zc as [Ee|Ee]; rewrite Ee in R1; [eapply (reads_v_veq 0); [exact Hcut|exact R1]|].
  exfalso. destruct R1 as (_ & R2 & _). specialize (R2 eq_refl 0%nat ltac:(cbn; lia)). rewrite (Hcut 0%nat ltac:(cbn; lia)) in R2.
  cbn in R2. injection R2 as R2. lra.
Qed.

(* FINDING: the two halves of 0.64|00> + 0.48|01> + 0.48|10> + 0.36|11> are the
   same node; with threshold 0.4 the passed state itself loses an amplitude of
   0.48. *)
Theorem C49_exact_refuted : exists s hs e cnt st, reachable (s, H KV 2 e :: hs) /\ reads_v 0 s 2 e v86sq /\
  prune KV e (4/10)%R (tb s KV) (term_init KV) = Some (cnt, st) /\
  ~ reads_v 0 (after 0 s st) 2 (pm_root st) (cut (4/10) v86sq).
Proof.
  destruct client2 as (s & e & hs & Hr & Hv).
  destruct (prune_call 0 s _ 2 e v86sq (4/10) (term_init KV) Hr (or_introl eq_refl) Hv ltac:(lra) (term_zero_init 0))
    as (cnt & st & E2 & _ & Hz & Zc & Hw & _).
  exists s, hs, e, cnt, st. split; [exact Hr|]. split; [exact Hv|]. split; [exact E2|].
  intros (Hq & _). pose proof (inv_tb _ _ (reach_Inv 0 _ _ Hr) KV) as HT.
  assert (C1 : cut (4/10) v86sq 1%nat = RtoC (48/100)).
  { unfold cut. cbn -[Cmod]. rewrite Cmod_R, Rabs_pos_eq by lra. destruct (Rltb_spec (48/100) (4/10)); [lra|reflexivity]. }
  assert (C2 : cut (4/10) v86sq 2%nat = RtoC (48/100)).
  { unfold cut. cbn -[Cmod]. rewrite Cmod_R, Rabs_pos_eq by lra. destruct (Rltb_spec (48/100) (4/10)); [lra|reflexivity]. }
  assert (C3 : cut (4/10) v86sq 3%nat = RtoC 0).
  { unfold cut. cbn -[Cmod]. rewrite Cmod_R, Rabs_pos_eq by lra. destruct (Rltb_spec (36/100) (4/10)); [reflexivity|lra]. }
  pose proof (Hq 1%nat ltac:(cbn; lia)) as Q1. pose proof (Hq 2%nat ltac:(cbn; lia)) as Q2. pose proof (Hq 3%nat ltac:(cbn; lia)) as Q3.
  rewrite C1 in Q1. rewrite C2 in Q2. rewrite C3 in Q3.
  destruct Zc as [Ee|Ee]; rewrite Ee in Q1, Q2, Q3.
  2:{ unfold vecof, vecF in Q1. rewrite (val_zeroE 0) in Q1. injection Q1 as Q1. lra. }
  (* the root node and its two children *)
  pose proof (Logic.proj1 Hv) as Hv'.
  destruct Hw as [(a & nd & Hp & Hrg & Hlv)|[_ Ht]].
  2:{ destruct Hv as (_ & Hv2 & _). specialize (Hv2 ltac:(now rewrite Ht) 0%nat ltac:(cbn; lia)). cbn in Hv2. injection Hv2 as Hv2. lra. }
  pose proof (reg_ok 0 _ _ _ _ HT Hrg) as Hok.
  pose proof (no_len _ _ _ _ Hok) as Hlen. cbn in Hlen.
  assert (Hc : forall i, wfe 0 KV (tb s KV) 1 (nth i (nch nd) zeroE)).
  { intros i. pose proof (reg_child 0 _ _ _ _ i HT Hrg) as Hx. rewrite Hlv in Hx. exact Hx. }
  set (c0' := nth 0 (nch nd) zeroE). set (c1' := nth 1 (nch nd) zeroE).
  assert (Hroot : forall i, vecof 0 s 2 e i = Cmult (ew e) (Wf.val 0 KV (tb s KV) 1 (nth (bix i 1%nat) (nch nd) zeroE) (bix i))).
  { intros i. unfold vecof, vecF, Wf.val at 1. rewrite Hp. rewrite (valp_S_node 0 _ _ 1 a nd) by auto. reflexivity. }
  assert (V0 := Hv' 0%nat ltac:(cbn; lia)). assert (V1 := Hv' 1%nat ltac:(cbn; lia)).
  assert (V2 := Hv' 2%nat ltac:(cbn; lia)). assert (V3 := Hv' 3%nat ltac:(cbn; lia)).
  rewrite Hroot in V0, V1, V2, V3.
  change (nth (bix 0%nat 1%nat) (nch nd) zeroE) with c0' in V0. change (nth (bix 1%nat 1%nat) (nch nd) zeroE) with c0' in V1.
  change (nth (bix 2%nat 1%nat) (nch nd) zeroE) with c1' in V2. change (nth (bix 3%nat 1%nat) (nch nd) zeroE) with c1' in V3.
  cbn [v86sq] in V0, V1, V2, V3.
  assert (nz : forall x y r, Cmult x y = RtoC r -> (0 < r)%R -> x <> RtoC 0 /\ y <> RtoC 0).
  { intros x y r E Hrr. split; intros ->; [rewrite Cmult_0_l in E|rewrite Cmult_0_r in E]; injection E as E; lra. }
  unfold Wf.val in V0, V1, V2, V3.
  destruct (nz _ _ _ V0 ltac:(lra)) as [We W0]. destruct (nz _ _ _ V2 ltac:(lra)) as [_ W2].
  assert (Wc0 : ew c0' <> RtoC 0) by (intros E; apply W0; rewrite E; ring).
  assert (Wc1 : ew c1' <> RtoC 0) by (intros E; apply W2; rewrite E; ring).
  assert (P0 : wfp 0 KV (tb s KV) 1 (en c0')) by (apply (wfe_nz 0); [apply Hc|exact Wc0]).
  assert (P1 : wfp 0 KV (tb s KV) 1 (en c1')) by (apply (wfe_nz 0); [apply Hc|exact Wc1]).
  set (q := fun ix => Wf.valp 0 KV (tb s KV) 1 (en c0') ix) in *.
  assert (Hloc : forall p i ix, ix 0%nat = bit i 0%nat -> Wf.valp 0 KV (tb s KV) 1 p (bix i) = Wf.valp 0 KV (tb s KV) 1 p ix).
  { intros p i ix E. apply (valp_local 0). intros l Hl. replace l with 0%nat by lia. now rewrite E. }
  assert (Hover : forall p ix, wfp 0 KV (tb s KV) 1 p -> (2 <= ix 0%nat)%nat -> Wf.valp 0 KV (tb s KV) 1 p ix = RtoC 0).
  { intros p ix (b & nb & -> & Hb & Hbl) Hge. rewrite (valp_S_node 0 _ _ 0 b nb) by auto.
    pose proof (no_len _ _ _ _ (reg_ok 0 _ _ _ _ HT Hb)) as Hl. rewrite nth_overflow by (cbn in Hl; rewrite Hl; exact Hge). apply (val_zeroE 0). }
  assert (Heq : en c0' = en c1').
  { set (r := Cdiv (Cmult (RtoC (64/48)) (ew c1')) (ew c0')).
    apply (canon_ptr 0 KV (tb s KV) eq_refl HT 1 (en c0') (en c1') r P0 P1).
    assert (K : forall i j x y, Cmult (ew e) (Cmult (ew c0') (Wf.valp 0 KV (tb s KV) 1 (en c0') (bix i))) = RtoC x ->
       Cmult (ew e) (Cmult (ew c1') (Wf.valp 0 KV (tb s KV) 1 (en c1') (bix j))) = RtoC y -> x = (64/48 * y)%R ->
       Wf.valp 0 KV (tb s KV) 1 (en c0') (bix i) = Cmult r (Wf.valp 0 KV (tb s KV) 1 (en c1') (bix j))).
    { intros i j x y Ex Ey Exy.
      assert (EE : Cmult (ew e) (Cmult (ew c0') (Wf.valp 0 KV (tb s KV) 1 (en c0') (bix i))) =
                   Cmult (RtoC (64/48)) (Cmult (ew e) (Cmult (ew c1') (Wf.valp 0 KV (tb s KV) 1 (en c1') (bix j))))).
      { rewrite Ex, Ey, Exy. now rewrite RtoC_mult. }
      unfold r. set (A := Wf.valp 0 KV (tb s KV) 1 (en c0') (bix i)) in *. set (B := Wf.valp 0 KV (tb s KV) 1 (en c1') (bix j)) in *.
      set (x0 := ew e : C) in *. set (x1 := ew c0' : C) in *. set (x2 := ew c1' : C) in *. set (rr := RtoC (64/48)) in *.
      clearbody A B x0 x1 x2 rr. clear -EE We Wc0.
      assert (E2 : Cmult x1 A = Cmult rr (Cmult x2 B)).
      { replace (Cmult x1 A) with (Cmult (Cinv x0) (Cmult x0 (Cmult x1 A))) by (field; exact We). rewrite EE. field. exact We. }
      replace A with (Cmult (Cinv x1) (Cmult x1 A)) by (field; exact Wc0). rewrite E2. field. exact Wc0. }
    intros ix. destruct (ix 0%nat) as [|[|k]] eqn:Ei.
    - rewrite <- (Hloc _ 0%nat ix), <- (Hloc _ 2%nat ix) by (rewrite Ei; reflexivity).
      apply (K _ _ _ _ V0 V2). lra.
    - rewrite <- (Hloc _ 1%nat ix), <- (Hloc _ 3%nat ix) by (rewrite Ei; reflexivity).
      apply (K _ _ _ _ V1 V3). lra.
    - rewrite !Hover by (auto; lia). ring. }
  (* after pruning *)
  destruct (Hz a nd (Logic.proj1 Hrg)) as (nd' & Hh' & Hv2 & F2).
  set (t' := pm_tab st) in *.
  assert (Hroot' : forall i, vecof 0 (after 0 s st) 2 e i = Cmult (ew e) (Wf.val 0 KV t' 1 (nth (bix i 1%nat) (nch nd') zeroE) (bix i))).
  { intros i. unfold vecof, vecF, Wf.val at 1. rewrite Hp. change (tb (after 0 s st) KV) with t'. cbn [Wf.valp]. rewrite Hh', Hv2, Hlv.
    cbn [Z.of_nat Pos.of_succ_nat Z.eqb Pos.eqb]. reflexivity. }
  rewrite Hroot' in Q1, Q2, Q3.
  change (bix 1%nat 1%nat) with 0%nat in Q1. change (bix 2%nat 1%nat) with 1%nat in Q2. change (bix 3%nat 1%nat) with 1%nat in Q3.
  destruct (nz _ _ _ Q1 ltac:(lra)) as [_ N1]. destruct (nz _ _ _ Q2 ltac:(lra)) as [_ N2].
  destruct (F2_nth 0 _ _ 0 F2) as [D0|D0]; rewrite D0 in N1; [|exfalso; apply N1; apply (val_zeroE 0)].
  destruct (F2_nth 0 _ _ 1 F2) as [D1|D1]; [|rewrite D1 in N2; exfalso; apply N2; apply (val_zeroE 0)].
  rewrite D1 in Q3. change (nth 1 (nch nd) zeroE) with c1' in Q3. change (nth 0 (nch nd) zeroE) with c0' in N1.
  unfold Wf.val in N1, Q3. rewrite Heq in N1.
  assert (Es : Wf.valp 0 KV t' 1 (en c1') (bix 3%nat) = Wf.valp 0 KV t' 1 (en c1') (bix 1%nat)).
  { apply (valp_local 0). intros l Hl. replace l with 0%nat by lia. reflexivity. }
  rewrite Es in Q3. set (z := Wf.valp 0 KV t' 1 (en c1') (bix 1%nat)) in *.
  assert (Nz : z <> RtoC 0) by (intros E; apply N1; rewrite E; ring).
  apply Nz. replace z with (Cmult (Cinv (Cmult (ew e) (ew c1'))) (Cmult (ew e) (Cmult (ew c1') z))).
  - rewrite Q3. ring.
  - match goal with |- ?a = ?b => change (@eq C a b) end. field. split; [exact Wc1|exact We].
Qed.

(* FINDING: saving the Bell state and loading it gives a state with largest
   amplitude 1 instead of 1/sqrt 2: not the state saved. *)
Theorem C50_refuted : exists s hs e cs e' s', reachable (s, H KV 2 e :: hs) /\ reads_v 0 s 2 e bell /\
  save_binary s e = Some cs /\ load_binary 0%nat cs s = Some (e', s') /\ ~ reads_v 0 s' 2 e' bell.
Proof.
  destruct (bell_client mt) as (s & e & eg & ez & hs & Hr & _ & _ & Hb & _).
  assert (Hnt : is_term (en e) = false).
  { destruct (is_term (en e)) eqn:Ht; [|reflexivity]. destruct Hb as (_ & Hb2 & _). specialize (Hb2 Ht 0%nat ltac:(cbn; lia)).
    cbn -[rt2] in Hb2. injection Hb2 as Hb2. pose proof rt2_pos. lra. }
  destruct (C50_scaled_partial 0 s _ 2 e bell s _ 0%nat Hr (or_introl eq_refl) Hb Hnt Hr) as (cs & e' & s3 & u & S1 & L1 & W1 & Hu & _ & R1 & _).
  exists s, hs, e, cs, e', s3. split; [exact Hr|]. split; [exact Hb|]. split; [exact S1|]. split; [exact L1|].
  intros (Hx & _). specialize (R1 eq_refl). destruct R1 as (R1 & _).
  assert (U0 : u 0%nat = bell 0%nat) by (rewrite <- (R1 0%nat ltac:(cbn; lia)); apply (Hx 0%nat); cbn; lia).
  pose proof (Hu 0%nat ltac:(cbn; lia)) as E0. cbv beta in E0. rewrite U0 in E0.
  destruct (C12_root_weight_max_v 0 s _ 2 e bell Hr (or_introl eq_refl) Hb) as (_ & i & Hi & Ei).
  assert (Hm : Cmod (ew e) = 1%R).
  { assert (E1 : Cmod (bell 0%nat) = (Cmod (ew e) * Cmod (bell 0%nat))%R) by (rewrite <- Cmod_mult, <- E0; reflexivity).
    cbn -[rt2 Cmod] in E1. rewrite Cmod_R, Rabs_pos_eq in E1 by (pose proof rt2_pos; lra). pose proof rt2_pos. nra. }
  rewrite Hm in Ei. assert (Hlt : (rt2 < 1)%R) by (pose proof rt2_sq; pose proof rt2_pos; nra). pose proof rt2_pos.
  cbn in Hi. assert (Hc : i = 0%nat \/ i = 1%nat \/ i = 2%nat \/ i = 3%nat) by lia.
  destruct Hc as [->|[->|[->| ->]]]; cbn -[rt2 Cmod] in Ei; rewrite Cmod_R in Ei; rewrite ?Rabs_R0 in Ei; rewrite ?(Rabs_pos_eq rt2) in Ei by lra; lra.
Qed.
End At0.
