(* BackendX.v -- C40 (exact distributions), C44 (statevector backend), findings:
   concrete circuits on which C36, C37, C39, C40 fail in general, and concrete
   circuits that meet the hypotheses of the theorems of BackendP and BackendQ. *)
From Coq Require Import Reals Lra Psatz ZArith Bool List Lia Arith FunctionalExtensionality.
From Coquelicot Require Import Complex.
From Verif Require Import Num State DD Gates GC Measure Api RNum Wf Sums Err Inv Wp Spec SpecP LargeP ApplyP ApiP Obs Props1 Props2
  GateMat Backend BackSpec BackendP BackendQ.
Import ListNotations.
Open Scope nat_scope.

(* ---- C40 ---- *)
(* the classical bits of a number *)
Definition bits_of (n i : nat) : list bool := map (Nat.testbit i) (seq 0 n).
Lemma exec_none_stable eps n ncl l : forall measured v pc, Stable measured l -> insts_ok n ncl l ->
  exec_none eps n true l v pc = Leaf (finalv n l v, pc).
Proof.
  induction l as [|x l IH]; intros measured v pc Hs Hok; cbn [exec_none finalv]; auto.
  assert (Hok' : insts_ok n ncl l) by (intros y Hy; apply Hok; right; exact Hy).
  destruct (Hok x (or_introl eq_refl)) as [Hsup _]. unfold supported in Hsup. cbn [Stable] in Hs.
  destruct (op x) as [g|q c|q|qs|qs|qs|qs] eqn:E; try contradiction; try (destruct Hs as (_ & _ & _ & _ & Hs); eapply IH; eauto; fail).
  - eapply IH; eauto.
  - destruct Hs as (_ & _ & Hr & _). discriminate.
Qed.
Lemma readout_len l i : forall cl, length (readout l i cl) = length cl.
Proof. induction l as [|x l IH]; intros cl; cbn; auto. destruct (op x); auto. rewrite IH. apply upd_len. Qed.
Lemma readout_identity n l i : (forall k, k < n -> last_into l k = Some k) -> readout l i (repeat false n) = bits_of n i.
Proof.
  intros H. apply list_ext; [unfold bits_of; now rewrite readout_len, repeat_length, map_length, seq_length|].
  intros j Hj. rewrite readout_len, repeat_length in Hj.
  pose proof (mdict_readout i l [] (repeat false n) (NoDup_nil _)) as Hm. cbn [fillin fold_left] in Hm.
  change (fold_left (fun acc kv => upd acc (fst kv) (Nat.testbit i (snd kv))) [] (repeat false n)) with (repeat false n) in Hm.
  rewrite <- Hm. rewrite fillin_nth by (try rewrite repeat_length; auto; apply mdict_nodup; constructor).
  rewrite mdict_get. cbn [dget]. fold (last_into l j). rewrite (H j Hj).
  unfold bits_of. rewrite nth_indep with (d' := Nat.testbit i 0) by (rewrite map_length, seq_length; lia).
  rewrite map_nth, seq_nth by lia. reflexivity.
Qed.
(* stable circuits whose n clbits receive the n qubits in order: the value returned
   for i is the probability that the classical bits read i *)
Theorem C40_identity_partial eps c p req : circ_ok c -> validate_circuit req c = Some p -> stable_final_state p = true ->
  (forall x, In x (data c) -> cnd x = None) -> nc c = nq c -> (forall k, k < nq c -> last_into (data c) k = Some k) ->
  exists l, evaluate eps c p None = Leaf (Probs l) /\ length l = 2 ^ nc c /\
    forall i, i < 2 ^ nc c -> nth i l 0%R = dist c (bits_of (nc c) i).
Proof.
  intros (Hok & Hw & Hp) Hv Hst Hcn Hnc Hlast. unfold validate_circuit in Hv. destruct (max_qubits <? nq c); [discriminate|].
  destruct (classify (nq c) 0 (data c) true [] []) as [[st me] m] eqn:E. destruct (_ && _); [discriminate|].
  injection Hv as <-. cbn in Hst. subst st. apply classify_true in E as [Hs ->].
  unfold evaluate. replace (existsb has_cond (data c)) with false.
  2:{ symmetry. apply not_true_iff_false. intros Hx. apply existsb_exists in Hx as (x & Hx & Hc). unfold has_cond in Hc. rewrite (Hcn x Hx) in Hc. discriminate. }
  cbn [stable_final_state]. rewrite (exec_none_stable eps (nq c) (nc c) (data c) [] _ _ Hs Hok). cbn [bind].
  eexists. split; [reflexivity|]. split; [unfold probs; rewrite map_length, seq_length; now rewrite Hnc|].
  intros i Hi. rewrite Hnc in Hi. set (w := finalv (nq c) (data c) (basis 0)).
  assert (Hn : norm2v (nq c) (phase (gphase c) w) = 1%R).
  { unfold phase. rewrite norm2v_scaled, Cmod_phase. unfold w. erewrite finalv_norm by eauto. rewrite norm_basis0. ring. }
  unfold probs. set (f := fun i0 : nat => (Cmod (phase (gphase c) w i0) ^ 2 / norm2v (nq c) (phase (gphase c) w))%R).
  rewrite nth_indep with (d' := f 0) by (rewrite map_length, seq_length; lia). rewrite map_nth, seq_nth by lia. unfold f. rewrite Hn.
  unfold dist. rewrite (weight_stable (nq c) (nc c) (data c) [] (basis 0) _ _ Hs Hok Hw Hp).
  rewrite (rsum_zero_iff _ _ i).
  - rewrite Hnc, readout_identity by exact Hlast. destruct (list_eq_dec _ (bits_of (nq c) i) _) as [_|Hne]; [|contradiction].
    fold w. unfold phase, scaled. rewrite Cmod_mult, Cmod_phase. cbn [Nat.add]. field.
  - exact Hi.
  - intros j Hj Hne. rewrite Hnc, readout_identity by exact Hlast. destruct (list_eq_dec _ _ _) as [He|_]; [|reflexivity].
    exfalso. apply Hne. apply (bits_inj_n (nq c)); auto. intros l Hl. unfold bits_of in He.
    pose proof (f_equal (fun z => nth l z (Nat.testbit 0 0)) He) as H1. cbn beta in H1.
    rewrite !nth_indep with (d := Nat.testbit 0 0) (d' := Nat.testbit j 0) in H1 by (rewrite map_length, seq_length; lia).
    rewrite map_nth, seq_nth in H1 by lia.
    rewrite nth_indep with (d' := Nat.testbit i 0) in H1 by (rewrite map_length, seq_length; lia).
    rewrite map_nth, seq_nth in H1 by lia. exact H1.
Qed.

(* ---- concrete circuits on one qubit ---- *)
Definition xg : inst := I (BGate (G1 X [0])) None.
Definition meas (q c : nat) : inst := I (BMeasure q c) None.
Lemma x_basis : veq 1 (mv 1 (gate1 1 X 0 []) (basis 0)) (basis 1).
Proof.
  intros i Hi. rewrite gate1_action by (auto; lia). cbn in Hi. assert (i = 0 \/ i = 1) as [->| ->] by lia;
    unfold X, basis; cbn; apply injective_projections; cbn; ring.
Qed.
Lemma sup_x ncl cn : supported 1 ncl (I (BGate (G1 X [0])) cn).
Proof. cbn. apply unitary_X. lia. Qed.
Lemma norm1_basis b : b < 2 -> norm2v 1 (basis b) = 1%R.
Proof. intros H. unfold norm2v. cbn. assert (b = 0 \/ b = 1) as [->| ->] by lia; unfold basis; cbn; rewrite Cmod_0, Cmod_1; ring. Qed.
Lemma proj_basis b a : b < 2 -> a < 2 -> norm2v 1 (project 0 a (basis b)) = if a =? b then 1%R else 0%R.
Proof.
  intros Hb Ha. assert (b = 0 \/ b = 1) as [->| ->] by lia; assert (a = 0 \/ a = 1) as [->| ->] by lia;
    unfold norm2v, project, basis; cbn; rewrite ?Cmod_0, ?Cmod_1; ring.
Qed.

(* FINDING (C37): a condition on a register that does not start at clbit 0 is
   compared with the wrong bits of the value.  One qubit, clbits c0 and c1, where
   c1 alone is a register: "x q0 if (reg == 1); measure q0 -> c0".  The register
   holds 0, so q0 stays |0> and the outcome is 00; the backend applies x and
   always prints c0 = 1. *)
Definition cC : circ := Circ 1 2 [I (BGate (G1 X [0])) (Some (CReg [1] 1)); meas 0 0] 0%R.
Definition cX : circ := Circ 1 2 [xg; meas 0 0] 0%R.
Lemma cX_ok : circ_ok cX.
Proof.
  split; [|split].
  - intros x [<-|[<-|[]]]; (split; [|exact Logic.I]); [apply sup_x|cbn; lia].
  - intros x g [<-|[<-|[]]] E; cbn in E; try discriminate. injection E as <-. cbn. discriminate.
  - intros x q c [<-|[<-|[]]] E; cbn in E; try discriminate. reflexivity.
Qed.
Lemma cX_dist : dist cX [true; false] = 1%R.
Proof.
  unfold dist, cX, xg, meas. cbn [weight data cnd op nq nc cond_holds repeat upd gate_mat last removelast ctl_of map].
  destruct (list_eq_dec _ [false; false] [true; false]); [discriminate|].
  destruct (list_eq_dec _ [true; false] [true; false]); [|contradiction].
  rewrite (norm2v_veq 1 _ (project 0 1 (basis 1))) by (apply project_veq, x_basis). rewrite proj_basis by lia. cbn. ring.
Qed.
Theorem C37_refuted eps : (0 <= eps)%R ->
  insts_ok 1 2 [meas 0 0] /\ supported 1 2 (I (BGate (G1 X [0])) (Some (CReg [1] 1))) /\
  dist cC [false; false] = 1%R /\ Prob str_dec (shot_unstable eps cC) (rev [true; false]) = 1%R /\
  (forall cl, reg_value [1] cl = 1 <-> nth 1 cl false = true) /\ skip [false; true] (Some (CReg [1] 1)) = true.
Proof.
  intros He. split; [|split; [|split; [|split; [|split]]]].
  - intros x [<-|[]]. split; [cbn; lia|exact Logic.I].
  - apply sup_x.
  - unfold dist, cC. cbn [weight data cnd op nq nc cond_holds repeat upd reg_value nth b2n Nat.eqb Nat.add Nat.mul meas].
    destruct (list_eq_dec _ [false; false] [false; false]); [|contradiction].
    destruct (list_eq_dec _ [true; false] [false; false]); [discriminate|]. rewrite proj_basis by lia. cbn. ring.
  - transitivity (Prob str_dec (shot_unstable eps cX) (rev [true; false])); [reflexivity|].
    rewrite shot_unstable_dist by (auto; apply cX_ok). apply cX_dist.
  - intros cl. cbn. unfold b2n. destruct (nth 1 cl false); split; auto; discriminate.
  - reflexivity.
Qed.

(* FINDING (C36): a conditional measurement is treated as unconditional when
   classifying, and the circuit is sampled as if the measurement always happened.
   "x q0; measure q0 -> c0 if c1 == 1": c1 is 0, so c0 is never written; the
   backend always prints c0 = 1. *)
Definition cM : circ := Circ 1 2 [xg; I (BMeasure 0 0) (Some (CBit 1 true))] 0%R.
Theorem C36_refuted eps : (0 <= eps)%R -> exists p w,
  insts_ok 1 2 (data cM) /\ gates_wf 1 (data cM) /\
  validate_circuit true cM = Some p /\ stable_final_state p = true /\
  exec eps (nq cM) true (data cM) (basis 0) (repeat false (nc cM)) [] = Leaf (w, repeat false (nc cM), []) /\
  Prob str_dec (shot_stable cM p (phase (gphase cM) w)) (rev [true; false]) = 1%R /\
  Prob str_dec (shot_unstable eps cM) (rev [false; false]) = 1%R /\ dist cM [false; false] = 1%R.
Proof.
  intros He. exists (Prop_ true [(0, 0)]). exists (mv 1 (gate1 1 X 0 []) (basis 0)).
  assert (Hok : insts_ok 1 2 (data cM)).
  { intros x [<-|[<-|[]]]; (split; [|exact Logic.I]); [apply sup_x|cbn; lia]. }
  assert (Hd : dist cM [false; false] = 1%R).
  { unfold dist, cM, xg. cbn [weight data cnd op nq nc cond_holds repeat upd nth Bool.eqb].
    destruct (list_eq_dec _ [false; false] [false; false]); [|contradiction].
    rewrite unitary_norm; [apply norm1_basis; lia|]. cbn. apply unitary_X. lia. }
  split; [exact Hok|]. split.
  { intros x g [<-|[<-|[]]] E; cbn in E; try discriminate. injection E as <-. cbn. discriminate. }
  split; [reflexivity|]. split; [reflexivity|]. split; [reflexivity|]. split; [|split; [|exact Hd]].
  - destruct (shot_stable_dist eps cX (Prop_ true [(0, 0)]) true cX_ok eq_refl eq_refl) as [_ Hx].
    specialize (Hx [true; false]). rewrite cX_dist in Hx. exact Hx.
  - rewrite shot_unstable_dist; auto.
Qed.

(* FINDING (C40): with shots=None the distribution of a stable circuit is over the
   qubits.  Two qubits, one clbit, "x q1; measure q1 -> c0": the clbit is 1 with
   certainty, but the value 1 is reported with probability 0 (and 2 with 1). *)
Definition cQ : circ := Circ 2 1 [I (BGate (G1 X [1])) None; meas 1 0] 0%R.
Lemma x1_basis : veq 2 (mv 2 (gate1 2 X 1 []) (basis 0)) (basis 2).
Proof.
  intros i Hi. rewrite gate1_action by (auto; lia). cbn in Hi. assert (i = 0 \/ i = 1 \/ i = 2 \/ i = 3) as [->|[->|[->| ->]]] by lia;
    unfold X, basis; cbn; apply injective_projections; cbn; ring.
Qed.
Theorem C40_stable_refuted eps : exists p l, circ_ok cQ /\ validate_circuit true cQ = Some p /\ evaluate eps cQ p None = Leaf (Probs l) /\
  dist cQ [true] = 1%R /\ nth 1 l 0%R = 0%R /\ nth 2 l 0%R = 1%R.
Proof.
  exists (Prop_ true [(0, 1)]). eexists.
  assert (Hok : circ_ok cQ).
  { split; [|split].
    - intros x [<-|[<-|[]]]; (split; [|exact Logic.I]); [cbn; apply unitary_X; lia|cbn; lia].
    - intros x g [<-|[<-|[]]] E; cbn in E; try discriminate. injection E as <-. cbn. discriminate.
    - intros x q c [<-|[<-|[]]] E; cbn in E; try discriminate. reflexivity. }
  split; [exact Hok|]. split; [reflexivity|]. split; [cbn -[probs]; reflexivity|].
  assert (Hw : veq 2 (phase 0 (mv 2 (gate1 2 X 1 []) (basis 0))) (basis 2)).
  { intros i Hi. unfold phase, scaled. rewrite x1_basis by exact Hi. rewrite cos_0, sin_0. apply injective_projections; cbn; ring. }
  assert (Hn : norm2v 2 (phase 0 (mv 2 (gate1 2 X 1 []) (basis 0))) = 1%R).
  { rewrite (norm2v_veq _ _ _ Hw). unfold norm2v, basis. cbn. rewrite Cmod_0, Cmod_1. ring. }
  split; [|split].
  - unfold dist, cQ, meas. cbn [weight data cnd op nq nc cond_holds repeat upd gate_mat last removelast ctl_of map].
    destruct (list_eq_dec _ [false] [true]); [discriminate|]. destruct (list_eq_dec _ [true] [true]); [|contradiction].
    rewrite (norm2v_veq 2 _ (project 1 1 (basis 2))) by (apply project_veq, x1_basis).
    unfold norm2v, project, basis. cbn. rewrite Cmod_0, Cmod_1. ring.
  - set (W := phase 0 (mv 2 (gate1 2 X 1 []) (basis 0))) in *. change ((Cmod (W 1%nat) ^ 2 / norm2v 2%nat W)%R = 0%R).
    rewrite Hn, Hw by (cbn; lia). unfold basis. cbn. rewrite Cmod_0. field.
  - set (W := phase 0 (mv 2 (gate1 2 X 1 []) (basis 0))) in *. change ((Cmod (W 2%nat) ^ 2 / norm2v 2%nat W)%R = 1%R).
    rewrite Hn, Hw by (cbn; lia). unfold basis. cbn. rewrite Cmod_1. field.
Qed.
(* FINDING (C40): with shots=None an unstable circuit reports every clbit that is
   not measured as 1.  "measure q0 -> c0; x q0" with a second clbit c1: the outcome
   is 00 with certainty; 00 is reported with probability 0 and c1=1, c0=0 with 1. *)
Definition cU : circ := Circ 1 2 [meas 0 0; xg] 0%R.
Lemma eps0 eps n v : (0 <= eps)%R -> norm2v n v = 1%R -> ~ (eps < Rabs (norm2v n v - 1))%R.
Proof. intros He ->. rewrite Rminus_diag_eq, Rabs_R0 by reflexivity. lra. Qed.
Theorem C40_unmeasured_refuted eps : (0 <= eps)%R -> exists p l, circ_ok cU /\ validate_circuit true cU = Some p /\
  evaluate eps cU p None = Leaf (Probs l) /\ dist cU [false; false] = 1%R /\ nth 0 l 0%R = 0%R /\ nth 2 l 0%R = 1%R.
Proof.
  intros He. exists (Prop_ false [(0, 0)]).
  assert (Hok : circ_ok cU).
  { split; [|split].
    - intros x [<-|[<-|[]]]; (split; [|exact Logic.I]); [cbn; lia|apply sup_x].
    - intros x g [<-|[<-|[]]] E; cbn in E; try discriminate. injection E as <-. cbn. discriminate.
    - intros x q c [<-|[<-|[]]] E; cbn in E; try discriminate. reflexivity. }
  assert (Hp : (probq 1 (basis 0) 0 0 / norm2v 1 (basis 0))%R = 1%R).
  { rewrite <- norm2v_project, proj_basis, norm1_basis by lia. cbn. field. }
  assert (Hev : evaluate eps cU (Prop_ false [(0, 0)]) None = Leaf (Probs (prob_product 2 [1%R; 0%R]))).
  { unfold evaluate, cU, meas, xg. cbn [data existsb has_cond cnd orb nq nc stable_final_state exec_none op repeat].
    destruct (Rlt_dec eps _) as [Hl|_]; [exfalso; revert Hl; apply eps0; auto; apply norm1_basis; lia|].
    rewrite Hp. reflexivity. }
  exists (prob_product 2 [1%R; 0%R]). split; [exact Hok|]. split; [reflexivity|]. split; [exact Hev|]. split; [|split].
  - unfold dist, cU, meas, xg. cbn [weight data cnd op nq nc cond_holds repeat upd].
    destruct (list_eq_dec _ [false; false] [false; false]); [|contradiction]. destruct (list_eq_dec _ [true; false] [false; false]); [discriminate|].
    rewrite unitary_norm by (cbn; apply unitary_X; lia). rewrite proj_basis by lia. cbn. ring.
  - cbn. ring.
  - cbn. ring.
Qed.
(* FINDING (C40): with shots=None the clbits of an unstable circuit are reported as
   independent.  "h q0; measure q0 -> c0; measure q0 -> c1; x q0": the two bits
   always agree; c0 <> c1 is reported with probability 1/2. *)
#[local] Instance T0 : Tol 0. Proof. unfold Tol. lra. Qed.
Definition Hm : matrix := @Hmat (RNum 0).
Definition cI : circ := Circ 1 2 [I (BGate (G1 Hm [0])) None; meas 0 0; meas 0 1; xg] 0%R.
Definition r2 : R := sqrt (/ 2).
Lemma r2_sq : (r2 ^ 2 = / 2)%R. Proof. unfold r2. apply pow2_sqrt. lra. Qed.
Lemma Hm_unitary : unitary 1 Hm. Proof. exact (Logic.proj1 (Logic.proj2 (C23_constant_gates_unitary 0))). Qed.
Lemma h_basis i : i < 2 -> mv 1 (gate1 1 Hm 0 []) (basis 0) i = RtoC r2.
Proof.
  intros Hi. rewrite gate1_action by (cbn; lia).
  assert (Hs : @SQRT2 (RNum 0) = r2) by (rewrite SQRT2_n; reflexivity).
  assert (i = 0 \/ i = 1) as [->| ->] by lia; unfold Hm, Hmat, basis; cbn -[SQRT2 Cmult Cplus]; unfold cf_SQRT2_2, cf_mSQRT2_2;
    rewrite ?Hs; apply injective_projections; cbn -[r2]; ring.
Qed.
Lemma h_norm : norm2v 1 (mv 1 (gate1 1 Hm 0 []) (basis 0)) = 1%R.
Proof. rewrite unitary_norm; [apply norm1_basis; lia|]. apply gate1_unitary; [lia|intros x []|apply Hm_unitary]. Qed.
Lemma Cmod_r2 : (Cmod (RtoC r2) ^ 2 = / 2)%R.
Proof. rewrite Cmod_R, Rabs_pos_eq by apply sqrt_pos. apply r2_sq. Qed.
Lemma h_probq b : b < 2 -> probq 1 (mv 1 (gate1 1 Hm 0 []) (basis 0)) 0 b = (/ 2)%R.
Proof.
  intros Hb. rewrite <- norm2v_project. unfold norm2v, project. cbn [Nat.pow Nat.mul Nat.add rsum].
  assert (b = 0 \/ b = 1) as [->| ->] by lia; cbn [bit Nat.testbit Nat.odd Nat.even negb Nat.eqb]; rewrite h_basis, Cmod_r2, Cmod_0 by lia; ring.
Qed.
Theorem C40_correlated_refuted eps : (0 <= eps)%R -> exists p l, circ_ok cI /\ validate_circuit true cI = Some p /\
  evaluate eps cI p None = Leaf (Probs l) /\ dist cI [true; false] = 0%R /\ dist cI [true; true] = (/ 2)%R /\ nth 1 l 0%R = (/ 4)%R.
Proof.
  intros He. exists (Prop_ false [(0, 0); (1, 0)]).
  assert (Hok : circ_ok cI).
  { split; [|split].
    - intros x [<-|[<-|[<-|[<-|[]]]]]; (split; [|exact Logic.I]); [|cbn; lia|cbn; lia|apply sup_x].
      cbn. apply gate1_unitary; [lia|intros x []|apply Hm_unitary].
    - intros x g [<-|[<-|[<-|[<-|[]]]]] E; cbn in E; try discriminate; injection E as <-; cbn; discriminate.
    - intros x q c [<-|[<-|[<-|[<-|[]]]]] E; cbn in E; try discriminate; reflexivity. }
  assert (Hev : evaluate eps cI (Prop_ false [(0, 0); (1, 0)]) None = Leaf (Probs (prob_product 2 [(/ 2)%R; (/ 2)%R]))).
  { unfold evaluate, cI, meas, xg.
    cbn [data existsb has_cond cnd orb nq nc stable_final_state exec_none op repeat gate_mat last removelast ctl_of map].
    destruct (Rlt_dec eps _) as [Hl|_]; [exfalso; revert Hl; apply eps0; auto; apply h_norm|].
    rewrite h_norm, h_probq by lia. replace (/ 2 / 1)%R with (/ 2)%R by field. reflexivity. }
  exists (prob_product 2 [(/ 2)%R; (/ 2)%R]). split; [exact Hok|]. split; [reflexivity|]. split; [exact Hev|].
  assert (Hu : unitary 1 (gate_mat 1 (fun q => q) (G1 X [0]))) by (cbn; apply unitary_X; lia).
  split; [|split].
  - unfold dist, cI, meas, xg. cbn [weight data cnd op nq nc cond_holds repeat upd].
    repeat match goal with |- context [list_eq_dec ?d ?a ?b] => destruct (list_eq_dec d a b); try discriminate; try contradiction end.
    + rewrite (unitary_norm 1 _ _ Hu). rewrite (norm2v_veq 1 _ (fun _ => RtoC 0)).
      * unfold norm2v. cbn. rewrite Cmod_0. ring.
      * intros i Hi. unfold project. destruct (Nat.eqb_spec (bit i 0) 0) as [E|]; auto. rewrite E. reflexivity.
  - unfold dist, cI, meas, xg. cbn [weight data cnd op nq nc cond_holds repeat upd].
    repeat match goal with |- context [list_eq_dec ?d ?a ?b] => destruct (list_eq_dec d a b); try discriminate; try contradiction end.
    rewrite (unitary_norm 1 _ _ Hu). rewrite (norm2v_veq 1 _ (project 0 1 (mv 1 (gate1 1 Hm 0 []) (basis 0)))).
    + rewrite norm2v_project, h_probq by lia. ring.
    + intros i Hi. unfold project. destruct (Nat.eqb_spec (bit i 0) 1) as [E|]; auto. 
  - cbn. field.
Qed.

(* FINDING (C39): only the shots argument of run() is validated.  With the backend
   option set to shots = -5 a measured circuit reports success with no counts at
   all, and with shots = 0 it reports probabilities. *)
Definition bare {P} (c : circ) : @pcirc P := fun _ => Some c.
Theorem C39_default_shots_refuted {P} eps :
  run_backend eps false (Some (-5)%Z) (Some [bare cX]) (@Ropts P None None) = Leaf (Done [Counts []]) /\
  (exists l, run_backend eps false (Some 0%Z) (Some [bare cX]) (@Ropts P None None) = Leaf (Done [Probs l])) /\
  run_backend eps false (Some 1024%Z) (Some [bare cX]) (@Ropts P (Some (Some (-5)%Z)) None) = Leaf Failed.
Proof. split; [reflexivity|]. split; [eexists; reflexivity|reflexivity]. Qed.
(* FINDING (C39): with fewer parameter bindings than circuits the remaining
   circuits are dropped and the job still reports success. *)
Theorem C39_binds_refuted {P} eps (b : P) : exists l,
  run_backend eps false (Some 1024%Z) (Some [bare cX; bare cX; bare cX]) (@Ropts P (Some None) (Some [b])) = Leaf (Done [l]).
Proof. eexists. reflexivity. Qed.

(* ---- C44 ---- *)
Section C44.
Context (tau : R) {HTol : Tol tau}.
Let Htau : (0 <= tau < 1 / 2)%R := tol_ok.
#[local] Hint Extern 0 NumOps => exact (RNum tau) : typeclass_instances.
Context {CF : Cfg}.
Notation handle := (@handle (RNum tau)).
(* the statevector backend accepts exactly the circuits with at most 100 qubits
   (its own configuration says 20) *)
Theorem C44_accepted c : (exists p, validate_circuit false c = Some p) <-> nq c <= 100.
Proof.
  unfold validate_circuit, max_qubits. destruct (Nat.ltb_spec 100 (nq c)) as [Hl|Hl].
  - split; [intros (p & Hp); discriminate|lia].
  - split; [auto|]. intros _. destruct (classify _ _ _ _ _ _) as [[st me] m]. rewrite andb_false_r. eauto.
Qed.
(* getVector is defined exactly up to 30 qubits *)
Theorem C44_getVector_partial s hs n e v : reachable (s, hs) -> In (H KV n e) hs -> reads_v tau s n e v -> nonzero_v n v ->
  (getVector s e <> None <-> n <= 30).
Proof.
  intros Hr Hi Hv Hnz. pose proof (reach_Inv tau _ _ Hr) as HI. destruct (reach_V tau _ _ _ _ Hr Hi) as (A1 & A2 & A3).
  destruct (nonzero_w tau n v s hs e Hr Hi Hv Hnz) as (Hw & Ht & Hp). split.
  - intros Hg. destruct (Nat.le_gt_cases n 30) as [Hn|Hn]; auto. exfalso. apply Hg. unfold getVector. rewrite Ht.
    destruct n as [|m]; [lia|]. cbn in Hp. destruct Hp as (a & nd & Ea & Hreg & Hlv).
    unfold getVar. rewrite Ea. rewrite (readn_reg tau KV s a nd Hreg). replace (shift_ok (nv nd + 1)) with false; [reflexivity|].
    symmetry. unfold shift_ok. apply andb_false_iff. right. apply Z.ltb_ge. lia.
  - intros Hn. exact (Logic.proj1 (C15_readout_safe tau s hs n e Hr) Hi Hn Ht).
Qed.
(* FINDING (C44): for every n from 31 to 100 the statevector backend accepts the
   empty circuit on n qubits and then calls getVector on |0...0>, where the shift
   1 << n overflows an int. *)
Theorem C44_refuted n s hs : 31 <= n <= 100 -> reachable (s, hs) ->
  (exists p, validate_circuit false (Circ n 0 [] 0%R) = Some p) /\
  returns tau (makeZeroState n) s (fun e s' => reads_v tau s' n e (basis 0) /\ getVector s' e = None).
Proof.
  intros Hn Hr. split; [apply C44_accepted; cbn; lia|].
  assert (Hs : size_ok n) by (unfold size_ok, NQUBITS; lia).
  pose proof (C01_makeZeroState tau s hs n Hr Hs) as Hz.
  destruct Hz as (H1 & H2 & H3). unfold returns. split; [exact H1|]. split; [exact H2|].
  intros e s' Hst. specialize (H3 e s' Hst). split; [exact H3|].
  assert (Hr' : reachable (s', H KV n e :: hs)).
  { eapply r_step; [exact Hr|]. eapply a_call; [|exact Hst]. now apply k_zero. }
  destruct (getVector s' e) as [l|] eqn:E; [|reflexivity]. exfalso.
  assert (Hnz : nonzero_v n (basis 0)).
  { exists 0. split; [pose proof (Nat.pow_nonzero 2 n); lia|]. unfold basis. cbn. intros Hz. apply RtoC_inj in Hz. lra. }
  pose proof (Logic.proj1 (C44_getVector_partial s' _ n e (basis 0) Hr' (or_introl eq_refl) H3 Hnz)) as Hx. rewrite E in Hx.
  assert (n <= 30) by (apply Hx; discriminate). lia.
Qed.
End C44.

(* ---- examples: circuits that meet the hypotheses ---- *)
(* Bell pair, both qubits measured into crossed clbits; classified stable *)
Definition bellc : circ := Circ 2 2 [I (BGate (G1 Hm [0])) None; I (BGate (G1 X [0; 1])) None; meas 0 1; meas 1 0] 0%R.
Example bellc_ok : circ_ok bellc /\ validate_circuit true bellc = Some (Prop_ true [(1, 0); (0, 1)]).
Proof.
  split; [|reflexivity]. split; [|split].
  - intros x [<-|[<-|[<-|[<-|[]]]]]; (split; [|exact Logic.I]); [| |cbn; lia|cbn; lia].
    + cbn. apply gate1_unitary; [lia|intros x []|apply Hm_unitary].
    + cbn. apply gate1_unitary; [lia| |].
      * intros x [<-|[]]. cbn. split; [lia|intros [Hx|[]]; lia].
      * apply (Logic.proj1 (conj (unitary_meq 1 (gate1 1 X 0 []) X ltac:(intros i j Hi Hj; cbn in Hi, Hj;
          assert (i = 0 \/ i = 1) as [->| ->] by lia; assert (j = 0 \/ j = 1) as [->| ->] by lia; reflexivity) (unitary_X 1 0 ltac:(lia))) Logic.I)).
  - intros x g [<-|[<-|[<-|[<-|[]]]]] E; cbn in E; try discriminate; injection E as <-; cbn; discriminate.
  - intros x q c [<-|[<-|[<-|[<-|[]]]]] E; cbn in E; try discriminate; reflexivity.
Qed.
(* measurement feeding a conditional gate and a reset; re-simulated *)
Definition teleport_like : circ := Circ 1 2 [I (BGate (G1 Hm [0])) None; meas 0 0; I (BGate (G1 X [0])) (Some (CBit 0 true));
  I (BReset 0) (Some (CReg [0; 1] 1)); meas 0 1] 0%R.
Example teleport_ok : circ_ok teleport_like /\ (exists d, validate_circuit true teleport_like = Some (Prop_ false d)).
Proof.
  split; [|eexists; reflexivity]. split; [|split].
  - intros x [<-|[<-|[<-|[<-|[<-|[]]]]]]; split; cbn; auto; try lia.
    + apply gate1_unitary; [lia|intros x []|apply Hm_unitary].
    + apply unitary_X. lia.
    + exists 2. split; [reflexivity|cbn; lia].
  - intros x g [<-|[<-|[<-|[<-|[<-|[]]]]]] E; cbn in E; try discriminate; injection E as <-; cbn; discriminate.
  - intros x q c [<-|[<-|[<-|[<-|[<-|[]]]]]] E; cbn in E; try discriminate; reflexivity.
Qed.
(* C40: one qubit into its clbit *)
Definition cH : circ := Circ 1 1 [I (BGate (G1 Hm [0])) None; meas 0 0] 0%R.
Example cH_ok : circ_ok cH /\ validate_circuit true cH = Some (Prop_ true [(0, 0)]) /\
  (forall x, In x (data cH) -> cnd x = None) /\ nc cH = nq cH /\ (forall k, k < nq cH -> last_into (data cH) k = Some k).
Proof.
  split; [|split; [reflexivity|]].
  - split; [|split].
    + intros x [<-|[<-|[]]]; (split; [|exact Logic.I]); [|cbn; lia]. cbn. apply gate1_unitary; [lia|intros x []|apply Hm_unitary].
    + intros x g [<-|[<-|[]]] E; cbn in E; try discriminate; injection E as <-; cbn; discriminate.
    + intros x q c [<-|[<-|[]]] E; cbn in E; try discriminate; reflexivity.
  - split; [intros x [<-|[<-|[]]]; reflexivity|]. split; [reflexivity|]. intros k Hk. cbn in Hk. assert (k = 0) as -> by lia. reflexivity.
Qed.
