(* SafeG.v -- Kronecker products and gate constructors over an arbitrary
   arithmetic: memory-safe under every schedule, with well-formed results. *)
From Coq Require Import ZArith Bool List Lia.
From Verif Require Import Num State DD Gates Measure Wf SafeA SafeW SafeO.
Import ListNotations.
Open Scope Z_scope.

Section SafeG.
Context {NO : NumOps} {AR : Arith NO} {CF : Cfg}.

(* ---- vv_kronecker ---------------------------------------------------------------- *)
Definition SZ (n : nat) : post := fun e s => sz (tb s KV) n e.
Lemma sz_rel n e s s' : rel s s' -> sz (tb s KV) n e -> sz (tb s' KV) n e.
Proof. intros Hr [H|H]; [left|right; auto]. eapply sp_rel; eauto. Qed.

Lemma kron2_s nb r : forall n s l (Q : post), Inv s -> Z.of_nat (n + nb) <= NQUBITS ->
  sp KV (tb s KV) nb (en r) -> (1 <= nb)%nat -> se KV (tb s KV) n l ->
  (forall e s', rel s s' -> sz (tb s' KV) (n + nb) e ->
     (sp KV (tb s KV) n (en l) -> se KV (tb s' KV) (n + nb) e) -> Q e s') ->
  wpr (vv_kronecker2 n l r) Q s.
Proof.
  induction n as [|n IH]; intros s l Q HI Hn Hr Hnb Hl HQ; cbn [vv_kronecker2].
  - assert (Hp : en l = Term) by (destruct Hl as [h|[_ h]]; auto). rewrite Hp. cbn [is_term].
    apply wpr_ret. intros s' Hrel. assert (Hr' := sp_rel _ _ _ _ _ Hrel Hr).
    apply HQ; auto; [left|intros _; left]; exact Hr'.
  - destruct (is_term (en l)) eqn:Ht.
    { destruct Hl as [(a & nd & h & _)|[Hw Hp]]; [rewrite h in Ht; discriminate|].
      apply wpr_ret. intros s' Hrel. apply HQ; auto.
      - right. cbn [ew]. now apply zc_mul_l.
      - intros (a & nd & h & _). rewrite Hp in h. discriminate. }
    destruct (is_term (en r)) eqn:Htr.
    { destruct nb as [|nb']; [lia|]. destruct Hr as (a & nd & h & _). rewrite h in Htr. discriminate. }
    destruct Hl as [(a & nd & Hp & Hreg & Hv)|[_ h]]; [|rewrite h in Ht; discriminate].
    destruct nb as [|nb']; [lia|]. assert (Hr' : sp KV (tb s KV) (S nb') (en r)) by exact Hr.
    destruct Hr as (ar & ndr & Hpr & Hregr & Hvr).
    rewrite Hp, Hpr. apply wpr_read with (nd := nd); auto. apply wpr_read with (nd := ndr); auto.
    assert (Hx : forall i s', rel s s' -> (i < 2)%nat ->
       se KV (tb s' KV) n (E (cmul (ew l) (ew (nth i (nch nd) nullE))) (en (nth i (nch nd) nullE)))).
    { intros i s' Hs' Hi. pose proof (reg_rel _ _ _ _ _ Hs' Hreg) as Hreg'. pose proof (rel_inv _ _ Hs') as HI'.
      rewrite (reg_nth KV _ a nd i (inv_tb _ HI' KV) Hreg' Hi).
      pose proof (reg_child KV _ a nd i (inv_tb _ HI' KV) Hreg') as Hc. rewrite Hv, Nat2Z.id in Hc.
      now apply se_scale. }
    apply wpr_bind; auto. apply IH; auto; [lia|apply Hx; [now apply rel_refl|lia]|].
    intros e0 s1 Hr1 H0 _. pose proof (rel_inv _ _ Hr1) as HI1.
    apply wpr_bind; auto. apply IH; [auto|lia|eapply sp_rel; eauto|lia|apply Hx; [auto|lia]|].
    intros e1 s2 Hr2 H1 _. pose proof (rel_inv _ _ Hr2) as HI2.
    rewrite Hv, Hvr. replace (Z.of_nat n + Z.of_nat nb' + 1) with (Z.of_nat (n + S nb')) by lia.
    eapply wpr_mono; [auto| |apply mk_V; auto].
    + intros e s3 Hr3 He. rewrite Nat2Z.id in He. apply HQ; [rt| |]; [now apply se_sz|auto].
    + lia.
    + rewrite Nat2Z.id. eapply sz_rel; eauto.
    + rewrite Nat2Z.id. exact H1.
Qed.
Theorem vv_kronecker_s na nb s l r : Inv s -> Z.of_nat (na + nb) <= NQUBITS ->
  (1 <= na)%nat -> (1 <= nb)%nat -> sp KV (tb s KV) na (en l) -> sp KV (tb s KV) nb (en r) ->
  wpr (vv_kronecker l r) (SE KV (na + nb)) s.
Proof.
  intros HI Hn Ha Hb Hl Hr. unfold vv_kronecker. destruct na as [|na]; [lia|].
  assert (Hl' : sp KV (tb s KV) (S na) (en l)) by exact Hl.
  destruct Hl as (a & nd & Hp & Hreg & Hv). rewrite Hp. cbn [is_term andb].
  apply wpr_read with (nd := nd); auto. rewrite Hv. replace (Z.to_nat (Z.of_nat na + 1)) with (S na) by lia.
  apply (kron2_s nb r (S na) s l); auto; [now left|].
  intros e s' Hr1 _ He. now apply He.
Qed.

(* ---- mm_kronecker ---------------------------------------------------------------- *)
Lemma mkron2_s nb r rv : nb = Z.to_nat (rv + 1) -> -1 <= rv ->
  forall f n s l, (n <= f)%nat -> Inv s -> Z.of_nat (n + nb) <= NQUBITS ->
  varof (tb s KM) (en r) rv -> se KM (tb s KM) n l ->
  wpr (mm_kronecker2 f l r) (SE KM (n + nb)) s.
Proof.
  intros Hnb Hrv. induction f as [|f IH]; intros n s l Hf HI Hn Hr Hl; cbn [mm_kronecker2].
  - assert (Hp : en l = Term).
    { apply se_KM in Hl. destruct Hl as [h|(a & nd & Hp & Hreg & Hv)]; auto.
      pose proof (no_level _ _ _ (reg_ok KM _ a nd (inv_tb _ HI KM) Hreg)). lia. }
    rewrite Hp. cbn [is_term]. apply ret_SE; auto. left. apply (varof_sp _ _ rv); auto. lia.
  - destruct (is_term (en l)) eqn:Ht.
    { apply ret_SE; auto. left. apply (varof_sp _ _ rv); auto. lia. }
    apply se_KM in Hl. destruct Hl as [h|(a & nd & Hp & Hreg & Hv)]; [rewrite h in Ht; discriminate|].
    pose proof (no_level _ _ _ (reg_ok KM _ a nd (inv_tb _ HI KM) Hreg)) as Hlev.
    rewrite Hp. apply wpr_read with (nd := nd); auto.
    eapply (wpr_readp KM (en r) _ _ s nb HI); [apply (varof_sp _ _ rv); auto; lia|].
    intros rn s1 Hr1 Hrd _ _ _. pose proof (rel_inv _ _ Hr1) as HI1.
    assert (Hrnv : nv rn = rv).
    { destruct (varof_read s1 _ _ (varof_rel _ _ _ _ Hr1 Hr)) as (x & Hx & Hxv & _). congruence. }
    rewrite Hrnv. set (m := Z.to_nat (nv nd)).
    assert (Hsub : forall i s' (g : edge -> comp) (Q : post), rel s1 s' -> (i < 4)%nat ->
       (forall e s'', rel s' s'' -> Inv s'' -> se KM (tb s'' KM) (m + nb) e -> wpr (g e) Q s'') ->
       wpr (bind (mm_kronecker2 f (E (cmul (ew l) (ew (nth i (nch nd) nullE))) (en (nth i (nch nd) nullE))) r) g) Q s').
    { intros i s' g Q Hs' Hi Hg. pose proof (rel_inv _ _ Hs') as HI'.
      assert (Hreg' : reg KM (tb s' KM) a nd) by (eapply reg_rel; [|exact Hreg]; rt).
      eapply bind_SE; [auto|apply (IH m); auto; try lia|exact Hg].
      - eapply varof_rel; [|exact Hr]; rt.
      - rewrite (reg_nth KM _ a nd i (inv_tb _ HI' KM) Hreg' Hi).
        apply se_scale. apply (reg_child KM _ a nd i (inv_tb _ HI' KM) Hreg'). }
    apply (Hsub 0%nat); [now apply rel_refl|lia|]. intros e0 s2 Hr2 HI2 H0.
    apply (Hsub 1%nat); [rt|lia|]. intros e1 s3 Hr3 HI3 H1.
    apply (Hsub 2%nat); [rt|lia|]. intros e2 s4 Hr4 HI4 H2.
    apply (Hsub 3%nat); [rt|lia|]. intros e3 s5 Hr5 HI5 H3.
    replace (nv nd + rv + 1) with (Z.of_nat (m + nb)) by lia.
    eapply wpr_mono; [auto| |apply mk_M; auto].
    + intros e s6 Hr6 He. unfold SE in *. rewrite Nat2Z.id in He. eapply se_KM_up; [|exact He]. lia.
    + lia.
    + rewrite Nat2Z.id. eapply (se_rel _ _ _ s2); [rt|exact H0].
    + rewrite Nat2Z.id. eapply (se_rel _ _ _ s3); [rt|exact H1].
    + rewrite Nat2Z.id. eapply (se_rel _ _ _ s4); [rt|exact H2].
    + rewrite Nat2Z.id. exact H3.
Qed.
Theorem mm_kronecker_s na nb s l r : Inv s -> Z.of_nat (na + nb) <= NQUBITS ->
  se KM (tb s KM) na l -> se KM (tb s KM) nb r -> wpr (mm_kronecker l r) (SE KM (na + nb)) s.
Proof.
  intros HI Hn Hl Hr. unfold mm_kronecker. apply se_KM in Hr.
  destruct (is_term (en l) && is_term (en r)) eqn:Htt; [apply ret_SE; auto; left; now left|].
  destruct (sp_varof s nb (en r) HI Hr) as (rv & Hrv & Hrb).
  pose proof (se_KM _ _ _ Hl) as Hl'. eapply wpr_readp; [auto|exact Hl'|]. intros ln s1 Hr1 _ Hlv _ Hreg.
  pose proof (rel_inv _ _ Hr1) as HI1.
  eapply wpr_mono; [auto| |apply (mkron2_s (Z.to_nat (rv + 1)) r rv eq_refl ltac:(lia) _ (Z.to_nat (nv ln + 1)))]; auto.
  - intros e s2 Hr2 He. unfold SE in *. eapply se_KM_up; [|exact He]. lia.
  - lia.
  - eapply varof_rel; eauto.
  - destruct Hl' as [Hl'|(a & nd & Hp & _ & _)]; [left; now left|].
    left. right. exists a, ln. split; [auto|]. split; [auto|lia].
Qed.

(* ---- gates ------------------------------------------------------------------------- *)
Lemma oneE_s t n : se KM t n oneE.
Proof. left. now left. Qed.
Lemma termE_s t n w : se KM t n (termE w).
Proof. left. now left. Qed.
Lemma mk_M' z s a b c d : Inv s -> Z.of_nat z < NQUBITS ->
  se KM (tb s KM) z a -> se KM (tb s KM) z b -> se KM (tb s KM) z c -> se KM (tb s KM) z d ->
  wpr (makeMEdge (Z.of_nat z) a b c d) (SE KM (S z)) s.
Proof. intros. rewrite <- (Nat2Z.id z) at 2. apply mk_M; rewrite ?Nat2Z.id; auto. lia. Qed.
Lemma wrap_low_s z it d e s : Inv s -> Z.of_nat z < NQUBITS -> se KM (tb s KM) z e ->
  wpr (wrap_low (Z.of_nat z) it d e) (SE KM (S z)) s.
Proof.
  intros HI Hz He. unfold wrap_low.
  assert (Hd : se KM (tb s KM) z (if d then oneE else zeroE)) by (destruct d; [apply oneE_s|apply se_zero]).
  destruct (at_ctl it _); [destruct it as [|[q [|]] it]|]; apply mk_M'; auto using se_zero.
Qed.
Definition SL (s : state) (z : nat) (es : list (bool * edge)) : Prop :=
  forall de, In de es -> se KM (tb s KM) z (snd de).
Lemma SL_rel s s' z es : rel s s' -> SL s z es -> SL s' z es.
Proof. intros Hr H de Hd. eapply se_rel; eauto. Qed.
Lemma wrap_all_s z it (Q : post) : Z.of_nat z < NQUBITS ->
  forall es s k, Inv s -> SL s z es ->
  (forall es' s', rel s s' -> Inv s' -> SL s' (S z) es' -> length es' = length es -> wpr (k es') Q s') ->
  wpr (wrap_all (Z.of_nat z) it es k) Q s.
Proof.
  intros Hz. induction es as [|[d e] es IH]; intros s k HI He Hk; cbn [wrap_all].
  - apply Hk; auto; [now apply rel_refl|intros x []].
  - eapply bind_SE; [auto|apply wrap_low_s; auto; apply (He (d, e)); now left|].
    intros e' s1 Hr1 HI1 He'. apply IH; auto.
    { intros x Hx. eapply se_rel; [exact Hr1|]. apply He. now right. }
    intros es' s2 Hr2 HI2 Hes Hlen. apply Hk; auto; [rt| |cbn [length]; lia].
    intros x [<-|Hx]; [|now apply Hes]. cbn [snd]. eapply se_rel; eauto.
Qed.
Lemma low_loop_s (Q : post) : forall cnt z it es s k, Inv s -> Z.of_nat (z + cnt) <= NQUBITS -> SL s z es ->
  (forall it' es' s', rel s s' -> Inv s' -> SL s' (z + cnt) es' -> length es' = length es ->
     wpr (k (Z.of_nat (z + cnt)) it' es') Q s') ->
  wpr (low_loop cnt (Z.of_nat z) it es k) Q s.
Proof.
  induction cnt as [|cnt IH]; intros z it es s k HI Hz He Hk; cbn [low_loop].
  - rewrite Nat.add_0_r in Hk. apply Hk; auto. now apply rel_refl.
  - apply wrap_all_s; auto; [lia|]. intros es' s1 Hr1 HI1 He1 Hl1.
    replace (Z.of_nat z + 1) with (Z.of_nat (S z)) by lia. apply IH; auto; [lia|].
    intros it' es2 s2 Hr2 HI2 He2 Hl2. replace (S z + cnt)%nat with (z + S cnt)%nat in * by lia.
    apply Hk; auto; [rt|congruence].
Qed.
Lemma high_loop_s : forall cnt z it e s, Inv s -> Z.of_nat (z + cnt) <= NQUBITS -> se KM (tb s KM) z e ->
  wpr (high_loop cnt (Z.of_nat z) it e) (SE KM (z + cnt)) s.
Proof.
  induction cnt as [|cnt IH]; intros z it e s HI Hz He; cbn [high_loop].
  - rewrite Nat.add_0_r. now apply ret_SE.
  - eapply bind_SE; [auto|apply (wrap_low_s z it true e); auto; lia|]. intros e' s1 Hr1 HI1 He'.
    replace (Z.of_nat z + 1) with (Z.of_nat (S z)) by lia. replace (z + S cnt)%nat with (S z + cnt)%nat by lia.
    apply IH; auto. lia.
Qed.
Lemma eat_s s z es i : SL s z es -> (i < length es)%nat -> se KM (tb s KM) z (eat es i).
Proof. intros H Hi. unfold eat. apply H. now apply nth_In. Qed.

Theorem makeGate_s n g t c s : Inv s -> Z.of_nat n <= NQUBITS -> 0 <= t < Z.of_nat n ->
  wpr (makeGate (Z.of_nat n) g t c) (SE KM n) s.
Proof.
  intros HI Hn Ht. unfold makeGate. change 0 with (Z.of_nat 0) at 1.
  apply low_loop_s; auto; [lia| |].
  { intros de Hd. cbn in Hd. destruct Hd as [<-|[<-|[<-|[<-|[]]]]]; apply termE_s. }
  intros it es s1 Hr1 HI1 He Hl. cbn [length] in Hl. cbn [Nat.add] in *.
  eapply bind_SE; [auto|apply mk_M'; auto; [lia| | | |]; apply eat_s; auto; lia|].
  intros e s2 Hr2 HI2 He2. replace (Z.of_nat (Z.to_nat t) + 1) with (Z.of_nat (S (Z.to_nat t))) by lia.
  eapply wpr_mono; [auto| |apply high_loop_s; auto; lia].
  intros e' s3 Hr3 He3. unfold SE in *. eapply se_KM_up; [|exact He3]. lia.
Qed.
Theorem makeTwoQubitGate_s n g t0 t1 c s : Inv s -> Z.of_nat n <= NQUBITS ->
  0 <= t0 < Z.of_nat n -> 0 <= t1 < Z.of_nat n -> t0 <> t1 ->
  wpr (makeTwoQubitGate (Z.of_nat n) g t0 t1 c) (SE KM n) s.
Proof.
  intros HI Hn Ht0 Ht1 Hne. unfold makeTwoQubitGate. cbv zeta. change 0 with (Z.of_nat 0) at 1.
  set (small := Z.min t0 t1). set (large := Z.max t0 t1).
  apply low_loop_s; auto; [lia| |].
  { intros de Hd. apply in_map_iff in Hd as (ij & <- & _). apply termE_s. }
  intros it es s1 Hr1 HI1 He Hl. rewrite map_length in Hl. change (length idx16) with 16%nat in Hl. cbn [Nat.add] in *.
  assert (Hs : Z.of_nat (Z.to_nat small) = small) by lia.
  set (pick := fun b1 b0 i j : nat => if t1 <? t0 then eat es (4 * (b1 * 2 + i) + (b0 * 2 + j)) else eat es (4 * (i * 2 + b1) + (j * 2 + b0))).
  assert (Hpick : forall b1 b0 i j, (b1 < 2)%nat -> (b0 < 2)%nat -> (i < 2)%nat -> (j < 2)%nat ->
     se KM (tb s1 KM) (Z.to_nat small) (pick b1 b0 i j)).
  { intros. unfold pick. destruct (t1 <? t0); apply eat_s; auto; lia. }
  assert (Hsub : forall b1 b0 s' (f : edge -> comp) (Q : post), (b1 < 2)%nat -> (b0 < 2)%nat -> rel s1 s' ->
     (forall e s'', rel s' s'' -> Inv s'' -> se KM (tb s'' KM) (S (Z.to_nat small)) e -> wpr (f e) Q s'') ->
     wpr (bind (makeMEdge small (pick b1 b0 0%nat 0%nat) (pick b1 b0 0%nat 1%nat) (pick b1 b0 1%nat 0%nat) (pick b1 b0 1%nat 1%nat)) f) Q s').
  { intros b1 b0 s' f Q Hb1 Hb0 Hr' Hf. pose proof (rel_inv _ _ Hr') as HI'. rewrite <- Hs.
    eapply bind_SE; [auto|apply mk_M'; auto; [lia| | | |]; (eapply se_rel; [exact Hr'|apply Hpick; lia])|exact Hf]. }
  apply (Hsub 0%nat 0%nat); [lia|lia|now apply rel_refl|]. intros e0 s2 Hr2 HI2 H0.
  apply (Hsub 0%nat 1%nat); [lia|lia|rt|]. intros e1 s3 Hr3 HI3 H1.
  apply (Hsub 1%nat 0%nat); [lia|lia|rt|]. intros e2 s4 Hr4 HI4 H2.
  apply (Hsub 1%nat 1%nat); [lia|lia|rt|]. intros e3 s5 Hr5 HI5 H3.
  rewrite Hs. replace (small + 1) with (Z.of_nat (S (Z.to_nat small))) by lia.
  apply low_loop_s; auto; [lia| |].
  { intros de Hd. cbn in Hd. destruct Hd as [<-|[<-|[<-|[<-|[]]]]]; cbn [snd]; auto.
    - eapply (se_rel _ _ _ s2); [rt|exact H0].
    - eapply (se_rel _ _ _ s3); [rt|exact H1].
    - eapply (se_rel _ _ _ s4); [rt|exact H2]. }
  clear dependent es. intros it' es s6 Hr6 HI6 He Hl. cbn [length] in Hl.
  replace (S (Z.to_nat small) + Z.to_nat (large - Z.of_nat (S (Z.to_nat small))))%nat with (Z.to_nat large) in * by lia.
  eapply bind_SE; [auto|apply mk_M'; auto; [lia| | | |]; apply eat_s; auto; lia|].
  intros e s7 Hr7 HI7 He7. replace (Z.of_nat (Z.to_nat large) + 1) with (Z.of_nat (S (Z.to_nat large))) by lia.
  eapply wpr_mono; [auto| |apply high_loop_s; auto; lia].
  intros e' s8 Hr8 He8. unfold SE in *. eapply se_KM_up; [|exact He8]. lia.
Qed.
End SafeG.
