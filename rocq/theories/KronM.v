(* KronM.v -- C28: mm_kronecker (src/dd.cpp:1076-1103).  It reads the size of
   its right operand off the variable of the root node, so it is the tensor
   product with the operand seen as a gate on getVar()+1 qubits.  When the right
   operand acts as the identity on its top qubits (levels makeMEdge strips), that
   is not the number of qubits it was made for: see [C28_refuted]. *)
From Coq Require Import Reals Lra Psatz ZArith Bool List Lia Arith FunctionalExtensionality.
From Coquelicot Require Import Complex.
From Verif Require Import Num State DD Gates GC Measure Api RNum Wf Sums Err Inv Wp Make Add MulV Canon MM MM2
  GateP StateP Kron Spec SpecP Readout MeasureP MeasAllP GCP MeasOneP ApplyP ApiP Obs Props1 Props2 Prog.
Import ListNotations.
Open Scope Z_scope.

Section KronM.
Context (tau : R) {HTol : Tol tau}.
Let Htau : (0 <= tau < 1 / 2)%R := tol_ok.
#[local] Hint Extern 0 NumOps => exact (RNum tau) : typeclass_instances.
Context {CF : Cfg}.
Notation table := (@table (RNum tau)).
Notation state := (@state (RNum tau)).
Notation edge := (@edge (RNum tau)).
Notation val := (val tau).
Notation valp := (valp tau).
Notation wfe := (wfe tau).
Notation wfp := (wfp tau).
Notation reg := (reg tau).
Notation TInv := (TInv tau).
Notation Inv := (Inv tau).
Notation rel := (rel tau).
Notation dn := (dn tau).
Notation E := (@E (RNum tau)).
Notation returns := (returns tau).
Notation reads_m := (reads_m tau).
Notation reads_m_upto := (reads_m_upto tau).

(* a gate below level m, seen one level higher *)
Lemma dn_up m F err e s : dn KM m F err e s -> dn KM (S m) (fun ix => Cmult (diag4 (ix m)) (F ix)) err e s.
Proof.
  intros [Hw Hd]. split; [eapply (wfe_KM_up tau); [|exact Hw]; lia|].
  intros ix. rewrite (val_KM_up tau) by exact Hw.
  replace (Cminus (Cmult (diag4 (ix m)) (val KM (tb s KM) m e ix)) (Cmult (diag4 (ix m)) (F ix)))
    with (Cmult (diag4 (ix m)) (Cminus (val KM (tb s KM) m e ix) (F ix))) by ring.
  rewrite Cmod_mult. pose proof (diag4_le1 (ix m)). pose proof (Hd ix). pose proof (Cmod_ge_0 (Cminus (val KM (tb s KM) m e ix) (F ix))).
  pose proof (Cmod_ge_0 (diag4 (ix m))). nra.
Qed.
Lemma egate_mono n B B' : (0 <= B <= B')%R -> (egate tau n B <= egate tau n B')%R.
Proof.
  intros Hu. induction n as [|n IH]; cbn [egate]; [lra|].
  pose proof (mkerr_mono tau (B + egate tau n B) (B' + egate tau n B') ltac:(lra)). lra.
Qed.
Lemma egate_S n B : (0 <= B)%R -> (egate tau n B <= egate tau (S n) B)%R.
Proof.
  intros HB. cbn [egate]. pose proof (egate_pos tau n B HB). pose proof (mkerr_mono tau 0 (B + egate tau n B) ltac:(lra)).
  pose proof (mkerr_pos tau 0 ltac:(lra)). lra.
Qed.

(* the levels of the node of [p]: getVar() + 1 *)
Definition levels (t : table) (m : nat) (p : ptr) : Prop :=
  match m with
  | O => p = Term
  | S m' => exists a nd, p = Node a /\ reg KM t a nd /\ nv nd = Z.of_nat m'
  end.
Lemma levels_wfp t m p : levels t m p -> wfp KM t m p.
Proof. destruct m as [|m]; cbn [levels wfp]; [now left|]. intros (a & nd & H1 & H2 & H3). right. exists a, nd. split; [auto|split; [auto|lia]]. Qed.
Lemma levels_ext t t' m p : ext tau KM t t' -> levels t m p -> levels t' m p.
Proof. destruct m as [|m]; cbn [levels]; auto. intros He (a & nd & H1 & H2 & H3). exists a, nd. auto. Qed.

Lemma val_lift (f : (nat -> nat) -> C) nb t n e ix : wfe KM t n e ->
  kvF nb (val KM t (S n) e) f ix = Cmult (diag4 (ix (n + nb)%nat)) (kvF nb (val KM t n e) f ix).
Proof.
  intros Hw. unfold kvF. rewrite (val_KM_up tau) by exact Hw. unfold shift at 1. rewrite (Nat.add_comm nb n). ring.
Qed.

(* {lhs.w * rhs.w, rhs.n} for a terminal lhs on n levels *)
Lemma dn_term_kron s n nb (l r : edge) : Inv s -> en l = Term -> wfp KM (tb s KM) nb (en r) ->
  dn KM (n + nb) (kvF nb (val KM (tb s KM) n l) (val KM (tb s KM) nb r)) 0 (E (cmul (ew l) (ew r)) (en r)) s.
Proof.
  intros HI Hl Hr. induction n as [|n IH].
  - apply (dnt_of_exact tau); [now left|]. intros ix. unfold kvF, Wf.val. cbn [ew en Nat.add].
    rewrite (cmul_C tau (ew l) (ew r)). change (Wf.valp tau KM (tb s KM) 0 (en l) (shift nb ix)) with (RtoC 1). toC. ring.
  - cbn [Nat.add]. apply dn_up in IH. eapply (dnt_F tau); [|exact IH]. intros ix. symmetry. apply val_lift.
    left. left. exact Hl.
Qed.

Lemma wpr_read_lev nb p f (Q : post tau) s : Inv s -> levels (tb s KM) nb p ->
  (forall nd, nv nd = Z.of_nat nb - 1 -> wpr tau (f nd) Q s) -> wpr tau (CRead KM p f) Q s.
Proof.
  intros HI Hl H. destruct nb as [|nb]; cbn [levels] in Hl.
  - subst p. intros s' Hs'. eexists. split; [reflexivity|]. eapply (wpr_rel tau); eauto; apply H; reflexivity.
  - destruct Hl as (a & nd & -> & Hr & Hv). apply (wpr_read tau) with (nd := nd); auto. apply H. lia.
Qed.

Lemma wpr_mkron2 nb r : forall fuel n s l (Q : post tau), Inv s -> (n <= fuel)%nat -> Z.of_nat (n + nb) <= NQUBITS ->
  levels (tb s KM) nb (en r) -> wfe KM (tb s KM) n l ->
  (forall e s', rel s s' -> dn KM (n + nb) (kvF nb (val KM (tb s KM) n l) (val KM (tb s KM) nb r))
      (egate tau n (Cmod (ew l) * Cmod (ew r))) e s' -> Q e s') ->
  wpr tau (mm_kronecker2 fuel l r) Q s.
Proof.
  induction fuel as [|fuel IH]; intros n s l Q HI Hf Hn Hr Hl HQ; cbn [mm_kronecker2];
    pose proof (inv_tb tau s HI KM) as HT.
  all: assert (HB0 : (0 <= Cmod (ew l) * Cmod (ew r))%R) by (apply Rmult_le_pos; apply Cmod_ge_0).
  all: destruct (is_term (en l)) eqn:Ht.
  all: try (assert (Hp : en l = Term) by (destruct (en l); (discriminate Ht || auto));
    apply (wpr_ret tau); intros s' Hrel; apply HQ; auto;
    apply (dn_stable tau _ _ _ _ _ _ _ HI Hrel);
    eapply (dnt_weaken tau); [|apply (dn_term_kron s n nb l r HI Hp (levels_wfp _ _ _ Hr))]; now apply (egate_pos tau)).
  { exfalso. assert (n = 0%nat) by lia. subst n. destruct Hl as [[h|(a & nd & _ & h & h')]|[_ h]].
    - rewrite h in Ht. discriminate.
    - pose proof (no_level _ _ _ _ (reg_ok tau _ _ _ _ HT h)). lia.
    - rewrite h in Ht. discriminate. }
  destruct Hl as [[h|(a & nd & Hp & Hreg & Hv)]|[_ h]]; [rewrite h in Ht; discriminate| |rewrite h in Ht; discriminate].
  pose proof (reg_ok tau _ _ _ _ HT Hreg) as Hok. pose proof (no_level _ _ _ _ Hok) as Hlev.
  assert (Hlv : exists lv, nv nd = Z.of_nat lv /\ (lv < n)%nat) by (exists (Z.to_nat (nv nd)); lia).
  destruct Hlv as (lv & Hlv & Hlt).
  rewrite Hp. apply (wpr_read tau) with (nd := nd); [exact HI|exact Hreg|].
  apply (wpr_read_lev nb); [exact HI|exact Hr|]. intros ndr Hvr.
  destruct (nch nd) as [|x0 [|x1 [|x2 [|x3 [|]]]]] eqn:Hch; try (pose proof (no_len _ _ _ _ Hok) as Hl; rewrite Hch in Hl; discriminate).
  cbn [nth].
  assert (Hx : forall x, In x (nch nd) -> wfe KM (tb s KM) lv (E (cmul (ew l) (ew x)) (en x)) /\ (Cmod (ew x) <= 1)%R).
  { intros x Hxi. split; [|now apply (no_le1 _ _ _ _ Hok)]. apply (wfe_scale tau).
    pose proof (no_wf _ _ _ _ Hok x Hxi) as h. now rewrite Hlv, Nat2Z.id in h. }
  rewrite Hch in Hx.
  destruct (Hx x0) as [Hx0 Hl0]; [cbn; auto|]. destruct (Hx x1) as [Hx1 Hl1]; [cbn; auto|].
  destruct (Hx x2) as [Hx2 Hl2]; [cbn; auto|]. destruct (Hx x3) as [Hx3 Hl3]; [cbn; auto|].
  set (B := (Cmod (ew l) * Cmod (ew r))%R) in *.
  set (l0 := E (cmul (ew l) (ew x0)) (en x0)) in *. set (l1 := E (cmul (ew l) (ew x1)) (en x1)) in *.
  set (l2 := E (cmul (ew l) (ew x2)) (en x2)) in *. set (l3 := E (cmul (ew l) (ew x3)) (en x3)) in *.
  set (FF := fun li => kvF nb (val KM (tb s KM) lv li) (val KM (tb s KM) nb r)).
  assert (Hmono : forall x li, (Cmod (ew x) <= 1)%R -> ew li = cmul (ew l) (ew x) ->
     (egate tau lv (Cmod (ew li) * Cmod (ew r)) <= egate tau lv B)%R /\ (Cmod (ew li) * Cmod (ew r) <= B)%R).
  { intros x li Hx' Hli. assert (HBi : (Cmod (ew li) * Cmod (ew r) <= B)%R).
    { rewrite Hli, (cmul_C tau (ew l) (ew x)). unfold B. apply Rmult_le_compat_r; [apply Cmod_ge_0|]. rewrite Cmod_mult.
      pose proof (Cmod_ge_0 (ew l)). pose proof (Cmod_ge_0 (ew x)). nra. }
    split; auto. apply egate_mono. split; auto. apply Rmult_le_pos; apply Cmod_ge_0. }
  assert (Hbound : forall li, (Cmod (ew li) * Cmod (ew r) <= B)%R -> wfe KM (tb s KM) lv li -> forall ix, (Cmod (FF li ix) <= B)%R).
  { intros li Hli Hwi ix. unfold FF, kvF. rewrite Cmod_mult. eapply Rle_trans; [|exact Hli].
    apply Rmult_le_compat; try apply Cmod_ge_0; apply (val_le tau); auto. left. now apply levels_wfp. }
  assert (Hsame : forall s1 li, rel s s1 -> wfe KM (tb s KM) lv li ->
    forall ix, kvF nb (val KM (tb s1 KM) lv li) (val KM (tb s1 KM) nb r) ix = FF li ix).
  { intros s1 li Hr1 Hwi ix. pose proof (rel_ext _ _ _ KM Hr1) as He1. unfold FF, kvF.
    rewrite !(val_ext tau KM (tb s KM) (tb s1 KM)); auto. left. now apply levels_wfp. }
  destruct (Hmono x0 l0 Hl0 eq_refl) as [M0 M0']. destruct (Hmono x1 l1 Hl1 eq_refl) as [M1 M1'].
  destruct (Hmono x2 l2 Hl2 eq_refl) as [M2 M2']. destruct (Hmono x3 l3 Hl3 eq_refl) as [M3 M3'].
  (* one child *)
  assert (Step : forall li s1 (Q' : post tau), rel s s1 -> wfe KM (tb s KM) lv li ->
     (egate tau lv (Cmod (ew li) * Cmod (ew r)) <= egate tau lv B)%R ->
     (forall e s', rel s s' -> rel s1 s' -> dn KM (lv + nb) (FF li) (egate tau lv B) e s' -> Q' e s') ->
     wpr tau (mm_kronecker2 fuel li r) Q' s1).
  { intros li s1 Q' Hr1 Hwi Hmi HQ'. pose proof (rel_inv _ _ _ Hr1) as HI1. pose proof (rel_ext _ _ _ KM Hr1) as He1.
    eapply (IH lv s1 li); auto.
    - lia.
    - lia.
    - eapply levels_ext; eauto.
    - eapply (wfe_ext tau); eauto.
    - intros e s' Hr' Hd. apply HQ'; auto; [eapply rel_trans; eauto|].
      eapply (dnt_weaken tau); [exact Hmi|]. eapply (dnt_F tau); [|exact Hd]. intros ix. now apply Hsame. }
  apply (wpr_bind tau); auto. apply (Step l0 s); auto; [now apply rel_refl|]. intros e0 s1 R1 _ D0.
  apply (wpr_bind tau); [now apply (rel_inv tau s)|]. apply (Step l1 s1); auto. intros e1 s2 R2 R2' D1.
  apply (wpr_bind tau); [now apply (rel_inv tau s)|]. apply (Step l2 s2); auto. intros e2 s3 R3 R3' D2.
  apply (wpr_bind tau); [now apply (rel_inv tau s)|]. apply (Step l3 s3); auto. intros e3 s4 R4 R4' D3.
  pose proof (rel_inv _ _ _ R1) as I1. pose proof (rel_inv _ _ _ R2) as I2. pose proof (rel_inv _ _ _ R3) as I3. pose proof (rel_inv _ _ _ R4) as I4.
  rewrite Hlv, Hvr. replace (Z.of_nat lv + (Z.of_nat nb - 1) + 1) with (Z.of_nat (lv + nb)) by lia.
  assert (U : forall m F e st, dn KM m F (egate tau lv B) e st -> (lv <= m)%nat -> dn KM m F (egate tau m B) e st).
  { intros m F e st Hd Hm. eapply (dnt_weaken tau); [|exact Hd]. clear - Hm HB0 Htau. induction Hm; [lra|].
    eapply Rle_trans; [exact IHHm|]. now apply egate_S. }
  (* wpr_makeMEdge directly, to keep the error at egate (S lv) *)
  assert (W : forall li ei st, dn KM (lv + nb) (FF li) (egate tau lv B) ei st -> Inv st ->
      (forall ix, Cmod (FF li ix) <= B)%R -> (Cmod (ew ei) <= B + egate tau lv B)%R).
  { intros li ei st Hd Hi Hb. eapply (dnt_wbound tau); [apply (inv_tb tau st Hi KM)|exact Hd|exact Hb]. }
  assert (E0 : dn KM (lv + nb) (FF l0) (egate tau lv B) e0 s4).
  { apply (dn_stable tau _ _ _ _ _ s1); auto. eapply rel_trans; [exact R2'|eapply rel_trans; eauto]. }
  assert (E1 : dn KM (lv + nb) (FF l1) (egate tau lv B) e1 s4).
  { apply (dn_stable tau _ _ _ _ _ s2); auto. eapply rel_trans; eauto. }
  assert (E2 : dn KM (lv + nb) (FF l2) (egate tau lv B) e2 s4) by (apply (dn_stable tau _ _ _ _ _ s3); auto).
  assert (E3 : dn KM (lv + nb) (FF l3) (egate tau lv B) e3 s4) by exact D3.
  set (V := fun e => val KM (tb s4 KM) (lv + nb) e).
  eapply (wpr_mono tau) with (Q := dn KM (S (lv + nb)) (ch_F [V e0; V e1; V e2; V e3] (lv + nb)) (mkerr tau (B + egate tau lv B))); [auto| |].
  2: { apply (wpr_makeMEdge tau); auto; try lia; try apply E0; try apply E1; try apply E2; try apply E3.
       - apply (W l0 e0 s4 E0 I4); auto.
       - apply (W l1 e1 s4 E1 I4); auto.
       - apply (W l2 e2 s4 E2 I4); auto.
       - apply (W l3 e3 s4 E3 I4); auto. }
  intros e s5 R5 D5. assert (R05 : rel s s5) by (eapply rel_trans; eauto). apply HQ; auto.
  assert (Hd' : dn KM (S lv + nb) (kvF nb (val KM (tb s KM) (S lv) l) (val KM (tb s KM) nb r)) (egate tau (S lv) B) e s5).
  { cbn [egate]. rewrite Rplus_comm. eapply (dnt_err tau); [|exact D5]. intros ix.
    assert (Hval : kvF nb (val KM (tb s KM) (S lv) l) (val KM (tb s KM) nb r) ix =
      ch_F [FF l0; FF l1; FF l2; FF l3] (lv + nb) ix).
    { unfold ch_F, FF, kvF. cbn [map].
      assert (Hval : val KM (tb s KM) (S lv) l (shift nb ix) =
        Cmult (ew l) (val KM (tb s KM) lv (nth (ix (lv + nb)%nat) (nch nd) zeroE) (shift nb ix))).
      { unfold Wf.val at 1. rewrite Hp, (valp_S_node tau _ _ lv a nd) by auto. unfold shift at 1.
        now rewrite (Nat.add_comm nb lv). }
      rewrite Hval, Hch. destruct (ix (lv + nb)%nat) as [|[|[|[|i]]]]; cbn [nth].
      - unfold l0, Wf.val. cbn [ew en]. rewrite (cmul_C tau (ew l) (ew x0)). toC. ring.
      - unfold l1, Wf.val. cbn [ew en]. rewrite (cmul_C tau (ew l) (ew x1)). toC. ring.
      - unfold l2, Wf.val. cbn [ew en]. rewrite (cmul_C tau (ew l) (ew x2)). toC. ring.
      - unfold l3, Wf.val. cbn [ew en]. rewrite (cmul_C tau (ew l) (ew x3)). toC. ring.
      - destruct i; cbn [nth]; rewrite (val_zeroE tau); toC; ring. }
    rewrite Hval. unfold ch_F. cbn [map]. pose proof (egate_pos tau lv B HB0) as Hg.
    destruct (ix (lv + nb)%nat) as [|[|[|[|i]]]]; cbn [nth].
    - apply E0.
    - apply E1.
    - apply E2.
    - apply E3.
    - assert (Hs0 : forall x : C, Cminus x x = RtoC 0) by (intros; ring). destruct i; rewrite Hs0, Cmod_0; exact Hg. }
  (* skipped levels above the node *)
  assert (Hup : forall k, (S lv <= k)%nat -> dn KM (k + nb) (kvF nb (val KM (tb s KM) k l) (val KM (tb s KM) nb r)) (egate tau k B) e s5).
  { intros k Hk. induction Hk as [|k Hk IHk]; [exact Hd'|]. apply dn_up in IHk.
    eapply (dnt_weaken tau); [now apply egate_S|]. eapply (dnt_F tau); [|exact IHk]. intros ix. cbn beta. symmetry. apply val_lift.
    left. right. exists a, nd. repeat split; auto; try apply Hreg. lia. }
  apply Hup. lia.
Qed.

Theorem wpr_mm_kronecker na nb l r s (Q : post tau) : Inv s -> Z.of_nat (na + nb) <= NQUBITS ->
  wfe KM (tb s KM) na l -> levels (tb s KM) nb (en r) ->
  (forall e s', rel s s' -> dn KM (na + nb) (kvF nb (val KM (tb s KM) na l) (val KM (tb s KM) nb r))
      (egate tau na (Cmod (ew l) * Cmod (ew r))) e s' -> Q e s') ->
  wpr tau (mm_kronecker l r) Q s.
Proof.
  intros HI Hn Hl Hr HQ. unfold mm_kronecker.
  destruct (is_term (en l) && is_term (en r))%bool eqn:Htt.
  - apply andb_prop in Htt as [T1 T2]. assert (P1 : en l = Term) by (destruct (en l); (discriminate T1 || auto)).
    assert (P2 : en r = Term) by (destruct (en r); (discriminate T2 || auto)).
    apply (wpr_ret tau). intros s' Hrel. apply HQ; auto. apply (dn_stable tau _ _ _ _ _ _ _ HI Hrel).
    eapply (dnt_weaken tau) with (err := 0%R); [apply (egate_pos tau); apply Rmult_le_pos; apply Cmod_ge_0|].
    rewrite <- P2. apply dn_term_kron; auto. now apply levels_wfp.
  - assert (Hlp : exists f, levels (tb s KM) f (en l) /\ (f <= na)%nat).
    { destruct Hl as [[h|(a & nd' & Hp & Hreg & Hlt)]|[_ h]]; [exists 0%nat; split; [exact h|lia]| |exists 0%nat; split; [exact h|lia]].
      pose proof (no_level _ _ _ _ (reg_ok tau _ _ _ _ (inv_tb tau s HI KM) Hreg)).
      exists (S (Z.to_nat (nv nd'))). split; [|lia]. exists a, nd'. split; [auto|split; [auto|lia]]. }
    destruct Hlp as (f & Hlf & Hf). apply (wpr_read_lev f); auto. intros nd Hv. rewrite Hv.
    replace (Z.to_nat (Z.of_nat f - 1 + 1)) with f by lia.
    assert (Hwf : wfe KM (tb s KM) f l) by (left; now apply levels_wfp).
    apply (wpr_mkron2 nb r f f s l); auto; [lia|].
    intros e s' R' Hd. apply HQ; auto. clear HQ.
    assert (HB0 : (0 <= Cmod (ew l) * Cmod (ew r))%R) by (apply Rmult_le_pos; apply Cmod_ge_0).
    clear Hn Hl. induction Hf as [|k Hk IHk]; [exact Hd|].
    apply dn_up in IHk. eapply (dnt_weaken tau); [now apply egate_S|]. eapply (dnt_F tau); [|exact IHk]. intros ix. cbn beta. symmetry. apply val_lift.
    eapply (wfe_KM_up tau); [exact Hk|exact Hwf].
Qed.

Lemma mix_shift nb i j l : shift nb (mix i j) l = mix (i / 2 ^ nb) (j / 2 ^ nb) l.
Proof.
  unfold shift, mix, bit. rewrite <- !Nat.shiftr_div_pow2, !Nat.shiftr_spec by lia. now rewrite (Nat.add_comm l nb).
Qed.
Lemma matF_kvF na nb t (a b : edge) A B : meq na (matF (val KM t na a)) A -> meq nb (matF (val KM t nb b)) B ->
  meq (na + nb) (matF (kvF nb (val KM t na a) (val KM t nb b))) (kronm nb A B).
Proof.
  intros HA HB i j Hi Hj. unfold matF, kvF, kronm.
  assert (Hd : forall m, (m < 2 ^ (na + nb))%nat -> (m / 2 ^ nb < 2 ^ na)%nat).
  { intros m Hm. apply Nat.div_lt_upper_bound; [apply Nat.pow_nonzero; lia|]. rewrite <- Nat.pow_add_r. replace (nb + na)%nat with (na + nb)%nat by lia. exact Hm. }
  assert (Hd' : forall m, (m mod 2 ^ nb < 2 ^ nb)%nat) by (intros; apply Nat.mod_upper_bound, Nat.pow_nonzero; lia).
  rewrite <- (HA _ _ (Hd i Hi) (Hd j Hj)), <- (HB _ _ (Hd' i) (Hd' j)). unfold matF. f_equal.
  - apply (val_local tau). intros l Hl. apply mix_shift.
  - apply (val_local tau). intros l Hl. unfold mix, bit. rewrite !Nat.mod_pow2_bits_low by lia. reflexivity.
Qed.

Lemma getVar_levels s n (e : edge) nb : Inv s -> wfe KM (tb s KM) n e -> getVar KM (en e) s = Some (Z.of_nat nb - 1) -> levels (tb s KM) nb (en e).
Proof.
  intros HI Hw Hv. unfold getVar in Hv. destruct Hw as [[h|(a & nd & Hp & Hreg & Hlt)]|[_ h]].
  - rewrite h in *. cbn [readn nv] in Hv. injection Hv as Hv. assert (nb = 0%nat) by lia. subst nb. reflexivity.
  - rewrite Hp in *. cbn [readn] in Hv. destruct Hreg as [Hh Hc]. rewrite Hh in Hv. injection Hv as Hv.
    assert (Hreg : reg KM (tb s KM) a nd) by (split; auto).
    pose proof (no_level _ _ _ _ (reg_ok tau _ _ _ _ (inv_tb tau s HI KM) Hreg)). destruct nb as [|nb]; [lia|].
    exists a, nd. split; [auto|split; [auto|lia]].
  - rewrite h in *. cbn [readn nv] in Hv. injection Hv as Hv. assert (nb = 0%nat) by lia. subst nb. reflexivity.
Qed.

(* C28, for a right operand whose root is at its top qubit (or an identity on the left).
   Missing: right operands that act trivially on their top qubit -- false, see
   C28_refuted below. *)
Theorem C28_mm_kronecker_partial s hs na nb a b A B X Y : reachable (s, hs) -> In (H KM na a) hs -> In (H KM nb b) hs ->
  getVar KM (en b) s = Some (Z.of_nat nb - 1) \/ is_term (en a) = true -> Z.of_nat (na + nb) <= NQUBITS ->
  reads_m s na a A -> reads_m s nb b B ->
  (forall i j, (i < 2 ^ na)%nat -> (j < 2 ^ na)%nat -> (Cmod (A i j) <= X)%R) ->
  (forall i j, (i < 2 ^ nb)%nat -> (j < 2 ^ nb)%nat -> (Cmod (B i j) <= Y)%R) ->
  returns (mm_kronecker a b) s (fun e s' =>
    reads_m_upto (egate tau na (X * Y)) s' (na + nb) e (kronm nb A B) /\
    (tau = 0%R -> reads_m s' (na + nb) e (kronm nb A B))).
Proof.
  intros Hr Ha Hb Hlev Hn RA RB HX HY. pose proof (reach_Inv tau _ _ Hr) as HI.
  destruct (reach_M tau _ _ _ _ Hr Ha) as (A1 & A3). destruct (reach_M tau _ _ _ _ Hr Hb) as (B1 & B3).
  destruct (C12_root_weight_max_m tau _ _ _ _ _ Hr Ha RA) as (_ & i & i' & Hi & Hi' & Ew).
  destruct (C12_root_weight_max_m tau _ _ _ _ _ Hr Hb RB) as (_ & k & k' & Hk & Hk' & Ev).
  assert (Hle : (Cmod (ew a) * Cmod (ew b) <= X * Y)%R).
  { apply Rmult_le_compat; auto using Cmod_ge_0; rewrite <- ?Ew, <- ?Ev; auto. }
  assert (HB0 : (0 <= Cmod (ew a) * Cmod (ew b))%R) by (apply Rmult_le_pos; apply Cmod_ge_0).
  set (F := kvF nb (val KM (tb s KM) na a) (val KM (tb s KM) nb b)).
  assert (HF : meq (na + nb) (matF F) (kronm nb A B)) by (apply matF_kvF; [apply RA|apply RB]).
  eapply (wpr_returns tau) with (Q := dn KM (na + nb) F (egate tau na (X * Y))); [exact HI| |].
  - destruct Hlev as [Hlev|Ht].
    + eapply (wpr_mm_kronecker na nb a b s); auto; [eapply getVar_levels; eauto|].
      intros e s' _ Hd. eapply (dnt_weaken tau); [|exact Hd]. apply egate_mono. lra.
    + assert (P1 : en a = Term) by (destruct (en a); (discriminate Ht || auto)).
      (* {a.w * b.w, b.n} *)
      assert (Hd : forall s', rel s s' -> dn KM (na + nb) F (egate tau na (X * Y)) (E (cmul (ew a) (ew b)) (en b)) s').
      { intros s' Hrel. apply (dn_stable tau _ _ _ _ _ _ _ HI Hrel). eapply (dnt_weaken tau) with (err := 0%R); [apply (egate_pos tau); lra|].
        apply dn_term_kron; auto. destruct B3 as [h|[_ h]]; [exact h|left; exact h]. }
      unfold mm_kronecker. rewrite Ht. cbn [andb]. destruct (is_term (en b)) eqn:Tb.
      * assert (P2 : en b = Term) by (destruct (en b); (discriminate Tb || auto)). rewrite <- P2. apply (wpr_ret tau). auto.
      * rewrite P1. apply (wpr_read_lev 0); auto; [reflexivity|]. intros nd Hnd. rewrite Hnd. cbn [Z.of_nat Z.sub Z.add Z.opp Z.to_nat mm_kronecker2].
        destruct (Z.to_nat _); cbn [mm_kronecker2]; rewrite P1; cbn [is_term]; apply (wpr_ret tau); auto.
  - intros e s' R' D. pose proof (rel_inv _ _ _ R') as I'.
    assert (Hu : reads_m_upto (egate tau na (X * Y)) s' (na + nb) e (kronm nb A B)) by (eapply (dn_reads_m tau); eauto).
    split; auto. intros H0. eapply (upto_0_m tau); [|exact Hu]. apply (egate_0 tau); exact H0.
Qed.

(* a gate on nb qubits whose root is lower: what the code computes is the tensor
   product with the smaller gate, not with the gate on nb qubits *)
Lemma kron_identity s hs na n a b A : tau = 0%R -> reachable (s, hs) -> In (H KM na a) hs -> In (H KM n b) hs ->
  en b = Term -> ew b = c1 -> reads_m s na a A ->
  returns (mm_kronecker a b) s (fun e s' => wfe KM (tb s' KM) na e /\ Inv s' /\ reads_m s' na e A).
Proof.
  intros H0 Hr Ha Hb Tb Wb RA. pose proof (reach_Inv tau _ _ Hr) as HI.
  destruct (reach_M tau _ _ _ _ Hr Ha) as (A1 & A3). destruct (reach_M tau _ _ _ _ Hr Hb) as (B1 & B3).
  set (F := kvF 0 (val KM (tb s KM) na a) (val KM (tb s KM) 0 b)).
  eapply (wpr_returns tau) with (Q := dn KM (na + 0) F 0); [exact HI| |].
  - eapply (wpr_mm_kronecker na 0 a b s); auto; [lia|]. intros e s' _ Hd.
    eapply (dnt_weaken tau); [|exact Hd]. rewrite (egate_0 tau) by exact H0. lra.
  - intros e s' R' D. pose proof (rel_inv _ _ _ R') as I'. rewrite Nat.add_0_r in D.
    split; [apply D|]. split; [exact I'|]. apply (upto_0_m tau) with (err := 0%R); auto. eapply (dn_reads_m tau); eauto.
    intros i j Hi Hj. rewrite <- (Logic.proj1 RA i j Hi Hj). unfold matF, F, kvF, matof, matF.
    assert (Hone : val KM (tb s KM) 0 b (mix i j) = RtoC 1).
    { unfold Wf.val. rewrite Wb. cbn [Wf.valp]. change (@c1 (RNum tau)) with (RtoC 1). toC. ring. }
    rewrite Hone. replace (val KM (tb s KM) na a (shift 0 (mix i j))) with (val KM (tb s KM) na a (mix i j)).
    + toC. ring.
    + apply (val_local tau). reflexivity.
Qed.

(* The full statement is false: X (x) I on two qubits comes out as I (x) X. *)
Theorem C28_refuted : tau = 0%R -> exists s hs a b,
  reachable (s, hs) /\ In (H KM 1 a) hs /\ In (H KM 1 b) hs /\
  reads_m s 1 a (gate1 1 (@Xmat (RNum tau)) 0 []) /\ reads_m s 1 b ident /\
  (exists e s', run (mm_kronecker a b) s = Some (e, s')) /\
  forall e s', steps (Cfg_ok (mm_kronecker a b) s) (Cfg_ok (CRet e) s') ->
    ~ reads_m s' 2 e (kronm 1 (gate1 1 (@Xmat (RNum tau)) 0 []) ident).
Proof.
  intros H0. assert (Sz : size_ok 1) by (unfold size_ok, NQUBITS; lia). assert (Q0 : qubit 1 0) by (unfold qubit; lia).
  assert (C0 : controls_ok 1 [0] []) by (split; [constructor|intros x []]).
  set (GX := gate1 1 (@Xmat (RNum tau)) 0 []). set (GI := gate1 1 (@Imat (RNum tau)) 0 []).
  assert (Hi : irun [P_gate 1 (@Imat (RNum tau)) 0 []; P_gate 1 (@Xmat (RNum tau)) 0 []] [IM 1 GI; IM 1 GX] [[]; []]).
  { eapply ir_cons; [eapply ir_cons; [apply ir_nil|]|].
    - cbn. split; [exact Sz|]. split; [exact Q0|]. split; [exact C0|]. split; reflexivity.
    - cbn. split; [exact Sz|]. split; [exact Q0|]. split; [exact C0|]. split; reflexivity. }
  destruct (exec_exists tau _ _ _ H0 Hi) as ([s hs] & Hx).
  destruct (exec_refines tau _ (s, hs) _ _ _ H0 Hx Hi) as (_ & Hr & Hf). cbn [fst snd] in *.
  destruct hs as [|h0 [|h1 hs2]]; [now inversion Hf|inversion_clear Hf as [|? ? ? ? _ F1]; now inversion F1|].
  inversion_clear Hf as [|? ? ? ? E0 F1]. inversion_clear F1 as [|? ? ? ? E1 F2].
  destruct h0 as [k0 n0 b], h1 as [k1 n1 a]. cbn in E0, E1. destruct E0 as (-> & -> & RB). destruct E1 as (-> & -> & RA).
  assert (RI : reads_m s 1 b ident).
  { eapply (reads_m_meq tau); [|exact RB]. intros i j Hi' Hj'. cbn in Hi', Hj'.
    assert (Hc : i = 0%nat \/ i = 1%nat) by lia. assert (Hc' : j = 0%nat \/ j = 1%nat) by lia.
    destruct Hc as [-> | ->], Hc' as [-> | ->]; reflexivity. }
  set (hs := H KM 1 b :: H KM 1 a :: hs2) in *.
  exists s, hs, a, b. split; [exact Hr|]. split; [now right; left|]. split; [now left|]. split; [exact RA|]. split; [exact RI|].
  pose proof (reach_Inv tau _ _ Hr) as HI. destruct (reach_M tau _ _ _ _ Hr (or_introl eq_refl)) as (B1 & B3).
  (* the identity gate is the edge {1, terminal} *)
  assert (Hb : b = oneE).
  { assert (W1 : wfe KM (tb s KM) 1 (@oneE (RNum tau))) by (left; now left).
    destruct (canon_edge tau KM (tb s KM) 1 b oneE H0 (inv_tb _ _ HI KM) B3 W1) as [He|[_ He]]; auto.
    - apply (meq_val tau s 1 b oneE HI B3 W1). eapply meq_trans; [exact (Logic.proj1 RI)|].
      intros i j Hi' Hj'. cbn in Hi', Hj'.
      assert (Hc : i = 0%nat \/ i = 1%nat) by lia. assert (Hc' : j = 0%nat \/ j = 1%nat) by lia.
      unfold matof, matF, Wf.val. cbn [oneE ew en]. change (@c1 (RNum tau)) with (RtoC 1).
      destruct Hc as [-> | ->], Hc' as [-> | ->]; cbn; unfold ident; cbn; ring.
    - cbn in He. injection He as He. exfalso. revert He. apply R1_neq_R0. }
  destruct (kron_identity s hs 1 1 a b GX H0 Hr (or_intror (or_introl eq_refl)) (or_introl eq_refl)) as (_ & Hrun & Hst); auto; try (rewrite Hb; reflexivity).
  split; [exact Hrun|]. intros e s' Hs' [Hm _]. destruct (Hst e s' Hs') as (We & I' & _).
  specialize (Hm 2%nat 0%nat ltac:(cbn; lia) ltac:(cbn; lia)). unfold matof, matF in Hm.
  rewrite (val_KM_up tau) in Hm by exact We. change (diag4 (mix 2 0 1)) with (RtoC 0) in Hm.
  assert (Hk : kronm 1 GX ident 2%nat 0%nat = RtoC 1).
  { unfold kronm. cbn. unfold GX, gate1. cbn. unfold ident. cbn. toC. unfold cf_one. change (@c1 (RNum tau)) with (RtoC 1). ring. }
  rewrite Hk in Hm. assert (Hz : RtoC 0 = RtoC 1) by (rewrite <- Hm; ring). injection Hz as Hz. revert Hz. apply not_eq_sym, R1_neq_R0.
Qed.
End KronM.
