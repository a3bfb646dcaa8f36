(* FpKron.v -- vv_kronecker over a rounded arithmetic (follows Kron.v). *)
From Coq Require Import Reals Lra Psatz ZArith Bool List Lia Arith.
From Coquelicot Require Import Complex.
From Verif Require Import Num State DD Gates RNum Wf Sums Err Inv Wp Make Add MulV GateP StateP Kron FpA FpE FpW FpM FpAdd FpMul FpGate FpState.
Import ListNotations.
Open Scope Z_scope.

Section FpKron.
Context {NO : NumOps} {AC : Accur NO} {CF : Cfg}.
Notation dl := (@dl NO AC).
Notation Gr := (@Gr NO AC).
Notation Gp := (@Gp NO AC).
Notation state := (@State.state NO).
Notation edge := (@State.edge NO).

(* a zero-weight edge with an arbitrary pointer may stand for zero *)
Definition dz (m : nat) (F : (nat -> nat) -> C) (err : R) (e : edge) (s : state) : Prop :=
  dn KV m F err e s \/ (ew e = c0 /\ forall ix, F ix = RtoC 0).
Lemma dz_stable m F err : stable (dz m F err).
Proof. intros e s s' HI Hr [H|H]; [left|right; auto]. exact (dn_stable _ _ _ _ _ _ _ HI Hr H). Qed.
(* the same edge, well formed *)
Lemma dz_wf m F err e s : (0 <= err)%R -> dz m F err e s -> exists e', dn KV m F err e' s /\ ew e' = ew e /\ (e' = e \/ (e' = zeroE /\ ew e = c0)).
Proof.
  intros He [H|[H1 H2]]; [exists e; auto|]. exists zeroE. split; [|split; auto].
  split; [apply wfe_zero|]. intros ix. rewrite val_zeroE, H2. replace (Cminus (RtoC 0) (RtoC 0)) with (RtoC 0) by ring. now rewrite Cmod_0.
Qed.
Lemma wpr_makeVEdge_z B err q s e0 e1 F0 F1 (Q : post) :
  Inv s -> Z.of_nat q < NQUBITS -> (0 <= B)%R -> (0 <= err)%R ->
  dz q F0 err e0 s -> dz q F1 err e1 s ->
  (forall ix, Cmod (F0 ix) <= B)%R -> (forall ix, Cmod (F1 ix) <= B)%R ->
  (forall e s', rel s s' -> dn KV (S q) (ch_F [F0; F1] q) (err + mkerr q (B + err)) e s' -> Q e s') ->
  wpr (makeVEdge (Z.of_nat q) e0 e1) Q s.
Proof.
  intros HI Hq HB Herr D0 D1 B0 B1 HQ. pose proof (inv_tb s HI KV) as HT.
  destruct (dz_wf _ _ _ _ _ Herr D0) as (c0' & C0 & CW0 & CE0). destruct (dz_wf _ _ _ _ _ Herr D1) as (c1' & C1 & CW1 & CE1).
  set (F0' := val KV (tb s KV) q c0'). set (F1' := val KV (tb s KV) q c1').
  assert (W0 : (Cmod (cv (ew c0')) <= B + err)%R) by (eapply dnt_wbound; eauto).
  assert (W1 : (Cmod (cv (ew c1')) <= B + err)%R) by (eapply dnt_wbound; eauto).
  assert (Hfin : forall e s', rel s s' -> dn KV (S q) (ch_F [F0'; F1'] q) (mkerr q (B + err)) e s' -> Q e s').
  { intros e s' Hr Hd. apply HQ; auto. rewrite Rplus_comm. eapply dnt_err; [|exact Hd].
    intros ix. unfold ch_F. cbn [map]. destruct (ix q) as [|[|i]]; cbn [nth].
    - apply C0.
    - apply C1.
    - assert (Hs : forall x : C, Cminus x x = RtoC 0) by (intros; ring). rewrite Hs. now rewrite Cmod_0. }
  destruct (iszero (ew e0) && iszero (ew e1))%bool eqn:Hz.
  - unfold makeVEdge. rewrite Hz. apply wpr_scratch; auto. apply wpr_ret. intros s' Hr. apply Hfin; auto.
    apply (dn_stable _ _ _ _ _ _ _ HI Hr). apply andb_prop in Hz as [Z0 Z1].
    apply (dn_zero KV q s [c0'; c1'] [F0'; F1']); auto; [lra| | |].
    + intros c [<-|[<-|[]]]; [apply C0|apply C1].
    + intros [|[|i]] ix Hi; cbn [nth length] in *; auto. lia.
    + intros c [<-|[<-|[]]]; rewrite ?CW0, ?CW1; now apply z_true.
  - assert (Heq : makeVEdge (Z.of_nat q) e0 e1 = makeVEdge (Z.of_nat q) c0' c1').
    { destruct CE0 as [->|[-> E0]].
      - destruct CE1 as [->|[-> E1]]; auto. rewrite E1, iszero_c0', andb_true_r in Hz.
        rewrite (makeVEdge_lo _ e0 e1), (makeVEdge_lo _ e0 zeroE); auto.
      - rewrite E0, iszero_c0' in Hz. cbn [andb] in Hz. destruct CE1 as [->|[-> E1]]; [|rewrite E1, iszero_c0' in Hz; discriminate].
        rewrite (makeVEdge_hi _ e0 e1), (makeVEdge_hi _ zeroE e1); auto. }
    rewrite Heq. eapply wpr_mono; [auto|exact Hfin|].
    apply wpr_makeVEdge; auto; [apply C0|apply C1].
Qed.

(* error of the product of an n-qubit edge of weight a with an nb-qubit edge of weight b *)
Definition kup (a : R) : R := (a * Gr + dl * (a * Gr + 1))%R.
Fixpoint ekron (nb n : nat) (a b : R) : R :=
  match n with
  | O => (dl * (a * b + 1) * Gp nb)%R
  | S m => (let D := ekron nb m (kup a) b + dl * (a * Gr + 1) * Gp m * (b * Gp nb) in
            D + mkerr (m + nb) (a * Gp (S m) * (b * Gp nb) + D))%R
  end.
Lemma kup_pos a : (0 <= a -> 0 <= kup a)%R.
Proof. intros. unfold kup. pose proof Gr_pos. pose proof dl_pos. assert (0 <= a * Gr)%R by (apply Rmult_le_pos; lra). assert (0 <= dl * (a * Gr + 1))%R by (apply Rmult_le_pos; lra). lra. Qed.
Lemma kup_mono a a' : (a <= a' -> kup a <= kup a')%R.
Proof.
  intros. unfold kup. pose proof Gr_pos. pose proof dl_pos. assert (a * Gr <= a' * Gr)%R by (apply Rmult_le_compat_r; lra).
  assert (dl * (a * Gr + 1) <= dl * (a' * Gr + 1))%R by (apply Rmult_le_compat_l; lra). lra.
Qed.
Lemma ekron_pos nb n : forall a b, (0 <= a -> 0 <= b -> 0 <= ekron nb n a b)%R.
Proof.
  pose proof dl_pos as Hd. pose proof Gr_pos as Hg. pose proof (Grp nb) as Hgn.
  induction n as [|m IH]; intros a b Ha Hb; cbn [ekron].
  - apply Rmult_le_pos; [|auto]. apply Rmult_le_pos; [auto|]. pose proof (Rmult_le_pos a b Ha Hb). lra.
  - cbv zeta. pose proof (IH (kup a) b (kup_pos a Ha) Hb) as Hi. pose proof (Grp m) as Hgm. pose proof (Grp (S m)) as Hgs.
    pose proof (Rmult_le_pos b (Gp nb) Hb Hgn) as Hbg. pose proof (Rmult_le_pos a (Gp (S m)) Ha Hgs) as Hag.
    pose proof (Rmult_le_pos _ _ Hag Hbg) as Hag2.
    assert (H1 : (0 <= dl * (a * Gr + 1))%R) by (apply Rmult_le_pos; [auto|]; pose proof (Rmult_le_pos a Gr Ha Hg); lra).
    pose proof (Rmult_le_pos _ _ (Rmult_le_pos _ _ H1 Hgm) Hbg) as H2.
    assert (Hm : (0 <= mkerr (m + nb) (a * Gp (S m) * (b * Gp nb) + (ekron nb m (kup a) b + dl * (a * Gr + 1) * Gp m * (b * Gp nb))))%R) by (apply mkerr_pos; lra).
    lra.
Qed.
Lemma ekron_mono nb n : forall a a' b, (0 <= a <= a' -> 0 <= b -> ekron nb n a b <= ekron nb n a' b)%R.
Proof.
  pose proof dl_pos as Hd. pose proof Gr_pos as Hg. pose proof (Grp nb) as Hgn.
  induction n as [|m IH]; intros a a' b Ha Hb; cbn [ekron].
  - apply Rmult_le_compat_r; [auto|]. apply Rmult_le_compat_l; [auto|]. apply Rplus_le_compat_r. apply Rmult_le_compat_r; lra.
  - cbv zeta. pose proof (IH (kup a) (kup a') b (conj (kup_pos a ltac:(lra)) (kup_mono a a' ltac:(lra))) Hb) as Hi.
    pose proof (Grp m) as Hgm. pose proof (Grp (S m)) as Hgs. pose proof (Rmult_le_pos b (Gp nb) Hb Hgn) as Hbg.
    assert (H1 : (dl * (a * Gr + 1) * Gp m * (b * Gp nb) <= dl * (a' * Gr + 1) * Gp m * (b * Gp nb))%R).
    { apply Rmult_le_compat_r; [auto|]. apply Rmult_le_compat_r; [auto|]. apply Rmult_le_compat_l; [auto|]. apply Rplus_le_compat_r. apply Rmult_le_compat_r; lra. }
    assert (H2 : (a * Gp (S m) * (b * Gp nb) <= a' * Gp (S m) * (b * Gp nb))%R).
    { apply Rmult_le_compat_r; [auto|]. apply Rmult_le_compat_r; [auto|lra]. }
    pose proof (mkerr_mono (m + nb) (a * Gp (S m) * (b * Gp nb) + (ekron nb m (kup a) b + dl * (a * Gr + 1) * Gp m * (b * Gp nb)))
      (a' * Gp (S m) * (b * Gp nb) + (ekron nb m (kup a') b + dl * (a' * Gr + 1) * Gp m * (b * Gp nb))) ltac:(lra)). lra.
Qed.
Lemma ekron_mono_b nb n : forall a b b', (0 <= a -> 0 <= b <= b' -> ekron nb n a b <= ekron nb n a b')%R.
Proof.
  pose proof dl_pos as Hd. pose proof Gr_pos as Hg. pose proof (Grp nb) as Hgn.
  induction n as [|m IH]; intros a b b' Ha Hb; cbn [ekron].
  - apply Rmult_le_compat_r; [auto|]. apply Rmult_le_compat_l; [auto|]. apply Rplus_le_compat_r. apply Rmult_le_compat_l; lra.
  - cbv zeta. pose proof (IH (kup a) b b' (kup_pos a Ha) Hb) as Hi.
    pose proof (Grp m) as Hgm. pose proof (Grp (S m)) as Hgs.
    assert (Hbg : (b * Gp nb <= b' * Gp nb)%R) by (apply Rmult_le_compat_r; [auto|lra]).
    assert (H0 : (0 <= dl * (a * Gr + 1) * Gp m)%R).
    { apply Rmult_le_pos; [|auto]. apply Rmult_le_pos; [auto|]. pose proof (Rmult_le_pos a Gr Ha Hg). lra. }
    pose proof (Rmult_le_compat_l _ _ _ H0 Hbg) as H1.
    pose proof (Rmult_le_compat_l _ _ _ (Rmult_le_pos _ _ Ha Hgs) Hbg) as H2.
    pose proof (mkerr_mono (m + nb) (a * Gp (S m) * (b * Gp nb) + (ekron nb m (kup a) b + dl * (a * Gr + 1) * Gp m * (b * Gp nb)))
      (a * Gp (S m) * (b' * Gp nb) + (ekron nb m (kup a) b' + dl * (a * Gr + 1) * Gp m * (b' * Gp nb))) ltac:(lra)). lra.
Qed.
Lemma ekron_exact nb n : dl = 0%R -> forall a b, ekron nb n a b = 0%R.
Proof.
  intros Hd. induction n as [|m IH]; intros a b; cbn [ekron]; [rewrite Hd; ring|]. cbv zeta. rewrite IH. unfold mkerr. rewrite Hd. ring.
Qed.
Lemma wpr_kron2 nb r : forall n s l (Q : post), Inv s -> Z.of_nat (n + nb) <= NQUBITS ->
  wfp KV (tb s KV) nb (en r) -> (1 <= nb)%nat -> wfe KV (tb s KV) n l ->
  (forall e s', rel s s' -> dz (n + nb) (kvF nb (val KV (tb s KV) n l) (val KV (tb s KV) nb r))
      (ekron nb n (Cmod (cv (ew l))) (Cmod (cv (ew r)))) e s' ->
      (wfp KV (tb s KV) n (en l) -> dn KV (n + nb) (kvF nb (val KV (tb s KV) n l) (val KV (tb s KV) nb r))
      (ekron nb n (Cmod (cv (ew l))) (Cmod (cv (ew r)))) e s') -> Q e s') ->
  wpr (vv_kronecker2 n l r) Q s.
Proof.
  induction n as [|n IH]; intros s l Q HI Hn Hr Hnb Hl HQ; cbn [vv_kronecker2];
    pose proof (inv_tb s HI KV) as HT.
  - assert (Hp : en l = Term) by (destruct Hl as [h|[_ h]]; auto). rewrite Hp. cbn [is_term].
    apply wpr_ret. intros s' Hrel.
    assert (Hd : dn KV (0 + nb) (kvF nb (val KV (tb s KV) 0 l) (val KV (tb s KV) nb r))
      (ekron nb 0 (Cmod (cv (ew l))) (Cmod (cv (ew r)))) (E (cmul (ew l) (ew r)) (en r)) s').
    { apply (dn_stable _ _ _ _ _ _ _ HI Hrel). split; [now left|].
      intros ix. unfold kvF, FpA.val. cbn [ew en Nat.add ekron].
      change (FpA.valp KV (tb s KV) 0 (en l) (shift nb ix)) with (RtoC 1).
      match goal with |- (Cmod (Cminus (Cmult ?x ?v) (Cmult (Cmult ?a (RtoC 1)) (Cmult ?b ?v))) <= _)%R =>
        replace (Cminus (Cmult x v) (Cmult (Cmult a (RtoC 1)) (Cmult b v))) with (Cmult (Cminus x (Cmult a b)) v) by ring end.
      rewrite Cmod_mult. apply Rmult_le_compat; try apply Cmod_ge_0; [apply cmul_err|]. apply valp_le1; auto. }
    apply HQ; auto. now left.
  - destruct (is_term (en l)) eqn:Ht.
    { assert (Hp : en l = Term) by (destruct (en l); (discriminate Ht || auto)).
      assert (Hw : cv (ew l) = RtoC 0) by (destruct Hl as [(a & nd & h & _)|[h _]]; auto; rewrite Hp in h; discriminate).
      apply wpr_ret. intros s' Hrel. apply HQ; auto.
      - right. cbn [ew]. split; [apply cv_z, cmul_zl, Hw|]. intros ix. unfold kvF. rewrite val_zw by auto. ring.
      - intros (a & nd & h & _). rewrite Hp in h. discriminate. }
    destruct (is_term (en r)) eqn:Htr.
    { destruct nb as [|nb']; [lia|]. destruct Hr as (a & nd & h & _). rewrite h in Htr. discriminate. }
    destruct Hl as [(a & nd & Hp & Hreg & Hv)|[_ h]]; [|rewrite h in Ht; discriminate].
    destruct nb as [|nb']; [lia|]. set (nb := S nb') in *. assert (Hr' : wfp KV (tb s KV) nb (en r)) by exact Hr.
    destruct Hr as (ar & ndr & Hpr & Hregr & Hvr).
    rewrite Hp, Hpr. apply wpr_read with (nd := nd); auto. apply wpr_read with (nd := ndr); auto.
    pose proof (reg_ok _ _ _ _ HT Hreg) as Hok.
    destruct (nch nd) as [|x0 [|x1 [|]]] eqn:Hch; try (pose proof (no_len _ _ _ Hok) as Hl; rewrite Hch in Hl; discriminate).
    cbn [nth].
    set (A := Cmod (cv (ew l))). set (B := Cmod (cv (ew r))).
    pose proof (Cmod_ge_0 (cv (ew l))) as HA. fold A in HA. pose proof (Cmod_ge_0 (cv (ew r))) as HB. fold B in HB.
    pose proof dl_pos as Hdl. pose proof Gr_pos as Hgr. pose proof (Grp n) as Hgn. pose proof (Grp nb) as Hgnb. pose proof (Grp (S n)) as Hgsn.
    assert (Hwx : forall x, In x (nch nd) -> wfe KV (tb s KV) n x).
    { intros x Hxi. pose proof (no_wf _ _ _ Hok x Hxi) as h. now rewrite Hv, Nat2Z.id in h. }
    assert (Hle1 : forall x, In x (nch nd) -> (Cmod (cv (ew x)) <= Gr)%R) by (intros x Hx; now apply (no_le1 _ _ _ Hok)).
    assert (Hrv : forall ix, (Cmod (val KV (tb s KV) nb r ix) <= B * Gp nb)%R) by (intros ix; apply val_le; auto; now left).
    assert (HBg : (0 <= B * Gp nb)%R) by (apply Rmult_le_pos; auto).
    set (de := (dl * (A * Gr + 1) * Gp n * (B * Gp nb))%R).
    assert (Hde : (0 <= de)%R).
    { apply Rmult_le_pos; auto. apply Rmult_le_pos; auto. apply Rmult_le_pos; auto. pose proof (Rmult_le_pos A Gr HA Hgr). lra. }
    set (ee := (ekron nb n (kup A) B)%R). assert (Hee : (0 <= ee)%R) by (apply ekron_pos; auto; now apply kup_pos).
    set (li := fun x : edge => E (cmul (ew l) (ew x)) (en x)).
    set (FF := fun x => kvF nb (fun ix => Cmult (cv (ew l)) (val KV (tb s KV) n x ix)) (val KV (tb s KV) nb r)).
    assert (Hwl : forall x, In x (nch nd) -> wfe KV (tb s KV) n (li x)) by (intros x Hx; apply wfe_scale; auto).
    assert (Hlw : forall x, In x (nch nd) -> (Cmod (cv (cmul (ew l) (ew x))) <= kup A)%R /\ (Cmod (Cminus (cv (cmul (ew l) (ew x))) (Cmult (cv (ew l)) (cv (ew x)))) <= dl * (A * Gr + 1))%R).
    { intros x Hx. pose proof (cmul_err (ew l) (ew x)) as Hc. specialize (Hle1 x Hx). pose proof (Cmod_ge_0 (cv (ew x))) as Hx0.
      fold A in Hc. assert (Hax : (A * Cmod (cv (ew x)) <= A * Gr)%R) by (apply Rmult_le_compat_l; auto).
      assert (Hc2 : (dl * (A * Cmod (cv (ew x)) + 1) <= dl * (A * Gr + 1))%R) by (apply Rmult_le_compat_l; lra).
      split; [|lra]. apply Cmod_sub_le in Hc. rewrite Cmod_mult in Hc. fold A in Hc. unfold kup. lra. }
    assert (Hdiff : forall x ix, In x (nch nd) ->
      (Cmod (Cminus (kvF nb (val KV (tb s KV) n (li x)) (val KV (tb s KV) nb r) ix) (FF x ix)) <= de)%R).
    { intros x ix Hx. unfold FF, kvF, li, FpA.val at 1 3. cbn [ew en].
      match goal with |- (Cmod (Cminus (Cmult (Cmult ?w ?v) ?r) (Cmult (Cmult ?a (Cmult ?b ?v)) ?r)) <= _)%R =>
        replace (Cminus (Cmult (Cmult w v) r) (Cmult (Cmult a (Cmult b v)) r)) with (Cmult (Cmult (Cminus w (Cmult a b)) v) r) by ring end.
      rewrite !Cmod_mult. unfold de. destruct (Hlw x Hx) as [_ H2].
      apply Rmult_le_compat; [apply Rmult_le_pos; apply Cmod_ge_0|apply Cmod_ge_0| |apply Hrv].
      apply Rmult_le_compat; [apply Cmod_ge_0|apply Cmod_ge_0|exact H2|]. apply valp_le1; auto. destruct (Hwx x Hx) as [h|[_ h]]; auto. }
    assert (Hbound : forall x, In x (nch nd) -> forall ix, (Cmod (FF x ix) <= A * Gp (S n) * (B * Gp nb))%R).
    { intros x Hx ix. unfold FF, kvF. rewrite Cmod_mult. apply Rmult_le_compat; try apply Cmod_ge_0; [|apply Hrv].
      rewrite Cmod_mult. fold A. apply Rmult_le_compat_l; auto. eapply Rle_trans; [apply val_le; auto|]. rewrite Gp_S. apply Rmult_le_compat_r; auto. }
    assert (Hdz : forall x e s2, In x (nch nd) ->
      dz (n + nb) (kvF nb (val KV (tb s KV) n (li x)) (val KV (tb s KV) nb r)) (ekron nb n (Cmod (cv (ew (li x)))) (Cmod (cv (ew r)))) e s2 ->
      dz (n + nb) (kvF nb (val KV (tb s KV) n (li x)) (val KV (tb s KV) nb r)) ee e s2).
    { intros x e s2 Hx [Hd|Hd]; [left|right; exact Hd]. eapply dnt_weaken; [|exact Hd]. apply ekron_mono; auto.
      split; [apply Cmod_ge_0|]. apply (Hlw x Hx). }
    assert (I0 : In x0 (nch nd)) by (rewrite Hch; cbn; auto). assert (I1 : In x1 (nch nd)) by (rewrite Hch; cbn; auto).
    apply wpr_bind; auto.
    refine (IH s (li x0) _ HI _ Hr' ltac:(lia) (Hwl x0 I0) _); [lia|].
    intros e0 s1 Hr1 D0 _. pose proof (rel_inv _ _ Hr1) as HI1. pose proof (rel_ext _ _ KV Hr1) as He1.
    apply wpr_bind; auto.
    refine (IH s1 (li x1) _ HI1 _ (wfp_ext _ _ _ _ _ He1 Hr') ltac:(lia) (wfe_ext _ _ _ _ _ He1 (Hwl x1 I1)) _); [lia|].
    intros e1 s2 Hr2 D1 _. pose proof (rel_inv _ _ Hr2) as HI2.
    set (K0 := kvF nb (val KV (tb s KV) n (li x0)) (val KV (tb s KV) nb r)) in *.
    set (K1 := kvF nb (val KV (tb s KV) n (li x1)) (val KV (tb s KV) nb r)) in *.
    assert (Hsame : forall ix, kvF nb (val KV (tb s1 KV) n (li x1)) (val KV (tb s1 KV) nb r) ix = K1 ix).
    { intros ix. unfold K1, kvF. rewrite !(val_ext KV (tb s KV) (tb s1 KV)); auto. now left. }
    rewrite Hv, Hvr. replace (Z.of_nat n + Z.of_nat nb' + 1) with (Z.of_nat (n + nb)) by lia.
    apply (wpr_makeVEdge_z (A * Gp (S n) * (B * Gp nb) + de) ee (n + nb) s2 e0 e1 K0 K1); auto.
    + unfold nb in *. lia.
    + assert (0 <= A * Gp (S n) * (B * Gp nb))%R by (apply Rmult_le_pos; auto; apply Rmult_le_pos; auto). lra.
    + apply (dz_stable _ _ _ _ s1 s2 HI1 Hr2). apply Hdz; auto.
    + apply Hdz; auto. destruct D1 as [D1|[D1 D1']].
      * left. eapply dnt_F; [exact Hsame|exact D1].
      * right. split; auto. intros ix. now rewrite <- Hsame.
    + intros ix. specialize (Hdiff x0 ix I0). specialize (Hbound x0 I0 ix). apply Cmod_sub_le in Hdiff. fold K0 in Hdiff. lra.
    + intros ix. specialize (Hdiff x1 ix I1). specialize (Hbound x1 I1 ix). apply Cmod_sub_le in Hdiff. fold K1 in Hdiff. lra.
    + intros e s3 Hr3 Hd.
      assert (Hd' : dn KV (S n + nb) (kvF nb (val KV (tb s KV) (S n) l) (val KV (tb s KV) nb r)) (ekron nb (S n) A B) e s3).
      { cbn [ekron]. cbv zeta. fold ee de.
        replace (ee + de + mkerr (n + nb) (A * Gp (S n) * (B * Gp nb) + (ee + de)))%R with
          ((ee + mkerr (n + nb) (A * Gp (S n) * (B * Gp nb) + de + ee)) + de)%R by (unfold mkerr; ring).
        eapply dnt_err; [|exact Hd]. intros ix. unfold ch_F. cbn [map].
        assert (Hval : val KV (tb s KV) (S n) l (shift nb ix) =
          Cmult (cv (ew l)) (val KV (tb s KV) n (nth (ix (n + nb)%nat) (nch nd) zeroE) (shift nb ix))).
        { unfold FpA.val at 1. rewrite Hp, (valp_S_node _ _ n a nd) by auto. unfold shift at 1.
          now rewrite (Nat.add_comm nb n). }
        unfold kvF at 1. rewrite Hval, Hch. destruct (ix (n + nb)%nat) as [|[|i]]; cbn [nth].
        - apply (Hdiff x0 ix I0).
        - apply (Hdiff x1 ix I1).
        - destruct i; cbn [nth]; rewrite val_zeroE;
            match goal with |- (Cmod ?x <= _)%R => replace x with (RtoC 0) by ring end; rewrite Cmod_0; auto. }
      apply HQ; auto; [|now left].
      eapply rel_trans; [exact Hr1|eapply rel_trans; eauto].
Qed.

Theorem wpr_vv_kronecker na nb l r s (Q : post) : Inv s -> Z.of_nat (na + nb) <= NQUBITS ->
  (1 <= na)%nat -> (1 <= nb)%nat -> wfp KV (tb s KV) na (en l) -> wfp KV (tb s KV) nb (en r) ->
  (forall e s', rel s s' -> dn KV (na + nb) (kvF nb (val KV (tb s KV) na l) (val KV (tb s KV) nb r))
      (ekron nb na (Cmod (cv (ew l))) (Cmod (cv (ew r)))) e s' -> Q e s') ->
  wpr (vv_kronecker l r) Q s.
Proof.
  intros HI Hn Ha Hb Hl Hr HQ. unfold vv_kronecker. destruct na as [|na]; [lia|].
  assert (Hl' : wfp KV (tb s KV) (S na) (en l)) by exact Hl.
  destruct Hl as (a & nd & Hp & Hreg & Hv). rewrite Hp. cbn [is_term andb].
  apply wpr_read with (nd := nd); auto. rewrite Hv. replace (Z.to_nat (Z.of_nat na + 1)) with (S na) by lia.
  apply (wpr_kron2 nb r (S na) s l Q); auto. now left.
Qed.
End FpKron.
