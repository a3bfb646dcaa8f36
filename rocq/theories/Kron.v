(* Kron.v -- vv_kronecker is the tensor product of states. *)
From Coq Require Import Reals Lra Psatz ZArith Bool List Lia Arith.
From Coquelicot Require Import Complex.
From Verif Require Import Num State DD Gates RNum Wf Sums Err Inv Wp Make Add MulV GateP Canon StateP.
Import ListNotations.
Open Scope Z_scope.

Section Kron.
Context (tau : R) {HTol : Tol tau}.
Let Htau : (0 <= tau < 1 / 2)%R := tol_ok.
#[local] Hint Extern 0 NumOps => exact (RNum tau) : typeclass_instances.
Context {CF : Cfg}.
Notation table := (@table (RNum tau)).
Notation state := (@state (RNum tau)).
Notation edge := (@edge (RNum tau)).
Notation node := (@node (RNum tau)).
Notation val := (val tau).
Notation valp := (valp tau).
Notation wfe := (wfe tau).
Notation wfp := (wfp tau).
Notation reg := (reg tau).
Notation TInv := (TInv tau).
Notation Inv := (Inv tau).
Notation rel := (rel tau).
Notation dn := (dn tau).
Notation E := (@E (RNum tau)).

(* a zero-weight edge with an arbitrary pointer may stand for zero *)
Definition dz (m : nat) (F : (nat -> nat) -> C) (err : R) (e : edge) (s : state) : Prop :=
  dn KV m F err e s \/ (ew e = c0 /\ forall ix, F ix = RtoC 0).
Lemma dz_stable m F err : stable tau (dz m F err).
Proof.
  intros e s s' HI Hr [H|H]; [left|right; auto]. exact (dn_stable tau _ _ _ _ _ _ _ HI Hr H).
Qed.
Definition cl (e : edge) : edge := if isnull (ew e) then zeroE else e.
Lemma dz_cl m F err e s : (0 <= err)%R -> dz m F err e s -> dn KV m F err (cl e) s.
Proof.
  intros He H. unfold cl. destruct (isnull (ew e)) eqn:Hn.
  - apply isnull_spec in Hn. split; [apply wfe_zero|]. intros ix. rewrite val_zeroE. destruct H as [[_ H]|[_ H]].
    + specialize (H ix). rewrite (val_zw tau) in H by auto. exact H.
    + rewrite H. replace (Cminus (RtoC 0) (RtoC 0)) with (RtoC 0) by ring. now rewrite Cmod_0.
  - destruct H as [H|[H _]]; auto. apply isnull_spec in H. congruence.
Qed.
Lemma cl_w e : ew (cl e) = ew e.
Proof. unfold cl. destruct (isnull (ew e)) eqn:Hn; auto. apply isnull_spec in Hn. now rewrite Hn. Qed.
Lemma makeVEdge_cl q e0 e1 : (iszero (ew e0) && iszero (ew e1) = false)%bool ->
  makeVEdge q e0 e1 = makeVEdge q (cl e0) (cl e1).
Proof.
  intros Hz.
  assert (Hc : forall e, iszero (ew e) = false -> cl e = e).
  { intros e He. unfold cl. destruct (isnull (ew e)) eqn:Hn; auto. apply isnull_spec in Hn. rewrite Hn, (iszero_c0' tau) in He. discriminate. }
  destruct (isnull (ew e0)) eqn:H0.
  - pose proof (proj1 (isnull_spec tau _) H0) as H0'. rewrite H0', (iszero_c0' tau) in Hz. cbn [andb] in Hz.
    rewrite (makeVEdge_hi tau q e0 e1), (makeVEdge_hi tau q (cl e0) (cl e1)); rewrite ?cl_w; auto. now rewrite (Hc e1).
  - destruct (isnull (ew e1)) eqn:H1.
    + pose proof (proj1 (isnull_spec tau _) H1) as H1'. rewrite H1', (iszero_c0' tau), andb_true_r in Hz.
      rewrite (makeVEdge_lo tau q e0 e1), (makeVEdge_lo tau q (cl e0) (cl e1)); rewrite ?cl_w; auto. now rewrite (Hc e0).
    + unfold cl. now rewrite H0, H1.
Qed.

Lemma wpr_makeVEdge_z B err q s e0 e1 F0 F1 (Q : post tau) :
  Inv s -> Z.of_nat q < NQUBITS -> (0 <= B)%R -> (0 <= err)%R ->
  dz q F0 err e0 s -> dz q F1 err e1 s ->
  (forall ix, Cmod (F0 ix) <= B)%R -> (forall ix, Cmod (F1 ix) <= B)%R ->
  (forall e s', rel s s' -> dn KV (S q) (ch_F [F0; F1] q) (err + mkerr tau (B + err)) e s' -> Q e s') ->
  wpr tau (makeVEdge (Z.of_nat q) e0 e1) Q s.
Proof.
  intros HI Hq HB Herr D0 D1 B0 B1 HQ. pose proof (inv_tb tau s HI KV) as HT.
  apply dz_cl in D0; auto. apply dz_cl in D1; auto.
  set (F0' := val KV (tb s KV) q (cl e0)). set (F1' := val KV (tb s KV) q (cl e1)).
  assert (W0 : (Cmod (ew (cl e0)) <= B + err)%R) by (eapply (dnt_wbound tau); eauto).
  assert (W1 : (Cmod (ew (cl e1)) <= B + err)%R) by (eapply (dnt_wbound tau); eauto).
  assert (Hfin : forall e s', rel s s' -> dn KV (S q) (ch_F [F0'; F1'] q) (mkerr tau (B + err)) e s' -> Q e s').
  { intros e s' Hr Hd. apply HQ; auto. rewrite Rplus_comm. eapply (dnt_err tau); [|exact Hd].
    intros ix. unfold ch_F. cbn [map]. destruct (ix q) as [|[|i]]; cbn [nth].
    - apply D0.
    - apply D1.
    - assert (Hs : forall x : C, Cminus x x = RtoC 0) by (intros; ring). rewrite Hs. now rewrite Cmod_0. }
  destruct (iszero (ew e0) && iszero (ew e1))%bool eqn:Hz.
  - unfold makeVEdge. rewrite Hz. apply (wpr_scratch tau); auto. apply (wpr_ret tau). intros s' Hr. apply Hfin; auto.
    apply (dn_stable tau _ _ _ _ _ _ _ HI Hr). apply andb_prop in Hz as [Z0 Z1].
    apply (dn_zero tau KV q s [cl e0; cl e1] [F0'; F1']); auto; [lra| | |].
    + intros c [<-|[<-|[]]]; [apply D0|apply D1].
    + intros [|[|i]] ix Hi; cbn [nth length] in *; auto. lia.
    + intros c [<-|[<-|[]]]; rewrite cl_w; now apply (iszero_true tau).
  - rewrite makeVEdge_cl by auto. eapply (wpr_mono tau); [auto|exact Hfin|].
    apply (wpr_makeVEdge tau); auto; [apply D0|apply D1].
Qed.

(* the tensor product at index level: r occupies the nb low levels *)
Definition shift (nb : nat) (ix : nat -> nat) : nat -> nat := fun l => ix (nb + l)%nat.
Definition kvF (nb : nat) (F G : (nat -> nat) -> C) (ix : nat -> nat) : C := Cmult (F (shift nb ix)) (G ix).

Lemma wpr_kron2 nb r : forall n s l (Q : post tau), Inv s -> Z.of_nat (n + nb) <= NQUBITS ->
  wfp KV (tb s KV) nb (en r) -> (1 <= nb)%nat -> wfe KV (tb s KV) n l ->
  (forall e s', rel s s' -> dz (n + nb) (kvF nb (val KV (tb s KV) n l) (val KV (tb s KV) nb r))
      (egate tau n (Cmod (ew l) * Cmod (ew r))) e s' ->
      (wfp KV (tb s KV) n (en l) -> dn KV (n + nb) (kvF nb (val KV (tb s KV) n l) (val KV (tb s KV) nb r))
      (egate tau n (Cmod (ew l) * Cmod (ew r))) e s') -> Q e s') ->
  wpr tau (vv_kronecker2 n l r) Q s.
Proof.
  induction n as [|n IH]; intros s l Q HI Hn Hr Hnb Hl HQ; cbn [vv_kronecker2];
    pose proof (inv_tb tau s HI KV) as HT.
  - assert (Hp : en l = Term) by (destruct Hl as [h|[_ h]]; auto). rewrite Hp. cbn [is_term].
    apply (wpr_ret tau). intros s' Hrel.
    assert (Hd : dn KV (0 + nb) (kvF nb (val KV (tb s KV) 0 l) (val KV (tb s KV) nb r))
      (egate tau 0 (Cmod (ew l) * Cmod (ew r))) (E (cmul (ew l) (ew r)) (en r)) s').
    { apply (dn_stable tau _ _ _ _ _ _ _ HI Hrel). apply (dnt_of_exact tau); [now left|].
      intros ix. unfold kvF, Wf.val. cbn [ew en Nat.add]. rewrite (cmul_C tau (ew l) (ew r)).
      change (Wf.valp tau KV (tb s KV) 0 (en l) (shift nb ix)) with (RtoC 1). toC. ring. }
    apply HQ; auto. now left.
  - destruct (is_term (en l)) eqn:Ht.
    { assert (Hp : en l = Term) by (destruct (en l); (discriminate Ht || auto)).
      assert (Hw : ew l = c0) by (destruct Hl as [(a & nd & h & _)|[h _]]; auto; rewrite Hp in h; discriminate).
      apply (wpr_ret tau). intros s' Hrel. apply HQ; auto.
      - right. cbn [ew]. rewrite Hw, (cmul_c0_l tau). split; auto. intros ix. unfold kvF. rewrite (val_zw tau) by auto. toC. ring.
      - intros (a & nd & h & _). rewrite Hp in h. discriminate. }
    destruct (is_term (en r)) eqn:Htr.
    { destruct nb as [|nb']; [lia|]. destruct Hr as (a & nd & h & _). rewrite h in Htr. discriminate. }
    destruct Hl as [(a & nd & Hp & Hreg & Hv)|[_ h]]; [|rewrite h in Ht; discriminate].
    destruct nb as [|nb']; [lia|]. set (nb := S nb') in *. assert (Hr' : wfp KV (tb s KV) nb (en r)) by exact Hr.
    destruct Hr as (ar & ndr & Hpr & Hregr & Hvr).
    rewrite Hp, Hpr. apply (wpr_read tau) with (nd := nd); auto. apply (wpr_read tau) with (nd := ndr); auto.
    pose proof (reg_ok tau _ _ _ _ HT Hreg) as Hok.
    destruct (nch nd) as [|x0 [|x1 [|]]] eqn:Hch; try (pose proof (no_len _ _ _ _ Hok) as Hl; rewrite Hch in Hl; discriminate).
    cbn [nth].
    assert (Hx : forall x, In x (nch nd) -> wfe KV (tb s KV) n (E (cmul (ew l) (ew x)) (en x)) /\ (Cmod (ew x) <= 1)%R).
    { intros x Hxi. split; [|now apply (no_le1 _ _ _ _ Hok)]. apply (wfe_scale tau).
      pose proof (no_wf _ _ _ _ Hok x Hxi) as h. now rewrite Hv, Nat2Z.id in h. }
    rewrite Hch in Hx. destruct (Hx x0) as [Hx0 Hl0]; [cbn; auto|]. destruct (Hx x1) as [Hx1 Hl1]; [cbn; auto|].
    set (B := (Cmod (ew l) * Cmod (ew r))%R). assert (HB : (0 <= B)%R) by (apply Rmult_le_pos; apply Cmod_ge_0).
    pose proof (egate_pos tau n B HB) as Heg.
    set (l0 := E (cmul (ew l) (ew x0)) (en x0)) in *. set (l1 := E (cmul (ew l) (ew x1)) (en x1)) in *.
    set (FF := fun li => kvF nb (val KV (tb s KV) n li) (val KV (tb s KV) nb r)).
    assert (Hmono : forall x li, (Cmod (ew x) <= 1)%R -> ew li = cmul (ew l) (ew x) ->
       (egate tau n (Cmod (ew li) * Cmod (ew r)) <= egate tau n B)%R /\ (Cmod (ew li) * Cmod (ew r) <= B)%R).
    { intros x li Hx' Hli. assert (HBi : (Cmod (ew li) * Cmod (ew r) <= B)%R).
      { rewrite Hli, (cmul_C tau (ew l) (ew x)). unfold B. apply Rmult_le_compat_r; [apply Cmod_ge_0|]. rewrite Cmod_mult.
        pose proof (Cmod_ge_0 (ew l)). pose proof (Cmod_ge_0 (ew x)). nra. }
      split; auto. clear - HBi Htau. assert (H0 : (0 <= Cmod (ew li) * Cmod (ew r))%R) by (apply Rmult_le_pos; apply Cmod_ge_0).
      induction n as [|m IHm]; cbn [egate]; [lra|].
      apply Rplus_le_compat; auto. apply (mkerr_mono tau). lra. }
    assert (Hbound : forall li, (Cmod (ew li) * Cmod (ew r) <= B)%R -> wfe KV (tb s KV) n li -> forall ix, (Cmod (FF li ix) <= B)%R).
    { intros li Hli Hwi ix. unfold FF, kvF. rewrite Cmod_mult. eapply Rle_trans; [|exact Hli].
      apply Rmult_le_compat; try apply Cmod_ge_0; apply (val_le tau); auto. now left. }
    apply (wpr_bind tau); auto.
    refine (IH s l0 _ HI _ Hr' ltac:(lia) Hx0 _); [lia|].
    intros e0 s1 Hr1 D0 _. pose proof (rel_inv _ _ _ Hr1) as HI1. pose proof (rel_ext _ _ _ KV Hr1) as He1.
    apply (wpr_bind tau); auto.
    refine (IH s1 l1 _ HI1 _ (wfp_ext tau _ _ _ _ _ He1 Hr') ltac:(lia) (wfe_ext tau _ _ _ _ _ He1 Hx1) _); [lia|].
    intros e1 s2 Hr2 D1 _. pose proof (rel_inv _ _ _ Hr2) as HI2.
    assert (Hsame : forall ix, kvF nb (val KV (tb s1 KV) n l1) (val KV (tb s1 KV) nb r) ix = FF l1 ix).
    { intros ix. unfold kvF, FF, kvF. rewrite !(val_ext tau KV (tb s KV) (tb s1 KV)); auto. now left. }
    destruct (Hmono x0 l0 Hl0 eq_refl) as [M0 M0']. destruct (Hmono x1 l1 Hl1 eq_refl) as [M1 M1'].
    rewrite Hv, Hvr. replace (Z.of_nat n + Z.of_nat nb' + 1) with (Z.of_nat (n + nb)) by lia.
    apply (wpr_makeVEdge_z B (egate tau n B) (n + nb) s2 e0 e1 (FF l0) (FF l1)); auto.
    + unfold nb in *. lia.
    + apply (dz_stable _ _ _ _ s1 s2 HI1 Hr2). destruct D0 as [D0|D0]; [left|right; auto].
      eapply (dnt_weaken tau); [exact M0|exact D0].
    + destruct D1 as [D1|[D1 D1']].
      * left. eapply (dnt_weaken tau); [exact M1|]. eapply (dnt_F tau); [exact Hsame|exact D1].
      * right. split; auto. intros ix. now rewrite <- Hsame.
    + intros e s3 Hr3 Hd.
      assert (Hd' : dn KV (S n + nb) (kvF nb (val KV (tb s KV) (S n) l) (val KV (tb s KV) nb r)) (egate tau (S n) B) e s3).
      { eapply (dnt_F tau); [|exact Hd]. intros ix. unfold ch_F, FF, kvF. cbn [map].
        assert (Hval : val KV (tb s KV) (S n) l (shift nb ix) =
          Cmult (ew l) (val KV (tb s KV) n (nth (ix (n + nb)%nat) (nch nd) zeroE) (shift nb ix))).
        { unfold Wf.val at 1. rewrite Hp, (valp_S_node tau _ _ n a nd) by auto. unfold shift at 1.
          now rewrite (Nat.add_comm nb n). }
        rewrite Hval, Hch. destruct (ix (n + nb)%nat) as [|[|i]]; cbn [nth].
        - unfold l0, Wf.val. cbn [ew en]. rewrite (cmul_C tau (ew l) (ew x0)). toC. ring.
        - unfold l1, Wf.val. cbn [ew en]. rewrite (cmul_C tau (ew l) (ew x1)). toC. ring.
        - destruct i; cbn [nth]; rewrite (val_zeroE tau); toC; ring. }
      apply HQ; auto; [|now left].
      eapply rel_trans; [exact Hr1|eapply rel_trans; eauto].
Qed.

Theorem wpr_vv_kronecker na nb l r s (Q : post tau) : Inv s -> Z.of_nat (na + nb) <= NQUBITS ->
  (1 <= na)%nat -> (1 <= nb)%nat -> wfp KV (tb s KV) na (en l) -> wfp KV (tb s KV) nb (en r) ->
  (forall e s', rel s s' -> dn KV (na + nb) (kvF nb (val KV (tb s KV) na l) (val KV (tb s KV) nb r))
      (egate tau na (Cmod (ew l) * Cmod (ew r))) e s' -> Q e s') ->
  wpr tau (vv_kronecker l r) Q s.
Proof.
  intros HI Hn Ha Hb Hl Hr HQ. unfold vv_kronecker. destruct na as [|na]; [lia|].
  assert (Hl' : wfp KV (tb s KV) (S na) (en l)) by exact Hl.
  destruct Hl as (a & nd & Hp & Hreg & Hv). rewrite Hp. cbn [is_term andb].
  apply (wpr_read tau) with (nd := nd); auto. rewrite Hv. replace (Z.to_nat (Z.of_nat na + 1)) with (S na) by lia.
  apply (wpr_kron2 nb r (S na) s l Q); auto. now left.
Qed.
End Kron.
