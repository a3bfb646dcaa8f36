(* SafeO.v -- every operation on diagrams is memory-safe and returns a
   well-formed edge, over an arbitrary arithmetic, under every schedule. *)
From Coq Require Import ZArith Bool List Lia.
From Verif Require Import Num State DD Gates Measure Wf SafeA SafeW.
Import ListNotations.
Open Scope Z_scope.

(* chains of state extensions *)
Ltac rt := match goal with
  | H : rel ?a ?b |- rel ?a ?b => exact H
  | HI : Inv ?a |- rel ?a ?a => exact (rel_refl _ HI)
  | |- rel ?a ?c => match goal with H : rel a ?b |- _ => apply (rel_trans _ _ _ H); rt end
  end.

Section SafeO.
Context {NO : NumOps} {AR : Arith NO} {CF : Cfg}.

(* the postcondition: a well-formed edge on n qubits *)
Definition SE (k : kind) (n : nat) : post := fun e s => se k (tb s k) n e.
Lemma SE_stable k n : stable (SE k n).
Proof. intros e s s' _ Hr H. eapply se_ext; [apply (rel_ext _ _ k Hr)|exact H]. Qed.
Lemma ret_SE k n e s : Inv s -> se k (tb s k) n e -> wpr (CRet e) (SE k n) s.
Proof. intros HI H. apply wpr_ret. intros s' Hr. eapply SE_stable; eauto. Qed.
Lemma se_rel k n e s s' : rel s s' -> se k (tb s k) n e -> se k (tb s' k) n e.
Proof. intros Hr. apply se_ext. apply (rel_ext _ _ k Hr). Qed.
Lemma sp_rel k n e s s' : rel s s' -> sp k (tb s k) n e -> sp k (tb s' k) n e.
Proof. intros Hr. apply sp_ext. apply (rel_ext _ _ k Hr). Qed.
Lemma reg_rel k a nd s s' : rel s s' -> reg k (tb s k) a nd -> reg k (tb s' k) a nd.
Proof. intros Hr. apply (rel_ext _ _ k Hr). Qed.

(* reading any well-formed pointer *)
Lemma wpr_readp k p f (Q : post) s n : Inv s -> sp k (tb s k) n p ->
  (forall nd s', rel s s' -> readn k p s' = Some nd -> -1 <= nv nd < Z.of_nat n ->
      (nv nd = -1 -> p = Term) ->
      (forall a, p = Node a -> reg k (tb s' k) a nd) -> wpr (f nd) Q s') ->
  wpr (CRead k p f) Q s.
Proof.
  intros HI Hp Hw s' Hr. pose proof (rel_inv _ _ Hr) as HI'.
  assert (Hn : forall a nd, p = Node a -> reg k (tb s k) a nd -> nv nd < Z.of_nat n ->
     exists nd, readn k p s' = Some nd /\ wpr (f nd) Q s').
  { intros a nd -> Hreg Hv. pose proof (reg_rel k a nd s s' Hr Hreg) as Hreg'.
    pose proof (no_level _ _ _ (reg_ok k _ a nd (inv_tb _ HI' k) Hreg')) as Hlv.
    exists nd. split; [now apply readn_reg|]. apply Hw; auto.
    - now apply readn_reg.
    - lia.
    - lia.
    - intros a' [= <-]. exact Hreg'. }
  assert (Ht : p = Term -> exists nd, readn k p s' = Some nd /\ wpr (f nd) Q s').
  { intros ->. cbn. eexists. split; [reflexivity|]. apply Hw; cbn; auto; try lia. discriminate. }
  destruct k; cbn in Hp.
  - destruct n as [|m]; auto. destruct Hp as (a & nd & H1 & H2 & H3). apply (Hn a nd); auto; lia.
  - destruct Hp as [Hp|(a & nd & H1 & H2 & H3)]; auto. apply (Hn a nd); auto.
Qed.

(* ---- node construction -------------------------------------------------------- *)
(* a child of a vector node under construction: proper, or of zero weight *)
Definition sz (t : table) (n : nat) (e : edge) : Prop := sp KV t n (en e) \/ zc (ew e).
Lemma se_sz t n e : se KV t n e -> sz t n e.
Proof. intros [H|[H _]]; [left|right]; auto. Qed.
Lemma sz_nz t n e : sz t n e -> iszero (ew e) = false -> sp KV t n (en e).
Proof. intros [H|H]; auto. apply zc_iszero in H. congruence. Qed.

Lemma mk_V q e0 e1 s : Inv s -> 0 <= q < NQUBITS ->
  sz (tb s KV) (Z.to_nat q) e0 -> sz (tb s KV) (Z.to_nat q) e1 ->
  wpr (makeVEdge q e0 e1) (SE KV (S (Z.to_nat q))) s.
Proof.
  intros HI Hq H0 H1. unfold makeVEdge.
  destruct (iszero (ew e0) && iszero (ew e1)).
  { apply wpr_scratch; auto. apply ret_SE; auto. apply se_zero. }
  set (mx := nltb (norm2 (ew e0)) (norm2 (ew e1))).
  set (emax := if mx then e1 else e0). set (emin := if mx then e0 else e1).
  destruct (iszero (cmul (ew emax) c1)) eqn:Hz.
  { apply wpr_scratch; auto. apply ret_SE; auto. apply se_zero. }
  assert (Hmax : sp KV (tb s KV) (Z.to_nat q) (en emax)).
  { assert (Hs : sz (tb s KV) (Z.to_nat q) emax) by (unfold emax; destruct mx; auto).
    destruct Hs as [Hs|Hs]; auto. apply (zc_mul_l _ c1), zc_iszero in Hs. congruence. }
  set (sw := cdiv (ew emin) (ew emax)).
  set (emin' := if isone sw then E c1 (en emin) else if iszero sw then zeroE else E sw (en emin)).
  assert (Hmin : se KV (tb s KV) (Z.to_nat q) emin').
  { assert (Hs : sz (tb s KV) (Z.to_nat q) emin) by (unfold emin; destruct mx; auto).
    destruct Hs as [Hs|Hs].
    - unfold emin'. destruct (isone sw); [now left|]. destruct (iszero sw); [apply se_zero|now left].
    - apply (zc_div _ (ew emax)) in Hs; auto. fold sw in Hs. unfold emin'.
      rewrite zc_isone, zc_iszero by auto. apply se_zero. }
  set (ch := if mx then [emin'; E c1 (en emax)] else [E c1 (en emax); emin']).
  apply wpr_intern; auto.
  - constructor; cbn [nv nch].
    + lia.
    + unfold ch. destruct mx; reflexivity.
    + unfold ch. intros c Hc.
      assert (Hcc : c = emin' \/ c = E c1 (en emax)) by (destruct mx; cbn in Hc; intuition).
      destruct Hcc as [->| ->]; auto. now left.
    + intros _. unfold ch. destruct mx; [exists 1%nat|exists 0%nat]; cbn [nth ew en];
        (split; [lia|]; split; [reflexivity|exact Hmax]).
  - intros b nd' s2 Hr2 Hreg Hv. cbn [nv] in Hv.
    pose proof (rel_inv _ _ Hr2) as HI2.
    apply wpr_read with (nd := nd'); auto. rewrite Hv, Z.eqb_refl. apply ret_SE; auto.
    left. cbn [en]. exists b, nd'. split; [reflexivity|]. split; [exact Hreg|]. lia.
Qed.

Lemma mk_normM q a b c d s : Inv s -> 0 <= q < NQUBITS ->
  (forall e, In e [a; b; c; d] -> se KM (tb s KM) (Z.to_nat q) e) ->
  wpr (normalizeM q a b c d) (SE KM (S (Z.to_nat q))) s.
Proof.
  intros HI Hq Hch. unfold normalizeM.
  destruct (forallb _ _).
  { apply wpr_scratch; auto. apply ret_SE; auto. apply se_zero. }
  destruct (iszero _).
  { apply wpr_scratch; auto. apply ret_SE; auto. apply se_zero. }
  apply wpr_intern; auto.
  - constructor; cbn [nv nch].
    + lia.
    + reflexivity.
    + intros x Hx. apply in_map_iff in Hx as (y & <- & Hy). apply Hch in Hy. unfold norm_child.
      destruct (iszero _); [apply se_zero|]. apply se_w. now apply se_KM.
    + discriminate.
  - intros bb nd' s2 Hr2 Hreg Hv. cbn [nv] in Hv.
    pose proof (rel_inv _ _ Hr2) as HI2.
    apply wpr_read with (nd := nd'); auto. rewrite Hv.
    replace (-1 <=? q) with true by (symmetry; apply Z.leb_le; lia). apply ret_SE; auto.
    left. right. exists bb, nd'. split; [reflexivity|]. split; [exact Hreg|]. lia.
Qed.
Lemma mk_M q a b c d s : Inv s -> 0 <= q < NQUBITS ->
  se KM (tb s KM) (Z.to_nat q) a -> se KM (tb s KM) (Z.to_nat q) b ->
  se KM (tb s KM) (Z.to_nat q) c -> se KM (tb s KM) (Z.to_nat q) d ->
  wpr (makeMEdge q a b c d) (SE KM (S (Z.to_nat q))) s.
Proof.
  intros HI Hq Ha Hb Hc Hd. unfold makeMEdge. destruct (_ && _).
  - apply ret_SE; auto. apply (se_KM_up _ (Z.to_nat q)); [lia|auto].
  - apply mk_normM; auto. cbn. intuition subst; auto.
Qed.

(* sequencing *)
Lemma bind_SE k n c g (Q : post) s : Inv s -> wpr c (SE k n) s ->
  (forall e s', rel s s' -> Inv s' -> se k (tb s' k) n e -> wpr (g e) Q s') -> wpr (bind c g) Q s.
Proof.
  intros HI Hc Hg. apply wpr_bind; auto. eapply wpr_mono; [auto| |exact Hc].
  intros e s' Hr He. apply Hg; auto. eapply rel_inv; eauto.
Qed.

(* ---- initial states -------------------------------------------------------------- *)
Lemma zero_loop_s cnt : forall i e s, Inv s -> 0 <= i -> i + Z.of_nat cnt <= NQUBITS ->
  se KV (tb s KV) (Z.to_nat i) e -> wpr (zero_loop cnt i e) (SE KV (Z.to_nat i + cnt)) s.
Proof.
  induction cnt as [|c IH]; intros i e s HI Hi Hb He; cbn [zero_loop].
  - rewrite Nat.add_0_r. now apply ret_SE.
  - eapply bind_SE; [auto|apply mk_V; auto; [lia|now apply se_sz|apply se_sz, se_zero]|].
    intros e' s' Hr HI' He'. replace (Z.to_nat i + S c)%nat with (Z.to_nat (i + 1) + c)%nat by lia.
    apply IH; auto; try lia. replace (Z.to_nat (i + 1)) with (S (Z.to_nat i)) by lia. exact He'.
Qed.
Lemma one_loop_s cnt : forall i e s, Inv s -> 0 <= i -> i + Z.of_nat cnt <= NQUBITS ->
  se KV (tb s KV) (Z.to_nat i) e -> wpr (one_loop cnt i e) (SE KV (Z.to_nat i + cnt)) s.
Proof.
  induction cnt as [|c IH]; intros i e s HI Hi Hb He; cbn [one_loop].
  - rewrite Nat.add_0_r. now apply ret_SE.
  - eapply bind_SE; [auto|apply mk_V; auto; [lia|apply se_sz, se_zero|now apply se_sz]|].
    intros e' s' Hr HI' He'. replace (Z.to_nat i + S c)%nat with (Z.to_nat (i + 1) + c)%nat by lia.
    apply IH; auto; try lia. replace (Z.to_nat (i + 1)) with (S (Z.to_nat i)) by lia. exact He'.
Qed.
Lemma makeZeroState_s n s : Inv s -> (1 <= n)%nat -> Z.of_nat n <= NQUBITS ->
  wpr (makeZeroState n) (SE KV n) s.
Proof.
  intros HI Hn Hb. unfold makeZeroState. unfold NQUBITS in Hb.
  eapply bind_SE; [auto|apply mk_V; auto; [unfold NQUBITS; lia|apply se_sz, se_term0|apply se_sz, se_zero]|].
  intros e s' Hr HI' He. replace n with (Z.to_nat 1 + (n - 1))%nat at 2 by lia.
  apply zero_loop_s; auto; unfold NQUBITS; lia.
Qed.
Lemma makeOneState_s n s : Inv s -> (1 <= n)%nat -> Z.of_nat n <= NQUBITS ->
  wpr (makeOneState n) (SE KV n) s.
Proof.
  intros HI Hn Hb. unfold makeOneState. unfold NQUBITS in Hb.
  eapply bind_SE; [auto|apply mk_V; auto; [unfold NQUBITS; lia|apply se_sz, se_zero|apply se_sz, se_term0]|].
  intros e s' Hr HI' He. replace n with (Z.to_nat 1 + (n - 1))%nat at 2 by lia.
  apply one_loop_s; auto; unfold NQUBITS; lia.
Qed.
Lemma rebuild_s bits : forall p e s, Inv s -> 0 <= p -> p + Z.of_nat (length bits) <= NQUBITS ->
  se KV (tb s KV) (Z.to_nat p) e ->
  wpr (Measure.rebuild bits p e) (SE KV (Z.to_nat p + length bits)) s.
Proof.
  induction bits as [|b r IH]; intros p e s HI Hp Hb He; cbn [Measure.rebuild length] in *.
  - rewrite Nat.add_0_r. now apply ret_SE.
  - eapply bind_SE; [auto| |].
    + destruct b; apply mk_V; auto; try lia; try (now apply se_sz); apply se_sz, se_zero.
    + intros e' s' Hr HI' He'. replace (Z.to_nat p + S (length r))%nat with (Z.to_nat (p + 1) + length r)%nat by lia.
      apply IH; auto; try lia. replace (Z.to_nat (p + 1)) with (S (Z.to_nat p)) by lia. exact He'.
Qed.

(* ---- vector addition --------------------------------------------------------------- *)
Lemma vchild_s t m e a nd i w : TInv KV t -> en e = Node a -> reg KV t a nd -> nv nd = Z.of_nat m ->
  (i < 2)%nat -> w = Z.of_nat m -> se KV t m (vchild w e nd i).
Proof.
  intros HT He Hr Hv Hi ->. unfold vchild. rewrite Hv, Z.eqb_refl, He. cbn [is_term negb andb].
  pose proof (reg_child KV t a nd i HT Hr) as Hc. rewrite Hv, Nat2Z.id in Hc.
  rewrite (reg_nth KV t a nd i HT Hr Hi).
  set (x := nth i (nch nd) zeroE) in *. apply (se_scale KV t m x (ew e) Hc).
Qed.
Lemma nonnull k s n e : Inv s -> se k (tb s k) n e -> negb (is_null (en e)) = true.
Proof.
  intros HI H. destruct (se_getVar k s n e HI H) as (v & _ & _ & Hn). destruct (en e); congruence || auto.
Qed.
Lemma snap_s k t n res : se k t n res -> se k t n (if iszero (ew res) then zeroE else res).
Proof. intros H. destruct (iszero _); auto. apply se_zero. Qed.

Theorem vv_add2_s lim n : forall s l r, Inv s -> Z.of_nat n <= NQUBITS ->
  se KV (tb s KV) n l -> se KV (tb s KV) n r -> wpr (vv_add2 lim n l r) (SE KV n) s.
Proof.
  induction n as [|m IH]; intros s l r HI Hn Hl Hr; cbn [vv_add2];
    (destruct (iszero (ew l)) eqn:Hzl;
      [destruct (iszero (ew r)); apply ret_SE; auto; apply se_zero|]);
    (destruct (iszero (ew r)) eqn:Hzr; [apply ret_SE; auto|]).
  - apply se_nz in Hl, Hr; auto. cbn in Hl, Hr. rewrite Hl, Hr. cbn [is_term andb].
    apply ret_SE; auto. apply se_term0.
  - pose proof (se_nz _ _ _ _ Hl Hzl) as Hpl. pose proof (se_nz _ _ _ _ Hr Hzr) as Hpr.
    destruct (ptr_eqb (en l) (en r)) eqn:Heq.
    { apply ret_SE; auto. now left. }
    pose proof Hpl as (la & lnd & Hel & Hrl & Hvl). pose proof Hpr as (ra & rnd & Her & Hrr & Hvr).
    intros s1 Hr1 i. pose proof (rel_inv _ _ Hr1) as HI1.
    destruct (afind_spec KV i l r s1 m HI1) as (res & Hfind & Hcase).
    { eapply se_rel; eauto. } { eapply se_rel; eauto. } { left; eauto. } { lia. }
    exists res. split; auto. clear Hfind.
    pose proof (reg_rel _ _ _ _ _ Hr1 Hrl) as Hrl1. pose proof (reg_rel _ _ _ _ _ Hr1 Hrr) as Hrr1.
    destruct Hcase as [->|(lv & e & a & b & Ho & Hent & <- & Ha & Hb)].
    + cbn [en nullE is_null negb]. rewrite Hel, Her.
      apply wpr_read with (nd := lnd); auto. apply wpr_read with (nd := rnd); auto.
      assert (Hsub : forall i, (i < 2)%nat ->
        wpr (vv_add2 lim m (vchild (Z.of_nat m) l lnd i) (vchild (Z.of_nat m) r rnd i)) (SE KV m) s1).
      { intros j Hj. apply IH; auto; [lia| |].
        - apply (vchild_s _ m l la lnd); auto. apply HI1.
        - apply (vchild_s _ m r ra rnd); auto. apply HI1. }
      eapply wpr_fork2; [auto|apply SE_stable|apply SE_stable|apply (Hsub 0%nat); lia|apply (Hsub 1%nat); lia|].
      intros e0 e1 s2 Hr2 Hd0 Hd1. pose proof (rel_inv _ _ Hr2) as HI2.
      assert (Hmk : wpr (makeVEdge (Z.of_nat m) e0 e1) (SE KV (S m)) s2).
      { rewrite <- (Nat2Z.id m) at 2. apply mk_V; auto; [lia| |]; rewrite Nat2Z.id; now apply se_sz. }
      eapply bind_SE; [auto|exact Hmk|]. intros res s3 Hr3 HI3 Hres.
      intros s4 Hr4 j. pose proof (rel_inv _ _ Hr4) as HI4.
      assert (Hr14 : rel s1 s4) by rt.
      assert (Hgv : forall a nd, reg KV (tb s1 KV) a nd -> getVar KV (Node a) s4 = Some (nv nd)).
      { intros a nd Ha. unfold getVar. rewrite (readn_reg KV s4 a nd); auto. eapply reg_rel; eauto. }
      assert (Ho : aorder KV l r s4 = Some (Z.of_nat m, l, r)).
      { unfold aorder. rewrite Hel, Her, (Hgv la lnd), (Hgv ra rnd), Hvl, Hvr, Z.ltb_irrefl by auto. reflexivity. }
      destruct (aset_spec KV j l r res s4 (Z.of_nat m) l r HI4 Ho) as (s5 & Hs5 & Hr5).
      { apply level_ok_true. lia. }
      { exists m. cbn [a_l a_r a_res].
        split; [rewrite Hel; exists la, lnd; split; [reflexivity|]; split; [eapply reg_rel; eauto|auto]|].
        split; [rewrite Her; exists ra, rnd; split; [reflexivity|]; split; [eapply reg_rel; eauto|auto]|].
        eapply se_rel; [exact Hr4|exact Hres]. }
      exists s5. split; auto. split; auto. apply ret_SE; [eapply rel_inv; eauto|].
      eapply se_rel; [|exact Hres]. eapply rel_trans; eauto.
    + destruct Hent as (m' & Hwl & Hwr & Hd).
      rewrite (nonnull KV s1 (S m') (a_res e)) by auto. apply ret_SE; auto. apply snap_s.
      assert (Hp : en (a_l e) = en l \/ en (a_l e) = en r).
      { apply andb_prop in Ha as [_ Ha]. apply ptr_eqb_eq in Ha.
        destruct (aorder_cases _ _ _ _ _ _ _ Ho) as [(-> & _)|(-> & _)]; auto. }
      destruct Hwl as (a1 & nd1 & Hw1 & Hw2 & Hw3).
      assert (m' = m); [|subst; auto].
      destruct Hp as [Hp|Hp]; rewrite Hp in Hw1.
      * rewrite Hel in Hw1. injection Hw1 as <-. pose proof (reg_fun _ _ _ _ _ Hw2 Hrl1). subst. lia.
      * rewrite Her in Hw1. injection Hw1 as <-. pose proof (reg_fun _ _ _ _ _ Hw2 Hrr1). subst. lia.
Qed.

Theorem vv_add_s lim n s l r : Inv s -> Z.of_nat n <= NQUBITS ->
  se KV (tb s KV) n l -> se KV (tb s KV) n r -> wpr (vv_add lim l r) (SE KV n) s.
Proof.
  intros HI Hn Hl Hr. unfold vv_add.
  assert (Hz : is_term (en l) = false -> zc (ew r) /\ en r = Term -> wpr (CRead KV (en r) (fun rn => vv_add2 lim (Z.to_nat (nv rn + 1)) l r)) (SE KV n) s).
  { intros Hlt [Hw Ht] s1 Hr1. rewrite Ht. eexists. split; [reflexivity|]. cbn [nv].
    pose proof (rel_inv _ _ Hr1) as HI1. change (Z.to_nat (-1 + 1)) with 0%nat. cbn [vv_add2].
    rewrite (zc_iszero _ Hw). destruct (iszero (ew l)); apply ret_SE; auto; [apply se_zero|].
    eapply se_rel; eauto. }
  destruct (is_term (en l) && is_term (en r)) eqn:Htt.
  - apply andb_prop in Htt as [H1 H2].
    assert (E1 : en l = Term) by (destruct (en l); [discriminate|reflexivity|discriminate]).
    assert (E2 : en r = Term) by (destruct (en r); [discriminate|reflexivity|discriminate]).
    apply ret_SE; auto. destruct n as [|m]; [apply se_term0|].
    destruct Hl as [(a & nd & Hl & _)|[Hl _]]; [congruence|].
    destruct Hr as [(a & nd & Hr & _)|[Hr _]]; [congruence|].
    right. split; [now apply zc_add|reflexivity].
  - destruct Hr as [Hr|Hr].
    + destruct n as [|m].
      { cbn in Hr. destruct Hl as [Hl|[_ Hl]]; cbn in Hl; rewrite Hl, Hr in Htt; discriminate. }
      destruct Hr as (ra & rnd & Her & Hrr & Hvr). rewrite Her. apply wpr_read with (nd := rnd); auto.
      rewrite Hvr. replace (Z.to_nat (Z.of_nat m + 1)) with (S m) by lia.
      apply vv_add2_s; auto. left. rewrite Her. exists ra, rnd; auto.
    + apply Hz; auto. destruct Hr as [_ Hr]. rewrite Hr in Htt. cbn in Htt. rewrite andb_true_r in Htt. exact Htt.
Qed.

(* ---- matrix times vector ------------------------------------------------------------- *)
Lemma mchild1_s t m e nd i : TInv KM t -> sp KM t (S m) (en e) ->
  (forall a, en e = Node a -> reg KM t a nd) -> (i < 4)%nat ->
  se KM t m (mchild1 (Z.of_nat m) e nd i).
Proof.
  intros HT Hp Hreg Hi. unfold mchild1. destruct ((nv nd =? Z.of_nat m) && negb (is_term (en e))) eqn:Hc.
  - apply andb_prop in Hc as [Hv Ht]. apply Z.eqb_eq in Hv.
    destruct Hp as [Hp|(a & nd' & Hp & Hr & _)]; [rewrite Hp in Ht; discriminate|].
    pose proof (reg_child KM t a nd i HT (Hreg a Hp)) as Hch. rewrite Hv, Nat2Z.id in Hch.
    now rewrite (reg_nth KM t a nd i HT (Hreg a Hp) Hi).
  - assert (Hd : se KM t m (E c1 (en e))).
    { apply se_w. destruct Hp as [Hp|(a & nd' & Hp & Hr & Hv)]; [now left|].
      pose proof (reg_fun _ _ _ _ _ Hr (Hreg a Hp)). subst nd'. rewrite Hp in Hc. cbn [is_term negb] in Hc.
      rewrite andb_true_r in Hc. apply Z.eqb_neq in Hc. right. exists a, nd. split; auto. split; auto. lia. }
    destruct i as [|[|[|i]]]; auto; apply se_zero.
Qed.
Lemma vchild1_s t m e a nd i : TInv KV t -> en e = Node a -> reg KV t a nd -> nv nd = Z.of_nat m ->
  (i < 2)%nat -> se KV t m (vchild1 (Z.of_nat m) e nd i).
Proof.
  intros HT He Hr Hv Hi. unfold vchild1. rewrite Hv, Z.eqb_refl, He. cbn [is_term negb andb].
  rewrite (reg_nth KV t a nd i HT Hr Hi). pose proof (reg_child KV t a nd i HT Hr) as Hc.
  now rewrite Hv, Nat2Z.id in Hc.
Qed.
Lemma rescale_hit_s k t n res l r : se k t n res -> se k t n (rescale_hit res l r).
Proof.
  intros H. unfold rescale_hit. destruct (iszero (ew res)) eqn:Hz; [apply se_zero|].
  destruct (iszero (cmul _ _)); [apply se_zero|]. left. cbn. now apply se_nz.
Qed.
Lemma rescale_new_s k t n res l r : se k t n res -> se k t n (rescale_new res l r).
Proof.
  intros H. unfold rescale_new. destruct (iszero (cmul _ _)) eqn:Hz; [apply se_zero|].
  destruct H as [H|[H _]]; [now left|].
  rewrite (zc_iszero (cmul (cmul (ew res) (ew l)) (ew r))) in Hz; [discriminate|].
  now apply zc_mul_l, zc_mul_l.
Qed.

Theorem mv_multiply2_s lim n : forall s l r, Inv s -> Z.of_nat n <= NQUBITS ->
  se KM (tb s KM) n l -> se KV (tb s KV) n r -> wpr (mv_multiply2 lim n l r) (SE KV n) s.
Proof.
  induction n as [|m IH]; intros s l r HI Hn Hl Hr; cbn [mv_multiply2];
    (destruct (edge_eqb l zeroE); [apply ret_SE; auto; apply se_zero|]);
    (destruct (is_term (en l)) eqn:Htl; [apply ret_SE; auto; now apply se_scale_r|]);
    (destruct (iszero (ew l) || iszero (ew r)) eqn:Hz; [apply ret_SE; auto; apply se_zero|]).
  - apply orb_false_elim in Hz as [Hzl Hzr]. apply se_nz in Hr; auto. cbn in Hr.
    apply se_KM in Hl. destruct Hl as [Hl|(a & nd & Hl & Hreg & Hv)]; [rewrite Hl in Htl; discriminate|].
    pose proof (no_level _ _ _ (reg_ok KM _ a nd (inv_tb _ HI KM) Hreg)). lia.
  - apply orb_false_elim in Hz as [Hzl Hzr].
    pose proof (se_KM _ _ _ Hl) as Hpl. pose proof (se_nz _ _ _ _ Hr Hzr) as Hpr.
    destruct Hpl as [Hpl|(la & lnd & Hel & Hrl & Hvl)]; [rewrite Hpl in Htl; discriminate|].
    pose proof Hpr as (ra & rnd & Her & Hrr & Hvr).
    intros s1 Hr1 i. pose proof (rel_inv _ _ Hr1) as HI1.
    pose proof (reg_rel _ _ _ _ _ Hr1 Hrl) as Hrl1. pose proof (reg_rel _ _ _ _ _ Hr1 Hrr) as Hrr1.
    destruct (mfind_spec KV i (en l) (en r) s1 la lnd HI1 Hel Hrl1) as (res & s2 & Hfind & Hr2 & Hcase).
    exists res, s2. split; auto. split; auto. pose proof (rel_inv _ _ Hr2) as HI2.
    destruct Hcase as [->|(e & Hml & Hmr & <- & m' & Hwr & Hd)].
    + cbn [en nullE is_null negb]. clear Hfind.
      pose proof (reg_rel _ _ _ _ _ Hr2 Hrl1) as Hrl2. pose proof (reg_rel _ _ _ _ _ Hr2 Hrr1) as Hrr2.
      rewrite Hel, Her. apply wpr_read with (nd := lnd); auto. apply wpr_read with (nd := rnd); auto.
      assert (Hsub : forall s', rel s2 s' -> forall i j, (i < 4)%nat -> (j < 2)%nat ->
        wpr (mv_multiply2 lim m (mchild1 (Z.of_nat m) l lnd i) (vchild1 (Z.of_nat m) r rnd j)) (SE KV m) s').
      { intros s' Hr' j0 j1 H0 H1. pose proof (rel_inv _ _ Hr') as HI'. apply IH; auto; [lia| |].
        - apply mchild1_s; auto; [apply HI'| |].
          + right. exists la, lnd. split; auto. split; auto. eapply reg_rel; eauto.
          + intros a Ha. rewrite Hel in Ha. injection Ha as <-. eapply reg_rel; eauto.
        - apply (vchild1_s _ m r ra rnd); auto; [apply HI'|]. eapply reg_rel; eauto. }
      assert (Hhalf : forall (i : nat) (f : edge -> comp) (Q : post) s', rel s2 s' -> (i < 2)%nat ->
         (forall e s'', rel s' s'' -> Inv s'' -> se KV (tb s'' KV) m e -> wpr (f e) Q s'') ->
         wpr (fork2 lim (Z.of_nat m)
                  (mv_multiply2 lim m (mchild1 (Z.of_nat m) l lnd (2 * i)) (vchild1 (Z.of_nat m) r rnd 0))
                  (mv_multiply2 lim m (mchild1 (Z.of_nat m) l lnd (2 * i + 1)) (vchild1 (Z.of_nat m) r rnd 1))
                  (fun p0 p1 => bind (vv_add2 lim m p0 p1) f)) Q s').
      { intros i0 f Q s' Hr' Hi0 Hf. pose proof (rel_inv _ _ Hr') as HI'.
        eapply wpr_fork2; [auto|apply SE_stable|apply SE_stable|apply Hsub; auto; lia|apply Hsub; auto; lia|].
        intros p0 p1 s3 Hr3 H0 H1. pose proof (rel_inv _ _ Hr3) as HI3.
        eapply bind_SE; [auto|apply vv_add2_s; auto; lia|]. intros e s4 Hr4 HI4 He.
        apply Hf; auto. eapply rel_trans; eauto. }
      apply (Hhalf 0%nat); [now apply rel_refl|lia|]. intros e0 s3 Hr3 HI3 He0.
      apply (Hhalf 1%nat); [exact Hr3|lia|]. intros e1 s4 Hr4 HI4 He1.
      assert (Hmk : wpr (makeVEdge (Z.of_nat m) e0 e1) (SE KV (S m)) s4).
      { rewrite <- (Nat2Z.id m) at 2. apply mk_V; auto; [lia| |]; rewrite Nat2Z.id; apply se_sz; auto.
        eapply se_rel; eauto. }
      eapply bind_SE; [auto|exact Hmk|]. intros res s5 Hr5 HI5 Hres.
      intros s6 Hr6 j. pose proof (rel_inv _ _ Hr6) as HI6.
      assert (Hr26 : rel s2 s6) by rt.
      assert (Hres6 : se KV (tb s6 KV) (S m) res) by (apply (se_rel _ _ _ s5); auto).
      destruct (mset_spec KV j (Node la) (Node ra) res s6 la lnd HI6 eq_refl) as (s7 & Hs7 & Hr7).
      { eapply reg_rel; eauto. }
      { intros b z. exists m. cbn [m_r m_res]. split; auto. exists ra, rnd. split; auto. split; auto.
        eapply reg_rel; eauto. }
      exists s7. split; auto. split; auto. apply ret_SE; [eapply rel_inv; eauto|].
      apply rescale_new_s. eapply se_rel; eauto.
    + assert (Hm' : m' = m).
      { destruct Hwr as (a & nd & Ha & Hb & Hc). rewrite Hmr, Her in Ha. injection Ha as <-.
        pose proof (reg_fun _ _ _ _ _ Hb Hrr1). subst. lia. }
      subst m'. assert (Hd2 : se KV (tb s2 KV) (S m) (m_res e)) by (eapply se_rel; eauto).
      rewrite (nonnull KV s2 (S m) (m_res e)) by auto. apply ret_SE; auto. now apply rescale_hit_s.
Qed.

Theorem mv_multiply_s n s l r : Inv s -> Z.of_nat n <= NQUBITS ->
  se KM (tb s KM) n l -> se KV (tb s KV) n r -> wpr (mv_multiply l r) (SE KV n) s.
Proof.
  intros HI Hn Hl Hr. unfold mv_multiply. destruct (is_term (en l) && is_term (en r)) eqn:Htt.
  - apply andb_prop in Htt as [_ H2].
    assert (E2 : en r = Term) by (destruct (en r); [discriminate|reflexivity|discriminate]).
    apply ret_SE; auto. destruct n as [|m]; [apply se_term0|].
    destruct Hr as [(a & nd & Hr & _)|[Hr _]]; [congruence|].
    right. split; [now apply zc_mul_r|reflexivity].
  - destruct Hr as [Hr|[Hr Ht]].
    + destruct n as [|m].
      { cbn in Hr. rewrite Hr. intros s1 Hr1. eexists. split; [reflexivity|]. cbn [nv].
        change (Z.to_nat (-1 + 1)) with 0%nat. apply mv_multiply2_s; auto.
        - eapply rel_inv; eauto.
        - eapply se_rel; eauto.
        - left. exact Hr. }
      destruct Hr as (ra & rnd & Her & Hrr & Hvr). rewrite Her. apply wpr_read with (nd := rnd); auto.
      rewrite Hvr. replace (Z.to_nat (Z.of_nat m + 1)) with (S m) by lia.
      apply mv_multiply2_s; auto. left. rewrite Her. exists ra, rnd; auto.
    + rewrite Ht in Htt |- *. cbn in Htt. rewrite andb_true_r in Htt. intros s1 Hr1.
      pose proof (rel_inv _ _ Hr1) as HI1. eexists. split; [reflexivity|]. cbn [nv].
      change (Z.to_nat (-1 + 1)) with 0%nat. cbn [mv_multiply2].
      destruct (edge_eqb l zeroE); [apply ret_SE; auto; apply se_zero|]. rewrite Htt, (zc_iszero _ Hr), orb_true_r.
      apply ret_SE; auto. apply se_zero.
Qed.

(* ---- matrix addition ------------------------------------------------------------------- *)
Lemma mchild_s t m e nd i : TInv KM t -> sp KM t (S m) (en e) ->
  (forall a, en e = Node a -> reg KM t a nd) -> (i < 4)%nat ->
  se KM t m (mchild (Z.of_nat m) e nd i).
Proof.
  intros HT Hp Hreg Hi. unfold mchild. destruct ((nv nd =? Z.of_nat m) && negb (is_term (en e))) eqn:Hc.
  - apply andb_prop in Hc as [Hv Ht]. apply Z.eqb_eq in Hv.
    destruct Hp as [Hp|(a & nd' & Hp & Hr & _)]; [rewrite Hp in Ht; discriminate|].
    pose proof (reg_child KM t a nd i HT (Hreg a Hp)) as Hch. rewrite Hv, Nat2Z.id in Hch.
    rewrite (reg_nth KM t a nd i HT (Hreg a Hp) Hi). now apply se_scale.
  - assert (Hd : se KM t m e).
    { left. destruct Hp as [Hp|(a & nd' & Hp & Hr & Hv)]; [now left|].
      pose proof (reg_fun _ _ _ _ _ Hr (Hreg a Hp)). subst nd'. rewrite Hp in Hc. cbn [is_term negb] in Hc.
      rewrite andb_true_r in Hc. apply Z.eqb_neq in Hc. right. exists a, nd. split; auto. split; auto. lia. }
    destruct i as [|[|[|i]]]; auto; apply se_zero.
Qed.
(* the variable of a pointer (-1 for the terminal) *)
Definition varof (t : table) (p : ptr) (v : Z) : Prop :=
  (p = Term /\ v = -1) \/ lev_is t p v.
Lemma sp_varof s n p : Inv s -> sp KM (tb s KM) n p ->
  exists v, varof (tb s KM) p v /\ -1 <= v < Z.of_nat n.
Proof.
  intros HI [H|(a & nd & H1 & H2 & H3)]; [exists (-1); split; [now left|lia]|].
  exists (nv nd). split; [right; exists a, nd; auto|].
  pose proof (no_level _ _ _ (reg_ok KM _ a nd (inv_tb _ HI KM) H2)). lia.
Qed.
Lemma varof_rel s s' p v : rel s s' -> varof (tb s KM) p v -> varof (tb s' KM) p v.
Proof. intros Hr [H|H]; [now left|right]. eapply lev_is_ext; eauto. apply (rel_ext _ _ KM Hr). Qed.
Lemma varof_read s p v : varof (tb s KM) p v -> exists nd, readn KM p s = Some nd /\ nv nd = v /\
  (forall a, p = Node a -> reg KM (tb s KM) a nd).
Proof.
  intros [[-> ->]|(a & nd & -> & H2 & H3)].
  - cbn. eexists. split; [reflexivity|]. split; [reflexivity|discriminate].
  - exists nd. split; [now apply readn_reg|]. split; auto. intros a' [= <-]. auto.
Qed.
Lemma varof_fun t p v v' : varof t p v -> varof t p v' -> v = v'.
Proof.
  intros [[-> ->]|(a & nd & -> & H2 & H3)] [[H ->]|(a' & nd' & H & H2' & H3')]; try discriminate; auto.
  injection H as <-. pose proof (reg_fun _ _ _ _ _ H2 H2'). congruence.
Qed.
Lemma varof_sp t p v n : varof t p v -> v < Z.of_nat n -> sp KM t n p.
Proof. intros [[-> _]|H] Hv; [now left|]. eapply lev_sp; eauto. Qed.

End SafeO.
