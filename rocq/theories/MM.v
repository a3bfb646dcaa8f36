(* MM.v -- mm_add2 / mm_add and mm_multiply2 / mm_multiply with exact
   comparison (tau = 0): the result is well-formed at every number of levels at
   which both operands are, and denotes the exact sum / product there. *)
From Coq Require Import Reals Lra Psatz ZArith Bool List Lia FunctionalExtensionality.
From Coquelicot Require Import Complex.
From Verif Require Import Num State DD RNum Wf Sums Err Inv Wp Make Add MulV Canon.
Import ListNotations.
Open Scope Z_scope.

Section MM.
Context (tau : R) {HTol : Tol tau}.
Let Htau : (0 <= tau < 1 / 2)%R := tol_ok.
#[local] Hint Extern 0 NumOps => exact (RNum tau) : typeclass_instances.
Context {CF : Cfg}.
Notation table := (@table (RNum tau)).
Notation state := (@state (RNum tau)).
Notation edge := (@edge (RNum tau)).
Notation node := (@node (RNum tau)).
Notation val := (val tau).
Notation valp := (valp tau).
Notation wfe := (wfe tau).
Notation wfp := (wfp tau).
Notation reg := (reg tau).
Notation TInv := (TInv tau).
Notation Inv := (Inv tau).
Notation rel := (rel tau).
Notation dn := (dn tau).
Notation E := (@E (RNum tau)).

(* reading through a matrix pointer that may be the terminal *)
Definition rd (t : table) (n : nat) (p : ptr) (nd : node) : Prop :=
  (p = Term /\ nv nd = -1) \/ (exists a, p = Node a /\ reg KM t a nd /\ 0 <= nv nd < Z.of_nat n).
Lemma wpr_readp n p f (Q : post tau) s : Inv s -> wfp KM (tb s KM) n p ->
  (forall nd, rd (tb s KM) n p nd -> wpr tau (f nd) Q s) -> wpr tau (CRead KM p f) Q s.
Proof.
  intros HI [->|(a & nd & -> & Hr & Hv)] H.
  - intros s' Hs'. eexists. split; [reflexivity|]. eapply (wpr_rel tau); eauto. apply H. left. auto.
  - apply (wpr_read tau) with (nd := nd); auto. apply H. right. exists a. split; auto. split; auto.
    apply (reg_ok tau KM) in Hr; [|apply HI]. pose proof (no_level _ _ _ _ Hr). lia.
Qed.

(* lifting a denotation to more levels *)
Lemma dnt_lift (O : nat -> (nat -> nat) -> C) t m n e :
  (forall k ix, (m <= k)%nat -> O (S k) ix = Cmult (diag4 (ix k)) (O k ix)) ->
  dnt tau KM t m e (O m) 0 -> (m <= n)%nat -> dnt tau KM t n e (O n) 0.
Proof.
  intros HO H Hle. induction Hle as [|n Hle IH]; auto.
  destruct IH as [Hw Hv].
  assert (IH : dnt tau KM t n e (O n) 0) by (split; auto).
  apply (dnt_of_exact tau).
  - eapply (wfe_KM_up tau); [|exact Hw]. lia.
  - intros ix. rewrite (val_KM_up tau) by auto. rewrite HO by auto.
    now rewrite (dnt_exact tau KM t n e (O n) IH).
Qed.

(* makeMEdge on an identity level *)
Lemma wpr_makeMEdge_strip q s (a b c d : edge) : tau = 0%R -> Inv s ->
  ew b = c0 -> ew c = c0 -> a = d \/ (ew a = c0 /\ ew d = c0) ->
  wpr tau (makeMEdge q a b c d) (fun e _ => e = a \/ (e = zeroE /\ ew a = c0)) s.
Proof.
  intros H0 HI Hb Hc Had. unfold makeMEdge. rewrite Hb, Hc, !iszero_c0 by lra. rewrite !andb_true_r.
  destruct (ptr_eqb (en a) (en d) && isequal (ew a) (ew d)) eqn:Hs.
  { apply (wpr_ret tau). auto. }
  destruct Had as [->|[Ha Hd]].
  { rewrite ptr_eqb_refl, isequal_refl in Hs. discriminate. }
  unfold normalizeM. cbn [forallb]. rewrite Ha, Hb, Hc, Hd.
  assert (isnull (@c0 (RNum tau)) = true) as -> by (now apply isnull_spec). cbn [andb].
  apply (wpr_scratch tau); auto. apply (wpr_ret tau). auto.
Qed.

(* operands restricted to a block *)
Lemma mchild_spec t m (e : edge) nd i : TInv KM t -> rd t (S m) (en e) nd -> (i < 4)%nat ->
  let x := mchild (Z.of_nat m) e nd i in
  wfe KM t m x /\ (forall ix, val KM t m x ix = blk (val KM t (S m) e) m i ix) /\
  (wfp KM t m (en e) -> x = match i with 1%nat | 2%nat => zeroE | _ => e end).
Proof.
  intros HT Hrd Hi. unfold mchild.
  assert (Hlow : wfp KM t m (en e) ->
     let x := match i with 1%nat | 2%nat => zeroE | _ => e end in
     wfe KM t m x /\ forall ix, val KM t m x ix = blk (val KM t (S m) e) m i ix).
  { intros Hp.
    assert (Hup : forall ix, blk (val KM t (S m) e) m i ix = Cmult (diag4 i) (val KM t m e ix)).
    { intros ix. unfold blk. rewrite (val_KM_up tau) by (now left). rewrite ixset_same. f_equal.
      apply val_local. intros l Hl. apply ixset_other. lia. }
    destruct i as [|[|[|[|i]]]]; try lia; cbn zeta;
      (split; [first [apply (wfe_zero tau) | left; exact Hp]|]; intros ix; rewrite Hup, ?val_zeroE; cbn [diag4]; ring). }
  destruct Hrd as [[Ht Hv]|(a & Ha & Hr & Hv)].
  - rewrite Ht in *. cbn [is_term negb]. rewrite andb_false_r.
    destruct (Hlow (or_introl eq_refl)) as [h1 h2]. auto.
  - rewrite Ha in *. cbn [is_term negb]. rewrite andb_true_r.
    pose proof (reg_ok tau KM _ _ _ HT Hr) as Hok. pose proof (no_len _ _ _ _ Hok) as Hlen. cbn in Hlen.
    destruct (nv nd =? Z.of_nat m) eqn:Hc.
    + apply Z.eqb_eq in Hc. rewrite (nth_indep (nch nd) nullE zeroE) by (rewrite Hlen; lia).
      pose proof (reg_child tau KM t a nd i HT Hr) as H. rewrite Hc, Nat2Z.id in H.
      split; [now apply (wfe_scale tau)|]. split.
      * intros ix. unfold blk, Wf.val. cbn [ew en]. rewrite Ha, (valp_S_node tau KM t m a nd) by auto.
        rewrite ixset_same. unfold Wf.val.
        rewrite (valp_local tau KM t m _ (ixset ix m i) ix) by (intros l Hl; apply ixset_other; lia).
        rewrite cmul_C. ring.
      * intros [h|(a' & nd' & [= <-] & h2 & h3)]; [discriminate|].
        pose proof (reg_fun tau _ _ _ _ _ h2 Hr). subst. lia.
    + apply Z.eqb_neq in Hc.
      destruct Hlow as [h1 h2]; auto. right. exists a, nd. split; auto. split; auto. lia.
Qed.

(* matrix entries with a child index >= 4 are 0 *)
Lemma val_KM_big t m e ix : TInv KM t -> wfe KM t (S m) e -> (4 <= ix m)%nat -> val KM t (S m) e ix = RtoC 0.
Proof.
  intros HT Hw Hi.
  assert (Hd : diag4 (ix m) = RtoC 0) by (destruct (ix m) as [|[|[|[|j]]]]; auto; lia).
  destruct Hw as [[h|(a & nd & h1 & h2 & h3)]|[h _]].
  - unfold Wf.val. rewrite h, valp_S_term. cbn [skipf]. rewrite Hd. ring.
  - unfold Wf.val. rewrite h1. destruct (Z.eq_dec (nv nd) (Z.of_nat m)) as [Hc|Hc].
    + rewrite (valp_S_node tau KM t m a nd) by auto.
      assert (Hlen : length (nch nd) = 4%nat) by (apply (no_len tau KM t); eapply reg_ok; eauto).
      rewrite nth_overflow by lia. rewrite val_zeroE. ring.
    + rewrite (valp_S_skip tau KM t m a nd) by auto. cbn [skipf]. rewrite Hd. ring.
  - now apply (val_zw tau).
Qed.
Lemma blk_same k t n e F m ix i : (forall ix, val k t n e ix = F ix) -> ix m = i -> F (ixset ix m i) = F ix.
Proof. apply (F_ixset tau). Qed.

Definition sumF (t : table) (l r : edge) (n : nat) (ix : nat -> nat) : C :=
  Cplus (val KM t n l ix) (val KM t n r ix).
Lemma sumF_up t l r m ix : wfe KM t m l -> wfe KM t m r ->
  sumF t l r (S m) ix = Cmult (diag4 (ix m)) (sumF t l r m ix).
Proof. intros Hl Hr. unfold sumF. rewrite !(val_KM_up tau) by auto. ring. Qed.
Lemma sumF_ext t t' l r n ix : TInv KM t -> ext tau KM t t' -> wfe KM t n l -> wfe KM t n r ->
  sumF t' l r n ix = sumF t l r n ix.
Proof. intros. unfold sumF. now rewrite !(val_ext tau KM t t'). Qed.

Definition Qadd (s0 : state) (n : nat) (l r : edge) : post tau := fun e s =>
  forall n', (n' <= n)%nat -> wfe KM (tb s0 KM) n' l -> wfe KM (tb s0 KM) n' r ->
  dnt tau KM (tb s KM) n' e (sumF (tb s0 KM) l r n') 0.
Lemma Qadd_stable s0 n l r : stable tau (Qadd s0 n l r).
Proof.
  intros e s s' HI Hr H n' Hn Hl Hr'. specialize (H n' Hn Hl Hr').
  eapply (dnt_ext tau); [apply HI|apply (rel_ext _ _ _ KM Hr)|exact H].
Qed.

Lemma wfe_low t m e : wfe KM t (S m) e ->
  wfe KM t m e \/ exists a nd, en e = Node a /\ reg KM t a nd /\ nv nd = Z.of_nat m.
Proof.
  intros [[h|(a & nd & h1 & h2 & h3)]|h]; [left; left; now left| |left; now right].
  destruct (Z.eq_dec (nv nd) (Z.of_nat m)); [right; eauto|].
  left. left. right. exists a, nd. split; auto. split; auto. lia.
Qed.
Lemma node_not_low t m n' (e : edge) a nd : en e = Node a -> reg KM t a nd -> nv nd = Z.of_nat m ->
  wfe KM t n' e -> (m < n')%nat.
Proof.
  intros Ha Hr Hv [[h|(a' & nd' & h1 & h2 & h3)]|[_ h]]; try congruence.
  rewrite Ha in h1. injection h1 as <-. pose proof (reg_fun tau _ _ _ _ _ h2 Hr). subst. lia.
Qed.
Lemma nz_wfp n t (e : edge) : wfe KM t n e -> iszero (ew e) = false -> wfp KM t n (en e).
Proof.
  intros H Hz. apply (wfe_nz tau KM t n e) in H; auto.
  intros h. rewrite (iszero_0 tau _ (proj1 Htau) h) in Hz. discriminate.
Qed.
Lemma wfp0 t p : TInv KM t -> wfp KM t 0 p -> p = Term.
Proof.
  intros HT [h|(a & nd & h1 & h2 & h3)]; auto. apply (reg_ok tau KM) in h2; auto.
  pose proof (no_level _ _ _ _ h2). lia.
Qed.

(* four blocks whose edges denote f i, assembled *)
Lemma wpr_assemble m s (e0 e1 e2 e3 : edge) (f : nat -> (nat -> nat) -> C) (Q : post tau) :
  tau = 0%R -> Inv s -> Z.of_nat m < NQUBITS ->
  dn KM m (f 0%nat) 0 e0 s -> dn KM m (f 1%nat) 0 e1 s -> dn KM m (f 2%nat) 0 e2 s -> dn KM m (f 3%nat) 0 e3 s ->
  (forall res s', rel s s' ->
     dn KM (S m) (fun ix => match ix m with 0%nat => f 0%nat ix | 1%nat => f 1%nat ix
                            | 2%nat => f 2%nat ix | 3%nat => f 3%nat ix | _ => RtoC 0 end) 0 res s' -> Q res s') ->
  wpr tau (makeMEdge (Z.of_nat m) e0 e1 e2 e3) Q s.
Proof.
  intros H0 HI Hm D0 D1 D2 D3 HQ.
  set (W := (Cmod (ew e0) + Cmod (ew e1) + Cmod (ew e2) + Cmod (ew e3))%R).
  pose proof (Cmod_ge_0 (ew e0)). pose proof (Cmod_ge_0 (ew e1)).
  pose proof (Cmod_ge_0 (ew e2)). pose proof (Cmod_ge_0 (ew e3)).
  eapply (wpr_mono tau); [auto| |apply (wpr_makeMEdge tau m s e0 e1 e2 e3 (f 0%nat) (f 1%nat) (f 2%nat) (f 3%nat) W); auto].
  - intros e s' Hr Hd. apply HQ; auto. rewrite (mkerr_0 tau W H0) in Hd.
    eapply (dnt_F tau); [|exact Hd]. intros ix. unfold ch_F. cbn [map].
    destruct (ix m) as [|[|[|[|[|i]]]]]; reflexivity.
  - apply D0.
  - apply D1.
  - apply D2.
  - apply D3.
  - now apply (dnt_exact tau).
  - now apply (dnt_exact tau).
  - now apply (dnt_exact tau).
  - now apply (dnt_exact tau).
  - unfold W; lra.
  - unfold W; lra.
  - unfold W; lra.
  - unfold W; lra.
Qed.

Theorem wpr_mm_add2 : tau = 0%R -> forall n s l r,
  Inv s -> Z.of_nat n <= NQUBITS -> wfe KM (tb s KM) n l -> wfe KM (tb s KM) n r ->
  wpr tau (mm_add2 n l r) (Qadd s n l r) s.
Proof.
  intros H0. induction n as [|m IH]; intros s l r HI Hn Hl Hr;
    match goal with |- wpr _ (mm_add2 ?nn _ _) _ _ => set (LN := nn) in * end;
    assert (HT : TInv KM (tb s KM)) by apply HI;
    assert (Hret : forall e, (forall n', (n' <= LN)%nat -> wfe KM (tb s KM) n' l -> wfe KM (tb s KM) n' r ->
                wfe KM (tb s KM) n' e /\ forall ix, val KM (tb s KM) n' e ix = sumF (tb s KM) l r n' ix) ->
                wpr tau (CRet e) (Qadd s LN l r) s)
      by (intros e He; apply (wpr_ret tau); intros s' Hr'; apply (Qadd_stable s LN l r e s s' HI Hr');
          intros n' Hn' Hl' Hr''; destruct (He n' Hn' Hl' Hr''); now apply (dnt_of_exact tau));
    assert (Hlz : ew l = c0 -> wpr tau (CRet r) (Qadd s LN l r) s)
      by (intros h; apply Hret; intros n' _ _ Hr'; split; auto; intros ix; unfold sumF;
          rewrite (val_zw tau KM _ _ l) by auto; ring);
    assert (Hrz : ew r = c0 -> wpr tau (CRet l) (Qadd s LN l r) s)
      by (intros h; apply Hret; intros n' _ Hl' _; split; auto; intros ix; unfold sumF;
          rewrite (val_zw tau KM _ _ r) by auto; ring);
    subst LN; cbn [mm_add2].
  all: destruct (edge_eqb l zeroE) eqn:Hle; cbn [orb];
    [apply Hlz; apply (edge_eqb_ex tau) in Hle; auto; now rewrite Hle|].
  all: destruct (edge_eqb r zeroE) eqn:Hre;
    [apply Hrz; apply (edge_eqb_ex tau) in Hre; auto; now rewrite Hre|].
  all: destruct (iszero (ew l)) eqn:Hzl; [apply Hlz; now apply (iszero_ex tau) in Hzl|].
  all: destruct (iszero (ew r)) eqn:Hzr; [apply Hrz; now apply (iszero_ex tau) in Hzr|].
  all: pose proof (nz_wfp _ _ _ Hl Hzl) as Hpl; pose proof (nz_wfp _ _ _ Hr Hzr) as Hpr.
  - rewrite (wfp0 _ _ HT Hpl), (wfp0 _ _ HT Hpr). cbn [is_term andb].
    apply Hret. intros n' Hn' _ _. split; [left; now left|]. intros ix. unfold sumF, Wf.val. cbn [ew en].
    rewrite (wfp0 _ _ HT Hpl), (wfp0 _ _ HT Hpr), cadd_C. ring.
  - destruct (ptr_eqb (en l) (en r)) eqn:Heq.
    { apply ptr_eqb_eq in Heq. apply Hret. intros n' Hn' Hl' _. split.
      - left. cbn [en]. now apply nz_wfp in Hl'.
      - intros ix. unfold sumF, Wf.val. cbn [ew en]. rewrite <- Heq, cadd_C. ring. }
    assert (Hm : Z.of_nat m < NQUBITS) by lia.
    assert (Hnode : (exists a, en l = Node a) \/ (exists a, en r = Node a)).
    { destruct Hpl as [h|(a & nd & h & _)]; [|eauto]. destruct Hpr as [h'|(a & nd & h' & _)]; [|eauto].
      rewrite h, h', ptr_eqb_refl in Heq. discriminate. }
    (* the level lv of the cache and the operands *)
    assert (Hord : forall s1, rel s s1 -> forall lv a b, aorder KM l r s1 = Some (lv, a, b) ->
       0 <= lv < Z.of_nat (S m) /\ (forall n', wfe KM (tb s KM) n' l -> wfe KM (tb s KM) n' r -> lv < Z.of_nat n') /\
       wfp KM (tb s KM) (S (Z.to_nat lv)) (en l) /\ wfp KM (tb s KM) (S (Z.to_nat lv)) (en r)).
    { intros s1 Hr1 lv a b Ho. assert (He1 : ext tau KM (tb s KM) (tb s1 KM)) by apply (rel_ext _ _ _ KM Hr1).
      assert (Hgv : forall p, wfp KM (tb s KM) (S m) p -> (p = Term /\ getVar KM p s1 = Some (-1)) \/
                exists a nd, p = Node a /\ reg KM (tb s KM) a nd /\ 0 <= nv nd < Z.of_nat (S m) /\ getVar KM p s1 = Some (nv nd)).
      { intros p [->|(x & nd & -> & h2 & h3)]; [left; auto|right]. exists x, nd. split; auto. split; auto.
        pose proof (reg_ok tau KM _ _ _ HT h2) as Hok. pose proof (no_level _ _ _ _ Hok). split; [lia|].
        unfold getVar. rewrite (readn_reg tau KM s1 x nd); auto. }
      assert (Hup : forall x nd lv, reg KM (tb s KM) x nd -> nv nd <= lv -> 0 <= lv -> wfp KM (tb s KM) (S (Z.to_nat lv)) (Node x)).
      { intros x nd z hr hz hz0. right. exists x, nd. split; auto. split; auto. lia. }
      assert (Hlt : forall (e : edge) x nd n', en e = Node x -> reg KM (tb s KM) x nd -> 0 <= nv nd -> wfe KM (tb s KM) n' e -> nv nd < Z.of_nat n').
      { intros e x nd n' h1 h2 h3 h4. pose proof (node_not_low (tb s KM) (Z.to_nat (nv nd)) n' e x nd h1 h2 ltac:(lia) h4). lia. }
      unfold aorder in Ho.
      destruct (Hgv _ Hpl) as [[hl hl2]|(x & nd & hl & hl2 & hl3 & hl4)];
      destruct (Hgv _ Hpr) as [[hr hr2]|(y & nd' & hr & hr2 & hr3 & hr4)].
      - exfalso. destruct Hnode as [[z hz]|[z hz]]; congruence.
      - rewrite hl2, hr4 in Ho. assert (Hc : (-1 <? nv nd') = true) by (apply Z.ltb_lt; lia). rewrite Hc in Ho.
        injection Ho as <- <- <-. split; auto. split; [intros n' _ h; now apply (Hlt r y nd' n')|].
        rewrite hl, hr. split; [now left|]. apply (Hup y nd'); auto; lia.
      - rewrite hl4, hr2 in Ho. assert (Hc : (nv nd <? -1) = false) by (apply Z.ltb_ge; lia). rewrite Hc in Ho.
        injection Ho as <- <- <-. split; auto. split; [intros n' h _; now apply (Hlt l x nd n')|].
        rewrite hl, hr. split; [|now left]. apply (Hup x nd); auto; lia.
      - rewrite hl4, hr4 in Ho. destruct (nv nd <? nv nd') eqn:Hc; injection Ho as <- <- <-.
        + apply Z.ltb_lt in Hc. split; auto. split; [intros n' _ h; now apply (Hlt r y nd' n')|].
          rewrite hl, hr. split; [apply (Hup x nd)|apply (Hup y nd')]; auto; lia.
        + apply Z.ltb_ge in Hc. split; auto. split; [intros n' h _; now apply (Hlt l x nd n')|].
          rewrite hl, hr. split; [apply (Hup x nd)|apply (Hup y nd')]; auto; lia. }
    intros s1 Hr1 i. pose proof (rel_inv _ _ _ Hr1) as HI1.
    assert (He1 : ext tau KM (tb s KM) (tb s1 KM)) by apply (rel_ext _ _ _ KM Hr1).
    assert (HT1 : TInv KM (tb s1 KM)) by apply HI1.
    assert (Hl1 : wfe KM (tb s1 KM) (S m) l) by (eapply (wfe_ext tau); eauto).
    assert (Hr1' : wfe KM (tb s1 KM) (S m) r) by (eapply (wfe_ext tau); eauto).
    destruct (afind_spec tau KM i l r s1 m HI1 Hl1 Hr1' Hnode Hm) as (res & Hfind & Hcase).
    exists res. split; auto.
    destruct Hcase as [->|(lv & e & a & b & Ho & Hent & Hres & Ha & Hb)].
    + (* miss *)
      cbn [en nullE is_null negb].
      assert (Hpl1 : wfp KM (tb s1 KM) (S m) (en l)) by (eapply (wfp_ext tau); eauto).
      assert (Hpr1 : wfp KM (tb s1 KM) (S m) (en r)) by (eapply (wfp_ext tau); eauto).
      apply (wpr_readp (S m)); auto. intros lnd Hrl. apply (wpr_readp (S m)); auto. intros rnd Hrr.
      set (T := fun j ix => sumF (tb s KM) l r (S m) (ixset ix m j)).
      assert (Hsub : forall j s2, (j < 4)%nat -> rel s1 s2 ->
        wpr tau (mm_add2 m (mchild (Z.of_nat m) l lnd j) (mchild (Z.of_nat m) r rnd j))
          (fun e s3 => dn KM m (T j) 0 e s3 /\
             (wfe KM (tb s KM) m l -> wfe KM (tb s KM) m r -> (j = 0 \/ j = 3)%nat -> Qadd s m l r e s3)) s2).
      { intros j s2 Hj Hr2. pose proof (rel_inv _ _ _ Hr2) as HI2.
        assert (He2 : ext tau KM (tb s1 KM) (tb s2 KM)) by apply (rel_ext _ _ _ KM Hr2).
        assert (He02 : ext tau KM (tb s KM) (tb s2 KM)) by (eapply ext_trans; eauto).
        destruct (mchild_spec (tb s1 KM) m l lnd j HT1 Hrl Hj) as (Hw1 & Hv1 & Hx1).
        destruct (mchild_spec (tb s1 KM) m r rnd j HT1 Hrr Hj) as (Hw2 & Hv2 & Hx2).
        pose proof (wfe_ext tau KM _ _ m _ He2 Hw1) as Hw1'. pose proof (wfe_ext tau KM _ _ m _ He2 Hw2) as Hw2'.
        eapply (wpr_mono tau); [auto| |apply (IH s2); auto; lia].
        intros e s3 Hr3 HQ. split.
        - eapply (dnt_F tau); [|apply (HQ m); auto].
          intros ix. unfold sumF. rewrite !(val_ext tau KM (tb s1 KM) (tb s2 KM)) by auto. rewrite Hv1, Hv2.
          unfold T, sumF, blk. now rewrite !(val_ext tau KM (tb s KM) (tb s1 KM)) by auto.
        - intros Hlm Hrm Hj2 n' Hn' Hl' Hr'.
          assert (E1 : mchild (Z.of_nat m) l lnd j = l).
          { rewrite Hx1; [destruct Hj2; subst j; auto|]. eapply (wfp_ext tau); [exact He1|]. now apply nz_wfp. }
          assert (E2 : mchild (Z.of_nat m) r rnd j = r).
          { rewrite Hx2; [destruct Hj2; subst j; auto|]. eapply (wfp_ext tau); [exact He1|]. now apply nz_wfp. }
          rewrite E1, E2 in HQ. eapply (dnt_F tau); [|apply (HQ n' Hn'); eapply (wfe_ext tau KM); [exact He02|auto|exact He02|auto]].
          intros ix. now apply sumF_ext. }
      assert (Hstab : forall j, stable tau (fun e s3 => dn KM m (T j) 0 e s3 /\
             (wfe KM (tb s KM) m l -> wfe KM (tb s KM) m r -> (j = 0 \/ j = 3)%nat -> Qadd s m l r e s3))).
      { intros j e sa sb HIa Hab [h1 h2]. split; [exact (dn_stable tau _ _ _ _ _ _ _ HIa Hab h1)|].
        intros x1 x2 x3. exact (Qadd_stable s m l r e sa sb HIa Hab (h2 x1 x2 x3)). }
      apply (wpr_bind tau); auto. eapply (wpr_mono tau); [auto| |apply (Hsub 0%nat s1); [lia|now apply rel_refl]].
      intros e0 s2 Hr2 D0. pose proof (rel_inv _ _ _ Hr2) as HI2.
      apply (wpr_bind tau); auto. eapply (wpr_mono tau); [auto| |apply (Hsub 1%nat s2); [lia|auto]].
      intros e1 s3 Hr3 D1. pose proof (rel_inv _ _ _ Hr3) as HI3. assert (Hr13 : rel s1 s3) by (eapply rel_trans; eauto).
      apply (wpr_bind tau); auto. eapply (wpr_mono tau); [auto| |apply (Hsub 2%nat s3); [lia|auto]].
      intros e2 s4 Hr4 D2. pose proof (rel_inv _ _ _ Hr4) as HI4. assert (Hr14 : rel s1 s4) by (eapply rel_trans; eauto).
      apply (wpr_bind tau); auto. eapply (wpr_mono tau); [auto| |apply (Hsub 3%nat s4); [lia|auto]].
      intros e3 s5 Hr5 D3. pose proof (rel_inv _ _ _ Hr5) as HI5. assert (Hr15 : rel s1 s5) by (eapply rel_trans; eauto).
      apply (Hstab 2%nat e2 s4 s5) in D2; auto.
      apply (Hstab 1%nat e1 s3 s5) in D1; auto; [|eapply rel_trans; eauto].
      apply (Hstab 0%nat e0 s2 s5) in D0; auto; [|eapply rel_trans; [exact Hr3|]; eapply rel_trans; eauto].
      destruct D0 as [D0 X0]. destruct D1 as [D1 _]. destruct D2 as [D2 _]. destruct D3 as [D3 X3].
      assert (HT5 : TInv KM (tb s5 KM)) by apply HI5.
      apply (wpr_bind tau); auto.
      assert (Hfin : wpr tau (makeMEdge (Z.of_nat m) e0 e1 e2 e3) (Qadd s (S m) l r) s5).
      { destruct (wfe_low _ _ _ Hl) as [Hll|(x & nd & h1 & h2 & h3)].
        - destruct (wfe_low _ _ _ Hr) as [Hrl'|(x & nd & h1 & h2 & h3)].
          + (* both operands live below: the level is stripped *)
            assert (Hup : forall j ix, T j ix = Cmult (diag4 j) (sumF (tb s KM) l r m ix)).
            { intros j ix. unfold T. rewrite sumF_up by auto. rewrite ixset_same. f_equal. unfold sumF.
              rewrite !(val_local tau KM _ m _ (ixset ix m j) ix); auto; intros z Hz; apply ixset_other; lia. }
            assert (Hz : forall j e, diag4 j = RtoC 0 -> dn KM m (T j) 0 e s5 -> ew e = c0).
            { intros j e Hj D. apply (val_zero_w tau KM (tb s5 KM) m e HT5); [apply D|].
              intros ix. rewrite (dnt_exact tau KM _ m e _ D). rewrite Hup, Hj. ring. }
            assert (Hcan : e0 = e3 \/ (ew e0 = c0 /\ ew e3 = c0)).
            { apply (canon_edge tau KM (tb s5 KM) m); auto; [apply D0|apply D3|].
              intros ix. rewrite (dnt_exact tau KM _ m e0 _ D0), (dnt_exact tau KM _ m e3 _ D3), !Hup. reflexivity. }
            eapply (wpr_mono tau); [auto| |apply (wpr_makeMEdge_strip _ s5 e0 e1 e2 e3 H0 HI5);
               [now apply (Hz 1%nat)|now apply (Hz 2%nat)|exact Hcan]].
            intros e s6 Hr6 He. pose proof (rel_inv _ _ _ Hr6) as HI6.
            assert (X0' : Qadd s m l r e0 s6).
            { apply (Qadd_stable s m l r e0 s5 s6 HI5 Hr6). apply X0; auto. }
            assert (Xe : Qadd s m l r e s6).
            { destruct He as [->|[-> Hw]]; auto. intros n' Hn' Hl' Hr'. specialize (X0' n' Hn' Hl' Hr').
              apply (dnt_of_exact tau); [apply wfe_zero|]. intros ix. rewrite val_zeroE.
              rewrite <- (dnt_exact tau KM _ _ _ _ X0'). symmetry. now apply (val_zw tau). }
            intros n' Hn' Hl' Hr'. destruct (Nat.le_gt_cases n' m) as [h|h]; [now apply Xe|].
            assert (n' = S m) by lia. subst n'.
            apply (dnt_lift (sumF (tb s KM) l r) _ m); [|apply Xe; auto|lia].
            intros k ix Hk. apply sumF_up; eapply (wfe_KM_up tau); eauto.
          + apply (wpr_assemble m s5 e0 e1 e2 e3 T); auto.
            intros res s6 Hr6 D n' Hn' Hl' Hr'. pose proof (node_not_low _ _ _ _ _ _ h1 h2 h3 Hr').
            assert (n' = S m) by lia. subst n'. eapply (dnt_F tau); [|exact D].
            intros ix. cbn beta.
            assert (HTi : forall j, ix m = j -> T j ix = sumF (tb s KM) l r (S m) ix).
            { intros j Hj. unfold T, sumF. rewrite !(val_local tau KM _ (S m) _ (ixset ix m j) ix); auto;
                intros z _; unfold ixset; destruct (Nat.eqb_spec z m); congruence. }
            destruct (ix m) as [|[|[|[|j]]]] eqn:Hix; try (now apply HTi).
            symmetry. unfold sumF. rewrite !(val_KM_big _ m) by (auto; lia). ring.
        - apply (wpr_assemble m s5 e0 e1 e2 e3 T); auto.
          intros res s6 Hr6 D n' Hn' Hl' Hr'. pose proof (node_not_low _ _ _ _ _ _ h1 h2 h3 Hl').
          assert (n' = S m) by lia. subst n'. eapply (dnt_F tau); [|exact D].
          intros ix. cbn beta.
          assert (HTi : forall j, ix m = j -> T j ix = sumF (tb s KM) l r (S m) ix).
          { intros j Hj. unfold T, sumF. rewrite !(val_local tau KM _ (S m) _ (ixset ix m j) ix); auto;
              intros z _; unfold ixset; destruct (Nat.eqb_spec z m); congruence. }
          destruct (ix m) as [|[|[|[|j]]]] eqn:Hix; try (now apply HTi).
          symmetry. unfold sumF. rewrite !(val_KM_big _ m) by (auto; lia). ring. }
      eapply (wpr_mono tau); [auto| |exact Hfin].
      intros res s6 Hr6 HQ. pose proof (rel_inv _ _ _ Hr6) as HI6.
      intros s7 Hr7 i'. pose proof (rel_inv _ _ _ Hr7) as HI7.
      apply (Qadd_stable s (S m) l r res s6 s7 HI6 Hr7) in HQ.
      assert (Hr07 : rel s s7).
      { eapply rel_trans; [exact Hr1|]. eapply rel_trans; [exact Hr15|]. eapply rel_trans; eauto. }
      assert (He7 : ext tau KM (tb s KM) (tb s7 KM)) by apply (rel_ext _ _ _ KM Hr07).
      assert (Hsome : exists lv a b, aorder KM l r s7 = Some (lv, a, b)).
      { unfold aorder.
        destruct (wfe_getVar tau KM s7 (S m) l HI7) as (v1 & -> & _); [eapply (wfe_ext tau); eauto|].
        destruct (wfe_getVar tau KM s7 (S m) r HI7) as (v2 & -> & _); [eapply (wfe_ext tau); eauto|].
        destruct (v1 <? v2); eauto. }
      destruct Hsome as (lv & a & b & Ho). destruct (Hord s7 Hr07 lv a b Ho) as (Hlv & _ & Hwl & Hwr).
      destruct (aset_spec tau KM i' l r res s7 lv a b HI7 Ho) as (s8 & Hs8 & Hr8).
      { apply level_ok_true. lia. }
      { exists (Z.to_nat lv). cbn [a_l a_r a_res]. split; [lia|]. rewrite (ecompm_0 tau _ _ H0).
        assert (Hs : dnt tau KM (tb s7 KM) (S (Z.to_nat lv)) res (sumF (tb s KM) l r (S (Z.to_nat lv))) 0).
        { apply HQ; [lia|now left|now left]. }
        destruct (aorder_cases tau _ _ _ _ _ _ _ Ho) as [(-> & -> & _)|(-> & -> & _)].
        - split; [eapply (wfp_ext tau); eauto|]. split; [eapply (wfp_ext tau); eauto|].
          eapply (dnt_F tau); [|exact Hs]. intros ix. cbn. unfold sumF.
          rewrite !(val_ext tau KM (tb s KM) (tb s7 KM)); auto; now left.
        - split; [eapply (wfp_ext tau); eauto|]. split; [eapply (wfp_ext tau); eauto|].
          eapply (dnt_F tau); [|exact Hs]. intros ix. cbn. unfold sumF.
          rewrite !(val_ext tau KM (tb s KM) (tb s7 KM)) by (auto; now left). ring. }
      exists s8. split; auto. split; auto. apply (wpr_ret tau). intros s9 Hr9.
      apply (Qadd_stable s (S m) l r res s7 s9 HI7); [eapply rel_trans; eauto|exact HQ].
    + (* hit *)
      destruct (Hord s1 Hr1 lv a b Ho) as (Hlv & Hbelow & Hwl & Hwr).
      destruct Hent as (m' & -> & Hel & Her & Hd). rewrite Hres, (ecompm_0 tau _ _ H0) in Hd.
      apply (edge_eqb_ex tau) in Ha; auto. apply (edge_eqb_ex tau) in Hb; auto. rewrite Ha, Hb in Hd.
      rewrite Nat2Z.id in Hwl, Hwr.
      assert (Hnn : negb (is_null (en res)) = true).
      { destruct (wfe_getVar tau KM s1 (S m') res HI1) as (v & _ & _ & Hnn); [apply Hd|].
        destruct (en res); congruence || auto. }
      rewrite Hnn. apply (wpr_ret tau). intros s2 Hr2. apply (Qadd_stable s (S m) l r _ s1 s2 HI1 Hr2).
      intros n' Hn' Hl' Hr'.
      assert (Hd' : dnt tau KM (tb s1 KM) (S m') res (sumF (tb s KM) l r (S m')) 0).
      { eapply (dnt_F tau); [|exact Hd]. intros ix. cbn. unfold sumF.
        destruct (aorder_cases tau _ _ _ _ _ _ _ Ho) as [(-> & -> & _)|(-> & -> & _)];
          rewrite !(val_ext tau KM (tb s KM) (tb s1 KM)) by (auto; now left); ring. }
      specialize (Hbelow n' Hl' Hr').
      assert (Hd2 : dnt tau KM (tb s1 KM) n' res (sumF (tb s KM) l r n') 0).
      { apply (dnt_lift (sumF (tb s KM) l r) _ (S m')); auto; [|lia].
        intros k ix Hk. apply sumF_up; left; eapply (wfp_KM_up tau); eauto. }
      destruct (iszero (ew res)) eqn:Hz; auto.
      apply (iszero_ex tau) in Hz; auto. apply (dnt_of_exact tau); [apply wfe_zero|].
      intros ix. rewrite val_zeroE, <- (dnt_exact tau KM _ _ _ _ Hd2). symmetry. now apply (val_zw tau).
Qed.
End MM.
