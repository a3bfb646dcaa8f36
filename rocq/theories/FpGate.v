(* FpGate.v -- makeGate and makeTwoQubitGate over a rounded arithmetic (follows GateP.v). *)
From Coq Require Import Reals Lra Psatz ZArith Bool List Lia Sorted.
From Coquelicot Require Import Complex.
From Verif Require Import Num State DD Gates RNum Wf Sums Err Inv Wp Make Add MulV GateP FpA FpE FpW FpM FpAdd FpMul.
Import ListNotations.
Open Scope Z_scope.

Section FpGate.
Context {NO : NumOps} {AC : Accur NO} {CF : Cfg}.
Notation dl := (@dl NO AC).
Notation Gr := (@Gr NO AC).
Notation Gp := (@Gp NO AC).
Notation mkerr := (@mkerr NO AC).
Notation egate := (@egate NO AC).
Lemma valp_idF t z ix : valp KM t z Term ix = idF z ix.
Proof. induction z as [|z IH]; [reflexivity|]. rewrite valp_S_term. cbn [skipf idF]. now rewrite IH. Qed.
Lemma dn_term z w s err : (0 <= err)%R -> dn KM z (fun ix => Cmult (cv w) (idF z ix)) err (E w Term) s.
Proof.
  intros He. apply dnt_weaken with (err := 0%R); auto. apply dnt_of_exact; [left; now left|].
  intros ix. unfold FpA.val. cbn [ew en]. now rewrite valp_idF.
Qed.
Lemma dn_zeroE k z s err : (0 <= err)%R -> dn k z (fun _ => RtoC 0) err zeroE s.
Proof.
  intros He. apply dnt_weaken with (err := 0%R); auto. apply dnt_of_exact; [apply wfe_zero|].
  intros ix. apply val_zeroE.
Qed.

Lemma wpr_mk4 B z s (a b c d : edge) Fa Fb Fc Fd (Q : post) :
  Inv s -> Z.of_nat z < NQUBITS -> (0 <= B)%R ->
  dn KM z Fa (egate z B) a s -> dn KM z Fb (egate z B) b s -> dn KM z Fc (egate z B) c s -> dn KM z Fd (egate z B) d s ->
  (forall ix, Cmod (Fa ix) <= B)%R -> (forall ix, Cmod (Fb ix) <= B)%R ->
  (forall ix, Cmod (Fc ix) <= B)%R -> (forall ix, Cmod (Fd ix) <= B)%R ->
  (forall e s', rel s s' -> dn KM (S z) (ch_F [Fa; Fb; Fc; Fd] z) (egate (S z) B) e s' -> Q e s') ->
  wpr (makeMEdge (Z.of_nat z) a b c d) Q s.
Proof.
  intros HI Hz HB Da Db Dc Dd Ba Bb Bc Bd0 HQ.
  assert (HT : TInv KM (tb s KM)) by apply HI. pose proof (egate_pos z B HB) as Heg.
  eapply wpr_mono; [auto| |apply (wpr_makeMEdge z s a b c d
     (val KM (tb s KM) z a) (val KM (tb s KM) z b) (val KM (tb s KM) z c) (val KM (tb s KM) z d) (B + egate z B)); auto].
  - intros e s' Hr Hd. apply HQ; auto. cbn [egate]. rewrite Rplus_comm. eapply dnt_err; [|exact Hd].
    intros ix. unfold ch_F. cbn [map]. destruct (ix z) as [|[|[|[|i]]]]; cbn [nth].
    + apply Da.
    + apply Db.
    + apply Dc.
    + apply Dd.
    + destruct i; replace (Cminus (RtoC 0) (RtoC 0)) with (RtoC 0) by ring; rewrite Cmod_0; auto.
  - apply Da.
  - apply Db.
  - apply Dc.
  - apply Dd.
  - eapply dnt_wbound; eauto.
  - eapply dnt_wbound; eauto.
  - eapply dnt_wbound; eauto.
  - eapply dnt_wbound; eauto.
Qed.

Lemma wrapF_bound z cb d F B ix : (1 <= B)%R -> (forall ix, Cmod (F ix) <= B)%R -> (Cmod (wrapF z cb (flagC d) F ix) <= B)%R.
Proof.
  intros HB HF.
  assert (Hd : (Cmod (Cmult (flagC d) (idF z ix)) <= B)%R).
  { rewrite Cmod_mult. pose proof (idF_le1 z ix). pose proof (Cmod_ge_0 (idF z ix)).
    destruct d; cbn [flagC]; rewrite ?Cmod_1, ?Cmod_0; lra. }
  assert (H0 : (Cmod (RtoC 0) <= B)%R) by (rewrite Cmod_0; lra).
  unfold wrapF, Make.ch_F. destruct cb as [[|]|]; cbn [map]; destruct (ix z) as [|[|[|[|[|i]]]]]; cbn [nth]; auto.
Qed.
Lemma wpr_wrap_low B z ctl s d e F (Q : post) : csorted ctl ->
  Inv s -> Z.of_nat z < NQUBITS -> (1 <= B)%R ->
  dn KM z F (egate z B) e s -> (forall ix, Cmod (F ix) <= B)%R ->
  (forall e' s', rel s s' -> dn KM (S z) (wrapF z (ctl_at z ctl) (flagC d) F) (egate (S z) B) e' s' -> Q e' s') ->
  wpr (wrap_low (Z.of_nat z) (from z ctl) d e) Q s.
Proof.
  intros Hs HI Hz HB He HF HQ. unfold wrap_low.
  assert (HB0 : (0 <= B)%R) by lra. pose proof (egate_pos z B HB0) as Heg.
  assert (Hz0 : dn KM z (fun _ => RtoC 0) (egate z B) zeroE s) by (now apply dn_zeroE).
  assert (Hid : dn KM z (fun ix => Cmult (flagC d) (idF z ix)) (egate z B) (if d then oneE else zeroE) s).
  { destruct d; cbn [flagC]; [eapply dnt_F; [|apply (dn_term z c1 s); auto]; intros ix; cbn beta; now rewrite cv_1|].
    eapply dnt_F; [|exact Hz0]. intros ix. cbn. ring. }
  assert (B0 : forall ix : nat -> nat, (Cmod (RtoC 0) <= B)%R) by (intros; rewrite Cmod_0; lra).
  assert (Bd0 : forall ix, (Cmod (Cmult (flagC d) (idF z ix)) <= B)%R).
  { intros ix. rewrite Cmod_mult. pose proof (idF_le1 z ix). pose proof (Cmod_ge_0 (idF z ix)).
    destruct d; cbn [flagC]; rewrite ?Cmod_1, ?Cmod_0; lra. }
  pose proof (from_step z ctl Hs) as Hst.
  destruct (ctl_at z ctl) as [[|]|] eqn:Hc.
  - destruct Hst as (r & -> & _). cbn [at_ctl fst]. rewrite Z.eqb_refl.
    eapply (wpr_mk4 B z s _ _ _ _ _ _ _ _ Q HI Hz HB0 Hid Hz0 Hz0 He); auto.
  - destruct Hst as (r & -> & _). cbn [at_ctl fst]. rewrite Z.eqb_refl.
    eapply (wpr_mk4 B z s _ _ _ _ _ _ _ _ Q HI Hz HB0 He Hz0 Hz0 Hid); auto.
  - destruct Hst as (_ & ->).
    eapply (wpr_mk4 B z s _ _ _ _ _ _ _ _ Q HI Hz HB0 He Hz0 Hz0 He); auto.
Qed.
Lemma wrap_high_low z it e : wrap_high z it e = wrap_low z it true e.
Proof. reflexivity. Qed.
Lemma advance_from z ctl : csorted ctl -> advance (from z ctl) (Z.of_nat z) = from (S z) ctl.
Proof.
  intros Hs. pose proof (from_step z ctl Hs) as Hst. unfold advance. destruct (ctl_at z ctl).
  - destruct Hst as (r & -> & <-). cbn. now rewrite Z.eqb_refl.
  - destruct Hst as [h ->]. exact h.
Qed.

(* a list of (flag, edge) against a list of (flag, function) *)
Definition Den (z : nat) (B : R) (s : state) (es : list (bool * edge)) (fs : list (bool * ((nat -> nat) -> C))) : Prop :=
  Forall2 (fun de df => fst de = fst df /\ dn KM z (snd df) (egate z B) (snd de) s) es fs.
Lemma Den_rel z B s s' es fs : Inv s -> rel s s' -> Den z B s es fs -> Den z B s' es fs.
Proof.
  intros HI Hr H. induction H as [|de df es fs [h1 h2] H IH]; constructor; auto. split; auto.
  exact (dn_stable _ _ _ _ _ _ _ HI Hr h2).
Qed.
Lemma wpr_wrap_all B z ctl (Q : post) : csorted ctl -> Z.of_nat z < NQUBITS -> (1 <= B)%R ->
  forall es fs s k, Inv s -> Den z B s es fs ->
  (forall df, In df fs -> forall ix, (Cmod (snd df ix) <= B)%R) ->
  (forall es' s', rel s s' -> Den (S z) B s' es' (map (fun df => (fst df, wrapF z (ctl_at z ctl) (flagC (fst df)) (snd df))) fs) ->
     wpr (k es') Q s') ->
  wpr (wrap_all (Z.of_nat z) (from z ctl) es k) Q s.
Proof.
  intros Hs Hz HB. induction es as [|[d e] es IH]; intros fs s k HI HD HF Hk; inversion HD as [|x df' y fs' [Hd1 Hd2] HD']; subst; cbn [wrap_all].
  - apply Hk; [now apply rel_refl|constructor].
  - destruct df' as [d' F]. cbn [fst snd] in *. subst d'.
    apply wpr_bind; auto.
    apply (wpr_wrap_low B z ctl s d e F); auto.
    { intros ix. apply (HF (d, F)). now left. }
    intros e' s' Hr He'. pose proof (rel_inv _ _ Hr) as HI'.
    refine (IH fs' s' _ HI' _ _ _).
    + exact (Den_rel _ _ _ _ _ _ HI Hr HD').
    + intros df Hin. apply HF. now right.
    + intros es' s2 Hr2 HD2. apply Hk; [eapply rel_trans; eauto|]. cbn [map]. constructor; auto.
      split; auto. exact (dn_stable _ _ _ _ _ _ _ HI' Hr2 He').
Qed.

(* a block of entries: flag, and function at z levels *)
Lemma opF_bound z T G D ctl B ix : (1 <= B)%R -> (Cmod D <= 1)%R -> (forall r c, Cmod (G r c) <= B)%R -> (Cmod (opF z T G D ctl ix) <= B)%R.
Proof.
  intros HB HD HG. unfold opF. destruct (offeq _ _ _ _); [|rewrite Cmod_0; lra].
  destruct (sat _ _ _); auto. destruct (oneq _ _ _); [lra|rewrite Cmod_0; lra].
Qed.
Lemma flagC_le d : (Cmod (flagC d) <= 1)%R.
Proof. destruct d; cbn; rewrite ?Cmod_1, ?Cmod_0; lra. Qed.
Ltac opb := apply opF_bound; [auto|first [apply flagC_le|apply (flagC_le true)|apply (flagC_le false)]|intros; cbn [snd]; auto].
Lemma Den_F z B s es fs fs' : Forall2 (fun a b => fst a = fst b /\ forall ix, snd a ix = snd b ix) fs fs' ->
  Den z B s es fs -> Den z B s es fs'.
Proof.
  intros H. revert es. induction H as [|a b fs fs' [h1 h2] H IH]; intros es HD; inversion HD as [|x y l l' [g1 g2] HD']; subst; constructor.
  - split; [congruence|]. eapply dnt_F; [|exact g2]. auto.
  - now apply IH.
Qed.
Lemma wpr_low_loop B T ctl Gs (Q : post) : csorted ctl -> (1 <= B)%R ->
  (forall dg, In dg Gs -> forall r c, (Cmod (snd dg r c) <= B)%R) ->
  forall cnt z es s k, Inv s -> Z.of_nat (z + cnt) <= NQUBITS -> (forall l, In l T -> (l < z)%nat) ->
  Den z B s es (blockF z T ctl Gs) ->
  (forall es' s', rel s s' -> Den (z + cnt) B s' es' (blockF (z + cnt) T ctl Gs) ->
     wpr (k (Z.of_nat (z + cnt)) (from (z + cnt) ctl) es') Q s') ->
  wpr (low_loop cnt (Z.of_nat z) (from z ctl) es k) Q s.
Proof.
  intros Hs HB HG. induction cnt as [|cnt IH]; intros z es s k HI Hz HT HD Hk; cbn [low_loop].
  - rewrite Nat.add_0_r in Hk. apply Hk; auto. now apply rel_refl.
  - apply (wpr_wrap_all B z ctl Q) with (fs := blockF z T ctl Gs); auto; [lia| |].
    { intros df Hin. unfold blockF in Hin. apply in_map_iff in Hin as (dg & <- & Hin). intros ix. cbn [snd].
      apply opF_bound; auto using flagC_le. }
    intros es' s' Hr HD'. pose proof (rel_inv _ _ Hr) as HI'.
    rewrite advance_from by auto. replace (Z.of_nat z + 1) with (Z.of_nat (S z)) by lia.
    refine (IH (S z) _ s' _ HI' _ _ _ _).
    + lia.
    + intros l Hl. specialize (HT l Hl). lia.
    + eapply Den_F; [|exact HD']. unfold blockF. rewrite map_map. clear - Hs HT.
      induction Gs as [|dg Gs IHg]; cbn; constructor; auto. cbn [fst snd]. split; auto.
      intros ix. now apply wrapF_opF.
    + intros es2 s2 Hr2 HD2. replace (S z + cnt)%nat with (z + S cnt)%nat in * by lia.
      apply Hk; auto. eapply rel_trans; eauto.
Qed.
Lemma wpr_high_loop B T ctl G (Q : post) : csorted ctl -> (1 <= B)%R -> (forall r c, (Cmod (G r c) <= B)%R) ->
  forall cnt z e s, Inv s -> Z.of_nat (z + cnt) <= NQUBITS -> (forall l, In l T -> (l < z)%nat) ->
  dn KM z (opF z T G (RtoC 1) ctl) (egate z B) e s ->
  (forall e' s', rel s s' -> dn KM (z + cnt) (opF (z + cnt) T G (RtoC 1) ctl) (egate (z + cnt) B) e' s' -> Q e' s') ->
  wpr (high_loop cnt (Z.of_nat z) (from z ctl) e) Q s.
Proof.
  intros Hs HB HG. induction cnt as [|cnt IH]; intros z e s HI Hz HT HD HQ; cbn [high_loop].
  - rewrite Nat.add_0_r in HQ. apply wpr_ret. intros s' Hr. apply HQ; auto.
    exact (dn_stable _ _ _ _ _ _ _ HI Hr HD).
  - apply wpr_bind; auto. rewrite wrap_high_low.
    apply (wpr_wrap_low B z ctl s true e (opF z T G (RtoC 1) ctl)); auto; [lia| |].
    { intros ix. apply opF_bound; auto. rewrite Cmod_1; lra. }
    intros e' s' Hr HD'. pose proof (rel_inv _ _ Hr) as HI'.
    rewrite advance_from by auto. replace (Z.of_nat z + 1) with (Z.of_nat (S z)) by lia.
    refine (IH (S z) _ s' HI' _ _ _ _).
    + lia.
    + intros l Hl. specialize (HT l Hl). lia.
    + eapply dnt_F; [|exact HD']. intros ix. cbn [flagC]. now apply wrapF_opF.
    + intros e2 s2 Hr2 HD2. replace (S z + cnt)%nat with (z + S cnt)%nat in * by lia.
      apply HQ; auto. eapply rel_trans; eauto.
Qed.
Lemma from_none z ctl : csorted ctl -> (forall x, In x ctl -> fst x <> Z.of_nat z) -> from z ctl = from (S z) ctl.
Proof.
  intros Hs H. pose proof (from_step z ctl Hs) as Hst. apply ctl_at_none in H. rewrite H in Hst. apply Hst.
Qed.
Lemma from_0 ctl : (forall x, In x ctl -> 0 <= fst x) -> from 0 ctl = ctl.
Proof.
  intros H. unfold from. induction ctl as [|x l IH]; cbn [filter]; auto.
  replace (Z.of_nat 0 <=? fst x) with true by (symmetry; apply Z.leb_le; apply H; now left).
  f_equal. apply IH. intros y Hy. apply H. now right.
Qed.

Lemma offeq_cons z T r c : offeq z (z :: T) r c = offeq z T r c.
Proof.
  unfold offeq. apply eq_true_iff_eq. rewrite !forallb_forall.
  split; intros H l Hl; specialize (H l Hl); cbn [existsb] in *; apply in_seq in Hl;
    replace (l =? z)%nat with false in * by (symmetry; apply Nat.eqb_neq; lia); auto.
Qed.
Lemma join_opF z T G D ctl ix : csorted ctl -> ctl_at z ctl = None ->
  ch_F [opF z T (G 0%nat 0%nat) D ctl; opF z T (G 0%nat 1%nat) (RtoC 0) ctl;
        opF z T (G 1%nat 0%nat) (RtoC 0) ctl; opF z T (G 1%nat 1%nat) D ctl] z ix
  = opF (S z) (z :: T) (selG z G) D ctl ix.
Proof.
  intros Hs Hn. unfold opF at 5. rewrite offeq_S, sat_S, Hn, offeq_cons by auto.
  change (oneq (z :: T) (rowix ix) (colix ix)) with (Nat.eqb (rowix ix z) (colix ix z) && oneq T (rowix ix) (colix ix))%bool.
  cbn [existsb]. rewrite Nat.eqb_refl. cbn [orb]. rewrite !andb_true_r.
  unfold ch_F, selG. cbn [map].
  destruct (ix z) as [|[|[|[|i]]]] eqn:h.
  - assert (h1 : rowix ix z = 0%nat) by (unfold rowix; now rewrite h).
    assert (h2 : colix ix z = 0%nat) by (unfold colix; now rewrite h).
    rewrite h1, h2. reflexivity.
  - assert (h1 : rowix ix z = 0%nat) by (unfold rowix; now rewrite h).
    assert (h2 : colix ix z = 1%nat) by (unfold colix; now rewrite h).
    rewrite h1, h2. cbn [nth Nat.ltb Nat.leb andb Nat.eqb]. unfold opF. destruct (offeq z T (rowix ix) (colix ix)), (sat z ctl (rowix ix)), (oneq T (rowix ix) (colix ix)); auto.
  - assert (h1 : rowix ix z = 1%nat) by (unfold rowix; now rewrite h).
    assert (h2 : colix ix z = 0%nat) by (unfold colix; now rewrite h).
    rewrite h1, h2. cbn [nth Nat.ltb Nat.leb andb Nat.eqb]. unfold opF. destruct (offeq z T (rowix ix) (colix ix)), (sat z ctl (rowix ix)), (oneq T (rowix ix) (colix ix)); auto.
  - assert (h1 : rowix ix z = 1%nat) by (unfold rowix; now rewrite h).
    assert (h2 : colix ix z = 1%nat) by (unfold colix; now rewrite h).
    rewrite h1, h2. reflexivity.
  - assert (h1 : (2 <= rowix ix z)%nat).
    { unfold rowix. rewrite h. apply Nat.div_le_lower_bound; lia. }
    assert (h2 : (colix ix z < 2)%nat) by (unfold colix; apply Nat.mod_upper_bound; lia).
    replace (rowix ix z <? 2)%nat with false by (symmetry; apply Nat.ltb_ge; lia).
    replace (rowix ix z =? colix ix z)%nat with false by (symmetry; apply Nat.eqb_neq; lia).
    cbn [andb]. replace (nth (S (S (S (S i)))) _ (RtoC 0)) with (RtoC 0) by (destruct i; reflexivity).
    destruct (offeq z T (rowix ix) (colix ix)), (sat z ctl (rowix ix)); auto.
Qed.

Lemma sat_0 ctl r : (forall x, In x ctl -> 0 <= fst x) -> sat 0 ctl r = true.
Proof.
  intros H. unfold sat. apply forallb_forall. intros x Hx. replace (Z.of_nat 0 <=? fst x) with true; auto.
  symmetry. apply Z.leb_le. now apply H.
Qed.
Lemma dn_leaf B s w D ctl : (forall x, In x ctl -> 0 <= fst x) ->
  dn KM 0 (opF 0 [] (fun _ _ => cv w) D ctl) (egate 0 B) (termE w) s.
Proof.
  intros H. eapply dnt_F; [|apply (dn_term 0 w s 0); lra]. intros ix. unfold opF. rewrite sat_0 by auto. cbn. ring.
Qed.

(* the operator of a one-qubit gate *)

Theorem wpr_makeGate n t (g : nat -> nat -> cx) ctl B s (Q : post) :
  Inv s -> Z.of_nat n <= NQUBITS -> (t < n)%nat -> csorted ctl ->
  (forall x, In x ctl -> 0 <= fst x) -> (forall x, In x ctl -> fst x <> Z.of_nat t) ->
  (1 <= B)%R -> (forall i j, Cmod (cv (g i j)) <= B)%R ->
  (forall e s', rel s s' -> dn KM n (opF n [t] (g1F t (fun i j => cv (g i j))) (RtoC 1) ctl) (egate n B) e s' -> Q e s') ->
  wpr (makeGate (Z.of_nat n) g (Z.of_nat t) ctl) Q s.
Proof.
  intros HI Hn Ht Hs H0 Hnt HB Hg HQ. unfold makeGate. rewrite Nat2Z.id.
  set (Gs := [(true, fun _ _ : nat -> nat => cv (g 0%nat 0%nat)); (false, fun _ _ => cv (g 0%nat 1%nat));
              (false, fun _ _ => cv (g 1%nat 0%nat)); (true, fun _ _ => cv (g 1%nat 1%nat))]).
  rewrite <- (from_0 ctl H0) at 1. change 0 with (Z.of_nat 0) at 1.
  refine (wpr_low_loop B [] ctl Gs Q Hs HB _ t 0 _ s _ HI _ _ _ _).
  - intros dg Hin. cbn in Hin. destruct Hin as [<-|[<-|[<-|[<-|[]]]]]; cbn; auto.
  - cbn. lia.
  - intros l [].
  - unfold Gs, blockF, Den. cbn [map fst snd].
    repeat (constructor; [split; [reflexivity|now apply dn_leaf]|]). constructor.
  - cbn [Nat.add]. intros es' s1 Hr1 HD. pose proof (rel_inv _ _ Hr1) as HI1.
    unfold Gs, blockF, Den in HD. cbn [map fst snd] in HD.
    inversion HD as [|e0 f0 l0 l0' [_ D0] HD0]; subst. inversion HD0 as [|e1 f1 l1 l1' [_ D1] HD1]; subst.
    inversion HD1 as [|e2 f2 l2 l2' [_ D2] HD2]; subst. inversion HD2 as [|e3 f3 l3 l3' [_ D3] HD3]; subst.
    inversion HD3; subst. cbn [eat nth snd] in *.
    apply wpr_bind; auto.
    eapply (wpr_mk4 B t s1 _ _ _ _ _ _ _ _ _ HI1); [lia|lra|exact D0|exact D1|exact D2|exact D3|..].
    + intros ix; opb.
    + intros ix; opb.
    + intros ix; opb.
    + intros ix; opb.
    + intros e s2 Hr2 De. pose proof (rel_inv _ _ Hr2) as HI2.
      rewrite (from_none t ctl Hs Hnt). replace (Z.of_nat t + 1) with (Z.of_nat (S t)) by lia.
      replace (Z.to_nat (Z.of_nat n - Z.of_nat (S t))) with (n - S t)%nat by lia.
      refine (wpr_high_loop B [t] ctl (g1F t (fun i j => cv (g i j))) Q Hs HB _ _ _ _ _ HI2 _ _ _ _).
      * intros r c. unfold g1F, selG. destruct (_ && _)%bool; auto. rewrite Cmod_0. lra.
      * lia.
      * intros l [<-|[]]. lia.
      * eapply dnt_F; [|exact De]. intros ix. cbn [flagC].
        apply (join_opF t [] (fun i j _ _ => cv (g i j)) (RtoC 1) ctl ix Hs). now apply ctl_at_none.
      * intros e' s3 Hr3 De'. replace (S t + (n - S t))%nat with n in De' by lia. apply HQ; auto.
        eapply rel_trans; [eapply rel_trans; eauto|auto].
Qed.

(* the operator of a two-qubit gate: [hi] is the qubit of the more significant index bit *)
Lemma Den_nth z B s es fs i d F : Den z B s es fs -> nth_error fs i = Some (d, F) ->
  dn KM z F (egate z B) (eat es i) s.
Proof.
  intros H. revert i. unfold eat. induction H as [|de df es fs [h1 h2] H IH]; intros i Hi.
  - destruct i; discriminate.
  - destruct i; cbn [nth nth_error] in *.
    + injection Hi as ->. exact h2.
    + now apply IH.
Qed.
Lemma G16_nth g a b : (a < 4)%nat -> (b < 4)%nat -> nth_error (G16 g) (4 * a + b) = Some (Nat.eqb a b, fun _ _ => g a b).
Proof.
  intros Ha Hb. destruct a as [|[|[|[|a]]]]; [..|lia]; destruct b as [|[|[|[|b]]]]; (lia || reflexivity).
Qed.

Theorem wpr_makeTwoQubitGate n t0 t1 (g : nat -> nat -> cx) ctl B s (Q : post) :
  Inv s -> Z.of_nat n <= NQUBITS -> (t0 < n)%nat -> (t1 < n)%nat -> t0 <> t1 -> csorted ctl ->
  (forall x, In x ctl -> 0 <= fst x) ->
  (forall x, In x ctl -> fst x <> Z.of_nat t0) -> (forall x, In x ctl -> fst x <> Z.of_nat t1) ->
  (1 <= B)%R -> (forall i j, Cmod (cv (g i j)) <= B)%R ->
  (forall e s', rel s s' -> dn KM n (opF n [Nat.max t0 t1; Nat.min t0 t1] (g2F t1 t0 (fun i j => cv (g i j))) (RtoC 1) ctl) (egate n B) e s' -> Q e s') ->
  wpr (makeTwoQubitGate (Z.of_nat n) g (Z.of_nat t0) (Z.of_nat t1) ctl) Q s.
Proof.
  intros HI Hn Ht0 Ht1 Hne Hs H0 Hnt0 Hnt1 HB Hg HQ. unfold makeTwoQubitGate.
  rewrite <- Nat2Z.inj_min, <- Nat2Z.inj_max. rewrite Nat2Z.id.
  set (lo := Nat.min t0 t1) in *. set (hi := Nat.max t0 t1) in *.
  assert (Hlh : (lo < hi)%nat) by lia. assert (Hhn : (hi < n)%nat) by lia.
  assert (Hnlo : forall x, In x ctl -> fst x <> Z.of_nat lo).
  { intros x Hx. destruct (Nat.min_spec t0 t1) as [[_ h]|[_ h]]; unfold lo; rewrite h; auto. }
  assert (Hnhi : forall x, In x ctl -> fst x <> Z.of_nat hi).
  { intros x Hx. destruct (Nat.max_spec t0 t1) as [[_ h]|[_ h]]; unfold hi; rewrite h; auto. }
  rewrite <- (from_0 ctl H0) at 1. change 0 with (Z.of_nat 0) at 1.
  refine (wpr_low_loop B [] ctl (G16 (fun i j => cv (g i j))) Q Hs HB _ lo 0 _ s _ HI _ _ _ _).
  - intros dg Hin. unfold G16 in Hin. apply in_map_iff in Hin as (ij & <- & _). intros; cbn; auto.
  - cbn. lia.
  - intros l [].
  - unfold G16, blockF, Den. rewrite map_map. clear - H0. induction idx16 as [|ij l IH]; cbn [map]; constructor; auto.
    cbn [fst snd]. split; auto. now apply dn_leaf.
  - cbn [Nat.add]. intros es s1 Hr1 HD. pose proof (rel_inv _ _ Hr1) as HI1.
    assert (Hpk : forall a b, (a < 4)%nat -> (b < 4)%nat ->
      dn KM lo (opF lo [] (fun _ _ => cv (g a b)) (flagC (Nat.eqb a b)) ctl) (egate lo B) (eat es (4 * a + b)) s1).
    { intros a b Ha Hb. eapply (Den_nth lo B s1 es _ (4 * a + b) (Nat.eqb a b)); [exact HD|].
      unfold blockF. rewrite nth_error_map, (G16_nth (fun i j => cv (g i j)) a b) by auto. reflexivity. }
    (* the entry picked for block (b1,b0), position (i,j) *)
    set (pos := fun (b i : nat) => if Z.of_nat t1 <? Z.of_nat t0 then (b * 2 + i)%nat else (i * 2 + b)%nat).
    assert (Hpos : forall b i, (b < 2)%nat -> (i < 2)%nat -> (pos b i < 4)%nat) by (intros; unfold pos; destruct (_ <? _); lia).
    assert (Hpe : forall b1 b0 i j, (b1 < 2)%nat -> (b0 < 2)%nat -> (i < 2)%nat -> (j < 2)%nat ->
       Nat.eqb (pos b1 i) (pos b0 j) = (Nat.eqb b1 b0 && Nat.eqb i j)%bool).
    { intros. unfold pos. apply eq_true_iff_eq. rewrite andb_true_iff, !Nat.eqb_eq. destruct (_ <? _); lia. }
    set (pick := fun b1 b0 i j : nat => if Z.of_nat t1 <? Z.of_nat t0
      then eat es (4 * (b1 * 2 + i) + (b0 * 2 + j)) else eat es (4 * (i * 2 + b1) + (j * 2 + b0))).
    set (GG := fun b1 b0 : nat => selG lo (fun i j _ _ => cv (g (pos b1 i) (pos b0 j)))).
    assert (HGG : forall b1 b0 r c, (Cmod (GG b1 b0 r c) <= B)%R).
    { intros. unfold GG, selG. destruct (_ && _)%bool; auto. rewrite Cmod_0. lra. }
    assert (Hsub : forall b1 b0 s2 (Q' : post), (b1 < 2)%nat -> (b0 < 2)%nat -> rel s1 s2 ->
      (forall e s3, rel s2 s3 -> dn KM (S lo) (opF (S lo) [lo] (GG b1 b0) (flagC (Nat.eqb b1 b0)) ctl) (egate (S lo) B) e s3 -> Q' e s3) ->
      wpr (makeMEdge (Z.of_nat lo) (pick b1 b0 0%nat 0%nat) (pick b1 b0 0%nat 1%nat) (pick b1 b0 1%nat 0%nat) (pick b1 b0 1%nat 1%nat)) Q' s2).
    { intros b1 b0 s2 Q' Hb1 Hb0 Hr2 HQ'. pose proof (rel_inv _ _ Hr2) as HI2.
      assert (Hp : forall i j, (i < 2)%nat -> (j < 2)%nat ->
        dn KM lo (opF lo [] (fun _ _ => cv (g (pos b1 i) (pos b0 j))) (flagC (Nat.eqb b1 b0 && Nat.eqb i j)) ctl) (egate lo B) (pick b1 b0 i j) s2).
      { intros i j Hi Hj. apply (dn_stable _ _ _ _ _ _ _ HI1 Hr2). rewrite <- Hpe by auto.
        replace (pick b1 b0 i j) with (eat es (4 * pos b1 i + pos b0 j)); [apply Hpk; auto|].
        unfold pick, pos. now destruct (_ <? _). }
      eapply (wpr_mk4 B lo s2 _ _ _ _ _ _ _ _ _ HI2);
        [lia|lra|apply Hp; lia|apply Hp; lia|apply Hp; lia|apply Hp; lia|..].
      - intros ix; opb.
      - intros ix; opb.
      - intros ix; opb.
      - intros ix; opb.
      - intros e s3 Hr3 De. apply HQ'; auto. eapply dnt_F; [|exact De]. intros ix.
        cbn [Nat.eqb]. rewrite andb_true_r, andb_false_r.
        apply (join_opF lo [] (fun i j _ _ => cv (g (pos b1 i) (pos b0 j))) _ ctl ix Hs). now apply ctl_at_none. }
    apply wpr_bind; auto. apply (Hsub 0%nat 0%nat); [lia|lia|now apply rel_refl|]. intros e0 s2 Hr2 D0.
    apply wpr_bind; [apply (rel_inv _ _ Hr2)|].
    apply (Hsub 0%nat 1%nat); [lia|lia|auto|]. intros e1 s3 Hr3 D1.
    assert (Hr13 : rel s1 s3) by (eapply rel_trans; eauto).
    apply wpr_bind; [apply (rel_inv _ _ Hr3)|].
    apply (Hsub 1%nat 0%nat); [lia|lia|auto|]. intros e2 s4 Hr4 D2.
    assert (Hr14 : rel s1 s4) by (eapply rel_trans; eauto).
    apply wpr_bind; [apply (rel_inv _ _ Hr4)|].
    apply (Hsub 1%nat 1%nat); [lia|lia|auto|]. intros e3 s5 Hr5 D3.
    assert (Hr15 : rel s1 s5) by (eapply rel_trans; eauto).
    pose proof (rel_inv _ _ Hr2) as HI2. pose proof (rel_inv _ _ Hr3) as HI3.
    pose proof (rel_inv _ _ Hr4) as HI4. pose proof (rel_inv _ _ Hr5) as HI5.
    pose proof (dn_stable _ _ _ _ _ _ _ HI4 Hr5 D2) as D2'.
    pose proof (dn_stable _ _ _ _ _ _ _ HI4 Hr5 (dn_stable _ _ _ _ _ _ _ HI3 Hr4 D1)) as D1'.
    pose proof (dn_stable _ _ _ _ _ _ _ HI4 Hr5 (dn_stable _ _ _ _ _ _ _ HI3 Hr4 (dn_stable _ _ _ _ _ _ _ HI2 Hr3 D0))) as D0'.
    rewrite (from_none lo ctl Hs Hnlo). replace (Z.of_nat lo + 1) with (Z.of_nat (S lo)) by lia.
    replace (Z.to_nat (Z.of_nat hi - Z.of_nat (S lo))) with (hi - S lo)%nat by lia.
    set (G4 := [(true, GG 0%nat 0%nat); (false, GG 0%nat 1%nat); (false, GG 1%nat 0%nat); (true, GG 1%nat 1%nat)]).
    refine (wpr_low_loop B [lo] ctl G4 Q Hs HB _ (hi - S lo) (S lo) _ s5 _ HI5 _ _ _ _).
    + intros dg Hin. cbn in Hin. destruct Hin as [<-|[<-|[<-|[<-|[]]]]]; cbn [snd]; auto.
    + lia.
    + intros l [<-|[]]. lia.
    + unfold G4, blockF, Den. cbn [map fst snd].
      constructor; [split; [reflexivity|exact D0']|]. constructor; [split; [reflexivity|exact D1']|].
      constructor; [split; [reflexivity|exact D2']|]. constructor; [split; [reflexivity|exact D3]|]. constructor.
    + replace (S lo + (hi - S lo))%nat with hi by lia. intros es2 s6 Hr6 HD2. pose proof (rel_inv _ _ Hr6) as HI6.
      apply wpr_bind; auto.
      eapply (wpr_mk4 B hi s6 _ _ _ _ _ _ _ _ _ HI6); [lia|lra| | | | |..].
      1:{ eapply (Den_nth _ _ _ _ _ 0%nat _ _ HD2). reflexivity. }
      1:{ eapply (Den_nth _ _ _ _ _ 1%nat _ _ HD2). reflexivity. }
      1:{ eapply (Den_nth _ _ _ _ _ 2%nat _ _ HD2). reflexivity. }
      1:{ eapply (Den_nth _ _ _ _ _ 3%nat _ _ HD2). reflexivity. }
      1:{ intros ix; opb. }
      1:{ intros ix; opb. }
      1:{ intros ix; opb. }
      1:{ intros ix; opb. }
      intros e s7 Hr7 De. pose proof (rel_inv _ _ Hr7) as HI7.
      rewrite (from_none hi ctl Hs Hnhi). replace (Z.of_nat hi + 1) with (Z.of_nat (S hi)) by lia.
      replace (Z.to_nat (Z.of_nat n - Z.of_nat (S hi))) with (n - S hi)%nat by lia.
      assert (Hsel : forall r c, selG hi GG r c = g2F t1 t0 (fun i j => cv (g i j)) r c).
      { intros r c. unfold selG, GG, selG, g2F, pos. unfold hi, lo. destruct (Z.ltb_spec (Z.of_nat t1) (Z.of_nat t0)).
        - rewrite Nat.max_l, Nat.min_r by lia.
          destruct (r t0 <? 2)%nat, (c t0 <? 2)%nat, (r t1 <? 2)%nat, (c t1 <? 2)%nat; cbn [andb]; auto.
          do 2 f_equal; lia.
        - rewrite Nat.max_r, Nat.min_l by lia.
          destruct (r t0 <? 2)%nat, (c t0 <? 2)%nat, (r t1 <? 2)%nat, (c t1 <? 2)%nat; cbn [andb]; auto.
          do 2 f_equal; lia. }
      refine (wpr_high_loop B [hi; lo] ctl (g2F t1 t0 (fun i j => cv (g i j))) Q Hs HB _ _ _ _ _ HI7 _ _ _ _).
      * intros r c. unfold g2F. destruct (_ && _)%bool; auto. rewrite Cmod_0. lra.
      * lia.
      * intros l [<-|[<-|[]]]; lia.
      * eapply dnt_F; [|exact De]. intros ix. cbn [flagC].
        etransitivity; [exact (join_opF hi [lo] GG (RtoC 1) ctl ix Hs (proj2 (ctl_at_none _ _) Hnhi))|].
        unfold opF. now rewrite Hsel.
      * intros e' s8 Hr8 De'. replace (S hi + (n - S hi))%nat with n in De' by lia. apply HQ; auto.
        repeat (eapply rel_trans; [eassumption|]). now apply rel_refl, (rel_inv _ _ Hr8).
Qed.
End FpGate.
