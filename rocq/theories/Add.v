(* Add.v -- vv_add2 / vv_add compute vector addition. *)
From Coq Require Import Reals Lra Psatz ZArith Bool List Lia.
From Coquelicot Require Import Complex.
From Verif Require Import Num State DD RNum Wf Sums Err Inv Wp Make.
Import ListNotations.
Open Scope Z_scope.

Section Add.
Context (tau : R) {HTol : Tol tau}.
Let Htau : (0 <= tau < 1 / 2)%R := tol_ok.
#[local] Hint Extern 0 NumOps => exact (RNum tau) : typeclass_instances.
Context {CF : Cfg}.
Notation table := (@table (RNum tau)).
Notation state := (@state (RNum tau)).
Notation edge := (@edge (RNum tau)).
Notation node := (@node (RNum tau)).
Notation val := (val tau).
Notation valp := (valp tau).
Notation wfe := (wfe tau).
Notation wfp := (wfp tau).
Notation reg := (reg tau).
Notation TInv := (TInv tau).
Notation Inv := (Inv tau).
Notation rel := (rel tau).
Notation eps := (eps tau).
Notation dn := (dn tau).
Notation E := (@E (RNum tau)).

(* the root weight is attained *)
Lemma val_max k t n e : TInv k t -> wfe k t n e ->
  exists ix, (forall l, (ix l < arity k)%nat) /\ Cmod (val k t n e ix) = Cmod (ew e).
Proof.
  intros HT [H|[H1 H2]].
  - destruct (valp_max tau k t HT n (en e) H) as (ix & Hix & Hm). exists ix. split; auto.
    unfold Wf.val. rewrite Cmod_mult, Hm. lra.
  - exists (fun _ => 0%nat). split; [destruct k; cbn; lia|]. rewrite (val_zw tau) by auto.
    rewrite H1. reflexivity.
Qed.
Lemma dnt_wbound k t n e F err B : TInv k t -> dnt tau k t n e F err ->
  (forall ix, Cmod (F ix) <= B)%R -> (Cmod (ew e) <= B + err)%R.
Proof.
  intros HT [Hw Hd] HB. destruct (val_max k t n e HT Hw) as (ix & _ & <-).
  replace (val k t n e ix) with (Cplus (F ix) (Cminus (val k t n e ix) (F ix))) by ring.
  eapply Rle_trans; [apply Cmod_triangle|]. specialize (HB ix); specialize (Hd ix). lra.
Qed.

(* a non-zero vector edge at level S m is a node at level m *)
Lemma wfe_KV_node t m e : wfe KV t (S m) e -> iszero (ew e) = false ->
  exists a nd, en e = Node a /\ reg KV t a nd /\ nv nd = Z.of_nat m.
Proof.
  intros H Hz. apply wfe_nz in H; auto.
  intros H0. rewrite (iszero_0 tau _ (proj1 Htau) H0) in Hz. discriminate.
Qed.
Lemma edge_eqb_val k t n (a b : edge) ix : TInv k t -> wfe k t n a -> edge_eqb a b = true ->
  (Cmod (Cminus (val k t n a ix) (val k t n b ix)) <= eps)%R.
Proof.
  intros HT Hw H. apply andb_prop in H as [H1 H2]. apply isequal_true in H1; [|lra].
  apply ptr_eqb_eq in H2. unfold Wf.val. rewrite <- H2.
  replace (Cminus (Cmult (ew a) (valp k t n (en a) ix)) (Cmult (ew b) (valp k t n (en a) ix)))
    with (Cmult (Cminus (ew a) (ew b)) (valp k t n (en a) ix)) by ring.
  rewrite Cmod_mult.
  assert (Cmod (valp k t n (en a) ix) <= 1)%R.
  { apply (valp_le1 tau); auto. destruct Hw as [|[_ ?]]; auto. }
  pose proof (Cmod_ge_0 (Cminus (ew a) (ew b))). pose proof (Cmod_ge_0 (valp k t n (en a) ix)).
  unfold Err.eps. nra.
Qed.
Lemma edge_eqb_mod (a b : edge) : edge_eqb a b = true -> (Cmod (ew a) <= Cmod (ew b) + eps)%R.
Proof.
  intros H. apply andb_prop in H as [H1 _]. apply isequal_true in H1; [|lra].
  replace (ew a : C) with (Cplus (ew b) (Cminus (ew a) (ew b))) by ring.
  eapply Rle_trans; [apply Cmod_triangle|]. unfold Err.eps. lra.
Qed.

(* replacing a tiny result by the zero edge *)
Lemma dn_snap k n F err e s : Inv s -> dn k n F err e s -> (0 <= err)%R ->
  dn k n F (err + eps) (if iszero (ew e) then zeroE else e) s.
Proof.
  intros HI [Hw Hd] Herr. pose proof (eps_pos tau) as He. destruct (iszero (ew e)) eqn:Hz.
  - apply iszero_true in Hz. split; [apply wfe_zero|]. intros ix. rewrite val_zeroE.
    replace (Cminus (RtoC 0) (F ix)) with
      (Cplus (Cminus (val k (tb s k) n e ix) (F ix)) (Copp (val k (tb s k) n e ix))) by ring.
    eapply Rle_trans; [apply Cmod_triangle|]. rewrite Cmod_opp.
    assert (Cmod (val k (tb s k) n e ix) <= Cmod (ew e))%R by (apply (val_le tau); auto; apply HI).
    specialize (Hd ix). unfold Err.eps. lra.
  - split; auto. intros ix. specialize (Hd ix). lra.
Qed.

(* the restricted operands *)
Lemma vchild_spec t m e a nd i F : TInv KV t -> en e = Node a -> reg KV t a nd -> nv nd = Z.of_nat m ->
  (i < 2)%nat ->
  (forall ix, val KV t (S m) e ix = F ix) ->
  let x := vchild (Z.of_nat m) e nd i in
  wfe KV t m x /\ (forall ix, val KV t m x ix = F (ixset ix m i)) /\ (Cmod (ew x) <= Cmod (ew e))%R.
Proof.
  intros HT Hen Hr Hv Hi HF. unfold vchild. rewrite Hv, Z.eqb_refl, Hen. cbn [is_term negb andb].
  pose proof (reg_ok tau KV _ _ _ HT Hr) as Hok. pose proof (no_len _ _ _ _ Hok) as Hlen. cbn in Hlen.
  rewrite (nth_indep (nch nd) nullE zeroE) by (rewrite Hlen; lia).
  set (c := nth i (nch nd) zeroE).
  assert (Hc : wfe KV t m c).
  { pose proof (reg_child tau KV t a nd i HT Hr) as H. rewrite Hv, Nat2Z.id in H. exact H. }
  split; [now apply wfe_scale|]. split.
  - intros ix. rewrite <- HF. unfold Wf.val. cbn [ew en]. rewrite Hen.
    rewrite (valp_S_node tau KV t m a nd) by auto. rewrite ixset_same. fold c. unfold Wf.val.
    rewrite (valp_local tau KV t m (en c) (ixset ix m i) ix).
    + rewrite cmul_C. ring.
    + intros l Hl. apply ixset_other. lia.
  - cbn [ew]. rewrite cmul_C, Cmod_mult.
    pose proof (reg_child_le1 tau KV t a nd i HT Hr) as H. fold c in H.
    pose proof (Cmod_ge_0 (ew e)). pose proof (Cmod_ge_0 (ew c)). nra.
Qed.

(* a function that denotes an edge only looks at the levels below n *)
Lemma F_local k t n e F : (forall ix, val k t n e ix = F ix) ->
  forall f g, (forall l, (l < n)%nat -> f l = g l) -> F f = F g.
Proof. intros H f g Hfg. rewrite <- !H. now apply val_local. Qed.
Lemma F_ixset k t n e F m ix i : (forall ix, val k t n e ix = F ix) -> ix m = i -> F (ixset ix m i) = F ix.
Proof.
  intros H Hi. apply (F_local k t n e F H). intros l _. unfold ixset. destruct (Nat.eqb_spec l m); congruence.
Qed.

Theorem wpr_vv_add2 lim n : forall s l r F G,
  Inv s -> Z.of_nat n <= NQUBITS -> wfe KV (tb s KV) n l -> wfe KV (tb s KV) n r ->
  (forall ix, val KV (tb s KV) n l ix = F ix) -> (forall ix, val KV (tb s KV) n r ix = G ix) ->
  wpr tau (vv_add2 lim n l r)
    (dn KV n (fun ix => Cplus (F ix) (G ix)) (eadd tau n (Cmod (ew l) + Cmod (ew r)))) s.
Proof.
  pose proof (eps_pos tau) as Heps.
  induction n as [|m IH]; intros s l r F G HI Hn Hl Hr HF HG;
    pose proof (Cmod_ge_0 (ew l)) as Hl0; pose proof (Cmod_ge_0 (ew r)) as Hr0;
    set (S0 := (Cmod (ew l) + Cmod (ew r))%R);
    assert (HS0 : (0 <= S0)%R) by (unfold S0; lra);
    pose proof (fun n => eadd_ge2 tau n S0 HS0) as Hge.
  (* zero operands, both levels *)
  all: match goal with |- wpr _ (vv_add2 _ ?nn _ _) _ _ => set (LN := nn) in * end.
  all: assert (HTV : TInv KV (tb s KV)) by apply HI.
  all: assert (HFl : forall ix, (Cmod (F ix) <= Cmod (ew l))%R)
    by (intros ix; rewrite <- HF; apply (val_le tau); auto).
  all: assert (HGr : forall ix, (Cmod (G ix) <= Cmod (ew r))%R)
    by (intros ix; rewrite <- HG; apply (val_le tau); auto).
  all: assert (Hboth : iszero (ew l) = true -> iszero (ew r) = true ->
         wpr tau (CRet zeroE) (dn KV LN (fun ix => Cplus (F ix) (G ix)) (eadd tau LN S0)) s).
  1,3: intros Hzl Hzr; apply (wpr_ret tau); intros s' Hr'; eapply (dn_stable tau); eauto; split; [apply wfe_zero|];
       intros ix; rewrite val_zeroE; rewrite <- Cmod_opp;
       replace (Copp (Cminus (RtoC 0) (Cplus (F ix) (G ix)))) with (Cplus (F ix) (G ix)) by ring;
       eapply Rle_trans; [apply Cmod_triangle|]; apply iszero_true in Hzl, Hzr;
       specialize (HFl ix); specialize (HGr ix); specialize (Hge LN); unfold Err.eps in Hge |- *; lra.
  all: assert (Hleft : iszero (ew l) = true ->
         wpr tau (CRet r) (dn KV LN (fun ix => Cplus (F ix) (G ix)) (eadd tau LN S0)) s).
  1,3: intros Hzl; apply (wpr_ret tau); intros s' Hr'; eapply (dn_stable tau); eauto; split; [auto|];
       intros ix; rewrite HG; rewrite <- Cmod_opp;
       replace (Copp (Cminus (G ix) (Cplus (F ix) (G ix)))) with (F ix) by ring;
       apply iszero_true in Hzl; specialize (HFl ix); specialize (Hge LN); unfold Err.eps in Hge |- *; lra.
  all: assert (Hright : iszero (ew r) = true ->
         wpr tau (CRet l) (dn KV LN (fun ix => Cplus (F ix) (G ix)) (eadd tau LN S0)) s).
  1,3: intros Hzr; apply (wpr_ret tau); intros s' Hr'; eapply (dn_stable tau); eauto; split; [auto|];
       intros ix; rewrite HF; rewrite <- Cmod_opp;
       replace (Copp (Cminus (F ix) (Cplus (F ix) (G ix)))) with (G ix) by ring;
       apply iszero_true in Hzr; specialize (HGr ix); specialize (Hge LN); unfold Err.eps in Hge |- *; lra.
  all: subst LN; cbn [vv_add2];
       destruct (iszero (ew l)) eqn:Hzl; [destruct (iszero (ew r)) eqn:Hzr; auto|];
       destruct (iszero (ew r)) eqn:Hzr; auto.
  (* two terminals *)
  - apply wfe_nz in Hl; [|intros h; rewrite (iszero_0 tau _ (proj1 Htau) h) in Hzl; discriminate].
    apply wfe_nz in Hr; [|intros h; rewrite (iszero_0 tau _ (proj1 Htau) h) in Hzr; discriminate].
    cbn in Hl, Hr. rewrite Hl, Hr. cbn [is_term andb].
    apply (wpr_ret tau); intros s' Hr'; eapply (dn_stable tau); eauto.
    apply (dnt_weaken tau) with (err := 0%R); [now apply (eadd_pos tau)|].
    apply (dnt_of_exact tau); [now left|]. intros ix. rewrite <- HF, <- HG. unfold Wf.val. cbn.
    rewrite cadd_C. ring.
  (* the general case *)
  - destruct (wfe_KV_node _ _ _ Hl Hzl) as (la & lnd & Hel & Hrl & Hvl).
    destruct (wfe_KV_node _ _ _ Hr Hzr) as (ra & rnd & Her & Hrr & Hvr).
    destruct (ptr_eqb (en l) (en r)) eqn:Heq.
    { apply ptr_eqb_eq in Heq. apply (wpr_ret tau); intros s' Hr'; eapply (dn_stable tau); eauto.
      apply (dnt_weaken tau) with (err := 0%R); [now apply (eadd_pos tau)|].
      apply (dnt_of_exact tau).
      - left. cbn [en]. rewrite Hel. exists la, lnd; auto.
      - intros ix. rewrite <- HF, <- HG. unfold Wf.val. cbn [ew en]. rewrite <- Heq, cadd_C. ring. }
    assert (Hm : Z.of_nat m < NQUBITS) by lia.
    (* the freshly computed result *)
    assert (Hcompute : forall s1, rel s s1 ->
      wpr tau (CRead KV (en l) (fun ln => CRead KV (en r) (fun rn =>
                fork2 lim (Z.of_nat m)
                  (vv_add2 lim m (vchild (Z.of_nat m) l ln 0) (vchild (Z.of_nat m) r rn 0))
                  (vv_add2 lim m (vchild (Z.of_nat m) l ln 1) (vchild (Z.of_nat m) r rn 1))
                  (fun e0 e1 => bind (makeVEdge (Z.of_nat m) e0 e1) (fun res => CASet KV l r res (CRet res))))))
        (dn KV (S m) (fun ix => Cplus (F ix) (G ix)) (ecomp tau m S0)) s1).
    { intros s1 Hr1. pose proof (rel_inv _ _ _ Hr1) as HI1.
      assert (He1 : ext tau KV (tb s KV) (tb s1 KV)) by apply (rel_ext _ _ _ KV Hr1).
      pose proof (He1 _ _ Hrl) as Hrl1. pose proof (He1 _ _ Hrr) as Hrr1.
      rewrite Hel, Her. apply (wpr_read tau) with (nd := lnd); auto. apply (wpr_read tau) with (nd := rnd); auto.
      assert (HF1 : forall ix, val KV (tb s1 KV) (S m) l ix = F ix)
        by (intros; rewrite (val_ext tau KV (tb s KV)); auto).
      assert (HG1 : forall ix, val KV (tb s1 KV) (S m) r ix = G ix)
        by (intros; rewrite (val_ext tau KV (tb s KV)); auto).
      assert (HT1 : TInv KV (tb s1 KV)) by apply HI1.
      set (T := fun i ix => Cplus (F (ixset ix m i)) (G (ixset ix m i))).
      assert (Hsub : forall i, (i < 2)%nat ->
        wpr tau (vv_add2 lim m (vchild (Z.of_nat m) l lnd i) (vchild (Z.of_nat m) r rnd i))
            (dn KV m (T i) (eadd tau m S0)) s1).
      { intros i Hi.
        destruct (vchild_spec _ m l la lnd i F HT1 Hel Hrl1 Hvl Hi HF1) as (Hw1 & Hv1 & Hm1).
        destruct (vchild_spec _ m r ra rnd i G HT1 Her Hrr1 Hvr Hi HG1) as (Hw2 & Hv2 & Hm2).
        eapply (wpr_mono tau); [auto| |apply (IH s1 _ _ (fun ix => F (ixset ix m i)) (fun ix => G (ixset ix m i))); auto; lia].
        intros e s2 _ Hd. eapply (dnt_weaken tau); [|exact Hd]. apply (eadd_mono tau); auto.
        pose proof (Cmod_ge_0 (ew (vchild (Z.of_nat m) l lnd i))).
        pose proof (Cmod_ge_0 (ew (vchild (Z.of_nat m) r rnd i))). unfold S0. lra. }
      eapply (wpr_fork2 tau); [auto|apply (dn_stable tau)|apply (dn_stable tau)|apply (Hsub 0%nat); lia|apply (Hsub 1%nat); lia|].
      intros e0 e1 s2 Hr2 Hd0 Hd1. pose proof (rel_inv _ _ _ Hr2) as HI2.
      assert (HT2 : TInv KV (tb s2 KV)) by apply HI2.
      assert (HTb : forall i ix, (Cmod (T i ix) <= S0)%R).
      { intros i ix. unfold T. eapply Rle_trans; [apply Cmod_triangle|]. unfold S0.
        specialize (HFl (ixset ix m i)). specialize (HGr (ixset ix m i)). lra. }
      pose proof (dnt_wbound _ _ _ _ _ _ _ HT2 Hd0 (HTb 0%nat)) as HW0.
      pose proof (dnt_wbound _ _ _ _ _ _ _ HT2 Hd1 (HTb 1%nat)) as HW1.
      apply (wpr_bind tau); auto.
      eapply (wpr_mono tau); [auto| |apply (wpr_makeVEdge tau m s2 e0 e1
         (val KV (tb s2 KV) m e0) (val KV (tb s2 KV) m e1) (S0 + eadd tau m S0)); auto; [apply Hd0|apply Hd1]].
      intros res s3 Hr3 Hres. pose proof (rel_inv _ _ _ Hr3) as HI3.
      assert (Hfin : dn KV (S m) (fun ix => Cplus (F ix) (G ix)) (ecomp tau m S0) res s3).
      { unfold ecomp. rewrite Rplus_comm. eapply (dnt_err tau); [|exact Hres].
        intros ix. unfold ch_F. cbn [map]. pose proof (eadd_pos tau m S0 HS0) as Hep.
        assert (HT' : forall i, ix m = i -> T i ix = Cplus (F ix) (G ix)).
        { intros i Hi. unfold T. f_equal.
          - eapply F_ixset; eauto.
          - eapply F_ixset; eauto. }
        destruct (ix m) as [|[|i]] eqn:Hix; cbn [nth].
        - rewrite <- (HT' 0%nat) by auto. apply Hd0.
        - rewrite <- (HT' 1%nat) by auto. apply Hd1.
        - (* no such child: both sides are 0 *)
          assert (Hz : forall e a nd H, en e = Node a -> reg KV (tb s KV) a nd -> nv nd = Z.of_nat m ->
                    (forall ix, val KV (tb s KV) (S m) e ix = H ix) -> H ix = RtoC 0).
          { intros e a nd H Ha Hb Hc Hd. rewrite <- Hd. unfold Wf.val. rewrite Ha.
            rewrite (valp_S_node tau KV (tb s KV) m a nd) by auto. rewrite Hix.
            assert (Hlen : length (nch nd) = 2%nat) by (apply (no_len tau KV (tb s KV)); eapply reg_ok; eauto).
            rewrite nth_overflow by lia. rewrite val_zeroE. ring. }
          rewrite (Hz l la lnd F), (Hz r ra rnd G) by auto.
          destruct i; cbn [nth]; replace (Cminus (RtoC 0) (Cplus (RtoC 0) (RtoC 0))) with (RtoC 0) by ring;
            rewrite Cmod_0; lra. }
      intros s4 Hr4 i. pose proof (rel_inv _ _ _ Hr4) as HI4.
      assert (Hr04 : rel s s4) by (repeat (eapply rel_trans; eauto)).
      assert (He4 : ext tau KV (tb s KV) (tb s4 KV)) by apply (rel_ext _ _ _ KV Hr04).
      assert (Hgv : forall a nd, reg KV (tb s KV) a nd -> getVar KV (Node a) s4 = Some (nv nd)).
      { intros a nd Ha. unfold getVar. rewrite (readn_reg tau KV s4 a nd); auto. }
      assert (Ho : aorder KV l r s4 = Some (Z.of_nat m, l, r)).
      { unfold aorder. rewrite Hel, Her, (Hgv la lnd), (Hgv ra rnd), Hvl, Hvr, Z.ltb_irrefl by auto. reflexivity. }
      assert (Hfin4 : dn KV (S m) (fun ix => Cplus (F ix) (G ix)) (ecomp tau m S0) res s4)
        by exact (dn_stable tau _ _ _ _ _ _ _ HI3 Hr4 Hfin).
      destruct (aset_spec tau KV i l r res s4 (Z.of_nat m) l r HI4 Ho) as (s5 & Hs5 & Hr5).
      { apply level_ok_true. lia. }
      { exists m. cbn [a_l a_r a_res].
        split; [rewrite Hel; exists la, lnd; auto|]. split; [rewrite Her; exists ra, rnd; auto|].
        eapply (dnt_F tau); [|exact Hfin4]. intros ix. cbn. rewrite <- HF, <- HG.
        rewrite !(val_ext tau KV (tb s KV) (tb s4 KV)); auto. }
      exists s5. split; auto. split; auto. apply (wpr_ret tau). intros s6 Hr6.
      eapply (dn_stable tau); [exact HI4| |exact Hfin4]. eapply rel_trans; eauto. }
    intros s1 Hr1 i. pose proof (rel_inv _ _ _ Hr1) as HI1.
    assert (He1 : ext tau KV (tb s KV) (tb s1 KV)) by apply (rel_ext _ _ _ KV Hr1).
    assert (Hl1 : wfe KV (tb s1 KV) (S m) l) by (eapply (wfe_ext tau); eauto).
    assert (Hr1' : wfe KV (tb s1 KV) (S m) r) by (eapply (wfe_ext tau); eauto).
    destruct (afind_spec tau KV i l r s1 m HI1 Hl1 Hr1' (or_introl (ex_intro _ la Hel)) Hm)
      as (res & Hfind & Hcase).
    exists res. split; auto.
    assert (Hle : (ecomp tau m S0 <= eadd tau (S m) S0)%R).
    { rewrite eadd_S. pose proof (ecomp_mono tau m S0 (S0 + 2 * eps) ltac:(lra)). lra. }
    destruct Hcase as [->|(lv & e & a & b & Ho & Hent & Hres & Ha & Hb)].
    { cbn [en nullE is_null negb]. eapply (wpr_mono tau); [auto| |apply Hcompute; auto].
      intros e s2 _ Hd. eapply (dnt_weaken tau); eauto. }
    (* a hit *)
    destruct Hent as (m' & Hwl & Hwr & Hd). rewrite Hres in Hd.
    assert (HT1 : TInv KV (tb s1 KV)) by apply HI1.
    assert (Hnn : negb (is_null (en res)) = true).
    { destruct (wfe_getVar tau KV s1 (S m') res HI1) as (v & _ & _ & Hnn); [apply Hd|].
      destruct (en res); congruence || auto. }
    rewrite Hnn.
    assert (Hmm : m' = m /\ wfe KV (tb s1 KV) (S m) (a_l e) /\ wfe KV (tb s1 KV) (S m) (a_r e)).
    { assert (Hp : en (a_l e) = en l \/ en (a_l e) = en r).
      { apply andb_prop in Ha as [_ Ha]. apply ptr_eqb_eq in Ha.
        destruct (aorder_cases tau _ _ _ _ _ _ _ Ho) as [(-> & _)|(-> & _)]; auto. }
      destruct Hwl as (a1 & nd1 & Hw1 & Hw2 & Hw3).
      assert (m' = m).
      { destruct Hp as [Hp|Hp]; rewrite Hp in Hw1.
        - rewrite Hel in Hw1. injection Hw1 as <-. pose proof (reg_fun tau _ _ _ _ _ Hw2 (He1 _ _ Hrl)). subst. lia.
        - rewrite Her in Hw1. injection Hw1 as <-. pose proof (reg_fun tau _ _ _ _ _ Hw2 (He1 _ _ Hrr)). subst. lia. }
      subst m'. split; auto. split; left; auto. exists a1, nd1; auto. }
    destruct Hmm as (-> & Hwal & Hwar).
    apply (wpr_ret tau). intros s2 Hr2. eapply (dn_stable tau); [exact HI1|exact Hr2|].
    pose proof (edge_eqb_mod _ _ Ha) as Hma. pose proof (edge_eqb_mod _ _ Hb) as Hmb.
    assert (Hsum : (Cmod (ew a) + Cmod (ew b) = S0)%R).
    { unfold S0. destruct (aorder_cases tau _ _ _ _ _ _ _ Ho) as [(-> & -> & _)|(-> & -> & _)]; lra. }
    rewrite eadd_S.
    replace (ecomp tau m (S0 + 2 * eps) + 3 * eps)%R with ((ecomp tau m (S0 + 2 * eps) + 2 * eps) + eps)%R by ring.
    pose proof (ecomp_pos tau m (S0 + 2 * eps) ltac:(lra)) as Hpos.
    apply dn_snap; auto; [|lra].
    eapply (dnt_err tau); [|eapply (dnt_weaken tau); [|exact Hd]].
    + intros ix. cbn.
      pose proof (edge_eqb_val KV (tb s1 KV) (S m) (a_l e) a ix HT1 Hwal Ha) as h1.
      pose proof (edge_eqb_val KV (tb s1 KV) (S m) (a_r e) b ix HT1 Hwar Hb) as h2.
      assert (Hab : Cplus (F ix) (G ix) = Cplus (val KV (tb s1 KV) (S m) a ix) (val KV (tb s1 KV) (S m) b ix)).
      { rewrite <- HF, <- HG.
        destruct (aorder_cases tau _ _ _ _ _ _ _ Ho) as [(-> & -> & _)|(-> & -> & _)];
          rewrite !(val_ext tau KV (tb s KV) (tb s1 KV)) by auto; ring. }
      rewrite Hab.
      match goal with |- (Cmod (Cminus (Cplus ?x ?y) (Cplus ?u ?v)) <= _)%R =>
        replace (Cminus (Cplus x y) (Cplus u v)) with (Cplus (Cminus x u) (Cminus y v)) by ring end.
      eapply Rle_trans; [apply Cmod_triangle|]. lra.
    + apply (ecomp_mono tau); auto. pose proof (Cmod_ge_0 (ew (a_l e))). pose proof (Cmod_ge_0 (ew (a_r e))). lra.
Qed.

(* vv_add on two states of n qubits.  The operands are API edges: nodes at the
   root level (possibly with weight 0). *)
Theorem wpr_vv_add lim n s l r F G :
  Inv s -> Z.of_nat n <= NQUBITS -> wfp KV (tb s KV) n (en l) -> wfp KV (tb s KV) n (en r) ->
  (forall ix, val KV (tb s KV) n l ix = F ix) -> (forall ix, val KV (tb s KV) n r ix = G ix) ->
  wpr tau (vv_add lim l r)
    (dn KV n (fun ix => Cplus (F ix) (G ix)) (eadd tau n (Cmod (ew l) + Cmod (ew r)))) s.
Proof.
  intros HI Hn Hl Hr HF HG. unfold vv_add.
  destruct n as [|m].
  - cbn in Hl, Hr. rewrite Hl, Hr. cbn [is_term andb].
    apply (wpr_ret tau); intros s' Hr'; eapply (dn_stable tau); eauto.
    apply (dnt_weaken tau) with (err := 0%R).
    { apply (eadd_pos tau); auto. pose proof (Cmod_ge_0 (ew l)). pose proof (Cmod_ge_0 (ew r)). lra. }
    apply (dnt_of_exact tau); [now left|]. intros ix. rewrite <- HF, <- HG. unfold Wf.val. cbn. rewrite cadd_C. ring.
  - destruct Hl as (la & lnd & Hel & Hrl & Hvl). destruct Hr as (ra & rnd & Her & Hrr & Hvr).
    rewrite Hel, Her. cbn [is_term andb]. apply (wpr_read tau) with (nd := rnd); auto.
    rewrite Hvr. replace (Z.to_nat (Z.of_nat m + 1)) with (S m) by lia.
    apply wpr_vv_add2; auto; left; [rewrite Hel; exists la, lnd|rewrite Her; exists ra, rnd]; auto.
Qed.
End Add.
