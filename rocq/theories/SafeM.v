(* SafeM.v -- mm_add, mm_multiply and makeSwap on one thread, over an arbitrary
   arithmetic: they always return, and the result is a well-formed gate.  The
   argument is the one of MMTol.v / MMTol2.v: on an identity level the second
   diagonal block finds what the first one stored. *)
From Coq Require Import ZArith Bool List Lia.
From Verif Require Import Num State DD Gates Measure Wf Wp SafeA SafeW SafeO SafeG.
Import ListNotations.
Open Scope Z_scope.

Section SafeM.
Context {NO : NumOps} {AR : Arith NO} {CF : Cfg}.

Lemma iszero_c0 : iszero c0 = true.
Proof. apply zc_iszero, zc_0. Qed.
Lemma isone_c1 : isone c1 = true.
Proof. apply eq_refl'. Qed.
Lemma iszero_c1 : iszero c1 = false.
Proof. apply one_nz. Qed.
Lemma iszero_isone (w : cx) : iszero w = true -> isone w = true -> False.
Proof. intros H1 H2. apply one_zero in H2. congruence. Qed.
Lemma isequal_refl (w : cx) : isequal w w = true.
Proof. apply eq_refl'. Qed.
Lemma sp0 t p : TInv KM t -> sp KM t 0 p -> p = Term.
Proof.
  intros HT [h|(a & nd & _ & Hr & Hv)]; auto.
  pose proof (no_level _ _ _ (reg_ok KM _ _ _ HT Hr)). lia.
Qed.
Lemma node_low t v n (e : edge) a nd : en e = Node a -> reg KM t a nd -> nv nd = v -> se KM t n e -> v < Z.of_nat n.
Proof.
  intros He Hr Hv Hs. apply se_KM in Hs. destruct Hs as [h|(b & nd' & h & Hr' & Hv')]; [congruence|].
  rewrite He in h. injection h as <-. pose proof (reg_fun _ _ _ _ _ Hr Hr'). subst. exact Hv'.
Qed.
Lemma readp s n p : Inv s -> sp KM (tb s KM) n p -> exists nd, readn KM p s = Some nd /\ -1 <= nv nd < Z.of_nat n /\
  (p = Term -> nv nd = -1) /\ (forall a, p = Node a -> reg KM (tb s KM) a nd /\ 0 <= nv nd).
Proof.
  intros HI [->|(a & nd & -> & Hr & Hv)].
  - eexists. split; [reflexivity|]. cbn. split; [lia|]. split; [auto|discriminate].
  - exists nd. pose proof (no_level _ _ _ (reg_ok KM _ _ _ (inv_tb _ HI KM) Hr)).
    split; [now apply readn_reg|]. split; [lia|]. split; [discriminate|]. intros a' [= <-]. split; [auto|lia].
Qed.
(* an operand restricted at a level above it *)
Lemma mchild_low m (e : edge) (nd : node) i : nv nd <> Z.of_nat m ->
  mchild (Z.of_nat m) e nd i = match i with 1%nat | 2%nat => zeroE | _ => e end.
Proof. intros H. unfold mchild. apply Z.eqb_neq in H. now rewrite H. Qed.
Lemma mchild1_low m (e : edge) (nd : node) i : nv nd <> Z.of_nat m ->
  mchild1 (Z.of_nat m) e nd i = match i with 1%nat | 2%nat => zeroE | _ => E c1 (en e) end.
Proof. intros H. unfold mchild1. apply Z.eqb_neq in H. now rewrite H. Qed.

(* ---- frames ---- *)
Lemma scratch_fr k i nd (s : state) : ac (scratch k i nd s) = ac s /\ mc (scratch k i nd s) = mc s.
Proof. unfold scratch. destruct (getNode i (tb s k)). split; reflexivity. Qed.
Lemma intern_fr k i nd (s : state) p s' : intern k i nd s = Some (p, s') -> ac s' = ac s /\ mc s' = mc s.
Proof.
  unfold intern. destruct (getNode i (tb s k)) as [a t]. destruct (lookup k i a nd (writeNode a nd t)) as [[p' t']|]; [|discriminate].
  intros [= _ <-]. split; reflexivity.
Qed.
Lemma makeMEdge_fr i q a b c d (s : state) e s' : run_on i (makeMEdge q a b c d) s = Some (e, s') ->
  ac s' = ac s /\ mc s' = mc s.
Proof.
  unfold makeMEdge. destruct (_ && _ && _ && _)%bool; [cbn; intros [= _ <-]; auto|].
  unfold normalizeM. destruct (forallb _ _).
  { cbn. intros [= _ <-]. apply scratch_fr. }
  destruct (iszero _).
  { cbn. intros [= _ <-]. apply scratch_fr. }
  cbn [run_on]. destruct (intern _ _ _ _) as [[p s1]|] eqn:Hi; [|discriminate]. apply intern_fr in Hi.
  destruct (readn KM p s1) as [nd|]; [|discriminate]. destruct (-1 <=? nv nd); [|discriminate].
  cbn. intros [= _ <-]. exact Hi.
Qed.

(* a result, or zero instead of a tiny one *)
Definition fam (e x : edge) : Prop := x = e \/ (x = zeroE /\ iszero (ew e) = true).
Lemma fam_se t n e x : fam e x -> se KM t n e -> se KM t n x.
Proof. intros [->|[-> _]] H; auto. apply se_zero. Qed.
Lemma edge_eqb_refl (e : edge) : edge_eqb e e = true.
Proof. unfold edge_eqb. now rewrite isequal_refl, ptr_eqb_refl. Qed.

(* an identity level *)
Lemma run_strip i s q e x : Inv s -> fam e x ->
  exists res s', run_on i (makeMEdge q e zeroE zeroE x) s = Some (res, s') /\ rel s s' /\ fam e res.
Proof.
  intros HI Hf. unfold makeMEdge. change (ew zeroE) with c0. rewrite !iszero_c0.
  rewrite !andb_true_r. destruct (ptr_eqb (en e) (en x) && isequal (ew e) (ew x)) eqn:Hs.
  { exists e, s. split; [reflexivity|]. split; [now apply rel_refl|]. now left. }
  destruct Hf as [->|[-> Hz]].
  { rewrite ptr_eqb_refl, isequal_refl in Hs. discriminate. }
  assert (Hsc : forall nd, exists res s', run_on i (CScratch KM nd (CRet zeroE)) s = Some (res, s') /\ rel s s' /\ fam e res).
  { intros nd. cbn. eexists _, _. split; [reflexivity|]. split; [now apply scratch_rel|]. right. auto. }
  unfold normalizeM. destruct (forallb _ _); [apply Hsc|].
  set (mw := ew (max_elt e [zeroE; zeroE; zeroE])).
  assert (Hmw : iszero (cmul mw c1) = true).
  { assert (Hm : mw = ew e \/ mw = c0).
    { unfold mw, max_elt. cbn [fold_left].
      repeat match goal with |- context [if ?b then _ else _] => destruct b end; cbn; auto. }
    rewrite mul_one.
    destruct Hm as [->| ->]; [exact Hz|]. apply iszero_c0. }
  rewrite Hmw. apply Hsc.
Qed.

(* ---- the addition cache on one thread ---- *)
Lemma afind_aset i l r (res : edge) s s' v : aset KM i l r res s = Some s' ->
  getVar KM (en res) s = Some v -> v <> -2 -> afind KM i l r s' = Some res.
Proof.
  unfold aset, afind. destruct (aorder KM l r s) as [[[lv a] b]|] eqn:Ho; [|discriminate].
  destruct (level_ok lv) eqn:Hl; [|discriminate]. intros [= <-] Hg Hv.
  assert (Ho' : aorder KM l r (set_ac s i KM lv (hpair KM a b mod NBUCKETS) (Some {| a_l := a; a_r := b; a_res := res |})) = Some (lv, a, b)) by exact Ho.
  rewrite Ho', Hl. cbn [ac set_ac]. rewrite Nat.eqb_refl, !Z.eqb_refl. cbn [kind_eqb andb a_l a_r a_res].
  rewrite !edge_eqb_refl. cbn [andb]. change (getVar KM (en res) _) with (getVar KM (en res) s). rewrite Hg.
  destruct (Z.eqb_spec v (-2)); [contradiction|reflexivity].
Qed.

(* operands on which mm_add2 consults the cache *)
Definition gd (l r : edge) : Prop :=
  edge_eqb l zeroE = false /\ edge_eqb r zeroE = false /\ iszero (ew l) = false /\ iszero (ew r) = false /\
  ptr_eqb (en l) (en r) = false.
Lemma add2_z m r : mm_add2 m zeroE r = CRet r.
Proof. destruct m; cbn [mm_add2]; now rewrite edge_eqb_refl. Qed.
Lemma add2_zr m l : mm_add2 m l zeroE = CRet (if edge_eqb l zeroE then zeroE else l).
Proof. destruct m; cbn [mm_add2]; now rewrite edge_eqb_refl, orb_true_r. Qed.

Lemma aorder_lev s m (l r : edge) : Inv s -> sp KM (tb s KM) (S m) (en l) -> sp KM (tb s KM) (S m) (en r) ->
  ptr_eqb (en l) (en r) = false ->
  exists lv a b, aorder KM l r s = Some (lv, a, b) /\ 0 <= lv < Z.of_nat (S m) /\
    (forall n', se KM (tb s KM) n' l -> se KM (tb s KM) n' r -> lv < Z.of_nat n') /\
    sp KM (tb s KM) (S (Z.to_nat lv)) (en l) /\ sp KM (tb s KM) (S (Z.to_nat lv)) (en r).
Proof.
  intros HI Hpl Hpr Heq.
  destruct (readp s _ _ HI Hpl) as (ln & Rl & Bl & Tl & Nl). destruct (readp s _ _ HI Hpr) as (rn & Rr & Br & Tr & Nr).
  unfold aorder, getVar. rewrite Rl, Rr.
  assert (Hge : 0 <= Z.max (nv ln) (nv rn)).
  { destruct (en l) eqn:E1; [destruct Hpl as [h|(? & ? & h & _)]; discriminate| |destruct (Nl a eq_refl); lia].
    destruct (en r) eqn:E2; [destruct Hpr as [h|(? & ? & h & _)]; discriminate| |destruct (Nr a eq_refl); lia].
    discriminate. }
  assert (Hlt : forall (e : edge) nd n', (forall a, en e = Node a -> reg KM (tb s KM) a nd /\ 0 <= nv nd) -> (en e = Term -> nv nd = -1) ->
     se KM (tb s KM) n' e -> nv nd < Z.of_nat n').
  { intros e nd n' H1 H2 Hs. pose proof (se_KM _ _ _ Hs) as [h|(a & nd' & h & _)].
    - rewrite (H2 h). lia.
    - destruct (H1 a h) as [H3 _]. eapply node_low; eauto. }
  assert (Hup : forall (e : edge) nd v, sp KM (tb s KM) (S m) (en e) -> (forall a, en e = Node a -> reg KM (tb s KM) a nd /\ 0 <= nv nd) ->
     nv nd <= v -> 0 <= v -> sp KM (tb s KM) (S (Z.to_nat v)) (en e)).
  { intros e nd v [h|(a & nd' & h & _)] H1 Hv H0; [now left|]. right. exists a, nd. destruct (H1 a h). split; [auto|]. split; [auto|lia]. }
  destruct (nv ln <? nv rn) eqn:Hc; [apply Z.ltb_lt in Hc|apply Z.ltb_ge in Hc]; (eexists _, _, _; split; [reflexivity|]).
  - split; [lia|]. split; [intros n' _ h; now apply (Hlt r rn)|]. split; [apply (Hup l ln)|apply (Hup r rn)]; auto; lia.
  - split; [lia|]. split; [intros n' h _; now apply (Hlt l ln)|]. split; [apply (Hup l ln)|apply (Hup r rn)]; auto; lia.
Qed.

Definition addpost (i : tid) (s : state) (n : nat) (l r : edge) (e : edge) (s' : state) : Prop :=
  rel s s' /\ mc s' = mc s /\
  (forall n', (n' <= n)%nat -> se KM (tb s KM) n' l -> se KM (tb s KM) n' r -> se KM (tb s' KM) n' e) /\
  (gd l r -> afind KM i l r s = Some nullE -> afind KM i l r s' = Some e /\ en e <> Null).

(* four blocks put together *)
Lemma run_assemble i m s (e0 e1 e2 e3 : edge) : Inv s -> Z.of_nat m < NQUBITS ->
  se KM (tb s KM) m e0 -> se KM (tb s KM) m e1 -> se KM (tb s KM) m e2 -> se KM (tb s KM) m e3 ->
  exists res s', run_on i (makeMEdge (Z.of_nat m) e0 e1 e2 e3) s = Some (res, s') /\ rel s s' /\ mc s' = mc s /\
    se KM (tb s' KM) (S m) res.
Proof.
  intros HI Hm H0 H1 H2 H3.
  destruct (wpr_run_on i _ s (SE KM (S m)) HI (mk_M' m s e0 e1 e2 e3 HI Hm H0 H1 H2 H3)) as (res & s' & Hrun & Hr & Hs).
  exists res, s'. split; auto. split; auto. split; auto. apply (makeMEdge_fr _ _ _ _ _ _ _ _ _ Hrun).
Qed.

Theorem run_mm_add2 i n : forall s l r, Inv s -> Z.of_nat n <= NQUBITS ->
  se KM (tb s KM) n l -> se KM (tb s KM) n r ->
  exists e s', run_on i (mm_add2 n l r) s = Some (e, s') /\ addpost i s n l r e s'.
Proof.
  induction n as [|m IH]; intros s l r HI Hn Hl Hr;
    match goal with |- exists e s', run_on _ (mm_add2 ?nn _ _) _ = _ /\ _ => set (LN := nn) in * end;
    assert (HT : TInv KM (tb s KM)) by apply HI;
    assert (Hret : forall e, ~ gd l r -> (forall n', (n' <= LN)%nat -> se KM (tb s KM) n' l -> se KM (tb s KM) n' r -> se KM (tb s KM) n' e) ->
                exists e' s', Some (e, s) = Some (e', s') /\ addpost i s LN l r e' s')
      by (intros e Hng He; exists e, s; split; [reflexivity|]; split; [now apply rel_refl|]; split; [reflexivity|];
          split; [exact He|intros h; contradiction]);
    subst LN; cbn [mm_add2].
  all: destruct (edge_eqb l zeroE) eqn:Hle; cbn [orb run_on];
    [apply Hret; [unfold gd; intros h; rewrite Hle in h; destruct h; discriminate|auto]|].
  all: destruct (edge_eqb r zeroE) eqn:Hre; cbn [run_on];
    [apply Hret; [unfold gd; intros h; rewrite Hre in h; destruct h as (_ & h & _); discriminate|auto]|].
  all: destruct (iszero (ew l)) eqn:Hzl; cbn [run_on];
    [apply Hret; [unfold gd; intros h; rewrite Hzl in h; destruct h as (_ & _ & h & _); discriminate|auto]|].
  all: destruct (iszero (ew r)) eqn:Hzr; cbn [run_on];
    [apply Hret; [unfold gd; intros h; rewrite Hzr in h; destruct h as (_ & _ & _ & h & _); discriminate|auto]|].
  all: pose proof (se_KM _ _ _ Hl) as Hpl; pose proof (se_KM _ _ _ Hr) as Hpr.
  - rewrite (sp0 _ _ HT Hpl), (sp0 _ _ HT Hpr). cbn [is_term andb run_on].
    apply Hret.
    { unfold gd. rewrite (sp0 _ _ HT Hpl), (sp0 _ _ HT Hpr), ptr_eqb_refl. intros (_ & _ & _ & _ & h). discriminate. }
    intros n' _ _ _. left. now left.
  - destruct (ptr_eqb (en l) (en r)) eqn:Heq; cbn [run_on].
    { apply Hret; [unfold gd; intros (_ & _ & _ & _ & h); congruence|].
      intros n' _ Hl' _. left. cbn [en]. now apply se_KM. }
    clear Hret.
    assert (Hgd : gd l r) by (unfold gd; auto).
    assert (Hm : Z.of_nat m < NQUBITS) by lia.
    assert (Hnode : (exists a, en l = Node a) \/ (exists a, en r = Node a)).
    { destruct Hpl as [h|(a & nd & h & _)]; [|eauto]. destruct Hpr as [h'|(a & nd & h' & _)]; [|eauto].
      rewrite h, h', ptr_eqb_refl in Heq. discriminate. }
    destruct (afind_spec KM i l r s m HI Hl Hr Hnode Hm) as (res & Hfind & Hcase). rewrite Hfind.
    destruct (aorder_lev s m l r HI Hpl Hpr Heq) as (lv & a & b & Ho & Hlv & Hlt & Hwl & Hwr).
    (* what remains once a sum has been computed *)
    assert (Hfin : forall e s6, rel s s6 -> mc s6 = mc s ->
      (forall n', (n' <= S m)%nat -> se KM (tb s KM) n' l -> se KM (tb s KM) n' r -> se KM (tb s6 KM) n' e) ->
      exists e' s', run_on i (CASet KM l r e (CRet e)) s6 = Some (e', s') /\ addpost i s (S m) l r e' s').
    { intros e s6 Hr6 Hmc6 He. pose proof (rel_inv _ _ Hr6) as HI6.
      assert (Ho6 : aorder KM l r s6 = Some (lv, a, b)).
      { assert (Hg : forall p v, sp KM (tb s KM) (S m) p -> getVar KM p s = Some v -> getVar KM p s6 = Some v).
        { intros p v [->|(x & nd & -> & h2 & h3)] h; [exact h|]. unfold getVar in *.
          rewrite (readn_reg KM s x nd) in h by auto. rewrite (readn_reg KM s6 x nd); auto. eapply reg_rel; eauto. }
        unfold aorder in *. destruct (getVar KM (en l) s) eqn:G1; [|discriminate].
        destruct (getVar KM (en r) s) eqn:G2; [|discriminate].
        now rewrite (Hg _ _ Hpl G1), (Hg _ _ Hpr G2). }
      assert (Hs : se KM (tb s6 KM) (S (Z.to_nat lv)) e) by (apply He; [lia|now left|now left]).
      destruct (se_getVar KM s6 _ e HI6 Hs) as (v & Hv1 & Hv2 & Hv3).
      destruct (aset_spec KM i l r e s6 lv a b HI6 Ho6) as (s7 & Hs7 & Hr7).
      { apply level_ok_true. lia. }
      { exists (Z.to_nat lv). cbn [a_res]. split; [lia|exact Hs]. }
      exists e, s7. cbn [run_on]. rewrite Hs7. split; [reflexivity|]. split; [eapply rel_trans; eauto|]. split.
      { unfold aset in Hs7. rewrite Ho6 in Hs7. destruct (level_ok lv); [|discriminate]. injection Hs7 as <-. exact Hmc6. }
      split.
      - intros n' Hn' Hl' Hr'. eapply se_rel; [exact Hr7|]. now apply He.
      - intros _ _. split; auto. eapply afind_aset; eauto. lia. }
    destruct Hcase as [->|(lv' & e & a' & b' & Ho' & Hent & Hres & Ha & Hb)].
    + (* miss *)
      cbn [en nullE is_null negb].
      destruct (readp s _ _ HI Hpl) as (lnd & Hrd1 & Bl & Tl & Nl).
      destruct (readp s _ _ HI Hpr) as (rnd & Hrd2 & Br & Tr & Nr).
      cbn [run_on]. rewrite Hrd1. cbn [run_on]. rewrite Hrd2.
      assert (Hdown : forall (x : edge) nd, sp KM (tb s KM) (S m) (en x) -> (forall a, en x = Node a -> reg KM (tb s KM) a nd /\ 0 <= nv nd) ->
         nv nd < Z.of_nat m -> se KM (tb s KM) m x).
      { intros x nd [h|(q & nd' & h & _)] H1 Hv; [left; now left|]. left. right. exists q, nd. destruct (H1 q h). auto. }
      destruct (Z_lt_le_dec (Z.max (nv lnd) (nv rnd)) (Z.of_nat m)) as [Hid|Hbase].
      * (* an identity level *)
        assert (Hlm : se KM (tb s KM) m l) by (apply (Hdown l lnd); auto; lia).
        assert (Hrm : se KM (tb s KM) m r) by (apply (Hdown r rnd); auto; lia).
        rewrite !mchild_low by lia. rewrite !add2_z.
        destruct (IH s l r HI ltac:(lia) Hlm Hrm) as (e0 & s1 & Hrun & Hr1 & Hmc1 & Hse & Hhit).
        destruct (Hhit Hgd Hfind) as (Haf & Hnn).
        rewrite run_on_bind, Hrun. cbn [bind]. rewrite run_on_bind.
        pose proof (rel_inv _ _ Hr1) as HI1.
        (* the second call finds the entry of the first *)
        assert (Hrun2 : run_on i (mm_add2 m l r) s1 = Some (if iszero (ew e0) then zeroE else e0, s1)).
        { specialize (Hlt m Hlm Hrm). destruct m as [|k]; [lia|]. cbn [mm_add2]. rewrite Hle, Hre. cbn [orb]. rewrite Hzl, Hzr, Heq.
          cbn [run_on]. rewrite Haf. destruct (en e0) eqn:He0; [contradiction| |]; reflexivity. }
        rewrite Hrun2. rewrite run_on_bind.
        assert (Hf2 : fam e0 (if iszero (ew e0) then zeroE else e0)) by (unfold fam; destruct (iszero (ew e0)) eqn:?; auto).
        destruct (run_strip i s1 (Z.of_nat m) e0 _ HI1 Hf2) as (rs & s6 & Hrun3 & Hr6 & Hf3). rewrite Hrun3.
        pose proof (makeMEdge_fr _ _ _ _ _ _ _ _ _ Hrun3) as [_ Hmc6].
        apply (Hfin rs s6); [rt|congruence|].
        intros n' Hn' Hl' Hr'. eapply fam_se; [exact Hf3|]. eapply se_rel; [exact Hr6|].
        destruct (Nat.eq_dec n' (S m)) as [->|]; [|apply Hse; auto; lia].
        apply (se_KM_up _ m); [lia|]. apply Hse; auto.
      * (* some operand has a node at this level *)
        assert (Hsub : forall j s2, (j < 4)%nat -> rel s s2 ->
          exists e s3, run_on i (mm_add2 m (mchild (Z.of_nat m) l lnd j) (mchild (Z.of_nat m) r rnd j)) s2 = Some (e, s3) /\
            rel s2 s3 /\ mc s3 = mc s2 /\ se KM (tb s3 KM) m e).
        { intros j s2 Hj Hr2. pose proof (rel_inv _ _ Hr2) as HI2.
          assert (H1 : se KM (tb s2 KM) m (mchild (Z.of_nat m) l lnd j)).
          { apply mchild_s; auto; [apply HI2|eapply sp_rel; eauto|]. intros q Hq. eapply reg_rel; [eauto|]. now apply Nl. }
          assert (H2 : se KM (tb s2 KM) m (mchild (Z.of_nat m) r rnd j)).
          { apply mchild_s; auto; [apply HI2|eapply sp_rel; eauto|]. intros q Hq. eapply reg_rel; [eauto|]. now apply Nr. }
          destruct (IH s2 _ _ HI2 ltac:(lia) H1 H2) as (e & s3 & Hrun & Hr3 & Hmc3 & HD & _).
          exists e, s3. auto. }
        destruct (Hsub 0%nat s ltac:(lia) ltac:(now apply rel_refl)) as (e0 & s1 & R0 & Hr1 & M1 & D0).
        rewrite run_on_bind, R0. pose proof (rel_inv _ _ Hr1) as HI1.
        destruct (Hsub 1%nat s1 ltac:(lia) Hr1) as (e1 & s2 & R1 & Hr2 & M2 & D1).
        rewrite run_on_bind, R1. pose proof (rel_inv _ _ Hr2) as HI2.
        destruct (Hsub 2%nat s2 ltac:(lia) ltac:(rt)) as (e2 & s3 & R2 & Hr3 & M3 & D2).
        rewrite run_on_bind, R2. pose proof (rel_inv _ _ Hr3) as HI3.
        destruct (Hsub 3%nat s3 ltac:(lia) ltac:(rt)) as (e3 & s4 & R3 & Hr4 & M4 & D3).
        rewrite run_on_bind, R3. pose proof (rel_inv _ _ Hr4) as HI4.
        destruct (run_assemble i m s4 e0 e1 e2 e3 HI4 Hm) as (rs & s5 & R5 & Hr5 & M5 & D5).
        { eapply (se_rel _ _ _ s1); [rt|exact D0]. }
        { eapply (se_rel _ _ _ s2); [rt|exact D1]. }
        { eapply (se_rel _ _ _ s3); [rt|exact D2]. }
        { exact D3. }
        rewrite run_on_bind, R5. apply (Hfin rs s5); [rt|congruence|].
        intros n' Hn' Hl' Hr'.
        assert (Hc : Z.of_nat m < Z.of_nat n').
        { assert (Hx : forall (x : edge) nd, sp KM (tb s KM) (S m) (en x) -> (en x = Term -> nv nd = -1) -> (forall a, en x = Node a -> reg KM (tb s KM) a nd /\ 0 <= nv nd) ->
            se KM (tb s KM) n' x -> nv nd < Z.of_nat n').
          { intros x nd [h|(q & nd' & h & _)] H0 H1 Hv; [rewrite (H0 h); lia|]. destruct (H1 q h). eapply node_low; eauto. }
          pose proof (Hx l lnd Hpl Tl Nl Hl'). pose proof (Hx r rnd Hpr Tr Nr Hr'). lia. }
        assert (n' = S m) as -> by lia. exact D5.
    + (* hit *)
      rewrite Ho in Ho'. injection Ho' as <- <- <-.
      destruct Hent as (m' & Hlv' & HD). rewrite Hres in HD.
      destruct (se_getVar KM s _ res HI HD) as (v & _ & _ & Hnn).
      assert (Hnull : is_null (en res) = false) by (destruct (en res); auto; contradiction).
      rewrite Hnull. cbn [negb run_on].
      eexists _, _. split; [reflexivity|]. split; [now apply rel_refl|]. split; [reflexivity|]. split.
      2:{ intros _ h. rewrite Hfind in h. injection h as ->. cbn in Hnull. discriminate. }
      intros n' Hn' Hl' Hr'. specialize (Hlt n' Hl' Hr').
      apply snap_s. apply (se_KM_up _ (S m')); [lia|exact HD].
Qed.

(* ---- the product cache of thread i ---- *)
Definition mts (i : tid) (s : state) (l r : ptr) (x : edge) : Prop :=
  exists lv e, getVar KM l s = Some lv /\ In e (mc s i KM lv (hptr l mod NBUCKETS)) /\
    m_valid e = true /\ m_l e = l /\ m_r e = r /\ m_res e = x.

Lemma mts_mc i s s' l r x v : Inv s -> Inv s' -> rel s s' -> lev_is (tb s KM) l v -> mc s' = mc s -> (mts i s' l r x <-> mts i s l r x).
Proof.
  intros HI HI' Hr (a & nd & -> & Hreg & _) Hmc.
  assert (Hg : getVar KM (Node a) s = Some (nv nd)) by (unfold getVar; now rewrite (readn_reg KM s a nd)).
  assert (Hg' : getVar KM (Node a) s' = Some (nv nd)).
  { unfold getVar. rewrite (readn_reg KM s' a nd); auto. now apply (rel_ext _ _ KM Hr). }
  unfold mts. rewrite Hmc, Hg, Hg'. reflexivity.
Qed.

Lemma mbucket_none (es : list ment) l r e : mbucket_find es l r = None -> In e es -> m_valid e = true ->
  m_l e = l -> m_r e = r -> False.
Proof.
  induction es as [|x es IH]; cbn; [tauto|]. destruct (_ && _ && _)%bool eqn:Hc; [discriminate|].
  destruct (mbucket_find es l r); [discriminate|]. intros _ [->|Hin] H1 H2 H3; [|now apply IH].
  subst. rewrite H1, !ptr_eqb_refl in Hc. discriminate.
Qed.
Lemma In_upd_picked (es : list ment) j z e : In e es -> exists e', In e' (upd_nth j (set_picked z) es) /\
  m_valid e' = m_valid e /\ m_l e' = m_l e /\ m_r e' = m_r e /\ m_res e' = m_res e.
Proof.
  revert j. induction es as [|x es IH]; intros j Hin; [contradiction|]. destruct j as [|j]; cbn [upd_nth].
  - destruct Hin as [->|Hin]; [exists (set_picked z e)|exists e]; cbn; auto 6.
  - destruct Hin as [->|Hin]; [exists e; cbn; auto 6|]. destruct (IH j Hin) as (e' & h & h2). exists e'. cbn. tauto.
Qed.

Lemma mfind_cases i l r s a nd : Inv s -> l = Node a -> reg KM (tb s KM) a nd ->
  exists res s', mfind KM i l r s = Some (res, s') /\ rel s s' /\
    (forall p q x v, lev_is (tb s KM) p v -> (mts i s' p q x <-> mts i s p q x)) /\
    ((res = nullE /\ forall x, ~ mts i s l r x) \/
     (mts i s l r res /\ exists e, m_l e = l /\ m_r e = r /\ m_res e = res /\ mul_ok KM (tb s KV) (tb s KM) e)).
Proof.
  intros HI -> Hr.
  assert (Hg : getVar KM (Node a) s = Some (nv nd)) by (unfold getVar; now rewrite (readn_reg KM s a nd)).
  pose proof (reg_ok KM _ _ _ (inv_tb _ HI KM) Hr) as Hok.
  destruct (mfind_spec KM i (Node a) r s a nd HI eq_refl Hr) as (res & s' & Hf & Hrel & Hc).
  exists res, s'. split; auto. split; auto.
  unfold mfind in Hf. rewrite Hg, level_ok_true in Hf by apply Hok.
  set (es := mc s i KM (nv nd) (hptr (Node a) mod NBUCKETS)) in *.
  destruct (mbucket_find es (Node a) r) as [j|] eqn:Hfd.
  - pose proof Hfd as Hfd'. apply mbucket_find_spec in Hfd as (Hin & Hv & Hml & Hmr).
    set (e := nth j es ment_init) in *.
    assert (Hkey : exists z, s' = set_mc s i KM (nv nd) (hptr (Node a) mod NBUCKETS) (upd_nth j (set_picked z) es) /\ res = m_res e).
    { pose proof (inv_mc _ HI _ _ _ _ _ Hin Hv) as (lv & rv & _ & _ & Hw).
      destruct (se_getVar KM _ _ _ HI Hw) as (v & Hv1 & Hv2 & _). fold e in Hf.
      assert (Hv1' : getVar KM (en (m_res e)) s = Some v) by exact Hv1. rewrite Hv1' in Hf.
      destruct (Z.eqb_spec v (-2)); [lia|]. injection Hf as <- <-. eauto. }
    destruct Hkey as (z & -> & ->). split.
    + intros p q x v Hp. unfold mts. change (getVar KM p (set_mc s i KM (nv nd) (hptr (Node a) mod NBUCKETS) (upd_nth j (set_picked z) es))) with (getVar KM p s).
      cbn [mc set_mc]. split.
      * intros (lv & e' & h1 & h2 & h3 & h4 & h5 & h6). 
        destruct (_ && _ && _ && _)%bool eqn:Hb; [|exists lv, e'; auto 7].
        rewrite !andb_true_iff in Hb. destruct Hb as [[[_ _] Hb1] Hb2]. apply Z.eqb_eq in Hb1, Hb2. subst lv.
        apply In_upd_nth in h2 as [h2|(e2 & h2 & ->)]; [exists (nv nd), e'|exists (nv nd), e2]; rewrite <- Hb2; cbn in *; auto 7.
      * intros (lv & e' & h1 & h2 & h3 & h4 & h5 & h6). 
        destruct ((nv nd =? lv) && (hptr (Node a) mod NBUCKETS =? hptr p mod NBUCKETS))%bool eqn:Hb.
        2:{ exists lv, e'. rewrite Nat.eqb_refl. cbn [kind_eqb andb]. rewrite Hb. auto 7. }
        pose proof Hb as Hb0. rewrite !andb_true_iff in Hb. destruct Hb as [Hb1 Hb2]. apply Z.eqb_eq in Hb1, Hb2. subst lv.
        rewrite <- Hb2 in h2. destruct (In_upd_picked es j z e' h2) as (e2 & k1 & k2 & k3 & k4 & k5).
        exists (nv nd), e2. rewrite Nat.eqb_refl. cbn [kind_eqb andb]. rewrite Hb0. split; auto. split; auto. split; [congruence|].
        split; [congruence|]. split; congruence.
    + right. split.
      * exists (nv nd), e. auto 7.
      * destruct Hc as [Hc|Hc]; auto. exists e. split; auto. split; auto. split; auto. eapply (inv_mc _ HI); eauto.
  - injection Hf as <- <-. split; [tauto|]. left. split; auto.
    intros x (lv & e & h1 & h2 & h3 & h4 & h5 & h6). rewrite Hg in h1. injection h1 as <-. eapply mbucket_none; eauto.
Qed.

Lemma In_upd_at {A} j (f : A -> A) (l : list A) y : (j < length l)%nat -> (forall x, f x = y) -> In y (upd_nth j f l).
Proof.
  revert j. induction l as [|x l IH]; intros j Hj Hf; cbn in *; [lia|]. destruct j as [|j]; cbn; auto.
  right. apply IH; auto. lia.
Qed.
Lemma min_picked_lt (es : list ment) : forall i best bp, (best < i)%nat -> (min_picked_from es i best bp < i + length es)%nat.
Proof.
  induction es as [|e es IH]; intros i best bp H; cbn; [lia|].
  destruct (_ <? _); [specialize (IH (S i) i (m_picked e) ltac:(lia))|specialize (IH (S i) best bp ltac:(lia))]; lia.
Qed.
Lemma first_empty_lt (es : list ment) : forall j, first_empty es = Some j -> (j < length es)%nat.
Proof.
  induction es as [|e es IH]; intros j; cbn; [discriminate|]. destruct (is_null _); [intros [= <-]; lia|].
  destruct (first_empty es); [|discriminate]. intros [= <-]. specialize (IH _ eq_refl). lia.
Qed.
Lemma victim_lt (es : list ment) : es <> [] -> (victim es < length es)%nat.
Proof.
  intros H. unfold victim. destruct (first_empty es) eqn:Hf; [now apply first_empty_lt|].
  destruct es as [|e es]; [contradiction|]. pose proof (min_picked_lt es 1 0 (m_picked e) ltac:(lia)). cbn in *. lia.
Qed.

Lemma mset_cases i l r res s s' : Inv s -> mset KM i l r res s = Some s' ->
  (forall p q x, mts i s' p q x -> (p = l /\ q = r /\ x = res) \/ mts i s p q x) /\ mts i s' l r res.
Proof.
  intros HI. unfold mset. destruct (getVar KM l s) as [lv|] eqn:Hg; [|discriminate].
  destruct (level_ok lv); [|discriminate]. intros [= <-].
  set (es := mc s i KM lv (hptr l mod NBUCKETS)).
  set (ne := {| m_valid := true; m_l := l; m_r := r; m_res := res; m_picked := 1 |}).
  split.
  - intros p q x (lv' & e & h1 & h2 & h3 & h4 & h5 & h6).
    change (getVar KM p s = Some lv') in h1. cbn [mc set_mc] in h2.
    destruct (_ && _ && _ && _)%bool eqn:Hb; [|right; exists lv', e; auto 7].
    rewrite !andb_true_iff in Hb. destruct Hb as [[[_ _] Hb1] Hb2]. apply Z.eqb_eq in Hb1, Hb2. subst lv'.
    apply In_upd_nth in h2 as [h2|(e2 & h2 & ->)].
    + right. exists lv, e. rewrite <- Hb2. auto 7.
    + left. cbn in *. auto.
  - exists lv, ne. split; [exact Hg|]. cbn [mc set_mc]. rewrite Nat.eqb_refl, !Z.eqb_refl. cbn [kind_eqb andb].
    split; [|cbn; auto]. apply In_upd_at; auto. apply victim_lt. intros h. pose proof (inv_len _ HI i KM lv (hptr l mod NBUCKETS)) as hl.
    fold es in hl. rewrite h in hl. discriminate.
Qed.

(* ---- rounded variants of a product ---- *)
Definition famm (e x : edge) : Prop :=
  x = e \/ (x = E c1 (en e) /\ isone (ew e) = true) \/ (x = zeroE /\ iszero (ew e) = true).
Lemma famm_se t n e x : famm e x -> se KM t n e -> se KM t n x.
Proof. intros [->|[[-> _]|[-> _]]] H; auto; [|apply se_zero]. left. exact (se_KM _ _ _ H). Qed.
Lemma mul11 (w : cx) : cmul (cmul w c1) c1 = w.
Proof. now rewrite !mul_one. Qed.
(* what the two diagonal blocks of an identity level look like *)
Definition snap0 (e : edge) : edge := if edge_eqb e zeroE then zeroE else e.
Definition rnd (e : edge) : edge := if iszero (ew e) then zeroE else E (if isone (ew e) then c1 else ew e) (en e).
Lemma snap_rnd e : snap0 (rnd e) = rnd e.
Proof.
  unfold snap0, rnd. destruct (iszero (ew e)) eqn:Hz; [now rewrite (edge_eqb_refl)|].
  destruct (edge_eqb _ zeroE) eqn:He; auto. exfalso. unfold edge_eqb in He. apply andb_prop in He as [He _].
  cbn [ew] in He. change (ew zeroE) with c0 in He. apply eq_zero in He.
  destruct (isone (ew e)) eqn:Ho; [|congruence]. eapply iszero_isone; [exact He|apply isone_c1].
Qed.
Lemma rnd_new res x l r : famm res x -> ew l = c1 -> ew r = c1 -> rescale_new x l r = rnd res.
Proof.
  intros Hf Hl Hr. unfold rescale_new. rewrite Hl, Hr, mul11. unfold rnd. destruct Hf as [->|[[-> Ho]|[-> Hz]]].
  - reflexivity.
  - cbn [ew en]. rewrite Ho, (isone_c1).
    assert (h : iszero c1 = false).
    { destruct (iszero c1) eqn:h; auto. exfalso. eapply iszero_isone; [exact h|apply isone_c1]. }
    rewrite h. destruct (iszero (ew res)) eqn:Hz; auto. exfalso. eapply iszero_isone; eauto.
  - rewrite Hz. change (ew zeroE) with c0. now rewrite iszero_c0.
Qed.
Lemma rnd_famm res : famm res (rnd res).
Proof. unfold rnd, famm. destruct (iszero (ew res)) eqn:?; auto. destruct (isone (ew res)) eqn:?; auto. destruct res; auto. Qed.
(* the product found again *)
Lemma hit_eq res y l r : famm res y -> ew l = c1 -> ew r = c1 ->
  ptr_eqb (en (rnd res)) (en (rescale_hit y l r)) && isequal (ew (rnd res)) (ew (rescale_hit y l r)) = true.
Proof.
  intros Hf Hl Hr. unfold rescale_hit. rewrite Hl, Hr, mul11.
  assert (Hgo : rnd res = rescale_hit y l r \/ (exists w, isone w = true /\ rnd res = E c1 (en res) /\ y = E w (en res) /\ iszero w = false) ->
    ptr_eqb (en (rnd res)) (en (if iszero (ew y) then zeroE else if iszero (ew y) then zeroE else E (ew y) (en y))) &&
    isequal (ew (rnd res)) (ew (if iszero (ew y) then zeroE else if iszero (ew y) then zeroE else E (ew y) (en y))) = true).
  { intros [h|(w & h1 & h2 & -> & h4)].
    - unfold rescale_hit in h. rewrite Hl, Hr, mul11 in h. rewrite h, ptr_eqb_refl, isequal_refl. reflexivity.
    - rewrite h2. cbn [ew en]. rewrite h4. cbn [ew en]. rewrite ptr_eqb_refl. cbn [andb]. now apply eq_sym'. }
  apply Hgo. unfold rescale_hit. rewrite Hl, Hr, mul11. unfold rnd.
  assert (h1 : iszero c1 = false) by apply iszero_c1.
  destruct Hf as [->|[[-> Ho]|[-> Hz]]].
  - destruct (iszero (ew res)) eqn:Hz; [now left|]. destruct (isone (ew res)) eqn:Ho; [|now left].
    right. exists (ew res). split; auto. split; auto. split; [now destruct res|auto].
  - left. cbn [ew en]. rewrite h1, Ho. destruct (iszero (ew res)) eqn:Hz; auto. exfalso. eapply iszero_isone; eauto.
  - left. rewrite Hz. change (ew zeroE) with c0. now rewrite iszero_c0.
Qed.

(* operands on which mm_multiply2 consults the cache *)
Definition gm (l r : edge) : Prop :=
  edge_eqb l zeroE = false /\ edge_eqb r zeroE = false /\ is_term (en l) = false /\ is_term (en r) = false /\
  iszero (ew l) = false /\ iszero (ew r) = false.
Definition unit_of (e : edge) : edge := E c1 (en e).
Definition fresh_prod (s0 : state) (n : nat) (l r res : edge) (s : state) : Prop :=
  forall n', (n' <= n)%nat -> se KM (tb s0 KM) n' (unit_of l) -> se KM (tb s0 KM) n' (unit_of r) -> se KM (tb s KM) n' res.
Lemma fresh_prod_rel s0 n l r e0 s s' : rel s s' -> fresh_prod s0 n l r e0 s -> fresh_prod s0 n l r e0 s'.
Proof. intros Hr H n' Hn Hl Hr'. eapply se_rel; [exact Hr|]. now apply H. Qed.
(* products of nodes at level n or above are not touched *)
Definition mframe (i : tid) (n : nat) (s s' : state) : Prop :=
  forall p q vp vq x, lev_is (tb s KM) p vp -> lev_is (tb s KM) q vq -> (Z.of_nat n <= vp \/ Z.of_nat n <= vq) ->
    mts i s' p q x -> mts i s p q x.
Lemma mframe_trans i n s1 s2 s3 : rel s1 s2 -> mframe i n s1 s2 -> mframe i n s2 s3 -> mframe i n s1 s3.
Proof.
  intros Hr H1 H2 p q vp vq x Hp Hq Hv Hm. eapply H1; eauto.
  pose proof (rel_ext _ _ KM Hr) as He. eapply H2; eauto; eapply lev_is_ext; eauto.
Qed.
Lemma mframe_up i n n' s s' : (n <= n')%nat -> mframe i n s s' -> mframe i n' s s'.
Proof. intros Hn H p q vp vq x Hp Hq Hv Hm. eapply H; eauto. lia. Qed.
Lemma mframe_mc i n s s' : Inv s -> rel s s' -> mc s' = mc s -> mframe i n s s'.
Proof. intros HI Hr Hmc p q vp vq x Hp Hq Hv Hm. apply (mts_mc i s s' p q x vp HI (rel_inv _ _ Hr) Hr Hp Hmc). exact Hm. Qed.

Definition mulpost (i : tid) (s : state) (n : nat) (l r : edge) (e : edge) (s' : state) : Prop :=
  rel s s' /\
  (forall n', (n' <= n)%nat -> se KM (tb s KM) n' l -> se KM (tb s KM) n' r -> se KM (tb s' KM) n' e) /\
  mframe i n s s' /\
  (gm l r -> (forall x, ~ mts i s (en l) (en r) x) ->
     exists res x, famm res x /\ e = rescale_new x l r /\ fresh_prod s n l r res s' /\
       (forall y, mts i s' (en l) (en r) y -> famm res y) /\ exists y, mts i s' (en l) (en r) y).
Lemma mul2_z m r : mm_multiply2 m zeroE r = CRet zeroE.
Proof. destruct m; cbn [mm_multiply2]; now rewrite edge_eqb_refl. Qed.
Lemma mul2_zr m l : mm_multiply2 m l zeroE = CRet zeroE.
Proof. destruct m; cbn [mm_multiply2]; now rewrite edge_eqb_refl, orb_true_r. Qed.
Lemma gm_unit l r : gm l r -> gm (unit_of l) (unit_of r).
Proof.
  intros (_ & _ & H3 & H4 & _ & _). unfold gm, unit_of. cbn [en ew].
  assert (h1 : iszero c1 = false) by apply iszero_c1.
  assert (Hz : forall p, is_term p = false -> edge_eqb (E c1 p) zeroE = false).
  { intros p Hp. unfold edge_eqb. cbn [en ew]. destruct p; try discriminate; cbn; now rewrite andb_false_r. }
  auto 8.
Qed.

Theorem run_mm_multiply2 i n : forall s l r, Inv s -> Z.of_nat n <= NQUBITS ->
  se KM (tb s KM) n l -> se KM (tb s KM) n r ->
  exists e s', run_on i (mm_multiply2 n l r) s = Some (e, s') /\ mulpost i s n l r e s'.
Proof.
  induction n as [|m IH]; intros s l r HI Hn Hl Hr;
    match goal with |- exists e s', run_on _ (mm_multiply2 ?nn _ _) _ = _ /\ _ => set (LN := nn) in * end;
    assert (HT : TInv KM (tb s KM)) by apply HI;
    assert (Hret : forall e, ~ gm l r -> (forall n', (n' <= LN)%nat -> se KM (tb s KM) n' l -> se KM (tb s KM) n' r -> se KM (tb s KM) n' e) ->
                exists e' s', Some (e, s) = Some (e', s') /\ mulpost i s LN l r e' s')
      by (intros e Hng He; exists e, s; split; [reflexivity|]; split; [now apply rel_refl|]; split; [exact He|];
          split; [intros p q vp vq x _ _ _ h; exact h|intros h; contradiction]);
    subst LN; cbn [mm_multiply2].
  all: destruct (edge_eqb l zeroE) eqn:Hle; cbn [orb run_on];
    [apply Hret; [unfold gm; rewrite Hle; intros (h & _); discriminate|intros; apply se_zero]|].
  all: destruct (edge_eqb r zeroE) eqn:Hre; cbn [run_on];
    [apply Hret; [unfold gm; rewrite Hre; intros (_ & h & _); discriminate|intros; apply se_zero]|].
  all: destruct (is_term (en l)) eqn:Hlt; cbn [run_on];
    [apply Hret; [unfold gm; rewrite Hlt; intros (_ & _ & h & _); discriminate|intros n' _ _ Hr'; left; exact (se_KM _ _ _ Hr')]|].
  all: destruct (is_term (en r)) eqn:Hrt; cbn [run_on];
    [apply Hret; [unfold gm; rewrite Hrt; intros (_ & _ & _ & h & _); discriminate|intros n' _ Hl' _; left; exact (se_KM _ _ _ Hl')]|].
  all: destruct (iszero (ew l)) eqn:Hzl; cbn [orb run_on];
    [apply Hret; [unfold gm; rewrite Hzl; intros (_ & _ & _ & _ & h & _); discriminate|intros; apply se_zero]|].
  all: destruct (iszero (ew r)) eqn:Hzr; cbn [run_on];
    [apply Hret; [unfold gm; rewrite Hzr; intros (_ & _ & _ & _ & _ & h); discriminate|intros; apply se_zero]|].
  all: pose proof (se_KM _ _ _ Hl) as Hpl; pose proof (se_KM _ _ _ Hr) as Hpr; clear Hret.
  - rewrite (sp0 _ _ HT Hpl) in Hlt. discriminate.
  - assert (Hgm : gm l r) by (unfold gm; auto 8).
    destruct Hpl as [h|(la & lnd & Hel & Hrl & Hvl)]; [rewrite h in Hlt; discriminate|].
    destruct Hpr as [h|(ra & rnd' & Her & Hrr & Hvr)]; [rewrite h in Hrt; discriminate|].
    pose proof (no_level _ _ _ (reg_ok KM _ _ _ HT Hrl)) as Hll.
    pose proof (no_level _ _ _ (reg_ok KM _ _ _ HT Hrr)) as Hlr.
    assert (Hm : Z.of_nat m < NQUBITS) by lia.
    set (ul := unit_of l). set (ur := unit_of r).
    assert (Hul : forall n', se KM (tb s KM) n' l -> se KM (tb s KM) n' ul) by (intros n' h; left; exact (se_KM _ _ _ h)).
    assert (Hur : forall n', se KM (tb s KM) n' r -> se KM (tb s KM) n' ur) by (intros n' h; left; exact (se_KM _ _ _ h)).
    assert (Hlow_l : forall n', se KM (tb s KM) n' ul -> nv lnd < Z.of_nat n').
    { intros n' h. exact (node_low (tb s KM) (nv lnd) n' ul la lnd Hel Hrl eq_refl h). }
    assert (Hlow_r : forall n', se KM (tb s KM) n' ur -> nv rnd' < Z.of_nat n').
    { intros n' h. exact (node_low (tb s KM) (nv rnd') n' ur ra rnd' Her Hrr eq_refl h). }
    assert (Hwl : forall n', nv lnd < Z.of_nat n' -> se KM (tb s KM) n' ul).
    { intros n' h. left. right. exists la, lnd. auto. }
    assert (Hwr : forall n', nv rnd' < Z.of_nat n' -> se KM (tb s KM) n' ur).
    { intros n' h. left. right. exists ra, rnd'. auto. }
    assert (Hlevl : lev_is (tb s KM) (en l) (nv lnd)) by (exists la, lnd; auto).
    assert (Hlevr : lev_is (tb s KM) (en r) (nv rnd')) by (exists ra, rnd'; auto).
    assert (Hbelow : forall n', se KM (tb s KM) n' ul -> se KM (tb s KM) n' ur ->
              (Z.to_nat (Z.max (nv lnd) (nv rnd') + 1) <= n')%nat).
    { intros n' h1 h2. apply Hlow_l in h1. apply Hlow_r in h2. lia. }
    set (mx := Z.to_nat (Z.max (nv lnd) (nv rnd') + 1)) in *.
    destruct (mfind_cases i (en l) (en r) s la lnd HI Hel Hrl) as (res0 & s1 & Hfind & Hr1 & Hmts1 & Hcase).
    cbn [run_on]. rewrite Hfind. pose proof (rel_inv _ _ Hr1) as HI1.
    destruct Hcase as [[-> Hmiss]|[Hhit (e & Hml & Hmr & Hmres & Hent)]].
    + (* miss *)
      cbn [en nullE is_null negb].
      (* storing the product *)
      assert (Hfin : forall res x s6, rel s s6 -> famm res x -> fresh_prod s (S m) l r res s6 -> mframe i (S m) s s6 ->
        (forall y, mts i s6 (en l) (en r) y -> famm res y) ->
        exists e' s', run_on i (CMSet KM (en l) (en r) x (CRet (rescale_new x l r))) s6 = Some (e', s') /\
          mulpost i s (S m) l r e' s').
      { intros res x s6 Hr6 Hf Hfr Hfm Hall. pose proof (rel_inv _ _ Hr6) as HI6.
        assert (HD : forall n', (n' <= S m)%nat -> se KM (tb s KM) n' ul -> se KM (tb s KM) n' ur -> se KM (tb s6 KM) n' x).
        { intros n' Hn' h1 h2. eapply famm_se; [exact Hf|]. now apply Hfr. }
        destruct (mset_spec KM i (en l) (en r) x s6 la lnd HI6 Hel (reg_rel _ _ _ _ _ Hr6 Hrl)) as (s7 & Hs7 & Hr7).
        { intros b z. cbn [mul_ok m_l m_r m_res]. exists (nv lnd), (nv rnd').
          split; [exists la, lnd; split; [auto|split; [eapply reg_rel; eauto|auto]]|].
          split; [exists ra, rnd'; split; [auto|split; [eapply reg_rel; eauto|auto]]|].
          fold mx. apply HD; [lia|apply Hwl; lia|apply Hwr; lia]. }
        pose proof (mset_cases _ _ _ _ _ _ HI6 Hs7) as [Hm1 Hm2].
        exists (rescale_new x l r), s7. cbn [run_on]. rewrite Hs7. split; [reflexivity|].
        split; [rt|]. split.
        { intros n' Hn' Hl' Hr'. apply rescale_new_s. eapply se_rel; [exact Hr7|]. now apply HD; auto. }
        split.
        { intros p q vp vq y Hp Hq Hv Hy. apply Hm1 in Hy as [(-> & -> & ->)|Hy]; [|eapply Hfm; eauto].
          exfalso.
          assert (vp = nv lnd). { destruct Hp as (a' & nd' & h1 & h2 & <-). rewrite Hel in h1. injection h1 as <-. now rewrite (reg_fun _ _ _ _ _ h2 Hrl). }
          assert (vq = nv rnd'). { destruct Hq as (a' & nd' & h1 & h2 & <-). rewrite Her in h1. injection h1 as <-. now rewrite (reg_fun _ _ _ _ _ h2 Hrr). }
          lia. }
        intros _ _. exists res, x. split; auto. split; auto. split; [eapply fresh_prod_rel; eauto|].
        split; [|eauto]. intros y Hy. apply Hm1 in Hy as [(_ & _ & ->)|Hy]; auto. }
      assert (Hrl1 : reg KM (tb s1 KM) la lnd) by (eapply reg_rel; eauto). assert (Hrr1 : reg KM (tb s1 KM) ra rnd') by (eapply reg_rel; eauto).
      assert (Hrd1 : readn KM (en l) s1 = Some lnd) by (rewrite Hel; now apply readn_reg).
      assert (Hrd2 : readn KM (en r) s1 = Some rnd') by (rewrite Her; now apply readn_reg).
      cbn [run_on]. rewrite Hrd1. cbn [run_on]. rewrite Hrd2.
      assert (Hc1 : (nv lnd <=? Z.of_nat m) = true) by (apply Z.leb_le; lia).
      assert (Hc2 : (nv rnd' <=? Z.of_nat m) = true) by (apply Z.leb_le; lia).
      rewrite Hc1, Hc2. cbn [andb].
      assert (Hmiss1 : forall x, ~ mts i s1 (en l) (en r) x).
      { intros x h. apply (Hmiss x). eapply Hmts1; eauto. }
      assert (Hfr1 : mframe i (S m) s s1).
      { intros p q vp vq x Hp Hq _ Hx. eapply Hmts1; eauto. }
      assert (Hlev1l : lev_is (tb s1 KM) (en l) (nv lnd)) by (exists la, lnd; auto).
      assert (Hlev1r : lev_is (tb s1 KM) (en r) (nv rnd')) by (exists ra, rnd'; auto).
      destruct (Z_lt_le_dec (Z.max (nv lnd) (nv rnd')) (Z.of_nat m)) as [Hid|Hbase].
      * (* an identity level *)
        rewrite !mchild1_low by lia.
        cbn [Nat.div Nat.modulo Nat.divmod fst snd Nat.mul Nat.add Nat.sub].
        change (E c1 (en l)) with ul. change (E c1 (en r)) with ur.
        rewrite !mul2_z, !mul2_zr. cbn [bind].
        assert (Hulm : se KM (tb s1 KM) m ul) by (eapply se_rel; [exact Hr1|]; apply Hwl; lia).
        assert (Hurm : se KM (tb s1 KM) m ur) by (eapply se_rel; [exact Hr1|]; apply Hwr; lia).
        destruct (IH s1 ul ur HI1 ltac:(lia) Hulm Hurm) as (p0 & s2 & R0 & Hr2 & _ & Hfm2 & Hnew).
        destruct (Hnew (gm_unit _ _ Hgm) Hmiss1) as (res & x & Hf & Hp0 & Hfr & Hall & (y0 & Hy0)).
        pose proof (rel_inv _ _ Hr2) as HI2.
        rewrite (rnd_new res x ul ur Hf eq_refl eq_refl) in Hp0. subst p0.
        rewrite run_on_bind, R0. rewrite add2_zr. cbn [bind]. fold (snap0 (rnd res)). rewrite snap_rnd.
        rewrite !add2_z. cbn [bind]. rewrite run_on_bind.
        (* the second call finds a product stored by the first *)
        assert (Hrun2 : exists y s3, run_on i (mm_multiply2 m ul ur) s2 = Some (rescale_hit y ul ur, s3) /\ famm res y /\
                  rel s2 s3 /\ (forall p q x v, lev_is (tb s2 KM) p v -> (mts i s3 p q x <-> mts i s2 p q x))).
        { destruct m as [|k]; [lia|]. cbn [mm_multiply2]. destruct (gm_unit _ _ Hgm) as (g1 & g2 & g3 & g4 & g5 & g6).
          fold ul ur in g1, g2, g3, g4, g5, g6. rewrite g1, g2. cbn [orb]. rewrite g3, g4, g5, g6. cbn [orb run_on].
          assert (Hrl2 : reg KM (tb s2 KM) la lnd) by (eapply reg_rel; [|exact Hrl]; rt).
          destruct (mfind_cases i (en ul) (en ur) s2 la lnd HI2 Hel Hrl2) as (y & s3 & Hfd & Hr3 & Hm3 & Hc).
          rewrite Hfd. destruct Hc as [[_ Hno]|[Hy (e & _ & _ & Hmr & Hok)]]; [exfalso; exact (Hno _ Hy0)|].
          destruct Hok as (lv & rv & _ & _ & Hw). rewrite Hmr in Hw.
          destruct (se_getVar KM s2 _ y HI2 Hw) as (v & _ & _ & Hnn).
          assert (Hnull : is_null (en y) = false) by (destruct (en y); auto; contradiction). rewrite Hnull. cbn [negb run_on].
          exists y, s3. split; [reflexivity|]. split; [apply Hall; exact Hy|]. auto. }
        destruct Hrun2 as (y & s3 & R3 & Hfy & Hr3 & Hm3). rewrite R3, add2_z. cbn [bind]. rewrite run_on_bind.
        pose proof (rel_inv _ _ Hr3) as HI3.
        assert (R4 : run_on i (makeMEdge (Z.of_nat m) (rnd res) zeroE zeroE (rescale_hit y ul ur)) s3 = Some (rnd res, s3)).
        { unfold makeMEdge. change (ew zeroE) with c0. rewrite !iszero_c0.
          rewrite !andb_true_r. rewrite (hit_eq res y ul ur Hfy eq_refl eq_refl). reflexivity. }
        rewrite R4. apply (Hfin res (rnd res) s3); [rt|apply rnd_famm| | |].
        -- assert (Hfr3 : fresh_prod s1 m ul ur res s3) by exact (fresh_prod_rel _ _ _ _ _ s2 s3 Hr3 Hfr).
           intros n' Hn' h1 h2. destruct (Nat.eq_dec n' (S m)) as [->|].
           ++ apply (se_KM_up _ m); [lia|]. apply (Hfr3 m); auto.
           ++ apply (Hfr3 n'); [lia| |]; (eapply se_rel; [exact Hr1|auto]).
        -- eapply mframe_trans; [exact Hr1|exact Hfr1|].
           eapply mframe_trans; [exact Hr2|apply (mframe_up i m); [lia|exact Hfm2]|].
           intros p q vp vq z Hp Hq _ Hx. eapply Hm3; eauto.
        -- intros z Hx. apply Hall. apply (Hm3 (en l) (en r) z (nv lnd)); auto. eapply lev_is_ext; [apply (rel_ext _ _ KM Hr2)|exact Hlev1l].
      * (* some operand has a node at this level *)
        set (lc := mchild1 (Z.of_nat m) l lnd). set (rc := mchild1 (Z.of_nat m) r rnd').
        assert (Hlc : forall j s3, (j < 4)%nat -> rel s1 s3 -> se KM (tb s3 KM) m (lc j)).
        { intros j s3 Hj Hr3. apply mchild1_s; auto; [apply (rel_inv _ _ Hr3)| |].
          - right. exists la, lnd. split; [auto|]. split; [eapply reg_rel; eauto|auto].
          - intros a Ha. rewrite Hel in Ha. injection Ha as <-. eapply reg_rel; eauto. }
        assert (Hrc : forall j s3, (j < 4)%nat -> rel s1 s3 -> se KM (tb s3 KM) m (rc j)).
        { intros j s3 Hj Hr3. apply mchild1_s; auto; [apply (rel_inv _ _ Hr3)| |].
          - right. exists ra, rnd'. split; [auto|]. split; [eapply reg_rel; eauto|auto].
          - intros a Ha. rewrite Her in Ha. injection Ha as <-. eapply reg_rel; eauto. }
        assert (Hmulsub : forall j j' s3, (j < 4)%nat -> (j' < 4)%nat -> rel s1 s3 ->
           exists p s4, run_on i (mm_multiply2 m (lc j) (rc j')) s3 = Some (p, s4) /\ rel s3 s4 /\ mframe i m s3 s4 /\
             se KM (tb s4 KM) m p).
        { intros j j' s3 Hj Hj' Hr3. pose proof (rel_inv _ _ Hr3) as HI3.
          destruct (IH s3 (lc j) (rc j') HI3 ltac:(lia) (Hlc j s3 Hj Hr3) (Hrc j' s3 Hj' Hr3)) as (p & s4 & R & Hr4 & HD & Hf & _).
          exists p, s4. split; [exact R|]. split; [exact Hr4|]. split; [exact Hf|]. apply HD; auto. }
        assert (Hentry : forall j s3, (j < 4)%nat -> rel s1 s3 ->
           exists e s6, rel s3 s6 /\ mframe i m s3 s6 /\ se KM (tb s6 KM) m e /\
             forall f, run_on i (bind (mm_multiply2 m (lc (2 * Nat.div j 2)%nat) (rc (Nat.modulo j 2))) (fun p0 =>
                    bind (mm_multiply2 m (lc (2 * Nat.div j 2 + 1)%nat) (rc (2 + Nat.modulo j 2)%nat)) (fun p1 =>
                    bind (mm_add2 m p0 p1) f))) s3 = run_on i (f e) s6).
        { intros j s3 Hj Hr3. pose proof (rel_inv _ _ Hr3) as HI3.
          assert (Hdm : (2 * Nat.div j 2 + 1 < 4 /\ Nat.modulo j 2 < 2)%nat).
          { pose proof (Nat.div_mod j 2 ltac:(lia)). pose proof (Nat.mod_upper_bound j 2 ltac:(lia)). lia. }
          destruct (Hmulsub (2 * Nat.div j 2)%nat (Nat.modulo j 2) s3 ltac:(lia) ltac:(lia) Hr3) as (p0 & s4 & R0 & Hr4 & F0 & D0).
          pose proof (rel_inv _ _ Hr4) as HI4.
          destruct (Hmulsub (2 * Nat.div j 2 + 1)%nat (2 + Nat.modulo j 2)%nat s4 ltac:(lia) ltac:(lia) ltac:(rt)) as (p1 & s5 & R1 & Hr5 & F1 & D1).
          pose proof (rel_inv _ _ Hr5) as HI5.
          assert (D0' : se KM (tb s5 KM) m p0) by (eapply se_rel; eauto).
          destruct (run_mm_add2 i m s5 p0 p1 HI5 ltac:(lia) D0' D1) as (e & s6 & R2 & Hr6 & M6 & HA & _).
          exists e, s6. split; [rt|].
          split; [eapply mframe_trans; [exact Hr4|exact F0|]; eapply mframe_trans; [exact Hr5|exact F1|]; now apply mframe_mc|].
          split; [now apply HA|intros f; rewrite run_on_bind, R0, run_on_bind, R1, run_on_bind, R2; reflexivity]. }
        destruct (Hentry 0%nat s1 ltac:(lia) ltac:(now apply rel_refl)) as (e0 & s2 & Hr2 & F0 & D0 & R0).
        pose proof (rel_inv _ _ Hr2) as HI2.
        destruct (Hentry 1%nat s2 ltac:(lia) Hr2) as (e1 & s3 & Hr3 & F1 & D1 & R1).
        pose proof (rel_inv _ _ Hr3) as HI3.
        destruct (Hentry 2%nat s3 ltac:(lia) ltac:(rt)) as (e2 & s4 & Hr4 & F2 & D2 & R2).
        pose proof (rel_inv _ _ Hr4) as HI4.
        destruct (Hentry 3%nat s4 ltac:(lia) ltac:(rt)) as (e3 & s5 & Hr5 & F3 & D3 & R3).
        pose proof (rel_inv _ _ Hr5) as HI5.
        rewrite R0, R1, R2, R3, run_on_bind.
        destruct (run_assemble i m s5 e0 e1 e2 e3 HI5 Hm) as (res & s6 & R6 & Hr6 & M6 & D6).
        { eapply (se_rel _ _ _ s2); [rt|exact D0]. }
        { eapply (se_rel _ _ _ s3); [rt|exact D1]. }
        { eapply (se_rel _ _ _ s4); [rt|exact D2]. }
        { exact D3. }
        rewrite R6.
        assert (F16 : mframe i m s1 s6).
        { eapply mframe_trans; [exact Hr2|exact F0|]. eapply mframe_trans; [exact Hr3|exact F1|].
          eapply mframe_trans; [exact Hr4|exact F2|]. eapply mframe_trans; [exact Hr5|exact F3|]. now apply mframe_mc. }
        apply (Hfin res res s6); [rt|now left| | |].
        -- intros n' Hn' h1 h2. specialize (Hbelow n' h1 h2). assert (n' = S m) as -> by lia. exact D6.
        -- eapply mframe_trans; [exact Hr1|exact Hfr1|]. apply (mframe_up i m); [lia|exact F16].
        -- intros y Hy. exfalso. apply (Hmiss1 y). eapply F16; eauto. lia.
    + (* hit *)
      destruct Hent as (lv & rv & Hlv & Hrv & Hd). rewrite Hmres in Hd.
      assert (lv = nv lnd).
      { destruct Hlv as (a & nd & h1 & h2 & <-). rewrite Hml, Hel in h1. injection h1 as <-.
        now rewrite (reg_fun _ _ _ _ _ h2 Hrl). }
      assert (rv = nv rnd').
      { destruct Hrv as (a & nd & h1 & h2 & <-). rewrite Hmr, Her in h1. injection h1 as <-.
        now rewrite (reg_fun _ _ _ _ _ h2 Hrr). }
      subst lv rv. fold mx in Hd.
      destruct (se_getVar KM s mx res0 HI Hd) as (v & _ & _ & Hnn).
      assert (Hnull : is_null (en res0) = false) by (destruct (en res0); auto; contradiction).
      rewrite Hnull. cbn [negb run_on].
      eexists _, _. split; [reflexivity|]. split; auto. split.
      { intros n' Hn' h1 h2. apply rescale_hit_s. eapply se_rel; [exact Hr1|].
        apply (se_KM_up _ mx); [apply Hbelow; auto|exact Hd]. }
      split.
      { intros p q vp vq x Hp Hq _ Hx. eapply Hmts1; eauto. }
      intros _ Hno. exfalso. exact (Hno _ Hhit).
Qed.

(* the root level used by mm_add and mm_multiply *)
Lemma run_rootVar i (l r : edge) f s n : Inv s -> se KM (tb s KM) n l -> se KM (tb s KM) n r ->
  exists root, run_on i (rootVar l r f) s = run_on i (f root) s /\ -1 <= root < Z.of_nat n /\
     se KM (tb s KM) (Z.to_nat (root + 1)) l /\ se KM (tb s KM) (Z.to_nat (root + 1)) r.
Proof.
  intros HI Hl Hr. unfold rootVar. pose proof (se_KM _ _ _ Hl) as Hpl. pose proof (se_KM _ _ _ Hr) as Hpr.
  destruct (readp s _ _ HI Hpl) as (ln & Rl & Bl & Tl & Nl). destruct (readp s _ _ HI Hpr) as (rn & Rr & Br & Tr & Nr).
  assert (Hup : forall (e : edge) nd n', sp KM (tb s KM) n (en e) -> (forall a, en e = Node a -> reg KM (tb s KM) a nd /\ 0 <= nv nd) ->
     nv nd < Z.of_nat n' -> se KM (tb s KM) n' e).
  { intros e nd n' [h|(a & nd' & h & _)] H1 Hv; left; [now left|]. right. exists a, nd. destruct (H1 a h). auto. }
  assert (Ht : forall p, is_term p = true -> p = Term) by (intros [| |]; (discriminate || reflexivity)).
  cbn [run_on]. rewrite Rl. cbn [run_on]. rewrite Rr.
  assert (Hgo : forall v, -1 <= v < Z.of_nat n -> nv ln <= v -> nv rn <= v ->
    exists root, run_on i (f v) s = run_on i (f root) s /\ -1 <= root < Z.of_nat n /\
      se KM (tb s KM) (Z.to_nat (root + 1)) l /\ se KM (tb s KM) (Z.to_nat (root + 1)) r).
  { intros v Hv H1 H2. exists v. split; [reflexivity|]. split; [auto|]. split; [apply (Hup l ln)|apply (Hup r rn)]; auto; lia. }
  destruct (is_term (en l)) eqn:Etl; cbn [orb].
  { apply Ht in Etl. apply Hgo; auto; try lia. rewrite (Tl Etl). lia. }
  destruct (is_term (en r)) eqn:Etr; cbn [negb andb].
  { apply Ht in Etr. apply Hgo; auto; try lia. rewrite (Tr Etr). lia. }
  destruct (nv ln <? nv rn) eqn:Hc; [apply Z.ltb_lt in Hc|apply Z.ltb_ge in Hc]; apply Hgo; lia.
Qed.

Theorem run_mm_add i n s l r : Inv s -> Z.of_nat n <= NQUBITS ->
  se KM (tb s KM) n l -> se KM (tb s KM) n r ->
  exists e s', run_on i (mm_add l r) s = Some (e, s') /\ rel s s' /\ se KM (tb s' KM) n e.
Proof.
  intros HI Hn Hl Hr. unfold mm_add. destruct (is_term (en l) && is_term (en r)) eqn:Ht.
  - cbn [run_on]. eexists _, s. split; [reflexivity|]. split; [now apply rel_refl|]. left. now left.
  - destruct (run_rootVar i l r (fun root => mm_add2 (Z.to_nat (root + 1)) l r) s n HI Hl Hr) as (root & -> & Hroot & Hwl & Hwr).
    destruct (run_mm_add2 i (Z.to_nat (root + 1)) s l r HI ltac:(lia) Hwl Hwr) as (e & s' & Hx & Hrel & _ & Hd & _).
    exists e, s'. split; auto. split; auto. eapply se_KM_up; [|apply (Hd _ (le_n _)); auto]. lia.
Qed.
Theorem run_mm_multiply i n s l r : Inv s -> Z.of_nat n <= NQUBITS ->
  se KM (tb s KM) n l -> se KM (tb s KM) n r ->
  exists e s', run_on i (mm_multiply l r) s = Some (e, s') /\ rel s s' /\ se KM (tb s' KM) n e.
Proof.
  intros HI Hn Hl Hr. unfold mm_multiply. destruct (is_term (en l) && is_term (en r)) eqn:Ht.
  - cbn [run_on]. eexists _, s. split; [reflexivity|]. split; [now apply rel_refl|]. left. now left.
  - destruct (run_rootVar i l r (fun root => mm_multiply2 (Z.to_nat (root + 1)) l r) s n HI Hl Hr) as (root & -> & Hroot & Hwl & Hwr).
    destruct (run_mm_multiply2 i (Z.to_nat (root + 1)) s l r HI ltac:(lia) Hwl Hwr) as (e & s' & Hx & Hrel & Hd & _).
    exists e, s'. split; auto. split; auto. eapply se_KM_up; [|apply (Hd _ (le_n _)); auto]. lia.
Qed.
Theorem run_makeSwap i n s t0 t1 : Inv s -> Z.of_nat n <= NQUBITS -> 0 <= t0 < Z.of_nat n -> 0 <= t1 < Z.of_nat n ->
  exists e s', run_on i (makeSwap (Z.of_nat n) t0 t1) s = Some (e, s') /\ rel s s' /\ se KM (tb s' KM) n e.
Proof.
  intros HI Hn H0 H1. unfold makeSwap. rewrite run_on_bind.
  destruct (wpr_run_on i _ s _ HI (makeGate_s n Xmat t1 [(t0, true)] s HI Hn H1)) as (e1 & s1 & R1 & Hr1 & S1). rewrite R1.
  pose proof (rel_inv _ _ Hr1) as HI1. rewrite run_on_bind.
  destruct (wpr_run_on i _ s1 _ HI1 (makeGate_s n Xmat t0 [(t1, true)] s1 HI1 Hn H0)) as (e2 & s2 & R2 & Hr2 & S2). rewrite R2.
  pose proof (rel_inv _ _ Hr2) as HI2. rewrite run_on_bind.
  assert (S1' : se KM (tb s2 KM) n e1) by (eapply se_rel; eauto).
  destruct (run_mm_multiply i n s2 e2 e1 HI2 Hn S2 S1') as (e3 & s3 & R3 & Hr3 & S3). rewrite R3.
  pose proof (rel_inv _ _ Hr3) as HI3.
  destruct (run_mm_multiply i n s3 e1 e3 HI3 Hn (se_rel _ _ _ _ _ Hr3 S1') S3) as (e4 & s4 & R4 & Hr4 & S4).
  exists e4, s4. split; auto. split; [rt|auto].
Qed.
End SafeM.
