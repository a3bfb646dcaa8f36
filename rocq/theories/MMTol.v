(* MMTol.v -- mm_add2 / mm_add for every tolerance, executed on one thread (they
   create no fiber).  With a positive tolerance canonicity fails, and a result
   cached at one level of recursion is reused at others; the argument is that
   the two diagonal blocks of an identity level are the same recursive call, and
   the second finds the entry written by the first. *)
From Coq Require Import Reals Lra Psatz ZArith Bool List Lia FunctionalExtensionality.
From Coquelicot Require Import Complex.
From Verif Require Import Num State DD RNum Wf Sums Err Inv Wp Make Add MulV Canon MM.
Import ListNotations.
Open Scope Z_scope.

Section MMTol.
Context (tau : R) {HTol : Tol tau}.
Let Htau : (0 <= tau < 1 / 2)%R := tol_ok.
#[local] Hint Extern 0 NumOps => exact (RNum tau) : typeclass_instances.
Context {CF : Cfg}.
Notation table := (@table (RNum tau)).
Notation state := (@state (RNum tau)).
Notation edge := (@edge (RNum tau)).
Notation node := (@node (RNum tau)).
Notation val := (val tau).
Notation valp := (valp tau).
Notation wfe := (wfe tau).
Notation wfp := (wfp tau).
Notation reg := (reg tau).
Notation TInv := (TInv tau).
Notation Inv := (Inv tau).
Notation rel := (rel tau).
Notation dn := (dn tau).
Notation E := (@E (RNum tau)).
Notation rd := (rd tau).
Notation sumF := (sumF tau).
Notation eps := (eps tau).

(* ---- frames ---- *)
Lemma scratch_fr k i nd (s : state) : ac (scratch k i nd s) = ac s /\ mc (scratch k i nd s) = mc s.
Proof. unfold scratch. destruct (getNode i (tb s k)). split; reflexivity. Qed.
Lemma intern_fr k i nd (s : state) p s' : intern k i nd s = Some (p, s') -> ac s' = ac s /\ mc s' = mc s.
Proof.
  unfold intern. destruct (getNode i (tb s k)) as [a t]. destruct (lookup k i a nd (writeNode a nd t)) as [[p' t']|]; [|discriminate].
  intros [= _ <-]. split; reflexivity.
Qed.
Lemma makeMEdge_fr i q a b c d (s : state) e s' : run_on i (makeMEdge q a b c d) s = Some (e, s') ->
  ac s' = ac s /\ mc s' = mc s.
Proof.
  unfold makeMEdge. destruct (_ && _ && _ && _)%bool; [cbn; intros [= _ <-]; auto|].
  unfold normalizeM. destruct (forallb _ _).
  { cbn. intros [= _ <-]. apply scratch_fr. }
  destruct (iszero _).
  { cbn. intros [= _ <-]. apply scratch_fr. }
  cbn [run_on]. destruct (intern _ _ _ _) as [[p s1]|] eqn:Hi; [|discriminate]. apply intern_fr in Hi.
  destruct (readn KM p s1) as [nd|]; [|discriminate]. destruct (-1 <=? nv nd); [|discriminate].
  cbn. intros [= _ <-]. exact Hi.
Qed.

(* ---- lifting approximate denotations ---- *)
Lemma diag4_01 i : diag4 i = RtoC 0 \/ diag4 i = RtoC 1.
Proof. destruct i as [|[|[|[|i]]]]; cbn; auto. Qed.
Lemma dnt_lift' (O : nat -> (nat -> nat) -> C) t m n e err : (0 <= err)%R ->
  (forall k ix, (m <= k)%nat -> O (S k) ix = Cmult (diag4 (ix k)) (O k ix)) ->
  dnt tau KM t m e (O m) err -> (m <= n)%nat -> dnt tau KM t n e (O n) err.
Proof.
  intros Herr HO H Hle. induction Hle as [|n Hle IH]; auto.
  destruct IH as [Hw Hv]. split.
  - eapply (wfe_KM_up tau); [|exact Hw]. lia.
  - intros ix. rewrite (val_KM_up tau) by auto. rewrite HO by auto.
    replace (Cminus (Cmult (diag4 (ix n)) (val KM t n e ix)) (Cmult (diag4 (ix n)) (O n ix)))
      with (Cmult (diag4 (ix n)) (Cminus (val KM t n e ix) (O n ix))) by ring.
    rewrite Cmod_mult. specialize (Hv ix). pose proof (diag4_le1 (ix n)). pose proof (Cmod_ge_0 (diag4 (ix n))).
    pose proof (Cmod_ge_0 (Cminus (val KM t n e ix) (O n ix))). nra.
Qed.

(* a result, or zero instead of a tiny one *)
Definition fam (e x : edge) : Prop := x = e \/ (x = zeroE /\ iszero (ew e) = true).
Lemma fam_dnt t n e x F err : TInv KM t -> fam e x -> dnt tau KM t n e F err -> dnt tau KM t n x F (err + eps).
Proof.
  intros HT Hf [Hw Hv]. pose proof (eps_pos tau) as He.
  destruct Hf as [->|[-> Hz]].
  - split; auto. intros ix. specialize (Hv ix). lra.
  - split; [apply wfe_zero|]. intros ix. rewrite val_zeroE. specialize (Hv ix).
    pose proof (val_le tau KM t n e ix HT Hw) as Hb. apply (iszero_true tau) in Hz. fold eps in Hz.
    replace (Cminus (RtoC 0) (F ix)) with (Cminus (Cminus (val KM t n e ix) (F ix)) (val KM t n e ix)) by ring.
    eapply Rle_trans; [apply Cmod_triangle|]. rewrite Cmod_opp. unfold Err.eps in *. lra.
Qed.

Lemma edge_eqb_refl (e : edge) : edge_eqb e e = true.
Proof. unfold edge_eqb. now rewrite isequal_refl, ptr_eqb_refl. Qed.

(* an identity level *)
Lemma run_strip i s q e x : Inv s -> fam e x ->
  exists res s', run_on i (makeMEdge q e zeroE zeroE x) s = Some (res, s') /\ rel s s' /\ fam e res.
Proof.
  intros HI Hf. unfold makeMEdge. change (ew (@zeroE (RNum tau))) with (@c0 (RNum tau)). rewrite !iszero_c0 by lra.
  rewrite !andb_true_r. destruct (ptr_eqb (en e) (en x) && isequal (ew e) (ew x)) eqn:Hs.
  { exists e, s. split; [reflexivity|]. split; [now apply rel_refl|]. now left. }
  destruct Hf as [->|[-> Hz]].
  { rewrite ptr_eqb_refl, isequal_refl in Hs. discriminate. }
  assert (Hsc : forall nd, exists res s', run_on i (CScratch KM nd (CRet zeroE)) s = Some (res, s') /\ rel s s' /\ fam e res).
  { intros nd. cbn. eexists _, _. split; [reflexivity|]. split; [now apply scratch_rel|]. right. auto. }
  unfold normalizeM. destruct (forallb _ _); [apply Hsc|].
  set (mw := ew (max_elt e [zeroE; zeroE; zeroE])).
  assert (Hmw : iszero (cmul mw c1) = true).
  { assert (Hm : mw = ew e \/ mw = c0).
    { unfold mw, max_elt. cbn [fold_left].
      repeat match goal with |- context [if ?b then _ else _] => destruct b end; cbn; auto. }
    assert (h : cmul mw c1 = mw) by (rewrite cmul_C, c1_C; toC; ring). rewrite h.
    destruct Hm as [->| ->]; [exact Hz|]. apply iszero_c0; lra. }
  rewrite Hmw. apply Hsc.
Qed.

(* ---- the addition cache on one thread ---- *)
Lemma afind_aset i l r (res : edge) s s' v : aset KM i l r res s = Some s' ->
  getVar KM (en res) s = Some v -> v <> -2 -> afind KM i l r s' = Some res.
Proof.
  unfold aset, afind. destruct (aorder KM l r s) as [[[lv a] b]|] eqn:Ho; [|discriminate].
  destruct (level_ok lv) eqn:Hl; [|discriminate]. intros [= <-] Hg Hv.
  assert (Ho' : aorder KM l r (set_ac s i KM lv (hpair KM a b mod NBUCKETS) (Some {| a_l := a; a_r := b; a_res := res |})) = Some (lv, a, b)) by exact Ho.
  rewrite Ho', Hl. cbn [ac set_ac]. rewrite Nat.eqb_refl, !Z.eqb_refl. cbn [kind_eqb andb a_l a_r a_res].
  rewrite !edge_eqb_refl. cbn [andb]. change (getVar KM (en res) _) with (getVar KM (en res) s). rewrite Hg.
  destruct (Z.eqb_spec v (-2)); [contradiction|reflexivity].
Qed.

(* operands on which mm_add2 consults the cache *)
Definition gd (l r : edge) : Prop :=
  edge_eqb l zeroE = false /\ edge_eqb r zeroE = false /\ iszero (ew l) = false /\ iszero (ew r) = false /\
  ptr_eqb (en l) (en r) = false.
Lemma add2_z m r : mm_add2 m zeroE r = CRet r.
Proof. destruct m; cbn [mm_add2]; now rewrite edge_eqb_refl. Qed.
Lemma add2_zr m l : mm_add2 m l zeroE = CRet (if edge_eqb l zeroE then zeroE else l).
Proof. destruct m; cbn [mm_add2]; now rewrite edge_eqb_refl, orb_true_r. Qed.

Lemma aorder_lev s m (l r : edge) : Inv s -> wfp KM (tb s KM) (S m) (en l) -> wfp KM (tb s KM) (S m) (en r) ->
  ptr_eqb (en l) (en r) = false ->
  exists lv a b, aorder KM l r s = Some (lv, a, b) /\ 0 <= lv < Z.of_nat (S m) /\
    (forall n', wfe KM (tb s KM) n' l -> wfe KM (tb s KM) n' r -> lv < Z.of_nat n') /\
    wfp KM (tb s KM) (S (Z.to_nat lv)) (en l) /\ wfp KM (tb s KM) (S (Z.to_nat lv)) (en r).
Proof.
  intros HI Hpl Hpr Heq. assert (HT : TInv KM (tb s KM)) by apply HI.
  assert (Hnode : (exists a, en l = Node a) \/ (exists a, en r = Node a)).
  { destruct Hpl as [h|(a & nd & h & _)]; [|eauto]. destruct Hpr as [h'|(a & nd & h' & _)]; [|eauto].
    rewrite h, h', ptr_eqb_refl in Heq. discriminate. }
  assert (Hgv : forall p, wfp KM (tb s KM) (S m) p -> (p = Term /\ getVar KM p s = Some (-1)) \/
            exists a nd, p = Node a /\ reg KM (tb s KM) a nd /\ 0 <= nv nd < Z.of_nat (S m) /\ getVar KM p s = Some (nv nd)).
  { intros p [->|(x & nd & -> & h2 & h3)]; [left; auto|right]. exists x, nd. split; auto. split; auto.
    pose proof (reg_ok tau KM _ _ _ HT h2) as Hok. pose proof (no_level _ _ _ _ Hok). split; [lia|].
    unfold getVar. rewrite (readn_reg tau KM s x nd); auto. }
  assert (Hup : forall x nd lv, reg KM (tb s KM) x nd -> nv nd <= lv -> 0 <= lv -> wfp KM (tb s KM) (S (Z.to_nat lv)) (Node x)).
  { intros x nd z hr hz hz0. right. exists x, nd. split; auto. split; auto. lia. }
  assert (Hlt : forall (e : edge) x nd n', en e = Node x -> reg KM (tb s KM) x nd -> 0 <= nv nd -> wfe KM (tb s KM) n' e -> nv nd < Z.of_nat n').
  { intros e x nd n' h1 h2 h3 h4. pose proof (node_not_low tau (tb s KM) (Z.to_nat (nv nd)) n' e x nd h1 h2 ltac:(lia) h4). lia. }
  unfold aorder.
  destruct (Hgv _ Hpl) as [[hl hl2]|(x & nd & hl & hl2 & hl3 & hl4)];
  destruct (Hgv _ Hpr) as [[hr hr2]|(y & nd' & hr & hr2 & hr3 & hr4)].
  - exfalso. destruct Hnode as [[z hz]|[z hz]]; congruence.
  - rewrite hl2, hr4. assert (Hc : (-1 <? nv nd') = true) by (apply Z.ltb_lt; lia). rewrite Hc.
    eexists _, _, _. split; [reflexivity|]. split; auto. split; [intros n' _ h; now apply (Hlt r y nd' n')|].
    rewrite hl, hr. split; [now left|]. apply (Hup y nd'); auto; lia.
  - rewrite hl4, hr2. assert (Hc : (nv nd <? -1) = false) by (apply Z.ltb_ge; lia). rewrite Hc.
    eexists _, _, _. split; [reflexivity|]. split; auto. split; [intros n' h _; now apply (Hlt l x nd n')|].
    rewrite hl, hr. split; [|now left]. apply (Hup x nd); auto; lia.
  - rewrite hl4, hr4. destruct (nv nd <? nv nd') eqn:Hc.
    + apply Z.ltb_lt in Hc. eexists _, _, _. split; [reflexivity|]. split; auto. split; [intros n' _ h; now apply (Hlt r y nd' n')|].
      rewrite hl, hr. split; [apply (Hup x nd)|apply (Hup y nd')]; auto; lia.
    + apply Z.ltb_ge in Hc. eexists _, _, _. split; [reflexivity|]. split; auto. split; [intros n' h _; now apply (Hlt l x nd n')|].
      rewrite hl, hr. split; [apply (Hup x nd)|apply (Hup y nd')]; auto; lia.
Qed.

(* what a cached-or-new sum satisfies *)
Definition wsum (l r : edge) : R := (Cmod (ew l) + Cmod (ew r))%R.
Lemma wsum_pos l r : (0 <= wsum l r)%R.
Proof. unfold wsum. pose proof (Cmod_ge_0 (ew l)). pose proof (Cmod_ge_0 (ew r)). lra. Qed.
Definition fresh_sum (s0 : state) (n : nat) (l r e0 : edge) (s : state) : Prop :=
  forall n', (n' <= n)%nat -> wfe KM (tb s0 KM) n' l -> wfe KM (tb s0 KM) n' r ->
    dnt tau KM (tb s KM) n' e0 (sumF (tb s0 KM) l r n') (ecb tau (pred n') (wsum l r)).
Definition addpost (i : tid) (s : state) (n : nat) (l r : edge) (e : edge) (s' : state) : Prop :=
  rel s s' /\ mc s' = mc s /\
  (forall n', (n' <= n)%nat -> wfe KM (tb s KM) n' l -> wfe KM (tb s KM) n' r ->
     dnt tau KM (tb s' KM) n' e (sumF (tb s KM) l r n') (eaddm tau n' (wsum l r))) /\
  (gd l r -> afind KM i l r s = Some nullE ->
     afind KM i l r s' = Some e /\ en e <> Null /\
     exists e0, fam e0 e /\ fresh_sum s n l r e0 s').

Lemma fresh_rel s0 n l r e0 s s' : Inv s -> rel s s' -> fresh_sum s0 n l r e0 s -> fresh_sum s0 n l r e0 s'.
Proof.
  intros HI Hr H n' Hn Hl Hr'. specialize (H n' Hn Hl Hr').
  eapply (dnt_ext tau); [apply HI|apply (rel_ext _ _ _ KM Hr)|exact H].
Qed.

(* writing the entry, and finding it again *)
Lemma set_sum i s m l r e0 e s6 : Inv s -> Z.of_nat (S m) <= NQUBITS -> gd l r ->
  wfp KM (tb s KM) (S m) (en l) -> wfp KM (tb s KM) (S m) (en r) ->
  rel s s6 -> fam e0 e -> fresh_sum s (S m) l r e0 s6 ->
  exists s7, aset KM i l r e s6 = Some s7 /\ rel s6 s7 /\ mc s7 = mc s6 /\ afind KM i l r s7 = Some e /\ en e <> Null.
Proof.
  intros HI Hm Hgd Hpl Hpr Hr6 Hf Hfr. pose proof (rel_inv _ _ _ Hr6) as HI6.
  assert (HT : TInv KM (tb s KM)) by apply HI. assert (HT6 : TInv KM (tb s6 KM)) by apply HI6.
  assert (He6 : ext tau KM (tb s KM) (tb s6 KM)) by apply (rel_ext _ _ _ KM Hr6).
  destruct Hgd as (_ & _ & _ & _ & Heq).
  destruct (aorder_lev s6 m l r HI6) as (lv & a & b & Ho & Hlv & _ & Hwl6 & Hwr6); auto;
    try (eapply (wfp_ext tau); eauto).
  destruct (aorder_lev s m l r HI Hpl Hpr Heq) as (lv' & a' & b' & Ho' & Hlv' & _ & Hwl & Hwr).
  assert (lv' = lv /\ a' = a /\ b' = b) as (-> & -> & ->).
  { assert (Hg : forall p v, wfp KM (tb s KM) (S m) p -> getVar KM p s = Some v -> getVar KM p s6 = Some v).
    { intros p v [->|(x & nd & -> & h2 & h3)] h; [exact h|]. unfold getVar in *.
      rewrite (readn_reg tau KM s x nd) in h by auto. now rewrite (readn_reg tau KM s6 x nd) by auto. }
    unfold aorder in Ho, Ho'. destruct (getVar KM (en l) s) eqn:G1; [|discriminate].
    destruct (getVar KM (en r) s) eqn:G2; [|discriminate].
    rewrite (Hg _ _ Hpl G1), (Hg _ _ Hpr G2) in Ho. rewrite Ho' in Ho. injection Ho as <- <- <-. auto. }
  assert (Hs : dnt tau KM (tb s6 KM) (S (Z.to_nat lv)) e (sumF (tb s KM) l r (S (Z.to_nat lv))) (ecompm tau (Z.to_nat lv) (wsum l r))).
  { unfold ecompm. eapply fam_dnt; eauto. apply (Hfr (S (Z.to_nat lv))); [lia|now left|now left]. }
  destruct (wfe_getVar tau KM s6 _ e HI6 (Logic.proj1 Hs)) as (v & Hv1 & Hv2 & Hv3).
  destruct (aset_spec tau KM i l r e s6 lv a b HI6 Ho) as (s7 & Hs7 & Hr7).
  { apply level_ok_true. lia. }
  { exists (Z.to_nat lv). cbn [a_l a_r a_res]. split; [lia|].
    destruct (aorder_cases tau _ _ _ _ _ _ _ Ho) as [(-> & -> & _)|(-> & -> & _)].
    - split; auto. split; auto. eapply (dnt_F tau); [|exact Hs]. intros ix. cbn. unfold MM.sumF.
      rewrite !(val_ext tau KM (tb s KM) (tb s6 KM)); auto; now left.
    - split; auto. split; auto. replace (Cmod (ew r) + Cmod (ew l))%R with (wsum l r) by (unfold wsum; ring).
      eapply (dnt_F tau); [|exact Hs]. intros ix. cbn. unfold MM.sumF.
      rewrite !(val_ext tau KM (tb s KM) (tb s6 KM)) by (auto; now left). ring. }
  exists s7. split; auto. split; auto. split.
  { unfold aset in Hs7. rewrite Ho in Hs7. destruct (level_ok lv); [|discriminate]. injection Hs7 as <-. reflexivity. }
  split; auto. eapply afind_aset; eauto. lia.
Qed.

Lemma mchild_le t m (e : edge) nd i : TInv KM t -> rd t (S m) (en e) nd -> (i < 4)%nat ->
  (Cmod (ew (mchild (Z.of_nat m) e nd i)) <= Cmod (ew e))%R.
Proof.
  intros HT Hrd Hi. pose proof (Cmod_ge_0 (ew e)) as Hp.
  assert (H0 : (Cmod (ew (@zeroE (RNum tau))) <= Cmod (ew e))%R).
  { change (ew (@zeroE (RNum tau))) with (RtoC 0). rewrite Cmod_0. exact Hp. }
  unfold mchild. destruct (_ && _)%bool eqn:Hc.
  - destruct Hrd as [[Ht _]|(a & Ha & Hr & _)].
    { rewrite Ht in Hc. cbn in Hc. rewrite andb_false_r in Hc. discriminate. }
    pose proof (reg_ok tau KM _ _ _ HT Hr) as Hok. pose proof (no_len _ _ _ _ Hok) as Hlen. cbn in Hlen.
    rewrite (nth_indep (nch nd) nullE zeroE) by (rewrite Hlen; lia). cbn [ew]. rewrite cmul_C, Cmod_mult.
    pose proof (reg_child_le1 tau KM t a nd i HT Hr) as H. pose proof (Cmod_ge_0 (ew (nth i (nch nd) zeroE))).
    nra.
  - destruct i as [|[|[|[|i]]]]; auto; try lia; lra.
Qed.

(* four4 blocks put together *)
Definition four4 (f : nat -> (nat -> nat) -> C) (m : nat) (ix : nat -> nat) : C :=
  match ix m with 0%nat => f 0%nat ix | 1%nat => f 1%nat ix | 2%nat => f 2%nat ix | 3%nat => f 3%nat ix | _ => RtoC 0 end.
Lemma run_assemble i m s (e0 e1 e2 e3 : edge) (f : nat -> (nat -> nat) -> C) err B :
  Inv s -> Z.of_nat m < NQUBITS -> (0 <= err)%R ->
  dnt tau KM (tb s KM) m e0 (f 0%nat) err -> dnt tau KM (tb s KM) m e1 (f 1%nat) err ->
  dnt tau KM (tb s KM) m e2 (f 2%nat) err -> dnt tau KM (tb s KM) m e3 (f 3%nat) err ->
  (forall j ix, (j < 4)%nat -> (Cmod (f j ix) <= B)%R) ->
  exists res s', run_on i (makeMEdge (Z.of_nat m) e0 e1 e2 e3) s = Some (res, s') /\ rel s s' /\
    ac s' = ac s /\ mc s' = mc s /\
    dnt tau KM (tb s' KM) (S m) res (four4 f m) (err + mkerr tau (B + err)).
Proof.
  intros HI Hm Herr D0 D1 D2 D3 HB. assert (HT : TInv KM (tb s KM)) by apply HI.
  assert (W : forall (e : edge) j, (j < 4)%nat -> dnt tau KM (tb s KM) m e (f j) err -> (Cmod (ew e) <= B + err)%R).
  { intros e j Hj D. apply (dnt_wbound tau KM _ _ _ _ _ _ HT D). intros ix. now apply HB. }
  destruct (wpr_run_on tau i _ s _ HI (wpr_makeMEdge tau m s e0 e1 e2 e3 _ _ _ _ (B + err) HI Hm
     (proj1 D0) (proj1 D1) (proj1 D2) (proj1 D3) (fun ix => eq_refl) (fun ix => eq_refl) (fun ix => eq_refl) (fun ix => eq_refl)
     (W e0 0%nat ltac:(lia) D0) (W e1 1%nat ltac:(lia) D1) (W e2 2%nat ltac:(lia) D2) (W e3 3%nat ltac:(lia) D3)))
    as (res & s' & Hrun & Hr & D).
  exists res, s'. split; auto. split; auto. pose proof (makeMEdge_fr _ _ _ _ _ _ _ _ _ Hrun) as [h1 h2].
  split; auto. split; auto. rewrite Rplus_comm. eapply (dnt_err tau); [|exact D].
  intros ix. unfold ch_F, four4. cbn [map].
  destruct (ix m) as [|[|[|[|[|j]]]]]; cbn [nth].
  - apply D0.
  - apply D1.
  - apply D2.
  - apply D3.
  - replace (Cminus (RtoC 0) (RtoC 0)) with (RtoC 0) by ring. rewrite Cmod_0. exact Herr.
  - replace (Cminus (RtoC 0) (RtoC 0)) with (RtoC 0) by ring. rewrite Cmod_0. exact Herr.
Qed.

Lemma fam_trans e0 e x : fam e0 e -> fam e x -> fam e0 x.
Proof. intros [->|[-> Hz]] [->|[-> Hz']]; unfold fam; auto. Qed.

Lemma sumF_le t l r n ix : TInv KM t -> wfe KM t n l -> wfe KM t n r -> (Cmod (sumF t l r n ix) <= wsum l r)%R.
Proof.
  intros HT Hl Hr. unfold MM.sumF, wsum. eapply Rle_trans; [apply Cmod_triangle|].
  pose proof (val_le tau KM t n l ix HT Hl). pose proof (val_le tau KM t n r ix HT Hr). lra.
Qed.

Lemma run_readp s n p nd : rd (tb s KM) n p nd -> p <> Term -> readn KM p s = Some nd.
Proof. intros [[-> _]|(a & -> & Hr & _)] H; [congruence|]. now apply (readn_reg tau). Qed.
Lemma readp_rd s n p : Inv s -> wfp KM (tb s KM) n p -> exists nd, readn KM p s = Some nd /\ rd (tb s KM) n p nd.
Proof.
  intros HI Hw. assert (HT : TInv KM (tb s KM)) by apply HI. destruct Hw as [->|(a & nd & -> & h2 & h3)].
  - eexists. split; [reflexivity|]. left. split; reflexivity.
  - exists nd. split; [now apply (readn_reg tau)|]. right. exists a. split; auto. split; auto.
    pose proof (reg_ok tau KM _ _ _ HT h2) as Hok. pose proof (no_level _ _ _ _ Hok). lia.
Qed.

Theorem run_mm_add2 i n : forall s l r, Inv s -> Z.of_nat n <= NQUBITS ->
  wfe KM (tb s KM) n l -> wfe KM (tb s KM) n r ->
  exists e s', run_on i (mm_add2 n l r) s = Some (e, s') /\ addpost i s n l r e s'.
Proof.
  pose proof (eps_pos tau) as Heps. 
  induction n as [|m IH]; intros s l r HI Hn Hl Hr;
    match goal with |- exists e s', run_on _ (mm_add2 ?nn _ _) _ = _ /\ _ => set (LN := nn) in * end;
    assert (HT : TInv KM (tb s KM)) by apply HI; pose proof (wsum_pos l r) as Hws;
    assert (Hret : forall e, ~ gd l r -> (forall n', (n' <= LN)%nat -> wfe KM (tb s KM) n' l -> wfe KM (tb s KM) n' r ->
                dnt tau KM (tb s KM) n' e (sumF (tb s KM) l r n') eps) ->
                exists e' s', Some (e, s) = Some (e', s') /\ addpost i s LN l r e' s')
      by (intros e Hng He; exists e, s; split; [reflexivity|]; split; [now apply rel_refl|]; split; [reflexivity|];
          split; [|intros h; contradiction];
          intros n' Hn' Hl' Hr'; eapply (dnt_weaken tau); [|apply He; auto];
          pose proof (eaddm_ge2 tau n' (wsum l r) Hws); lra);
    assert (Hlz : ~ gd l r -> (Cmod (ew l) <= eps)%R -> exists e' s', Some (r, s) = Some (e', s') /\ addpost i s LN l r e' s')
      by (intros Hng h; apply Hret; auto; intros n' _ Hl' Hr'; split; auto; intros ix; unfold MM.sumF;
          replace (Cminus (val KM (tb s KM) n' r ix) (Cplus (val KM (tb s KM) n' l ix) (val KM (tb s KM) n' r ix)))
            with (Copp (val KM (tb s KM) n' l ix)) by ring; rewrite Cmod_opp;
          pose proof (val_le tau KM _ n' l ix HT Hl'); lra);
    assert (Hrz : ~ gd l r -> (Cmod (ew r) <= eps)%R -> exists e' s', Some (l, s) = Some (e', s') /\ addpost i s LN l r e' s')
      by (intros Hng h; apply Hret; auto; intros n' _ Hl' Hr'; split; auto; intros ix; unfold MM.sumF;
          replace (Cminus (val KM (tb s KM) n' l ix) (Cplus (val KM (tb s KM) n' l ix) (val KM (tb s KM) n' r ix)))
            with (Copp (val KM (tb s KM) n' r ix)) by ring; rewrite Cmod_opp;
          pose proof (val_le tau KM _ n' r ix HT Hr'); lra);
    subst LN; cbn [mm_add2].
  all: destruct (edge_eqb l zeroE) eqn:Hle; cbn [orb run_on];
    [apply Hlz; [unfold gd; intros h; rewrite Hle in h; destruct h; discriminate|];
     apply (edge_eqb_mod tau) in Hle; change (ew (@zeroE (RNum tau))) with (RtoC 0) in Hle; rewrite Cmod_0 in Hle; lra|].
  all: destruct (edge_eqb r zeroE) eqn:Hre; cbn [run_on];
    [apply Hrz; [unfold gd; intros h; rewrite Hre in h; destruct h as (_ & h & _); discriminate|];
     apply (edge_eqb_mod tau) in Hre; change (ew (@zeroE (RNum tau))) with (RtoC 0) in Hre; rewrite Cmod_0 in Hre; lra|].
  all: destruct (iszero (ew l)) eqn:Hzl; cbn [run_on];
    [apply Hlz; [unfold gd; intros h; rewrite Hzl in h; destruct h as (_ & _ & h & _); discriminate|];
     now apply (iszero_true tau) in Hzl|].
  all: destruct (iszero (ew r)) eqn:Hzr; cbn [run_on];
    [apply Hrz; [unfold gd; intros h; rewrite Hzr in h; destruct h as (_ & _ & _ & h & _); discriminate|];
     now apply (iszero_true tau) in Hzr|].
  all: pose proof (nz_wfp tau _ _ _ Hl Hzl) as Hpl; pose proof (nz_wfp tau _ _ _ Hr Hzr) as Hpr.
  - rewrite (wfp0 tau _ _ HT Hpl), (wfp0 tau _ _ HT Hpr). cbn [is_term andb run_on].
    apply Hret. 
    { unfold gd. rewrite (wfp0 tau _ _ HT Hpl), (wfp0 tau _ _ HT Hpr), ptr_eqb_refl. intros (_ & _ & _ & _ & h). discriminate. }
    intros n' Hn' _ _. apply (dnt_weaken tau) with (err := 0%R); [lra|]. apply (dnt_of_exact tau); [left; now left|].
    intros ix. unfold MM.sumF, Wf.val. cbn [ew en].
    rewrite (wfp0 tau _ _ HT Hpl), (wfp0 tau _ _ HT Hpr), cadd_C. ring.
  - destruct (ptr_eqb (en l) (en r)) eqn:Heq; cbn [run_on].
    { apply Hret; [unfold gd; intros (_ & _ & _ & _ & h); congruence|].
      apply ptr_eqb_eq in Heq. intros n' Hn' Hl' _. apply (dnt_weaken tau) with (err := 0%R); [lra|]. apply (dnt_of_exact tau).
      - left. cbn [en]. now apply nz_wfp in Hl'.
      - intros ix. unfold MM.sumF, Wf.val. cbn [ew en]. rewrite <- Heq, cadd_C. ring. }
    clear Hret Hlz Hrz.
    assert (Hgd : gd l r) by (unfold gd; auto).
    assert (Hm : Z.of_nat m < NQUBITS) by lia.
    assert (Hnode : (exists a, en l = Node a) \/ (exists a, en r = Node a)).
    { destruct Hpl as [h|(a & nd & h & _)]; [|eauto]. destruct Hpr as [h'|(a & nd & h' & _)]; [|eauto].
      rewrite h, h', ptr_eqb_refl in Heq. discriminate. }
    assert (Hpos : forall n', wfe KM (tb s KM) n' l -> wfe KM (tb s KM) n' r -> exists k, n' = S k).
    { intros [|k] h1 h2; [|eauto]. apply nz_wfp in h1, h2; auto. apply wfp0 in h1, h2; auto.
      rewrite h1, h2, ptr_eqb_refl in Heq. discriminate. }
    destruct (afind_spec tau KM i l r s m HI Hl Hr Hnode Hm) as (res & Hfind & Hcase). rewrite Hfind.
    destruct (aorder_lev s m l r HI Hpl Hpr Heq) as (lv & a & b & Ho & Hlv & Hlt & Hwl & Hwr).
    (* what remains once a fresh sum has been stored *)
    assert (Hfin : forall e0 e s6, rel s s6 -> mc s6 = mc s -> fam e0 e -> fresh_sum s (S m) l r e0 s6 ->
      exists e' s', run_on i (CASet KM l r e (CRet e)) s6 = Some (e', s') /\ addpost i s (S m) l r e' s').
    { intros e0 e s6 Hr6 Hmc6 Hf Hfr.
      destruct (set_sum i s m l r e0 e s6 HI Hn Hgd Hpl Hpr Hr6 Hf Hfr) as (s7 & Hs7 & Hr7 & Hmc7 & Haf & Hnn).
      exists e, s7. cbn [run_on]. rewrite Hs7. split; [reflexivity|]. split; [eapply rel_trans; eauto|].
      split; [congruence|]. pose proof (rel_inv _ _ _ Hr6) as HI6.
      assert (Hfr7 : fresh_sum s (S m) l r e0 s7) by (eapply fresh_rel; eauto).
      assert (HT7 : TInv KM (tb s7 KM)) by apply (rel_inv _ _ _ Hr7). split.
      - intros n' Hn' Hl' Hr'. destruct (Hpos n' Hl' Hr') as (k & ->).
        eapply (dnt_weaken tau); [apply (eaddm_ecb tau k _ Hws)|]. eapply fam_dnt; eauto. apply (Hfr7 (S k)); auto.
      - intros _ _. split; auto. split; auto. exists e0. auto. }
    destruct Hcase as [->|(lv' & e & a' & b' & Ho' & Hent & Hres & Ha & Hb)].
    + (* miss *)
      cbn [en nullE is_null negb].
      destruct (readp_rd s (S m) (en l) HI Hpl) as (lnd & Hrd1 & Hrl).
      destruct (readp_rd s (S m) (en r) HI Hpr) as (rnd & Hrd2 & Hrr).
      cbn [run_on]. rewrite Hrd1. cbn [run_on]. rewrite Hrd2.
      assert (Hcase : (wfe KM (tb s KM) m l /\ wfe KM (tb s KM) m r) \/
                      (forall n', (n' <= S m)%nat -> wfe KM (tb s KM) n' l -> wfe KM (tb s KM) n' r -> n' = S m)).
      { destruct (wfe_low tau _ m l Hl) as [Hlm|(x & nd & hx1 & hx2 & hx3)];
          [destruct (wfe_low tau _ m r Hr) as [Hrm|(x & nd & hx1 & hx2 & hx3)]|]; [left; auto| |]; right;
          intros n' Hn' Hl' Hr'.
        - pose proof (node_not_low tau _ _ _ _ _ _ hx1 hx2 hx3 Hr'). lia.
        - pose proof (node_not_low tau _ _ _ _ _ _ hx1 hx2 hx3 Hl'). lia. }
      destruct Hcase as [[Hlm Hrm]|Honly].
      * (* an identity level *)
        pose proof (nz_wfp tau _ _ _ Hlm Hzl) as Hplm. pose proof (nz_wfp tau _ _ _ Hrm Hzr) as Hprm.
        destruct (mchild_spec tau (tb s KM) m l lnd 0 HT Hrl ltac:(lia)) as (_ & _ & X0).
        destruct (mchild_spec tau (tb s KM) m l lnd 1 HT Hrl ltac:(lia)) as (_ & _ & X1).
        destruct (mchild_spec tau (tb s KM) m l lnd 2 HT Hrl ltac:(lia)) as (_ & _ & X2).
        destruct (mchild_spec tau (tb s KM) m l lnd 3 HT Hrl ltac:(lia)) as (_ & _ & X3).
        destruct (mchild_spec tau (tb s KM) m r rnd 0 HT Hrr ltac:(lia)) as (_ & _ & Y0).
        destruct (mchild_spec tau (tb s KM) m r rnd 1 HT Hrr ltac:(lia)) as (_ & _ & Y1).
        destruct (mchild_spec tau (tb s KM) m r rnd 2 HT Hrr ltac:(lia)) as (_ & _ & Y2).
        destruct (mchild_spec tau (tb s KM) m r rnd 3 HT Hrr ltac:(lia)) as (_ & _ & Y3).
        cbn zeta in X0, X1, X2, X3, Y0, Y1, Y2, Y3.
        rewrite X0, X1, X2, X3, Y0, Y1, Y2, Y3 by auto. rewrite !add2_z.
        destruct (IH s l r HI ltac:(lia) Hlm Hrm) as (e0 & s1 & Hrun & Hr1 & Hmc1 & _ & Hhit).
        destruct (Hhit Hgd Hfind) as (Haf & Hnn & e00 & Hf & Hfr).
        rewrite run_on_bind, Hrun. cbn [bind]. rewrite run_on_bind.
        pose proof (rel_inv _ _ _ Hr1) as HI1.
        (* the second call finds the entry of the first *)
        assert (Hrun2 : run_on i (mm_add2 m l r) s1 = Some (if iszero (ew e0) then zeroE else e0, s1)).
        { destruct (Hpos m Hlm Hrm) as (k & ->). cbn [mm_add2]. rewrite Hle, Hre. cbn [orb]. rewrite Hzl, Hzr, Heq.
          cbn [run_on]. rewrite Haf. destruct (en e0) eqn:He0; [contradiction| |]; reflexivity. }
        rewrite Hrun2. rewrite run_on_bind.
        assert (Hf2 : fam e0 (if iszero (ew e0) then zeroE else e0)) by (unfold fam; destruct (iszero (ew e0)) eqn:?; auto).
        destruct (run_strip i s1 (Z.of_nat m) e0 _ HI1 Hf2) as (rs & s6 & Hrun3 & Hr6 & Hf3). rewrite Hrun3.
        pose proof (makeMEdge_fr _ _ _ _ _ _ _ _ _ Hrun3) as [_ Hmc6].
        apply (Hfin e00 rs s6); [eapply rel_trans; eauto|congruence|eapply fam_trans; eauto|].
        assert (Hfr6 : fresh_sum s m l r e00 s6) by (eapply fresh_rel; eauto).
        intros n' Hn' Hl' Hr'. destruct (Nat.eq_dec n' (S m)) as [->|]; [|apply Hfr6; auto; lia].
        eapply (dnt_weaken tau) with (err := ecb tau (pred m) (wsum l r)).
        { apply ecb_up; auto. cbn [pred]. lia. }
        eapply (dnt_lift' (sumF (tb s KM) l r)) with (m := m); [apply ecb_pos; auto| |apply Hfr6; auto|lia].
        intros k ix Hk. apply (sumF_up tau); eapply (wfe_KM_up tau); eauto.
      * (* some operand has a node at this level *)
        set (T := fun j ix => sumF (tb s KM) l r (S m) (ixset ix m j)).
        assert (Hsub : forall j s2, (j < 4)%nat -> rel s s2 ->
          exists e s3, run_on i (mm_add2 m (mchild (Z.of_nat m) l lnd j) (mchild (Z.of_nat m) r rnd j)) s2 = Some (e, s3) /\
            rel s2 s3 /\ mc s3 = mc s2 /\ dnt tau KM (tb s3 KM) m e (T j) (eaddm tau m (wsum l r))).
        { intros j s2 Hj Hr2. pose proof (rel_inv _ _ _ Hr2) as HI2.
          assert (He2 : ext tau KM (tb s KM) (tb s2 KM)) by apply (rel_ext _ _ _ KM Hr2).
          destruct (mchild_spec tau (tb s KM) m l lnd j HT Hrl Hj) as (Hw1 & Hv1 & _).
          destruct (mchild_spec tau (tb s KM) m r rnd j HT Hrr Hj) as (Hw2 & Hv2 & _). cbn zeta in *.
          pose proof (mchild_le (tb s KM) m l lnd j HT Hrl Hj) as B1. pose proof (mchild_le (tb s KM) m r rnd j HT Hrr Hj) as B2.
          set (lj := mchild (Z.of_nat m) l lnd j) in *. set (rj := mchild (Z.of_nat m) r rnd j) in *.
          pose proof (wfe_ext tau KM _ _ m _ He2 Hw1) as Hw1'. pose proof (wfe_ext tau KM _ _ m _ He2 Hw2) as Hw2'.
          destruct (IH s2 lj rj HI2 ltac:(lia) Hw1' Hw2') as (e & s3 & Hrun & Hr3 & Hmc3 & HD & _).
          exists e, s3. split; auto. split; auto. split; auto.
          eapply (dnt_weaken tau); [apply (eaddm_mono tau m (wsum lj rj) (wsum l r)); split; [apply wsum_pos|unfold wsum; lra]|].
          eapply (dnt_F tau); [|apply (HD m); auto].
          intros ix. unfold MM.sumF. rewrite !(val_ext tau KM (tb s KM) (tb s2 KM)) by auto. rewrite Hv1, Hv2. reflexivity. }
        destruct (Hsub 0%nat s ltac:(lia) ltac:(now apply rel_refl)) as (e0 & s1 & R0 & Hr1 & M1 & D0).
        rewrite run_on_bind, R0. pose proof (rel_inv _ _ _ Hr1) as HI1.
        destruct (Hsub 1%nat s1 ltac:(lia) Hr1) as (e1 & s2 & R1 & Hr2 & M2 & D1).
        rewrite run_on_bind, R1. pose proof (rel_inv _ _ _ Hr2) as HI2. assert (Hr02 : rel s s2) by (eapply rel_trans; eauto).
        destruct (Hsub 2%nat s2 ltac:(lia) Hr02) as (e2 & s3 & R2 & Hr3 & M3 & D2).
        rewrite run_on_bind, R2. pose proof (rel_inv _ _ _ Hr3) as HI3. assert (Hr03 : rel s s3) by (eapply rel_trans; eauto).
        destruct (Hsub 3%nat s3 ltac:(lia) Hr03) as (e3 & s4 & R3 & Hr4 & M4 & D3).
        rewrite run_on_bind, R3. pose proof (rel_inv _ _ _ Hr4) as HI4. assert (Hr04 : rel s s4) by (eapply rel_trans; eauto).
        assert (Hr34 : rel s3 s4) by auto. assert (Hr24 : rel s2 s4) by (eapply rel_trans; eauto).
        assert (Hr14 : rel s1 s4) by (eapply rel_trans; eauto).
        assert (Hext : forall sa (e : edge) F err, Inv sa -> rel sa s4 -> dnt tau KM (tb sa KM) m e F err -> dnt tau KM (tb s4 KM) m e F err).
        { intros sa e F err h1 h2 h3. eapply (dnt_ext tau); [apply h1|apply (rel_ext _ _ _ KM h2)|exact h3]. }
        destruct (run_assemble i m s4 e0 e1 e2 e3 T (eaddm tau m (wsum l r)) (wsum l r) HI4 Hm) as (res & s5 & R5 & Hr5 & _ & M5 & D5);
          [apply eaddm_pos; auto|apply (Hext s1); auto|apply (Hext s2); auto|apply (Hext s3); auto|auto| |].
        { intros j ix _. unfold T. now apply sumF_le. }
        rewrite run_on_bind, R5.
        apply (Hfin res res s5); [eapply rel_trans; eauto|congruence|now left|].
        intros n' Hn' Hl' Hr'. assert (n' = S m) as -> by auto. cbn [pred]. eapply (dnt_F tau); [|exact D5].
        intros ix. unfold four4.
        assert (HTi : forall j, ix m = j -> T j ix = sumF (tb s KM) l r (S m) ix).
        { intros j Hj. unfold T, MM.sumF. rewrite !(val_local tau KM _ (S m) _ (ixset ix m j) ix); auto;
            intros z _; unfold ixset; destruct (Nat.eqb_spec z m); congruence. }
        destruct (ix m) as [|[|[|[|j]]]] eqn:Hix; try (now apply HTi).
        symmetry. unfold MM.sumF. rewrite !(val_KM_big tau _ m) by (auto; lia). ring.
    + (* hit *)
      rewrite Ho in Ho'. injection Ho' as <- <- <-.
      destruct Hent as (m' & Hlv' & Hwa & Hwb & HD).
      assert (HD2 : dnt tau KM (tb s KM) (S m') (a_res e) (sumF (tb s KM) l r (S m')) (ecompm tau m' (wsum l r + 2 * eps) + 2 * eps)).
      { pose proof (edge_eqb_mod tau _ _ Ha) as Ma. pose proof (edge_eqb_mod tau _ _ Hb) as Mb.
        eapply (dnt_err tau).
        2:{ eapply (dnt_weaken tau); [|exact HD]. apply (ecompm_mono tau).
            pose proof (Cmod_ge_0 (ew (a_l e))). pose proof (Cmod_ge_0 (ew (a_r e))).
            destruct (aorder_cases tau _ _ _ _ _ _ _ Ho) as [(-> & -> & _)|(-> & -> & _)]; unfold wsum; lra. }
        intros ix.
        assert (Hsw : sumF (tb s KM) l r (S m') ix = Cplus (val KM (tb s KM) (S m') a ix) (val KM (tb s KM) (S m') b ix)).
        { destruct (aorder_cases tau _ _ _ _ _ _ _ Ho) as [(-> & -> & _)|(-> & -> & _)]; unfold MM.sumF; ring. }
        rewrite Hsw.
        match goal with |- (Cmod ?X <= _)%R => replace X with
          (Cplus (Cminus (val KM (tb s KM) (S m') (a_l e) ix) (val KM (tb s KM) (S m') a ix))
                 (Cminus (val KM (tb s KM) (S m') (a_r e) ix) (val KM (tb s KM) (S m') b ix))) by ring end.
        eapply Rle_trans; [apply Cmod_triangle|].
        pose proof (edge_eqb_val tau KM (tb s KM) (S m') (a_l e) a ix HT (or_introl Hwa) Ha).
        pose proof (edge_eqb_val tau KM (tb s KM) (S m') (a_r e) b ix HT (or_introl Hwb) Hb). lra. }
      rewrite Hres in HD2.
      destruct (wfe_getVar tau KM s _ res HI (Logic.proj1 HD2)) as (v & _ & _ & Hnn).
      assert (Hnull : is_null (en res) = false) by (destruct (en res); auto; contradiction).
      rewrite Hnull. cbn [negb run_on].
      eexists _, _. split; [reflexivity|]. split; [now apply rel_refl|]. split; [reflexivity|]. split.
      2:{ intros _ h. rewrite Hfind in h. injection h as ->. cbn in Hnull. discriminate. }
      intros n' Hn' Hl' Hr'. specialize (Hlt n' Hl' Hr').
      eapply (dnt_weaken tau); [apply (eaddm_up tau (S m') n' (wsum l r)); auto; lia|].
      eapply (dnt_lift' (sumF (tb s KM) l r)) with (m := S m'); [apply eaddm_pos; auto| | |lia].
      { assert (Z.to_nat lv = m') by lia. intros k ix Hk. subst m'.
        apply (sumF_up tau); left; eapply (wfp_KM_up tau); eauto. }
      rewrite eaddm_S. replace (ecompm tau m' (wsum l r + 2 * eps) + 3 * eps)%R with (ecompm tau m' (wsum l r + 2 * eps) + 2 * eps + eps)%R by ring.
      eapply fam_dnt; [exact HT| |exact HD2]. unfold fam. destruct (iszero (ew res)) eqn:?; auto.
Qed.
End MMTol.
