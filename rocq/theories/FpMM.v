(* FpMM.v -- mm_add2 / mm_add over a rounded arithmetic, on one thread (follows MMTol.v).
   Rounding makes canonicity fail, and a result cached at one level of recursion is reused
   at others; the two diagonal blocks of an identity level are the same recursive call, and
   the second finds the entry written by the first. *)
From Coq Require Import Reals Lra Psatz ZArith Bool List Lia.
From Coquelicot Require Import Complex.
From Verif Require Import Num State DD RNum Wf Sums Inv Wp MulV FpA FpE FpW FpM FpAdd FpMul.
Import ListNotations.
Open Scope Z_scope.

Section FpMM.
Context {NO : NumOps} {AC : Accur NO} {CF : Cfg}.
Notation dl := (@dl NO AC).
Notation Gr := (@Gr NO AC).
Notation Gp := (@Gp NO AC).
Notation mkerr := (@mkerr NO AC).
Notation eaddm := (@eaddm NO AC).
Notation ecb := (@ecb NO AC).
Notation ecompm := (@ecompm NO AC).
Notation wup := (@wup NO AC).
Notation cerr := (@cerr NO AC).

(* reading through a matrix pointer that may be the terminal *)
Definition rd (t : table) (n : nat) (p : ptr) (nd : node) : Prop :=
  (p = Term /\ nv nd = -1) \/ (exists a, p = Node a /\ reg KM t a nd /\ 0 <= nv nd < Z.of_nat n).
(* operands restricted to a block *)
Lemma mchild_spec t m (e : edge) nd i : TInv KM t -> rd t (S m) (en e) nd -> (i < 4)%nat ->
  let x := mchild (Z.of_nat m) e nd i in
  wfe KM t m x /\
  (forall ix, Cmod (Cminus (val KM t m x ix) (blk (val KM t (S m) e) m i ix)) <= (dl * Gr * Cmod (cv (ew e)) + dl) * Gp m)%R /\
  (Cmod (cv (ew x)) <= Gr * Gr * Cmod (cv (ew e)) + dl)%R /\
  (wfp KM t m (en e) -> x = match i with 1%nat | 2%nat => zeroE | _ => e end).
Proof.
  intros HT Hrd Hi. unfold mchild.
  pose proof dl_pos as Hd. pose proof Gr_ge1 as HG. pose proof (Cmod_ge_0 (cv (ew e))) as He0.
  assert (Hb0 : (0 <= (dl * Gr * Cmod (cv (ew e)) + dl) * Gp m)%R).
  { apply Rmult_le_pos; [|apply Grp]. apply Rplus_le_le_0_compat; [|exact Hd]. apply Rmult_le_pos; [apply Rmult_le_pos; lra|exact He0]. }
  assert (Hb1 : (Cmod (cv (ew e)) <= Gr * Gr * Cmod (cv (ew e)) + dl)%R) by (assert (1 * Cmod (cv (ew e)) <= Gr * Gr * Cmod (cv (ew e)))%R by (apply Rmult_le_compat_r; nra); lra).
  assert (Hlow : wfp KM t m (en e) ->
     let x := match i with 1%nat | 2%nat => zeroE | _ => e end in
     wfe KM t m x /\ (forall ix, Cmod (Cminus (val KM t m x ix) (blk (val KM t (S m) e) m i ix)) <= (dl * Gr * Cmod (cv (ew e)) + dl) * Gp m)%R /\
     (Cmod (cv (ew x)) <= Gr * Gr * Cmod (cv (ew e)) + dl)%R).
  { intros Hp.
    assert (Hup : forall ix, blk (val KM t (S m) e) m i ix = Cmult (diag4 i) (val KM t m e ix)).
    { intros ix. unfold blk. rewrite val_KM_up by (now left). rewrite ixset_same. f_equal.
      apply val_local. intros l Hl. apply ixset_other. lia. }
    assert (Hz : (Cmod (cv (ew zeroE)) <= Gr * Gr * Cmod (cv (ew e)) + dl)%R) by (cbn [ew zeroE]; rewrite cv_0, Cmod_0; lra).
    destruct i as [|[|[|[|i]]]]; try lia; cbn zeta;
      (split; [first [apply wfe_zero | left; exact Hp]|]; split; [|assumption]; intros ix; rewrite Hup, ?val_zeroE; cbn [diag4];
       match goal with |- (Cmod ?X <= _)%R => replace X with (RtoC 0) by ring end; rewrite Cmod_0; exact Hb0). }
  destruct Hrd as [[Ht Hv]|(a & Ha & Hr & Hv)].
  - rewrite Ht in *. cbn [is_term negb]. rewrite andb_false_r.
    destruct (Hlow (or_introl eq_refl)) as (h1 & h2 & h3). auto.
  - rewrite Ha in *. cbn [is_term negb]. rewrite andb_true_r.
    pose proof (reg_ok KM _ _ _ HT Hr) as Hok. pose proof (no_len _ _ _ Hok) as Hlen. cbn in Hlen.
    destruct (nv nd =? Z.of_nat m) eqn:Hc.
    + apply Z.eqb_eq in Hc. rewrite (nth_indep (nch nd) nullE zeroE) by (rewrite Hlen; lia).
      pose proof (reg_child KM t a nd i HT Hr) as Hcw. rewrite Hc, Nat2Z.id in Hcw.
      pose proof (reg_child_le1 KM t a nd i HT Hr) as Hc1. set (c := nth i (nch nd) zeroE) in *.
      pose proof (Cmod_ge_0 (cv (ew c))) as Hc0.
      assert (Hm : (Cmod (cv (ew e)) * Cmod (cv (ew c)) <= Gr * Cmod (cv (ew e)))%R).
      { rewrite Rmult_comm. apply Rmult_le_compat_r; auto. }
      assert (Herr : (Cmod (Cminus (cv (cmul (ew e) (ew c))) (Cmult (cv (ew e)) (cv (ew c)))) <= dl * Gr * Cmod (cv (ew e)) + dl)%R).
      { eapply Rle_trans; [apply cmul_err|].
        assert (dl * (Cmod (cv (ew e)) * Cmod (cv (ew c))) <= dl * (Gr * Cmod (cv (ew e))))%R by (apply Rmult_le_compat_l; auto).
        lra. }
      split; [now apply wfe_scale|]. split; [|split].
      * intros ix. unfold blk, FpA.val. cbn [ew en]. rewrite Ha, (valp_S_node KM t m a nd) by auto.
        rewrite ixset_same. fold c. unfold FpA.val.
        rewrite (valp_local KM t m (en c) (ixset ix m i) ix) by (intros l Hl; apply ixset_other; lia).
        match goal with |- (Cmod (Cminus (Cmult ?x ?v) (Cmult ?y (Cmult ?z ?v))) <= _)%R =>
          replace (Cminus (Cmult x v) (Cmult y (Cmult z v))) with (Cmult (Cminus x (Cmult y z)) v) by ring end.
        rewrite Cmod_mult. apply Rmult_le_compat; auto using Cmod_ge_0.
        apply valp_le1; auto. destruct Hcw as [|[_ ?]]; auto.
      * cbn [ew]. apply Cmod_sub_le in Herr. rewrite Cmod_mult in Herr.
        replace (Gr * Gr * Cmod (cv (ew e)) + dl)%R with (Gr * Cmod (cv (ew e)) + (dl * Gr * Cmod (cv (ew e)) + dl))%R; [lra|].
        unfold FpA.Gr. ring.
      * intros [h|(a' & nd' & [= <-] & h2 & h3)]; [discriminate|].
        pose proof (reg_fun _ _ _ _ _ h2 Hr). subst. lia.
    + apply Z.eqb_neq in Hc.
      destruct Hlow as (h1 & h2 & h3); auto. right. exists a, nd. split; auto. split; auto. lia.
Qed.

(* matrix entries with a child index >= 4 are 0 *)
Lemma val_KM_big t m e ix : TInv KM t -> wfe KM t (S m) e -> (4 <= ix m)%nat -> val KM t (S m) e ix = RtoC 0.
Proof.
  intros HT Hw Hi.
  assert (Hd : diag4 (ix m) = RtoC 0) by (destruct (ix m) as [|[|[|[|j]]]]; auto; lia).
  destruct Hw as [[h|(a & nd & h1 & h2 & h3)]|[h _]].
  - unfold FpA.val. rewrite h, valp_S_term. cbn [skipf]. rewrite Hd. ring.
  - unfold FpA.val. rewrite h1. destruct (Z.eq_dec (nv nd) (Z.of_nat m)) as [Hc|Hc].
    + rewrite (valp_S_node KM t m a nd) by auto.
      assert (Hlen : length (nch nd) = 4%nat) by (apply (no_len KM t); eapply reg_ok; eauto).
      rewrite nth_overflow by lia. rewrite val_zeroE. ring.
    + rewrite (valp_S_skip KM t m a nd) by auto. cbn [skipf]. rewrite Hd. ring.
  - now apply (val_zw).
Qed.
Lemma blk_same k t n e F m ix i : (forall ix, val k t n e ix = F ix) -> ix m = i -> F (ixset ix m i) = F ix.
Proof. apply (F_ixset). Qed.

Definition sumF (t : table) (l r : edge) (n : nat) (ix : nat -> nat) : C :=
  Cplus (val KM t n l ix) (val KM t n r ix).
Lemma sumF_up t l r m ix : wfe KM t m l -> wfe KM t m r ->
  sumF t l r (S m) ix = Cmult (diag4 (ix m)) (sumF t l r m ix).
Proof. intros Hl Hr. unfold sumF. rewrite !(val_KM_up) by auto. ring. Qed.
Lemma sumF_ext t t' l r n ix : TInv KM t -> ext KM t t' -> wfe KM t n l -> wfe KM t n r ->
  sumF t' l r n ix = sumF t l r n ix.
Proof. intros. unfold sumF. now rewrite !(val_ext KM t t'). Qed.

Lemma wfe_low t m e : wfe KM t (S m) e ->
  wfe KM t m e \/ exists a nd, en e = Node a /\ reg KM t a nd /\ nv nd = Z.of_nat m.
Proof.
  intros [[h|(a & nd & h1 & h2 & h3)]|h]; [left; left; now left| |left; now right].
  destruct (Z.eq_dec (nv nd) (Z.of_nat m)); [right; eauto|].
  left. left. right. exists a, nd. split; auto. split; auto. lia.
Qed.
Lemma node_not_low t m n' (e : edge) a nd : en e = Node a -> reg KM t a nd -> nv nd = Z.of_nat m ->
  wfe KM t n' e -> (m < n')%nat.
Proof.
  intros Ha Hr Hv [[h|(a' & nd' & h1 & h2 & h3)]|[_ h]]; try congruence.
  rewrite Ha in h1. injection h1 as <-. pose proof (reg_fun _ _ _ _ _ h2 Hr). subst. lia.
Qed.
Lemma nz_wfp n t (e : edge) : wfe KM t n e -> iszero (ew e) = false -> wfp KM t n (en e).
Proof. intros H Hz. apply (wfe_nz KM t n e) in H; auto. now apply z_nz. Qed.
Lemma wfp0 t p : TInv KM t -> wfp KM t 0 p -> p = Term.
Proof.
  intros HT [h|(a & nd & h1 & h2 & h3)]; auto. apply (reg_ok KM) in h2; auto.
  pose proof (no_level _ _ _ h2). lia.
Qed.

(* ---- frames ---- *)
Lemma scratch_fr k i nd (s : state) : ac (scratch k i nd s) = ac s /\ mc (scratch k i nd s) = mc s.
Proof. unfold scratch. destruct (getNode i (tb s k)). split; reflexivity. Qed.
Lemma intern_fr k i nd (s : state) p s' : intern k i nd s = Some (p, s') -> ac s' = ac s /\ mc s' = mc s.
Proof.
  unfold intern. destruct (getNode i (tb s k)) as [a t]. destruct (lookup k i a nd (writeNode a nd t)) as [[p' t']|]; [|discriminate].
  intros [= _ <-]. split; reflexivity.
Qed.
Lemma makeMEdge_fr i q a b c d (s : state) e s' : run_on i (makeMEdge q a b c d) s = Some (e, s') ->
  ac s' = ac s /\ mc s' = mc s.
Proof.
  unfold makeMEdge. destruct (_ && _ && _ && _)%bool; [cbn; intros [= _ <-]; auto|].
  unfold normalizeM. destruct (forallb _ _).
  { cbn. intros [= _ <-]. apply scratch_fr. }
  destruct (iszero _).
  { cbn. intros [= _ <-]. apply scratch_fr. }
  cbn [run_on]. destruct (intern _ _ _ _) as [[p s1]|] eqn:Hi; [|discriminate]. apply intern_fr in Hi.
  destruct (readn KM p s1) as [nd|]; [|discriminate]. destruct (-1 <=? nv nd); [|discriminate].
  cbn. intros [= _ <-]. exact Hi.
Qed.

(* ---- lifting approximate denotations ---- *)
Lemma diag4_01 i : diag4 i = RtoC 0 \/ diag4 i = RtoC 1.
Proof. destruct i as [|[|[|[|i]]]]; cbn; auto. Qed.
Lemma dnt_lift' (O : nat -> (nat -> nat) -> C) t m n e err : (0 <= err)%R ->
  (forall k ix, (m <= k)%nat -> O (S k) ix = Cmult (diag4 (ix k)) (O k ix)) ->
  dnt KM t m e (O m) err -> (m <= n)%nat -> dnt KM t n e (O n) err.
Proof.
  intros Herr HO H Hle. induction Hle as [|n Hle IH]; auto.
  destruct IH as [Hw Hv]. split.
  - eapply (wfe_KM_up); [|exact Hw]. lia.
  - intros ix. rewrite (val_KM_up) by auto. rewrite HO by auto.
    replace (Cminus (Cmult (diag4 (ix n)) (val KM t n e ix)) (Cmult (diag4 (ix n)) (O n ix)))
      with (Cmult (diag4 (ix n)) (Cminus (val KM t n e ix) (O n ix))) by ring.
    rewrite Cmod_mult. specialize (Hv ix). pose proof (diag4_le1 (ix n)). pose proof (Cmod_ge_0 (diag4 (ix n))).
    pose proof (Cmod_ge_0 (Cminus (val KM t n e ix) (O n ix))). nra.
Qed.

(* a result, or zero instead of a tiny one *)
Definition fam (e x : edge) : Prop := x = e \/ (x = zeroE /\ iszero (ew e) = true).
Lemma fam_dnt t n e x F err : TInv KM t -> fam e x -> dnt KM t n e F err -> dnt KM t n x F (err + dl * Gp n).
Proof.
  intros HT Hf [Hw Hv]. pose proof (dGp_pos n) as He.
  destruct Hf as [->|[-> Hz]].
  - split; auto. intros ix. specialize (Hv ix). lra.
  - split; [apply wfe_zero|]. intros ix. rewrite val_zeroE. specialize (Hv ix).
    pose proof (val_le KM t n e ix HT Hw) as Hb. apply z_true in Hz.
    assert (Cmod (cv (ew e)) * Gp n <= dl * Gp n)%R by (apply Rmult_le_compat_r; [apply Grp|exact Hz]).
    replace (Cminus (RtoC 0) (F ix)) with (Cminus (Cminus (val KM t n e ix) (F ix)) (val KM t n e ix)) by ring.
    eapply Rle_trans; [apply Cmod_triangle|]. rewrite Cmod_opp. lra.
Qed.

Lemma edge_eqb_refl (e : edge) : edge_eqb e e = true.
Proof. unfold edge_eqb. now rewrite eq_refl', ptr_eqb_refl. Qed.

(* an identity level *)
Lemma run_strip i s q e x : Inv s -> fam e x ->
  exists res s', run_on i (makeMEdge q e zeroE zeroE x) s = Some (res, s') /\ rel s s' /\ fam e res.
Proof.
  intros HI Hf. unfold makeMEdge. change (ew zeroE) with c0. rewrite !(z_0 c0 cv_0).
  rewrite !andb_true_r. destruct (ptr_eqb (en e) (en x) && isequal (ew e) (ew x)) eqn:Hs.
  { exists e, s. split; [reflexivity|]. split; [now apply rel_refl|]. now left. }
  destruct Hf as [->|[-> Hz]].
  { rewrite ptr_eqb_refl, eq_refl' in Hs. discriminate. }
  assert (Hsc : forall nd, exists res s', run_on i (CScratch KM nd (CRet zeroE)) s = Some (res, s') /\ rel s s' /\ fam e res).
  { intros nd. cbn. eexists _, _. split; [reflexivity|]. split; [now apply scratch_rel|]. right. auto. }
  unfold normalizeM. destruct (forallb _ _); [apply Hsc|].
  set (mw := ew (max_elt e [zeroE; zeroE; zeroE])).
  assert (Hmw : iszero (cmul mw c1) = true).
  { assert (Hm : mw = ew e \/ mw = c0).
    { unfold mw, max_elt. cbn [fold_left].
      repeat match goal with |- context [if ?b then _ else _] => destruct b end; cbn; auto. }
    rewrite cmul_1.
    destruct Hm as [->| ->]; [exact Hz|]. apply z_0, cv_0. }
  rewrite Hmw. apply Hsc.
Qed.

(* ---- the addition cache on one thread ---- *)
Lemma afind_aset i l r (res : edge) s s' v : aset KM i l r res s = Some s' ->
  getVar KM (en res) s = Some v -> v <> -2 -> afind KM i l r s' = Some res.
Proof.
  unfold aset, afind. destruct (aorder KM l r s) as [[[lv a] b]|] eqn:Ho; [|discriminate].
  destruct (level_ok lv) eqn:Hl; [|discriminate]. intros [= <-] Hg Hv.
  assert (Ho' : aorder KM l r (set_ac s i KM lv (hpair KM a b mod NBUCKETS) (Some {| a_l := a; a_r := b; a_res := res |})) = Some (lv, a, b)) by exact Ho.
  rewrite Ho', Hl. cbn [ac set_ac]. rewrite Nat.eqb_refl, !Z.eqb_refl. cbn [kind_eqb andb a_l a_r a_res].
  rewrite !edge_eqb_refl. cbn [andb]. change (getVar KM (en res) _) with (getVar KM (en res) s). rewrite Hg.
  destruct (Z.eqb_spec v (-2)); [contradiction|reflexivity].
Qed.

(* operands on which mm_add2 consults the cache *)
Definition gd (l r : edge) : Prop :=
  edge_eqb l zeroE = false /\ edge_eqb r zeroE = false /\ iszero (ew l) = false /\ iszero (ew r) = false /\
  ptr_eqb (en l) (en r) = false.
Lemma add2_z m r : mm_add2 m zeroE r = CRet r.
Proof. destruct m; cbn [mm_add2]; now rewrite edge_eqb_refl. Qed.
Lemma add2_zr m l : mm_add2 m l zeroE = CRet (if edge_eqb l zeroE then zeroE else l).
Proof. destruct m; cbn [mm_add2]; now rewrite edge_eqb_refl, orb_true_r. Qed.

Lemma aorder_lev s m (l r : edge) : Inv s -> wfp KM (tb s KM) (S m) (en l) -> wfp KM (tb s KM) (S m) (en r) ->
  ptr_eqb (en l) (en r) = false ->
  exists lv a b, aorder KM l r s = Some (lv, a, b) /\ 0 <= lv < Z.of_nat (S m) /\
    (forall n', wfe KM (tb s KM) n' l -> wfe KM (tb s KM) n' r -> lv < Z.of_nat n') /\
    wfp KM (tb s KM) (S (Z.to_nat lv)) (en l) /\ wfp KM (tb s KM) (S (Z.to_nat lv)) (en r).
Proof.
  intros HI Hpl Hpr Heq. assert (HT : TInv KM (tb s KM)) by apply HI.
  assert (Hnode : (exists a, en l = Node a) \/ (exists a, en r = Node a)).
  { destruct Hpl as [h|(a & nd & h & _)]; [|eauto]. destruct Hpr as [h'|(a & nd & h' & _)]; [|eauto].
    rewrite h, h', ptr_eqb_refl in Heq. discriminate. }
  assert (Hgv : forall p, wfp KM (tb s KM) (S m) p -> (p = Term /\ getVar KM p s = Some (-1)) \/
            exists a nd, p = Node a /\ reg KM (tb s KM) a nd /\ 0 <= nv nd < Z.of_nat (S m) /\ getVar KM p s = Some (nv nd)).
  { intros p [->|(x & nd & -> & h2 & h3)]; [left; auto|right]. exists x, nd. split; auto. split; auto.
    pose proof (reg_ok KM _ _ _ HT h2) as Hok. pose proof (no_level _ _ _ Hok). split; [lia|].
    unfold getVar. rewrite (readn_reg KM s x nd); auto. }
  assert (Hup : forall x nd lv, reg KM (tb s KM) x nd -> nv nd <= lv -> 0 <= lv -> wfp KM (tb s KM) (S (Z.to_nat lv)) (Node x)).
  { intros x nd z hr hz hz0. right. exists x, nd. split; auto. split; auto. lia. }
  assert (Hlt : forall (e : edge) x nd n', en e = Node x -> reg KM (tb s KM) x nd -> 0 <= nv nd -> wfe KM (tb s KM) n' e -> nv nd < Z.of_nat n').
  { intros e x nd n' h1 h2 h3 h4. pose proof (node_not_low (tb s KM) (Z.to_nat (nv nd)) n' e x nd h1 h2 ltac:(lia) h4). lia. }
  unfold aorder.
  destruct (Hgv _ Hpl) as [[hl hl2]|(x & nd & hl & hl2 & hl3 & hl4)];
  destruct (Hgv _ Hpr) as [[hr hr2]|(y & nd' & hr & hr2 & hr3 & hr4)].
  - exfalso. destruct Hnode as [[z hz]|[z hz]]; congruence.
  - rewrite hl2, hr4. assert (Hc : (-1 <? nv nd') = true) by (apply Z.ltb_lt; lia). rewrite Hc.
    eexists _, _, _. split; [reflexivity|]. split; auto. split; [intros n' _ h; now apply (Hlt r y nd' n')|].
    rewrite hl, hr. split; [now left|]. apply (Hup y nd'); auto; lia.
  - rewrite hl4, hr2. assert (Hc : (nv nd <? -1) = false) by (apply Z.ltb_ge; lia). rewrite Hc.
    eexists _, _, _. split; [reflexivity|]. split; auto. split; [intros n' h _; now apply (Hlt l x nd n')|].
    rewrite hl, hr. split; [|now left]. apply (Hup x nd); auto; lia.
  - rewrite hl4, hr4. destruct (nv nd <? nv nd') eqn:Hc.
    + apply Z.ltb_lt in Hc. eexists _, _, _. split; [reflexivity|]. split; auto. split; [intros n' _ h; now apply (Hlt r y nd' n')|].
      rewrite hl, hr. split; [apply (Hup x nd)|apply (Hup y nd')]; auto; lia.
    + apply Z.ltb_ge in Hc. eexists _, _, _. split; [reflexivity|]. split; auto. split; [intros n' h _; now apply (Hlt l x nd n')|].
      rewrite hl, hr. split; [apply (Hup x nd)|apply (Hup y nd')]; auto; lia.
Qed.

(* what a cached-or-new sum satisfies *)
Definition wsum (l r : edge) : R := (Cmod (cv (ew l)) + Cmod (cv (ew r)))%R.
Lemma wsum_pos l r : (0 <= wsum l r)%R.
Proof. unfold wsum. pose proof (Cmod_ge_0 (cv (ew l))). pose proof (Cmod_ge_0 (cv (ew r))). lra. Qed.
Definition fresh_sum (s0 : state) (n : nat) (l r e0 : edge) (s : state) : Prop :=
  forall n', (n' <= n)%nat -> wfe KM (tb s0 KM) n' l -> wfe KM (tb s0 KM) n' r ->
    dnt KM (tb s KM) n' e0 (sumF (tb s0 KM) l r n') (ecb (pred n') (wsum l r)).
Definition addpost (i : tid) (s : state) (n : nat) (l r : edge) (e : edge) (s' : state) : Prop :=
  rel s s' /\ mc s' = mc s /\
  (forall n', (n' <= n)%nat -> wfe KM (tb s KM) n' l -> wfe KM (tb s KM) n' r ->
     dnt KM (tb s' KM) n' e (sumF (tb s KM) l r n') (eaddm n' (wsum l r))) /\
  (gd l r -> afind KM i l r s = Some nullE ->
     afind KM i l r s' = Some e /\ en e <> Null /\
     exists e0, fam e0 e /\ fresh_sum s n l r e0 s').

Lemma fresh_rel s0 n l r e0 s s' : Inv s -> rel s s' -> fresh_sum s0 n l r e0 s -> fresh_sum s0 n l r e0 s'.
Proof.
  intros HI Hr H n' Hn Hl Hr'. specialize (H n' Hn Hl Hr').
  eapply (dnt_ext); [apply HI|apply (rel_ext _ _ KM Hr)|exact H].
Qed.

(* writing the entry, and finding it again *)
Lemma set_sum i s m l r e0 e s6 : Inv s -> Z.of_nat (S m) <= NQUBITS -> gd l r ->
  wfp KM (tb s KM) (S m) (en l) -> wfp KM (tb s KM) (S m) (en r) ->
  rel s s6 -> fam e0 e -> fresh_sum s (S m) l r e0 s6 ->
  exists s7, aset KM i l r e s6 = Some s7 /\ rel s6 s7 /\ mc s7 = mc s6 /\ afind KM i l r s7 = Some e /\ en e <> Null.
Proof.
  intros HI Hm Hgd Hpl Hpr Hr6 Hf Hfr. pose proof (rel_inv _ _ Hr6) as HI6.
  assert (HT : TInv KM (tb s KM)) by apply HI. assert (HT6 : TInv KM (tb s6 KM)) by apply HI6.
  assert (He6 : ext KM (tb s KM) (tb s6 KM)) by apply (rel_ext _ _ KM Hr6).
  destruct Hgd as (_ & _ & _ & _ & Heq).
  destruct (aorder_lev s6 m l r HI6) as (lv & a & b & Ho & Hlv & _ & Hwl6 & Hwr6); auto;
    try (eapply (wfp_ext); eauto).
  destruct (aorder_lev s m l r HI Hpl Hpr Heq) as (lv' & a' & b' & Ho' & Hlv' & _ & Hwl & Hwr).
  assert (lv' = lv /\ a' = a /\ b' = b) as (-> & -> & ->).
  { assert (Hg : forall p v, wfp KM (tb s KM) (S m) p -> getVar KM p s = Some v -> getVar KM p s6 = Some v).
    { intros p v [->|(x & nd & -> & h2 & h3)] h; [exact h|]. unfold getVar in *.
      rewrite (readn_reg KM s x nd) in h by auto. now rewrite (readn_reg KM s6 x nd) by auto. }
    unfold aorder in Ho, Ho'. destruct (getVar KM (en l) s) eqn:G1; [|discriminate].
    destruct (getVar KM (en r) s) eqn:G2; [|discriminate].
    rewrite (Hg _ _ Hpl G1), (Hg _ _ Hpr G2) in Ho. rewrite Ho' in Ho. injection Ho as <- <- <-. auto. }
  assert (Hs : dnt KM (tb s6 KM) (S (Z.to_nat lv)) e (sumF (tb s KM) l r (S (Z.to_nat lv))) (ecompm (Z.to_nat lv) (wsum l r))).
  { unfold ecompm. eapply fam_dnt; eauto. apply (Hfr (S (Z.to_nat lv))); [lia|now left|now left]. }
  destruct (wfe_getVar KM s6 _ e HI6 (Logic.proj1 Hs)) as (v & Hv1 & Hv2 & Hv3).
  destruct (aset_spec KM i l r e s6 lv a b HI6 Ho) as (s7 & Hs7 & Hr7).
  { apply level_ok_true. lia. }
  { exists (Z.to_nat lv). cbn [a_l a_r a_res]. split; [lia|].
    destruct (aorder_cases _ _ _ _ _ _ _ Ho) as [(-> & -> & _)|(-> & -> & _)].
    - split; auto. split; auto. eapply (dnt_F); [|exact Hs]. intros ix. cbn. unfold sumF.
      rewrite !(val_ext KM (tb s KM) (tb s6 KM)); auto; now left.
    - split; auto. split; auto. replace (Cmod (cv (ew r)) + Cmod (cv (ew l)))%R with (wsum l r) by (unfold wsum; ring).
      eapply (dnt_F); [|exact Hs]. intros ix. cbn. unfold sumF.
      rewrite !(val_ext KM (tb s KM) (tb s6 KM)) by (auto; now left). ring. }
  exists s7. split; auto. split; auto. split.
  { unfold aset in Hs7. rewrite Ho in Hs7. destruct (level_ok lv); [|discriminate]. injection Hs7 as <-. reflexivity. }
  split; auto. eapply afind_aset; eauto. lia.
Qed.


(* four4 blocks put together *)
Definition four4 (f : nat -> (nat -> nat) -> C) (m : nat) (ix : nat -> nat) : C :=
  match ix m with 0%nat => f 0%nat ix | 1%nat => f 1%nat ix | 2%nat => f 2%nat ix | 3%nat => f 3%nat ix | _ => RtoC 0 end.
Lemma run_assemble i m s (e0 e1 e2 e3 : edge) (f : nat -> (nat -> nat) -> C) err B :
  Inv s -> Z.of_nat m < NQUBITS -> (0 <= err)%R ->
  dnt KM (tb s KM) m e0 (f 0%nat) err -> dnt KM (tb s KM) m e1 (f 1%nat) err ->
  dnt KM (tb s KM) m e2 (f 2%nat) err -> dnt KM (tb s KM) m e3 (f 3%nat) err ->
  (forall j ix, (j < 4)%nat -> (Cmod (f j ix) <= B)%R) ->
  exists res s', run_on i (makeMEdge (Z.of_nat m) e0 e1 e2 e3) s = Some (res, s') /\ rel s s' /\
    ac s' = ac s /\ mc s' = mc s /\
    dnt KM (tb s' KM) (S m) res (four4 f m) (err + mkerr m (B + err)).
Proof.
  intros HI Hm Herr D0 D1 D2 D3 HB. assert (HT : TInv KM (tb s KM)) by apply HI.
  assert (W : forall (e : edge) j, (j < 4)%nat -> dnt KM (tb s KM) m e (f j) err -> (Cmod (cv (ew e)) <= B + err)%R).
  { intros e j Hj D. apply (dnt_wbound KM _ _ _ _ _ _ HT D). intros ix. now apply HB. }
  destruct (wpr_run_on i _ s _ HI (wpr_makeMEdge m s e0 e1 e2 e3 _ _ _ _ (B + err) HI Hm
     (proj1 D0) (proj1 D1) (proj1 D2) (proj1 D3) (fun ix => eq_refl) (fun ix => eq_refl) (fun ix => eq_refl) (fun ix => eq_refl)
     (W e0 0%nat ltac:(lia) D0) (W e1 1%nat ltac:(lia) D1) (W e2 2%nat ltac:(lia) D2) (W e3 3%nat ltac:(lia) D3)))
    as (res & s' & Hrun & Hr & D).
  exists res, s'. split; auto. split; auto. pose proof (makeMEdge_fr _ _ _ _ _ _ _ _ _ Hrun) as [h1 h2].
  split; auto. split; auto. rewrite Rplus_comm. eapply (dnt_err); [|exact D].
  intros ix. unfold ch_F, four4. cbn [map].
  destruct (ix m) as [|[|[|[|[|j]]]]]; cbn [nth].
  - apply D0.
  - apply D1.
  - apply D2.
  - apply D3.
  - replace (Cminus (RtoC 0) (RtoC 0)) with (RtoC 0) by ring. rewrite Cmod_0. exact Herr.
  - replace (Cminus (RtoC 0) (RtoC 0)) with (RtoC 0) by ring. rewrite Cmod_0. exact Herr.
Qed.

Lemma fam_trans e0 e x : fam e0 e -> fam e x -> fam e0 x.
Proof. intros [->|[-> Hz]] [->|[-> Hz']]; unfold fam; auto. Qed.

Lemma sumF_le t l r n ix : TInv KM t -> wfe KM t n l -> wfe KM t n r -> (Cmod (sumF t l r n ix) <= wsum l r * Gp n)%R.
Proof.
  intros HT Hl Hr. unfold sumF, wsum. eapply Rle_trans; [apply Cmod_triangle|].
  pose proof (val_le KM t n l ix HT Hl). pose proof (val_le KM t n r ix HT Hr). lra.
Qed.

Lemma run_readp s n p nd : rd (tb s KM) n p nd -> p <> Term -> readn KM p s = Some nd.
Proof. intros [[-> _]|(a & -> & Hr & _)] H; [congruence|]. now apply (readn_reg). Qed.
Lemma readp_rd s n p : Inv s -> wfp KM (tb s KM) n p -> exists nd, readn KM p s = Some nd /\ rd (tb s KM) n p nd.
Proof.
  intros HI Hw. assert (HT : TInv KM (tb s KM)) by apply HI. destruct Hw as [->|(a & nd & -> & h2 & h3)].
  - eexists. split; [reflexivity|]. left. split; reflexivity.
  - exists nd. split; [now apply (readn_reg)|]. right. exists a. split; auto. split; auto.
    pose proof (reg_ok KM _ _ _ HT h2) as Hok. pose proof (no_level _ _ _ Hok). lia.
Qed.

Lemma cadd_dnt t n (l r : edge) : TInv KM t -> wfe KM t n l -> en l = en r -> iszero (ew l) = false ->
  dnt KM t n (E (cadd (ew l) (ew r)) (en l)) (sumF t l r n) (2 * (dl * Gp n) + dl * wsum l r * Gp n).
Proof.
  intros HT Hl Heq Hz. pose proof (nz_wfp _ _ _ Hl Hz) as Hp. split; [now left|]. intros ix. unfold sumF, FpA.val. cbn [ew en]. rewrite <- Heq.
  match goal with |- (Cmod (Cminus (Cmult ?a ?v) (Cplus (Cmult ?b ?v) (Cmult ?c ?v))) <= _)%R =>
    replace (Cminus (Cmult a v) (Cplus (Cmult b v) (Cmult c v))) with (Cmult (Cminus a (Cplus b c)) v) by ring end.
  rewrite Cmod_mult. pose proof (dGp_pos n). apply Rle_trans with (dl * wsum l r * Gp n)%R; [|lra].
  apply Rmult_le_compat; auto using Cmod_ge_0; [apply cadd_err|apply valp_le1; auto].
Qed.

Theorem run_mm_add2 i n : forall s l r, Inv s -> Z.of_nat n <= NQUBITS ->
  wfe KM (tb s KM) n l -> wfe KM (tb s KM) n r ->
  exists e s', run_on i (mm_add2 n l r) s = Some (e, s') /\ addpost i s n l r e s'.
Proof.
  pose proof dl_pos as Heps.
  induction n as [|m IH]; intros s l r HI Hn Hl Hr;
    match goal with |- exists e s', run_on _ (mm_add2 ?nn _ _) _ = _ /\ _ => set (LN := nn) in * end;
    assert (HT : TInv KM (tb s KM)) by apply HI; pose proof (wsum_pos l r) as Hws;
    assert (Hret : forall e, ~ gd l r -> (forall n', (n' <= LN)%nat -> wfe KM (tb s KM) n' l -> wfe KM (tb s KM) n' r ->
                dnt KM (tb s KM) n' e (sumF (tb s KM) l r n') (2 * (dl * Gp n') + dl * wsum l r * Gp n')) ->
                exists e' s', Some (e, s) = Some (e', s') /\ addpost i s LN l r e' s')
      by (intros e Hng He; exists e, s; split; [reflexivity|]; split; [now apply rel_refl|]; split; [reflexivity|];
          split; [|intros h; contradiction];
          intros n' Hn' Hl' Hr'; eapply (dnt_weaken); [|apply He; auto];
          apply (eaddm_ge2 n' (wsum l r) Hws));
    assert (Hlz : ~ gd l r -> (Cmod (cv (ew l)) <= dl)%R -> exists e' s', Some (r, s) = Some (e', s') /\ addpost i s LN l r e' s')
      by (intros Hng h; apply Hret; auto; intros n' _ Hl' Hr'; split; auto; intros ix; unfold sumF;
          replace (Cminus (val KM (tb s KM) n' r ix) (Cplus (val KM (tb s KM) n' l ix) (val KM (tb s KM) n' r ix)))
            with (Copp (val KM (tb s KM) n' l ix)) by ring; rewrite Cmod_opp;
          pose proof (val_le KM _ n' l ix HT Hl'); pose proof (dGp_pos n'); assert (Cmod (cv (ew l)) * Gp n' <= dl * Gp n')%R by (apply Rmult_le_compat_r; [apply Grp|exact h]);
          assert (0 <= dl * wsum l r * Gp n')%R by (apply Rmult_le_pos; [apply Rmult_le_pos; auto|apply Grp]); lra);
    assert (Hrz : ~ gd l r -> (Cmod (cv (ew r)) <= dl)%R -> exists e' s', Some (l, s) = Some (e', s') /\ addpost i s LN l r e' s')
      by (intros Hng h; apply Hret; auto; intros n' _ Hl' Hr'; split; auto; intros ix; unfold sumF;
          replace (Cminus (val KM (tb s KM) n' l ix) (Cplus (val KM (tb s KM) n' l ix) (val KM (tb s KM) n' r ix)))
            with (Copp (val KM (tb s KM) n' r ix)) by ring; rewrite Cmod_opp;
          pose proof (val_le KM _ n' r ix HT Hr'); pose proof (dGp_pos n'); assert (Cmod (cv (ew r)) * Gp n' <= dl * Gp n')%R by (apply Rmult_le_compat_r; [apply Grp|exact h]);
          assert (0 <= dl * wsum l r * Gp n')%R by (apply Rmult_le_pos; [apply Rmult_le_pos; auto|apply Grp]); lra);
    subst LN; cbn [mm_add2].
  all: destruct (edge_eqb l zeroE) eqn:Hle; cbn [orb run_on];
    [apply Hlz; [unfold gd; intros h; rewrite Hle in h; destruct h; discriminate|];
     apply edge_eqb_mod in Hle; change (ew zeroE) with c0 in Hle; rewrite cv_0, Cmod_0 in Hle; lra|].
  all: destruct (edge_eqb r zeroE) eqn:Hre; cbn [run_on];
    [apply Hrz; [unfold gd; intros h; rewrite Hre in h; destruct h as (_ & h & _); discriminate|];
     apply edge_eqb_mod in Hre; change (ew zeroE) with c0 in Hre; rewrite cv_0, Cmod_0 in Hre; lra|].
  all: destruct (iszero (ew l)) eqn:Hzl; cbn [run_on];
    [apply Hlz; [unfold gd; intros h; rewrite Hzl in h; destruct h as (_ & _ & h & _); discriminate|];
     now apply z_true in Hzl|].
  all: destruct (iszero (ew r)) eqn:Hzr; cbn [run_on];
    [apply Hrz; [unfold gd; intros h; rewrite Hzr in h; destruct h as (_ & _ & _ & h & _); discriminate|];
     now apply z_true in Hzr|].
  all: pose proof (nz_wfp _ _ _ Hl Hzl) as Hpl; pose proof (nz_wfp _ _ _ Hr Hzr) as Hpr.
  - rewrite (wfp0 _ _ HT Hpl), (wfp0 _ _ HT Hpr). cbn [is_term andb run_on].
    apply Hret. 
    { unfold gd. rewrite (wfp0 _ _ HT Hpl), (wfp0 _ _ HT Hpr), ptr_eqb_refl. intros (_ & _ & _ & _ & h). discriminate. }
    intros n' Hn' Hl' _. pose proof (cadd_dnt (tb s KM) n' l r HT Hl') as Hc. rewrite (wfp0 _ _ HT Hpl), (wfp0 _ _ HT Hpr) in Hc. apply Hc; auto.
  - destruct (ptr_eqb (en l) (en r)) eqn:Heq; cbn [run_on].
    { apply Hret; [unfold gd; intros (_ & _ & _ & _ & h); congruence|].
      apply ptr_eqb_eq in Heq. intros n' Hn' Hl' _. now apply cadd_dnt. }
    clear Hret Hlz Hrz.
    assert (Hgd : gd l r) by (unfold gd; auto).
    assert (Hm : Z.of_nat m < NQUBITS) by lia.
    assert (Hnode : (exists a, en l = Node a) \/ (exists a, en r = Node a)).
    { destruct Hpl as [h|(a & nd & h & _)]; [|eauto]. destruct Hpr as [h'|(a & nd & h' & _)]; [|eauto].
      rewrite h, h', ptr_eqb_refl in Heq. discriminate. }
    assert (Hpos : forall n', wfe KM (tb s KM) n' l -> wfe KM (tb s KM) n' r -> exists k, n' = S k).
    { intros [|k] h1 h2; [|eauto]. apply nz_wfp in h1, h2; auto. apply wfp0 in h1, h2; auto.
      rewrite h1, h2, ptr_eqb_refl in Heq. discriminate. }
    destruct (afind_spec KM i l r s m HI Hl Hr Hnode Hm) as (res & Hfind & Hcase). rewrite Hfind.
    destruct (aorder_lev s m l r HI Hpl Hpr Heq) as (lv & a & b & Ho & Hlv & Hlt & Hwl & Hwr).
    (* what remains once a fresh sum has been stored *)
    assert (Hfin : forall e0 e s6, rel s s6 -> mc s6 = mc s -> fam e0 e -> fresh_sum s (S m) l r e0 s6 ->
      exists e' s', run_on i (CASet KM l r e (CRet e)) s6 = Some (e', s') /\ addpost i s (S m) l r e' s').
    { intros e0 e s6 Hr6 Hmc6 Hf Hfr.
      destruct (set_sum i s m l r e0 e s6 HI Hn Hgd Hpl Hpr Hr6 Hf Hfr) as (s7 & Hs7 & Hr7 & Hmc7 & Haf & Hnn).
      exists e, s7. cbn [run_on]. rewrite Hs7. split; [reflexivity|]. split; [eapply rel_trans; eauto|].
      split; [congruence|]. pose proof (rel_inv _ _ Hr6) as HI6.
      assert (Hfr7 : fresh_sum s (S m) l r e0 s7) by (eapply fresh_rel; eauto).
      assert (HT7 : TInv KM (tb s7 KM)) by apply (rel_inv _ _ Hr7). split.
      - intros n' Hn' Hl' Hr'. destruct (Hpos n' Hl' Hr') as (k & ->).
        eapply (dnt_weaken); [apply (eaddm_ecb k _ Hws)|]. eapply fam_dnt; eauto. apply (Hfr7 (S k)); auto.
      - intros _ _. split; auto. split; auto. exists e0. auto. }
    destruct Hcase as [->|(lv' & e & a' & b' & Ho' & Hent & Hres & Ha & Hb)].
    + (* miss *)
      cbn [en nullE is_null negb].
      destruct (readp_rd s (S m) (en l) HI Hpl) as (lnd & Hrd1 & Hrl).
      destruct (readp_rd s (S m) (en r) HI Hpr) as (rnd & Hrd2 & Hrr).
      cbn [run_on]. rewrite Hrd1. cbn [run_on]. rewrite Hrd2.
      assert (Hcase : (wfe KM (tb s KM) m l /\ wfe KM (tb s KM) m r) \/
                      (forall n', (n' <= S m)%nat -> wfe KM (tb s KM) n' l -> wfe KM (tb s KM) n' r -> n' = S m)).
      { destruct (wfe_low _ m l Hl) as [Hlm|(x & nd & hx1 & hx2 & hx3)];
          [destruct (wfe_low _ m r Hr) as [Hrm|(x & nd & hx1 & hx2 & hx3)]|]; [left; auto| |]; right;
          intros n' Hn' Hl' Hr'.
        - pose proof (node_not_low _ _ _ _ _ _ hx1 hx2 hx3 Hr'). lia.
        - pose proof (node_not_low _ _ _ _ _ _ hx1 hx2 hx3 Hl'). lia. }
      destruct Hcase as [[Hlm Hrm]|Honly].
      * (* an identity level *)
        pose proof (nz_wfp _ _ _ Hlm Hzl) as Hplm. pose proof (nz_wfp _ _ _ Hrm Hzr) as Hprm.
        destruct (mchild_spec (tb s KM) m l lnd 0 HT Hrl ltac:(lia)) as (_ & _ & _ & X0).
        destruct (mchild_spec (tb s KM) m l lnd 1 HT Hrl ltac:(lia)) as (_ & _ & _ & X1).
        destruct (mchild_spec (tb s KM) m l lnd 2 HT Hrl ltac:(lia)) as (_ & _ & _ & X2).
        destruct (mchild_spec (tb s KM) m l lnd 3 HT Hrl ltac:(lia)) as (_ & _ & _ & X3).
        destruct (mchild_spec (tb s KM) m r rnd 0 HT Hrr ltac:(lia)) as (_ & _ & _ & Y0).
        destruct (mchild_spec (tb s KM) m r rnd 1 HT Hrr ltac:(lia)) as (_ & _ & _ & Y1).
        destruct (mchild_spec (tb s KM) m r rnd 2 HT Hrr ltac:(lia)) as (_ & _ & _ & Y2).
        destruct (mchild_spec (tb s KM) m r rnd 3 HT Hrr ltac:(lia)) as (_ & _ & _ & Y3).
        cbn zeta in X0, X1, X2, X3, Y0, Y1, Y2, Y3.
        rewrite X0, X1, X2, X3, Y0, Y1, Y2, Y3 by auto. rewrite !add2_z.
        destruct (IH s l r HI ltac:(lia) Hlm Hrm) as (e0 & s1 & Hrun & Hr1 & Hmc1 & _ & Hhit).
        destruct (Hhit Hgd Hfind) as (Haf & Hnn & e00 & Hf & Hfr).
        rewrite run_on_bind, Hrun. cbn [bind]. rewrite run_on_bind.
        pose proof (rel_inv _ _ Hr1) as HI1.
        (* the second call finds the entry of the first *)
        assert (Hrun2 : run_on i (mm_add2 m l r) s1 = Some (if iszero (ew e0) then zeroE else e0, s1)).
        { destruct (Hpos m Hlm Hrm) as (k & ->). cbn [mm_add2]. rewrite Hle, Hre. cbn [orb]. rewrite Hzl, Hzr, Heq.
          cbn [run_on]. rewrite Haf. destruct (en e0) eqn:He0; [contradiction| |]; reflexivity. }
        rewrite Hrun2. rewrite run_on_bind.
        assert (Hf2 : fam e0 (if iszero (ew e0) then zeroE else e0)) by (unfold fam; destruct (iszero (ew e0)) eqn:?; auto).
        destruct (run_strip i s1 (Z.of_nat m) e0 _ HI1 Hf2) as (rs & s6 & Hrun3 & Hr6 & Hf3). rewrite Hrun3.
        pose proof (makeMEdge_fr _ _ _ _ _ _ _ _ _ Hrun3) as [_ Hmc6].
        apply (Hfin e00 rs s6); [eapply rel_trans; eauto|congruence|eapply fam_trans; eauto|].
        assert (Hfr6 : fresh_sum s m l r e00 s6) by (eapply fresh_rel; eauto).
        intros n' Hn' Hl' Hr'. destruct (Nat.eq_dec n' (S m)) as [->|]; [|apply Hfr6; auto; lia].
        eapply (dnt_weaken) with (err := ecb (pred m) (wsum l r)).
        { apply ecb_up; auto. cbn [pred]. lia. }
        eapply (dnt_lift' (sumF (tb s KM) l r)) with (m := m); [apply ecb_pos; auto| |apply Hfr6; auto|lia].
        intros k ix Hk. apply (sumF_up); eapply (wfe_KM_up); eauto.
      * (* some operand has a node at this level *)
        set (T := fun j ix => sumF (tb s KM) l r (S m) (ixset ix m j)).
        assert (Hsub : forall j s2, (j < 4)%nat -> rel s s2 ->
          exists e s3, run_on i (mm_add2 m (mchild (Z.of_nat m) l lnd j) (mchild (Z.of_nat m) r rnd j)) s2 = Some (e, s3) /\
            rel s2 s3 /\ mc s3 = mc s2 /\ dnt KM (tb s3 KM) m e (T j) (eaddm m (wup (wsum l r)) + cerr m (wsum l r))).
        { intros j s2 Hj Hr2. pose proof (rel_inv _ _ Hr2) as HI2.
          assert (He2 : ext KM (tb s KM) (tb s2 KM)) by apply (rel_ext _ _ KM Hr2).
          destruct (mchild_spec (tb s KM) m l lnd j HT Hrl Hj) as (Hw1 & Hv1 & B1 & _).
          destruct (mchild_spec (tb s KM) m r rnd j HT Hrr Hj) as (Hw2 & Hv2 & B2 & _). cbn zeta in *.
          set (lj := mchild (Z.of_nat m) l lnd j) in *. set (rj := mchild (Z.of_nat m) r rnd j) in *.
          pose proof (wfe_ext KM _ _ m _ He2 Hw1) as Hw1'. pose proof (wfe_ext KM _ _ m _ He2 Hw2) as Hw2'.
          destruct (IH s2 lj rj HI2 ltac:(lia) Hw1' Hw2') as (e & s3 & Hrun & Hr3 & Hmc3 & HD & _).
          exists e, s3. split; auto. split; auto. split; auto.
          eapply (dnt_err) with (F := sumF (tb s2 KM) lj rj m).
          - intros ix. unfold T, sumF. rewrite !(val_ext KM (tb s KM) (tb s2 KM)) by auto.
            specialize (Hv1 ix). specialize (Hv2 ix). unfold blk in Hv1, Hv2.
            match goal with |- (Cmod (Cminus (Cplus ?a ?b) (Cplus ?c ?d)) <= _)%R =>
              replace (Cminus (Cplus a b) (Cplus c d)) with (Cplus (Cminus a c) (Cminus b d)) by ring end.
            eapply Rle_trans; [apply Cmod_triangle|]. unfold FpE.cerr, wsum. lra.
          - eapply (dnt_weaken); [apply (eaddm_mono m (wsum lj rj) (wup (wsum l r))); split; [apply wsum_pos|unfold FpE.wup, wsum; lra]|].
            apply (HD m); auto. }
        destruct (Hsub 0%nat s ltac:(lia) ltac:(now apply rel_refl)) as (e0 & s1 & R0 & Hr1 & M1 & D0).
        rewrite run_on_bind, R0. pose proof (rel_inv _ _ Hr1) as HI1.
        destruct (Hsub 1%nat s1 ltac:(lia) Hr1) as (e1 & s2 & R1 & Hr2 & M2 & D1).
        rewrite run_on_bind, R1. pose proof (rel_inv _ _ Hr2) as HI2. assert (Hr02 : rel s s2) by (eapply rel_trans; eauto).
        destruct (Hsub 2%nat s2 ltac:(lia) Hr02) as (e2 & s3 & R2 & Hr3 & M3 & D2).
        rewrite run_on_bind, R2. pose proof (rel_inv _ _ Hr3) as HI3. assert (Hr03 : rel s s3) by (eapply rel_trans; eauto).
        destruct (Hsub 3%nat s3 ltac:(lia) Hr03) as (e3 & s4 & R3 & Hr4 & M4 & D3).
        rewrite run_on_bind, R3. pose proof (rel_inv _ _ Hr4) as HI4. assert (Hr04 : rel s s4) by (eapply rel_trans; eauto).
        assert (Hr34 : rel s3 s4) by auto. assert (Hr24 : rel s2 s4) by (eapply rel_trans; eauto).
        assert (Hr14 : rel s1 s4) by (eapply rel_trans; eauto).
        assert (Hext : forall sa (e : edge) F err, Inv sa -> rel sa s4 -> dnt KM (tb sa KM) m e F err -> dnt KM (tb s4 KM) m e F err).
        { intros sa e F err h1 h2 h3. eapply (dnt_ext); [apply h1|apply (rel_ext _ _ KM h2)|exact h3]. }
        destruct (run_assemble i m s4 e0 e1 e2 e3 T (eaddm m (wup (wsum l r)) + cerr m (wsum l r)) (wsum l r * Gp (S m)) HI4 Hm) as (res & s5 & R5 & Hr5 & _ & M5 & D5);
          [apply Rplus_le_le_0_compat; [apply eaddm_pos, wup_pos; auto|apply cerr_pos; auto]|apply (Hext s1); auto|apply (Hext s2); auto|apply (Hext s3); auto|auto| |].
        { intros j ix _. unfold T. now apply sumF_le. }
        rewrite run_on_bind, R5.
        apply (Hfin res res s5); [eapply rel_trans; eauto|congruence|now left|].
        intros n' Hn' Hl' Hr'. assert (n' = S m) as -> by auto. cbn [pred]. eapply (dnt_F); [|exact D5].
        intros ix. unfold four4.
        assert (HTi : forall j, ix m = j -> T j ix = sumF (tb s KM) l r (S m) ix).
        { intros j Hj. unfold T, sumF. rewrite !(val_local KM _ (S m) _ (ixset ix m j) ix); auto;
            intros z _; unfold ixset; destruct (Nat.eqb_spec z m); congruence. }
        destruct (ix m) as [|[|[|[|j]]]] eqn:Hix; try (now apply HTi).
        symmetry. unfold sumF. rewrite !(val_KM_big _ m) by (auto; lia). ring.
    + (* hit *)
      rewrite Ho in Ho'. injection Ho' as <- <- <-.
      destruct Hent as (m' & Hlv' & Hwa & Hwb & HD).
      assert (HD2 : dnt KM (tb s KM) (S m') (a_res e) (sumF (tb s KM) l r (S m')) (ecompm m' (wsum l r + 2 * dl) + 2 * (dl * Gp (S m')))).
      { pose proof (edge_eqb_mod _ _ Ha) as Ma. pose proof (edge_eqb_mod _ _ Hb) as Mb.
        eapply (dnt_err).
        2:{ eapply (dnt_weaken); [|exact HD]. apply (ecompm_mono).
            pose proof (Cmod_ge_0 (cv (ew (a_l e)))). pose proof (Cmod_ge_0 (cv (ew (a_r e)))).
            destruct (aorder_cases _ _ _ _ _ _ _ Ho) as [(-> & -> & _)|(-> & -> & _)]; unfold wsum; lra. }
        intros ix.
        assert (Hsw : sumF (tb s KM) l r (S m') ix = Cplus (val KM (tb s KM) (S m') a ix) (val KM (tb s KM) (S m') b ix)).
        { destruct (aorder_cases _ _ _ _ _ _ _ Ho) as [(-> & -> & _)|(-> & -> & _)]; unfold sumF; ring. }
        rewrite Hsw.
        match goal with |- (Cmod ?X <= _)%R => replace X with
          (Cplus (Cminus (val KM (tb s KM) (S m') (a_l e) ix) (val KM (tb s KM) (S m') a ix))
                 (Cminus (val KM (tb s KM) (S m') (a_r e) ix) (val KM (tb s KM) (S m') b ix))) by ring end.
        eapply Rle_trans; [apply Cmod_triangle|].
        pose proof (edge_eqb_val KM (tb s KM) (S m') (a_l e) a ix HT (or_introl Hwa) Ha).
        pose proof (edge_eqb_val KM (tb s KM) (S m') (a_r e) b ix HT (or_introl Hwb) Hb). lra. }
      rewrite Hres in HD2.
      destruct (wfe_getVar KM s _ res HI (Logic.proj1 HD2)) as (v & _ & _ & Hnn).
      assert (Hnull : is_null (en res) = false) by (destruct (en res); auto; contradiction).
      rewrite Hnull. cbn [negb run_on].
      eexists _, _. split; [reflexivity|]. split; [now apply rel_refl|]. split; [reflexivity|]. split.
      2:{ intros _ h. rewrite Hfind in h. injection h as ->. cbn in Hnull. discriminate. }
      intros n' Hn' Hl' Hr'. specialize (Hlt n' Hl' Hr').
      eapply (dnt_weaken); [apply (eaddm_up (S m') n' (wsum l r)); auto; lia|].
      eapply (dnt_lift' (sumF (tb s KM) l r)) with (m := S m'); [apply eaddm_pos; auto| | |lia].
      { assert (Z.to_nat lv = m') by lia. intros k ix Hk. subst m'.
        apply (sumF_up); left; eapply (wfp_KM_up); eauto. }
      apply (dnt_weaken) with (err := (ecompm m' (wsum l r + 2 * dl) + 2 * (dl * Gp (S m')) + dl * Gp (S m'))%R).
      { rewrite eaddm_S. assert (0 <= dl * wsum l r * Gp (S m'))%R by (apply Rmult_le_pos; [apply Rmult_le_pos; auto|apply Grp]). lra. }
      eapply fam_dnt; [exact HT| |exact HD2]. unfold fam. destruct (iszero (ew res)) eqn:?; auto.
Qed.
End FpMM.
