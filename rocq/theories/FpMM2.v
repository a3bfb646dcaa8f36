(* FpMM2.v -- mm_multiply2 / mm_multiply, mm_add and makeSwap over a rounded arithmetic, on
   one thread (follows MMTol2.v).  On an identity level the second diagonal block finds the
   product the first one stored (possibly rounded), so the level is stripped. *)
From Coq Require Import Reals Lra Psatz ZArith Bool List Lia.
From Coquelicot Require Import Complex.
From Verif Require Import Num State DD RNum Wf Sums Inv Wp MulV MM2 MMTol2 FpA FpE FpW FpM FpAdd FpMul FpMM.
Import ListNotations.
Open Scope Z_scope.

Section FpMM2.
Context {NO : NumOps} {AC : Accur NO} {CF : Cfg}.
Notation dl := (@dl NO AC).
Notation Gr := (@Gr NO AC).
Notation Gp := (@Gp NO AC).
Notation mkerr := (@mkerr NO AC).
Notation eaddm := (@eaddm NO AC).
Notation emulm := (@emulm NO AC).
Notation emulb := (@emulb NO AC).
Notation eblk := (@eblk NO AC).
Notation emm := (@emm NO AC).
Notation Bd := (@Bd NO AC).
Notation Bs := (@Bs NO AC).

Lemma blk_low t m e i k : wfe KM t m e -> blk (val KM t (S m) e) m i k = Cmult (diag4 i) (val KM t m e k).
Proof.
  intros H. unfold blk. rewrite (val_KM_up) by auto. rewrite ixset_same. f_equal.
  apply val_local. intros l Hl. apply ixset_other. lia.
Qed.
Lemma val_KM_S t m e j : TInv KM t -> wfe KM t (S m) e ->
  exists a c, wfe KM t m c /\ (forall ix, blk (val KM t (S m) e) m j ix = Cmult a (val KM t m c ix)) /\
    (forall ix, (4 <= j)%nat -> val KM t m c ix = RtoC 0).
Proof.
  intros HT Hw.
  assert (Hlow : wfe KM t m e -> exists a c, wfe KM t m c /\ (forall ix, blk (val KM t (S m) e) m j ix = Cmult a (val KM t m c ix)) /\
    (forall ix, (4 <= j)%nat -> val KM t m c ix = RtoC 0)).
  { intros H.
    assert (Hd : diag4 j = RtoC 0 \/ diag4 j = RtoC 1) by (destruct j as [|[|[|[|j]]]]; cbn; auto).
    exists (RtoC 1). destruct Hd as [Hd|Hd].
    - exists zeroE. split; [apply wfe_zero|]. split; intros ix; rewrite ?blk_low, ?val_zeroE by auto; auto. rewrite Hd. ring.
    - exists e. split; auto. split; intros ix.
      + rewrite blk_low, Hd by auto. ring.
      + intros h. rewrite diag4_big in Hd by auto. exfalso. apply (f_equal fst) in Hd. cbn in Hd. lra. }
  destruct (wfe_low _ _ _ Hw) as [h|(a & nd & h1 & h2 & h3)]; auto.
  set (c := nth j (nch nd) zeroE). exists (cv (ew e)), c.
  pose proof (reg_child KM t a nd j HT h2) as H. rewrite h3, Nat2Z.id in H. fold c in H.
  split; [exact H|]. split.
  - intros ix. unfold blk. unfold FpA.val at 1. rewrite h1, (valp_S_node KM t m a nd) by auto.
    rewrite ixset_same. fold c. unfold FpA.val.
    rewrite (valp_local KM t m _ (ixset ix m j) ix) by (intros l Hl; apply ixset_other; lia). reflexivity.
  - intros ix Hj. assert (Hc : c = zeroE).
    { unfold c. apply nth_overflow. rewrite (no_len KM t nd); [cbn; lia|]. eapply reg_ok; eauto. }
    rewrite Hc. apply val_zeroE.
Qed.
Lemma blk_self t m e ix : val KM t (S m) e ix = blk (val KM t (S m) e) m (ix m) ix.
Proof.
  unfold blk. apply val_local. intros l _. unfold ixset. destruct (Nat.eqb_spec l m); congruence.
Qed.
Lemma blk_term t m i k : blk (valp KM t (S m) Term) m i k = Cmult (diag4 i) (valp KM t m Term k).
Proof.
  unfold blk. rewrite valp_S_term, ixset_same. cbn [skipf]. f_equal.
  apply valp_local. intros l Hl. apply ixset_other. lia.
Qed.
Lemma mmF_id_l t t' n : TInv KM t -> forall e ix, wfe KM t n e ->
  mmF n (valp KM t' n Term) (val KM t n e) ix = val KM t n e ix.
Proof.
  intros HT. induction n as [|m IH]; intros e ix He.
  - unfold mmF. cbn [bsum]. unfold FpA.val. cbn [FpA.valp]. ring.
  - rewrite mmF_S, (blk_self t m e ix).
    assert (H : forall i j, mmF m (blk (valp KM t' (S m) Term) m i) (blk (val KM t (S m) e) m j) ix =
                  Cmult (diag4 i) (blk (val KM t (S m) e) m j ix)).
    { intros i j. destruct (val_KM_S t m e j HT He) as (sc & c & Hc1 & Hc2 & _).
      rewrite (mmF_ext m _ (fun k => Cmult (diag4 i) (valp KM t' m Term k)) _ (fun k => Cmult sc (val KM t m c k))).
      - rewrite mmF_scal, IH by auto. rewrite Hc2. ring.
      - intros k. apply blk_term.
      - intros k. rewrite Hc2. ring. }
    rewrite !H. destruct (four (ix m)) as [h|[h|[h|[h|h]]]].
    1-4: rewrite h; cbn [Nat.div Nat.modulo Nat.divmod fst snd Nat.mul Nat.add Nat.sub diag4]; ring.
    pose proof (div2_big _ h).
    destruct (val_KM_S t m e (ix m) HT He) as (sc & c & Hc1 & Hc2 & Hc3).
    rewrite (Hc2 ix), Hc3 by auto.
    rewrite !(diag4_big (2 * Nat.div (ix m) 2)), !(diag4_big (2 * Nat.div (ix m) 2 + 1)) by lia. ring.
Qed.
Lemma mmF_id_r t t' n : TInv KM t -> forall e ix, wfe KM t n e ->
  mmF n (val KM t n e) (valp KM t' n Term) ix = val KM t n e ix.
Proof.
  intros HT. induction n as [|m IH]; intros e ix He.
  - unfold mmF. cbn [bsum]. unfold FpA.val. cbn [FpA.valp]. ring.
  - rewrite mmF_S, (blk_self t m e ix).
    assert (H : forall i j, mmF m (blk (val KM t (S m) e) m i) (blk (valp KM t' (S m) Term) m j) ix =
                  Cmult (diag4 j) (blk (val KM t (S m) e) m i ix)).
    { intros i j. destruct (val_KM_S t m e i HT He) as (sc & c & Hc1 & Hc2 & _).
      rewrite (mmF_ext m _ (fun k => Cmult sc (val KM t m c k)) _ (fun k => Cmult (diag4 j) (valp KM t' m Term k))).
      - rewrite mmF_scal, IH by auto. rewrite Hc2. ring.
      - intros k. rewrite Hc2. ring.
      - intros k. apply blk_term. }
    rewrite !H. destruct (four (ix m)) as [h|[h|[h|[h|h]]]].
    1-4: rewrite h; cbn [Nat.div Nat.modulo Nat.divmod fst snd Nat.mul Nat.add Nat.sub diag4]; ring.
    pose proof (div2_big _ h).
    assert (Hz : forall i, (4 <= i)%nat -> blk (val KM t (S m) e) m i ix = RtoC 0).
    { intros i Hi. destruct (val_KM_S t m e i HT He) as (sc & c & Hc1 & Hc2 & Hc3). rewrite Hc2, Hc3 by auto. ring. }
    rewrite !Hz by lia. ring.
Qed.

Definition mulF (t : table) (l r : edge) (n : nat) : (nat -> nat) -> C := mmF n (val KM t n l) (val KM t n r).
Lemma mulF_up t l r m ix : wfe KM t m l -> wfe KM t m r ->
  mulF t l r (S m) ix = Cmult (diag4 (ix m)) (mulF t l r m ix).
Proof. intros Hl Hr. apply mmF_up; intros; now apply blk_low. Qed.
Lemma mulF_ext t t' l r n ix : TInv KM t -> ext KM t t' -> wfe KM t n l -> wfe KM t n r ->
  mulF t' l r n ix = mulF t l r n ix.
Proof. intros. apply mmF_ext; intros k; now rewrite (val_ext KM t t'). Qed.
Lemma mulF_unit t l r n ix :
  mulF t l r n ix = Cmult (Cmult (cv (ew l)) (cv (ew r))) (mulF t (E c1 (en l)) (E c1 (en r)) n ix).
Proof.
  unfold mulF. rewrite <- mmF_scal. apply mmF_ext; intros k; rewrite valp_val; reflexivity.
Qed.
Lemma mulF_term_l t (l r : edge) n ix : TInv KM t -> en l = Term -> wfe KM t n r ->
  mulF t l r n ix = Cmult (cv (ew l)) (val KM t n r ix).
Proof.
  intros HT Ht Hr. unfold mulF.
  rewrite (mmF_ext n _ (fun k => Cmult (cv (ew l)) (valp KM t n Term k)) _ (fun k => Cmult (RtoC 1) (val KM t n r k))).
  - rewrite mmF_scal, mmF_id_l by auto. ring.
  - intros k. unfold FpA.val. now rewrite Ht.
  - intros k. ring.
Qed.
Lemma mulF_term_r t (l r : edge) n ix : TInv KM t -> en r = Term -> wfe KM t n l ->
  mulF t l r n ix = Cmult (cv (ew r)) (val KM t n l ix).
Proof.
  intros HT Ht Hr. unfold mulF.
  rewrite (mmF_ext n _ (fun k => Cmult (RtoC 1) (val KM t n l k)) _ (fun k => Cmult (cv (ew r)) (valp KM t n Term k))).
  - rewrite mmF_scal, mmF_id_r by auto. ring.
  - intros k. ring.
  - intros k. unfold FpA.val. now rewrite Ht.
Qed.
Lemma mulF_local t l r n f g : (forall k, (k < n)%nat -> f k = g k) -> mulF t l r n f = mulF t l r n g.
Proof. intros H. apply mmF_local; auto; intros x y Hxy; now apply val_local. Qed.
Lemma mchild1_low m (e : edge) (nd : node) i : nv nd <> Z.of_nat m ->
  mchild1 (Z.of_nat m) e nd i = match i with 1%nat | 2%nat => zeroE | _ => E c1 (en e) end.
Proof. intros H. unfold mchild1. apply Z.eqb_neq in H. now rewrite H. Qed.

Lemma mulF_le t l r n ix : TInv KM t -> wfe KM t n l -> wfe KM t n r ->
  (Cmod (mulF t l r n ix) <= Bd n * (Cmod (cv (ew l)) * Cmod (cv (ew r))))%R.
Proof.
  intros HT Hl Hr. eapply Rle_trans; [apply (mmF_bound n _ _ ix (Cmod (cv (ew l)) * Gp n) (Cmod (cv (ew r)) * Gp n))|].
  - apply Rmult_le_pos; [apply Cmod_ge_0|apply Grp].
  - intros k. now apply val_le.
  - intros k. now apply val_le.
  - unfold FpE.Bd. right. ring.
Qed.
Lemma mulF_le1 t p q n ix : TInv KM t -> wfe KM t n (E c1 p) -> wfe KM t n (E c1 q) -> (Cmod (mulF t (E c1 p) (E c1 q) n ix) <= Bd n)%R.
Proof.
  intros HT Hl Hr. eapply Rle_trans; [now apply mulF_le|]. cbn [ew]. rewrite cv_1, Cmod_1. lra.
Qed.

(* ---- the product cache of thread i ---- *)
Definition mts (i : tid) (s : state) (l r : ptr) (x : edge) : Prop :=
  exists lv e, getVar KM l s = Some lv /\ In e (mc s i KM lv (hptr l mod NBUCKETS)) /\
    m_valid e = true /\ m_l e = l /\ m_r e = r /\ m_res e = x.

Lemma mts_mc i s s' l r x v : Inv s -> Inv s' -> rel s s' -> lev_is (tb s KM) l v -> mc s' = mc s -> (mts i s' l r x <-> mts i s l r x).
Proof.
  intros HI HI' Hr (a & nd & -> & Hreg & _) Hmc.
  assert (Hg : getVar KM (Node a) s = Some (nv nd)) by (unfold getVar; now rewrite (readn_reg KM s a nd)).
  assert (Hg' : getVar KM (Node a) s' = Some (nv nd)).
  { unfold getVar. rewrite (readn_reg KM s' a nd); auto. now apply (rel_ext _ _ KM Hr). }
  unfold mts. rewrite Hmc, Hg, Hg'. reflexivity.
Qed.

Lemma mbucket_none (es : list ment) l r e : mbucket_find es l r = None -> In e es -> m_valid e = true ->
  m_l e = l -> m_r e = r -> False.
Proof.
  induction es as [|x es IH]; cbn; [tauto|]. destruct (_ && _ && _)%bool eqn:Hc; [discriminate|].
  destruct (mbucket_find es l r); [discriminate|]. intros _ [->|Hin] H1 H2 H3; [|now apply IH].
  subst. rewrite H1, !ptr_eqb_refl in Hc. discriminate.
Qed.
Lemma In_upd_picked (es : list ment) j z e : In e es -> exists e', In e' (upd_nth j (set_picked z) es) /\
  m_valid e' = m_valid e /\ m_l e' = m_l e /\ m_r e' = m_r e /\ m_res e' = m_res e.
Proof.
  revert j. induction es as [|x es IH]; intros j Hin; [contradiction|]. destruct j as [|j]; cbn [upd_nth].
  - destruct Hin as [->|Hin]; [exists (set_picked z e)|exists e]; cbn; auto 6.
  - destruct Hin as [->|Hin]; [exists e; cbn; auto 6|]. destruct (IH j Hin) as (e' & h & h2). exists e'. cbn. tauto.
Qed.

Lemma mfind_cases i l r s a nd : Inv s -> l = Node a -> reg KM (tb s KM) a nd ->
  exists res s', mfind KM i l r s = Some (res, s') /\ rel s s' /\
    (forall p q x v, lev_is (tb s KM) p v -> (mts i s' p q x <-> mts i s p q x)) /\
    ((res = nullE /\ forall x, ~ mts i s l r x) \/
     (mts i s l r res /\ exists e, m_l e = l /\ m_r e = r /\ m_res e = res /\ mul_ok KM (tb s KV) (tb s KM) e)).
Proof.
  intros HI -> Hr.
  assert (Hg : getVar KM (Node a) s = Some (nv nd)) by (unfold getVar; now rewrite (readn_reg KM s a nd)).
  pose proof (reg_ok KM _ _ _ (inv_tb _ HI KM) Hr) as Hok.
  destruct (mfind_spec KM i (Node a) r s a nd HI eq_refl Hr) as (res & s' & Hf & Hrel & Hc).
  exists res, s'. split; auto. split; auto.
  unfold mfind in Hf. rewrite Hg, level_ok_true in Hf by apply Hok.
  set (es := mc s i KM (nv nd) (hptr (Node a) mod NBUCKETS)) in *.
  destruct (mbucket_find es (Node a) r) as [j|] eqn:Hfd.
  - pose proof Hfd as Hfd'. apply mbucket_find_spec in Hfd as (Hin & Hv & Hml & Hmr).
    set (e := nth j es ment_init) in *.
    assert (Hkey : exists z, s' = set_mc s i KM (nv nd) (hptr (Node a) mod NBUCKETS) (upd_nth j (set_picked z) es) /\ res = m_res e).
    { pose proof (inv_mc _ HI _ _ _ _ _ Hin Hv) as (lv & rv & m & _ & _ & _ & Hw & _).
      destruct (wfe_getVar KM _ _ _ HI Hw) as (v & Hv1 & Hv2 & _). fold e in Hf.
      assert (Hv1' : getVar KM (en (m_res e)) s = Some v) by exact Hv1. rewrite Hv1' in Hf.
      destruct (Z.eqb_spec v (-2)); [lia|]. injection Hf as <- <-. eauto. }
    destruct Hkey as (z & -> & ->). split.
    + intros p q x v Hp. unfold mts. change (getVar KM p (set_mc s i KM (nv nd) (hptr (Node a) mod NBUCKETS) (upd_nth j (set_picked z) es))) with (getVar KM p s).
      cbn [mc set_mc]. split.
      * intros (lv & e' & h1 & h2 & h3 & h4 & h5 & h6). 
        destruct (_ && _ && _ && _)%bool eqn:Hb; [|exists lv, e'; auto 7].
        rewrite !andb_true_iff in Hb. destruct Hb as [[[_ _] Hb1] Hb2]. apply Z.eqb_eq in Hb1, Hb2. subst lv.
        apply (In_upd_nth) in h2 as [h2|(e2 & h2 & ->)]; [exists (nv nd), e'|exists (nv nd), e2]; rewrite <- Hb2; cbn in *; auto 7.
      * intros (lv & e' & h1 & h2 & h3 & h4 & h5 & h6). 
        destruct ((nv nd =? lv) && (hptr (Node a) mod NBUCKETS =? hptr p mod NBUCKETS))%bool eqn:Hb.
        2:{ exists lv, e'. rewrite Nat.eqb_refl. cbn [kind_eqb andb]. rewrite Hb. auto 7. }
        pose proof Hb as Hb0. rewrite !andb_true_iff in Hb. destruct Hb as [Hb1 Hb2]. apply Z.eqb_eq in Hb1, Hb2. subst lv.
        rewrite <- Hb2 in h2. destruct (In_upd_picked es j z e' h2) as (e2 & k1 & k2 & k3 & k4 & k5).
        exists (nv nd), e2. rewrite Nat.eqb_refl. cbn [kind_eqb andb]. rewrite Hb0. split; auto. split; auto. split; [congruence|].
        split; [congruence|]. split; congruence.
    + right. split.
      * exists (nv nd), e. auto 7.
      * destruct Hc as [Hc|Hc]; auto. exists e. split; auto. split; auto. split; auto. eapply (inv_mc _ HI); eauto.
  - injection Hf as <- <-. split; [tauto|]. left. split; auto.
    intros x (lv & e & h1 & h2 & h3 & h4 & h5 & h6). rewrite Hg in h1. injection h1 as <-. eapply mbucket_none; eauto.
Qed.

Lemma In_upd_at {A} j (f : A -> A) (l : list A) y : (j < length l)%nat -> (forall x, f x = y) -> In y (upd_nth j f l).
Proof.
  revert j. induction l as [|x l IH]; intros j Hj Hf; cbn in *; [lia|]. destruct j as [|j]; cbn; auto.
  right. apply IH; auto. lia.
Qed.
Lemma min_picked_lt (es : list ment) : forall i best bp, (best < i)%nat -> (min_picked_from es i best bp < i + length es)%nat.
Proof.
  induction es as [|e es IH]; intros i best bp H; cbn; [lia|].
  destruct (_ <? _); [specialize (IH (S i) i (m_picked e) ltac:(lia))|specialize (IH (S i) best bp ltac:(lia))]; lia.
Qed.
Lemma first_empty_lt (es : list ment) : forall j, first_empty es = Some j -> (j < length es)%nat.
Proof.
  induction es as [|e es IH]; intros j; cbn; [discriminate|]. destruct (is_null _); [intros [= <-]; lia|].
  destruct (first_empty es); [|discriminate]. intros [= <-]. specialize (IH _ eq_refl). lia.
Qed.
Lemma victim_lt (es : list ment) : es <> [] -> (victim es < length es)%nat.
Proof.
  intros H. unfold victim. destruct (first_empty es) eqn:Hf; [now apply first_empty_lt|].
  destruct es as [|e es]; [contradiction|]. pose proof (min_picked_lt es 1 0 (m_picked e) ltac:(lia)). cbn in *. lia.
Qed.

Lemma mset_cases i l r res s s' : Inv s -> mset KM i l r res s = Some s' ->
  (forall p q x, mts i s' p q x -> (p = l /\ q = r /\ x = res) \/ mts i s p q x) /\ mts i s' l r res.
Proof.
  intros HI. unfold mset. destruct (getVar KM l s) as [lv|] eqn:Hg; [|discriminate].
  destruct (level_ok lv); [|discriminate]. intros [= <-].
  set (es := mc s i KM lv (hptr l mod NBUCKETS)).
  set (ne := {| m_valid := true; m_l := l; m_r := r; m_res := res; m_picked := 1 |}).
  split.
  - intros p q x (lv' & e & h1 & h2 & h3 & h4 & h5 & h6).
    change (getVar KM p s = Some lv') in h1. cbn [mc set_mc] in h2.
    destruct (_ && _ && _ && _)%bool eqn:Hb; [|right; exists lv', e; auto 7].
    rewrite !andb_true_iff in Hb. destruct Hb as [[[_ _] Hb1] Hb2]. apply Z.eqb_eq in Hb1, Hb2. subst lv'.
    apply (In_upd_nth) in h2 as [h2|(e2 & h2 & ->)].
    + right. exists lv, e. rewrite <- Hb2. auto 7.
    + left. cbn in *. auto.
  - exists lv, ne. split; [exact Hg|]. cbn [mc set_mc]. rewrite Nat.eqb_refl, !Z.eqb_refl. cbn [kind_eqb andb].
    split; [|cbn; auto]. apply In_upd_at; auto. apply victim_lt. intros h. pose proof (inv_len _ HI i KM lv (hptr l mod NBUCKETS)) as hl.
    fold es in hl. rewrite h in hl. discriminate.
Qed.

(* ---- rounded variants of a product ---- *)
Definition famm (e x : edge) : Prop :=
  x = e \/ (x = E c1 (en e) /\ isone (ew e) = true) \/ (x = zeroE /\ iszero (ew e) = true).
Lemma famm_dnt t n e x F err : TInv KM t -> famm e x -> dnt KM t n e F err -> dnt KM t n x F (err + dl * Gp n).
Proof.
  intros HT Hf D. destruct Hf as [->|[[-> Ho]|Hz]].
  - apply (fam_dnt t n e e F err HT); [now left|exact D].
  - destruct D as [Hw Hv].
    assert (Hnz : iszero (ew e) = false).
    { destruct (iszero (ew e)) eqn:Hz; auto. exfalso. eapply z_one; eauto. }
    pose proof (nz_wfp _ _ _ Hw Hnz) as Hp. split; [left; exact Hp|].
    intros ix. specialize (Hv ix). apply eq_sy, eq_true in Ho. rewrite cv_1 in Ho.
    assert (He : val KM t n (E c1 (en e)) ix = Cplus (val KM t n e ix) (Cmult (Cminus (RtoC 1) (cv (ew e))) (valp KM t n (en e) ix))).
    { unfold FpA.val. cbn [ew en]. rewrite cv_1. ring. }
    rewrite He.
    match goal with |- (Cmod ?X <= _)%R => replace X with (Cplus (Cminus (val KM t n e ix) (F ix)) (Cmult (Cminus (RtoC 1) (cv (ew e))) (valp KM t n (en e) ix))) by ring end.
    eapply Rle_trans; [apply Cmod_triangle|]. rewrite Cmod_mult.
    assert (Hb : (Cmod (valp KM t n (en e) ix) <= Gp n)%R) by (apply valp_le1; auto).
    apply Rplus_le_compat; [exact Hv|]. apply Rmult_le_compat; auto using Cmod_ge_0.
  - apply (fam_dnt t n e x F err HT); [right; tauto|exact D].
Qed.
Lemma mul11 (w : cx) : cmul (cmul w c1) c1 = w.
Proof. now rewrite !cmul_1. Qed.
Lemma isone_c1 : isone c1 = true.
Proof. apply eq_refl'. Qed.
(* what the two diagonal blocks of an identity level look like *)
Definition snap0 (e : edge) : edge := if edge_eqb e zeroE then zeroE else e.
Definition rnd (e : edge) : edge := if iszero (ew e) then zeroE else E (if isone (ew e) then c1 else ew e) (en e).
Lemma snap_rnd e : snap0 (rnd e) = rnd e.
Proof.
  unfold snap0, rnd. destruct (iszero (ew e)) eqn:Hz; [now rewrite (edge_eqb_refl)|].
  destruct (edge_eqb _ zeroE) eqn:He; auto. exfalso. unfold edge_eqb in He. apply andb_prop in He as [He _].
  cbn [ew] in He. change (ew zeroE) with c0 in He. apply eq_c0' in He.
  destruct (isone (ew e)) eqn:Ho; [|congruence]. eapply z_one; [exact He|apply isone_c1].
Qed.
Lemma rnd_new res x l r : famm res x -> ew l = c1 -> ew r = c1 -> rescale_new x l r = rnd res.
Proof.
  intros Hf Hl Hr. unfold rescale_new. rewrite Hl, Hr, mul11. unfold rnd. destruct Hf as [->|[[-> Ho]|[-> Hz]]].
  - reflexivity.
  - cbn [ew en]. rewrite Ho, (isone_c1).
    pose proof z_1 as h.
    rewrite h. destruct (iszero (ew res)) eqn:Hz; auto. exfalso. eapply z_one; eauto.
  - rewrite Hz. change (ew zeroE) with c0. now rewrite (z_0 c0 cv_0).
Qed.
Lemma rnd_famm res : famm res (rnd res).
Proof. unfold rnd, famm. destruct (iszero (ew res)) eqn:?; auto. destruct (isone (ew res)) eqn:?; auto. destruct res; auto. Qed.
(* the product found again *)
Lemma hit_eq res y l r : famm res y -> ew l = c1 -> ew r = c1 ->
  ptr_eqb (en (rnd res)) (en (rescale_hit y l r)) && isequal (ew (rnd res)) (ew (rescale_hit y l r)) = true.
Proof.
  intros Hf Hl Hr. unfold rescale_hit. rewrite Hl, Hr, mul11.
  assert (Hgo : rnd res = rescale_hit y l r \/ (exists w, isone w = true /\ rnd res = E c1 (en res) /\ y = E w (en res) /\ iszero w = false) ->
    ptr_eqb (en (rnd res)) (en (if iszero (ew y) then zeroE else if iszero (ew y) then zeroE else E (ew y) (en y))) &&
    isequal (ew (rnd res)) (ew (if iszero (ew y) then zeroE else if iszero (ew y) then zeroE else E (ew y) (en y))) = true).
  { intros [h|(w & h1 & h2 & -> & h4)].
    - unfold rescale_hit in h. rewrite Hl, Hr, mul11 in h. rewrite h, ptr_eqb_refl, eq_refl'. reflexivity.
    - rewrite h2. cbn [ew en]. rewrite h4. cbn [ew en]. rewrite ptr_eqb_refl. cbn [andb]. now apply eq_sy. }
  apply Hgo. unfold rescale_hit. rewrite Hl, Hr, mul11. unfold rnd.
  pose proof z_1 as h1.
  destruct Hf as [->|[[-> Ho]|[-> Hz]]].
  - destruct (iszero (ew res)) eqn:Hz; [now left|]. destruct (isone (ew res)) eqn:Ho; [|now left].
    right. exists (ew res). split; auto. split; auto. split; [now destruct res|auto].
  - left. cbn [ew en]. rewrite h1, Ho. destruct (iszero (ew res)) eqn:Hz; auto. exfalso. eapply z_one; eauto.
  - left. rewrite Hz. change (ew zeroE) with c0. now rewrite (z_0 c0 cv_0).
Qed.

(* operands on which mm_multiply2 consults the cache *)
Definition gm (l r : edge) : Prop :=
  edge_eqb l zeroE = false /\ edge_eqb r zeroE = false /\ is_term (en l) = false /\ is_term (en r) = false /\
  iszero (ew l) = false /\ iszero (ew r) = false.
Definition unit_of (e : edge) : edge := E c1 (en e).
Definition fresh_prod (s0 : state) (n : nat) (l r res : edge) (s : state) : Prop :=
  forall n', (n' <= n)%nat -> wfe KM (tb s0 KM) n' (unit_of l) -> wfe KM (tb s0 KM) n' (unit_of r) ->
    dnt KM (tb s KM) n' res (mulF (tb s0 KM) (unit_of l) (unit_of r) n') (emulb (pred n')).
Lemma fresh_prod_rel s0 n l r e0 s s' : Inv s -> rel s s' -> fresh_prod s0 n l r e0 s -> fresh_prod s0 n l r e0 s'.
Proof.
  intros HI Hr H n' Hn Hl Hr'. specialize (H n' Hn Hl Hr').
  eapply (dnt_ext); [apply HI|apply (rel_ext _ _ KM Hr)|exact H].
Qed.
(* products of nodes at level n or above are not touched *)
Definition mframe (i : tid) (n : nat) (s s' : state) : Prop :=
  forall p q vp vq x, lev_is (tb s KM) p vp -> lev_is (tb s KM) q vq -> (Z.of_nat n <= vp \/ Z.of_nat n <= vq) ->
    mts i s' p q x -> mts i s p q x.
Lemma mframe_trans i n s1 s2 s3 : rel s1 s2 -> mframe i n s1 s2 -> mframe i n s2 s3 -> mframe i n s1 s3.
Proof.
  intros Hr H1 H2 p q vp vq x Hp Hq Hv Hm. eapply H1; eauto.
  pose proof (rel_ext _ _ KM Hr) as He. eapply H2; eauto; eapply (lev_is_ext); eauto.
Qed.
Lemma mframe_up i n n' s s' : (n <= n')%nat -> mframe i n s s' -> mframe i n' s s'.
Proof. intros Hn H p q vp vq x Hp Hq Hv Hm. eapply H; eauto. lia. Qed.
Lemma mframe_mc i n s s' : Inv s -> rel s s' -> mc s' = mc s -> mframe i n s s'.
Proof. intros HI Hr Hmc p q vp vq x Hp Hq Hv Hm. apply (mts_mc i s s' p q x vp HI (rel_inv _ _ Hr) Hr Hp Hmc). exact Hm. Qed.

Definition mulpost (i : tid) (s : state) (n : nat) (l r : edge) (e : edge) (s' : state) : Prop :=
  rel s s' /\
  (forall n', (n' <= n)%nat -> wfe KM (tb s KM) n' l -> wfe KM (tb s KM) n' r ->
     dnt KM (tb s' KM) n' e (mulF (tb s KM) l r n') (emm n' (Cmod (cv (ew l))) (Cmod (cv (ew r))))) /\
  mframe i n s s' /\
  (gm l r -> (forall x, ~ mts i s (en l) (en r) x) ->
     exists res x, famm res x /\ e = rescale_new x l r /\ fresh_prod s n l r res s' /\
       (forall y, mts i s' (en l) (en r) y -> famm res y) /\ exists y, mts i s' (en l) (en r) y).

Lemma emv0_emm n a b : (0 <= a)%R -> (0 <= b)%R -> (emv0 (emulm n) n a b <= emm n a b)%R.
Proof.
  intros Ha Hb. unfold FpE.emm, mvbound, emv0. pose proof dl_pos as Hd. pose proof (Bd_pos n) as HB.
  assert (0 <= Bd n * (dl * (a + b)))%R by (apply Rmult_le_pos; [exact HB|apply Rmult_le_pos; lra]). lra.
Qed.
Lemma emv0m_pos n a b : (0 <= a)%R -> (0 <= b)%R -> (0 <= emv0 (emulm n) n a b)%R.
Proof.
  intros Ha Hb. unfold emv0. pose proof dl_pos as Hd. pose proof (Bd_pos n) as HB. pose proof (emulm_pos n) as Hm.
  assert (Hab : (0 <= a * b)%R) by (apply Rmult_le_pos; auto). pose proof (Grp n) as Hg.
  assert (0 <= (Bd n + emulm n) * (a * b))%R by (apply Rmult_le_pos; lra).
  apply Rplus_le_le_0_compat; [apply Rmult_le_pos; auto|]. apply Rmult_le_pos; [exact Hg|]. apply Rmult_le_pos; lra.
Qed.
Lemma zero_boundm n a b : (0 <= a)%R -> (0 <= b)%R -> (a <= dl)%R \/ (b <= dl)%R -> (Bd n * (a * b) <= emm n a b)%R.
Proof.
  intros Ha Hb H. pose proof dl_pos as Hd. pose proof (Bd_pos n) as HB. pose proof (emv0m_pos n a b Ha Hb) as H0.
  assert (a * b <= dl * (a + b))%R.
  { destruct H.
    - assert (a * b <= dl * b)%R by (apply Rmult_le_compat_r; auto). assert (0 <= dl * a)%R by (apply Rmult_le_pos; auto). lra.
    - assert (a * b <= a * dl)%R by (apply Rmult_le_compat_l; auto). assert (0 <= dl * b)%R by (apply Rmult_le_pos; auto). lra. }
  assert (Bd n * (a * b) <= Bd n * (dl * (a + b)))%R by (apply Rmult_le_compat_l; auto).
  unfold FpE.emm, mvbound. unfold emv0 in H0. lra.
Qed.
Lemma term_boundm t n (x y : cx) p ix a b : TInv KM t -> wfp KM t n p -> (0 <= a)%R -> (0 <= b)%R ->
  (Cmod (cv x) * Cmod (cv y) <= a * b)%R ->
  (Cmod (Cminus (Cmult (cv (cmul x y)) (valp KM t n p ix)) (Cmult (Cmult (cv x) (cv y)) (valp KM t n p ix))) <= emm n a b)%R.
Proof.
  intros HT Hp Ha Hb Hxy. eapply Rle_trans; [|apply emv0_emm; auto].
  assert (Hv : (Cmod (valp KM t n p ix) <= Gp n)%R) by (apply valp_le1; auto).
  pose proof (cmul_err x y) as H.
  replace (Cminus (Cmult (cv (cmul x y)) (valp KM t n p ix)) (Cmult (Cmult (cv x) (cv y)) (valp KM t n p ix)))
    with (Cmult (valp KM t n p ix) (Cminus (cv (cmul x y)) (Cmult (cv x) (cv y)))) by ring.
  pose proof dl_pos as Hd. assert (HAB : (0 <= a * b)%R) by (apply Rmult_le_pos; auto).
  pose proof (emulm_pos n) as He. pose proof (Bd_pos n) as HB.
  assert (0 <= emulm n * (a * b))%R by (apply Rmult_le_pos; auto).
  assert (0 <= (Bd n + emulm n) * (a * b))%R by (apply Rmult_le_pos; lra).
  rewrite Cmod_mult. unfold emv0.
  assert (Cmod (valp KM t n p ix) * Cmod (Cminus (cv (cmul x y)) (Cmult (cv x) (cv y))) <=
    Gp n * (dl * (3 * ((Bd n + emulm n) * (a * b)) + 2 * b + 2 + a * b)))%R.
  { apply Rmult_le_compat; auto using Cmod_ge_0. eapply Rle_trans; [exact H|]. apply Rmult_le_compat_l; auto. lra. }
  lra.
Qed.
Lemma wfe_wfp t n e : wfe KM t n e -> wfp KM t n (en e).
Proof. intros [h|[_ h]]; auto. rewrite h. now left. Qed.
Lemma mul2_z m r : mm_multiply2 m zeroE r = CRet zeroE.
Proof. destruct m; cbn [mm_multiply2]; now rewrite (edge_eqb_refl). Qed.
Lemma mul2_zr m l : mm_multiply2 m l zeroE = CRet zeroE.
Proof. destruct m; cbn [mm_multiply2]; now rewrite (edge_eqb_refl), orb_true_r. Qed.
Lemma gm_unit l r : gm l r -> gm (unit_of l) (unit_of r).
Proof.
  intros (_ & _ & H3 & H4 & _ & _). unfold gm, unit_of. cbn [en ew].
  pose proof z_1 as h1.
  assert (Hz : forall p, is_term p = false -> edge_eqb (E c1 p) zeroE = false).
  { intros p Hp. unfold edge_eqb. cbn [en ew]. destruct p; try discriminate; cbn; now rewrite andb_false_r. }
  auto 8.
Qed.

Theorem run_mm_multiply2 i n : forall s l r, Inv s -> Z.of_nat n <= NQUBITS ->
  wfe KM (tb s KM) n l -> wfe KM (tb s KM) n r ->
  exists e s', run_on i (mm_multiply2 n l r) s = Some (e, s') /\ mulpost i s n l r e s'.
Proof.
  pose proof dl_pos as Heps.
  induction n as [|m IH]; intros s l r HI Hn Hl Hr;
    match goal with |- exists e s', run_on _ (mm_multiply2 ?nn _ _) _ = _ /\ _ => set (LN := nn) in * end;
    assert (HT : TInv KM (tb s KM)) by apply HI;
    pose proof (Cmod_ge_0 (cv (ew l))) as Hpl0; pose proof (Cmod_ge_0 (cv (ew r))) as Hpr0;
    assert (Hret : forall e, ~ gm l r -> (forall n', (n' <= LN)%nat -> wfe KM (tb s KM) n' l -> wfe KM (tb s KM) n' r ->
                dnt KM (tb s KM) n' e (mulF (tb s KM) l r n') (emm n' (Cmod (cv (ew l))) (Cmod (cv (ew r))))) ->
                exists e' s', Some (e, s) = Some (e', s') /\ mulpost i s LN l r e' s')
      by (intros e Hng He; exists e, s; split; [reflexivity|]; split; [now apply rel_refl|]; split; [exact He|];
          split; [intros p q vp vq x _ _ _ h; exact h|intros h; contradiction]);
    assert (Hz : ~ gm l r -> (Cmod (cv (ew l)) <= dl \/ Cmod (cv (ew r)) <= dl)%R ->
                exists e' s', Some (zeroE, s) = Some (e', s') /\ mulpost i s LN l r e' s')
      by (intros Hng h; apply Hret; auto; intros n' _ Hl' Hr'; split; [apply wfe_zero|]; intros ix;
          rewrite val_zeroE;
          replace (Cminus (RtoC 0) (mulF (tb s KM) l r n' ix)) with (Copp (mulF (tb s KM) l r n' ix)) by ring;
          rewrite Cmod_opp; eapply Rle_trans; [apply mulF_le; auto|]; apply zero_boundm; auto);
    assert (Htl : ~ gm l r -> en l = Term -> exists e' s', Some (E (cmul (ew r) (ew l)) (en r), s) = Some (e', s') /\ mulpost i s LN l r e' s')
      by (intros Hng h; apply Hret; auto; intros n' _ _ Hr'; split; [now apply (wfe_scale_r)|];
          intros ix; rewrite (mulF_term_l) by auto; unfold FpA.val; cbn [ew en];
          replace (Cmult (cv (ew l)) (Cmult (cv (ew r)) (valp KM (tb s KM) n' (en r) ix)))
            with (Cmult (Cmult (cv (ew r)) (cv (ew l))) (valp KM (tb s KM) n' (en r) ix)) by ring;
          apply term_boundm; auto; [now apply wfe_wfp|right; ring]);
    assert (Htr : ~ gm l r -> en r = Term -> exists e' s', Some (E (cmul (ew l) (ew r)) (en l), s) = Some (e', s') /\ mulpost i s LN l r e' s')
      by (intros Hng h; apply Hret; auto; intros n' _ Hl' _; split; [now apply (wfe_scale_r)|];
          intros ix; rewrite (mulF_term_r) by auto; unfold FpA.val; cbn [ew en];
          replace (Cmult (cv (ew r)) (Cmult (cv (ew l)) (valp KM (tb s KM) n' (en l) ix)))
            with (Cmult (Cmult (cv (ew l)) (cv (ew r))) (valp KM (tb s KM) n' (en l) ix)) by ring;
          apply term_boundm; auto; [now apply wfe_wfp|right; ring]);
    subst LN; cbn [mm_multiply2].
  all: destruct (edge_eqb l zeroE) eqn:Hle; cbn [orb run_on];
    [apply Hz; [unfold gm; rewrite Hle; intros (h & _); discriminate|]; left;
     apply (edge_eqb_mod) in Hle; change (ew zeroE) with c0 in Hle; rewrite cv_0, Cmod_0 in Hle; lra|].
  all: destruct (edge_eqb r zeroE) eqn:Hre; cbn [run_on];
    [apply Hz; [unfold gm; rewrite Hre; intros (_ & h & _); discriminate|]; right;
     apply (edge_eqb_mod) in Hre; change (ew zeroE) with c0 in Hre; rewrite cv_0, Cmod_0 in Hre; lra|].
  all: destruct (is_term (en l)) eqn:Hlt; cbn [run_on];
    [apply Htl; [unfold gm; rewrite Hlt; intros (_ & _ & h & _); discriminate|]; clear - Hlt; destruct (en l); (discriminate Hlt || auto)|].
  all: destruct (is_term (en r)) eqn:Hrt; cbn [run_on];
    [apply Htr; [unfold gm; rewrite Hrt; intros (_ & _ & _ & h & _); discriminate|]; clear - Hrt; destruct (en r); (discriminate Hrt || auto)|].
  all: destruct (iszero (ew l)) eqn:Hzl; cbn [orb run_on];
    [apply Hz; [unfold gm; rewrite Hzl; intros (_ & _ & _ & _ & h & _); discriminate|left; now apply z_true in Hzl]|].
  all: destruct (iszero (ew r)) eqn:Hzr; cbn [run_on];
    [apply Hz; [unfold gm; rewrite Hzr; intros (_ & _ & _ & _ & _ & h); discriminate|right; now apply z_true in Hzr]|].
  all: pose proof (nz_wfp _ _ _ Hl Hzl) as Hpl; pose proof (nz_wfp _ _ _ Hr Hzr) as Hpr; clear Hz Htl Htr Hret.
  - rewrite (wfp0 _ _ HT Hpl) in Hlt. discriminate.
  - assert (Hgm : gm l r) by (unfold gm; auto 8).
    destruct Hpl as [h|(la & lnd & Hel & Hrl & Hvl)]; [rewrite h in Hlt; discriminate|].
    destruct Hpr as [h|(ra & rnd' & Her & Hrr & Hvr)]; [rewrite h in Hrt; discriminate|].
    pose proof (no_level _ _ _ (reg_ok KM _ _ _ HT Hrl)) as Hll.
    pose proof (no_level _ _ _ (reg_ok KM _ _ _ HT Hrr)) as Hlr.
    assert (Hm : Z.of_nat m < NQUBITS) by lia.
    set (ul := unit_of l). set (ur := unit_of r).
    assert (Hul : forall n', wfe KM (tb s KM) n' l -> wfe KM (tb s KM) n' ul) by (intros n' h; left; exact (nz_wfp _ _ _ h Hzl)).
    assert (Hur : forall n', wfe KM (tb s KM) n' r -> wfe KM (tb s KM) n' ur) by (intros n' h; left; exact (nz_wfp _ _ _ h Hzr)).
    assert (Hlow_l : forall n', wfe KM (tb s KM) n' ul -> nv lnd < Z.of_nat n').
    { intros n' h. pose proof (node_not_low (tb s KM) (Z.to_nat (nv lnd)) n' ul la lnd Hel Hrl ltac:(lia) h). lia. }
    assert (Hlow_r : forall n', wfe KM (tb s KM) n' ur -> nv rnd' < Z.of_nat n').
    { intros n' h. pose proof (node_not_low (tb s KM) (Z.to_nat (nv rnd')) n' ur ra rnd' Her Hrr ltac:(lia) h). lia. }
    assert (Hwl : forall n', nv lnd < Z.of_nat n' -> wfe KM (tb s KM) n' ul).
    { intros n' h. left. right. exists la, lnd. auto. }
    assert (Hwr : forall n', nv rnd' < Z.of_nat n' -> wfe KM (tb s KM) n' ur).
    { intros n' h. left. right. exists ra, rnd'. auto. }
    assert (Hlevl : lev_is (tb s KM) (en l) (nv lnd)) by (exists la, lnd; auto).
    assert (Hlevr : lev_is (tb s KM) (en r) (nv rnd')) by (exists ra, rnd'; auto).
    assert (Hbelow : forall n', wfe KM (tb s KM) n' ul -> wfe KM (tb s KM) n' ur ->
              (Z.to_nat (Z.max (nv lnd) (nv rnd') + 1) <= n')%nat).
    { intros n' h1 h2. apply Hlow_l in h1. apply Hlow_r in h2. lia. }
    set (mx := Z.to_nat (Z.max (nv lnd) (nv rnd') + 1)) in *.
    (* rescaling a unit product *)
    assert (Hscale : forall res (g : edge -> edge) s', rel s s' ->
        (forall res s1 n U mu, Inv s1 -> dn KM n U mu res s1 -> (0 <= mu)%R -> (forall ix, Cmod (U ix) <= Bd n)%R ->
           dn KM n (fun ix => Cmult (Cmult (cv (ew l)) (cv (ew r))) (U ix)) (emv0 mu n (Cmod (cv (ew l))) (Cmod (cv (ew r)))) (g res) s1) ->
        (forall n', (n' <= S m)%nat -> wfe KM (tb s KM) n' ul -> wfe KM (tb s KM) n' ur ->
           dnt KM (tb s' KM) n' res (mulF (tb s KM) ul ur n') (emulm n')) ->
        forall n', (n' <= S m)%nat -> wfe KM (tb s KM) n' l -> wfe KM (tb s KM) n' r ->
          dnt KM (tb s' KM) n' (g res) (mulF (tb s KM) l r n') (emm n' (Cmod (cv (ew l))) (Cmod (cv (ew r))))).
    { intros res g s' Hrs Hg HD n' Hn' Hl' Hr'. specialize (HD n' Hn' (Hul _ Hl') (Hur _ Hr')).
      eapply (dnt_weaken).
      2:{ eapply (dnt_F); [|apply (Hg res s' n' _ _ (rel_inv _ _ Hrs) HD (emulm_pos n'))].
          - intros ix. cbn beta. now rewrite (mulF_unit _ l r).
          - intros ix. apply mulF_le1; auto. }
      apply emv0_emm; auto. }
    destruct (mfind_cases i (en l) (en r) s la lnd HI Hel Hrl) as (res0 & s1 & Hfind & Hr1 & Hmts1 & Hcase).
    cbn [run_on]. rewrite Hfind. pose proof (rel_inv _ _ Hr1) as HI1.
    assert (He1 : ext KM (tb s KM) (tb s1 KM)) by apply (rel_ext _ _ KM Hr1).
    assert (HT1 : TInv KM (tb s1 KM)) by apply HI1.
    destruct Hcase as [[-> Hmiss]|[Hhit (e & Hml & Hmr & Hmres & Hent)]].
    + (* miss *)
      cbn [en nullE is_null negb].
      (* storing the product *)
      assert (Hfin : forall res x s6, rel s s6 -> famm res x -> fresh_prod s (S m) l r res s6 -> mframe i (S m) s s6 ->
        (forall y, mts i s6 (en l) (en r) y -> famm res y) ->
        exists e' s', run_on i (CMSet KM (en l) (en r) x (CRet (rescale_new x l r))) s6 = Some (e', s') /\
          mulpost i s (S m) l r e' s').
      { intros res x s6 Hr6 Hf Hfr Hfm Hall. pose proof (rel_inv _ _ Hr6) as HI6.
        assert (He6 : ext KM (tb s KM) (tb s6 KM)) by apply (rel_ext _ _ KM Hr6).
        assert (HT6 : TInv KM (tb s6 KM)) by apply HI6.
        assert (HD : forall s7, rel s6 s7 -> forall n', (n' <= S m)%nat -> wfe KM (tb s KM) n' ul -> wfe KM (tb s KM) n' ur ->
           dnt KM (tb s7 KM) n' x (mulF (tb s KM) ul ur n') (emulm n')).
        { intros s7 Hr7 n' Hn' h1 h2. assert (HT7 : TInv KM (tb s7 KM)) by apply (rel_inv _ _ Hr7).
          pose proof (fresh_prod_rel _ _ _ _ _ _ _ HI6 Hr7 Hfr n' Hn' h1 h2) as h.
          destruct n' as [|k]; [apply Hlow_l in h1; lia|]. rewrite emulm_S. eapply famm_dnt; eauto. }
        destruct (mset_spec KM i (en l) (en r) x s6 la lnd HI6 Hel (He6 _ _ Hrl)) as (s7 & Hs7 & Hr7).
        { intros b z. cbn [mul_ok m_l m_r m_res]. exists (nv lnd), (nv rnd'), mx.
          split; [exists la, lnd; auto|]. split; [exists ra, rnd'; auto|]. split; auto.
          assert (w1 : wfe KM (tb s KM) mx ul) by (apply Hwl; lia). assert (w2 : wfe KM (tb s KM) mx ur) by (apply Hwr; lia).
          eapply (dnt_F); [|apply (HD s6 (rel_refl _ HI6) mx); auto; lia].
          intros ix. unfold mulF. apply mmF_ext; intros k.
          - rewrite <- (val_ext KM (tb s KM) (tb s6 KM)) by auto. apply valp_val.
          - rewrite <- (val_ext KM (tb s KM) (tb s6 KM)) by auto. apply valp_val. }
        pose proof (mset_cases _ _ _ _ _ _ HI6 Hs7) as [Hm1 Hm2].
        exists (rescale_new x l r), s7. cbn [run_on]. rewrite Hs7. split; [reflexivity|].
        assert (Hr07 : rel s s7) by (eapply rel_trans; eauto).
        split; auto. split.
        { apply (Hscale x (fun x => rescale_new x l r) s7 Hr07); [|apply (HD s7 Hr7)].
          intros res' sx nx U mu h1 h2 h3 h4. now apply (rescale_new_bound). }
        split.
        { intros p q vp vq y Hp Hq Hv Hy. apply Hm1 in Hy as [(-> & -> & ->)|Hy]; [|eapply Hfm; eauto].
          exfalso.
          assert (vp = nv lnd). { destruct Hp as (a' & nd' & h1 & h2 & <-). rewrite Hel in h1. injection h1 as <-. now rewrite (reg_fun _ _ _ _ _ h2 Hrl). }
          assert (vq = nv rnd'). { destruct Hq as (a' & nd' & h1 & h2 & <-). rewrite Her in h1. injection h1 as <-. now rewrite (reg_fun _ _ _ _ _ h2 Hrr). }
          lia. }
        intros _ _. exists res, x. split; auto. split; auto. split; [eapply fresh_prod_rel; eauto|].
        split; [|eauto]. intros y Hy. apply Hm1 in Hy as [(_ & _ & ->)|Hy]; auto. }
      assert (Hrl1 : reg KM (tb s1 KM) la lnd) by auto. assert (Hrr1 : reg KM (tb s1 KM) ra rnd') by auto.
      assert (Hrd1 : readn KM (en l) s1 = Some lnd) by (rewrite Hel; now apply (readn_reg)).
      assert (Hrd2 : readn KM (en r) s1 = Some rnd') by (rewrite Her; now apply (readn_reg)).
      cbn [run_on]. rewrite Hrd1. cbn [run_on]. rewrite Hrd2.
      assert (Hc1 : (nv lnd <=? Z.of_nat m) = true) by (apply Z.leb_le; lia).
      assert (Hc2 : (nv rnd' <=? Z.of_nat m) = true) by (apply Z.leb_le; lia).
      rewrite Hc1, Hc2. cbn [andb].
      assert (Hmiss1 : forall x, ~ mts i s1 (en l) (en r) x).
      { intros x h. apply (Hmiss x). eapply Hmts1; eauto. }
      assert (Hfr1 : mframe i (S m) s s1).
      { intros p q vp vq x Hp Hq _ Hx. eapply Hmts1; eauto. }
      assert (Hlev1l : lev_is (tb s1 KM) (en l) (nv lnd)) by (exists la, lnd; auto).
      assert (Hlev1r : lev_is (tb s1 KM) (en r) (nv rnd')) by (exists ra, rnd'; auto).
      destruct (Z_lt_le_dec (Z.max (nv lnd) (nv rnd')) (Z.of_nat m)) as [Hid|Hbase].
      * (* an identity level *)
        rewrite !(mchild1_low) by lia.
        cbn [Nat.div Nat.modulo Nat.divmod fst snd Nat.mul Nat.add Nat.sub].
        change (E c1 (en l)) with ul. change (E c1 (en r)) with ur.
        rewrite !mul2_z, !mul2_zr. cbn [bind].
        assert (Hulm : wfe KM (tb s1 KM) m ul) by (eapply (wfe_ext); [exact He1|]; apply Hwl; lia).
        assert (Hurm : wfe KM (tb s1 KM) m ur) by (eapply (wfe_ext); [exact He1|]; apply Hwr; lia).
        destruct (IH s1 ul ur HI1 ltac:(lia) Hulm Hurm) as (p0 & s2 & R0 & Hr2 & _ & Hfm2 & Hnew).
        destruct (Hnew (gm_unit _ _ Hgm) Hmiss1) as (res & x & Hf & Hp0 & Hfr & Hall & (y0 & Hy0)).
        pose proof (rel_inv _ _ Hr2) as HI2.
        assert (Hr02 : rel s s2) by (eapply rel_trans; eauto).
        assert (He2 : ext KM (tb s KM) (tb s2 KM)) by apply (rel_ext _ _ KM Hr02).
        rewrite (rnd_new res x ul ur Hf eq_refl eq_refl) in Hp0. subst p0.
        rewrite run_on_bind, R0. rewrite (add2_zr). cbn [bind]. fold (snap0 (rnd res)). rewrite snap_rnd.
        rewrite !(add2_z). cbn [bind]. rewrite run_on_bind.
        (* the second call finds a product stored by the first *)
        assert (Hrun2 : exists y s3, run_on i (mm_multiply2 m ul ur) s2 = Some (rescale_hit y ul ur, s3) /\ famm res y /\
                  rel s2 s3 /\ (forall p q x v, lev_is (tb s2 KM) p v -> (mts i s3 p q x <-> mts i s2 p q x))).
        { destruct m as [|k]; [lia|]. cbn [mm_multiply2]. destruct (gm_unit _ _ Hgm) as (g1 & g2 & g3 & g4 & g5 & g6).
          fold ul ur in g1, g2, g3, g4, g5, g6. rewrite g1, g2. cbn [orb]. rewrite g3, g4, g5, g6. cbn [orb run_on].
          destruct (mfind_cases i (en ul) (en ur) s2 la lnd HI2 Hel (He2 _ _ Hrl)) as (y & s3 & Hfd & Hr3 & Hm3 & Hc).
          rewrite Hfd. destruct Hc as [[_ Hno]|[Hy (e & _ & _ & Hmr & Hok)]]; [exfalso; exact (Hno _ Hy0)|].
          destruct Hok as (? & ? & mm & _ & _ & _ & [Hw _]). rewrite Hmr in Hw.
          destruct (wfe_getVar KM s2 mm y HI2 Hw) as (v & _ & _ & Hnn).
          assert (Hnull : is_null (en y) = false) by (destruct (en y); auto; contradiction). rewrite Hnull. cbn [negb run_on].
          exists y, s3. split; [reflexivity|]. split; [apply Hall; exact Hy|]. auto. }
        destruct Hrun2 as (y & s3 & R3 & Hfy & Hr3 & Hm3). rewrite R3, (add2_z). cbn [bind]. rewrite run_on_bind.
        pose proof (rel_inv _ _ Hr3) as HI3.
        assert (R4 : run_on i (makeMEdge (Z.of_nat m) (rnd res) zeroE zeroE (rescale_hit y ul ur)) s3 = Some (rnd res, s3)).
        { unfold makeMEdge. change (ew zeroE) with c0. rewrite !(z_0 c0 cv_0).
          rewrite !andb_true_r. rewrite (hit_eq res y ul ur Hfy eq_refl eq_refl). reflexivity. }
        rewrite R4. apply (Hfin res (rnd res) s3); [eapply rel_trans; eauto|apply rnd_famm| | |].
        -- assert (Hfr3 : fresh_prod s1 m ul ur res s3) by exact (fresh_prod_rel _ _ _ _ _ s2 s3 HI2 Hr3 Hfr).
           assert (Hfrs : fresh_prod s m l r res s3).
           { intros n' Hn' h1 h2. eapply (dnt_F); [|apply (Hfr3 n' Hn'); eapply (wfe_ext); [exact He1|exact h1|exact He1|exact h2]].
             intros ix. apply (mulF_ext); [exact HT|exact He1|exact h1|exact h2]. }
           intros n' Hn' h1 h2. destruct (Nat.eq_dec n' (S m)) as [->|]; [|apply Hfrs; auto; lia].
           assert (w1 : wfe KM (tb s KM) m ul) by (apply Hwl; lia). assert (w2 : wfe KM (tb s KM) m ur) by (apply Hwr; lia).
           destruct m as [|k]; [lia|]. cbn [pred].
           eapply (dnt_weaken) with (err := emulb k).
           { apply emulb_up. lia. }
           eapply (dnt_lift' (mulF (tb s KM) ul ur)) with (m := S k); [apply emulb_pos; auto| |apply (Hfrs (S k)); auto|lia].
           intros k' ix Hk. apply (mulF_up); eapply (wfe_KM_up); eauto.
        -- eapply mframe_trans; [exact Hr1|exact Hfr1|].
           eapply mframe_trans; [exact Hr2|apply (mframe_up i m); [lia|exact Hfm2]|].
           intros p q vp vq z Hp Hq _ Hx. eapply Hm3; eauto.
        -- intros z Hx. apply Hall. apply (Hm3 (en l) (en r) z (nv lnd)); auto. eapply (lev_is_ext); eauto.
      * (* some operand has a node at this level *)
        set (lc := mchild1 (Z.of_nat m) l lnd). set (rc := mchild1 (Z.of_nat m) r rnd').
        set (T := fun j ix => mulF (tb s KM) ul ur (S m) (ixset ix m j)).
        set (pb := emm m Gr Gr). pose proof Gr_ge1 as HG1.
        assert (Hpb : (0 <= pb)%R) by (apply (emm_pos); lra). assert (HG0 : (0 <= Gr)%R) by lra.
        assert (Hlc : forall j, (j < 4)%nat -> wfe KM (tb s1 KM) m (lc j) /\
                (forall ix, val KM (tb s1 KM) m (lc j) ix = blk (val KM (tb s KM) (S m) ul) m j ix) /\ (Cmod (cv (ew (lc j))) <= Gr)%R).
        { intros j Hj. destruct (mchild1_spec (tb s1 KM) m l la lnd j HT1 Hel (He1 _ _ Hrl) Hvl Hj) as (h1 & h2 & h3).
          split; auto. split; auto. intros ix. unfold lc. rewrite h2. unfold blk, ul, unit_of. rewrite valp_val.
          apply (valp_ext); auto. right. exists la, lnd. auto. }
        assert (Hrc : forall j, (j < 4)%nat -> wfe KM (tb s1 KM) m (rc j) /\
                (forall ix, val KM (tb s1 KM) m (rc j) ix = blk (val KM (tb s KM) (S m) ur) m j ix) /\ (Cmod (cv (ew (rc j))) <= Gr)%R).
        { intros j Hj. destruct (mchild1_spec (tb s1 KM) m r ra rnd' j HT1 Her (He1 _ _ Hrr) Hvr Hj) as (h1 & h2 & h3).
          split; auto. split; auto. intros ix. unfold rc. rewrite h2. unfold blk, ur, unit_of. rewrite valp_val.
          apply (valp_ext); auto. right. exists ra, rnd'. auto. }
        set (PR := fun j j' => mmF m (blk (val KM (tb s KM) (S m) ul) m j) (blk (val KM (tb s KM) (S m) ur) m j')).
        assert (Hmulsub : forall j j' s3, (j < 4)%nat -> (j' < 4)%nat -> rel s1 s3 ->
           exists p s4, run_on i (mm_multiply2 m (lc j) (rc j')) s3 = Some (p, s4) /\ rel s3 s4 /\ mframe i m s3 s4 /\
             dnt KM (tb s4 KM) m p (PR j j') pb).
        { intros j j' s3 Hj Hj' Hr3. pose proof (rel_inv _ _ Hr3) as HI3.
          assert (He3 : ext KM (tb s1 KM) (tb s3 KM)) by apply (rel_ext _ _ KM Hr3).
          destruct (Hlc j Hj) as (h1 & h2 & b1). destruct (Hrc j' Hj') as (h3 & h4 & b2).
          pose proof (wfe_ext KM _ _ m _ He3 h1) as h1'. pose proof (wfe_ext KM _ _ m _ He3 h3) as h3'.
          destruct (IH s3 (lc j) (rc j') HI3 ltac:(lia) h1' h3') as (p & s4 & R & Hr4 & HD & Hfm & _).
          exists p, s4. split; auto. split; auto. split; auto.
          eapply (dnt_weaken); [apply (emm_mono m m (Cmod (cv (ew (lc j)))) (Cmod (cv (ew (rc j')))) Gr Gr); auto; split; auto using Cmod_ge_0|].
          eapply (dnt_F); [|apply (HD m); auto].
          intros ix. apply mmF_ext; intros k.
          - now rewrite (val_ext KM (tb s1 KM) (tb s3 KM)).
          - now rewrite (val_ext KM (tb s1 KM) (tb s3 KM)). }
        assert (Hbl : forall j ix, (Cmod (blk (val KM (tb s KM) (S m) ul) m j ix) <= Gp (S m))%R).
        { intros j ix. unfold blk. eapply Rle_trans; [apply (val_le); auto|]. unfold ul, unit_of. cbn [ew]. rewrite cv_1, Cmod_1. lra. }
        assert (Hbr : forall j ix, (Cmod (blk (val KM (tb s KM) (S m) ur) m j ix) <= Gp (S m))%R).
        { intros j ix. unfold blk. eapply Rle_trans; [apply (val_le); auto|]. unfold ur, unit_of. cbn [ew]. rewrite cv_1, Cmod_1. lra. }
        assert (HPR : forall j j' ix, (Cmod (PR j j' ix) <= Bs m)%R).
        { intros j j' ix. eapply Rle_trans; [apply (mmF_bound m _ _ ix (Gp (S m)) (Gp (S m))); auto; apply Grp|]. unfold FpE.Bs. right. ring. }
        assert (HTT : forall j ix, (Cmod (T j ix) <= 2 * Bs m)%R).
        { intros j ix. unfold T. eapply Rle_trans; [apply mulF_le1; auto|]. unfold FpE.Bd, FpE.Bs. right. cbn [pow]. ring. }
        assert (Hentry : forall j s3, (j < 4)%nat -> rel s1 s3 ->
           exists e s6, rel s3 s6 /\ mframe i m s3 s6 /\ dnt KM (tb s6 KM) m e (T j) (eblk m) /\
             forall f, run_on i (bind (mm_multiply2 m (lc (2 * Nat.div j 2)%nat) (rc (Nat.modulo j 2))) (fun p0 =>
                    bind (mm_multiply2 m (lc (2 * Nat.div j 2 + 1)%nat) (rc (2 + Nat.modulo j 2)%nat)) (fun p1 =>
                    bind (mm_add2 m p0 p1) f))) s3 = run_on i (f e) s6).
        { intros j s3 Hj Hr3. pose proof (rel_inv _ _ Hr3) as HI3.
          assert (Hdm : (2 * Nat.div j 2 + 1 < 4 /\ Nat.modulo j 2 < 2)%nat).
          { pose proof (Nat.div_mod j 2 ltac:(lia)). pose proof (Nat.mod_upper_bound j 2 ltac:(lia)). lia. }
          destruct (Hmulsub (2 * Nat.div j 2)%nat (Nat.modulo j 2) s3 ltac:(lia) ltac:(lia) Hr3) as (p0 & s4 & R0 & Hr4 & F0 & D0).
          assert (Hr14 : rel s1 s4) by (eapply rel_trans; eauto). pose proof (rel_inv _ _ Hr4) as HI4.
          destruct (Hmulsub (2 * Nat.div j 2 + 1)%nat (2 + Nat.modulo j 2)%nat s4 ltac:(lia) ltac:(lia) Hr14) as (p1 & s5 & R1 & Hr5 & F1 & D1).
          pose proof (rel_inv _ _ Hr5) as HI5. assert (HT5 : TInv KM (tb s5 KM)) by apply HI5.
          assert (D0' : dnt KM (tb s5 KM) m p0 (PR (2 * Nat.div j 2)%nat (Nat.modulo j 2)) pb).
          { eapply (dnt_ext); [apply HI4|apply (rel_ext _ _ KM Hr5)|exact D0]. }
          destruct (run_mm_add2 i m s5 p0 p1 HI5 ltac:(lia) (proj1 D0') (proj1 D1)) as (e & s6 & R2 & Hr6 & M6 & HA & _).
          exists e, s6. split; [eapply rel_trans; [exact Hr4|]; eapply rel_trans; eauto|].
          split; [eapply mframe_trans; [exact Hr4|exact F0|]; eapply mframe_trans; [exact Hr5|exact F1|]; now apply mframe_mc|].
          split; [|intros f; rewrite run_on_bind, R0, run_on_bind, R1, run_on_bind, R2; reflexivity].
          pose proof (dnt_wbound KM _ _ _ _ _ _ HT5 D0' (HPR _ _)) as B0.
          pose proof (dnt_wbound KM _ _ _ _ _ _ HT5 D1 (HPR _ _)) as B1.
          specialize (HA m ltac:(lia) (proj1 D0') (proj1 D1)).
          unfold FpE.eblk, eblk_. cbn zeta. change (mvbound (emulm m) m Gr Gr) with pb. rewrite Rplus_comm.
          eapply (dnt_err); [|eapply (dnt_weaken); [|exact HA]].
          - intros ix. replace (T j ix) with (Cplus (PR (2 * Nat.div j 2)%nat (Nat.modulo j 2) ix) (PR (2 * Nat.div j 2 + 1)%nat (2 + Nat.modulo j 2)%nat ix)).
            2:{ unfold T, mulF. rewrite mmF_S. rewrite !ixset_same.
                assert (Hloc : forall a b, mmF m (blk (val KM (tb s KM) (S m) ul) m a) (blk (val KM (tb s KM) (S m) ur) m b) (ixset ix m j) = PR a b ix).
                { intros a b. apply mmF_local.
                  - intros z Hz. apply ixset_other. lia.
                  - intros f g Hfg. unfold blk. apply val_local. intros z Hz. unfold ixset. destruct (Nat.eqb_spec z m); auto. apply Hfg. lia.
                  - intros f g Hfg. unfold blk. apply val_local. intros z Hz. unfold ixset. destruct (Nat.eqb_spec z m); auto. apply Hfg. lia. }
                now rewrite !Hloc. }
            unfold sumF.
            match goal with |- (Cmod (Cminus (Cplus ?a ?b) (Cplus ?c ?d)) <= _)%R =>
              replace (Cminus (Cplus a b) (Cplus c d)) with (Cplus (Cminus a c) (Cminus b d)) by ring end.
            eapply Rle_trans; [apply Cmod_triangle|].
            pose proof (proj2 D0' ix). pose proof (proj2 D1 ix). lra.
          - apply (eaddm_mono). split; [apply wsum_pos|]. unfold wsum. lra. }
        destruct (Hentry 0%nat s1 ltac:(lia) ltac:(now apply rel_refl)) as (e0 & s2 & Hr2 & F0 & D0 & R0).
        pose proof (rel_inv _ _ Hr2) as HI2.
        destruct (Hentry 1%nat s2 ltac:(lia) Hr2) as (e1 & s3 & Hr3 & F1 & D1 & R1).
        pose proof (rel_inv _ _ Hr3) as HI3. assert (Hr13 : rel s1 s3) by (eapply rel_trans; eauto).
        destruct (Hentry 2%nat s3 ltac:(lia) Hr13) as (e2 & s4 & Hr4 & F2 & D2 & R2).
        pose proof (rel_inv _ _ Hr4) as HI4. assert (Hr14 : rel s1 s4) by (eapply rel_trans; eauto).
        destruct (Hentry 3%nat s4 ltac:(lia) Hr14) as (e3 & s5 & Hr5 & F3 & D3 & R3).
        pose proof (rel_inv _ _ Hr5) as HI5. assert (Hr15 : rel s1 s5) by (eapply rel_trans; eauto).
        rewrite R0, R1, R2, R3, run_on_bind.
        assert (Hr35 : rel s3 s5) by (eapply rel_trans; eauto). assert (Hr25 : rel s2 s5) by (eapply rel_trans; eauto).
        assert (Hext : forall sa (e : edge) F err, Inv sa -> rel sa s5 -> dnt KM (tb sa KM) m e F err -> dnt KM (tb s5 KM) m e F err).
        { intros sa e F err h1 h2 h3. eapply (dnt_ext); [apply h1|apply (rel_ext _ _ KM h2)|exact h3]. }
        destruct (run_assemble i m s5 e0 e1 e2 e3 T (eblk m) (2 * Bs m)%R HI5 Hm) as (res & s6 & R6 & Hr6 & _ & M6 & D6);
          [apply eblk_pos; auto|apply (Hext s2); auto|apply (Hext s3); auto|apply (Hext s4); auto|auto| |].
        { intros j ix _. apply HTT. }
        rewrite R6.
        assert (F16 : mframe i m s1 s6).
        { eapply mframe_trans; [exact Hr2|exact F0|]. eapply mframe_trans; [exact Hr3|exact F1|].
          eapply mframe_trans; [exact Hr4|exact F2|]. eapply mframe_trans; [exact Hr5|exact F3|]. now apply mframe_mc. }
        assert (Hr16 : rel s1 s6) by (eapply rel_trans; eauto).
        apply (Hfin res res s6); [eapply rel_trans; eauto|now left| | |].
        -- intros n' Hn' h1 h2. specialize (Hbelow n' h1 h2). assert (n' = S m) as -> by lia. cbn [pred].
           unfold emulb. eapply (dnt_F); [|exact D6].
           intros ix. unfold four4.
           assert (HTi : forall j, ix m = j -> T j ix = mulF (tb s KM) ul ur (S m) ix).
           { intros j Hj. unfold T. apply (mulF_local). intros z _. unfold ixset. destruct (Nat.eqb_spec z m); congruence. }
           destruct (ix m) as [|[|[|[|j]]]] eqn:Hix; try (now apply HTi).
           symmetry. unfold mulF. rewrite mmF_S, Hix.
           assert (Hz : forall a b, (4 <= a)%nat -> mmF m (blk (val KM (tb s KM) (S m) ul) m a) (blk (val KM (tb s KM) (S m) ur) m b) ix = RtoC 0).
           { intros a b Ha. unfold mmF. rewrite (bsum_ext m _ (fun _ => Cmult (RtoC 0) (RtoC 0))).
             - rewrite (bsum_scal m (RtoC 0) (fun _ => RtoC 0)). ring.
             - intros k. unfold blk at 1. rewrite (val_KM_big) by (auto; rewrite ixset_same; lia). ring. }
           pose proof (div2_big (S (S (S (S j)))) ltac:(lia)). rewrite !Hz by lia. ring.
        -- eapply mframe_trans; [exact Hr1|exact Hfr1|]. apply (mframe_up i m); [lia|exact F16].
        -- intros y Hy. exfalso. apply (Hmiss1 y). eapply F16; eauto. lia.
    + (* hit *)
      destruct Hent as (lv & rv & mm & Hlv & Hrv & Hmm & Hd). rewrite Hmres, Hml, Hmr in Hd.
      assert (lv = nv lnd).
      { destruct Hlv as (a & nd & h1 & h2 & <-). rewrite Hml, Hel in h1. injection h1 as <-.
        now rewrite (reg_fun _ _ _ _ _ h2 Hrl). }
      assert (rv = nv rnd').
      { destruct Hrv as (a & nd & h1 & h2 & <-). rewrite Hmr, Her in h1. injection h1 as <-.
        now rewrite (reg_fun _ _ _ _ _ h2 Hrr). }
      subst lv rv. fold mx in Hmm. subst mm.
      destruct (wfe_getVar KM s mx res0 HI (proj1 Hd)) as (v & _ & _ & Hnn).
      assert (Hnull : is_null (en res0) = false) by (destruct (en res0); auto; contradiction).
      rewrite Hnull. cbn [negb run_on].
      eexists _, _. split; [reflexivity|]. split; auto. split.
      { apply (Hscale res0 (fun x => rescale_hit x l r) s1 Hr1).
        - intros res' sx nx U mu h1 h2 h3 h4. now apply (rescale_hit_bound).
        - intros n' Hn' h1 h2. pose proof (Hbelow n' h1 h2) as Hb.
          assert (w1 : wfe KM (tb s KM) mx ul) by (apply Hwl; lia). assert (w2 : wfe KM (tb s KM) mx ur) by (apply Hwr; lia).
          eapply (dnt_weaken); [apply (emulm_up mx n' Hb)|].
          eapply (dnt_lift' (mulF (tb s KM) ul ur)) with (m := mx); [apply emulm_pos; auto| | |exact Hb].
          + intros k ix Hk. apply (mulF_up); eapply (wfe_KM_up); eauto.
          + eapply (dnt_ext); [exact HT|exact He1|]. eapply (dnt_F); [|exact Hd].
            intros ix. unfold mulF. apply mmF_ext; intros k; symmetry; apply valp_val. }
      split.
      { intros p q vp vq x Hp Hq _ Hx. eapply Hmts1; eauto. }
      intros _ Hno. exfalso. exact (Hno _ Hhit).
Qed.
(* the root level used by mm_add and mm_multiply *)
Lemma run_rootVar i (l r : edge) f s n : Inv s -> wfe KM (tb s KM) n l -> wfe KM (tb s KM) n r ->
  exists root, run_on i (rootVar l r f) s = run_on i (f root) s /\ -1 <= root < Z.of_nat n /\
     (forall n', wfe KM (tb s KM) n' l -> wfe KM (tb s KM) n' r -> root < Z.of_nat n') /\
     wfe KM (tb s KM) (Z.to_nat (root + 1)) l /\ wfe KM (tb s KM) (Z.to_nat (root + 1)) r.
Proof.
  intros HI Hl Hr. unfold rootVar. assert (HT : TInv KM (tb s KM)) by apply HI.
  assert (Hp : forall e, wfe KM (tb s KM) n e -> wfp KM (tb s KM) n (en e)).
  { intros e [h|[_ h]]; auto. rewrite h. now left. }
  destruct (readp_rd s n (en l) HI (Hp l Hl)) as (lnd & Rl & Hrl).
  destruct (readp_rd s n (en r) HI (Hp r Hr)) as (rnd & Rr & Hrr).
  assert (Hlt : forall (e : edge) nd n', rd (tb s KM) n (en e) nd -> wfe KM (tb s KM) n' e -> nv nd < Z.of_nat n').
  { intros e nd n' [[h1 h2]|(a & h1 & h2 & h3)] Hw; [lia|].
    pose proof (node_not_low (tb s KM) (Z.to_nat (nv nd)) n' e a nd h1 h2 ltac:(lia) Hw). lia. }
  assert (Hup : forall (e : edge) nd n', rd (tb s KM) n (en e) nd -> nv nd < Z.of_nat n' -> wfe KM (tb s KM) n' e).
  { intros e nd n' [[h1 h2]|(a & h1 & h2 & h3)] Hv; left; [left; auto|]. right. exists a, nd. auto. }
  assert (Hb : forall (e : edge) nd, rd (tb s KM) n (en e) nd -> -1 <= nv nd < Z.of_nat n /\ (is_term (en e) = true -> nv nd = -1) /\ (is_term (en e) = false -> 0 <= nv nd)).
  { intros e nd [[h1 h2]|(a & h1 & h2 & h3)]; rewrite h1; cbn; split; try split; intros; try lia; discriminate. }
  destruct (Hb l lnd Hrl) as (b1 & b2 & b3). destruct (Hb r rnd Hrr) as (b4 & b5 & b6).
  cbn [run_on]. rewrite Rl. cbn [run_on]. rewrite Rr.
  destruct (is_term (en l)) eqn:Etl; cbn [orb].
  { specialize (b2 eq_refl). exists (nv rnd). split; auto. split; [lia|]. split; [|split].
    - intros n' _ h. eapply Hlt; eauto.
    - apply (Hup l lnd); auto. lia.
    - apply (Hup r rnd); auto. lia. }
  specialize (b3 eq_refl).
  destruct (is_term (en r)) eqn:Etr; cbn [negb andb].
  { specialize (b5 eq_refl). exists (nv lnd). split; auto. split; [lia|]. split; [|split].
    - intros n' h _. eapply Hlt; eauto.
    - apply (Hup l lnd); auto. lia.
    - apply (Hup r rnd); auto. lia. }
  specialize (b6 eq_refl).
  destruct (nv lnd <? nv rnd) eqn:Hc; [apply Z.ltb_lt in Hc|apply Z.ltb_ge in Hc].
  - exists (nv rnd). split; auto. split; [lia|]. split; [|split].
    + intros n' _ h. eapply Hlt; eauto.
    + apply (Hup l lnd); auto. lia.
    + apply (Hup r rnd); auto. lia.
  - exists (nv lnd). split; auto. split; [lia|]. split; [|split].
    + intros n' h _. eapply Hlt; eauto.
    + apply (Hup l lnd); auto. lia.
    + apply (Hup r rnd); auto. lia.
Qed.

Theorem run_mm_add i n s l r : Inv s -> Z.of_nat n <= NQUBITS ->
  wfe KM (tb s KM) n l -> wfe KM (tb s KM) n r ->
  exists e s', run_on i (mm_add l r) s = Some (e, s') /\ rel s s' /\
    dnt KM (tb s' KM) n e (sumF (tb s KM) l r n) (eaddm n (wsum l r)).
Proof.
  intros HI Hn Hl Hr. unfold mm_add. assert (HT : TInv KM (tb s KM)) by apply HI.
  destruct (is_term (en l) && is_term (en r)) eqn:Ht.
  - apply andb_prop in Ht as [h1 h2].
    assert (e1 : en l = Term) by (destruct (en l); (discriminate || auto)).
    assert (e2 : en r = Term) by (destruct (en r); (discriminate || auto)).
    cbn [run_on]. eexists _, s. split; [reflexivity|]. split; [now apply rel_refl|].
    split; [left; now left|]. intros ix. unfold sumF, FpA.val. cbn [ew en]. rewrite e1, e2.
    set (v := valp KM (tb s KM) n Term ix).
    assert (Hv : (Cmod v <= Gp n)%R) by (apply valp_le1; auto; now left).
    pose proof (cadd_err (ew l) (ew r)) as H.
    match goal with |- (Cmod ?x <= _)%R => replace x with (Cmult (Cminus (cv (cadd (ew l) (ew r))) (Cplus (cv (ew l)) (cv (ew r)))) v) by ring end.
    rewrite Cmod_mult. eapply Rle_trans; [apply Rmult_le_compat; [apply Cmod_ge_0|apply Cmod_ge_0|exact H|exact Hv]|].
    fold (wsum l r). pose proof (eaddm_ge2 n (wsum l r) (wsum_pos l r)) as Hg. pose proof (dGp_pos n). lra.
  - destruct (run_rootVar i l r (fun root => mm_add2 (Z.to_nat (root + 1)) l r) s n HI Hl Hr) as (root & -> & Hroot & Hbelow & Hwl & Hwr).
    destruct (run_mm_add2 i (Z.to_nat (root + 1)) s l r HI ltac:(lia) Hwl Hwr) as (e & s' & Hx & Hrel & _ & Hd & _).
    exists e, s'. split; auto. split; auto. specialize (Hd _ (le_n _) Hwl Hwr). specialize (Hbelow n Hl Hr).
    apply (dnt_weaken) with (err := eaddm (Z.to_nat (root + 1)) (wsum l r)).
    { apply (eaddm_up); [apply wsum_pos|lia]. }
    apply (dnt_lift' (sumF (tb s KM) l r) _ (Z.to_nat (root + 1))); auto.
    + apply (eaddm_pos), wsum_pos.
    + intros k ix Hk. apply (sumF_up); eapply (wfe_KM_up); eauto.
    + lia.
Qed.
Theorem run_mm_multiply i n s l r : Inv s -> Z.of_nat n <= NQUBITS ->
  wfe KM (tb s KM) n l -> wfe KM (tb s KM) n r ->
  exists e s', run_on i (mm_multiply l r) s = Some (e, s') /\ rel s s' /\
    dnt KM (tb s' KM) n e (mulF (tb s KM) l r n) (emm n (Cmod (cv (ew l))) (Cmod (cv (ew r)))).
Proof.
  intros HI Hn Hl Hr. unfold mm_multiply. assert (HT : TInv KM (tb s KM)) by apply HI.
  destruct (is_term (en l) && is_term (en r)) eqn:Ht.
  - apply andb_prop in Ht as [h1 h2].
    assert (e1 : en l = Term) by (destruct (en l); (discriminate || auto)).
    assert (e2 : en r = Term) by (destruct (en r); (discriminate || auto)).
    cbn [run_on]. eexists _, s. split; [reflexivity|]. split; [now apply rel_refl|].
    split; [left; now left|]. intros ix. rewrite (mulF_term_l) by auto. unfold FpA.val. cbn [ew en]. rewrite e2.
    replace (Cmult (cv (ew l)) (Cmult (cv (ew r)) (valp KM (tb s KM) n Term ix)))
      with (Cmult (Cmult (cv (ew l)) (cv (ew r))) (valp KM (tb s KM) n Term ix)) by ring.
    apply term_boundm; auto using Cmod_ge_0; [now left|right; ring].
  - destruct (run_rootVar i l r (fun root => mm_multiply2 (Z.to_nat (root + 1)) l r) s n HI Hl Hr) as (root & -> & Hroot & Hbelow & Hwl & Hwr).
    destruct (run_mm_multiply2 i (Z.to_nat (root + 1)) s l r HI ltac:(lia) Hwl Hwr) as (e & s' & Hx & Hrel & Hd & _).
    exists e, s'. split; auto. split; auto. specialize (Hd _ (le_n _) Hwl Hwr). specialize (Hbelow n Hl Hr).
    pose proof (Cmod_ge_0 (cv (ew l))). pose proof (Cmod_ge_0 (cv (ew r))).
    apply (dnt_weaken) with (err := emm (Z.to_nat (root + 1)) (Cmod (cv (ew l))) (Cmod (cv (ew r)))).
    { apply (emm_mono); [lia|lra|lra]. }
    apply (dnt_lift' (mulF (tb s KM) l r) _ (Z.to_nat (root + 1))); auto.
    + now apply (emm_pos).
    + intros k ix Hk. apply (mulF_up); eapply (wfe_KM_up); eauto.
    + lia.
Qed.
End FpMM2.
