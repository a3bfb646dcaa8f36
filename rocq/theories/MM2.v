(* MM2.v -- mm_multiply2 / mm_multiply / mm_add at the API level (tau = 0). *)
From Coq Require Import Reals Lra Psatz ZArith Bool List Lia FunctionalExtensionality.
From Coquelicot Require Import Complex.
From Verif Require Import Num State DD RNum Wf Sums Err Inv Wp Make Add MulV Canon MM.
Import ListNotations.
Open Scope Z_scope.

Lemma comb_ixset_l k c m j : comb (ixset k m j) c = ixset (comb k c) m (2 * j + c m).
Proof.
  apply functional_extensionality. intros l. unfold comb, ixset.
  destruct (Nat.eqb_spec l m); subst; lia.
Qed.
Lemma mmF_S m F G ix :
  mmF (S m) F G ix =
  Cplus (mmF m (blk F m (2 * Nat.div (ix m) 2)) (blk G m (Nat.modulo (ix m) 2)) ix)
        (mmF m (blk F m (2 * Nat.div (ix m) 2 + 1)) (blk G m (2 + Nat.modulo (ix m) 2)) ix).
Proof.
  unfold mmF. cbn [bsum]. f_equal; apply bsum_ext; intros k; unfold blk; rewrite comb_ixset, comb_ixset_l;
    unfold rowix, colix; do 3 f_equal; lia.
Qed.
Lemma mmF_ext m F F' G G' ix : (forall k, F k = F' k) -> (forall k, G k = G' k) -> mmF m F G ix = mmF m F' G' ix.
Proof. intros H1 H2. unfold mmF. apply bsum_ext. intros k. now rewrite H1, H2. Qed.
Lemma mmF_scal m a b F G ix : mmF m (fun k => Cmult a (F k)) (fun k => Cmult b (G k)) ix = Cmult (Cmult a b) (mmF m F G ix).
Proof. unfold mmF. rewrite <- bsum_scal. apply bsum_ext. intros k. ring. Qed.
Lemma mmF_local m F G f g : (forall l, (l < m)%nat -> f l = g l) ->
  (forall x y, (forall l, (l < m)%nat -> x l = y l) -> F x = F y) ->
  (forall x y, (forall l, (l < m)%nat -> x l = y l) -> G x = G y) -> mmF m F G f = mmF m F G g.
Proof.
  intros H HF HG. unfold mmF. apply bsum_ext. intros k. f_equal; [apply HF|apply HG]; intros l Hl;
    unfold comb, rowix, colix; rewrite H by auto; reflexivity.
Qed.
(* blocks of ix m *)
Lemma four (i : nat) : i = 0%nat \/ i = 1%nat \/ i = 2%nat \/ i = 3%nat \/ (4 <= i)%nat.
Proof. lia. Qed.
Lemma diag4_big i : (4 <= i)%nat -> diag4 i = RtoC 0.
Proof. intros H. destruct i as [|[|[|[|i]]]]; auto; lia. Qed.
Lemma div2_big i : (4 <= i)%nat -> (4 <= 2 * Nat.div i 2)%nat.
Proof. intros H. pose proof (Nat.div_mod i 2 ltac:(lia)). pose proof (Nat.mod_upper_bound i 2 ltac:(lia)). lia. Qed.
Lemma mmF_up m F' G' F G ix :
  (forall i k, blk F' m i k = Cmult (diag4 i) (F k)) -> (forall i k, blk G' m i k = Cmult (diag4 i) (G k)) ->
  mmF (S m) F' G' ix = Cmult (diag4 (ix m)) (mmF m F G ix).
Proof.
  intros HF HG. rewrite mmF_S.
  assert (H : forall i j, mmF m (blk F' m i) (blk G' m j) ix = Cmult (Cmult (diag4 i) (diag4 j)) (mmF m F G ix)).
  { intros i j. rewrite <- mmF_scal. apply mmF_ext; auto. }
  rewrite !H. destruct (four (ix m)) as [h|[h|[h|[h|h]]]].
  1-4: rewrite h; cbn [Nat.div Nat.modulo Nat.divmod fst snd Nat.mul Nat.add Nat.sub diag4]; ring.
  pose proof (div2_big _ h). rewrite !(diag4_big (ix m)), !(diag4_big (2 * Nat.div (ix m) 2)), !(diag4_big (2 * Nat.div (ix m) 2 + 1)) by lia.
  ring.
Qed.

Section MM2.
Context (tau : R) {HTol : Tol tau}.
Let Htau : (0 <= tau < 1 / 2)%R := tol_ok.
#[local] Hint Extern 0 NumOps => exact (RNum tau) : typeclass_instances.
Context {CF : Cfg}.
Notation table := (@table (RNum tau)).
Notation state := (@state (RNum tau)).
Notation edge := (@edge (RNum tau)).
Notation node := (@node (RNum tau)).
Notation val := (val tau).
Notation valp := (valp tau).
Notation wfe := (wfe tau).
Notation wfp := (wfp tau).
Notation reg := (reg tau).
Notation TInv := (TInv tau).
Notation Inv := (Inv tau).
Notation rel := (rel tau).
Notation dn := (dn tau).
Notation E := (@E (RNum tau)).
Notation rd := (rd tau).
Notation sumF := (sumF tau).
Notation Qadd := (Qadd tau).

Lemma blk_low t m e i k : wfe KM t m e -> blk (val KM t (S m) e) m i k = Cmult (diag4 i) (val KM t m e k).
Proof.
  intros H. unfold blk. rewrite (val_KM_up tau) by auto. rewrite ixset_same. f_equal.
  apply val_local. intros l Hl. apply ixset_other. lia.
Qed.
Lemma val_KM_S t m e j : TInv KM t -> wfe KM t (S m) e ->
  exists c, wfe KM t m c /\ (forall ix, blk (val KM t (S m) e) m j ix = val KM t m c ix) /\
    (forall ix, (4 <= j)%nat -> val KM t m c ix = RtoC 0).
Proof.
  intros HT Hw.
  assert (Hlow : wfe KM t m e -> exists c, wfe KM t m c /\ (forall ix, blk (val KM t (S m) e) m j ix = val KM t m c ix) /\
    (forall ix, (4 <= j)%nat -> val KM t m c ix = RtoC 0)).
  { intros H.
    assert (Hd : diag4 j = RtoC 0 \/ diag4 j = RtoC 1) by (destruct j as [|[|[|[|j]]]]; cbn; auto).
    destruct Hd as [Hd|Hd].
    - exists zeroE. split; [apply wfe_zero|]. split; intros ix; rewrite ?blk_low, ?val_zeroE by auto; auto. rewrite Hd. ring.
    - exists e. split; auto. split; intros ix.
      + rewrite blk_low, Hd by auto. ring.
      + intros h. rewrite diag4_big in Hd by auto. exfalso. apply (f_equal fst) in Hd. cbn in Hd. lra. }
  destruct (wfe_low tau _ _ _ Hw) as [h|(a & nd & h1 & h2 & h3)]; auto.
  set (c := nth j (nch nd) zeroE). exists (E (cmul (ew e) (ew c)) (en c)).
  pose proof (reg_child tau KM t a nd j HT h2) as H. rewrite h3, Nat2Z.id in H. fold c in H.
  split; [now apply (wfe_scale tau)|]. split.
  - intros ix. unfold blk, Wf.val. cbn [ew en]. rewrite h1, (valp_S_node tau KM t m a nd) by auto.
    rewrite ixset_same. fold c. unfold Wf.val.
    rewrite (valp_local tau KM t m _ (ixset ix m j) ix) by (intros l Hl; apply ixset_other; lia).
    rewrite cmul_C. ring.
  - intros ix Hj. assert (Hc : c = zeroE).
    { unfold c. apply nth_overflow. rewrite (no_len tau KM t nd); [cbn; lia|]. eapply reg_ok; eauto. }
    rewrite Hc. unfold Wf.val. cbn [ew en]. rewrite cmul_C. change (ew (@zeroE (RNum tau))) with (RtoC 0). ring.
Qed.
Lemma blk_self t m e ix : val KM t (S m) e ix = blk (val KM t (S m) e) m (ix m) ix.
Proof.
  unfold blk. apply val_local. intros l _. unfold ixset. destruct (Nat.eqb_spec l m); congruence.
Qed.
Lemma blk_term t m i k : blk (valp KM t (S m) Term) m i k = Cmult (diag4 i) (valp KM t m Term k).
Proof.
  unfold blk. rewrite valp_S_term, ixset_same. cbn [skipf]. f_equal.
  apply valp_local. intros l Hl. apply ixset_other. lia.
Qed.
Lemma mmF_id_l t t' n : TInv KM t -> forall e ix, wfe KM t n e ->
  mmF n (valp KM t' n Term) (val KM t n e) ix = val KM t n e ix.
Proof.
  intros HT. induction n as [|m IH]; intros e ix He.
  - unfold mmF. cbn [bsum]. unfold Wf.val. cbn. ring.
  - rewrite mmF_S, (blk_self t m e ix).
    assert (H : forall i j, mmF m (blk (valp KM t' (S m) Term) m i) (blk (val KM t (S m) e) m j) ix =
                  Cmult (diag4 i) (blk (val KM t (S m) e) m j ix)).
    { intros i j. destruct (val_KM_S t m e j HT He) as (c & Hc1 & Hc2 & _).
      rewrite (mmF_ext m _ (fun k => Cmult (diag4 i) (valp KM t' m Term k)) _ (fun k => Cmult (RtoC 1) (val KM t m c k))).
      - rewrite mmF_scal, IH by auto. rewrite Hc2. ring.
      - intros k. apply blk_term.
      - intros k. rewrite Hc2. ring. }
    rewrite !H. destruct (four (ix m)) as [h|[h|[h|[h|h]]]].
    1-4: rewrite h; cbn [Nat.div Nat.modulo Nat.divmod fst snd Nat.mul Nat.add Nat.sub diag4]; ring.
    pose proof (div2_big _ h).
    destruct (val_KM_S t m e (ix m) HT He) as (c & Hc1 & Hc2 & Hc3).
    rewrite (Hc2 ix), Hc3 by auto.
    rewrite !(diag4_big (2 * Nat.div (ix m) 2)), !(diag4_big (2 * Nat.div (ix m) 2 + 1)) by lia. ring.
Qed.
Lemma mmF_id_r t t' n : TInv KM t -> forall e ix, wfe KM t n e ->
  mmF n (val KM t n e) (valp KM t' n Term) ix = val KM t n e ix.
Proof.
  intros HT. induction n as [|m IH]; intros e ix He.
  - unfold mmF. cbn [bsum]. unfold Wf.val. cbn. ring.
  - rewrite mmF_S, (blk_self t m e ix).
    assert (H : forall i j, mmF m (blk (val KM t (S m) e) m i) (blk (valp KM t' (S m) Term) m j) ix =
                  Cmult (diag4 j) (blk (val KM t (S m) e) m i ix)).
    { intros i j. destruct (val_KM_S t m e i HT He) as (c & Hc1 & Hc2 & _).
      rewrite (mmF_ext m _ (fun k => Cmult (RtoC 1) (val KM t m c k)) _ (fun k => Cmult (diag4 j) (valp KM t' m Term k))).
      - rewrite mmF_scal, IH by auto. rewrite Hc2. ring.
      - intros k. rewrite Hc2. ring.
      - intros k. apply blk_term. }
    rewrite !H. destruct (four (ix m)) as [h|[h|[h|[h|h]]]].
    1-4: rewrite h; cbn [Nat.div Nat.modulo Nat.divmod fst snd Nat.mul Nat.add Nat.sub diag4]; ring.
    pose proof (div2_big _ h).
    assert (Hz : forall i, (4 <= i)%nat -> blk (val KM t (S m) e) m i ix = RtoC 0).
    { intros i Hi. destruct (val_KM_S t m e i HT He) as (c & Hc1 & Hc2 & Hc3). rewrite Hc2. auto. }
    rewrite !Hz by lia. ring.
Qed.

Definition mulF (t : table) (l r : edge) (n : nat) : (nat -> nat) -> C := mmF n (val KM t n l) (val KM t n r).
Lemma mulF_up t l r m ix : wfe KM t m l -> wfe KM t m r ->
  mulF t l r (S m) ix = Cmult (diag4 (ix m)) (mulF t l r m ix).
Proof. intros Hl Hr. apply mmF_up; intros; now apply blk_low. Qed.
Lemma mulF_ext t t' l r n ix : TInv KM t -> ext tau KM t t' -> wfe KM t n l -> wfe KM t n r ->
  mulF t' l r n ix = mulF t l r n ix.
Proof. intros. apply mmF_ext; intros k; now rewrite (val_ext tau KM t t'). Qed.
Definition Qmul (s0 : state) (n : nat) (l r : edge) : post tau := fun e s =>
  forall n', (n' <= n)%nat -> wfe KM (tb s0 KM) n' l -> wfe KM (tb s0 KM) n' r ->
  dnt tau KM (tb s KM) n' e (mulF (tb s0 KM) l r n') 0.
Lemma Qmul_stable s0 n l r : stable tau (Qmul s0 n l r).
Proof.
  intros e s s' HI Hr H n' Hn Hl Hr'. specialize (H n' Hn Hl Hr').
  eapply (dnt_ext tau); [apply HI|apply (rel_ext _ _ _ KM Hr)|exact H].
Qed.
Lemma mulF_unit t l r n ix :
  mulF t l r n ix = Cmult (Cmult (ew l) (ew r)) (mulF t (E c1 (en l)) (E c1 (en r)) n ix).
Proof.
  unfold mulF. rewrite <- mmF_scal. apply mmF_ext; intros k; rewrite valp_val; reflexivity.
Qed.
Lemma mulF_zero_l t l r n ix : ew l = c0 -> mulF t l r n ix = RtoC 0.
Proof. intros H. rewrite mulF_unit, H. change (@c0 (RNum tau)) with (RtoC 0). ring. Qed.
Lemma mulF_zero_r t l r n ix : ew r = c0 -> mulF t l r n ix = RtoC 0.
Proof. intros H. rewrite mulF_unit, H. change (@c0 (RNum tau)) with (RtoC 0). ring. Qed.
Lemma mulF_term_l t (l r : edge) n ix : TInv KM t -> en l = Term -> wfe KM t n r ->
  mulF t l r n ix = Cmult (ew l) (val KM t n r ix).
Proof.
  intros HT Ht Hr. unfold mulF.
  rewrite (mmF_ext n _ (fun k => Cmult (ew l) (valp KM t n Term k)) _ (fun k => Cmult (RtoC 1) (val KM t n r k))).
  - rewrite mmF_scal, mmF_id_l by auto. ring.
  - intros k. unfold Wf.val. now rewrite Ht.
  - intros k. ring.
Qed.
Lemma mulF_term_r t (l r : edge) n ix : TInv KM t -> en r = Term -> wfe KM t n l ->
  mulF t l r n ix = Cmult (ew r) (val KM t n l ix).
Proof.
  intros HT Ht Hr. unfold mulF.
  rewrite (mmF_ext n _ (fun k => Cmult (RtoC 1) (val KM t n l k)) _ (fun k => Cmult (ew r) (valp KM t n Term k))).
  - rewrite mmF_scal, mmF_id_r by auto. ring.
  - intros k. ring.
  - intros k. unfold Wf.val. now rewrite Ht.
Qed.
Lemma mulF_local t l r n f g : (forall k, (k < n)%nat -> f k = g k) -> mulF t l r n f = mulF t l r n g.
Proof. intros H. apply mmF_local; auto; intros x y Hxy; now apply val_local. Qed.
Lemma mchild1_low m (e : edge) (nd : node) i : nv nd <> Z.of_nat m ->
  mchild1 (Z.of_nat m) e nd i = match i with 1%nat | 2%nat => zeroE | _ => E c1 (en e) end.
Proof. intros H. unfold mchild1. apply Z.eqb_neq in H. now rewrite H. Qed.

Theorem wpr_mm_multiply2 : tau = 0%R -> forall n s l r,
  Inv s -> Z.of_nat n <= NQUBITS -> wfe KM (tb s KM) n l -> wfe KM (tb s KM) n r ->
  wpr tau (mm_multiply2 n l r) (Qmul s n l r) s.
Proof.
  intros H0. induction n as [|m IH]; intros s l r HI Hn Hl Hr;
    match goal with |- wpr _ (mm_multiply2 ?nn _ _) _ _ => set (LN := nn) in * end;
    assert (HT : TInv KM (tb s KM)) by apply HI;
    assert (Hret : forall e, (forall n', (n' <= LN)%nat -> wfe KM (tb s KM) n' l -> wfe KM (tb s KM) n' r ->
                wfe KM (tb s KM) n' e /\ forall ix, val KM (tb s KM) n' e ix = mulF (tb s KM) l r n' ix) ->
                wpr tau (CRet e) (Qmul s LN l r) s)
      by (intros e He; apply (wpr_ret tau); intros s' Hr'; apply (Qmul_stable s LN l r e s s' HI Hr');
          intros n' Hn' Hl' Hr''; destruct (He n' Hn' Hl' Hr''); now apply (dnt_of_exact tau));
    assert (Hz : ew l = c0 \/ ew r = c0 -> wpr tau (CRet zeroE) (Qmul s LN l r) s)
      by (intros h; apply Hret; intros n' _ _ _; split; [apply wfe_zero|]; intros ix; rewrite val_zeroE;
          destruct h; symmetry; [now apply mulF_zero_l|now apply mulF_zero_r]);
    assert (Htl : en l = Term -> wpr tau (CRet (E (cmul (ew r) (ew l)) (en r))) (Qmul s LN l r) s)
      by (intros h; apply Hret; intros n' _ _ Hr'; split; [now apply (wfe_scale_r tau)|];
          intros ix; rewrite mulF_term_l by auto; unfold Wf.val; cbn [ew en]; rewrite cmul_C; ring);
    assert (Htr : en r = Term -> wpr tau (CRet (E (cmul (ew l) (ew r)) (en l))) (Qmul s LN l r) s)
      by (intros h; apply Hret; intros n' _ Hl' _; split; [now apply (wfe_scale_r tau)|];
          intros ix; rewrite mulF_term_r by auto; unfold Wf.val; cbn [ew en]; rewrite cmul_C; ring);
    subst LN; cbn [mm_multiply2].
  all: destruct (edge_eqb l zeroE) eqn:Hle; cbn [orb];
    [apply Hz; left; apply (edge_eqb_ex tau) in Hle; auto; now rewrite Hle|].
  all: destruct (edge_eqb r zeroE) eqn:Hre;
    [apply Hz; right; apply (edge_eqb_ex tau) in Hre; auto; now rewrite Hre|].
  all: destruct (is_term (en l)) eqn:Hlt; [apply Htl; clear - Hlt; destruct (en l); (discriminate Hlt || auto)|].
  all: destruct (is_term (en r)) eqn:Hrt; [apply Htr; clear - Hrt; destruct (en r); (discriminate Hrt || auto)|].
  all: destruct (iszero (ew l)) eqn:Hzl; cbn [orb]; [apply Hz; left; now apply (iszero_ex tau) in Hzl|].
  all: destruct (iszero (ew r)) eqn:Hzr; [apply Hz; right; now apply (iszero_ex tau) in Hzr|].
  all: pose proof (nz_wfp tau _ _ _ Hl Hzl) as Hpl; pose proof (nz_wfp tau _ _ _ Hr Hzr) as Hpr.
  - rewrite (wfp0 tau _ _ HT Hpl) in Hlt. discriminate.
  - destruct Hpl as [h|(la & lnd & Hel & Hrl & Hvl)]; [rewrite h in Hlt; discriminate|].
    destruct Hpr as [h|(ra & rnd & Her & Hrr & Hvr)]; [rewrite h in Hrt; discriminate|].
    pose proof (no_level _ _ _ _ (reg_ok tau KM _ _ _ HT Hrl)) as Hll.
    pose proof (no_level _ _ _ _ (reg_ok tau KM _ _ _ HT Hrr)) as Hlr.
    assert (Hm : Z.of_nat m < NQUBITS) by lia.
    set (ul := E c1 (en l)). set (ur := E c1 (en r)).
    assert (Hul : forall n', wfe KM (tb s KM) n' l -> wfe KM (tb s KM) n' ul) by (intros n' h; left; exact (nz_wfp tau _ _ _ h Hzl)).
    assert (Hur : forall n', wfe KM (tb s KM) n' r -> wfe KM (tb s KM) n' ur) by (intros n' h; left; exact (nz_wfp tau _ _ _ h Hzr)).
    assert (Hlow_l : forall n', wfe KM (tb s KM) n' ul -> nv lnd < Z.of_nat n').
    { intros n' h. pose proof (node_not_low tau (tb s KM) (Z.to_nat (nv lnd)) n' ul la lnd Hel Hrl ltac:(lia) h). lia. }
    assert (Hlow_r : forall n', wfe KM (tb s KM) n' ur -> nv rnd < Z.of_nat n').
    { intros n' h. pose proof (node_not_low tau (tb s KM) (Z.to_nat (nv rnd)) n' ur ra rnd Her Hrr ltac:(lia) h). lia. }
    assert (Hwl : forall n', nv lnd < Z.of_nat n' -> wfe KM (tb s KM) n' ul).
    { intros n' h. left. right. exists la, lnd. auto. }
    assert (Hwr : forall n', nv rnd < Z.of_nat n' -> wfe KM (tb s KM) n' ur).
    { intros n' h. left. right. exists ra, rnd. auto. }
    assert (Hfinal : forall res g s', (forall res s1 n U, Inv s1 -> dn KM n U 0 res s1 ->
        dn KM n (fun ix => Cmult (Cmult (ew l) (ew r)) (U ix)) 0 (g res) s1) ->
        rel s s' -> Qmul s (S m) ul ur res s' -> Qmul s (S m) l r (g res) s').
    { intros res g s' Hg Hrs HQ n' Hn' Hl' Hr'. specialize (HQ n' Hn' (Hul _ Hl') (Hur _ Hr')).
      eapply (dnt_F tau); [|apply (Hg res s' n' _ (rel_inv _ _ _ Hrs) HQ)].
      intros ix. cbn beta. now rewrite (mulF_unit _ l r). }
    assert (He0 : forall x, ((0 + eps tau) * x + eps tau)%R = 0%R).
    { intros x. rewrite (eps_0 tau H0). ring. }
    assert (Hghit : forall res s1 n U, Inv s1 -> dn KM n U 0 res s1 ->
        dn KM n (fun ix => Cmult (Cmult (ew l) (ew r)) (U ix)) 0 (rescale_hit res l r) s1).
    { intros res s1 n U HI1 Hd. pose proof (rescale_hit_bound tau KM s1 n res l r U 0 HI1 Hd ltac:(lra)) as h.
      rewrite He0 in h. exact h. }
    assert (Hgnew : forall res s1 n U, Inv s1 -> dn KM n U 0 res s1 ->
        dn KM n (fun ix => Cmult (Cmult (ew l) (ew r)) (U ix)) 0 (rescale_new res l r) s1).
    { intros res s1 n U HI1 Hd. pose proof (rescale_new_bound tau KM s1 n res l r U 0 HI1 Hd ltac:(lra)) as h.
      rewrite He0 in h. exact h. }
    intros s1 Hr1 i. pose proof (rel_inv _ _ _ Hr1) as HI1.
    assert (He1 : ext tau KM (tb s KM) (tb s1 KM)) by apply (rel_ext _ _ _ KM Hr1).
    assert (HT1 : TInv KM (tb s1 KM)) by apply HI1.
    destruct (mfind_spec tau KM i (en l) (en r) s1 la lnd HI1 Hel (He1 _ _ Hrl)) as (res & s2 & Hfind & Hr2 & Hcase).
    exists res, s2. split; auto. split; auto. pose proof (rel_inv _ _ _ Hr2) as HI2.
    assert (Hr02 : rel s s2) by (eapply rel_trans; eauto).
    assert (He2 : ext tau KM (tb s KM) (tb s2 KM)) by apply (rel_ext _ _ _ KM Hr02).
    assert (HT2 : TInv KM (tb s2 KM)) by apply HI2.
    assert (Hbelow : forall n', wfe KM (tb s KM) n' ul -> wfe KM (tb s KM) n' ur ->
              (Z.to_nat (Z.max (nv lnd) (nv rnd) + 1) <= n')%nat).
    { intros n' h1 h2. apply Hlow_l in h1. apply Hlow_r in h2. lia. }
    destruct Hcase as [->|(e & Hml & Hmr & Hmres & Hent)].
    + (* miss *)
      cbn [en nullE is_null negb]. rewrite Hel, Her.
      apply (wpr_read tau) with (nd := lnd); auto. apply (wpr_read tau) with (nd := rnd); auto.
      rewrite <- Hel, <- Her.
      assert (Hc1 : (nv lnd <=? Z.of_nat m) = true) by (apply Z.leb_le; lia).
      assert (Hc2 : (nv rnd <=? Z.of_nat m) = true) by (apply Z.leb_le; lia).
      rewrite Hc1, Hc2. cbn [andb].
      set (lc := mchild1 (Z.of_nat m) l lnd). set (rc := mchild1 (Z.of_nat m) r rnd).
      set (T := fun j ix => mulF (tb s KM) ul ur (S m) (ixset ix m j)).
      set (P := fun j e s3 => dn KM m (T j) 0 e s3 /\
             (wfe KM (tb s KM) m ul -> wfe KM (tb s KM) m ur -> (j = 0 \/ j = 3)%nat -> Qmul s m ul ur e s3)).
      assert (Hstab : forall j, stable tau (P j)).
      { intros j e sa sb HIa Hab [h1 h2]. split; [exact (dn_stable tau _ _ _ _ _ _ _ HIa Hab h1)|].
        intros x1 x2 x3. exact (Qmul_stable s m ul ur e sa sb HIa Hab (h2 x1 x2 x3)). }
      assert (Hlc : forall j, (j < 4)%nat -> wfe KM (tb s2 KM) m (lc j) /\
                (forall ix, val KM (tb s2 KM) m (lc j) ix = blk (val KM (tb s KM) (S m) ul) m j ix)).
      { intros j Hj. destruct (mchild1_spec tau (tb s2 KM) m l la lnd j HT2 Hel (He2 _ _ Hrl) Hvl Hj) as (h1 & h2 & _).
        split; auto. intros ix. unfold lc. rewrite h2. unfold blk, ul. rewrite valp_val.
        apply (valp_ext tau); auto. right. exists la, lnd. auto. }
      assert (Hrc : forall j, (j < 4)%nat -> wfe KM (tb s2 KM) m (rc j) /\
                (forall ix, val KM (tb s2 KM) m (rc j) ix = blk (val KM (tb s KM) (S m) ur) m j ix)).
      { intros j Hj. destruct (mchild1_spec tau (tb s2 KM) m r ra rnd j HT2 Her (He2 _ _ Hrr) Hvr Hj) as (h1 & h2 & _).
        split; auto. intros ix. unfold rc. rewrite h2. unfold blk, ur. rewrite valp_val.
        apply (valp_ext tau); auto. right. exists ra, rnd. auto. }
      assert (Hmulsub : forall j j' s3, (j < 4)%nat -> (j' < 4)%nat -> rel s2 s3 ->
         wpr tau (mm_multiply2 m (lc j) (rc j')) (fun p s4 =>
            Qmul s3 m (lc j) (rc j') p s4 /\
            dn KM m (mmF m (blk (val KM (tb s KM) (S m) ul) m j) (blk (val KM (tb s KM) (S m) ur) m j')) 0 p s4) s3).
      { intros j j' s3 Hj Hj' Hr3. pose proof (rel_inv _ _ _ Hr3) as HI3.
        assert (He3 : ext tau KM (tb s2 KM) (tb s3 KM)) by apply (rel_ext _ _ _ KM Hr3).
        destruct (Hlc j Hj) as [h1 h2]. destruct (Hrc j' Hj') as [h3 h4].
        pose proof (wfe_ext tau KM _ _ m _ He3 h1) as h1'. pose proof (wfe_ext tau KM _ _ m _ He3 h3) as h3'.
        eapply (wpr_mono tau); [auto| |apply (IH s3); auto; lia].
        intros p s4 Hr4 HQ. split; auto. eapply (dnt_F tau); [|apply (HQ m); auto].
        intros ix. apply mmF_ext; intros k.
        - now rewrite (val_ext tau KM (tb s2 KM) (tb s3 KM)).
        - now rewrite (val_ext tau KM (tb s2 KM) (tb s3 KM)). }
      assert (Hentry : forall j f Q s3, (j < 4)%nat -> rel s2 s3 ->
         (forall e s4, rel s3 s4 -> P j e s4 -> wpr tau (f e) Q s4) ->
         wpr tau (bind (mm_multiply2 m (lc (2 * Nat.div j 2)%nat) (rc (Nat.modulo j 2))) (fun p0 =>
                  bind (mm_multiply2 m (lc (2 * Nat.div j 2 + 1)%nat) (rc (2 + Nat.modulo j 2)%nat)) (fun p1 =>
                  bind (mm_add2 m p0 p1) f))) Q s3).
      { intros j f Q s3 Hj Hr3 Hf. pose proof (rel_inv _ _ _ Hr3) as HI3.
        assert (Hdm : (2 * Nat.div j 2 + 1 < 4 /\ Nat.modulo j 2 < 2)%nat).
        { pose proof (Nat.div_mod j 2 ltac:(lia)). pose proof (Nat.mod_upper_bound j 2 ltac:(lia)). lia. }
        apply (wpr_bind tau); auto.
        eapply (wpr_mono tau); [auto| |apply (Hmulsub (2 * Nat.div j 2)%nat (Nat.modulo j 2) s3); auto; lia].
        intros p0 s4 Hr4 [HQ0 HD0]. pose proof (rel_inv _ _ _ Hr4) as HI4.
        assert (Hr24 : rel s2 s4) by (eapply rel_trans; eauto).
        apply (wpr_bind tau); auto.
        eapply (wpr_mono tau); [auto| |apply (Hmulsub (2 * Nat.div j 2 + 1)%nat (2 + Nat.modulo j 2)%nat s4); auto; lia].
        intros p1 s5 Hr5 [HQ1 HD1]. pose proof (rel_inv _ _ _ Hr5) as HI5.
        pose proof (dn_stable tau _ _ _ _ _ _ _ HI4 Hr5 HD0) as HD0'.
        pose proof (Qmul_stable _ _ _ _ _ _ _ HI4 Hr5 HQ0) as HQ0'.
        apply (wpr_bind tau); auto.
        eapply (wpr_mono tau); [auto| |apply (wpr_mm_add2 tau H0 m s5 p0 p1); auto; [lia|apply HD0'|apply HD1]].
        intros e s6 Hr6 HA. apply Hf; [eapply rel_trans; [exact Hr4|]; eapply rel_trans; eauto|]. split.
        - eapply (dnt_F tau); [|apply (HA m); auto; [apply HD0'|apply HD1]].
          intros ix. unfold MM.sumF. rewrite (dnt_exact tau KM _ _ _ _ HD0'), (dnt_exact tau KM _ _ _ _ HD1).
          unfold T, mulF. rewrite mmF_S, ixset_same. f_equal; apply mmF_local;
            try (intros z Hzz; symmetry; apply ixset_other; lia);
            (intros x y Hxy; unfold blk; apply val_local; intros z Hzz; unfold ixset;
             destruct (Nat.eqb_spec z m); auto; apply Hxy; lia).
        - intros Hlm Hrm Hj2 n' Hn' Hl' Hr'.
          assert (Hnl : nv lnd <> Z.of_nat m) by (apply Hlow_l in Hlm; lia).
          assert (Hnr : nv rnd <> Z.of_nat m) by (apply Hlow_r in Hrm; lia).
          assert (Elc : forall j, lc j = match j with 1%nat | 2%nat => zeroE | _ => ul end) by (intros; now apply mchild1_low).
          assert (Erc : forall j, rc j = match j with 1%nat | 2%nat => zeroE | _ => ur end) by (intros; now apply mchild1_low).
          rewrite Elc, Erc in HQ0', HQ1.
          assert (He3 : ext tau KM (tb s KM) (tb s3 KM)) by (eapply ext_trans; [exact He2|apply (rel_ext _ _ _ KM Hr3)]).
          assert (He4 : ext tau KM (tb s KM) (tb s4 KM)) by (eapply ext_trans; [exact He2|apply (rel_ext _ _ _ KM Hr24)]).
          pose proof (wfe_ext tau KM _ _ n' _ He3 Hl') as w1. pose proof (wfe_ext tau KM _ _ n' _ He3 Hr') as w2.
          pose proof (wfe_ext tau KM _ _ n' _ He4 Hl') as w3. pose proof (wfe_ext tau KM _ _ n' _ He4 Hr') as w4.
          destruct Hj2; subst j; cbn [Nat.div Nat.modulo Nat.divmod fst snd Nat.mul Nat.add Nat.sub] in HQ0', HQ1.
          + specialize (HQ0' n' Hn' w1 w2). specialize (HQ1 n' Hn' (wfe_zero tau KM _ _) (wfe_zero tau KM _ _)).
            eapply (dnt_F tau); [|apply (HA n' Hn'); [apply HQ0'|apply HQ1]].
            intros ix. unfold MM.sumF. rewrite (dnt_exact tau KM _ _ _ _ HQ0'), (dnt_exact tau KM _ _ _ _ HQ1).
            rewrite (mulF_zero_l _ zeroE) by reflexivity. rewrite (mulF_ext (tb s KM) (tb s3 KM)) by auto. ring.
          + specialize (HQ1 n' Hn' w3 w4). specialize (HQ0' n' Hn' (wfe_zero tau KM _ _) (wfe_zero tau KM _ _)).
            eapply (dnt_F tau); [|apply (HA n' Hn'); [apply HQ0'|apply HQ1]].
            intros ix. unfold MM.sumF. rewrite (dnt_exact tau KM _ _ _ _ HQ0'), (dnt_exact tau KM _ _ _ _ HQ1).
            rewrite (mulF_zero_l _ zeroE) by reflexivity. rewrite (mulF_ext (tb s KM) (tb s4 KM)) by auto. ring. }
      apply (Hentry 0%nat); [lia|now apply rel_refl|]. intros e0 s3 Hr3 D0. pose proof (rel_inv _ _ _ Hr3) as HI3.
      apply (Hentry 1%nat); [lia|auto|]. intros e1 s4 Hr4 D1. pose proof (rel_inv _ _ _ Hr4) as HI4.
      assert (Hr24 : rel s2 s4) by (eapply rel_trans; eauto).
      apply (Hentry 2%nat); [lia|auto|]. intros e2 s5 Hr5 D2. pose proof (rel_inv _ _ _ Hr5) as HI5.
      assert (Hr25 : rel s2 s5) by (eapply rel_trans; eauto).
      apply (Hentry 3%nat); [lia|auto|]. intros e3 s6 Hr6 D3. pose proof (rel_inv _ _ _ Hr6) as HI6.
      assert (Hr26 : rel s2 s6) by (eapply rel_trans; eauto).
      apply (Hstab 2%nat e2 s5 s6) in D2; auto.
      apply (Hstab 1%nat e1 s4 s6) in D1; auto; [|eapply rel_trans; eauto].
      apply (Hstab 0%nat e0 s3 s6) in D0; auto; [|eapply rel_trans; [exact Hr4|]; eapply rel_trans; eauto].
      destruct D0 as [D0 X0]. destruct D1 as [D1 _]. destruct D2 as [D2 _]. destruct D3 as [D3 X3].
      assert (HT6 : TInv KM (tb s6 KM)) by apply HI6.
      apply (wpr_bind tau); auto.
      assert (Hass : (forall n', (n' <= S m)%nat -> wfe KM (tb s KM) n' ul -> wfe KM (tb s KM) n' ur -> n' = S m) ->
                wpr tau (makeMEdge (Z.of_nat m) e0 e1 e2 e3) (Qmul s (S m) ul ur) s6).
      { intros Honly. apply (wpr_assemble tau m s6 e0 e1 e2 e3 T); auto.
        intros res s7 Hr7 D n' Hn' Hl' Hr'. pose proof (Honly n' Hn' Hl' Hr'). subst n'.
        eapply (dnt_F tau); [|exact D]. intros ix. cbn beta.
        assert (HTi : forall j, ix m = j -> T j ix = mulF (tb s KM) ul ur (S m) ix).
        { intros j Hj. unfold T. apply mulF_local. intros z _. unfold ixset. destruct (Nat.eqb_spec z m); congruence. }
        destruct (four (ix m)) as [h|[h|[h|[h|h]]]]; try (rewrite h; now apply HTi).
        destruct (ix m) as [|[|[|[|j]]]] eqn:Hix; try lia.
        symmetry. unfold mulF. rewrite mmF_S. rewrite Hix in *. pose proof (div2_big _ h) as hb.
        assert (Hzz : forall i G, (4 <= i)%nat -> mmF m (blk (val KM (tb s KM) (S m) ul) m i) G ix = RtoC 0).
        { intros i0 G Hi0. unfold mmF. rewrite <- (bsum_0 m). apply bsum_ext. intros k. unfold blk.
          rewrite (val_KM_big tau) by (auto; rewrite ixset_same; auto). ring. }
        rewrite !Hzz by lia. ring. }
      assert (Hfin : wpr tau (makeMEdge (Z.of_nat m) e0 e1 e2 e3) (Qmul s (S m) ul ur) s6).
      { destruct (Z.eq_dec (nv lnd) (Z.of_nat m)) as [Hnl|Hnl].
        { apply Hass. intros n' Hn' h _. apply Hlow_l in h. lia. }
        destruct (Z.eq_dec (nv rnd) (Z.of_nat m)) as [Hnr|Hnr].
        { apply Hass. intros n' Hn' _ h. apply Hlow_r in h. lia. }
        assert (Hlm : wfe KM (tb s KM) m ul) by (apply Hwl; lia).
        assert (Hrm : wfe KM (tb s KM) m ur) by (apply Hwr; lia).
        assert (Hup : forall j ix, T j ix = Cmult (diag4 j) (mulF (tb s KM) ul ur m ix)).
        { intros j ix. unfold T. rewrite mulF_up by auto. rewrite ixset_same. f_equal.
          apply mulF_local. intros z Hzz; apply ixset_other; lia. }
        assert (Hzw : forall j e, diag4 j = RtoC 0 -> dn KM m (T j) 0 e s6 -> ew e = c0).
        { intros j e Hj D. apply (val_zero_w tau KM (tb s6 KM) m e HT6); [apply D|].
          intros ix. rewrite (dnt_exact tau KM _ m e _ D). rewrite Hup, Hj. ring. }
        assert (Hcan : e0 = e3 \/ (ew e0 = c0 /\ ew e3 = c0)).
        { apply (canon_edge tau KM (tb s6 KM) m); auto; [apply D0|apply D3|].
          intros ix. rewrite (dnt_exact tau KM _ m e0 _ D0), (dnt_exact tau KM _ m e3 _ D3), !Hup. reflexivity. }
        eapply (wpr_mono tau); [auto| |apply (wpr_makeMEdge_strip tau _ s6 e0 e1 e2 e3 H0 HI6);
           [now apply (Hzw 1%nat)|now apply (Hzw 2%nat)|exact Hcan]].
        intros e s7 Hr7 He. pose proof (rel_inv _ _ _ Hr7) as HI7.
        assert (X0' : Qmul s m ul ur e0 s7).
        { apply (Qmul_stable s m ul ur e0 s6 s7 HI6 Hr7). apply X0; auto. }
        assert (Xe : Qmul s m ul ur e s7).
        { destruct He as [->|[-> Hw]]; auto. intros n' Hn' Hl' Hr'. specialize (X0' n' Hn' Hl' Hr').
          apply (dnt_of_exact tau); [apply wfe_zero|]. intros ix. rewrite val_zeroE.
          rewrite <- (dnt_exact tau KM _ _ _ _ X0'). symmetry. now apply (val_zw tau). }
        intros n' Hn' Hl' Hr'. destruct (Nat.le_gt_cases n' m) as [h|h]; [now apply Xe|].
        assert (n' = S m) by lia. subst n'.
        apply (dnt_lift tau (mulF (tb s KM) ul ur) _ m); [|apply Xe; auto|lia].
        intros k ix Hk. apply mulF_up; eapply (wfe_KM_up tau); eauto. }
      eapply (wpr_mono tau); [auto| |exact Hfin].
      intros res s7 Hr7 HQ. pose proof (rel_inv _ _ _ Hr7) as HI7.
      intros s8 Hr8 i'. pose proof (rel_inv _ _ _ Hr8) as HI8.
      apply (Qmul_stable s (S m) ul ur res s7 s8 HI7 Hr8) in HQ.
      assert (Hr08 : rel s s8).
      { eapply rel_trans; [exact Hr02|]. eapply rel_trans; [exact Hr26|]. eapply rel_trans; eauto. }
      assert (He8 : ext tau KM (tb s KM) (tb s8 KM)) by apply (rel_ext _ _ _ KM Hr08).
      destruct (mset_spec tau KM i' (en l) (en r) res s8 la lnd HI8 Hel (He8 _ _ Hrl)) as (s9 & Hs9 & Hr9).
      { intros b z. cbn [mul_ok m_l m_r m_res]. exists (nv lnd), (nv rnd), (Z.to_nat (Z.max (nv lnd) (nv rnd) + 1)).
        split; [exists la, lnd; auto|]. split; [exists ra, rnd; auto|]. split; auto. rewrite (emulm_0 tau _ H0).
        set (mm := Z.to_nat (Z.max (nv lnd) (nv rnd) + 1)).
        assert (w1 : wfe KM (tb s KM) mm ul) by (apply Hwl; lia). assert (w2 : wfe KM (tb s KM) mm ur) by (apply Hwr; lia).
        eapply (dnt_F tau); [|apply (HQ mm); auto; lia].
        intros ix. unfold mulF. apply mmF_ext; intros k.
        - rewrite <- (val_ext tau KM (tb s KM) (tb s8 KM)) by auto. apply valp_val.
        - rewrite <- (val_ext tau KM (tb s KM) (tb s8 KM)) by auto. apply valp_val. }
      exists s9. split; auto. split; auto. apply (wpr_ret tau). intros s10 Hr10.
      apply (Hfinal res (fun x => rescale_new x l r) s10 Hgnew); [eapply rel_trans; [exact Hr08|]; eapply rel_trans; eauto|].
      apply (Qmul_stable s (S m) ul ur res s8 s10 HI8); [eapply rel_trans; eauto|exact HQ].
    + (* hit *)
      destruct Hent as (lv & rv & mm & Hlv & Hrv & Hmm & Hd). rewrite Hmres, Hml, Hmr, (emulm_0 tau _ H0) in Hd.
      assert (lv = nv lnd).
      { destruct Hlv as (a & nd & h1 & h2 & <-). rewrite Hml, Hel in h1. injection h1 as <-.
        pose proof (reg_fun tau _ _ _ _ _ h2 (He1 _ _ Hrl)). congruence. }
      assert (rv = nv rnd).
      { destruct Hrv as (a & nd & h1 & h2 & <-). rewrite Hmr, Her in h1. injection h1 as <-.
        pose proof (reg_fun tau _ _ _ _ _ h2 (He1 _ _ Hrr)). congruence. }
      subst lv rv.
      assert (Hnn : negb (is_null (en res)) = true).
      { destruct (wfe_getVar tau KM s1 mm res HI1) as (v & _ & _ & Hnn); [apply Hd|].
        destruct (en res); congruence || auto. }
      rewrite Hnn. apply (wpr_ret tau). intros s3 Hr3.
      assert (Hr13 : rel s1 s3) by (eapply rel_trans; eauto).
      apply (Hfinal res (fun x => rescale_hit x l r) s3 Hghit); [eapply rel_trans; eauto|].
      apply (Qmul_stable s (S m) ul ur _ s1 s3 HI1 Hr13).
      intros n' Hn' Hl' Hr'. specialize (Hbelow n' Hl' Hr'). rewrite <- Hmm in Hbelow.
      assert (w1 : wfe KM (tb s KM) mm ul) by (apply Hwl; lia). assert (w2 : wfe KM (tb s KM) mm ur) by (apply Hwr; lia).
      apply (dnt_lift tau (mulF (tb s KM) ul ur) _ mm); auto.
      * intros k ix Hk. apply mulF_up; eapply (wfe_KM_up tau); eauto.
      * eapply (dnt_F tau); [|exact Hd]. intros ix. unfold mulF. apply mmF_ext; intros k.
        -- rewrite <- (val_ext tau KM (tb s KM) (tb s1 KM)) by auto. symmetry. apply valp_val.
        -- rewrite <- (val_ext tau KM (tb s KM) (tb s1 KM)) by auto. symmetry. apply valp_val.
Qed.

(* the root level used by mm_add and mm_multiply *)
Lemma wpr_rootVar (l r : edge) f (Q : post tau) s n : Inv s -> wfe KM (tb s KM) n l -> wfe KM (tb s KM) n r ->
  (forall root, -1 <= root < Z.of_nat n ->
     (forall n', wfe KM (tb s KM) n' l -> wfe KM (tb s KM) n' r -> root < Z.of_nat n') ->
     wfe KM (tb s KM) (Z.to_nat (root + 1)) l -> wfe KM (tb s KM) (Z.to_nat (root + 1)) r ->
     wpr tau (f root) Q s) ->
  wpr tau (rootVar l r f) Q s.
Proof.
  intros HI Hl Hr Hf. unfold rootVar. assert (HT : TInv KM (tb s KM)) by apply HI.
  assert (Hp : forall e, wfe KM (tb s KM) n e -> wfp KM (tb s KM) n (en e)).
  { intros e [h|[_ h]]; auto. rewrite h. now left. }
  apply (wpr_readp tau n); auto. intros lnd Hrl. apply (wpr_readp tau n); auto. intros rnd Hrr.
  assert (Hlt : forall (e : edge) nd n', rd (tb s KM) n (en e) nd -> wfe KM (tb s KM) n' e -> nv nd < Z.of_nat n').
  { intros e nd n' [[h1 h2]|(a & h1 & h2 & h3)] Hw; [lia|].
    pose proof (node_not_low tau (tb s KM) (Z.to_nat (nv nd)) n' e a nd h1 h2 ltac:(lia) Hw). lia. }
  assert (Hup : forall (e : edge) nd n', rd (tb s KM) n (en e) nd -> nv nd < Z.of_nat n' -> wfe KM (tb s KM) n' e).
  { intros e nd n' [[h1 h2]|(a & h1 & h2 & h3)] Hv; left; [left; auto|]. right. exists a, nd. auto. }
  assert (Hb : forall (e : edge) nd, rd (tb s KM) n (en e) nd -> -1 <= nv nd < Z.of_nat n /\ (is_term (en e) = true -> nv nd = -1) /\ (is_term (en e) = false -> 0 <= nv nd)).
  { intros e nd [[h1 h2]|(a & h1 & h2 & h3)]; rewrite h1; cbn; split; try split; intros; try lia; discriminate. }
  destruct (Hb l lnd Hrl) as (b1 & b2 & b3). destruct (Hb r rnd Hrr) as (b4 & b5 & b6).
  destruct (is_term (en l)) eqn:Etl; cbn [orb].
  { specialize (b2 eq_refl). apply Hf; auto.
    - intros n' _ h. eapply Hlt; eauto.
    - apply (Hup l lnd); auto. lia.
    - apply (Hup r rnd); auto. lia. }
  specialize (b3 eq_refl).
  destruct (is_term (en r)) eqn:Etr; cbn [negb andb].
  { specialize (b5 eq_refl). apply Hf; auto.
    - intros n' h _. eapply Hlt; eauto.
    - apply (Hup l lnd); auto. lia.
    - apply (Hup r rnd); auto. lia. }
  specialize (b6 eq_refl).
  destruct (nv lnd <? nv rnd) eqn:Hc; [apply Z.ltb_lt in Hc|apply Z.ltb_ge in Hc]; apply Hf; auto.
  - intros n' _ h. eapply Hlt; eauto.
  - apply (Hup l lnd); auto. lia.
  - apply (Hup r rnd); auto. lia.
  - intros n' h _. eapply Hlt; eauto.
  - apply (Hup l lnd); auto. lia.
  - apply (Hup r rnd); auto. lia.
Qed.

Theorem wpr_mm_add n s l r : tau = 0%R -> Inv s -> Z.of_nat n <= NQUBITS ->
  wfe KM (tb s KM) n l -> wfe KM (tb s KM) n r ->
  wpr tau (mm_add l r) (Qadd s n l r) s.
Proof.
  intros H0 HI Hn Hl Hr. unfold mm_add. assert (HT : TInv KM (tb s KM)) by apply HI.
  destruct (is_term (en l) && is_term (en r)) eqn:Ht.
  - apply andb_prop in Ht as [h1 h2].
    assert (e1 : en l = Term) by (destruct (en l); (discriminate || auto)).
    assert (e2 : en r = Term) by (destruct (en r); (discriminate || auto)).
    apply (wpr_ret tau). intros s' Hr'. apply (Qadd_stable tau s n l r _ s s' HI Hr').
    intros n' Hn' Hl' Hr''. apply (dnt_of_exact tau); [left; now left|].
    intros ix. unfold MM.sumF, Wf.val. cbn [ew en]. rewrite e1, e2, cadd_C. ring.
  - apply (wpr_rootVar l r _ _ s n); auto. intros root Hroot Hbelow Hwl Hwr.
    eapply (wpr_mono tau); [auto| |apply (wpr_mm_add2 tau H0 (Z.to_nat (root + 1)) s l r); auto; lia].
    intros e s' _ HQ n' Hn' Hl' Hr'. specialize (Hbelow n' Hl' Hr').
    apply (dnt_lift tau (sumF (tb s KM) l r) _ (Z.to_nat (root + 1))); [|apply HQ; auto|lia].
    intros k ix Hk. apply (sumF_up tau); eapply (wfe_KM_up tau); eauto.
Qed.
Theorem wpr_mm_multiply n s l r : tau = 0%R -> Inv s -> Z.of_nat n <= NQUBITS ->
  wfe KM (tb s KM) n l -> wfe KM (tb s KM) n r ->
  wpr tau (mm_multiply l r) (Qmul s n l r) s.
Proof.
  intros H0 HI Hn Hl Hr. unfold mm_multiply. assert (HT : TInv KM (tb s KM)) by apply HI.
  destruct (is_term (en l) && is_term (en r)) eqn:Ht.
  - apply andb_prop in Ht as [h1 h2].
    assert (e1 : en l = Term) by (destruct (en l); (discriminate || auto)).
    assert (e2 : en r = Term) by (destruct (en r); (discriminate || auto)).
    apply (wpr_ret tau). intros s' Hr'. apply (Qmul_stable s n l r _ s s' HI Hr').
    intros n' Hn' Hl' Hr''. apply (dnt_of_exact tau); [left; now left|].
    intros ix. rewrite mulF_term_l by auto. unfold Wf.val. cbn [ew en]. rewrite e2, cmul_C. ring.
  - apply (wpr_rootVar l r _ _ s n); auto. intros root Hroot Hbelow Hwl Hwr.
    eapply (wpr_mono tau); [auto| |apply (wpr_mm_multiply2 H0 (Z.to_nat (root + 1)) s l r); auto; lia].
    intros e s' _ HQ n' Hn' Hl' Hr'. specialize (Hbelow n' Hl' Hr').
    apply (dnt_lift tau (mulF (tb s KM) l r) _ (Z.to_nat (root + 1))); [|apply HQ; auto|lia].
    intros k ix Hk. apply mulF_up; eapply (wfe_KM_up tau); eauto.
Qed.
End MM2.
