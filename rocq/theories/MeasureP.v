(* MeasureP.v -- probabilities and measurement follow the Born rule. *)
From Coq Require Import Reals Lra Psatz ZArith Bool List Lia Arith.
From Coquelicot Require Import Complex.
From Verif Require Import Num State DD Gates Measure RNum Wf Sums Err Inv Wp Make Add MulV Canon GateP StateP Spec Readout.
Import ListNotations.
Open Scope Z_scope.

Section MeasureP.
Context (tau : R) {HTol : Tol tau}.
Let Htau : (0 <= tau < 1 / 2)%R := tol_ok.
#[local] Hint Extern 0 NumOps => exact (RNum tau) : typeclass_instances.
Context {CF : Cfg}.
Notation table := (@table (RNum tau)).
Notation state := (@state (RNum tau)).
Notation edge := (@edge (RNum tau)).
Notation node := (@node (RNum tau)).
Notation val := (val tau).
Notation valp := (valp tau).
Notation wfe := (wfe tau).
Notation wfp := (wfp tau).
Notation reg := (reg tau).
Notation TInv := (TInv tau).
Notation Inv := (Inv tau).
Notation rel := (rel tau).
Notation psum := (psum tau).
Notation E := (@E (RNum tau)).

Ltac toR := change (@num (RNum tau)) with R in *.

Definition chd (nd : node) (b : nat) : edge := nth b (nch nd) zeroE.
Lemma chd_null k t nd b : nodeok tau k t nd -> (b < arity k)%nat -> nth b (nch nd) nullE = chd nd b.
Proof. intros H Hb. unfold chd. apply nth_indep. rewrite (no_len _ _ _ _ H). exact Hb. Qed.

Lemma psum_0 t p : psum t 0 p = 1%R.
Proof. unfold Inv.psum. cbn. rewrite Cmod_1. ring. Qed.

Lemma val_sq k t m (c : edge) ix : (Cmod (val k t m c ix) ^ 2 = Cmod (ew c) ^ 2 * Cmod (valp k t m (en c) ix) ^ 2)%R.
Proof. unfold Wf.val. rewrite Cmod_mult. apply Rpow_mult_distr. Qed.

Lemma psum_half t m a nd b : reg KV t a nd -> nv nd = Z.of_nat m ->
  rbsum m (fun k => (Cmod (valp KV t (S m) (Node a) (ixset k m b)) ^ 2)%R)
   = (Cmod (ew (chd nd b)) ^ 2 * psum t m (en (chd nd b)))%R.
Proof.
  intros Hr Hv. unfold Inv.psum. rewrite <- rbsum_scal. apply rbsum_ext. intros k.
  rewrite (valp_S_node tau KV t m a nd _ Hr Hv). rewrite ixset_same.
  rewrite (val_local tau KV t m _ (ixset k m b) k).
  - apply val_sq.
  - intros l Hl. apply ixset_other. lia.
Qed.
Lemma psum_S t m a nd : reg KV t a nd -> nv nd = Z.of_nat m ->
  psum t (S m) (Node a) = (Cmod (ew (chd nd 0)) ^ 2 * psum t m (en (chd nd 0)) +
                           Cmod (ew (chd nd 1)) ^ 2 * psum t m (en (chd nd 1)))%R.
Proof.
  intros Hr Hv. rewrite <- !(psum_half t m a nd _ Hr Hv). reflexivity.
Qed.
Lemma psum_nonneg t n p : (0 <= psum t n p)%R.
Proof. apply rbsum_nonneg. intros k. apply pow2_ge_0. Qed.
Lemma psum_pos t : TInv KV t -> forall n p, wfp KV t n p -> (0 < psum t n p)%R.
Proof.
  intros HT. induction n as [|m IH]; intros p Hp.
  - rewrite psum_0. lra.
  - destruct Hp as (a & nd & -> & Hr & Hv). rewrite (psum_S t m a nd Hr Hv).
    pose proof (reg_ok tau KV t a nd HT Hr) as Hok.
    destruct (no_max _ _ _ _ Hok) as (i & Hi & H1 & _). cbn in Hi.
    assert (Hw : wfp KV t m (en (chd nd i))).
    { pose proof (reg_child tau KV t a nd i HT Hr) as W. rewrite Hv, Nat2Z.id in W.
      apply (wfe_nz tau KV t m _ W). rewrite H1. apply c1_neq_c0. }
    pose proof (IH _ Hw) as Hpos.
    pose proof (psum_nonneg t m (en (chd nd 0))). pose proof (psum_nonneg t m (en (chd nd 1))).
    pose proof (pow2_ge_0 (Cmod (ew (chd nd 0)))) as P0. pose proof (pow2_ge_0 (Cmod (ew (chd nd 1)))) as P1.
    assert (Hone : (Cmod (ew (chd nd i)) ^ 2 = 1)%R).
    { unfold chd. rewrite H1. change (@c1 (RNum tau)) with (RtoC 1). rewrite Cmod_1. ring. }
    destruct i as [|[|i]]; [| |lia]; rewrite Hone; nra.
Qed.

(* only the memo may grow *)
Record pext (s s' : state) : Prop := {
  pe_tb : tb s' = tb s; pe_ac : ac s' = ac s; pe_mc : mc s' = mc s;
  pe_v : gc_v s' = gc_v s; pe_m : gc_m s' = gc_m s;
  pe_pr : forall p x, probs s p = Some x -> probs s' p = Some x
}.
Lemma pext_refl s : pext s s. Proof. constructor; auto. Qed.
Lemma pext_trans a b c : pext a b -> pext b c -> pext a c.
Proof. intros [] []. constructor; try congruence. auto. Qed.

Lemma prob_ok_mono t (pr pr' : ptr -> option R) p x : (forall q, pr q <> None -> pr' q <> None) ->
  prob_ok tau t pr p x -> prob_ok tau t pr' p x.
Proof.
  intros H [A|(m & a & nd & H1 & H2 & H3 & H4 & H5)]; [left; exact A|right].
  exists m, a, nd. split; [exact H1|]. split; [exact H2|]. split; [exact H3|]. split; [exact H4|]. intros c Hc. apply H. apply H5. exact Hc.
Qed.

Lemma prset_inv s p x : Inv s -> (forall y, probs s p = Some y -> y = x) -> prob_ok tau (tb s KV) (probs s) p x ->
  Inv (prset s p x) /\ pext s (prset s p x) /\ probs (prset s p x) p = Some x.
Proof.
  intros HI Hn Hok. split; [|split].
  - constructor; [exact (inv_tb _ _ HI)|exact (inv_ac _ _ HI)|exact (inv_mc _ _ HI)| |exact (inv_len _ _ HI)].
    intros q y Hy. cbn in Hy |- *.
    assert (Hm : forall r, probs s r <> None -> (if ptr_eqb p r then Some x else probs s r) <> None).
    { intros r Hr. destruct (ptr_eqb p r); [discriminate|exact Hr]. }
    destruct (ptr_eqb p q) eqn:Hpq.
    + apply ptr_eqb_eq in Hpq. subst q. inversion Hy; subst y. exact (prob_ok_mono _ _ _ _ _ Hm Hok).
    + exact (prob_ok_mono _ _ _ _ _ Hm (inv_pr _ _ HI q y Hy)).
  - constructor; auto. intros q y Hy. cbn. destruct (ptr_eqb p q) eqn:Hpq; [|exact Hy].
    apply ptr_eqb_eq in Hpq. subst q. rewrite (Hn _ Hy). reflexivity.
  - cbn. rewrite ptr_eqb_refl. reflexivity.
Qed.

Lemma prob_ok_val t pr n p x : prob_ok tau t pr p x -> wfp KV t n p -> x = psum t n p.
Proof.
  intros [[-> ->]|(m & a & nd & -> & H2 & H3 & H4 & _)] Hw.
  - destruct n; [rewrite psum_0; reflexivity|]. destruct Hw as (b & nb & Hb & _). discriminate.
  - destruct n; [discriminate|]. destruct Hw as (b & nb & Hb & Hr & Hv). inversion Hb; subst b.
    pose proof (reg_fun tau _ _ _ _ _ H2 Hr). subst nb. replace n with m by lia. exact H4.
Qed.

Lemma assignP_spec : forall fuel n e s, Inv s -> wfe KV (tb s KV) n e -> (n <= fuel)%nat ->
  exists s', assignP fuel e s = Some ((Cmod (ew e) ^ 2 * psum (tb s KV) n (en e))%R, s') /\ pext s s' /\ Inv s' /\
    probs s' (en e) <> None.
Proof.
  assert (Hval : forall n e s x, Inv s -> wfe KV (tb s KV) n e -> prob_ok tau (tb s KV) (probs s) (en e) x ->
     nmul (norm2 (ew e)) x = (Cmod (ew e) ^ 2 * psum (tb s KV) n (en e))%R).
  { intros n e s x HI [W|[W0 W1]] Hx.
    - rewrite norm2_Cmod. rewrite (prob_ok_val _ _ n _ _ Hx W). reflexivity.
    - rewrite norm2_Cmod, W0. change (@c0 (RNum tau)) with (RtoC 0). rewrite Cmod_0. cbn. ring. }
  assert (Hterm : forall n e s, Inv s -> wfe KV (tb s KV) n e -> en e = Term -> probs s (en e) = None ->
     exists s', Some (nmul (norm2 (ew e)) n1, prset s (en e) n1) = Some ((Cmod (ew e) ^ 2 * psum (tb s KV) n (en e))%R, s') /\ pext s s' /\ Inv s' /\
    probs s' (en e) <> None).
  { intros n e s HI W Ht Hn. assert (Hok : prob_ok tau (tb s KV) (probs s) (en e) 1%R) by (left; auto).
    destruct (prset_inv s (en e) 1%R HI ltac:(congruence) Hok) as (A & B & C). exists (prset s (en e) 1%R).
    split; [|split; [exact B|split; [exact A|rewrite C; discriminate]]].
    f_equal. f_equal. exact (Hval n e s 1%R HI W Hok). }
  induction fuel as [|f IH]; intros n e s HI W Hn; cbn [assignP].
  - destruct (probs s (en e)) as [x|] eqn:Hx.
    + exists s. split; [|split; [apply pext_refl|split; [exact HI|congruence]]].
      f_equal. f_equal. apply Hval; auto. exact (inv_pr _ _ HI _ _ Hx).
    + assert (Ht : en e = Term). { destruct W as [W|[_ W]]; auto. destruct n; [exact W|lia]. }
      replace (is_term (en e)) with true by (rewrite Ht; reflexivity). apply Hterm; auto.
  - destruct (probs s (en e)) as [x|] eqn:Hx.
    + exists s. split; [|split; [apply pext_refl|split; [exact HI|congruence]]].
      f_equal. f_equal. apply Hval; auto. exact (inv_pr _ _ HI _ _ Hx).
    + destruct (is_term (en e)) eqn:Ht.
      { apply Hterm; auto. destruct (en e); (discriminate || reflexivity). }
      destruct n as [|m]. { destruct W as [W|[_ W]]; rewrite W in Ht; discriminate. }
      destruct W as [W|[_ W]]; [|rewrite W in Ht; discriminate].
      destruct W as (a & nd & Hp & Hr & Hv). rewrite Hp in *.
      rewrite (readn_reg tau KV s a nd Hr).
      pose proof (inv_tb _ _ HI KV) as HT. pose proof (reg_ok tau KV _ a nd HT Hr) as Hok.
      rewrite (chd_null KV _ nd 0 Hok), (chd_null KV _ nd 1 Hok) by (cbn; lia).
      assert (W0 : wfe KV (tb s KV) m (chd nd 0)). { pose proof (reg_child tau KV _ a nd 0 HT Hr) as X. rewrite Hv, Nat2Z.id in X. exact X. }
      assert (W1 : wfe KV (tb s KV) m (chd nd 1)). { pose proof (reg_child tau KV _ a nd 1 HT Hr) as X. rewrite Hv, Nat2Z.id in X. exact X. }
      destruct (IH m (chd nd 0) s HI W0 ltac:(lia)) as (s1 & A1 & A2 & A3 & A4). rewrite A1.
      assert (W1' : wfe KV (tb s1 KV) m (chd nd 1)) by (rewrite (pe_tb _ _ A2); exact W1).
      destruct (IH m (chd nd 1) s1 A3 W1' ltac:(lia)) as (s2 & B1 & B2 & B3 & B4). rewrite B1.
      assert (Htb : tb s2 = tb s) by (rewrite (pe_tb _ _ B2); apply (pe_tb _ _ A2)).
      assert (Hsum : nadd ((Cmod (ew (chd nd 0)) ^ 2 * psum (tb s KV) m (en (chd nd 0)))%R : num) ((Cmod (ew (chd nd 1)) ^ 2 * psum (tb s1 KV) m (en (chd nd 1)))%R : num) = psum (tb s KV) (S m) (Node a)).
      { rewrite (psum_S _ m a nd Hr Hv). rewrite (pe_tb _ _ A2). reflexivity. }
      rewrite Hsum.
      assert (Hold : forall y, probs s2 (Node a) = Some y -> y = psum (tb s KV) (S m) (Node a)).
      { intros y Hy. pose proof (inv_pr _ _ B3 _ _ Hy) as Hoky. rewrite Htb in Hoky.
        apply (prob_ok_val _ _ (S m) _ _ Hoky). exists a, nd. auto. }
      assert (Hok2 : prob_ok tau (tb s2 KV) (probs s2) (Node a) (psum (tb s KV) (S m) (Node a))).
        { right. exists m, a, nd. rewrite Htb. split; [reflexivity|]. split; [exact Hr|]. split; [exact Hv|]. split; [reflexivity|].
          intros c Hc. destruct (In_nth _ _ zeroE Hc) as (i & Hi & <-). rewrite (no_len _ _ _ _ Hok) in Hi. cbn in Hi.
          destruct i as [|[|i]]; [| |lia].
          - fold (chd nd 0). destruct (probs s1 (en (chd nd 0))) as [z|] eqn:Hz; [|congruence].
            rewrite (pe_pr _ _ B2 _ _ Hz). discriminate.
          - exact B4. }
        destruct (prset_inv s2 (Node a) _ B3 Hold Hok2) as (C1 & C2 & C3).
        exists (prset s2 (Node a) (psum (tb s KV) (S m) (Node a))). split; [rewrite norm2_Cmod; reflexivity|].
        split; [exact (pext_trans _ _ _ A2 (pext_trans _ _ _ B2 C2))|]. split; [exact C1|]. rewrite C3. discriminate.
Qed.

Lemma cprobs_spec s m p : Inv s -> wfp KV (tb s KV) (S m) p -> probs s p <> None -> forall w,
  exists a nd, p = Node a /\ reg KV (tb s KV) a nd /\ nv nd = Z.of_nat m /\ nodeok tau KV (tb s KV) nd /\
   cprobs s (E w p) = Some ((Cmod (ew (chd nd 0)) ^ 2 * psum (tb s KV) m (en (chd nd 0)))%R,
                            (Cmod (ew (chd nd 1)) ^ 2 * psum (tb s KV) m (en (chd nd 1)))%R, nd) /\
   probs s (en (chd nd 0)) <> None /\ probs s (en (chd nd 1)) <> None.
Proof.
  intros HI (a & nd & -> & Hr & Hv) Hpr w. exists a, nd. split; [reflexivity|]. split; [exact Hr|]. split; [exact Hv|].
  pose proof (inv_tb _ _ HI KV) as HT. pose proof (reg_ok tau KV _ a nd HT Hr) as Hok. split; [exact Hok|].
  destruct (probs s (Node a)) as [x|] eqn:Hx; [|congruence].
  destruct (inv_pr _ _ HI _ _ Hx) as [[X _]|(m' & a' & nd' & H1 & H2 & H3 & H4 & H5)]; [discriminate|].
  inversion H1; subst a'. pose proof (reg_fun tau _ _ _ _ _ Hr H2). subst nd'.
  assert (Hc : forall b, (b < 2)%nat -> probs s (en (chd nd b)) <> None).
  { intros b Hb. apply H5. apply nth_In. rewrite (no_len _ _ _ _ Hok). exact Hb. }
  split; [|split; apply Hc; lia].
  unfold cprobs. cbn [en]. rewrite (readn_reg tau KV s a nd Hr).
  rewrite (chd_null KV _ nd 0 Hok), (chd_null KV _ nd 1 Hok) by (cbn; lia).
  assert (Hv' : forall b x0, (b < 2)%nat -> probs s (en (chd nd b)) = Some x0 ->
     nmul x0 (norm2 (ew (chd nd b))) = (Cmod (ew (chd nd b)) ^ 2 * psum (tb s KV) m (en (chd nd b)))%R).
  { intros b x0 Hb Hx0. rewrite norm2_Cmod. pose proof (reg_child tau KV _ a nd b HT Hr) as W.
    rewrite Hv, Nat2Z.id in W. fold (chd nd b) in W. destruct W as [W|[W0 _]].
    - rewrite (prob_ok_val _ _ m _ _ (inv_pr _ _ HI _ _ Hx0) W). cbn. ring.
    - rewrite W0. change (@c0 (RNum tau)) with (RtoC 0). rewrite Cmod_0. cbn. ring. }
  pose proof (Hc 0%nat ltac:(lia)). pose proof (Hc 1%nat ltac:(lia)).
  destruct (probs s (en (chd nd 0))) as [x0|] eqn:E0; [|congruence].
  destruct (probs s (en (chd nd 1))) as [x1|] eqn:E1; [|congruence].
  rewrite (Hv' 0%nat x0), (Hv' 1%nat x1) by (auto; lia). reflexivity.
Qed.

(* a zero probability stays zero, wherever the walk is stuck *)
Lemma prob_path_zero s i : Inv s -> forall l m cur, wfp KV (tb s KV) (S m) (en cur) -> probs s (en cur) <> None ->
  prob_path s l i cur 0%R = Some 0%R.
Proof.
  intros HI. induction l as [|j IH]; intros m cur Hw Hp; [reflexivity|].
  cbn [prob_path]. destruct cur as [w p]. cbn [en] in *.
  destruct (cprobs_spec s m p HI Hw Hp w) as (a & nd & _ & _ & _ & _ & -> & _).
  set (p0' := if nltb _ _ then _ else _).
  assert (Hz : (if Nat.testbit i j then nmul (0%R : num) (nsub n1 p0') else nmul (0%R : num) p0') = 0%R).
  { destruct (Nat.testbit i j); cbn; ring. }
  rewrite Hz. replace (@neqb (RNum tau) 0%R n0) with true by (symmetry; apply Reqb_true; reflexivity).
  apply (IH m); auto.
Qed.

Lemma prob_path_spec s i : Inv s -> forall l cur prob, wfp KV (tb s KV) l (en cur) -> probs s (en cur) <> None ->
  prob_path s l i cur prob = Some (prob * (Cmod (valp KV (tb s KV) l (en cur) (bix i)) ^ 2 / psum (tb s KV) l (en cur)))%R.
Proof.
  intros HI. pose proof (inv_tb _ _ HI KV) as HT.
  induction l as [|j IH]; intros cur prob Hw Hp.
  - cbn [prob_path]. rewrite psum_0. cbn [Wf.valp]. rewrite Cmod_1. toR. f_equal. field.
  - cbn [prob_path]. destruct cur as [w p]. cbn [en] in *.
    pose proof (psum_pos _ HT _ _ Hw) as Hpos.
    destruct (cprobs_spec s j p HI Hw Hp w) as (a & nd & -> & Hr & Hv & Hok & Hc & P0 & P1). rewrite Hc.
    rewrite (psum_S _ j a nd Hr Hv) in Hpos |- *.
    set (q0 := (Cmod (ew (chd nd 0)) ^ 2 * psum (tb s KV) j (en (chd nd 0)))%R) in *.
    set (q1 := (Cmod (ew (chd nd 1)) ^ 2 * psum (tb s KV) j (en (chd nd 1)))%R) in *.
    cbv zeta.
    replace (@nltb (RNum tau) n0 (@nadd (RNum tau) q0 q1)) with true by (symmetry; apply Rltb_true; exact Hpos).
    rewrite (valp_S_node tau KV _ j a nd _ Hr Hv). rewrite val_sq. fold (chd nd (bix i j)).
    assert (Hnth : nth (if Nat.testbit i j then 1%nat else 0%nat) (nch nd) nullE = chd nd (bix i j)).
    { apply (chd_null KV (tb s KV) nd _ Hok). unfold bix, bit. destruct (Nat.testbit i j); cbn; lia. }
    rewrite Hnth. set (c := chd nd (bix i j)) in *.
    set (prob' := if Nat.testbit i j then _ else _).
    assert (Hprob : prob' = (prob * ((Cmod (ew c) ^ 2 * psum (tb s KV) j (en c)) / (q0 + q1)))%R).
    { unfold prob', c, bix, bit. toR. cbn [nmul nsub ndiv nadd n1 RNum]. destruct (Nat.testbit i j).
      - fold q1. field. lra.
      - fold q0. field. lra. }
    assert (Wc : wfe KV (tb s KV) j c).
    { pose proof (reg_child tau KV _ a nd (bix i j) HT Hr) as X. rewrite Hv, Nat2Z.id in X. exact X. }
    destruct (Reqb_spec prob' 0%R) as [Hz|Hz].
    + replace (@neqb (RNum tau) prob' n0) with true by (symmetry; apply Reqb_true; exact Hz).
      rewrite Hz. rewrite (prob_path_zero s i HI j j (E w (Node a)) Hw Hp). f_equal.
      rewrite Hz in Hprob. toR. destruct Wc as [Wc|[W0 _]].
      * pose proof (psum_pos _ HT _ _ Wc) as Hpc.
        assert (Hpw : (prob * Cmod (ew c) ^ 2 = 0)%R).
        { apply (Rmult_eq_reg_r (psum (tb s KV) j (en c) / (q0 + q1))%R).
          - rewrite Rmult_0_l. symmetry. etransitivity; [exact Hprob|]. toR. field. lra.
          - apply Rgt_not_eq. apply Rdiv_lt_0_compat; lra. }
        transitivity (prob * Cmod (ew c) ^ 2 * (Cmod (valp KV (tb s KV) j (en c) (bix i)) ^ 2 / (q0 + q1)))%R; [rewrite Hpw; ring|field; lra].
      * rewrite W0. change (@c0 (RNum tau)) with (RtoC 0). rewrite Cmod_0. field. lra.
    + replace (@neqb (RNum tau) prob' n0) with false by (symmetry; apply not_true_is_false; intros X; apply Reqb_true in X; contradiction).
      assert (Wp : wfp KV (tb s KV) j (en c)).
      { destruct Wc as [Wc|[W0 _]]; [exact Wc|]. exfalso. apply Hz. rewrite Hprob, W0.
        change (@c0 (RNum tau)) with (RtoC 0). rewrite Cmod_0. toR. field. lra. }
      rewrite (IH c prob' Wp). 2:{ unfold c, bix, bit. destruct (Nat.testbit i j); assumption. }
      toR. f_equal. rewrite Hprob. pose proof (psum_pos _ HT _ _ Wp) as Hpc. field. lra.
Qed.

Lemma all_some_map {A B} (f : A -> option B) (g : A -> B) l : (forall x, In x l -> f x = Some (g x)) ->
  all_some (map f l) = Some (map g l).
Proof.
  induction l as [|x l IH]; intros H; [reflexivity|]. cbn. rewrite (H x (or_introl eq_refl)).
  rewrite IH; [reflexivity|]. intros y Hy. apply H. right. exact Hy.
Qed.

Lemma getVarV s m p : wfp KV (tb s KV) (S m) p -> getVar KV p s = Some (Z.of_nat m).
Proof. intros (a & nd & -> & Hr & Hv). unfold getVar. rewrite (readn_reg tau KV s a nd Hr), Hv. reflexivity. Qed.

Theorem probabilities_spec s n e : Inv s -> (1 <= n <= 30)%nat -> wfp KV (tb s KV) n (en e) ->
  exists s', probabilities e s = Some (map (fun i => (Cmod (valp KV (tb s KV) n (en e) (bix i)) ^ 2 / psum (tb s KV) n (en e))%R) (seq 0 (2 ^ n)), s') /\
    pext s s' /\ Inv s'.
Proof.
  intros HI Hn Hw. destruct n as [|m]; [lia|].
  unfold probabilities. rewrite (getVarV s m (en e) Hw).
  replace (shift_ok (Z.of_nat m + 1)) with true by (symmetry; unfold shift_ok; apply andb_true_intro; split; [apply Z.leb_le|apply Z.ltb_lt]; lia).
  destruct (assignP_spec PFUEL (S m) e s HI (or_introl Hw) ltac:(unfold PFUEL; lia)) as (s1 & A1 & A2 & A3 & A4).
  unfold assignProbabilities. rewrite A1. replace (Z.to_nat (Z.of_nat m + 1)) with (S m) by lia.
  rewrite (all_some_map _ (fun i => (Cmod (valp KV (tb s KV) (S m) (en e) (bix i)) ^ 2 / psum (tb s KV) (S m) (en e))%R)).
  - exists s1. auto.
  - intros i _. rewrite (prob_path_spec s1 i A3 (S m) e). 
    + rewrite (pe_tb _ _ A2). f_equal. toR. apply Rmult_1_l.
    + rewrite (pe_tb _ _ A2). exact Hw.
    + exact A4.
Qed.
End MeasureP.
