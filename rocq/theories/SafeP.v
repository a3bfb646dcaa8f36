(* SafeP.v -- probabilities and measurement over an arbitrary arithmetic: no
   call reads an unregistered node, a missing memo entry or an empty queue. *)
From Coq Require Import ZArith Bool List Lia Arith.
From Verif Require Import Num State DD Gates Measure Wf Wp SafeA SafeW SafeO SafeG SafeR.
Import ListNotations.
Open Scope Z_scope.

Section SafeP.
Context {NO : NumOps} {AR : Arith NO} {CF : Cfg}.

Definition chd (nd : node) (b : nat) : edge := nth b (nch nd) zeroE.

(* only the memo changes, and it only grows *)
Record pext (s s' : state) : Prop := {
  pe_tb : tb s' = tb s; pe_ac : ac s' = ac s; pe_mc : mc s' = mc s;
  pe_v : gc_v s' = gc_v s; pe_m : gc_m s' = gc_m s;
  pe_pr : forall p, probs s p <> None -> probs s' p <> None
}.
Lemma pext_refl s : pext s s. Proof. constructor; auto. Qed.
Lemma pext_trans a b c : pext a b -> pext b c -> pext a c.
Proof. intros [] []. constructor; try congruence. auto. Qed.

Lemma prob_ok_mono t (pr pr' : ptr -> option num) p x : (forall q, pr q <> None -> pr' q <> None) ->
  prob_ok t pr p x -> prob_ok t pr' p x.
Proof.
  intros H [Hx [A|(a & nd & H1 & H2 & H5)]]; split; auto. right.
  exists a, nd. split; [exact H1|]. split; [exact H2|]. intros c Hc. apply H. apply H5. exact Hc.
Qed.
Lemma prset_inv s p x : Inv s -> prob_ok (tb s KV) (probs s) p x ->
  Inv (prset s p x) /\ pext s (prset s p x) /\ probs (prset s p x) p = Some x.
Proof.
  intros HI Hok. assert (Hm : forall r, probs s r <> None -> (if ptr_eqb p r then Some x else probs s r) <> None).
  { intros r Hr. destruct (ptr_eqb p r); [discriminate|exact Hr]. }
  split; [|split].
  - constructor; [exact (inv_tb _ HI)|exact (inv_ac _ HI)|exact (inv_mc _ HI)| |exact (inv_len _ HI)].
    intros q y Hy. cbn in Hy |- *. destruct (ptr_eqb p q) eqn:Hpq.
    + apply ptr_eqb_eq in Hpq. subst q. inversion Hy; subst y. exact (prob_ok_mono _ _ _ _ _ Hm Hok).
    + exact (prob_ok_mono _ _ _ _ _ Hm (inv_pr _ HI q y Hy)).
  - constructor; auto.
  - cbn. rewrite ptr_eqb_refl. reflexivity.
Qed.

Lemma chd_null t a nd b : TInv KV t -> reg KV t a nd -> (b < 2)%nat -> nth b (nch nd) nullE = chd nd b.
Proof. intros HT Hr Hb. apply (reg_nth KV t a nd b HT Hr Hb). Qed.
Lemma chd_se t a nd b m : TInv KV t -> reg KV t a nd -> nv nd = Z.of_nat m -> se KV t m (chd nd b).
Proof. intros HT Hr Hv. pose proof (reg_child KV t a nd b HT Hr) as X. rewrite Hv, Nat2Z.id in X. exact X. Qed.
Lemma chd_one t a nd m : TInv KV t -> reg KV t a nd -> nv nd = Z.of_nat m ->
  exists i, (i < 2)%nat /\ ew (chd nd i) = c1 /\ sp KV t m (en (chd nd i)).
Proof.
  intros HT Hr Hv. destruct (no_one _ _ _ (reg_ok _ _ _ _ HT Hr) eq_refl) as (i & H1 & H2 & H3).
  rewrite Hv, Nat2Z.id in H3. exists i. auto.
Qed.
Lemma chd_in t a nd b : TInv KV t -> reg KV t a nd -> (b < 2)%nat -> In (chd nd b) (nch nd).
Proof. intros HT Hr Hb. apply nth_In. rewrite (no_len _ _ _ (reg_ok _ _ _ _ HT Hr)). exact Hb. Qed.
Lemma in_chd t a nd c : TInv KV t -> reg KV t a nd -> In c (nch nd) -> c = chd nd 0 \/ c = chd nd 1.
Proof.
  intros HT Hr Hc. pose proof (no_len _ _ _ (reg_ok _ _ _ _ HT Hr)) as Hl. unfold chd. cbn in Hl.
  destruct (nch nd) as [|x [|y [|z l]]]; try discriminate. cbn in Hc |- *. intuition.
Qed.

Lemma sum_ps i (w0 w1 : cx) x0 x1 : (i < 2)%nat -> (if Nat.eqb i 0 then w0 else w1) = c1 -> ps x0 -> ps x1 ->
  ps (nadd (nmul (norm2 w0) x0) (nmul (norm2 w1) x1)) /\ ps (nadd (nmul x0 (norm2 w0)) (nmul x1 (norm2 w1))).
Proof.
  intros Hi Hw H0 H1. destruct (ps_c1 _ H0) as [A0 B0]. destruct (ps_c1 _ H1) as [A1 B1].
  destruct (nn_mul _ w0 H0) as [C0 D0]. destruct (nn_mul _ w1 H1) as [C1 D1].
  destruct i as [|[|i]]; [| |lia]; cbn in Hw; subst.
  - split; [exact (Logic.proj1 (ps_add _ _ B0 D1))|exact (Logic.proj1 (ps_add _ _ A0 C1))].
  - split; [exact (Logic.proj2 (ps_add _ _ B1 D0))|exact (Logic.proj2 (ps_add _ _ A1 C0))].
Qed.

Lemma assignP_s : forall fuel n e s, Inv s -> se KV (tb s KV) n e -> (n <= fuel)%nat ->
  exists y s', assignP fuel e s = Some (nmul (norm2 (ew e)) y, s') /\ ps y /\ pext s s' /\ Inv s' /\ probs s' (en e) <> None.
Proof.
  assert (Hterm : forall e s, Inv s -> en e = Term -> exists y s', Some (nmul (norm2 (ew e)) n1, prset s (en e) n1) = Some (nmul (norm2 (ew e)) y, s') /\ ps y /\ pext s s' /\ Inv s' /\ probs s' (en e) <> None).
  { intros e s HI Ht. destruct (prset_inv s (en e) n1 HI) as (A & B & C).
    { split; [apply ps_1|left; exact Ht]. }
    exists n1, (prset s (en e) n1). split; [reflexivity|]. split; [apply ps_1|]. split; [exact B|]. split; [exact A|]. rewrite C. discriminate. }
  assert (Hmemo : forall e s x, Inv s -> probs s (en e) = Some x -> exists y s', Some (nmul (norm2 (ew e)) x, s) = Some (nmul (norm2 (ew e)) y, s') /\ ps y /\ pext s s' /\ Inv s' /\ probs s' (en e) <> None).
  { intros e s x HI Hx. exists x, s. split; [reflexivity|]. split; [apply (inv_pr _ HI _ _ Hx)|]. split; [apply pext_refl|]. split; [exact HI|]. congruence. }
  induction fuel as [|f IH]; intros n e s HI W Hn; cbn [assignP].
  - destruct (probs s (en e)) as [x|] eqn:Hx; [now apply Hmemo|].
    assert (Ht : en e = Term). { destruct W as [W|[_ W]]; auto. destruct n; [exact W|lia]. }
    replace (is_term (en e)) with true by (rewrite Ht; reflexivity). now apply Hterm.
  - destruct (probs s (en e)) as [x|] eqn:Hx; [now apply Hmemo|].
    destruct (is_term (en e)) eqn:Ht. { apply Hterm; auto. destruct (en e); (discriminate || reflexivity). }
    destruct n as [|m]. { destruct W as [W|[_ W]]; rewrite W in Ht; discriminate. }
    destruct W as [W|[_ W]]; [|rewrite W in Ht; discriminate].
    destruct W as (a & nd & Hp & Hr & Hv). rewrite Hp in *.
    rewrite (readn_reg KV s a nd Hr).
    pose proof (inv_tb _ HI KV) as HT.
    rewrite (chd_null _ a nd 0 HT Hr), (chd_null _ a nd 1 HT Hr) by lia.
    destruct (IH m (chd nd 0) s HI (chd_se _ a nd 0 m HT Hr Hv) ltac:(lia)) as (y0 & s1 & -> & Y0 & P1 & I1 & M1).
    destruct (IH m (chd nd 1) s1 I1) as (y1 & s2 & -> & Y1 & P2 & I2 & M2); [rewrite (pe_tb _ _ P1); apply (chd_se _ a nd 1 m HT Hr Hv)|lia|].
    destruct (chd_one _ a nd m HT Hr Hv) as (i & Hi & Hone & _).
    set (sum := nadd _ _).
    assert (Hsum : ps sum).
    { apply (sum_ps i (ew (chd nd 0)) (ew (chd nd 1)) y0 y1 Hi); auto. destruct i as [|[|i]]; [exact Hone|exact Hone|lia]. }
    pose proof (pext_trans _ _ _ P1 P2) as P12.
    destruct (prset_inv s2 (Node a) sum I2) as (A & B & C).
    { split; [exact Hsum|]. right. exists a, nd. split; [reflexivity|]. rewrite (pe_tb _ _ P12). split; [exact Hr|].
      intros c Hc. destruct (in_chd _ a nd c HT Hr Hc) as [-> | ->]; [apply (pe_pr _ _ P2); exact M1|exact M2]. }
    exists sum, (prset s2 (Node a) sum). split; [reflexivity|]. split; [exact Hsum|].
    split; [eapply pext_trans; eauto|]. split; [exact A|]. rewrite C. discriminate.
Qed.
Lemma assign_s n e s : Inv s -> se KV (tb s KV) n e -> Z.of_nat n <= NQUBITS ->
  exists y s', assignProbabilities e s = Some (y, s') /\ pext s s' /\ Inv s' /\ probs s' (en e) <> None.
Proof.
  intros HI He Hn. destruct (assignP_s PFUEL n e s HI He) as (y & s' & H1 & _ & H2 & H3 & H4).
  { unfold PFUEL, NQUBITS in *. lia. }
  exists (nmul (norm2 (ew e)) y), s'. split; [exact H1|auto].
Qed.

(* the two children of a node in the memo *)
Lemma cprobs_s s e m : Inv s -> sp KV (tb s KV) (S m) (en e) -> probs s (en e) <> None ->
  exists nd x0 x1, cprobs s e = Some (nmul x0 (norm2 (ew (chd nd 0))), nmul x1 (norm2 (ew (chd nd 1))), nd) /\
    nv nd = Z.of_nat m /\ ps x0 /\ ps x1 /\
    nth 0 (nch nd) nullE = chd nd 0 /\ nth 1 (nch nd) nullE = chd nd 1 /\
    (forall b, se KV (tb s KV) m (chd nd b)) /\
    (forall b, (b < 2)%nat -> probs s (en (chd nd b)) <> None) /\
    (exists i, (i < 2)%nat /\ ew (chd nd i) = c1 /\ sp KV (tb s KV) m (en (chd nd i))).
Proof.
  intros HI (a & nd & Hp & Hr & Hv) Hpr. unfold cprobs. rewrite Hp in *.
  rewrite (readn_reg KV s a nd Hr). pose proof (inv_tb _ HI KV) as HT.
  rewrite (chd_null _ a nd 0 HT Hr), (chd_null _ a nd 1 HT Hr) by lia.
  destruct (probs s (Node a)) as [x|] eqn:Hx; [|congruence].
  destruct (inv_pr _ HI _ _ Hx) as [_ [X|(a' & nd' & E1 & Hr' & Hc)]]; [discriminate|].
  injection E1 as <-. pose proof (reg_fun _ _ _ _ _ Hr Hr'). subst nd'.
  assert (Hm : forall b, (b < 2)%nat -> probs s (en (chd nd b)) <> None).
  { intros b Hb. apply Hc. apply (chd_in _ a nd b HT Hr Hb). }
  destruct (probs s (en (chd nd 0))) as [x0|] eqn:H0; [|exfalso; apply (Hm 0%nat); auto].
  destruct (probs s (en (chd nd 1))) as [x1|] eqn:H1; [|exfalso; apply (Hm 1%nat); auto].
  exists nd, x0, x1. split; [reflexivity|]. split; [exact Hv|].
  split; [apply (inv_pr _ HI _ _ H0)|]. split; [apply (inv_pr _ HI _ _ H1)|].
  split; [apply (chd_null _ a nd 0 HT Hr); lia|]. split; [apply (chd_null _ a nd 1 HT Hr); lia|].
  split; [intros b; exact (chd_se _ a nd b m HT Hr Hv)|]. split; [exact Hm|]. exact (chd_one _ a nd m HT Hr Hv).
Qed.

Lemma zc_norm2 w : zc w -> zr (norm2 w).
Proof. intros [H1 H2]. apply zr_add; apply zr_mul_l; assumption. Qed.

(* of the two children at least one is proper; the other, if it is not, has
   probability exactly zero *)
Inductive two (t : table) (m : nat) (nd : node) (x0 x1 : num) : Prop :=
| two_both : sp KV t m (en (chd nd 0)) -> sp KV t m (en (chd nd 1)) -> two t m nd x0 x1
| two_0 : sp KV t m (en (chd nd 0)) -> ps (nmul x0 (norm2 (ew (chd nd 0)))) -> zr (nmul x1 (norm2 (ew (chd nd 1)))) -> two t m nd x0 x1
| two_1 : sp KV t m (en (chd nd 1)) -> zr (nmul x0 (norm2 (ew (chd nd 0)))) -> ps (nmul x1 (norm2 (ew (chd nd 1)))) -> two t m nd x0 x1.
Lemma two_ok t m nd x0 x1 : ps x0 -> ps x1 -> (forall b, se KV t m (chd nd b)) ->
  (exists i, (i < 2)%nat /\ ew (chd nd i) = c1 /\ sp KV t m (en (chd nd i))) -> two t m nd x0 x1.
Proof.
  intros H0 H1 Hs (i & Hi & Hone & Hp). destruct i as [|[|i]]; [| |lia].
  - destruct (Hs 1%nat) as [X|[X _]]; [now apply two_both|]. apply two_0; auto.
    + rewrite Hone. apply ps_c1. exact H0.
    + apply zr_mul_r. apply zc_norm2. exact X.
  - destruct (Hs 0%nat) as [X|[X _]]; [now apply two_both|]. apply two_1; auto.
    + apply zr_mul_r. apply zc_norm2. exact X.
    + rewrite Hone. apply ps_c1. exact H1.
Qed.

Lemma all_some_ok {A} (l : list (option A)) : (forall x, In x l -> x <> None) -> all_some l <> None.
Proof.
  induction l as [|[x|] l IH]; intros H; cbn; [discriminate| |].
  - destruct (all_some l) eqn:El; [discriminate|]. exfalso. apply IH; [intros y Hy; apply H; now right|reflexivity].
  - exfalso. apply (H None); [now left|reflexivity].
Qed.

Lemma prob_path_s s i : Inv s -> forall l L cur prob, (l <= L)%nat -> sp KV (tb s KV) L (en cur) ->
  probs s (en cur) <> None -> prob_path s l i cur prob <> None.
Proof.
  intros HI. induction l as [|j IH]; intros L cur prob HL Hp Hm; cbn [prob_path]; [discriminate|].
  destruct L as [|L]; [lia|].
  destruct (cprobs_s s cur L HI Hp Hm) as (nd & x0 & x1 & -> & Hv & P0 & P1 & N0 & N1 & Hse & Hmm & Hone).
  set (p0 := nmul x0 _) in *. set (p1 := nmul x1 _) in *.
  set (p0' := if nltb n0 (nadd p0 p1) then _ else _).
  set (b := Nat.testbit i j). set (prob' := if b then _ else _).
  destruct (neqb prob' n0) eqn:Hz; [apply (IH (S L)); auto; lia|].
  destruct (two_ok (tb s KV) L nd x0 x1 P0 P1 Hse Hone) as [H0 H1|H0 Hx Hzr|H1 Hzr Hx].
  - destruct b; [rewrite N1|rewrite N0]; apply (IH L); auto; lia.
  - fold p0 in Hx. fold p1 in Hzr. destruct b eqn:Hb.
    + exfalso. assert (Ht : ps (nadd p0 p1)). { exact (Logic.proj1 (ps_add _ _ Hx (Logic.proj1 (nn_mul _ _ P1)))). }
      subst p0' prob'. rewrite (Logic.proj2 (ps_nz _ Ht)) in Hz.
      rewrite zr_eqb in Hz; [discriminate|]. apply zr_mul_r. now apply ps_one.
    + rewrite N0. apply (IH L); auto; lia.
  - fold p0 in Hzr. fold p1 in Hx. destruct b eqn:Hb.
    + rewrite N1. apply (IH L); auto; lia.
    + exfalso. assert (Ht : ps (nadd p0 p1)). { exact (Logic.proj2 (ps_add _ _ Hx (Logic.proj1 (nn_mul _ _ P0)))). }
      subst p0' prob'. rewrite (Logic.proj2 (ps_nz _ Ht)) in Hz.
      rewrite zr_eqb in Hz; [discriminate|]. apply zr_mul_r. now apply zr_sel.
Qed.

Lemma sp_var s n p : Inv s -> sp KV (tb s KV) n p -> getVar KV p s = Some (Z.of_nat n - 1).
Proof.
  intros HI. destruct n as [|m]; cbn [sp].
  - intros ->. reflexivity.
  - intros (a & nd & -> & Hr & Hv). unfold getVar. rewrite (readn_reg KV s a nd Hr), Hv. f_equal. lia.
Qed.
Theorem probabilities_s s n e : Inv s -> (n <= 30)%nat -> sp KV (tb s KV) n (en e) ->
  exists l s', probabilities e s = Some (l, s') /\ pext s s' /\ Inv s'.
Proof.
  intros HI Hn Hp. unfold probabilities. rewrite (sp_var s n _ HI Hp). replace (Z.of_nat n - 1 + 1) with (Z.of_nat n) by lia.
  rewrite shift_ok_true by lia.
  destruct (assign_s n e s HI (or_introl Hp)) as (y & s1 & -> & P1 & I1 & M1); [unfold NQUBITS; lia|].
  cbv zeta. rewrite Nat2Z.id. rewrite <- (pe_tb _ _ P1) in Hp.
  destruct (all_some _) as [l|] eqn:El; [exists l, s1; auto|].
  exfalso. revert El. apply all_some_ok. intros x Hx. apply in_map_iff in Hx. destruct Hx as (i & <- & _).
  apply (prob_path_s s1 i I1 n n); auto.
Qed.

Definition uniform (th : num) : Prop := nleb n0 th = true /\ nltb th n1 = true.
Lemma sample_s s : Inv s -> forall l ths cur res, Forall uniform ths -> (l <= length ths)%nat ->
  sp KV (tb s KV) l (en cur) -> probs s (en cur) <> None ->
  exists res', sample s l ths cur res = Some res' /\ length res' = length res.
Proof.
  intros HI. induction l as [|j IH]; intros ths cur res Hth Hlen Hp Hm; cbn [sample]; [exists res; auto|].
  destruct (cprobs_s s cur j HI Hp Hm) as (nd & x0 & x1 & -> & Hv & P0 & P1 & N0 & N1 & Hse & Hmm & Hone).
  destruct ths as [|th r]; [cbn in Hlen; lia|]. cbn [length] in Hlen. inversion Hth as [|y1 y2 [U0 U1] Hr]; subst y1 y2.
  set (p0 := nmul x0 _) in *. set (p1 := nmul x1 _) in *.
  set (p0' := if negb _ then _ else _).
  assert (Hgo : forall b res, (b < 2)%nat -> sp KV (tb s KV) j (en (chd nd b)) ->
    exists res', sample s j r (chd nd b) res = Some res' /\ length res' = length res).
  { intros b res0 Hb Hpb. apply IH; auto; lia. }
  rewrite N0, N1. cbv zeta.
  destruct (two_ok (tb s KV) j nd x0 x1 P0 P1 Hse Hone) as [H0 H1|H0 Hx Hzr|H1 Hzr Hx].
  - destruct (nltb th p0'); [now apply (Hgo 0%nat); auto|].
    destruct (Hgo 1%nat (upd_nth (Z.to_nat (nv nd)) (fun _ => true) res)) as (res' & A & B); auto. exists res'. split; [exact A|]. now rewrite B, upd_nth_len.
  - fold p0 in Hx. fold p1 in Hzr. assert (Ht : ps (nadd p0 p1)). { exact (Logic.proj1 (ps_add _ _ Hx (Logic.proj1 (nn_mul _ _ P1)))). }
    assert (Hp0 : nltb th p0' = true). { subst p0'. rewrite (Logic.proj1 (ps_nz _ Ht)). cbn. now apply ps_sel. }
    rewrite Hp0. now apply (Hgo 0%nat); auto.
  - fold p0 in Hzr. fold p1 in Hx. assert (Ht : ps (nadd p0 p1)). { exact (Logic.proj2 (ps_add _ _ Hx (Logic.proj1 (nn_mul _ _ P0)))). }
    assert (Hp0 : nltb th p0' = false).
    { subst p0'. rewrite (Logic.proj1 (ps_nz _ Ht)). cbn. apply zr_lt; auto. now apply zr_sel. }
    rewrite Hp0. destruct (Hgo 1%nat (upd_nth (Z.to_nat (nv nd)) (fun _ => true) res)) as (res' & A & B); auto. exists res'. split; [exact A|]. now rewrite B, upd_nth_len.
Qed.

(* the memo contains the state before sampling *)
Lemma memo_s s n e : Inv s -> sp KV (tb s KV) n (en e) -> Z.of_nat n <= NQUBITS ->
  exists s1, match probs s (en e) with
             | Some _ => Some s
             | None => match assignProbabilities e s with Some (_, s1) => Some s1 | None => None end
             end = Some s1 /\ pext s s1 /\ Inv s1 /\ probs s1 (en e) <> None.
Proof.
  intros HI Hp Hn. destruct (probs s (en e)) as [x|] eqn:Hx.
  - exists s. split; [reflexivity|]. split; [apply pext_refl|]. split; [exact HI|congruence].
  - destruct (assign_s n e s HI (or_introl Hp) Hn) as (y & s1 & -> & H1 & H2 & H3). exists s1. auto.
Qed.
(* only tables grow and the memo is complete *)
Definition mrel (s s' : state) : Prop := sext s s' /\ Inv s' /\ gc_v s' = gc_v s /\ gc_m s' = gc_m s.
Lemma mrel_of s s1 s2 : pext s s1 -> rel s1 s2 -> mrel s s2.
Proof.
  intros P (H1 & H2 & _ & H4 & H5). split; [|split; [exact H2|split; [rewrite H4; apply P|rewrite H5; apply P]]].
  intros k. rewrite <- (pe_tb _ _ P). apply H1.
Qed.
Lemma mrel_pext s s1 : Inv s1 -> pext s s1 -> mrel s s1.
Proof. intros HI P. apply (mrel_of s s1 s1 P). now apply rel_refl. Qed.

Theorem measureAll_s s n e c ths : Inv s -> Z.of_nat n <= NQUBITS -> sp KV (tb s KV) n (en e) ->
  (n <= length ths)%nat -> Forall uniform ths ->
  exists str e' s', measureAll e c ths s = Some (str, e', s') /\ mrel s s' /\ se KV (tb s' KV) n e' /\ length str = n.
Proof.
  intros HI Hn Hp Hlen Hth. unfold measureAll. rewrite (sp_var s n _ HI Hp). cbv zeta.
  replace (Z.to_nat (Z.of_nat n - 1 + 1)) with n by lia.
  destruct (memo_s s n e HI Hp Hn) as (s1 & -> & P1 & I1 & M1).
  pose proof Hp as Hp'. rewrite <- (pe_tb _ _ P1) in Hp'.
  destruct (sample_s s1 I1 n ths e (repeat false n) Hth Hlen Hp' M1) as (res & -> & Hl). rewrite repeat_length in Hl.
  destruct c.
  - assert (Hw : wpr (Measure.rebuild res 0 oneE) (SE KV (Z.to_nat 0 + length res)) s1).
    { apply rebuild_s; auto; [lia|lia|apply se_term0]. }
    destruct (wpr_run _ _ _ I1 Hw) as (e' & s2 & -> & R & Q). exists (rev res), e', s2.
    split; [reflexivity|]. split; [exact (mrel_of _ _ _ P1 R)|]. unfold SE in Q. rewrite Hl in Q. split; [exact Q|]. now rewrite rev_length.
  - exists (rev res), e, s1. split; [reflexivity|]. split; [now apply mrel_pext|]. split; [left; exact Hp'|]. now rewrite rev_length.
Qed.

(* ---- one qubit ---- *)
Lemma sp_lev t l l' p : sp KV t l p -> sp KV t l' p -> l = l'.
Proof.
  destruct l as [|l], l' as [|l']; intros H H'; auto.
  - cbn in H. destruct H' as (a & nd & E1 & _). congruence.
  - cbn in H'. destruct H as (a & nd & E1 & _). congruence.
  - destruct H as (a & nd & E1 & R1 & V1). destruct H' as (a' & nd' & E2 & R2 & V2).
    rewrite E1 in E2. inversion E2; subst a'. pose proof (reg_fun _ _ _ _ _ R1 R2). subst. lia.
Qed.

Section Bfs.
Context (s : state) (ii : nat) (HI : Inv s).
Let t := tb s KV.
Context (P : ptr -> Prop)
  (HP : forall a nd c, P (Node a) -> reg KV t a nd -> In c (nch nd) -> P (en c)).
Let HT : TInv KV t := inv_tb _ HI KV.

Record binv (L : nat) (vis B : list ptr) : Prop := {
  bi_nd : NoDup B;
  bi_wf : forall p, In p B -> sp KV t L p /\ In p vis /\ P p;
  bi_vis : forall p, In p vis -> sp KV t L p -> In p B;
  bi_vnd : NoDup vis;
  bi_vl : forall p, In p vis -> exists l, (L <= l)%nat /\ (1 <= l)%nat /\ sp KV t l p
}.

Lemma visit_s L pm vis A B c (prob : num) : binv L vis B -> (1 <= L)%nat -> se KV t L c -> P (en c) ->
  exists pm' vis' B', visit prob c (pm, vis, A ++ B) = (pm', vis', A ++ B') /\
    binv L vis' B' /\ (length vis' + length B = length vis + length B')%nat /\
    (iszero (ew c) = false \/ B <> [] -> B' <> []).
Proof.
  intros HB HL Hc HPc. unfold visit. destruct (iszero (ew c)) eqn:Hzc.
  - exists pm, vis, B. split; [reflexivity|]. split; [exact HB|]. split; [lia|]. intros [X|X]; [discriminate|exact X].
  - pose proof (se_nz _ _ _ _ Hc Hzc) as Hw.
    destruct HB as [b1 b2 b3 b4 b5].
    destruct (existsb (ptr_eqb (en c)) vis) eqn:Hex.
    + apply existsb_exists in Hex. destruct Hex as (p & Hin & Hp). apply ptr_eqb_eq in Hp. subst p.
      eexists _, vis, B. split; [reflexivity|]. split; [constructor; auto|]. split; [lia|].
      intros _ ->. destruct (b3 _ Hin Hw).
    + assert (Hnin : ~ In (en c) vis).
      { intros X. assert (existsb (ptr_eqb (en c)) vis = true); [|congruence]. apply existsb_exists. exists (en c). split; [exact X|apply ptr_eqb_refl]. }
      eexists _, (en c :: vis), (B ++ [en c]). rewrite app_assoc. split; [reflexivity|].
      assert (HninB : ~ In (en c) B). { intros X. apply Hnin. apply b2. exact X. }
      split; [constructor|].
      * apply NoDup_rev in b1; rewrite <- (rev_involutive (B ++ [en c])); apply NoDup_rev; rewrite rev_app_distr; cbn; constructor; [rewrite <- in_rev; exact HninB|exact b1].
      * intros p Hp. apply in_app_iff in Hp. destruct Hp as [Hp|[<-|[]]].
        -- destruct (b2 p Hp) as (X & Y & Z'). split; [exact X|]. split; [right; exact Y|exact Z'].
        -- split; [exact Hw|]. split; [left; reflexivity|exact HPc].
      * intros p [<-|Hp] Hwp; apply in_app_iff; [right; left; reflexivity|left; auto].
      * constructor; auto.
      * intros p [<-|Hp]; [exists L; auto|auto].
      * split; [rewrite app_length; cbn; lia|]. intros _ X. destruct B; discriminate.
Qed.

Lemma vis_bound (vis : list ptr) : NoDup vis -> (forall p, In p vis -> exists l, (1 <= l)%nat /\ sp KV t l p) ->
  (length vis < Pos.to_nat (nexta t))%nat.
Proof.
  intros Hnd Hw.
  assert (Hinc : incl vis (map (fun i => Node (Pos.of_nat i)) (seq 1 (Pos.to_nat (nexta t) - 1)))).
  { intros p Hp. destruct (Hw p Hp) as (l & Hl & Hwp). destruct l as [|l]; [lia|]. destruct Hwp as (a & nd & -> & [Hr _] & _).
    pose proof (ti_next _ _ HT a nd Hr) as Hlt. apply in_map_iff. exists (Pos.to_nat a). split; [rewrite Pos2Nat.id; reflexivity|].
    apply in_seq. pose proof (Pos2Nat.is_pos a). lia. }
  pose proof (NoDup_incl_length Hnd Hinc) as H. rewrite map_length, seq_length in H. pose proof (Pos2Nat.is_pos (nexta t)). lia.
Qed.

Lemma bfs_s : forall fuel L pm vis A B k,
  binv L vis B -> NoDup A -> (forall p, In p A -> sp KV t (S L) p /\ P p) -> A <> [] ->
  (ii <= L)%nat -> (L = ii -> B = []) ->
  (length vis = k + length A + length B)%nat -> (Pos.to_nat (nexta t) <= fuel + k)%nat ->
  exists pm' q, bfs s fuel (Z.of_nat ii) (pm, vis, A ++ B) = Some (pm', q) /\
    (forall p, In p q -> sp KV t (S ii) p /\ P p).
Proof.
  induction fuel as [|f IH]; intros L pm vis A B k HB HA HAw HAne HL HLB Hlen Hfuel.
  all: destruct A as [|p A]; [congruence|]; clear HAne; cbn [app bfs]; fold bfs.
  all: destruct (HAw p (or_introl eq_refl)) as [(a & nd & -> & Hr & Hv) HPa].
  all: rewrite (readn_reg KV s a nd Hr), Hv.
  all: destruct (Z.eqb_spec (Z.of_nat L) (Z.of_nat ii)) as [HLi|HLi].
  1,3: apply Nat2Z.inj in HLi; subst L; rewrite (HLB eq_refl) in *; exists pm, ((Node a :: A) ++ []);
       (split; [reflexivity|]); intros q Hq; rewrite app_nil_r in Hq; exact (HAw q Hq).
  - exfalso. pose proof (vis_bound vis (bi_vnd _ _ _ HB)) as Hvb.
    assert ((length vis < Pos.to_nat (nexta t))%nat); [|lia].
    apply Hvb. intros q Hq. destruct (bi_vl _ _ _ HB q Hq) as (l & _ & X & Y). exists l. auto.
  - assert (HL' : (ii < L)%nat) by lia.
    rewrite (chd_null _ a nd 0 HT Hr), (chd_null _ a nd 1 HT Hr) by lia.
    set (prob := pmget pm (Node a)).
    destruct (visit_s L pm vis A B (chd nd 0) prob HB ltac:(lia) (chd_se _ a nd 0 L HT Hr Hv) (HP a nd _ HPa Hr (chd_in _ a nd 0 HT Hr ltac:(lia)))) as (pm1 & vis1 & B1 & V1 & I1 & L1 & N1).
    rewrite V1.
    destruct (visit_s L pm1 vis1 A B1 (chd nd 1) prob I1 ltac:(lia) (chd_se _ a nd 1 L HT Hr Hv) (HP a nd _ HPa Hr (chd_in _ a nd 1 HT Hr ltac:(lia)))) as (pm2 & vis2 & B2 & V2 & I2 & L2 & N2).
    rewrite V2.
    assert (HB2 : B2 <> []).
    { destruct (chd_one _ a nd L HT Hr Hv) as (i & Hi & Hone & _).
      apply N2. destruct i as [|[|i]]; [right; apply N1; left|left|lia]; rewrite Hone; apply one_nz. }
    inversion HA as [|x y HnA HAnd]; subst x y.
    destruct A as [|q0 A'] eqn:EA.
    + destruct L as [|L']; [lia|].
      rewrite (app_nil_l B2). rewrite <- (app_nil_r B2).
      apply (IH L' pm2 vis2 B2 [] (S k)).
      * constructor.
        -- constructor.
        -- intros q [].
        -- intros q Hq Hwq. destruct (bi_vl _ _ _ I2 q Hq) as (l & Hl & _ & Y). pose proof (sp_lev _ _ _ _ Y Hwq). lia.
        -- exact (bi_vnd _ _ _ I2).
        -- intros q Hq. destruct (bi_vl _ _ _ I2 q Hq) as (l & Hl & X & Y). exists l. split; [lia|auto].
      * exact (bi_nd _ _ _ I2).
      * intros q Hq. destruct (bi_wf _ _ _ I2 q Hq) as (X & _ & Y). auto.
      * exact HB2.
      * lia.
      * reflexivity.
      * cbn [length] in *. lia.
      * lia.
    + rewrite <- EA in *.
      apply (IH L pm2 vis2 A B2 (S k)).
      * exact I2.
      * exact HAnd.
      * intros q Hq. apply HAw. right. exact Hq.
      * rewrite EA. discriminate.
      * lia.
      * lia.
      * cbn [length] in *. lia.
      * lia.
Qed.
End Bfs.

Lemma side_s s w c n : probs s (en c) <> None -> se KV (tb s KV) n c -> side s w c <> None.
Proof. intros H _. unfold side. destruct (iszero (ew c)); [discriminate|]. destruct (probs s (en c)); [discriminate|congruence]. Qed.
Lemma sumq_s s pm : Inv s -> forall q z o ii, (forall p, In p q -> sp KV (tb s KV) (S ii) p /\ probs s p <> None) ->
  exists z' o', sumq s pm q z o = Some (z', o').
Proof.
  intros HI. induction q as [|p r IH]; intros z o ii Hq; cbn [sumq]; [eauto|].
  destruct (Hq p (or_introl eq_refl)) as [(a & nd & -> & Hr & Hv) Hm].
  rewrite (readn_reg KV s a nd Hr). pose proof (inv_tb _ HI KV) as HT.
  rewrite (chd_null _ a nd 0 HT Hr), (chd_null _ a nd 1 HT Hr) by lia.
  destruct (probs s (Node a)) as [x|] eqn:Hx; [|congruence].
  destruct (inv_pr _ HI _ _ Hx) as [_ [X|(a' & nd' & E1 & Hr' & Hc)]]; [discriminate|].
  injection E1 as <-. pose proof (reg_fun _ _ _ _ _ Hr Hr'). subst nd'.
  assert (Hs : forall b, (b < 2)%nat -> side s (pmget pm (Node a)) (chd nd b) <> None).
  { intros b Hb. apply (side_s _ _ _ ii); [apply Hc; exact (chd_in _ a nd b HT Hr Hb)|exact (chd_se _ a nd b ii HT Hr Hv)]. }
  destruct (side s _ (chd nd 0)) as [y0|] eqn:H0; [|exfalso; apply (Hs 0%nat); auto].
  destruct (side s _ (chd nd 1)) as [y1|] eqn:H1; [|exfalso; apply (Hs 1%nat); auto].
  apply (IH _ _ ii). intros p Hp. apply Hq. now right.
Qed.

Theorem detProbs_s s n e ii : Inv s -> Z.of_nat n <= NQUBITS -> sp KV (tb s KV) n (en e) -> (ii < n)%nat ->
  exists z o s', detProbs e (Z.of_nat ii) s = Some (z, o, s') /\ pext s s' /\ Inv s'.
Proof.
  intros HI Hn Hp Hi. destruct n as [|m]; [lia|].
  destruct (memo_s s (S m) e HI Hp Hn) as (s1 & Hmemo & P1 & I1 & M1).
  unfold detProbs. cbv zeta.
  set (P := fun p => probs s1 p <> None).
  assert (HP : forall a nd c, P (Node a) -> reg KV (tb s KV) a nd -> In c (nch nd) -> P (en c)).
  { intros a nd c Ha Hr Hc. unfold P in *. destruct (probs s1 (Node a)) as [x|] eqn:Hx; [|congruence].
    destruct (inv_pr _ I1 _ _ Hx) as [_ [X|(a' & nd' & E1 & Hr' & Hcc)]]; [discriminate|].
    injection E1 as <-. rewrite (pe_tb _ _ P1) in Hr'. pose proof (reg_fun _ _ _ _ _ Hr Hr'). subst nd'. now apply Hcc. }
  destruct (bfs_s s ii HI P HP (Pos.to_nat (nexta (tb s KV))) m (pmset (fun _ => None) (en e) (norm2 (ew e))) [en e] [en e] [] 0) as (pm & q & Hb & Hq).
  - constructor.
    + constructor.
    + intros p [].
    + intros p [<-|[]] X. pose proof (sp_lev _ _ _ _ X Hp). lia.
    + constructor; [intros []|constructor].
    + intros p [<-|[]]. exists (S m). split; [lia|]. split; [lia|exact Hp].
  - constructor; [intros []|constructor].
  - intros p [<-|[]]. split; [exact Hp|exact M1].
  - discriminate.
  - lia.
  - reflexivity.
  - cbn. lia.
  - lia.
  - cbn [app] in Hb. rewrite Hb, Hmemo.
    destruct (sumq_s s1 pm I1 q n0 n0 ii) as (z & o & ->).
    { intros p Hpq. rewrite (pe_tb _ _ P1). exact (Hq p Hpq). }
    exists z, o, s1. auto.
Qed.

Theorem measureOne_s s n e ii eps : Inv s -> Z.of_nat n <= NQUBITS -> sp KV (tb s KV) n (en e) -> (ii < n)%nat ->
  exists r s', measureOne e (Z.of_nat ii) eps s = Some (r, s') /\ mrel s s'.
Proof.
  intros HI Hn Hp Hi. unfold measureOne. destruct (detProbs_s s n e ii HI Hn Hp Hi) as (z & o & s1 & -> & P1 & I1).
  cbv zeta. destruct (nltb _ _); eexists _, s1; (split; [reflexivity|]); now apply mrel_pext.
Qed.
Theorem measureOneCollapsing_s s n e ii eps th : Inv s -> Z.of_nat n <= NQUBITS -> sp KV (tb s KV) n (en e) -> (ii < n)%nat ->
  exists r s', measureOneCollapsing e (Z.of_nat ii) eps th s = Some (r, s') /\ mrel s s' /\
    match r with Ret (_, e') => se KV (tb s' KV) n e' | Throw => True end.
Proof.
  intros HI Hn Hp Hi. unfold measureOneCollapsing. destruct (detProbs_s s n e ii HI Hn Hp Hi) as (z & o & s1 & -> & P1 & I1).
  cbv zeta. destruct (nltb eps _). { eexists _, s1. split; [reflexivity|]. split; [now apply mrel_pext|exact Logic.I]. }
  pose proof Hp as Hp'. rewrite <- (pe_tb _ _ P1) in Hp'. rewrite (sp_var s1 n _ I1 Hp').
  replace (Z.of_nat n - 1 + 1) with (Z.of_nat n) by lia.
  set (zero := nltb th _).
  destruct (wpr_run _ _ _ I1 (makeGate_s n (if zero then proj0 else proj1) (Z.of_nat ii) [] s1 I1 Hn ltac:(lia))) as (g & s2 & -> & R2 & Q2).
  assert (I2 : Inv s2) by (apply (rel_inv _ _ R2)).
  assert (H2 : se KV (tb s2 KV) n e) by (apply (se_rel _ _ _ s1); [exact R2|left; exact Hp']).
  destruct (wpr_run _ _ _ I2 (mv_multiply_s n s2 g e I2 Hn Q2 H2)) as (e' & s3 & -> & R3 & Q3).
  eexists _, s3. split; [reflexivity|]. split; [exact (mrel_of _ _ _ P1 (rel_trans _ _ _ R2 R3))|].
  apply (se_scale_r KV (tb s3 KV) n e'). exact Q3.
Qed.
End SafeP.
