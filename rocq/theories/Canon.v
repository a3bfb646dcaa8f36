(* Canon.v -- canonicity: with exact comparison (tau = 0) two diagrams that
   denote the same function are the same edge. *)
From Coq Require Import Reals Lra Psatz ZArith Bool List Lia.
From Coquelicot Require Import Complex.
From Verif Require Import Num State DD RNum Wf Sums Err Inv Wp Make Add MulV.
Import ListNotations.
Open Scope Z_scope.

Ltac toC := match goal with |- @eq _ ?a ?b => change (@eq C a b) end.

Section Canon.
Context (tau : R) {HTol : Tol tau}.
Let Htau : (0 <= tau < 1 / 2)%R := tol_ok.
#[local] Hint Extern 0 NumOps => exact (RNum tau) : typeclass_instances.
Context {CF : Cfg}.
Notation table := (@table (RNum tau)).
Notation state := (@state (RNum tau)).
Notation edge := (@edge (RNum tau)).
Notation node := (@node (RNum tau)).
Notation val := (val tau).
Notation valp := (valp tau).
Notation wfe := (wfe tau).
Notation wfp := (wfp tau).
Notation reg := (reg tau).
Notation TInv := (TInv tau).
Notation E := (@E (RNum tau)).

Lemma Cmod_nz (x : C) : Cmod x = 1%R -> x <> RtoC 0.
Proof. intros H ->. rewrite Cmod_0 in H. lra. Qed.

(* an edge whose values all vanish has weight 0 *)
Lemma val_zero_w k t n e : TInv k t -> wfe k t n e -> (forall ix, val k t n e ix = RtoC 0) -> ew e = c0.
Proof.
  intros HT Hw H. destruct (val_max tau k t n e HT Hw) as (ix & _ & Hm).
  rewrite H, Cmod_0 in Hm. symmetry in Hm. now apply Cmod_eq_0 in Hm.
Qed.
Lemma ratio_mod k t n p q c : TInv k t -> wfp k t n p -> wfp k t n q ->
  (forall ix, valp k t n p ix = Cmult c (valp k t n q ix)) -> Cmod c = 1%R.
Proof.
  intros HT Hp Hq H.
  destruct (valp_max tau k t HT n p Hp) as (i1 & _ & H1).
  destruct (valp_max tau k t HT n q Hq) as (i2 & _ & H2).
  pose proof (valp_le1 tau k t HT n q i1 (or_introl Hq)) as H3.
  pose proof (valp_le1 tau k t HT n p i2 (or_introl Hp)) as H4.
  rewrite H in H1, H4. rewrite Cmod_mult in H1, H4. rewrite H2 in H4.
  pose proof (Cmod_ge_0 c). pose proof (Cmod_ge_0 (valp k t n q i1)). nra.
Qed.

Definition IHm (k : kind) (t : table) (m : nat) : Prop :=
  forall p q c, wfp k t m p -> wfp k t m q ->
    (forall ix, valp k t m p ix = Cmult c (valp k t m q ix)) -> p = q.

(* edges below: equal up to a unit factor *)
Lemma edge_ratio k t m : TInv k t -> IHm k t m ->
  forall e e' c, c <> RtoC 0 -> wfe k t m e -> wfe k t m e' ->
  (forall ix, val k t m e ix = Cmult c (val k t m e' ix)) ->
  ew e = Cmult c (ew e') /\ (ew e <> c0 -> en e = en e').
Proof.
  intros HT IH e e' c Hc He He' H.
  destruct (Ceq_dec (ew e) (RtoC 0)) as [Hz|Hz].
  - split; [|intros h; contradiction].
    assert (Hz' : ew e' = c0).
    { apply (val_zero_w k t m e' HT He'). intros ix. specialize (H ix).
      rewrite (val_zw tau) in H by exact Hz. symmetry in H.
      replace (val k t m e' ix) with (Cmult (Cinv c) (Cmult c (val k t m e' ix))) by (field; auto).
      rewrite H. ring. }
    rewrite Hz, Hz'. change (@c0 (RNum tau)) with (RtoC 0). toC. ring.
  - assert (Hp : wfp k t m (en e)) by (now apply (wfe_nz tau) in He).
    assert (Hz' : ew e' <> RtoC 0).
    { intros h. apply Hz. apply (val_zero_w k t m e HT He). intros ix. rewrite H.
      rewrite (val_zw tau) by exact h. ring. }
    assert (Hp' : wfp k t m (en e')) by (now apply (wfe_nz tau) in He').
    assert (Hq : en e = en e').
    { apply (IH (en e) (en e') (Cdiv (Cmult c (ew e')) (ew e)) Hp Hp').
      intros ix. specialize (H ix). unfold Wf.val in H.
      replace (Cmult (Cdiv (Cmult c (ew e')) (ew e)) (valp k t m (en e') ix)) with
        (Cdiv (Cmult c (Cmult (ew e') (valp k t m (en e') ix))) (ew e)) by (unfold Cdiv; ring).
      rewrite <- H. field. auto. }
    split; auto.
    destruct (valp_max tau k t HT m (en e) Hp) as (ix & _ & Hm). apply Cmod_nz in Hm.
    specialize (H ix). unfold Wf.val in H. rewrite <- Hq in H.
    assert (Hr : Cmult (ew e) (valp k t m (en e) ix) = Cmult (Cmult c (ew e')) (valp k t m (en e) ix)) by (rewrite H; ring).
    replace (ew e : C) with (Cdiv (Cmult (ew e) (valp k t m (en e) ix)) (valp k t m (en e) ix)) by (field; auto).
    rewrite Hr. change (@eq C (Cdiv (Cmult (Cmult c (ew e')) (valp k t m (en e) ix)) (valp k t m (en e) ix)) (Cmult c (ew e'))).
    field. auto.
Qed.

(* two registered nodes of the same level *)
Lemma node_ratio k t m a nd b nd' c : tau = 0%R -> TInv k t -> IHm k t m ->
  reg k t a nd -> nv nd = Z.of_nat m -> reg k t b nd' -> nv nd' = Z.of_nat m -> Cmod c = 1%R ->
  (forall i ix, (i < arity k)%nat -> val k t m (nth i (nch nd) zeroE) ix = Cmult c (val k t m (nth i (nch nd') zeroE) ix)) ->
  a = b.
Proof.
  intros H0 HT IH Ha Hva Hb Hvb Hc H.
  pose proof (reg_ok tau k _ _ _ HT Ha) as Ho. pose proof (reg_ok tau k _ _ _ HT Hb) as Ho'.
  assert (Hw : forall i, wfe k t m (nth i (nch nd) zeroE)).
  { intros i. pose proof (reg_child tau k t a nd i HT Ha) as h. rewrite Hva, Nat2Z.id in h. exact h. }
  assert (Hw' : forall i, wfe k t m (nth i (nch nd') zeroE)).
  { intros i. pose proof (reg_child tau k t b nd' i HT Hb) as h. rewrite Hvb, Nat2Z.id in h. exact h. }
  assert (He : forall i, (i < arity k)%nat ->
     ew (nth i (nch nd) zeroE) = Cmult c (ew (nth i (nch nd') zeroE)) /\
     (ew (nth i (nch nd) zeroE) <> c0 -> en (nth i (nch nd) zeroE) = en (nth i (nch nd') zeroE))).
  { intros i Hi. apply (edge_ratio k t m HT IH); auto. intros h. rewrite h, Cmod_0 in Hc. lra. }
  destruct (no_max _ _ _ _ Ho) as (i & Hi & Hi1 & Hi2).
  destruct (no_max _ _ _ _ Ho') as (j & Hj & Hj1 & Hj2).
  assert (Hmods : forall x, (x < arity k)%nat -> Cmod (ew (nth x (nch nd) zeroE)) = Cmod (ew (nth x (nch nd') zeroE))).
  { intros x Hx. destruct (He x Hx) as [h _]. rewrite h, Cmod_mult, Hc. lra. }
  assert (i = j).
  { destruct (Nat.lt_trichotomy i j) as [h|[h|h]]; auto; exfalso.
    - specialize (Hj2 i h). rewrite <- Hmods, Hi1 in Hj2 by auto.
      change (@c1 (RNum tau)) with (RtoC 1) in Hj2. rewrite Cmod_1 in Hj2. lra.
    - specialize (Hi2 j h). rewrite Hmods, Hj1 in Hi2 by auto.
      change (@c1 (RNum tau)) with (RtoC 1) in Hi2. rewrite Cmod_1 in Hi2. lra. }
  subst j.
  assert (Hc1 : c = RtoC 1).
  { destruct (He i Hi) as [h _]. rewrite Hi1, Hj1 in h. change (@c1 (RNum tau)) with (RtoC 1) in h.
    rewrite Cmult_1_r in h. auto. }
  subst c.
  assert (Hlen : length (nch nd) = arity k) by apply Ho. assert (Hlen' : length (nch nd') = arity k) by apply Ho'.
  assert (Hnd : nd = nd').
  { destruct nd as [v ch], nd' as [v' ch']. cbn [nv nch] in *. f_equal; [congruence|].
    apply (nth_ext _ _ zeroE zeroE); [congruence|]. intros x Hx. rewrite Hlen in Hx.
    destruct (He x Hx) as [h1 h2]. rewrite Cmult_1_l in h1.
    destruct (Ceq_dec (ew (nth x ch zeroE)) (RtoC 0)) as [Hz|Hz].
    - rewrite (no_zero _ _ _ _ Ho (nth x ch zeroE)).
      + symmetry. apply (no_zero _ _ _ _ Ho').
        * apply nth_In. cbn. lia.
        * rewrite <- h1, Hz. apply iszero_c0; lra.
      + apply nth_In. cbn. lia.
      + rewrite Hz. apply iszero_c0; lra.
    - specialize (h2 Hz). destruct (nth x ch zeroE) as [w1 p1], (nth x ch' zeroE) as [w2 p2]. cbn [ew en] in *. congruence. }
  subst nd'. eapply ti_uniq; eauto.
Qed.

(* a node at level m is not the lift of something lower *)
Lemma node_not_skip t m a nd q c : tau = 0%R -> TInv KM t -> IHm KM t m ->
  reg KM t a nd -> nv nd = Z.of_nat m -> wfp KM t m q -> c <> RtoC 0 ->
  (forall ix, valp KM t (S m) (Node a) ix = Cmult c (Cmult (diag4 (ix m)) (valp KM t m q ix))) -> False.
Proof.
  intros H0 HT IH Ha Hva Hq Hc H.
  pose proof (reg_ok tau KM _ _ _ HT Ha) as Ho.
  assert (Hw : forall i, wfe KM t m (nth i (nch nd) zeroE)).
  { intros i. pose proof (reg_child tau KM t a nd i HT Ha) as h. rewrite Hva, Nat2Z.id in h. exact h. }
  assert (Hv : forall i ix, val KM t m (nth i (nch nd) zeroE) ix = Cmult c (Cmult (diag4 i) (valp KM t m q ix))).
  { intros i ix. specialize (H (ixset ix m i)). rewrite (valp_S_node tau KM t m a nd) in H by auto.
    rewrite ixset_same in H.
    rewrite (val_local tau KM t m _ (ixset ix m i) ix), (valp_local tau KM t m _ (ixset ix m i) ix) in H; auto;
      intros l Hl; apply ixset_other; lia. }
  assert (Hz : forall i, diag4 i = RtoC 0 -> ew (nth i (nch nd) zeroE) = c0).
  { intros i Hi. apply (val_zero_w KM t m); auto. intros ix. rewrite Hv, Hi. ring. }
  assert (Hd : forall i, diag4 i = RtoC 1 -> ew (nth i (nch nd) zeroE) = c /\ en (nth i (nch nd) zeroE) = q).
  { intros i Hi. destruct (edge_ratio KM t m HT IH (nth i (nch nd) zeroE) (E c1 q) c Hc (Hw i) (or_introl Hq)) as [h1 h2].
    - intros ix. rewrite Hv, Hi, valp_val. ring.
    - cbn [ew en] in h1, h2. change (@c1 (RNum tau)) with (RtoC 1) in h1. rewrite Cmult_1_r in h1.
      split; auto. apply h2. rewrite h1. exact Hc. }
  pose proof (no_strip _ _ _ _ Ho eq_refl H0) as Hs. unfold strippable in Hs.
  destruct (Hd 0%nat eq_refl) as [h1 h2]. destruct (Hd 3%nat eq_refl) as [h3 h4].
  rewrite h2, h4, (Hz 1%nat eq_refl), (Hz 2%nat eq_refl), ptr_eqb_refl, !iszero_c0 in Hs by lra.
  rewrite h1, h3 in Hs. cbn [andb] in Hs. rewrite isequal_refl in Hs. discriminate.
Qed.

Theorem canon_ptr k t : tau = 0%R -> TInv k t -> forall n, IHm k t n.
Proof.
  intros H0 HT. induction n as [|m IH]; intros p q c Hp Hq H.
  - destruct k; cbn in Hp, Hq; [congruence|].
    assert (Hneg : forall p, p = Term \/ (exists a nd, p = Node a /\ reg KM t a nd /\ nv nd < 0) -> p = Term).
    { intros p0 [h|(a & nd & h1 & h2 & h3)]; auto. apply (reg_ok tau KM) in h2; auto.
      pose proof (no_level _ _ _ _ h2). lia. }
    rewrite (Hneg p), (Hneg q); auto.
  - pose proof (ratio_mod k t (S m) p q c HT Hp Hq H) as Hc. pose proof (Cmod_nz c Hc) as Hc0.
    assert (Hchild : forall a nd b nd', reg k t a nd -> nv nd = Z.of_nat m -> reg k t b nd' -> nv nd' = Z.of_nat m ->
       p = Node a -> q = Node b -> a = b).
    { intros a nd b nd' Ha Hva Hb Hvb -> ->.
      apply (node_ratio k t m a nd b nd' c); auto.
      intros i ix Hi. specialize (H (ixset ix m i)).
      rewrite (valp_S_node tau k t m a nd), (valp_S_node tau k t m b nd') in H by auto.
      rewrite ixset_same in H.
      rewrite !(val_local tau k t m _ (ixset ix m i) ix) in H; auto; intros l Hl; apply ixset_other; lia. }
    destruct k.
    + destruct Hp as (a & nd & Hpa & Ha & Hva). destruct Hq as (b & nd' & Hqb & Hb & Hvb).
      rewrite Hpa, Hqb. f_equal. eapply Hchild; eauto.
    + assert (Hcase : forall p, wfp KM t (S m) p ->
         wfp KM t m p \/ exists a nd, p = Node a /\ reg KM t a nd /\ nv nd = Z.of_nat m).
      { intros p0 [h|(a & nd & h1 & h2 & h3)]; [left; now left|].
        destruct (Z.eq_dec (nv nd) (Z.of_nat m)); [right; eauto|left; right; exists a, nd; repeat split; auto; lia || apply h2]. }
      destruct (Hcase p Hp) as [Hpl|(a & nd & Hpa & Ha & Hva)]; destruct (Hcase q Hq) as [Hql|(b & nd' & Hqb & Hb & Hvb)].
      * apply (IH p q c Hpl Hql). intros ix. specialize (H (ixset ix m 0)).
        rewrite !(valp_KM_up tau) in H by auto. rewrite ixset_same in H. cbn [diag4] in H.
        rewrite !(valp_local tau KM t m _ (ixset ix m 0) ix) in H by (intros l Hl; apply ixset_other; lia).
        rewrite !Cmult_1_l in H. exact H.
      * exfalso. apply (node_not_skip t m b nd' p (Cinv c)); auto.
        { intros h. assert (h1 : Cmult c (Cinv c) = RtoC 1) by (field; auto).
          rewrite h in h1. assert (h2 : Cmult c (RtoC 0) = RtoC 0) by ring. rewrite h1 in h2.
          apply (Cmod_nz (RtoC 1)); auto. apply Cmod_1. }
        intros ix. rewrite <- (valp_KM_up tau) by auto. rewrite H, <- Hqb. field. auto.
      * exfalso. apply (node_not_skip t m a nd q c); auto.
        intros ix. rewrite <- (valp_KM_up tau) by auto. rewrite <- Hpa. apply H.
      * rewrite Hpa, Hqb. f_equal. eapply Hchild; eauto.
Qed.

Theorem canon_edge k t n e e' : tau = 0%R -> TInv k t -> wfe k t n e -> wfe k t n e' ->
  (forall ix, val k t n e ix = val k t n e' ix) ->
  e = e' \/ (ew e = c0 /\ ew e' = c0).
Proof.
  intros H0 HT He He' H.
  destruct (edge_ratio k t n HT (canon_ptr k t H0 HT n) e e' (RtoC 1)) as [h1 h2]; auto.
  - apply Cmod_nz, Cmod_1.
  - intros ix. rewrite H. ring.
  - rewrite Cmult_1_l in h1. destruct (Ceq_dec (ew e) (RtoC 0)) as [Hz|Hz].
    + right. split; [exact Hz|]. rewrite <- h1. exact Hz.
    + left. specialize (h2 Hz). destruct e as [w1 p1], e' as [w2 p2]. cbn [ew en] in *. congruence.
Qed.
End Canon.
