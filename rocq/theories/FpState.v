(* FpState.v -- the zero and one states over a rounded arithmetic (follows StateP.v). *)
From Coq Require Import Reals Lra Psatz ZArith Bool List Lia.
From Coquelicot Require Import Complex.
From Verif Require Import Num State DD Gates RNum Wf Sums Err Inv Wp Make Add MulV GateP StateP FpA FpE FpW FpM FpAdd FpMul FpGate.
Import ListNotations.
Open Scope Z_scope.

Section FpState.
Context {NO : NumOps} {AC : Accur NO} {CF : Cfg}.
Notation dl := (@dl NO AC).
Notation Gr := (@Gr NO AC).
Notation Gp := (@Gp NO AC).

Lemma iszero_c0' : iszero c0 = true.
Proof. apply z_0, cv_0. Qed.
Lemma iszero_c1' : iszero c1 = false.
Proof. apply z_1. Qed.
Lemma isone_c0 : isone c0 = false.
Proof. destruct (isone c0) eqn:H; auto. destruct (z_one c0 iszero_c0' H). Qed.
Lemma isone_c1 : isone c1 = true.
Proof. apply eq_refl'. Qed.
(* the node made for a basis state *)
Definition mkV1 (q : Z) (c : bool) (e : edge) : comp :=
  CIntern KV (Nd q (if c then [zeroE; E c1 (en e)] else [E c1 (en e); zeroE])) (fun p =>
     CRead KV p (fun nd => if nv nd =? q then CRet (E (if isone (ew e) then c1 else ew e) p) else CFail)).
Lemma makeVEdge_hi q e0 e1 : ew e0 = c0 -> iszero (ew e1) = false -> makeVEdge q e0 e1 = mkV1 q true e1.
Proof.
  intros H0 H1. unfold makeVEdge, mkV1. rewrite H0, iszero_c0', H1. cbn [andb]. rewrite lt_c0 by auto.
  rewrite cmul_1, H1, H0, div_0, isone_c0, iszero_c0' by auto. reflexivity.
Qed.
Lemma makeVEdge_lo q e0 e1 : ew e1 = c0 -> iszero (ew e0) = false -> makeVEdge q e0 e1 = mkV1 q false e0.
Proof.
  intros H0 H1. unfold makeVEdge, mkV1. rewrite H0, H1, ge_c0. cbn [andb].
  rewrite cmul_1, H1, H0, div_0, isone_c0, iszero_c0' by auto. reflexivity.
Qed.

(* a registered node equal (up to the tolerance) to a basis node is that node *)
Lemma basis_node_eq t (c : bool) q p a nd : TInv KV t -> reg KV t a nd ->
  node_eqb (Nd q (if c then [zeroE; E c1 p] else [E c1 p; zeroE])) nd = true ->
  nd = Nd q (if c then [zeroE; E c1 p] else [E c1 p; zeroE]).
Proof.
  intros HT Hr Heq. pose proof (reg_ok _ _ _ _ HT Hr) as Hok.
  destruct nd as [v ch]. unfold node_eqb in Heq. cbn [nv nch] in Heq. apply andb_prop in Heq as [Hv Heq].
  apply Z.eqb_eq in Hv. subst v.
  assert (Hz : forall x, In x ch -> edge_eqb zeroE x = true -> x = zeroE).
  { intros x Hx He. apply (no_zero _ _ _ Hok x Hx). unfold edge_eqb in He. apply andb_prop in He as [He _]. now apply eq_c0. }
  assert (Hp : forall x, edge_eqb (E c1 p) x = true -> en x = p).
  { intros x He. unfold edge_eqb in He. apply andb_prop in He as [_ He]. apply ptr_eqb_eq in He. auto. }
  assert (Hc : c1 <> (@c0 NO)) by (intros h; pose proof iszero_c1' as h'; rewrite h, iszero_c0' in h'; discriminate).
  destruct (no_max _ _ _ Hok) as (i & Hi & Hw). cbn [nch arity] in *.
  destruct c; cbn [edges_eqb] in Heq; destruct ch as [|x [|y [|]]]; try discriminate; cbn [edges_eqb] in Heq;
    rewrite ?andb_false_r in Heq; try discriminate; rewrite andb_true_r in Heq; apply andb_prop in Heq as [Hx Hy].
  - pose proof (Hz x (or_introl eq_refl) Hx) as ->. f_equal. f_equal. f_equal. destruct y as [wy py].
    pose proof (Hp _ Hy) as h. cbn in h. subst py. f_equal. destruct i as [|[|i]]; [|exact Hw|lia].
    cbn in Hw. exfalso. apply Hc. now symmetry.
  - pose proof (Hz y (or_intror (or_introl eq_refl)) Hy) as ->. f_equal. f_equal. destruct x as [wx px].
    pose proof (Hp _ Hx) as h. cbn in h. subst px. f_equal. destruct i as [|[|i]]; [exact Hw| |lia].
    cbn in Hw. exfalso. apply Hc. now symmetry.
Qed.

(* handle of a basis state *)
Definition isbs (n : nat) (b : nat -> nat) (e : edge) (s : state) : Prop :=
  ew e = c1 /\ wfp KV (tb s KV) n (en e) /\ forall ix, val KV (tb s KV) n e ix = bsF n b ix.
Lemma isbs_stable n b : stable (isbs n b).
Proof.
  intros e s s' HI Hr (H1 & H2 & H3). pose proof (rel_ext _ _ KV Hr) as He. split; [auto|split].
  - eapply wfp_ext; eauto.
  - intros ix. rewrite (val_ext KV (tb s KV)); auto; [apply HI|now left].
Qed.
Lemma isbs_term b s : isbs 0 b oneE s.
Proof. split; [reflexivity|split; [reflexivity|]]. intros ix. unfold FpA.val. cbn. rewrite cv_1. ring. Qed.

Lemma wpr_mkV1 (c : bool) n b e s (Q : post) :
  Inv s -> Z.of_nat n < NQUBITS -> isbs n b e s -> b n = (if c then 1%nat else 0%nat) ->
  (forall e' s', rel s s' -> isbs (S n) b e' s' -> Q e' s') ->
  wpr (mkV1 (Z.of_nat n) c e) Q s.
Proof.
  intros HI Hn (Hw & Hp & Hv) Hb HQ. unfold mkV1. set (nd := Nd (Z.of_nat n) (if c then [zeroE; E c1 (en e)] else [E c1 (en e); zeroE])).
  assert (He : wfe KV (tb s KV) n (E c1 (en e))) by (now left).
  assert (Hz : wfe KV (tb s KV) n zeroE) by apply wfe_zero.
  assert (Hin : forall x, In x (nch nd) -> x = zeroE \/ x = E c1 (en e)).
  { intros x Hx. unfold nd in Hx. cbn in Hx. destruct c; cbn in Hx; intuition. }
  assert (Hok : nodeok KV (tb s KV) nd).
  { constructor.
    - cbn. lia.
    - destruct c; reflexivity.
    - intros x Hx. cbn [nv nd]. rewrite Nat2Z.id. destruct (Hin x Hx) as [->| ->]; auto.
    - intros x Hx. destruct (Hin x Hx) as [->| ->]; cbn [ew zeroE].
      + rewrite cv_0. rewrite Cmod_0. pose proof Gr_ge1. lra.
      + rewrite cv_1. rewrite Cmod_1. pose proof Gr_ge1. lra.
    - intros x Hx Hx0. destruct (Hin x Hx) as [->| ->]; auto. cbn [ew] in Hx0. rewrite iszero_c1' in Hx0. discriminate.
    - destruct c.
      + exists 1%nat. split; [cbn; lia|reflexivity].
      + exists 0%nat. split; [cbn; lia|reflexivity]. }
  apply wpr_intern; auto. intros a nd' s2 Hr Hreg Heq. pose proof (rel_inv _ _ Hr) as HI2.
  apply (basis_node_eq (tb s2 KV) c _ _ a) in Heq; [|apply HI2|auto]. fold nd in Heq. subst nd'.
  apply wpr_read with (nd := nd); auto. cbn [nv nd]. rewrite Z.eqb_refl. rewrite Hw, isone_c1.
  apply wpr_ret. intros s3 Hr3. apply HQ; [eapply rel_trans; eauto|].
  apply (isbs_stable (S n) b _ s2 s3 HI2 Hr3). split; [reflexivity|]. split.
  - exists a, nd. auto.
  - intros ix. rewrite (val_node KV (tb s2 KV) n a nd) by auto. rewrite cv_1. rewrite Cmult_1_l.
    cbn [bsF]. rewrite Hb.
    assert (Hc : val KV (tb s2 KV) n (E c1 (en e)) ix = bsF n b ix).
    { rewrite (val_ext KV (tb s KV)); [|apply HI|apply (rel_ext _ _ KV Hr)|auto]. rewrite <- Hv.
      unfold FpA.val. cbn [ew en]. now rewrite Hw. }
    destruct c; cbn [nch nd]; destruct (ix n) as [|[|i]]; cbn [nth Nat.eqb]; rewrite ?val_zeroE; auto;
      destruct i; cbn [nth]; apply val_zeroE.
Qed.

Lemma wpr_zero_loop n b (Q : post) : (forall l, b l = 0%nat) -> forall cnt i e s, Inv s -> (i + cnt = n)%nat -> Z.of_nat n <= NQUBITS ->
  isbs i b e s -> (forall e' s', rel s s' -> isbs n b e' s' -> Q e' s') ->
  wpr (zero_loop cnt (Z.of_nat i) e) Q s.
Proof.
  intros Hb. induction cnt as [|cnt IH]; intros i e s HI Hi Hn Hbs HQ; cbn [zero_loop].
  - assert (i = n) by lia. subst i. apply wpr_ret. intros s' Hr. apply HQ; auto. now apply (isbs_stable _ _ _ s).
  - apply wpr_bind; auto. destruct Hbs as (Hw & Hbs).
    rewrite makeVEdge_lo; [|reflexivity|rewrite Hw; apply iszero_c1'].
    refine (wpr_mkV1 false i b e s _ HI _ (conj Hw Hbs) (Hb i) _); [lia|].
    intros e' s' Hr He'. replace (Z.of_nat i + 1) with (Z.of_nat (S i)) by lia.
    refine (IH (S i) e' s' (rel_inv _ _ Hr) _ Hn He' _); [lia|]. intros e2 s2 Hr2 H2. apply HQ; auto. eapply rel_trans; eauto.
Qed.
Lemma wpr_one_loop n b (Q : post) : (forall l, (l < n)%nat -> b l = 1%nat) -> forall cnt i e s, Inv s -> (i + cnt = n)%nat -> Z.of_nat n <= NQUBITS ->
  isbs i b e s -> (forall e' s', rel s s' -> isbs n b e' s' -> Q e' s') ->
  wpr (one_loop cnt (Z.of_nat i) e) Q s.
Proof.
  intros Hb. induction cnt as [|cnt IH]; intros i e s HI Hi Hn Hbs HQ; cbn [one_loop].
  - assert (i = n) by lia. subst i. apply wpr_ret. intros s' Hr. apply HQ; auto. now apply (isbs_stable _ _ _ s).
  - apply wpr_bind; auto. destruct Hbs as (Hw & Hbs).
    rewrite makeVEdge_hi; [|reflexivity|rewrite Hw; apply iszero_c1'].
    refine (wpr_mkV1 true i b e s _ HI _ (conj Hw Hbs) (Hb i ltac:(lia)) _); [lia|].
    intros e' s' Hr He'. replace (Z.of_nat i + 1) with (Z.of_nat (S i)) by lia.
    refine (IH (S i) e' s' (rel_inv _ _ Hr) _ Hn He' _); [lia|]. intros e2 s2 Hr2 H2. apply HQ; auto. eapply rel_trans; eauto.
Qed.
Theorem wpr_makeZeroState n b s (Q : post) : Inv s -> (1 <= n)%nat -> Z.of_nat n <= NQUBITS -> (forall l, b l = 0%nat) ->
  (forall e' s', rel s s' -> isbs n b e' s' -> Q e' s') -> wpr (makeZeroState n) Q s.
Proof.
  intros HI Hn1 Hn Hb HQ. unfold makeZeroState. apply wpr_bind; auto.
  change 1 with (Z.of_nat 1). change (makeVEdge 0) with (makeVEdge (Z.of_nat 0)).
  rewrite makeVEdge_lo; [|reflexivity|exact iszero_c1'].
  refine (wpr_mkV1 false 0 b oneE s _ HI _ (isbs_term b s) (Hb _) _); [cbn; lia|].
  intros e s' Hr He. apply (wpr_zero_loop n b Q Hb (n - 1) 1 e s'); auto; [apply (rel_inv _ _ Hr)|lia|].
  intros e2 s2 Hr2 H2. apply HQ; auto. eapply rel_trans; eauto.
Qed.
Theorem wpr_makeOneState n b s (Q : post) : Inv s -> (1 <= n)%nat -> Z.of_nat n <= NQUBITS -> (forall l, (l < n)%nat -> b l = 1%nat) ->
  (forall e' s', rel s s' -> isbs n b e' s' -> Q e' s') -> wpr (makeOneState n) Q s.
Proof.
  intros HI Hn1 Hn Hb HQ. unfold makeOneState. apply wpr_bind; auto.
  change 1 with (Z.of_nat 1). change (makeVEdge 0) with (makeVEdge (Z.of_nat 0)).
  rewrite makeVEdge_hi; [|reflexivity|exact iszero_c1'].
  refine (wpr_mkV1 true 0 b oneE s _ HI _ (isbs_term b s) (Hb _ _) _); [cbn; lia|lia|].
  intros e s' Hr He. apply (wpr_one_loop n b Q Hb (n - 1) 1 e s'); auto; [apply (rel_inv _ _ Hr)|lia|].
  intros e2 s2 Hr2 H2. apply HQ; auto. eapply rel_trans; eauto.
Qed.

End FpState.
