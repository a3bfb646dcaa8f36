(* MulV.v -- mv_multiply2 / mv_multiply compute the matrix-vector product. *)
From Coq Require Import Reals Lra Psatz ZArith Bool List Lia FunctionalExtensionality.
From Coquelicot Require Import Complex.
From Verif Require Import Num State DD RNum Wf Sums Err Inv Wp Make Add.
Import ListNotations.
Open Scope Z_scope.

Definition blk (F : (nat -> nat) -> C) (m i : nat) : (nat -> nat) -> C := fun ix => F (ixset ix m i).
Lemma comb_ixset ix k m j : comb ix (ixset k m j) = ixset (comb ix k) m (2 * ix m + j).
Proof.
  apply functional_extensionality. intros l. unfold comb, ixset.
  destruct (Nat.eqb_spec l m); subst; lia.
Qed.
Lemma mvF_S m F G ix :
  mvF (S m) F G ix = Cplus (mvF m (blk F m (2 * ix m)) (blk G m 0) ix)
                           (mvF m (blk F m (2 * ix m + 1)) (blk G m 1) ix).
Proof.
  unfold mvF. cbn [bsum]. f_equal; apply bsum_ext; intros k; unfold blk; rewrite comb_ixset; do 2 f_equal; f_equal; lia.
Qed.
Lemma mvF_ext m F F' G G' ix : (forall k, F k = F' k) -> (forall k, G k = G' k) -> mvF m F G ix = mvF m F' G' ix.
Proof. intros H1 H2. unfold mvF. apply bsum_ext. intros k. now rewrite H1, H2. Qed.
Lemma mvF_scal m a b F G ix : mvF m (fun k => Cmult a (F k)) (fun k => Cmult b (G k)) ix = Cmult (Cmult a b) (mvF m F G ix).
Proof. unfold mvF. rewrite <- bsum_scal. apply bsum_ext. intros k. ring. Qed.
Lemma mvF_bound m F G ix a b : (0 <= a)%R -> (forall k, Cmod (F k) <= a)%R -> (forall k, Cmod (G k) <= b)%R ->
  (Cmod (mvF m F G ix) <= 2 ^ m * (a * b))%R.
Proof.
  intros Ha H1 H2. unfold mvF. apply bsum_bound. intros k. rewrite Cmod_mult.
  apply Rmult_le_compat; auto using Cmod_ge_0.
Qed.

Section MulV.
Context (tau : R) {HTol : Tol tau}.
Let Htau : (0 <= tau < 1 / 2)%R := tol_ok.
#[local] Hint Extern 0 NumOps => exact (RNum tau) : typeclass_instances.
Context {CF : Cfg}.
Notation table := (@table (RNum tau)).
Notation state := (@state (RNum tau)).
Notation edge := (@edge (RNum tau)).
Notation node := (@node (RNum tau)).
Notation val := (val tau).
Notation valp := (valp tau).
Notation wfe := (wfe tau).
Notation wfp := (wfp tau).
Notation reg := (reg tau).
Notation TInv := (TInv tau).
Notation Inv := (Inv tau).
Notation rel := (rel tau).
Notation eps := (eps tau).
Notation dn := (dn tau).
Notation E := (@E (RNum tau)).

Lemma valp_val k t n p ix : val k t n (E c1 p) ix = valp k t n p ix.
Proof. unfold Wf.val. cbn [ew en]. change (@c1 (RNum tau)) with (RtoC 1). ring. Qed.

(* block i of a matrix pointer, as an edge one level down *)
Lemma mchild1_spec t m (e : edge) a nd i : TInv KM t -> en e = Node a -> reg KM t a nd -> nv nd < Z.of_nat (S m) ->
  (i < 4)%nat ->
  let x := mchild1 (Z.of_nat m) e nd i in
  wfe KM t m x /\ (forall ix, val KM t m x ix = blk (valp KM t (S m) (en e)) m i ix) /\ (Cmod (ew x) <= 1)%R.
Proof.
  intros HT Hen Hr Hv Hi. unfold mchild1. rewrite Hen. cbn [is_term negb]. rewrite andb_true_r.
  pose proof (reg_ok tau KM _ _ _ HT Hr) as Hok. pose proof (no_len _ _ _ _ Hok) as Hlen. cbn in Hlen.
  unfold blk. destruct (nv nd =? Z.of_nat m) eqn:Hc.
  - apply Z.eqb_eq in Hc. rewrite (nth_indep (nch nd) nullE zeroE) by (rewrite Hlen; lia).
    pose proof (reg_child tau KM t a nd i HT Hr) as H. rewrite Hc, Nat2Z.id in H.
    split; [exact H|]. split; [|now apply (reg_child_le1 tau KM t a nd)].
    intros ix. rewrite (valp_S_node tau KM t m a nd) by auto. rewrite ixset_same.
    apply val_local. intros l Hl. symmetry. apply ixset_other. lia.
  - apply Z.eqb_neq in Hc.
    assert (Hp : wfp KM t m (Node a)) by (right; exists a, nd; split; auto; split; auto; lia).
    assert (Hup : forall ix, valp KM t (S m) (Node a) (ixset ix m i) = Cmult (diag4 i) (valp KM t m (Node a) ix)).
    { intros ix. rewrite (valp_KM_up tau) by auto. rewrite ixset_same. f_equal.
      apply valp_local. intros l Hl. apply ixset_other. lia. }
    assert (Hz : wfe KM t m zeroE /\ (forall ix, val KM t m zeroE ix = Cmult (RtoC 0) (valp KM t m (Node a) ix)) /\
                 (Cmod (ew (@zeroE (RNum tau))) <= 1)%R).
    { split; [apply wfe_zero|]. split; [intros; rewrite val_zeroE; ring|]. cbn. change (Cmod (RtoC 0) <= 1)%R.
      rewrite Cmod_0; lra. }
    assert (Ho : wfe KM t m (E c1 (Node a)) /\ (forall ix, val KM t m (E c1 (Node a)) ix = Cmult (RtoC 1) (valp KM t m (Node a) ix)) /\
                 (Cmod (ew (E c1 (Node a))) <= 1)%R).
    { split; [now left|]. split; [intros; rewrite valp_val; ring|]. cbn. change (Cmod (RtoC 1) <= 1)%R.
      rewrite Cmod_1; lra. }
    destruct i as [|[|[|[|i]]]]; try lia;
      (split; [apply Hz || apply Ho|]; split; [intros ix; rewrite Hup; apply Hz || apply Ho|apply Hz || apply Ho]).
Qed.
Lemma vchild1_spec t m (e : edge) a nd i : TInv KV t -> en e = Node a -> reg KV t a nd -> nv nd = Z.of_nat m ->
  (i < 2)%nat ->
  let x := vchild1 (Z.of_nat m) e nd i in
  wfe KV t m x /\ (forall ix, val KV t m x ix = blk (valp KV t (S m) (en e)) m i ix) /\ (Cmod (ew x) <= 1)%R.
Proof.
  intros HT Hen Hr Hc Hi. unfold vchild1. rewrite Hen, Hc, Z.eqb_refl. cbn [is_term negb andb].
  pose proof (reg_ok tau KV _ _ _ HT Hr) as Hok. pose proof (no_len _ _ _ _ Hok) as Hlen. cbn in Hlen.
  rewrite (nth_indep (nch nd) nullE zeroE) by (rewrite Hlen; lia).
  pose proof (reg_child tau KV t a nd i HT Hr) as H. rewrite Hc, Nat2Z.id in H.
  split; [exact H|]. split; [|now apply (reg_child_le1 tau KV t a nd)].
  intros ix. unfold blk. rewrite (valp_S_node tau KV t m a nd) by auto. rewrite ixset_same.
  apply val_local. intros l Hl. symmetry. apply ixset_other. lia.
Qed.

(* vector amplitudes with a child index >= 2 are 0 *)
Lemma val_KV_S t m e i ix : TInv KV t -> wfe KV t (S m) e -> 
  exists c, (wfe KV t m c /\ forall k, val KV t (S m) e (ixset k m i) = Cmult (ew e) (val KV t m c k)) /\
            ((2 <= i)%nat -> c = zeroE) /\ (ix m = i -> val KV t (S m) e ix = Cmult (ew e) (val KV t m c ix)).
Proof.
  intros HT [H|[H1 H2]].
  - destruct H as (a & nd & Hen & Hr & Hv).
    pose proof (reg_ok tau KV _ _ _ HT Hr) as Hok. pose proof (no_len _ _ _ _ Hok) as Hlen. cbn in Hlen.
    exists (nth i (nch nd) zeroE). pose proof (reg_child tau KV t a nd i HT Hr) as Hc. rewrite Hv, Nat2Z.id in Hc.
    split; [split; [exact Hc|]|split].
    + intros k. unfold Wf.val at 1. rewrite Hen, (valp_S_node tau KV t m a nd) by auto. rewrite ixset_same. f_equal.
      apply val_local. intros l Hl. apply ixset_other. lia.
    + intros Hi. apply nth_overflow. lia.
    + intros <-. unfold Wf.val at 1. rewrite Hen, (valp_S_node tau KV t m a nd) by auto. reflexivity.
  - exists zeroE. split; [split; [apply wfe_zero|]|split; auto].
    + intros k. rewrite (val_zw tau) by auto. rewrite val_zeroE. ring.
    + intros _. rewrite (val_zw tau) by auto. rewrite val_zeroE. ring.
Qed.

(* the terminal is the identity *)
Lemma mvF_ident tm t n : TInv KV t -> forall e ix, wfe KV t n e ->
  mvF n (valp KM tm n Term) (val KV t n e) ix = val KV t n e ix.
Proof.
  intros HT. induction n as [|m IH]; intros e ix He.
  - unfold mvF. cbn [bsum]. unfold Wf.val. cbn. ring.
  - rewrite mvF_S.
    assert (Hb : forall i k, blk (valp KM tm (S m) Term) m i k = Cmult (diag4 i) (valp KM tm m Term k)).
    { intros i k. unfold blk. rewrite valp_S_term, ixset_same. cbn [skipf]. f_equal.
      apply valp_local. intros l Hl. apply ixset_other. lia. }
    assert (Hrow : forall i j, exists c, wfe KV t m c /\
              mvF m (blk (valp KM tm (S m) Term) m i) (blk (val KV t (S m) e) m j) ix =
              Cmult (diag4 i) (Cmult (ew e) (val KV t m c ix)) /\
              ((2 <= j)%nat -> c = zeroE) /\ (ix m = j -> val KV t (S m) e ix = Cmult (ew e) (val KV t m c ix))).
    { intros i j. destruct (val_KV_S t m e j ix HT He) as (c & (Hc1 & Hc2) & Hc3 & Hc4).
      exists c. split; auto. split; [|auto].
      rewrite (mvF_ext m _ (fun k => Cmult (diag4 i) (valp KM tm m Term k)) _ (fun k => Cmult (ew e) (val KV t m c k))) by auto.
      rewrite mvF_scal, IH by auto. ring. }
    destruct (Hrow (2 * ix m)%nat 0%nat) as (x0 & _ & -> & _ & H0).
    destruct (Hrow (2 * ix m + 1)%nat 1%nat) as (x1 & _ & -> & _ & H1).
    destruct (ix m) as [|[|i]] eqn:Hix.
    + rewrite H0 by auto. cbn [diag4 Nat.mul Nat.add]. ring.
    + rewrite H1 by auto. cbn [diag4 Nat.mul Nat.add]. ring.
    + assert (Hd : forall j, (4 <= j)%nat -> diag4 j = RtoC 0) by (intros [|[|[|[|j]]]] Hj; auto; lia).
      rewrite !Hd by lia.
      destruct (val_KV_S t m e (S (S i)) ix HT He) as (c & _ & Hc3 & Hc4).
      rewrite Hc4, Hc3, val_zeroE by (auto; lia). ring.
Qed.

(* rescaling a unit-weight product *)
Lemma rescale_bound k s n res (l r : edge) U mu w' :
  Inv s -> dn k n U mu res s -> (0 <= mu)%R ->
  let w := Cmult (Cmult (ew res) (ew l)) (ew r) in
  (w' = zeroE /\ (iszero (ew res) = true \/ iszero w = true)) \/
  (exists x : C, w' = E x (en res) /\ (Cmod (Cminus x w) <= eps)%R /\ iszero w = false) ->
  dn k n (fun ix => Cmult (Cmult (ew l) (ew r)) (U ix))
     ((mu + eps) * (Cmod (ew l) * Cmod (ew r)) + eps) w' s.
Proof.
  intros HI [Hw Hd] Hmu w Hcase. pose proof (eps_pos tau) as He.
  pose proof (Cmod_ge_0 (ew l)) as Hl. pose proof (Cmod_ge_0 (ew r)) as Hr.
  assert (Hlr : (0 <= Cmod (ew l) * Cmod (ew r))%R) by (apply Rmult_le_pos; auto).
  set (v := fun ix => valp k (tb s k) n (en res) ix).
  assert (Hv1 : forall ix, (Cmod (v ix) <= 1)%R).
  { intros ix. apply (valp_le1 tau); [apply HI|]. destruct Hw as [|[_ ?]]; auto. }
  (* error of the exact rescaled value *)
  assert (Hex : forall ix, (Cmod (Cminus (Cmult w (v ix)) (Cmult (Cmult (ew l) (ew r)) (U ix)))
                 <= mu * (Cmod (ew l) * Cmod (ew r)))%R).
  { intros ix. replace (Cminus (Cmult w (v ix)) (Cmult (Cmult (ew l) (ew r)) (U ix)))
      with (Cmult (Cmult (ew l) (ew r)) (Cminus (Cmult (ew res) (v ix)) (U ix))) by (unfold w; ring).
    rewrite !Cmod_mult. rewrite (Rmult_comm mu). apply Rmult_le_compat_l; auto. apply Hd. }
  destruct Hcase as [[-> Hz]|(x & -> & Hx & Hnz)].
  - split; [apply wfe_zero|]. intros ix. rewrite val_zeroE.
    assert (Hwz : (Cmod w <= eps * (Cmod (ew l) * Cmod (ew r)) \/ Cmod w <= eps)%R).
    { destruct Hz as [Hz|Hz]; apply iszero_true in Hz; [left|right]; [|exact Hz].
      unfold w. rewrite !Cmod_mult, Rmult_assoc. apply Rmult_le_compat_r; auto. }
    replace (Cminus (RtoC 0) (Cmult (Cmult (ew l) (ew r)) (U ix))) with
      (Cplus (Cminus (Cmult w (v ix)) (Cmult (Cmult (ew l) (ew r)) (U ix))) (Copp (Cmult w (v ix)))) by ring.
    eapply Rle_trans; [apply Cmod_triangle|]. rewrite Cmod_opp. specialize (Hex ix). rewrite Cmod_mult.
    specialize (Hv1 ix). pose proof (Cmod_ge_0 w). pose proof (Cmod_ge_0 (v ix)).
    assert (Cmod w * Cmod (v ix) <= Cmod w)%R by nra.
    assert (0 <= eps * (Cmod (ew l) * Cmod (ew r)))%R by (apply Rmult_le_pos; auto).
    destruct Hwz; lra.
  - split.
    + left. cbn [en]. eapply wfe_nz; [exact Hw|].
      intros h. unfold w in Hnz. rewrite h in Hnz. change (@c0 (RNum tau)) with (RtoC 0) in Hnz.
      replace (Cmult (Cmult (RtoC 0) (ew l)) (ew r)) with (RtoC 0) in Hnz by ring.
      change (RtoC 0) with (@c0 (RNum tau)) in Hnz. rewrite iszero_c0 in Hnz by lra. discriminate.
    + intros ix. unfold Wf.val. cbn [ew en]. fold (v ix).
      replace (Cminus (Cmult x (v ix)) (Cmult (Cmult (ew l) (ew r)) (U ix))) with
        (Cplus (Cminus (Cmult w (v ix)) (Cmult (Cmult (ew l) (ew r)) (U ix))) (Cmult (Cminus x w) (v ix))) by ring.
      eapply Rle_trans; [apply Cmod_triangle|]. rewrite (Cmod_mult (Cminus x w)). specialize (Hex ix).
      specialize (Hv1 ix). pose proof (Cmod_ge_0 (Cminus x w)). pose proof (Cmod_ge_0 (v ix)).
      assert (Cmod (Cminus x w) * Cmod (v ix) <= eps)%R by nra.
      assert (0 <= eps * (Cmod (ew l) * Cmod (ew r)))%R by (apply Rmult_le_pos; auto). lra.
Qed.
Lemma rescale_hit_bound k s n res (l r : edge) U mu :
  Inv s -> dn k n U mu res s -> (0 <= mu)%R ->
  dn k n (fun ix => Cmult (Cmult (ew l) (ew r)) (U ix))
     ((mu + eps) * (Cmod (ew l) * Cmod (ew r)) + eps) (rescale_hit res l r) s.
Proof.
  intros HI Hd Hmu. apply (rescale_bound k s n res l r U mu _ HI Hd Hmu). unfold rescale_hit.
  change (cmul (cmul (ew res) (ew l)) (ew r)) with (Cmult (Cmult (ew res) (ew l)) (ew r)).
  destruct (iszero (ew res)) eqn:H1; [left; auto|].
  set (w := Cmult (Cmult (ew res) (ew l)) (ew r)). destruct (@iszero (RNum tau) w) eqn:H2; [left; auto|]. right. eexists. split; [reflexivity|]. split; auto.
  match goal with |- (Cmod (Cminus ?x ?y) <= _)%R => replace (Cminus x y) with (RtoC 0) by ring end.
  rewrite Cmod_0. apply (eps_pos tau).
Qed.
Lemma rescale_new_bound k s n res (l r : edge) U mu :
  Inv s -> dn k n U mu res s -> (0 <= mu)%R ->
  dn k n (fun ix => Cmult (Cmult (ew l) (ew r)) (U ix))
     ((mu + eps) * (Cmod (ew l) * Cmod (ew r)) + eps) (rescale_new res l r) s.
Proof.
  intros HI Hd Hmu. apply (rescale_bound k s n res l r U mu _ HI Hd Hmu). unfold rescale_new.
  change (cmul (cmul (ew res) (ew l)) (ew r)) with (Cmult (Cmult (ew res) (ew l)) (ew r)).
  set (w := Cmult (Cmult (ew res) (ew l)) (ew r)). destruct (@iszero (RNum tau) w) eqn:H2; [left; auto|]. right. eexists. split; [reflexivity|]. split; auto.
  apply (round_one tau).
Qed.

(* half of the product: row i of blocks *)
Definition halfF (m : nat) (F G : (nat -> nat) -> C) (i : nat) (ix : nat -> nat) : C :=
  Cplus (mvF m (blk F m (2 * i)) (blk G m 0) ix) (mvF m (blk F m (2 * i + 1)) (blk G m 1) ix).
Definition half_err (m : nat) : R :=
  let p := mvbound tau (emul tau m) m 1 1 in
  (2 * p + eadd tau m (2 * (2 ^ m + p)))%R.

Lemma emul_S m : emul tau (S m) = (half_err m + mkerr tau (2 ^ (S m) + half_err m))%R.
Proof. reflexivity. Qed.
Lemma half_err_pos m : (0 <= half_err m)%R.
Proof.
  unfold half_err. pose proof (mvbound_pos tau (emul tau m) m 1 1 (emul_pos tau m) ltac:(lra) ltac:(lra)).
  pose proof (pow2_ge1 tau m).
  pose proof (eadd_pos tau m (2 * (2 ^ m + mvbound tau (emul tau m) m 1 1)) ltac:(lra)). cbn zeta. lra.
Qed.

Theorem wpr_mv_multiply2 lim n : forall s l r F G,
  Inv s -> Z.of_nat n <= NQUBITS -> wfe KM (tb s KM) n l -> wfe KV (tb s KV) n r ->
  (forall ix, val KM (tb s KM) n l ix = F ix) -> (forall ix, val KV (tb s KV) n r ix = G ix) ->
  wpr tau (mv_multiply2 lim n l r) (dn KV n (mvF n F G) (emv tau n (Cmod (ew l)) (Cmod (ew r)))) s.
Proof.
  pose proof (eps_pos tau) as Heps.
  induction n as [|m IH]; intros s l r F G HI Hn Hl Hr HF HG;
    pose proof (Cmod_ge_0 (ew l)) as Hl0; pose proof (Cmod_ge_0 (ew r)) as Hr0;
    match goal with |- wpr _ (mv_multiply2 _ ?nn _ _) _ _ => set (LN := nn) in * end;
    assert (HTV : TInv KV (tb s KV)) by apply HI;
    assert (HTM : TInv KM (tb s KM)) by apply HI;
    assert (HFl : forall ix, (Cmod (F ix) <= Cmod (ew l))%R)
      by (intros ix; rewrite <- HF; apply (val_le tau); auto);
    assert (HGr : forall ix, (Cmod (G ix) <= Cmod (ew r))%R)
      by (intros ix; rewrite <- HG; apply (val_le tau); auto);
    assert (Hzero : iszero (ew l) = true \/ iszero (ew r) = true ->
         wpr tau (CRet zeroE) (dn KV LN (mvF LN F G) (emv tau LN (Cmod (ew l)) (Cmod (ew r)))) s).
  1,3: intros Hz; apply (wpr_ret tau); intros s' Hr'; eapply (dn_stable tau); eauto; split; [apply wfe_zero|];
    intros ix; rewrite val_zeroE; rewrite <- Cmod_opp;
    replace (Copp (Cminus (RtoC 0) (mvF LN F G ix))) with (mvF LN F G ix) by ring;
    eapply Rle_trans; [apply (mvF_bound LN F G ix _ _ Hl0 HFl HGr)|];
    pose proof (pow2_ge1 tau LN) as Hp2; pose proof (emul_pos tau LN) as Hep;
    unfold emv, mvbound;
    assert (Hlr : (0 <= (emul tau LN + eps) * (Cmod (ew l) * Cmod (ew r)))%R)
      by (apply Rmult_le_pos; [lra|apply Rmult_le_pos; lra]);
    assert (Hab : (Cmod (ew l) * Cmod (ew r) <= eps * (Cmod (ew l) + Cmod (ew r)))%R)
      by (destruct Hz as [Hz|Hz]; apply iszero_true in Hz; change (2 * tau)%R with eps in Hz; nra);
    assert (2 ^ LN * (Cmod (ew l) * Cmod (ew r)) <= 2 ^ LN * (eps * (Cmod (ew l) + Cmod (ew r))))%R
      by (apply Rmult_le_compat_l; lra); lra.
  all: assert (Hterm : en l = Term ->
         wpr tau (CRet (E (cmul (ew r) (ew l)) (en r))) (dn KV LN (mvF LN F G) (emv tau LN (Cmod (ew l)) (Cmod (ew r)))) s).
  1,3: intros Ht; apply (wpr_ret tau); intros s' Hr'; eapply (dn_stable tau); eauto;
    apply (dnt_weaken tau) with (err := 0%R); [now apply emv_pos|];
    apply (dnt_of_exact tau); [apply (wfe_scale_r tau); auto|]; intros ix;
    rewrite (mvF_ext LN F (fun k => Cmult (ew l) (valp KM (tb s KM) LN Term k)) G (fun k => Cmult (RtoC 1) (val KV (tb s KV) LN r k)));
    [rewrite mvF_scal, mvF_ident by auto; unfold Wf.val; cbn [ew en]; rewrite cmul_C; ring
    |intros k; rewrite <- HF; unfold Wf.val; now rewrite Ht
    |intros k; rewrite HG; ring].
  all: subst LN; cbn [mv_multiply2].
  all: destruct (edge_eqb l zeroE) eqn:Hlz;
    [apply Hzero; left; apply andb_prop in Hlz as [Hlz _];
     destruct (ew l) as [wa wb]; revert Hlz; unfold isequal, iszero; cbn; rewrite !Rminus_0_r; intros Hlz;
     apply orb_prop in Hlz as [Hlz|Hlz]; auto; apply andb_prop in Hlz as [h1 h2];
     apply Reqb_true in h1, h2; subst; rewrite Rabs_R0; apply andb_true_intro; split; apply Rleb_true; lra|].
  all: destruct (is_term (en l)) eqn:Hlt; [apply Hterm; clear - Hlt; destruct (en l); (discriminate Hlt || auto)|].
  all: destruct (iszero (ew l)) eqn:Hzl; [apply Hzero; auto|].
  all: destruct (iszero (ew r)) eqn:Hzr; [apply Hzero; auto|].
  all: cbn [orb].
  all: assert (Hlp : wfp KM (tb s KM) _ (en l)) by
     (apply (wfe_nz tau) in Hl; [exact Hl|intros h; rewrite (iszero_0 tau _ (proj1 Htau) h) in Hzl; discriminate]).
  - (* level 0: a matrix edge is terminal *)
    exfalso. destruct Hlp as [h|(a & nd & h1 & h2 & h3)]; [rewrite h in Hlt; discriminate|].
    apply (reg_ok tau KM) in h2; auto. pose proof (no_level _ _ _ _ h2). lia.
  - destruct Hlp as [h|(la & lnd & Hel & Hrl & Hvl)]; [rewrite h in Hlt; discriminate|].
    destruct (wfe_KV_node tau _ _ _ Hr Hzr) as (ra & rnd & Her & Hrr & Hvr).
    assert (Hm : Z.of_nat m < NQUBITS) by lia.
    set (U := valp KM (tb s KM) (S m) (en l)). set (V := valp KV (tb s KV) (S m) (en r)).
    assert (HU1 : forall k, (Cmod (U k) <= 1)%R).
    { intros k. apply (valp_le1 tau); auto. left. right. exists la, lnd; auto. }
    assert (HV1 : forall k, (Cmod (V k) <= 1)%R).
    { intros k. apply (valp_le1 tau); auto. left. exists ra, rnd; auto. }
    assert (HFU : forall ix, mvF (S m) F G ix = Cmult (Cmult (ew l) (ew r)) (mvF (S m) U V ix)).
    { intros ix. rewrite <- mvF_scal. apply mvF_ext; intros k; [rewrite <- HF|rewrite <- HG]; reflexivity. }
    assert (Hfinal : forall res s', rel s s' ->
        dn KV (S m) (fun ix => Cmult (Cmult (ew l) (ew r)) (mvF (S m) U V ix))
           ((emul tau (S m) + eps) * (Cmod (ew l) * Cmod (ew r)) + eps) res s' ->
        dn KV (S m) (mvF (S m) F G) (emv tau (S m) (Cmod (ew l)) (Cmod (ew r))) res s').
    { intros res s' _ Hd. eapply (dnt_F tau); [intros ix; symmetry; apply HFU|].
      eapply (dnt_weaken tau); [|exact Hd]. unfold emv, mvbound.
      pose proof (pow2_ge1 tau (S m)).
      assert (0 <= 2 ^ S m * eps * (Cmod (ew l) + Cmod (ew r)))%R by (apply Rmult_le_pos; [apply Rmult_le_pos; [apply pow_le; lra|lra]|lra]). lra. }
    (* the two halves *)
    assert (Hhalf : forall i f Q s1, (i < 2)%nat -> rel s s1 ->
       (forall e s2, rel s1 s2 -> dn KV m (halfF m U V i) (half_err m) e s2 -> wpr tau (f e) Q s2) ->
       wpr tau (fork2 lim (Z.of_nat m)
                  (mv_multiply2 lim m (mchild1 (Z.of_nat m) l lnd (2 * i)) (vchild1 (Z.of_nat m) r rnd 0))
                  (mv_multiply2 lim m (mchild1 (Z.of_nat m) l lnd (2 * i + 1)) (vchild1 (Z.of_nat m) r rnd 1))
                  (fun p0 p1 => bind (vv_add2 lim m p0 p1) f)) Q s1).
    { intros i f Q s1 Hi Hr1 Hf. pose proof (rel_inv _ _ _ Hr1) as HI1.
      assert (HT1V : TInv KV (tb s1 KV)) by apply HI1. assert (HT1M : TInv KM (tb s1 KM)) by apply HI1.
      assert (HeV : ext tau KV (tb s KV) (tb s1 KV)) by apply (rel_ext _ _ _ KV Hr1).
      assert (HeM : ext tau KM (tb s KM) (tb s1 KM)) by apply (rel_ext _ _ _ KM Hr1).
      set (P := mvbound tau (emul tau m) m 1 1).
      assert (HP : (0 <= P)%R) by (apply (mvbound_pos tau); try lra; apply (emul_pos tau)).
      set (T := fun ib j => mvF m (blk U m ib) (blk V m j)).
      assert (Hsub : forall ib j, (ib < 4)%nat -> (j < 2)%nat ->
        wpr tau (mv_multiply2 lim m (mchild1 (Z.of_nat m) l lnd ib) (vchild1 (Z.of_nat m) r rnd j))
          (dn KV m (T ib j) P) s1).
      { intros ib j Hib Hj.
        destruct (mchild1_spec _ m l la lnd ib HT1M Hel (HeM _ _ Hrl) Hvl Hib) as (Hw1 & Hv1 & Hm1).
        destruct (vchild1_spec _ m r ra rnd j HT1V Her (HeV _ _ Hrr) Hvr Hj) as (Hw2 & Hv2 & Hm2).
        eapply (wpr_mono tau); [auto| |apply (IH s1 _ _ (blk U m ib) (blk V m j)); auto; try lia].
        - intros e s2 _ Hd. eapply (dnt_weaken tau); [|exact Hd]. apply (emv_mono tau); split; auto using Cmod_ge_0.
        - intros ix. rewrite Hv1. unfold blk, U. apply (valp_ext tau); auto. right. exists la, lnd. rewrite Hel; auto.
        - intros ix. rewrite Hv2. unfold blk, V. apply (valp_ext tau); auto. exists ra, rnd. rewrite Her; auto. }
      eapply (wpr_fork2 tau); [auto|apply (dn_stable tau)|apply (dn_stable tau)
        |apply (Hsub (2 * i)%nat 0%nat); lia|apply (Hsub (2 * i + 1)%nat 1%nat); lia|].
      intros p0 p1 s2 Hr2 Hd0 Hd1. pose proof (rel_inv _ _ _ Hr2) as HI2.
      assert (HT2 : TInv KV (tb s2 KV)) by apply HI2.
      assert (HTb : forall ib j ix, (Cmod (T ib j ix) <= 2 ^ m)%R).
      { intros ib j ix. unfold T. eapply Rle_trans; [apply (mvF_bound m _ _ ix 1 1)|]; try lra;
          intros k; unfold blk; auto. }
      pose proof (dnt_wbound tau _ _ _ _ _ _ _ HT2 Hd0 (HTb (2 * i)%nat 0%nat)) as HW0.
      pose proof (dnt_wbound tau _ _ _ _ _ _ _ HT2 Hd1 (HTb (2 * i + 1)%nat 1%nat)) as HW1.
      apply (wpr_bind tau); auto.
      eapply (wpr_mono tau); [auto| |apply (wpr_vv_add2 tau lim m s2 p0 p1
         (val KV (tb s2 KV) m p0) (val KV (tb s2 KV) m p1)); auto; [lia|apply Hd0|apply Hd1]].
      intros e s3 Hr3 Hd. apply Hf; [eapply rel_trans; eauto|].
      unfold half_err. cbn zeta. fold P. rewrite Rplus_comm.
      eapply (dnt_err tau); [|eapply (dnt_weaken tau); [|exact Hd]].
      - intros ix. unfold halfF. fold (T (2 * i)%nat 0%nat ix). fold (T (2 * i + 1)%nat 1%nat ix).
        match goal with |- (Cmod (Cminus (Cplus ?x ?y) (Cplus ?u ?v)) <= _)%R =>
          replace (Cminus (Cplus x y) (Cplus u v)) with (Cplus (Cminus x u) (Cminus y v)) by ring end.
        eapply Rle_trans; [apply Cmod_triangle|].
        destruct Hd0 as [_ Hd0]. destruct Hd1 as [_ Hd1]. specialize (Hd0 ix); specialize (Hd1 ix).
        replace (2 * P)%R with (P + P)%R by ring. now apply Rplus_le_compat.
      - apply (eadd_mono tau). pose proof (Cmod_ge_0 (ew p0)). pose proof (Cmod_ge_0 (ew p1)). lra. }
    intros s1 Hr1 i. pose proof (rel_inv _ _ _ Hr1) as HI1.
    assert (HeV : ext tau KV (tb s KV) (tb s1 KV)) by apply (rel_ext _ _ _ KV Hr1).
    assert (HeM : ext tau KM (tb s KM) (tb s1 KM)) by apply (rel_ext _ _ _ KM Hr1).
    destruct (mfind_spec tau KV i (en l) (en r) s1 la lnd HI1 Hel (HeM _ _ Hrl)) as (res & s2 & Hfind & Hr2 & Hcase).
    exists res, s2. split; auto. split; auto. pose proof (rel_inv _ _ _ Hr2) as HI2.
    assert (Hr02 : rel s s2) by (eapply rel_trans; eauto).
    assert (He2V : ext tau KV (tb s KV) (tb s2 KV)) by apply (rel_ext _ _ _ KV Hr02).
    assert (He2M : ext tau KM (tb s KM) (tb s2 KM)) by apply (rel_ext _ _ _ KM Hr02).
    destruct Hcase as [->|(e & Hml & Hmr & Hmres & Hent)].
    + (* miss *)
      cbn [en nullE is_null negb]. rewrite Hel, Her.
      apply (wpr_read tau) with (nd := lnd); auto. apply (wpr_read tau) with (nd := rnd); auto.
      rewrite <- Hel, <- Her.
      apply (Hhalf 0%nat); auto. intros e0 s3 Hr3 Hd0. pose proof (rel_inv _ _ _ Hr3) as HI3.
      assert (Hr03 : rel s s3) by (eapply rel_trans; eauto).
      apply (Hhalf 1%nat); auto. intros e1 s4 Hr4 Hd1. pose proof (rel_inv _ _ _ Hr4) as HI4.
      assert (Hr04 : rel s s4) by (eapply rel_trans; eauto).
      pose proof (dn_stable tau _ _ _ _ _ _ _ HI3 Hr4 Hd0) as Hd0'.
      assert (HT4 : TInv KV (tb s4 KV)) by apply HI4.
      assert (Hhb : forall ii ix, (Cmod (halfF m U V ii ix) <= 2 ^ S m)%R).
      { intros ii ix. unfold halfF. eapply Rle_trans; [apply Cmod_triangle|].
        assert (Hb : forall ib j, (Cmod (mvF m (blk U m ib) (blk V m j) ix) <= 2 ^ m)%R).
        { intros ib j. eapply Rle_trans; [apply (mvF_bound m _ _ ix 1 1)|]; try lra; intros k; unfold blk; auto. }
        pose proof (Hb (2 * ii)%nat 0%nat). pose proof (Hb (2 * ii + 1)%nat 1%nat).
        change (2 ^ S m)%R with (2 * 2 ^ m)%R. lra. }
      pose proof (dnt_wbound tau _ _ _ _ _ _ _ HT4 Hd0' (Hhb 0%nat)) as HW0.
      pose proof (dnt_wbound tau _ _ _ _ _ _ _ HT4 Hd1 (Hhb 1%nat)) as HW1.
      apply (wpr_bind tau); auto.
      eapply (wpr_mono tau); [auto| |apply (wpr_makeVEdge tau m s4 e0 e1
         (val KV (tb s4 KV) m e0) (val KV (tb s4 KV) m e1) (2 ^ S m + half_err m)); auto; [apply Hd0'|apply Hd1]].
      intros res s5 Hr5 Hres. pose proof (rel_inv _ _ _ Hr5) as HI5.
      assert (Hr05 : rel s s5) by (eapply rel_trans; eauto).
      assert (Hfin : dn KV (S m) (mvF (S m) U V) (emul tau (S m)) res s5).
      { rewrite emul_S, Rplus_comm. eapply (dnt_err tau); [|exact Hres].
        intros ix. unfold ch_F. cbn [map]. pose proof (half_err_pos m) as Hhp.
        rewrite mvF_S.
        destruct (ix m) as [|[|ii]] eqn:Hix; cbn [nth].
        - destruct Hd0' as [_ Hd0']. apply Hd0'.
        - destruct Hd1 as [_ Hd1]. apply Hd1.
        - assert (Hz : forall ib j, (4 <= ib)%nat -> mvF m (blk U m ib) (blk V m j) ix = RtoC 0).
          { intros ib j Hib. unfold mvF. rewrite <- (bsum_0 m). apply bsum_ext. intros k. unfold blk, U.
            assert (Hu : valp KM (tb s KM) (S m) (en l) (ixset (comb ix k) m ib) = RtoC 0).
            { rewrite Hel. destruct (Z.eq_dec (nv lnd) (Z.of_nat m)) as [Hc|Hc].
              - rewrite (valp_S_node tau KM _ m la lnd) by auto. rewrite ixset_same.
                assert (Hlen : length (nch lnd) = 4%nat) by (apply (no_len tau KM (tb s KM)); eapply reg_ok; eauto).
                rewrite nth_overflow by lia. apply val_zeroE.
              - rewrite (valp_S_skip tau KM _ m la lnd) by auto. rewrite ixset_same. cbn [skipf].
                destruct ib as [|[|[|[|ib]]]]; try lia. cbn [diag4]. ring. }
            rewrite Hu. ring. }
          rewrite !Hz by lia.
          destruct ii; cbn [nth]; replace (Cminus (RtoC 0) (Cplus (RtoC 0) (RtoC 0))) with (RtoC 0) by ring;
            rewrite Cmod_0; lra. }
      intros s6 Hr6 i'. pose proof (rel_inv _ _ _ Hr6) as HI6.
      assert (Hr06 : rel s s6) by (eapply rel_trans; eauto).
      assert (He6V : ext tau KV (tb s KV) (tb s6 KV)) by apply (rel_ext _ _ _ KV Hr06).
      assert (He6M : ext tau KM (tb s KM) (tb s6 KM)) by apply (rel_ext _ _ _ KM Hr06).
      pose proof (dn_stable tau _ _ _ _ _ _ _ HI5 Hr6 Hfin) as Hfin6.
      destruct (mset_spec tau KV i' (en l) (en r) res s6 la lnd HI6 Hel (He6M _ _ Hrl)) as (s7 & Hs7 & Hr7).
      { intros b z. exists m. cbn [m_l m_r m_res].
        split; [right; exists la, lnd; auto|]. split; [exists ra, rnd; auto|].
        eapply (dnt_F tau); [|exact Hfin6]. intros ix. apply mvF_ext; intros k.
        - symmetry. apply (valp_ext tau); auto. right; exists la, lnd; auto.
        - symmetry. apply (valp_ext tau); auto. exists ra, rnd; auto. }
      exists s7. split; auto. split; auto. apply (wpr_ret tau). intros s8 Hr8.
      assert (Hr68 : rel s6 s8) by (eapply rel_trans; eauto).
      pose proof (dn_stable tau _ _ _ _ _ _ _ HI6 Hr68 Hfin6) as Hfin8.
      apply Hfinal; [eapply rel_trans; eauto|].
      apply rescale_new_bound; [eapply rel_inv; eauto|exact Hfin8|apply (emul_pos tau)].
    + (* hit *)
      destruct Hent as (m' & Hwl & Hwr & Hd). rewrite Hmres in Hd. rewrite Hmr in Hwr, Hd. rewrite Hml in Hwl, Hd.
      assert (m' = m).
      { destruct Hwr as (b & nd & h1 & h2 & h3). rewrite Her in h1. injection h1 as <-.
        pose proof (reg_fun tau _ _ _ _ _ h2 (HeV _ _ Hrr)). subst. lia. }
      subst m'.
      assert (Hnn : negb (is_null (en res)) = true).
      { destruct (wfe_getVar tau KV s1 (S m) res HI1) as (v & _ & _ & Hnn); [apply Hd|].
        destruct (en res); congruence || auto. }
      rewrite Hnn. apply (wpr_ret tau). intros s3 Hr3.
      assert (Hr13 : rel s1 s3) by (eapply rel_trans; eauto).
      assert (Hd' : dn KV (S m) (mvF (S m) U V) (emul tau (S m)) res s1).
      { eapply (dnt_F tau); [|exact Hd]. intros ix. apply mvF_ext; intros k.
        - apply (valp_ext tau); auto. right; exists la, lnd; auto.
        - apply (valp_ext tau); auto. exists ra, rnd; auto. }
      pose proof (dn_stable tau _ _ _ _ _ _ _ HI1 Hr13 Hd') as Hd3.
      apply Hfinal; [eapply rel_trans; eauto|].
      apply rescale_hit_bound; [eapply rel_inv; eauto|exact Hd3|apply (emul_pos tau)].
Qed.

(* mv_multiply on an n-qubit state (n >= 1) *)
Theorem wpr_mv_multiply n s l r F G :
  Inv s -> Z.of_nat n <= NQUBITS -> wfe KM (tb s KM) n l -> wfp KV (tb s KV) n (en r) ->
  (forall ix, val KM (tb s KM) n l ix = F ix) -> (forall ix, val KV (tb s KV) n r ix = G ix) ->
  wpr tau (mv_multiply l r) (dn KV n (mvF n F G) (emv tau n (Cmod (ew l)) (Cmod (ew r)))) s.
Proof.
  intros HI Hn Hl Hr HF HG. unfold mv_multiply.
  assert (HTV : TInv KV (tb s KV)) by apply HI. assert (HTM : TInv KM (tb s KM)) by apply HI.
  destruct n as [|m].
  - cbn in Hr. rewrite Hr.
    assert (Ht : en l = Term).
    { destruct Hl as [[h|(a & nd & h1 & h2 & h3)]|[_ h]]; auto.
      apply (reg_ok tau KM) in h2; auto. pose proof (no_level _ _ _ _ h2). lia. }
    rewrite Ht. cbn [is_term andb].
    apply (wpr_ret tau); intros s' Hr'; eapply (dn_stable tau); eauto.
    apply (dnt_weaken tau) with (err := 0%R); [apply (emv_pos tau); auto using Cmod_ge_0|].
    apply (dnt_of_exact tau); [now left|]. intros ix. unfold mvF. cbn [bsum]. rewrite <- HF, <- HG.
    unfold Wf.val. cbn. rewrite cmul_C. ring.
  - destruct Hr as (ra & rnd & Her & Hrr & Hvr).
    rewrite Her. rewrite andb_false_r. apply (wpr_read tau) with (nd := rnd); auto.
    rewrite Hvr. replace (Z.to_nat (Z.of_nat m + 1)) with (S m) by lia.
    apply wpr_mv_multiply2; auto. left. rewrite Her. exists ra, rnd; auto.
Qed.
End MulV.
