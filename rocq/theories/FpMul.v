(* FpMul.v -- mv_multiply over a rounded arithmetic (follows MulV.v). *)
From Coq Require Import Reals Lra Psatz ZArith Bool List Lia.
From Coquelicot Require Import Complex.
From Verif Require Import Num State DD RNum Wf Sums Inv Wp MulV FpA FpE FpW FpM FpAdd.
Import ListNotations.
Open Scope Z_scope.

Section FpMul.
Context {NO : NumOps} {AC : Accur NO} {CF : Cfg}.
Notation dl := (@dl NO AC).
Notation Gr := (@Gr NO AC).
Notation Gp := (@Gp NO AC).
Notation mkerr := (@mkerr NO AC).
Notation eadd := (@eadd NO AC).
Notation ecomp := (@ecomp NO AC).
Notation Bd := (@Bd NO AC).
Notation Bs := (@Bs NO AC).
Notation emul := (@emul NO AC).
Notation emv := (@emv NO AC).
Notation half_err := (@half_err NO AC).
Lemma valp_val k t n p ix : val k t n (E c1 p) ix = valp k t n p ix.
Proof. unfold FpA.val. cbn [ew en]. rewrite cv_1. ring. Qed.

(* block i of a matrix pointer, as an edge one level down *)
Lemma mchild1_spec t m (e : edge) a nd i : TInv KM t -> en e = Node a -> reg KM t a nd -> nv nd < Z.of_nat (S m) ->
  (i < 4)%nat ->
  let x := mchild1 (Z.of_nat m) e nd i in
  wfe KM t m x /\ (forall ix, val KM t m x ix = blk (valp KM t (S m) (en e)) m i ix) /\ (Cmod (cv (ew x)) <= Gr)%R.
Proof.
  intros HT Hen Hr Hv Hi. unfold mchild1. rewrite Hen. cbn [is_term negb]. rewrite andb_true_r.
  pose proof (reg_ok KM _ _ _ HT Hr) as Hok. pose proof (no_len _ _ _ Hok) as Hlen. cbn in Hlen.
  unfold blk. destruct (nv nd =? Z.of_nat m) eqn:Hc.
  - apply Z.eqb_eq in Hc. rewrite (nth_indep (nch nd) nullE zeroE) by (rewrite Hlen; lia).
    pose proof (reg_child KM t a nd i HT Hr) as H. rewrite Hc, Nat2Z.id in H.
    split; [exact H|]. split; [|now apply (reg_child_le1 KM t a nd)].
    intros ix. rewrite (valp_S_node KM t m a nd) by auto. rewrite ixset_same.
    apply val_local. intros l Hl. symmetry. apply ixset_other. lia.
  - apply Z.eqb_neq in Hc.
    assert (Hp : wfp KM t m (Node a)) by (right; exists a, nd; split; auto; split; auto; lia).
    assert (Hup : forall ix, valp KM t (S m) (Node a) (ixset ix m i) = Cmult (diag4 i) (valp KM t m (Node a) ix)).
    { intros ix. rewrite valp_KM_up by auto. rewrite ixset_same. f_equal.
      apply valp_local. intros l Hl. apply ixset_other. lia. }
    assert (Hz : wfe KM t m zeroE /\ (forall ix, val KM t m zeroE ix = Cmult (RtoC 0) (valp KM t m (Node a) ix)) /\
                 (Cmod (cv (ew (@zeroE NO))) <= Gr)%R).
    { split; [apply wfe_zero|]. split; [intros; rewrite val_zeroE; ring|]. cbn [ew zeroE]. rewrite cv_0.
      pose proof Gr_ge1. rewrite Cmod_0; lra. }
    assert (Ho : wfe KM t m (E c1 (Node a)) /\ (forall ix, val KM t m (E c1 (Node a)) ix = Cmult (RtoC 1) (valp KM t m (Node a) ix)) /\
                 (Cmod (cv (ew (E c1 (Node a)))) <= Gr)%R).
    { split; [now left|]. split; [intros; rewrite valp_val; ring|]. cbn [ew]. rewrite cv_1.
      pose proof Gr_ge1. rewrite Cmod_1; lra. }
    destruct i as [|[|[|[|i]]]]; try lia;
      (split; [apply Hz || apply Ho|]; split; [intros ix; rewrite Hup; apply Hz || apply Ho|apply Hz || apply Ho]).
Qed.
Lemma vchild1_spec t m (e : edge) a nd i : TInv KV t -> en e = Node a -> reg KV t a nd -> nv nd = Z.of_nat m ->
  (i < 2)%nat ->
  let x := vchild1 (Z.of_nat m) e nd i in
  wfe KV t m x /\ (forall ix, val KV t m x ix = blk (valp KV t (S m) (en e)) m i ix) /\ (Cmod (cv (ew x)) <= Gr)%R.
Proof.
  intros HT Hen Hr Hc Hi. unfold vchild1. rewrite Hen, Hc, Z.eqb_refl. cbn [is_term negb andb].
  pose proof (reg_ok KV _ _ _ HT Hr) as Hok. pose proof (no_len _ _ _ Hok) as Hlen. cbn in Hlen.
  rewrite (nth_indep (nch nd) nullE zeroE) by (rewrite Hlen; lia).
  pose proof (reg_child KV t a nd i HT Hr) as H. rewrite Hc, Nat2Z.id in H.
  split; [exact H|]. split; [|now apply (reg_child_le1 KV t a nd)].
  intros ix. unfold blk. rewrite (valp_S_node KV t m a nd) by auto. rewrite ixset_same.
  apply val_local. intros l Hl. symmetry. apply ixset_other. lia.
Qed.

(* vector amplitudes with a child index >= 2 are 0 *)
Lemma val_KV_S t m e i ix : TInv KV t -> wfe KV t (S m) e -> 
  exists c, (wfe KV t m c /\ forall k, val KV t (S m) e (ixset k m i) = Cmult (cv (ew e)) (val KV t m c k)) /\
            ((2 <= i)%nat -> c = zeroE) /\ (ix m = i -> val KV t (S m) e ix = Cmult (cv (ew e)) (val KV t m c ix)).
Proof.
  intros HT [H|[H1 H2]].
  - destruct H as (a & nd & Hen & Hr & Hv).
    pose proof (reg_ok KV _ _ _ HT Hr) as Hok. pose proof (no_len _ _ _ Hok) as Hlen. cbn in Hlen.
    exists (nth i (nch nd) zeroE). pose proof (reg_child KV t a nd i HT Hr) as Hc. rewrite Hv, Nat2Z.id in Hc.
    split; [split; [exact Hc|]|split].
    + intros k. unfold FpA.val at 1. rewrite Hen, (valp_S_node KV t m a nd) by auto. rewrite ixset_same. f_equal.
      apply val_local. intros l Hl. apply ixset_other. lia.
    + intros Hi. apply nth_overflow. lia.
    + intros <-. unfold FpA.val at 1. rewrite Hen, (valp_S_node KV t m a nd) by auto. reflexivity.
  - exists zeroE. split; [split; [apply wfe_zero|]|split; auto].
    + intros k. rewrite val_zw by auto. rewrite val_zeroE. ring.
    + intros _. rewrite val_zw by auto. rewrite val_zeroE. ring.
Qed.

(* the terminal is the identity *)
Lemma mvF_ident tm t n : TInv KV t -> forall e ix, wfe KV t n e ->
  mvF n (valp KM tm n Term) (val KV t n e) ix = val KV t n e ix.
Proof.
  intros HT. induction n as [|m IH]; intros e ix He.
  - unfold mvF. cbn [bsum]. unfold FpA.val. cbn. ring.
  - rewrite mvF_S.
    assert (Hb : forall i k, blk (valp KM tm (S m) Term) m i k = Cmult (diag4 i) (valp KM tm m Term k)).
    { intros i k. unfold blk. rewrite valp_S_term, ixset_same. cbn [skipf]. f_equal.
      apply valp_local. intros l Hl. apply ixset_other. lia. }
    assert (Hrow : forall i j, exists c, wfe KV t m c /\
              mvF m (blk (valp KM tm (S m) Term) m i) (blk (val KV t (S m) e) m j) ix =
              Cmult (diag4 i) (Cmult (cv (ew e)) (val KV t m c ix)) /\
              ((2 <= j)%nat -> c = zeroE) /\ (ix m = j -> val KV t (S m) e ix = Cmult (cv (ew e)) (val KV t m c ix))).
    { intros i j. destruct (val_KV_S t m e j ix HT He) as (c & (Hc1 & Hc2) & Hc3 & Hc4).
      exists c. split; auto. split; [|auto].
      rewrite (mvF_ext m _ (fun k => Cmult (diag4 i) (valp KM tm m Term k)) _ (fun k => Cmult (cv (ew e)) (val KV t m c k))) by auto.
      rewrite mvF_scal, IH by auto. ring. }
    destruct (Hrow (2 * ix m)%nat 0%nat) as (x0 & _ & -> & _ & H0).
    destruct (Hrow (2 * ix m + 1)%nat 1%nat) as (x1 & _ & -> & _ & H1).
    destruct (ix m) as [|[|i]] eqn:Hix.
    + rewrite H0 by auto. cbn [diag4 Nat.mul Nat.add]. ring.
    + rewrite H1 by auto. cbn [diag4 Nat.mul Nat.add]. ring.
    + assert (Hd : forall j, (4 <= j)%nat -> diag4 j = RtoC 0) by (intros [|[|[|[|j]]]] Hj; auto; lia).
      rewrite !Hd by lia.
      destruct (val_KV_S t m e (S (S i)) ix HT He) as (c & _ & Hc3 & Hc4).
      rewrite Hc4, Hc3, val_zeroE by (auto; lia). ring.
Qed.

(* error without the zero-operand part *)
Definition emv0 (mu : R) (n : nat) (a b : R) : R :=
  (mu * (a * b) + Gp n * (dl * (3 * ((Bd n + mu) * (a * b)) + 2 * b + 2 + a * b)))%R.
Lemma emv0_le n a b : (0 <= a)%R -> (0 <= b)%R -> (emv0 (emul n) n a b <= emv n a b)%R.
Proof.
  intros. unfold emv0, FpE.emv, mvbound. pose proof (Bd_pos n). pose proof dl_pos.
  assert (0 <= Bd n * (dl * (a + b)))%R by (apply Rmult_le_pos; [auto|apply Rmult_le_pos; lra]). lra.
Qed.
Lemma emv0_pos n a b : (0 <= a)%R -> (0 <= b)%R -> (0 <= emv0 (emul n) n a b)%R.
Proof.
  intros. unfold emv0. pose proof (Bd_pos n). pose proof dl_pos. pose proof (emul_pos n).
  assert (0 <= a * b)%R by (apply Rmult_le_pos; auto).
  apply Rplus_le_le_0_compat; [apply Rmult_le_pos; auto|]. apply Rmult_le_pos; [apply Grp|].
  apply Rmult_le_pos; auto.
  assert (0 <= (Bd n + emul n) * (a * b))%R by (apply Rmult_le_pos; lra). lra.
Qed.
(* rescaling a unit-weight product *)
Lemma mul2_err (x y z : cx) X A B :
  (Cmod (cv x) <= X)%R -> (Cmod (cv y) <= A)%R -> (Cmod (cv z) <= B)%R ->
  (Cmod (Cminus (cv (cmul (cmul x y) z)) (Cmult (Cmult (cv x) (cv y)) (cv z))) <=
   dl * (3 * (X * (A * B)) + 2 * B + 1))%R.
Proof.
  intros Hx Hy Hz. pose proof dl_ok as [Hd0 Hd1]. change (FpA.dl) with dl in Hd0, Hd1.
  pose proof (Cmod_ge_0 (cv x)) as Hx0. pose proof (Cmod_ge_0 (cv y)) as Hy0. pose proof (Cmod_ge_0 (cv z)) as Hz0.
  pose proof (cmul_err x y) as H1. pose proof (cmul_err (cmul x y) z) as H2. change (FpA.dl) with dl in H1, H2.
  set (p := cv (cmul x y)) in *. set (xy := Cmult (cv x) (cv y)) in *.
  assert (Hxy : (Cmod xy <= X * A)%R) by (unfold xy; rewrite Cmod_mult; apply Rmult_le_compat; auto).
  assert (HXA : (0 <= X * A)%R) by (apply Rmult_le_pos; lra).
  assert (H1' : (Cmod (Cminus p xy) <= dl * (X * A + 1))%R).
  { eapply Rle_trans; [exact H1|]. apply Rmult_le_compat_l; auto. rewrite <- Cmod_mult. fold xy. lra. }
  assert (Hdx : (dl * (X * A + 1) <= X * A + 1)%R).
  { rewrite <- (Rmult_1_l (X * A + 1)) at 2. apply Rmult_le_compat_r; lra. }
  assert (Hp : (Cmod p <= 2 * (X * A) + 1)%R) by (apply Cmod_sub_le in H1'; lra).
  assert (HpB : (Cmod p * Cmod (cv z) <= (2 * (X * A) + 1) * B)%R) by (apply Rmult_le_compat; auto using Cmod_ge_0).
  assert (H3 : (Cmod (Cminus (Cmult p (cv z)) (Cmult xy (cv z))) <= dl * (X * A + 1) * B)%R).
  { replace (Cminus (Cmult p (cv z)) (Cmult xy (cv z))) with (Cmult (Cminus p xy) (cv z)) by ring.
    rewrite Cmod_mult. apply Rmult_le_compat; auto using Cmod_ge_0. }
  replace (dl * (3 * (X * (A * B)) + 2 * B + 1))%R
    with (dl * ((2 * (X * A) + 1) * B + 1) + dl * (X * A + 1) * B)%R by ring.
  eapply Cmod_tri3; [|exact H3]. eapply Rle_trans; [exact H2|]. apply Rmult_le_compat_l; lra.
Qed.
Lemma rescale_bound {k} s n res (l r : edge) U mu w' :
  Inv s -> dn k n U mu res s -> (0 <= mu)%R -> (forall ix, Cmod (U ix) <= Bd n)%R ->
  let w := cmul (cmul (ew res) (ew l)) (ew r) in
  (w' = zeroE /\ (iszero (ew res) = true \/ iszero w = true)) \/
  (exists x : cx, w' = E x (en res) /\ (Cmod (Cminus (cv x) (cv w)) <= dl)%R /\ iszero w = false) ->
  dn k n (fun ix => Cmult (Cmult (cv (ew l)) (cv (ew r))) (U ix))
     (emv0 mu n (Cmod (cv (ew l))) (Cmod (cv (ew r)))) w' s.
Proof.
  intros HI Hdn Hmu HU w Hcase. pose proof dl_pos as He. pose proof (Grp n) as HGn.
  assert (HT : TInv k (tb s k)) by apply HI.
  pose proof (dnt_wbound _ _ _ _ _ _ _ HT Hdn HU) as HX. destruct Hdn as [Hw Hd].
  pose proof (Cmod_ge_0 (cv (ew l))) as Hl. pose proof (Cmod_ge_0 (cv (ew r))) as Hr.
  set (A := Cmod (cv (ew l))) in *. set (B := Cmod (cv (ew r))) in *. set (X := (Bd n + mu)%R) in *.
  assert (HAB : (0 <= A * B)%R) by (apply Rmult_le_pos; auto).
  set (v := fun ix => valp k (tb s k) n (en res) ix).
  assert (Hv1 : forall ix, (Cmod (v ix) <= Gp n)%R).
  { intros ix. apply valp_le1; auto. destruct Hw as [|[_ ?]]; auto. }
  set (we := Cmult (Cmult (cv (ew res)) (cv (ew l))) (cv (ew r))).
  assert (Hwe : (Cmod (Cminus (cv w) we) <= dl * (3 * (X * (A * B)) + 2 * B + 1))%R).
  { apply mul2_err; [exact HX|apply Rle_refl|apply Rle_refl]. }
  assert (HXAB : (0 <= X * (A * B))%R).
  { apply Rmult_le_pos; auto. pose proof (Cmod_ge_0 (cv (ew res))). lra. }
  (* error of the exactly rescaled value *)
  assert (Hex : forall ix, (Cmod (Cminus (Cmult we (v ix)) (Cmult (Cmult (cv (ew l)) (cv (ew r))) (U ix))) <= mu * (A * B))%R).
  { intros ix. replace (Cminus (Cmult we (v ix)) (Cmult (Cmult (cv (ew l)) (cv (ew r))) (U ix)))
      with (Cmult (Cmult (cv (ew l)) (cv (ew r))) (Cminus (Cmult (cv (ew res)) (v ix)) (U ix))) by (unfold we; ring).
    rewrite !Cmod_mult. rewrite (Rmult_comm mu). apply Rmult_le_compat_l; auto. apply Hd. }
  (* error of any weight close to we *)
  assert (Hgen : forall (y : C), (Cmod (Cminus y we) <= dl * (3 * (X * (A * B)) + 2 * B + 2 + A * B))%R ->
     forall ix, (Cmod (Cminus (Cmult y (v ix)) (Cmult (Cmult (cv (ew l)) (cv (ew r))) (U ix))) <= emv0 mu n A B)%R).
  { intros y Hy ix. unfold emv0. fold X. rewrite Rplus_comm. eapply Cmod_tri3; [|apply Hex].
    replace (Cminus (Cmult y (v ix)) (Cmult we (v ix))) with (Cmult (v ix) (Cminus y we)) by ring.
    rewrite Cmod_mult. apply Rmult_le_compat; auto using Cmod_ge_0. }
  assert (Hdab : (0 <= dl * (A * B))%R) by (apply Rmult_le_pos; auto).
  destruct Hcase as [[-> Hz]|(x & -> & Hx & Hnz)].
  - split; [apply wfe_zero|]. intros ix. rewrite val_zeroE.
    replace (RtoC 0) with (Cmult (RtoC 0) (v ix)) by ring. apply Hgen.
    destruct Hz as [Hz|Hz]; apply z_true in Hz.
    + rewrite Cmod_sub_sym. replace (Cminus we (RtoC 0)) with we by ring. unfold we. rewrite !Cmod_mult, Rmult_assoc.
      fold A B. assert (Cmod (cv (ew res)) * (A * B) <= dl * (A * B))%R by (apply Rmult_le_compat_r; auto).
      assert (0 <= dl * (3 * (X * (A * B)) + 2 * B + 2))%R by (apply Rmult_le_pos; lra). lra.
    + assert (Cmod (Cminus (RtoC 0) we) <= dl + dl * (3 * (X * (A * B)) + 2 * B + 1))%R.
      { eapply Cmod_tri3; [|exact Hwe]. rewrite Cmod_sub_sym. replace (Cminus (cv w) (RtoC 0)) with (cv w) by ring. exact Hz. }
      lra.
  - split.
    + left. cbn [en]. eapply wfe_nz; [exact Hw|]. intros h. apply z_nz in Hnz. apply Hnz. unfold w.
      apply cmul_zl, cmul_zl, h.
    + intros ix. unfold FpA.val. cbn [ew en]. fold (v ix). apply Hgen.
      assert (Cmod (Cminus (cv x) we) <= dl + dl * (3 * (X * (A * B)) + 2 * B + 1))%R by (eapply Cmod_tri3; [exact Hx|exact Hwe]).
      lra.
Qed.
Lemma rescale_hit_bound {k} s n res (l r : edge) U mu :
  Inv s -> dn k n U mu res s -> (0 <= mu)%R -> (forall ix, Cmod (U ix) <= Bd n)%R ->
  dn k n (fun ix => Cmult (Cmult (cv (ew l)) (cv (ew r))) (U ix))
     (emv0 mu n (Cmod (cv (ew l))) (Cmod (cv (ew r)))) (rescale_hit res l r) s.
Proof.
  intros HI Hd Hmu HU. apply (rescale_bound s n res l r U mu _ HI Hd Hmu HU). unfold rescale_hit.
  destruct (iszero (ew res)) eqn:H1; [left; auto|].
  destruct (iszero (cmul (cmul (ew res) (ew l)) (ew r))) eqn:H2; [left; auto|]. right. eexists. split; [reflexivity|]. split; auto.
  match goal with |- (Cmod (Cminus ?x ?y) <= _)%R => replace (Cminus x y) with (RtoC 0) by ring end.
  rewrite Cmod_0. apply dl_pos.
Qed.
Lemma rescale_new_bound {k} s n res (l r : edge) U mu :
  Inv s -> dn k n U mu res s -> (0 <= mu)%R -> (forall ix, Cmod (U ix) <= Bd n)%R ->
  dn k n (fun ix => Cmult (Cmult (cv (ew l)) (cv (ew r))) (U ix))
     (emv0 mu n (Cmod (cv (ew l))) (Cmod (cv (ew r)))) (rescale_new res l r) s.
Proof.
  intros HI Hd Hmu HU. apply (rescale_bound s n res l r U mu _ HI Hd Hmu HU). unfold rescale_new.
  destruct (iszero (cmul (cmul (ew res) (ew l)) (ew r))) eqn:H2; [left; auto|]. right. eexists. split; [reflexivity|]. split; auto.
  apply round_one.
Qed.


Lemma zero_bound n a b : (0 <= a)%R -> (0 <= b)%R -> (a <= dl)%R \/ (b <= dl)%R ->
  (2 ^ n * (a * Gp n * (b * Gp n)) <= emv n a b)%R.
Proof.
  intros Ha Hb H. pose proof dl_pos as Hd. pose proof (Bd_pos n) as HB. pose proof (emv0_pos n a b Ha Hb) as H0.
  replace (2 ^ n * (a * Gp n * (b * Gp n)))%R with (Bd n * (a * b))%R by (unfold FpE.Bd; ring).
  assert (a * b <= dl * (a + b))%R.
  { destruct H.
    - assert (a * b <= dl * b)%R by (apply Rmult_le_compat_r; auto). assert (0 <= dl * a)%R by (apply Rmult_le_pos; auto). lra.
    - assert (a * b <= a * dl)%R by (apply Rmult_le_compat_l; auto). assert (0 <= dl * b)%R by (apply Rmult_le_pos; auto). lra. }
  assert (Bd n * (a * b) <= Bd n * (dl * (a + b)))%R by (apply Rmult_le_compat_l; auto).
  unfold FpE.emv, mvbound. unfold emv0 in H0. lra.
Qed.
Lemma term_bound t n (l r : edge) ix : TInv KV t -> wfe KV t n r ->
  (Cmod (Cminus (val KV t n (E (cmul (ew r) (ew l)) (en r)) ix) (Cmult (Cmult (cv (ew l)) (RtoC 1)) (val KV t n r ix)))
    <= emv n (Cmod (cv (ew l))) (Cmod (cv (ew r))))%R.
Proof.
  intros HT Hr. eapply Rle_trans; [|apply emv0_le; apply Cmod_ge_0].
  unfold FpA.val. cbn [ew en]. set (v := valp KV t n (en r) ix).
  assert (Hv : (Cmod v <= Gp n)%R) by (apply valp_le1; auto; destruct Hr as [|[_ ?]]; auto).
  pose proof (cmul_err (ew r) (ew l)) as H.
  replace (Cminus (Cmult (cv (cmul (ew r) (ew l))) v) (Cmult (Cmult (cv (ew l)) (RtoC 1)) (Cmult (cv (ew r)) v)))
    with (Cmult v (Cminus (cv (cmul (ew r) (ew l))) (Cmult (cv (ew r)) (cv (ew l))))) by ring.
  pose proof (Cmod_ge_0 (cv (ew l))) as Ha. pose proof (Cmod_ge_0 (cv (ew r))) as Hb. pose proof dl_pos as Hd.
  set (A := Cmod (cv (ew l))) in *. set (B := Cmod (cv (ew r))) in *.
  assert (HAB : (0 <= A * B)%R) by (apply Rmult_le_pos; auto).
  pose proof (emul_pos n) as He. pose proof (Bd_pos n) as HB.
  assert (0 <= emul n * (A * B))%R by (apply Rmult_le_pos; auto).
  assert (0 <= (Bd n + emul n) * (A * B))%R by (apply Rmult_le_pos; lra).
  rewrite Cmod_mult. unfold emv0.
  assert (Cmod v * Cmod (Cminus (cv (cmul (ew r) (ew l))) (Cmult (cv (ew r)) (cv (ew l)))) <=
    Gp n * (dl * (3 * ((Bd n + emul n) * (A * B)) + 2 * B + 2 + A * B)))%R.
  { apply Rmult_le_compat; auto using Cmod_ge_0. eapply Rle_trans; [exact H|]. apply Rmult_le_compat_l; auto. lra. }
  lra.
Qed.
(* half of the product: row i of blocks *)
Definition halfF (m : nat) (F G : (nat -> nat) -> C) (i : nat) (ix : nat -> nat) : C :=
  Cplus (mvF m (blk F m (2 * i)) (blk G m 0) ix) (mvF m (blk F m (2 * i + 1)) (blk G m 1) ix).
Theorem wpr_mv_multiply2 lim n : forall s l r F G,
  Inv s -> Z.of_nat n <= NQUBITS -> wfe KM (tb s KM) n l -> wfe KV (tb s KV) n r ->
  (forall ix, val KM (tb s KM) n l ix = F ix) -> (forall ix, val KV (tb s KV) n r ix = G ix) ->
  wpr (mv_multiply2 lim n l r) (dn KV n (mvF n F G) (emv n (Cmod (cv (ew l))) (Cmod (cv (ew r))))) s.
Proof.
  pose proof dl_pos as Heps.
  induction n as [|m IH]; intros s l r F G HI Hn Hl Hr HF HG;
    pose proof (Cmod_ge_0 (cv (ew l))) as Hl0; pose proof (Cmod_ge_0 (cv (ew r))) as Hr0;
    match goal with |- wpr (mv_multiply2 _ ?nn _ _) _ _ => set (LN := nn) in * end;
    assert (HTV : TInv KV (tb s KV)) by apply HI;
    assert (HTM : TInv KM (tb s KM)) by apply HI;
    assert (HFl : forall ix, (Cmod (F ix) <= Cmod (cv (ew l)) * Gp LN)%R)
      by (intros ix; rewrite <- HF; apply val_le; auto);
    assert (HGr : forall ix, (Cmod (G ix) <= Cmod (cv (ew r)) * Gp LN)%R)
      by (intros ix; rewrite <- HG; apply val_le; auto);
    assert (Hzero : iszero (ew l) = true \/ iszero (ew r) = true ->
         wpr (CRet zeroE) (dn KV LN (mvF LN F G) (emv LN (Cmod (cv (ew l))) (Cmod (cv (ew r))))) s).
  1,3: intros Hz; apply wpr_ret; intros s' Hr'; eapply dn_stable; eauto; split; [apply wfe_zero|];
    intros ix; rewrite val_zeroE; rewrite <- Cmod_opp;
    replace (Copp (Cminus (RtoC 0) (mvF LN F G ix))) with (mvF LN F G ix) by ring;
    eapply Rle_trans; [apply (mvF_bound LN F G ix _ _ (Rmult_le_pos _ _ Hl0 (Grp LN)) HFl HGr)|];
    apply (zero_bound LN _ _ Hl0 Hr0); destruct Hz as [Hz|Hz]; apply z_true in Hz; auto.
  all: assert (Hterm : en l = Term ->
         wpr (CRet (E (cmul (ew r) (ew l)) (en r))) (dn KV LN (mvF LN F G) (emv LN (Cmod (cv (ew l))) (Cmod (cv (ew r))))) s).
  1,3: intros Ht; apply wpr_ret; intros s' Hr'; eapply dn_stable; eauto;
    split; [apply wfe_scale_r; auto|]; intros ix;
    rewrite (mvF_ext LN F (fun k => Cmult (cv (ew l)) (valp KM (tb s KM) LN Term k)) G (fun k => Cmult (RtoC 1) (val KV (tb s KV) LN r k)));
    [rewrite mvF_scal, mvF_ident by auto; apply term_bound; auto
    |intros k; rewrite <- HF; unfold FpA.val; now rewrite Ht
    |intros k; rewrite HG; ring].
  all: subst LN; cbn [mv_multiply2].
  all: destruct (edge_eqb l zeroE) eqn:Hlz;
    [apply Hzero; left; apply andb_prop in Hlz as [Hlz _];
     now apply eq_c0'|].
  all: destruct (is_term (en l)) eqn:Hlt; [apply Hterm; clear - Hlt; destruct (en l); (discriminate Hlt || auto)|].
  all: destruct (iszero (ew l)) eqn:Hzl; [apply Hzero; auto|].
  all: destruct (iszero (ew r)) eqn:Hzr; [apply Hzero; auto|].
  all: cbn [orb].
  all: assert (Hlp : wfp KM (tb s KM) _ (en l)) by
     (apply wfe_nz in Hl; [exact Hl|now apply z_nz]).
  - (* level 0: a matrix edge is terminal *)
    exfalso. destruct Hlp as [h|(a & nd & h1 & h2 & h3)]; [rewrite h in Hlt; discriminate|].
    apply (reg_ok KM) in h2; auto. pose proof (no_level _ _ _ h2). lia.
  - destruct Hlp as [h|(la & lnd & Hel & Hrl & Hvl)]; [rewrite h in Hlt; discriminate|].
    destruct (wfe_KV_node _ _ _ Hr Hzr) as (ra & rnd & Her & Hrr & Hvr).
    assert (Hm : Z.of_nat m < NQUBITS) by lia.
    set (U := valp KM (tb s KM) (S m) (en l)). set (V := valp KV (tb s KV) (S m) (en r)).
    assert (HU1 : forall k, (Cmod (U k) <= Gp (S m))%R).
    { intros k. apply valp_le1; auto. left. right. exists la, lnd; auto. }
    assert (HV1 : forall k, (Cmod (V k) <= Gp (S m))%R).
    { intros k. apply valp_le1; auto. left. exists ra, rnd; auto. }
    assert (HFU : forall ix, mvF (S m) F G ix = Cmult (Cmult (cv (ew l)) (cv (ew r))) (mvF (S m) U V ix)).
    { intros ix. rewrite <- mvF_scal. apply mvF_ext; intros k; [rewrite <- HF|rewrite <- HG]; reflexivity. }
    assert (Hfinal : forall res s', rel s s' ->
        dn KV (S m) (fun ix => Cmult (Cmult (cv (ew l)) (cv (ew r))) (mvF (S m) U V ix))
           (emv0 (emul (S m)) (S m) (Cmod (cv (ew l))) (Cmod (cv (ew r)))) res s' ->
        dn KV (S m) (mvF (S m) F G) (emv (S m) (Cmod (cv (ew l))) (Cmod (cv (ew r)))) res s').
    { intros res s' _ Hd. eapply dnt_F; [intros ix; symmetry; apply HFU|].
      eapply dnt_weaken; [|exact Hd]. now apply emv0_le. }
    assert (HUV : forall ix, (Cmod (mvF (S m) U V ix) <= Bd (S m))%R).
    { intros ix. unfold FpE.Bd. apply mvF_bound; auto. apply Grp. }
    (* the two halves *)
    assert (Hhalf : forall i f Q s1, (i < 2)%nat -> rel s s1 ->
       (forall e s2, rel s1 s2 -> dn KV m (halfF m U V i) (half_err m) e s2 -> wpr (f e) Q s2) ->
       wpr (fork2 lim (Z.of_nat m)
                  (mv_multiply2 lim m (mchild1 (Z.of_nat m) l lnd (2 * i)) (vchild1 (Z.of_nat m) r rnd 0))
                  (mv_multiply2 lim m (mchild1 (Z.of_nat m) l lnd (2 * i + 1)) (vchild1 (Z.of_nat m) r rnd 1))
                  (fun p0 p1 => bind (vv_add2 lim m p0 p1) f)) Q s1).
    { intros i f Q s1 Hi Hr1 Hf. pose proof (rel_inv _ _ Hr1) as HI1.
      assert (HT1V : TInv KV (tb s1 KV)) by apply HI1. assert (HT1M : TInv KM (tb s1 KM)) by apply HI1.
      assert (HeV : ext KV (tb s KV) (tb s1 KV)) by apply (rel_ext _ _ KV Hr1).
      assert (HeM : ext KM (tb s KM) (tb s1 KM)) by apply (rel_ext _ _ KM Hr1).
      set (P := mvbound (emul m) m Gr Gr).
      assert (HP : (0 <= P)%R) by (apply mvbound_pos; try apply Gr_pos; apply emul_pos).
      set (T := fun ib j => mvF m (blk U m ib) (blk V m j)).
      assert (Hsub : forall ib j, (ib < 4)%nat -> (j < 2)%nat ->
        wpr (mv_multiply2 lim m (mchild1 (Z.of_nat m) l lnd ib) (vchild1 (Z.of_nat m) r rnd j))
          (dn KV m (T ib j) P) s1).
      { intros ib j Hib Hj.
        destruct (mchild1_spec _ m l la lnd ib HT1M Hel (HeM _ _ Hrl) Hvl Hib) as (Hw1 & Hv1 & Hm1).
        destruct (vchild1_spec _ m r ra rnd j HT1V Her (HeV _ _ Hrr) Hvr Hj) as (Hw2 & Hv2 & Hm2).
        eapply wpr_mono; [auto| |apply (IH s1 _ _ (blk U m ib) (blk V m j)); auto; try lia].
        - intros e s2 _ Hd. eapply dnt_weaken; [|exact Hd]. apply emv_mono; split; auto using Cmod_ge_0.
        - intros ix. rewrite Hv1. unfold blk, U. apply valp_ext; auto. right. exists la, lnd. rewrite Hel; auto.
        - intros ix. rewrite Hv2. unfold blk, V. apply valp_ext; auto. exists ra, rnd. rewrite Her; auto. }
      eapply wpr_fork2; [auto|apply dn_stable|apply dn_stable
        |apply (Hsub (2 * i)%nat 0%nat); lia|apply (Hsub (2 * i + 1)%nat 1%nat); lia|].
      intros p0 p1 s2 Hr2 Hd0 Hd1. pose proof (rel_inv _ _ Hr2) as HI2.
      assert (HT2 : TInv KV (tb s2 KV)) by apply HI2.
      assert (HTb : forall ib j ix, (Cmod (T ib j ix) <= Bs m)%R).
      { intros ib j ix. unfold T, FpE.Bs. apply mvF_bound; [apply Grp| |]; intros k; unfold blk; auto. }
      pose proof (dnt_wbound _ _ _ _ _ _ _ HT2 Hd0 (HTb (2 * i)%nat 0%nat)) as HW0.
      pose proof (dnt_wbound _ _ _ _ _ _ _ HT2 Hd1 (HTb (2 * i + 1)%nat 1%nat)) as HW1.
      apply wpr_bind; auto.
      eapply wpr_mono; [auto| |apply (wpr_vv_add2 lim m s2 p0 p1
         (val KV (tb s2 KV) m p0) (val KV (tb s2 KV) m p1)); auto; [lia|apply Hd0|apply Hd1]].
      intros e s3 Hr3 Hd. apply Hf; [eapply rel_trans; eauto|].
      unfold FpE.half_err, half_err_. cbn zeta. fold P. rewrite Rplus_comm.
      eapply dnt_err; [|eapply dnt_weaken; [|exact Hd]].
      - intros ix. unfold halfF. fold (T (2 * i)%nat 0%nat ix). fold (T (2 * i + 1)%nat 1%nat ix).
        match goal with |- (Cmod (Cminus (Cplus ?x ?y) (Cplus ?u ?v)) <= _)%R =>
          replace (Cminus (Cplus x y) (Cplus u v)) with (Cplus (Cminus x u) (Cminus y v)) by ring end.
        eapply Rle_trans; [apply Cmod_triangle|].
        destruct Hd0 as [_ Hd0]. destruct Hd1 as [_ Hd1]. specialize (Hd0 ix); specialize (Hd1 ix).
        replace (2 * P)%R with (P + P)%R by ring. now apply Rplus_le_compat.
      - apply eadd_mono. pose proof (Cmod_ge_0 (cv (ew p0))). pose proof (Cmod_ge_0 (cv (ew p1))). lra. }
    intros s1 Hr1 i. pose proof (rel_inv _ _ Hr1) as HI1.
    assert (HeV : ext KV (tb s KV) (tb s1 KV)) by apply (rel_ext _ _ KV Hr1).
    assert (HeM : ext KM (tb s KM) (tb s1 KM)) by apply (rel_ext _ _ KM Hr1).
    destruct (mfind_spec KV i (en l) (en r) s1 la lnd HI1 Hel (HeM _ _ Hrl)) as (res & s2 & Hfind & Hr2 & Hcase).
    exists res, s2. split; auto. split; auto. pose proof (rel_inv _ _ Hr2) as HI2.
    assert (Hr02 : rel s s2) by (eapply rel_trans; eauto).
    assert (He2V : ext KV (tb s KV) (tb s2 KV)) by apply (rel_ext _ _ KV Hr02).
    assert (He2M : ext KM (tb s KM) (tb s2 KM)) by apply (rel_ext _ _ KM Hr02).
    destruct Hcase as [->|(e & Hml & Hmr & Hmres & Hent)].
    + (* miss *)
      cbn [en nullE is_null negb]. rewrite Hel, Her.
      apply wpr_read with (nd := lnd); auto. apply wpr_read with (nd := rnd); auto.
      rewrite <- Hel, <- Her.
      apply (Hhalf 0%nat); auto. intros e0 s3 Hr3 Hd0. pose proof (rel_inv _ _ Hr3) as HI3.
      assert (Hr03 : rel s s3) by (eapply rel_trans; eauto).
      apply (Hhalf 1%nat); auto. intros e1 s4 Hr4 Hd1. pose proof (rel_inv _ _ Hr4) as HI4.
      assert (Hr04 : rel s s4) by (eapply rel_trans; eauto).
      pose proof (dn_stable _ _ _ _ _ _ _ HI3 Hr4 Hd0) as Hd0'.
      assert (HT4 : TInv KV (tb s4 KV)) by apply HI4.
      assert (Hhb : forall ii ix, (Cmod (halfF m U V ii ix) <= 2 * Bs m)%R).
      { intros ii ix. unfold halfF. eapply Rle_trans; [apply Cmod_triangle|].
        assert (Hb : forall ib j, (Cmod (mvF m (blk U m ib) (blk V m j) ix) <= Bs m)%R).
        { intros ib j. unfold FpE.Bs. apply mvF_bound; [apply Grp| |]; intros k; unfold blk; auto. }
        pose proof (Hb (2 * ii)%nat 0%nat). pose proof (Hb (2 * ii + 1)%nat 1%nat).
        lra. }
      pose proof (dnt_wbound _ _ _ _ _ _ _ HT4 Hd0' (Hhb 0%nat)) as HW0.
      pose proof (dnt_wbound _ _ _ _ _ _ _ HT4 Hd1 (Hhb 1%nat)) as HW1.
      apply wpr_bind; auto.
      eapply wpr_mono; [auto| |apply (wpr_makeVEdge m s4 e0 e1
         (val KV (tb s4 KV) m e0) (val KV (tb s4 KV) m e1) (2 * Bs m + half_err m)); auto; [apply Hd0'|apply Hd1]].
      intros res s5 Hr5 Hres. pose proof (rel_inv _ _ Hr5) as HI5.
      assert (Hr05 : rel s s5) by (eapply rel_trans; eauto).
      assert (Hfin : dn KV (S m) (mvF (S m) U V) (emul (S m)) res s5).
      { rewrite emul_S, Rplus_comm. eapply dnt_err; [|exact Hres].
        intros ix. unfold ch_F. cbn [map]. pose proof (half_err_pos m) as Hhp.
        rewrite mvF_S.
        destruct (ix m) as [|[|ii]] eqn:Hix; cbn [nth].
        - destruct Hd0' as [_ Hd0']. apply Hd0'.
        - destruct Hd1 as [_ Hd1]. apply Hd1.
        - assert (Hz : forall ib j, (4 <= ib)%nat -> mvF m (blk U m ib) (blk V m j) ix = RtoC 0).
          { intros ib j Hib. unfold mvF. rewrite <- (bsum_0 m). apply bsum_ext. intros k. unfold blk, U.
            assert (Hu : valp KM (tb s KM) (S m) (en l) (ixset (comb ix k) m ib) = RtoC 0).
            { rewrite Hel. destruct (Z.eq_dec (nv lnd) (Z.of_nat m)) as [Hc|Hc].
              - rewrite (valp_S_node KM _ m la lnd) by auto. rewrite ixset_same.
                assert (Hlen : length (nch lnd) = 4%nat) by (apply (no_len KM (tb s KM)); eapply reg_ok; eauto).
                rewrite nth_overflow by lia. apply val_zeroE.
              - rewrite (valp_S_skip KM _ m la lnd) by auto. rewrite ixset_same. cbn [skipf].
                destruct ib as [|[|[|[|ib]]]]; try lia. cbn [diag4]. ring. }
            rewrite Hu. ring. }
          rewrite !Hz by lia.
          destruct ii; cbn [nth]; replace (Cminus (RtoC 0) (Cplus (RtoC 0) (RtoC 0))) with (RtoC 0) by ring;
            rewrite Cmod_0; lra. }
      intros s6 Hr6 i'. pose proof (rel_inv _ _ Hr6) as HI6.
      assert (Hr06 : rel s s6) by (eapply rel_trans; eauto).
      assert (He6V : ext KV (tb s KV) (tb s6 KV)) by apply (rel_ext _ _ KV Hr06).
      assert (He6M : ext KM (tb s KM) (tb s6 KM)) by apply (rel_ext _ _ KM Hr06).
      pose proof (dn_stable _ _ _ _ _ _ _ HI5 Hr6 Hfin) as Hfin6.
      destruct (mset_spec KV i' (en l) (en r) res s6 la lnd HI6 Hel (He6M _ _ Hrl)) as (s7 & Hs7 & Hr7).
      { intros b z. exists m. cbn [m_l m_r m_res].
        split; [right; exists la, lnd; auto|]. split; [exists ra, rnd; auto|].
        eapply dnt_F; [|exact Hfin6]. intros ix. apply mvF_ext; intros k.
        - symmetry. apply valp_ext; auto. right; exists la, lnd; auto.
        - symmetry. apply valp_ext; auto. exists ra, rnd; auto. }
      exists s7. split; auto. split; auto. apply wpr_ret. intros s8 Hr8.
      assert (Hr68 : rel s6 s8) by (eapply rel_trans; eauto).
      pose proof (dn_stable _ _ _ _ _ _ _ HI6 Hr68 Hfin6) as Hfin8.
      apply Hfinal; [eapply rel_trans; eauto|].
      apply rescale_new_bound; [eapply rel_inv; eauto|exact Hfin8|apply emul_pos|exact HUV].
    + (* hit *)
      destruct Hent as (m' & Hwl & Hwr & Hd). rewrite Hmres in Hd. rewrite Hmr in Hwr, Hd. rewrite Hml in Hwl, Hd.
      assert (m' = m).
      { destruct Hwr as (b & nd & h1 & h2 & h3). rewrite Her in h1. injection h1 as <-.
        pose proof (reg_fun _ _ _ _ _ h2 (HeV _ _ Hrr)). subst. lia. }
      subst m'.
      assert (Hnn : negb (is_null (en res)) = true).
      { destruct (wfe_getVar KV s1 (S m) res HI1) as (v & _ & _ & Hnn); [apply Hd|].
        destruct (en res); congruence || auto. }
      rewrite Hnn. apply wpr_ret. intros s3 Hr3.
      assert (Hr13 : rel s1 s3) by (eapply rel_trans; eauto).
      assert (Hd' : dn KV (S m) (mvF (S m) U V) (emul (S m)) res s1).
      { eapply dnt_F; [|exact Hd]. intros ix. apply mvF_ext; intros k.
        - apply valp_ext; auto. right; exists la, lnd; auto.
        - apply valp_ext; auto. exists ra, rnd; auto. }
      pose proof (dn_stable _ _ _ _ _ _ _ HI1 Hr13 Hd') as Hd3.
      apply Hfinal; [eapply rel_trans; eauto|].
      apply rescale_hit_bound; [eapply rel_inv; eauto|exact Hd3|apply emul_pos|exact HUV].
Qed.

(* mv_multiply on an n-qubit state (n >= 1) *)
Theorem wpr_mv_multiply n s l r F G :
  Inv s -> Z.of_nat n <= NQUBITS -> wfe KM (tb s KM) n l -> wfp KV (tb s KV) n (en r) ->
  (forall ix, val KM (tb s KM) n l ix = F ix) -> (forall ix, val KV (tb s KV) n r ix = G ix) ->
  wpr (mv_multiply l r) (dn KV n (mvF n F G) (emv n (Cmod (cv (ew l))) (Cmod (cv (ew r))))) s.
Proof.
  intros HI Hn Hl Hr HF HG. unfold mv_multiply.
  assert (HTV : TInv KV (tb s KV)) by apply HI. assert (HTM : TInv KM (tb s KM)) by apply HI.
  destruct n as [|m].
  - cbn in Hr. rewrite Hr.
    assert (Ht : en l = Term).
    { destruct Hl as [[h|(a & nd & h1 & h2 & h3)]|[_ h]]; auto.
      apply (reg_ok KM) in h2; auto. pose proof (no_level _ _ _ h2). lia. }
    rewrite Ht. cbn [is_term andb].
    apply wpr_ret; intros s' Hr'; eapply dn_stable; eauto.
    split; [now left|]. intros ix. unfold mvF. cbn [bsum]. rewrite <- HF, <- HG.
    eapply Rle_trans; [|apply emv0_le; auto using Cmod_ge_0].
    unfold FpA.val. cbn [FpA.valp ew en]. rewrite !Cmult_1_r.
    eapply Rle_trans; [apply cmul_err|]. unfold emv0. change (Gp 0) with 1%R.
    pose proof (Cmod_ge_0 (cv (ew l))) as Ha. pose proof (Cmod_ge_0 (cv (ew r))) as Hb. pose proof dl_pos.
    set (A := Cmod (cv (ew l))) in *. set (B := Cmod (cv (ew r))) in *.
    assert (HAB : (0 <= A * B)%R) by (apply Rmult_le_pos; auto).
    pose proof (emul_pos 0). pose proof (Bd_pos 0).
    assert (0 <= emul 0 * (A * B))%R by (apply Rmult_le_pos; auto).
    assert (0 <= (Bd 0 + emul 0) * (A * B))%R by (apply Rmult_le_pos; lra).
    assert (dl * (A * B + 1) <= dl * (3 * ((Bd 0 + emul 0) * (A * B)) + 2 * B + 2 + A * B))%R by (apply Rmult_le_compat_l; lra).
    lra.
  - destruct Hr as (ra & rnd & Her & Hrr & Hvr).
    rewrite Her. rewrite andb_false_r. apply wpr_read with (nd := rnd); auto.
    rewrite Hvr. replace (Z.to_nat (Z.of_nat m + 1)) with (S m) by lia.
    apply wpr_mv_multiply2; auto. left. rewrite Her. exists ra, rnd; auto.
Qed.
End FpMul.
