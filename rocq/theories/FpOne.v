(* FpOne.v -- C69: determineMeasurementProbabilities over a rounded arithmetic
   (follows MeasOneP.v): the breadth-first sum is within a fixed error of the
   marginal distribution of one qubit. *)
From Coq Require Import Reals Lra Psatz ZArith Bool List Lia Arith.
From Coquelicot Require Import Complex.
From Verif Require SafeF.
From Verif Require Import Num State DD Gates Measure RNum Wf Sums Err Inv Wp Make Add MulV Canon GateP StateP Spec Readout MeasureP MeasAllP MeasOneP
  FpA FpE FpW FpM FpAdd FpMul FpGate FpState FpRead FpMeas.
Import ListNotations.
Open Scope Z_scope.

Section FpOne.
Context {NO : NumOps} {AC : Accur NO} {CF : Cfg}.
Notation dl := (@dl NO AC).
Notation state := (@State.state NO).
Notation edge := (@State.edge NO).
Notation node := (@State.node NO).

(* weight of the assignments below p in which level ii has value b *)
Definition hb (t : table) (ii l : nat) (p : ptr) (b : nat) : R :=
  rbsum l (fun ix => if Nat.eqb (ix ii) b then (Cmod (valp KV t l p ix) ^ 2)%R else 0%R).

Lemma hb_step t ii m a nd b : reg KV t a nd -> nv nd = Z.of_nat m -> (ii < m)%nat ->
  hb t ii (S m) (Node a) b = (Cmod (cv (ew (chd nd 0))) ^ 2 * hb t ii m (en (chd nd 0)) b +
                              Cmod (cv (ew (chd nd 1))) ^ 2 * hb t ii m (en (chd nd 1)) b)%R.
Proof.
  intros Hr Hv Hi. unfold hb. cbn [rbsum].
  assert (H : forall c, rbsum m (fun ix => if Nat.eqb (ixset ix m c ii) b then (Cmod (valp KV t (S m) (Node a) (ixset ix m c)) ^ 2)%R else 0%R)
     = (Cmod (cv (ew (chd nd c))) ^ 2 * rbsum m (fun ix => if Nat.eqb (ix ii) b then (Cmod (valp KV t m (en (chd nd c)) ix) ^ 2)%R else 0%R))%R).
  { intros c. rewrite <- rbsum_scal. apply rbsum_ext. intros ix. rewrite (ixset_other ix m c ii) by lia.
    destruct (Nat.eqb (ix ii) b); [|ring]. rewrite (valp_S_node KV t m a nd _ Hr Hv), ixset_same.
    rewrite (val_local KV t m _ (ixset ix m c) ix) by (intros l Hl; apply ixset_other; lia). apply val_sq. }
  rewrite (H 0%nat), (H 1%nat). reflexivity.
Qed.
Lemma hb_base t ii a nd b : reg KV t a nd -> nv nd = Z.of_nat ii -> (b < 2)%nat ->
  hb t ii (S ii) (Node a) b = (Cmod (cv (ew (chd nd b))) ^ 2 * psum t ii (en (chd nd b)))%R.
Proof.
  intros Hr Hv Hb. unfold hb. cbn [rbsum].
  assert (H : forall c, rbsum ii (fun ix => if Nat.eqb (ixset ix ii c ii) b then (Cmod (valp KV t (S ii) (Node a) (ixset ix ii c)) ^ 2)%R else 0%R)
     = if Nat.eqb c b then (Cmod (cv (ew (chd nd b))) ^ 2 * psum t ii (en (chd nd b)))%R else 0%R).
  { intros c. destruct (Nat.eqb_spec c b) as [->|Hc].
    - rewrite <- (psum_half t ii a nd b Hr Hv). apply rbsum_ext. intros ix. rewrite ixset_same, Nat.eqb_refl. reflexivity.
    - transitivity (rbsum ii (fun _ => 0 * 0)%R); [|rewrite rbsum_scal; ring].
      apply rbsum_ext. intros ix. rewrite ixset_same. destruct (Nat.eqb_spec c b); [contradiction|ring]. }
  rewrite (H 0%nat), (H 1%nat). destruct b as [|[|b]]; cbn [Nat.eqb]; [ring|ring|lia].
Qed.
Lemma rbsum_pos l f : (forall ix, (0 <= f ix)%R) -> (0 <= rbsum l f)%R.
Proof.
  revert f. induction l as [|l IH]; intros f H; cbn [rbsum]; [apply H|].
  apply Rplus_le_le_0_compat; apply IH; intros ix; apply H.
Qed.
Lemma rbsum_bnd l : forall f B, (forall ix, (forall j, (l <= j)%nat -> ix j = 0%nat) -> (f ix <= B)%R) -> (rbsum l f <= INR (2 ^ l) * B)%R.
Proof.
  induction l as [|l IH]; intros f B H; cbn [rbsum].
  - cbn [Nat.pow INR]. rewrite Rmult_1_l. apply H. intros; reflexivity.
  - rewrite Nat.pow_succ_r' , mult_INR. replace (INR 2 * INR (2 ^ l) * B)%R with (INR (2 ^ l) * B + INR (2 ^ l) * B)%R by (cbn [INR]; ring).
    apply Rplus_le_compat; apply IH; intros ix Hix; apply H; intros j Hj; (destruct (Nat.eq_dec j l) as [->|Hne]; [lia|]); rewrite ixset_other by lia; apply Hix; lia.
Qed.
Lemma hb_pos t ii l p b : (0 <= hb t ii l p b)%R.
Proof. apply rbsum_pos. intros ix. destruct (Nat.eqb (ix ii) b); [apply pow2_ge_0|lra]. Qed.

(* bound on the squared norm below a node *)
Definition PB (n : nat) : R := (INR (2 ^ n) * Gp n ^ 2)%R.
Lemma PB_ge1 n : (1 <= PB n)%R.
Proof.
  unfold PB. assert (H : (1 <= INR (2 ^ n))%R) by (change 1%R with (INR 1); apply le_INR; pose proof (Nat.pow_nonzero 2 n ltac:(lia)); lia).
  pose proof (Grn_ge1 n). assert (1 <= Gp n ^ 2)%R by (apply pow_R1_Rle; lra).
  replace 1%R with (1 * 1)%R by ring. apply Rmult_le_compat; lra.
Qed.
Lemma PB_mono m n : (m <= n)%nat -> (PB m <= PB n)%R.
Proof.
  intros H. unfold PB. pose proof (Grn_ge1 m). apply Rmult_le_compat.
  - apply pos_INR.
  - apply pow2_ge_0.
  - apply le_INR. apply Nat.pow_le_mono_r; lia.
  - apply pow_incr. pose proof (Grn_mono m n H). lra.
Qed.
Lemma rbsum_zero l : rbsum l (fun _ => 0%R) = 0%R.
Proof. induction l as [|l IH]; cbn [rbsum]; [reflexivity|]. rewrite IH. ring. Qed.
Lemma rbsum_split ii : forall l f, (ii < l)%nat ->
  (rbsum l (fun ix => if Nat.eqb (ix ii) 0 then f ix else 0%R) + rbsum l (fun ix => if Nat.eqb (ix ii) 1 then f ix else 0%R) = rbsum l f)%R.
Proof.
  induction l as [|l IH]; intros f Hi; [lia|]. cbn [rbsum]. destruct (Nat.eq_dec ii l) as [->|Hne].
  - rewrite (rbsum_ext l (fun k => if Nat.eqb (ixset k l 0 l) 0 then f (ixset k l 0) else 0%R) (fun k => f (ixset k l 0))) by (intros; rewrite ixset_same; reflexivity).
    rewrite (rbsum_ext l (fun k => if Nat.eqb (ixset k l 1 l) 0 then f (ixset k l 1) else 0%R) (fun k => 0%R)) by (intros; rewrite ixset_same; reflexivity).
    rewrite (rbsum_ext l (fun k => if Nat.eqb (ixset k l 0 l) 1 then f (ixset k l 0) else 0%R) (fun k => 0%R)) by (intros; rewrite ixset_same; reflexivity).
    rewrite (rbsum_ext l (fun k => if Nat.eqb (ixset k l 1 l) 1 then f (ixset k l 1) else 0%R) (fun k => f (ixset k l 1))) by (intros; rewrite ixset_same; reflexivity).
    rewrite !rbsum_zero. ring.
  - rewrite <- (IH (fun k => f (ixset k l 0)) ltac:(lia)), <- (IH (fun k => f (ixset k l 1)) ltac:(lia)).
    assert (X : forall b c, rbsum l (fun k => if Nat.eqb (ixset k l b ii) c then f (ixset k l b) else 0%R) = rbsum l (fun k => if Nat.eqb (k ii) c then f (ixset k l b) else 0%R)).
    { intros b c. apply rbsum_ext. intros k. rewrite ixset_other by lia. reflexivity. }
    rewrite !X. ring.
Qed.
Lemma hb_psum t ii l p : (ii < l)%nat -> (hb t ii l p 0 + hb t ii l p 1 = psum t l p)%R.
Proof. intros H. unfold hb, psum. apply (rbsum_split ii l (fun ix => (Cmod (valp KV t l p ix) ^ 2)%R) H). Qed.
Lemma psum_PB t n p : TInv KV t -> wfp KV t n p -> (psum t n p <= PB n)%R.
Proof.
  intros HT Hw. unfold psum, PB. apply rbsum_bnd. intros ix _. apply pow_incr. split; [apply Cmod_ge_0|].
  apply (valp_le1 KV t HT). left; exact Hw.
Qed.
Lemma hb_PB t ii l n p b : TInv KV t -> wfp KV t l p -> (ii < l)%nat -> (l <= n)%nat -> (b < 2)%nat -> (hb t ii l p b <= PB n)%R.
Proof.
  intros HT Hw Hi Hl Hb. pose proof (psum_PB t l p HT Hw) as H1. pose proof (hb_psum t ii l p Hi) as H2. pose proof (PB_mono l n Hl) as H3.
  pose proof (hb_pos t ii l p 0). pose proof (hb_pos t ii l p 1). destruct b as [|[|b]]; [| |lia]; lra.
Qed.

Lemma wfp_lvl t l l' p : wfp KV t l p -> wfp KV t l' p -> l = l'.
Proof.
  destruct l as [|l], l' as [|l']; intros H H'; auto.
  - cbn in H. destruct H' as (a & nd & E1 & _). congruence.
  - cbn in H'. destruct H as (a & nd & E1 & _). congruence.
  - destruct H as (a & nd & E1 & R1 & V1). destruct H' as (a' & nd' & E2 & R2 & V2).
    rewrite E1 in E2. inversion E2; subst a'. pose proof (reg_fun _ _ _ _ _ R1 R2). subst. lia.
Qed.
Lemma qsum_pos f q : (forall p, In p q -> (0 <= f p)%R) -> (0 <= qsum f q)%R.
Proof. induction q as [|p r IH]; intros H; cbn [qsum]; [lra|]. apply Rplus_le_le_0_compat; [apply H; left; auto|apply IH; intros; apply H; right; auto]. Qed.
Lemma qsum_in f q p : (forall x, In x q -> (0 <= f x)%R) -> In p q -> (f p <= qsum f q)%R.
Proof.
  induction q as [|x r IH]; intros H Hin; [destruct Hin|]. cbn [qsum]. destruct Hin as [->|Hin].
  - pose proof (qsum_pos f r ltac:(intros; apply H; right; auto)). lra.
  - pose proof (IH ltac:(intros; apply H; right; auto) Hin). pose proof (H x (or_introl Logic.eq_refl)). lra.
Qed.

(* rounding of one step of the breadth-first sum *)
Lemma nmul_est x y X e : (0 <= nr x)%R -> (0 <= nr y)%R -> (Rabs (nr x * nr y - X) <= e)%R ->
  (Rabs (nr (nmul x y) - X) <= dl * (nr x * nr y + 1) + e)%R.
Proof.
  intros Hx Hy H. pose proof (nmul_err x y) as N. rewrite (Rabs_pos_eq (nr x * nr y)) in N by (apply Rmult_le_pos; auto).
  replace (nr (nmul x y) - X)%R with ((nr (nmul x y) - nr x * nr y) + (nr x * nr y - X))%R by ring.
  eapply Rle_trans; [apply Rabs_triang|]. lra.
Qed.
Lemma norm_child w : iszero w = false -> (Cmod (cv w) <= Gr)%R ->
  (Cmod (cv w) ^ 2 <= 101 / 100)%R /\ (0 <= nr (norm2 w) <= 102 / 100)%R /\ (Rabs (nr (norm2 w) - Cmod (cv w) ^ 2) <= dl * (101 / 100))%R.
Proof.
  intros Hz Hw. pose proof dl_b as Hd. pose proof (norm_err w Hz) as N. pose proof (Cmod_ge_0 (cv w)) as H0.
  assert (H2 : (Cmod (cv w) ^ 2 <= 101 / 100)%R).
  { apply Rle_trans with (Gr ^ 2)%R; [apply pow_incr; lra|]. unfold Gr. cbn [pow]. nra. }
  pose proof (pow2_ge_0 (Cmod (cv w))) as H3. split; [exact H2|].
  assert (H4 : (dl * Cmod (cv w) ^ 2 <= dl * (101 / 100))%R) by (apply Rmult_le_compat_l; lra).
  split; [|lra]. pose proof (Logic.proj1 (norm_abs w)). apply SafeF.abs_between in N. split; [lra|]. nra.
Qed.
Lemma tmp_spec prob w (M : R) : iszero w = false -> (Cmod (cv w) <= Gr)%R -> (1 <= M)%R -> (0 <= nr prob <= M)%R ->
  (0 <= nr (nmul prob (norm2 w)) <= 2 * M)%R /\
  (Rabs (nr (nmul prob (norm2 w)) - nr prob * Cmod (cv w) ^ 2) <= dl * (4 * M))%R.
Proof.
  intros Hz Hw HM [Hp0 Hp]. destruct (norm_child w Hz Hw) as (N1 & [N2 N3] & N4). pose proof dl_b as Hd.
  assert (H : (Rabs (nr (nmul prob (norm2 w)) - nr prob * Cmod (cv w) ^ 2) <= dl * (nr prob * nr (norm2 w) + 1) + nr prob * (dl * (101 / 100)))%R).
  { apply nmul_est; auto. replace (nr prob * nr (norm2 w) - nr prob * Cmod (cv w) ^ 2)%R with (nr prob * (nr (norm2 w) - Cmod (cv w) ^ 2))%R by ring.
    rewrite Rabs_mult, (Rabs_pos_eq _ Hp0). apply Rmult_le_compat_l; auto. }
  assert (H1 : (nr prob * nr (norm2 w) <= M * (102 / 100))%R) by (apply Rmult_le_compat; auto).
  assert (H1' : (nr prob * Cmod (cv w) ^ 2 <= M * (101 / 100))%R) by (apply Rmult_le_compat; auto; apply pow2_ge_0).
  assert (H2 : (nr prob * (dl * (101 / 100)) <= M * (dl * (101 / 100)))%R) by (apply Rmult_le_compat_r; [nra|auto]).
  assert (H3 : (dl * (nr prob * nr (norm2 w) + 1) <= dl * (M * (102 / 100) + 1))%R) by (apply Rmult_le_compat_l; lra).
  assert (HdM : (0 <= dl * M)%R) by (apply Rmult_le_pos; lra). assert (HdM' : (dl <= dl * M)%R) by nra.
  assert (H4 : (Rabs (nr (nmul prob (norm2 w)) - nr prob * Cmod (cv w) ^ 2) <= dl * (4 * M))%R) by nra.
  split; [|exact H4]. split; [apply nmul_pos; auto|]. apply SafeF.abs_between in H4. nra.
Qed.
Lemma upd_spec r tmp (M X : R) : (1 <= M)%R -> (0 <= nr r <= M)%R -> (0 <= nr tmp <= 2 * M)%R -> (Rabs (nr tmp - X) <= dl * (4 * M))%R ->
  (0 <= nr (nadd r tmp))%R /\ (Rabs (nr (nadd r tmp) - (nr r + X)) <= dl * (8 * M))%R.
Proof.
  intros HM [Hr0 Hr] [Ht0 Ht] HX. destruct (nadd_err r tmp Hr0 Ht0) as [N1 N2]. pose proof dl_b as Hd. split; [lra|].
  replace (nr (nadd r tmp) - (nr r + X))%R with ((nr (nadd r tmp) - (nr r + nr tmp)) + (nr tmp - X))%R by ring.
  eapply Rle_trans; [apply Rabs_triang|].
  assert (dl * (nr r + nr tmp) <= dl * (3 * M))%R by (apply Rmult_le_compat_l; lra).
  assert (0 <= dl * M)%R by (apply Rmult_le_pos; lra). lra.
Qed.

Lemma pmget_same pm p x : pmget (pmset pm p x) p = x.
Proof. unfold pmget, pmset. rewrite ptr_eqb_refl. reflexivity. Qed.
Lemma pmget_other pm p x q : q <> p -> pmget (pmset pm p x) q = pmget pm q.
Proof. intros H. unfold pmget, pmset. destruct (ptr_eqb p q) eqn:Hq; [|reflexivity]. apply ptr_eqb_eq in Hq. congruence. Qed.

Section Bfs.
Context (s : state) (ii n : nat) (HI : Inv s).
Let t := tb s KV.
Context (P : ptr -> Prop)
  (HP : forall a nd c, P (Node a) -> reg KV t a nd -> In c (nch nd) -> P (en c)).
Let HT : TInv KV t := inv_tb _ HI KV.
Context (M D : R) (HM : (1 <= M)%R) (HD : (dl * (8 * M) * PB n <= D)%R).

Record binv (L : nat) (pm : ptr -> option num) (vis B : list ptr) : Prop := {
  bi_nd : NoDup B;
  bi_wf : forall p, In p B -> wfp KV t L p /\ In p vis /\ P p;
  bi_vis : forall p, In p vis -> wfp KV t L p -> In p B;
  bi_vnd : NoDup vis;
  bi_vl : forall p, In p vis -> exists l, (L <= l)%nat /\ (1 <= l)%nat /\ wfp KV t l p;
  bi_pos : forall p, (0 <= nr (pmget pm p))%R
}.
Definition W (L : nat) (pm : ptr -> option num) (b : nat) (q : list ptr) : R :=
  qsum (fun p => (nr (pmget pm p) * hb t ii L p b)%R) q.
Lemma W_pos L pm b q : (forall p, (0 <= nr (pmget pm p))%R) -> (0 <= W L pm b q)%R.
Proof. intros H. apply qsum_pos. intros p _. apply Rmult_le_pos; [apply H|apply hb_pos]. Qed.
(* an entry is at most the total weight of the queue *)
Lemma W_in L pm q p : (forall p, (0 <= nr (pmget pm p))%R) -> (ii < L)%nat -> wfp KV t L p -> In p q ->
  (nr (pmget pm p) <= W L pm 0 q + W L pm 1 q)%R.
Proof.
  intros H Hi Hw Hin.
  assert (X : forall b, (nr (pmget pm p) * hb t ii L p b <= W L pm b q)%R).
  { intros b. apply (qsum_in (fun p => (nr (pmget pm p) * hb t ii L p b)%R) q p); auto. intros x _. apply Rmult_le_pos; [apply H|apply hb_pos]. }
  pose proof (X 0%nat). pose proof (X 1%nat). pose proof (hb_psum t ii L p Hi) as Hs. pose proof (psum_ge1 t HT L p Hw) as Hge.
  pose proof (H p) as Hpp. assert (nr (pmget pm p) * 1 <= nr (pmget pm p) * (hb t ii L p 0 + hb t ii L p 1))%R by (apply Rmult_le_compat_l; lra). lra.
Qed.

Lemma visit_spec L pm vis A B c prob : binv L pm vis B -> (ii < L <= n)%nat -> wfe KV t L c -> P (en c) ->
  (iszero (ew c) = true -> c = zeroE) -> (Cmod (cv (ew c)) <= Gr)%R -> (0 <= nr prob <= M)%R ->
  (forall p, In p B -> (nr (pmget pm p) <= M)%R) ->
  exists pm' vis' B', visit prob c (pm, vis, A ++ B) = (pm', vis', A ++ B') /\
    binv L pm' vis' B' /\
    (forall b, (b < 2)%nat -> (Rabs (W L pm' b B' - (W L pm b B + nr prob * (Cmod (cv (ew c)) ^ 2 * hb t ii L (en c) b))) <= D)%R) /\
    (length vis' + length B = length vis + length B')%nat /\ (length B' <= S (length B))%nat /\
    (forall p, ~ wfp KV t L p -> pm' p = pm p) /\
    (iszero (ew c) = false \/ B <> [] -> B' <> []).
Proof.
  intros HB HL Hc HPc Hz Hc1 Hprob HrM. unfold visit.
  assert (HdM : (0 <= dl * (8 * M))%R) by (pose proof dl_b; apply Rmult_le_pos; lra).
  assert (HD0 : (0 <= D)%R) by (eapply Rle_trans; [|exact HD]; apply Rmult_le_pos; [exact HdM|]; pose proof (PB_ge1 n); lra).
  destruct (iszero (ew c)) eqn:Hzc.
  - exists pm, vis, B. split; [reflexivity|]. split; [exact HB|]. split.
    { intros b Hb. rewrite (Hz Logic.eq_refl). cbn [ew zeroE]. rewrite cv_0, Cmod_0.
      replace (W L pm b B - (W L pm b B + nr prob * (0 ^ 2 * hb t ii L (en zeroE) b)))%R with 0%R by ring. rewrite Rabs_R0. exact HD0. }
    split; [lia|]. split; [lia|]. split; [reflexivity|]. intros [X|X]; [discriminate|exact X].
  - assert (Hw : wfp KV t L (en c)) by (apply (wfe_nz KV t L c Hc), z_nz, Hzc).
    destruct (tmp_spec prob (ew c) M Hzc Hc1 HM Hprob) as [Ht1 Ht2]. set (tmp := nmul prob (norm2 (ew c))) in *.
    assert (Hsc : forall b x, (b < 2)%nat -> (Rabs x <= dl * (8 * M))%R -> (Rabs (x * hb t ii L (en c) b) <= D)%R).
    { intros b x Hb Hx. pose proof (hb_pos t ii L (en c) b) as H0. pose proof (hb_PB t ii L n (en c) b HT Hw ltac:(lia) ltac:(lia) Hb) as H1.
      rewrite Rabs_mult, (Rabs_pos_eq _ H0). eapply Rle_trans; [|exact HD]. apply Rmult_le_compat; auto. apply Rabs_pos. }
    destruct HB as [b1 b2 b3 b4 b5 b6].
    destruct (existsb (ptr_eqb (en c)) vis) eqn:Hex.
    + apply existsb_exists in Hex. destruct Hex as (p & Hin & Hp). apply ptr_eqb_eq in Hp. subst p.
      pose proof (b3 _ Hin Hw) as HinB.
      destruct (upd_spec (pmget pm (en c)) tmp M (nr prob * Cmod (cv (ew c)) ^ 2)%R HM (conj (b6 _) (HrM _ HinB)) Ht1 Ht2) as [U1 U2].
      set (x := nadd (pmget pm (en c)) tmp) in *.
      exists (pmset pm (en c) x), vis, B. split; [reflexivity|].
      split; [constructor; auto|].
      { intros p. destruct (ptr_eqb (en c) p) eqn:Hq; [apply ptr_eqb_eq in Hq; subst p; rewrite pmget_same; exact U1|].
        rewrite pmget_other; [apply b6|]. intros ->. rewrite ptr_eqb_refl in Hq. discriminate. }
      split; [|split; [lia|split; [lia|split]]].
      * intros b Hb. unfold W.
        rewrite (qsum_upd (fun p => (nr (pmget pm p) * hb t ii L p b)%R) (fun p => (nr (pmget (pmset pm (en c) x) p) * hb t ii L p b)%R) (en c)
           ((nr x - nr (pmget pm (en c))) * hb t ii L (en c) b)%R B b1 HinB).
        -- match goal with |- (Rabs ?u <= _)%R => replace u with ((nr x - (nr (pmget pm (en c)) + nr prob * Cmod (cv (ew c)) ^ 2)) * hb t ii L (en c) b)%R by ring end.
           apply Hsc; auto.
        -- rewrite pmget_same. ring.
        -- intros p Hp. rewrite pmget_other by auto. reflexivity.
      * intros p Hp. unfold pmset. destruct (ptr_eqb (en c) p) eqn:Hq; [|reflexivity]. apply ptr_eqb_eq in Hq. subst p. contradiction.
      * intros _ ->. destruct HinB.
    + assert (Hnin : ~ In (en c) vis).
      { intros X. assert (existsb (ptr_eqb (en c)) vis = true); [|congruence]. apply existsb_exists. exists (en c). split; [exact X|apply ptr_eqb_refl]. }
      exists (pmset pm (en c) tmp), (en c :: vis), (B ++ [en c]). rewrite app_assoc. split; [reflexivity|].
      assert (HninB : ~ In (en c) B). { intros X. apply Hnin. apply b2. exact X. }
      split; [constructor|].
      * apply NoDup_rev in b1; rewrite <- (rev_involutive (B ++ [en c])); apply NoDup_rev; rewrite rev_app_distr; cbn; constructor; [rewrite <- in_rev; exact HninB|exact b1].
      * intros p Hp. apply in_app_iff in Hp. destruct Hp as [Hp|[<-|[]]].
        -- destruct (b2 p Hp) as (X & Y & Z'). split; [exact X|]. split; [right; exact Y|exact Z'].
        -- split; [exact Hw|]. split; [left; reflexivity|exact HPc].
      * intros p [<-|Hp] Hwp; apply in_app_iff; [right; left; reflexivity|left; auto].
      * constructor; auto.
      * intros p [<-|Hp]; [exists L; split; [lia|]; split; [lia|exact Hw]|auto].
      * intros p. destruct (ptr_eqb (en c) p) eqn:Hq; [apply ptr_eqb_eq in Hq; subst p; rewrite pmget_same; apply Ht1|].
        rewrite pmget_other; [apply b6|]. intros ->. rewrite ptr_eqb_refl in Hq. discriminate.
      * split; [|split; [rewrite app_length; cbn; lia|split; [rewrite app_length; cbn; lia|split]]].
        -- intros b Hb. unfold W. rewrite qsum_app. cbn [qsum]. rewrite pmget_same.
           rewrite (qsum_ext (fun p => (nr (pmget (pmset pm (en c) tmp) p) * hb t ii L p b)%R) (fun p => (nr (pmget pm p) * hb t ii L p b)%R) B).
           2:{ intros p Hp. rewrite pmget_other; [reflexivity|]. intros ->. contradiction. }
           match goal with |- (Rabs ?u <= _)%R => replace u with ((nr tmp - nr prob * Cmod (cv (ew c)) ^ 2) * hb t ii L (en c) b)%R by ring end.
           apply Hsc; auto. pose proof dl_b. assert (0 <= dl * M)%R by (apply Rmult_le_pos; lra). lra.
        -- intros p Hp. unfold pmset. destruct (ptr_eqb (en c) p) eqn:Hq; [|reflexivity]. apply ptr_eqb_eq in Hq. subst p. contradiction.
        -- intros _ X. destruct B; discriminate.
Qed.

Lemma vis_bound (vis : list ptr) : NoDup vis -> (forall p, In p vis -> exists l, (1 <= l)%nat /\ wfp KV t l p) ->
  (length vis < Pos.to_nat (nexta t))%nat.
Proof.
  intros Hnd Hw.
  assert (Hinc : incl vis (map (fun i => Node (Pos.of_nat i)) (seq 1 (Pos.to_nat (nexta t) - 1)))).
  { intros p Hp. destruct (Hw p Hp) as (l & Hl & Hwp). destruct l as [|l]; [lia|]. destruct Hwp as (a & nd & -> & [Hr _] & _).
    pose proof (ti_next _ _ HT a nd Hr) as Hlt. apply in_map_iff. exists (Pos.to_nat a). split; [rewrite Pos2Nat.id; reflexivity|].
    apply in_seq. pose proof (Pos2Nat.is_pos a). lia. }
  pose proof (NoDup_incl_length Hnd Hinc) as H. rewrite map_length, seq_length in H. pose proof (Pos2Nat.is_pos (nexta t)). lia.
Qed.

(* the number of queue entries still to come from a queue of entries of level l *)
Definition pot (l : nat) : nat := (2 ^ (l - ii) - 1)%nat.
Lemma pot_S L : (ii <= L)%nat -> (pot (S L) = 2 * pot L + 1)%nat.
Proof.
  intros H. unfold pot. replace (S L - ii)%nat with (S (L - ii)) by lia. rewrite Nat.pow_succ_r'.
  pose proof (Nat.pow_nonzero 2 (L - ii) ltac:(lia)). lia.
Qed.

Lemma bfs_spec (T : nat -> R) (K : nat) (HT0 : (0 <= T 0%nat)%R) (HT1 : (0 <= T 1%nat)%R)
  (HK : (T 0%nat + T 1%nat + 2 * (INR K * D) <= M)%R) (HD0 : (0 <= D)%R) : forall fuel L pm vis A B k j,
  binv L pm vis B -> NoDup A -> (forall p, In p A -> wfp KV t (S L) p /\ P p) -> A <> [] ->
  (ii <= L < n)%nat -> (L = ii -> B = []) ->
  (forall b, (b < 2)%nat -> (Rabs (W (S L) pm b A + W L pm b B - T b) <= INR j * D)%R) ->
  (j + 2 * (length A * pot (S L) + length B * pot L) <= K)%nat ->
  (length vis = k + length A + length B)%nat -> (Pos.to_nat (nexta t) <= fuel + k)%nat ->
  exists pm' q j', bfs s fuel (Z.of_nat ii) (pm, vis, A ++ B) = Some (pm', q) /\
    (forall p, In p q -> wfp KV t (S ii) p /\ P p) /\ (forall p, (0 <= nr (pmget pm' p))%R) /\
    (j' + 2 * length q <= K)%nat /\
    (forall b, (b < 2)%nat -> (Rabs (W (S ii) pm' b q - T b) <= INR j' * D)%R).
Proof.
  induction fuel as [|f IH]; intros L pm vis A B k j HB HA HAw HAne HL HLB HT' Hpot Hlen Hfuel.
  all: destruct A as [|p A]; [congruence|]; clear HAne; cbn [app bfs]; fold bfs.
  all: destruct (HAw p (or_introl Logic.eq_refl)) as [(a & nd & -> & Hr & Hv) HPa].
  all: rewrite (readn_reg KV s a nd Hr), Hv.
  all: destruct (Z.eqb_spec (Z.of_nat L) (Z.of_nat ii)) as [HLi|HLi].
  1,3: apply Nat2Z.inj in HLi; subst L; rewrite (HLB Logic.eq_refl) in *; exists pm, ((Node a :: A) ++ []), j;
       (split; [reflexivity|]); rewrite app_nil_r; (split; [exact HAw|]); (split; [apply (bi_pos _ _ _ _ HB)|]);
       (split; [rewrite pot_S in Hpot by lia; nia|]);
       intros b Hb; pose proof (HT' b Hb) as X; unfold W in *; cbn [qsum] in *; rewrite Rplus_0_r in X; exact X.
  - exfalso. pose proof (vis_bound vis (bi_vnd _ _ _ _ HB)) as Hvb.
    assert ((length vis < Pos.to_nat (nexta t))%nat); [|lia].
    apply Hvb. intros q Hq. destruct (bi_vl _ _ _ _ HB q Hq) as (l & _ & X & Y). exists l. auto.
  - assert (HL' : (ii < L)%nat) by lia.
    pose proof (reg_ok KV _ a nd HT Hr) as Hok.
    rewrite (chd_null KV _ nd 0 Hok), (chd_null KV _ nd 1 Hok) by (cbn; lia).
    assert (Hin : forall b, (b < 2)%nat -> In (chd nd b) (nch nd)).
    { intros b Hb. apply nth_In. rewrite (no_len _ _ _ Hok). exact Hb. }
    assert (Hwc : forall b, wfe KV t L (chd nd b)) by (intros b; apply (child_wfe t a nd L b HT Hr Hv)).
    assert (Hle : forall b, (Cmod (cv (ew (chd nd b))) <= Gr)%R) by (intros b; apply (reg_child_le1 KV t a nd b HT Hr)).
    pose proof (bi_pos _ _ _ _ HB) as Hpos.
    cbn [length] in Hpot. rewrite (pot_S L) in Hpot by lia.
    assert (HjK : (INR (j + 1) * D <= INR K * D)%R) by (apply Rmult_le_compat_r; [exact HD0|]; apply le_INR; nia).
    rewrite plus_INR in HjK. cbn [INR] in HjK.
    set (prob := pmget pm (Node a)) in *.
    assert (HWA : forall q, (0 <= W (S L) pm 0 q)%R /\ (0 <= W (S L) pm 1 q)%R) by (intros; split; apply W_pos; exact Hpos).
    assert (HWB : forall q, (0 <= W L pm 0 q)%R /\ (0 <= W L pm 1 q)%R) by (intros; split; apply W_pos; exact Hpos).
    pose proof (HT' 0%nat ltac:(lia)) as E0. pose proof (HT' 1%nat ltac:(lia)) as E1. apply SafeF.abs_between in E0, E1.
    pose proof (HWA (Node a :: A)) as HA0. pose proof (HWB B) as HB0.
    assert (HprobM : (0 <= nr prob <= M)%R).
    { split; [apply Hpos|]. assert (Hwa : wfp KV t (S L) (Node a)) by (apply (HAw (Node a)); left; reflexivity).
      pose proof (W_in (S L) pm (Node a :: A) (Node a) Hpos ltac:(lia) Hwa (or_introl Logic.eq_refl)) as X.
      fold prob in X. lra. }
    assert (HBM : forall p, In p B -> (nr (pmget pm p) <= M)%R).
    { intros p Hp. destruct (bi_wf _ _ _ _ HB p Hp) as (Hwp & _ & _).
      pose proof (W_in L pm B p Hpos ltac:(lia) Hwp Hp) as X. lra. }
    destruct (visit_spec L pm vis A B (chd nd 0) prob HB ltac:(lia) (Hwc 0%nat) (HP a nd _ HPa Hr (Hin 0%nat ltac:(lia)))
       (no_zero _ _ _ Hok _ (Hin 0%nat ltac:(lia))) (Hle 0%nat) HprobM HBM) as (pm1 & vis1 & B1 & V1 & I1 & S1 & L1 & Q1 & O1 & N1).
    rewrite V1.
    pose proof (bi_pos _ _ _ _ I1) as Hpos1.
    assert (Hcons : forall b, W (S L) pm b (Node a :: A) = (nr prob * (Cmod (cv (ew (chd nd 0))) ^ 2 * hb t ii L (en (chd nd 0)) b)
        + nr prob * (Cmod (cv (ew (chd nd 1))) ^ 2 * hb t ii L (en (chd nd 1)) b) + W (S L) pm b A)%R).
    { intros b. unfold W. cbn [qsum]. fold prob. rewrite (hb_step t ii L a nd b Hr Hv HL'). ring. }
    assert (Hnn : forall c b, (0 <= nr prob * (Cmod (cv (ew c)) ^ 2 * hb t ii L (en c) b))%R).
    { intros c b. apply Rmult_le_pos; [lra|]. apply Rmult_le_pos; [apply pow2_ge_0|apply hb_pos]. }
    assert (HB1M : forall p, In p B1 -> (nr (pmget pm1 p) <= M)%R).
    { intros p Hp. destruct (bi_wf _ _ _ _ I1 p Hp) as (Hwp & _ & _).
      pose proof (W_in L pm1 B1 p Hpos1 ltac:(lia) Hwp Hp) as X.
      pose proof (S1 0%nat ltac:(lia)) as Y0. pose proof (S1 1%nat ltac:(lia)) as Y1. apply SafeF.abs_between in Y0, Y1.
      rewrite Hcons in E0, E1. pose proof (Hnn (chd nd 1) 0%nat). pose proof (Hnn (chd nd 1) 1%nat). pose proof (HWA A). lra. }
    destruct (visit_spec L pm1 vis1 A B1 (chd nd 1) prob I1 ltac:(lia) (Hwc 1%nat) (HP a nd _ HPa Hr (Hin 1%nat ltac:(lia)))
       (no_zero _ _ _ Hok _ (Hin 1%nat ltac:(lia))) (Hle 1%nat) HprobM HB1M) as (pm2 & vis2 & B2 & V2 & I2 & S2 & L2 & Q2 & O2 & N2).
    rewrite V2.
    assert (HB2 : B2 <> []).
    { destruct (no_max _ _ _ Hok) as (i & Hi & Hone). fold (chd nd i) in Hone. cbn in Hi.
      apply N2. destruct i as [|[|i]]; [right; apply N1; left|left|lia]; rewrite Hone; apply z_1. }
    inversion HA as [|x y HnA HAnd]; subst x y.
    assert (Hpm : forall q, In q A -> pm2 q = pm q).
    { intros q Hq. destruct (HAw q (or_intror Hq)) as [Hwq _].
      assert (Hn : ~ wfp KV t L q) by (intros X; pose proof (wfp_lvl _ _ _ _ X Hwq); lia).
      rewrite (O2 q Hn). apply O1. exact Hn. }
    assert (HT2 : forall b, (b < 2)%nat -> (Rabs (W (S L) pm2 b A + W L pm2 b B2 - T b) <= INR (j + 2) * D)%R).
    { intros b Hb. assert (HWA2 : W (S L) pm2 b A = W (S L) pm b A).
      { unfold W. apply qsum_ext. intros q Hq. unfold pmget. rewrite (Hpm q Hq). reflexivity. }
      rewrite HWA2. pose proof (HT' b Hb) as X. rewrite Hcons in X. pose proof (S1 b Hb) as Y1. pose proof (S2 b Hb) as Y2.
      rewrite plus_INR. cbn [INR]. apply SafeF.abs_between in X, Y1, Y2. apply Rabs_le. lra. }
    assert (HB2len : (length B2 <= length B + 2)%nat) by lia.
    destruct A as [|q0 A'] eqn:EA.
    + (* the level is exhausted: the next one is B2 *)
      destruct L as [|L']; [lia|].
      rewrite (app_nil_l B2). rewrite <- (app_nil_r B2).
      apply (IH L' pm2 vis2 B2 [] (S k) (j + 2)%nat).
      * constructor.
        -- constructor.
        -- intros q [].
        -- intros q Hq Hwq. destruct (bi_vl _ _ _ _ I2 q Hq) as (l & Hl & _ & Y). pose proof (wfp_lvl _ _ _ _ Y Hwq). lia.
        -- exact (bi_vnd _ _ _ _ I2).
        -- intros q Hq. destruct (bi_vl _ _ _ _ I2 q Hq) as (l & Hl & X & Y). exists l. split; [lia|auto].
        -- exact (bi_pos _ _ _ _ I2).
      * exact (bi_nd _ _ _ _ I2).
      * intros q Hq. destruct (bi_wf _ _ _ _ I2 q Hq) as (X & _ & Y). auto.
      * exact HB2.
      * lia.
      * reflexivity.
      * intros b Hb. pose proof (HT2 b Hb) as X. unfold W in *. cbn [qsum] in *. rewrite Rplus_0_l in X. rewrite Rplus_0_r. exact X.
      * cbn [length] in *. nia.
      * cbn [length] in *. lia.
      * lia.
    + rewrite <- EA in *.
      apply (IH L pm2 vis2 A B2 (S k) (j + 2)%nat).
      * exact I2.
      * exact HAnd.
      * intros q Hq. apply HAw. right. exact Hq.
      * rewrite EA. discriminate.
      * lia.
      * lia.
      * exact HT2.
      * rewrite (pot_S L) by lia. nia.
      * cbn [length] in *. lia.
      * lia.
Qed.
End Bfs.

Lemma powu j : (INR j * dl <= 1 / 2)%R -> ((1 + dl) ^ j <= 1 + 2 * (INR j * dl))%R.
Proof.
  pose proof dl_b as Hd. induction j as [|j IH]; intros H; [cbn [pow INR]; lra|]. rewrite S_INR in *. cbn [pow].
  assert (Hj : (0 <= INR j * dl)%R) by (apply Rmult_le_pos; [apply pos_INR|lra]).
  assert (H' : (INR j * dl <= 1 / 2)%R) by lra. specialize (IH H').
  apply Rle_trans with ((1 + dl) * (1 + 2 * (INR j * dl)))%R; [apply Rmult_le_compat_l; lra|].
  assert (dl * (2 * (INR j * dl)) <= dl * 1)%R by (apply Rmult_le_compat_l; lra). lra.
Qed.
Lemma within_abs j x X : (j <= 400)%nat -> (0 <= X)%R -> within j x X -> (Rabs (x - X) <= 2 * (INR j * dl) * X)%R.
Proof.
  intros Hj HX [H1 H2]. pose proof dl_b as Hd.
  assert (Hjd : (0 <= INR j * dl <= 1 / 2)%R).
  { split; [apply Rmult_le_pos; [apply pos_INR|lra]|]. apply Rle_trans with (400 * (1 / 800))%R; [|lra].
    apply Rmult_le_compat; [apply pos_INR|lra| |lra]. replace 400%R with (INR 400) by (cbn [INR]; ring). now apply le_INR. }
  pose proof (bern j) as L. pose proof (powu j ltac:(lra)) as U.
  assert (X * (1 - INR j * dl) <= X * (1 - dl) ^ j)%R by (apply Rmult_le_compat_l; auto).
  assert (X * (1 + dl) ^ j <= X * (1 + 2 * (INR j * dl)))%R by (apply Rmult_le_compat_l; auto).
  assert (0 <= X * (INR j * dl))%R by (apply Rmult_le_pos; lra).
  apply Rabs_le. lra.
Qed.

(* one summand: src/dd.cpp:1704-1724 *)
Lemma summand_spec w x c (M Q X : R) n : iszero c = false -> (Cmod (cv c) <= Gr)%R -> (0 <= nr w <= M)%R -> (0 <= X)%R -> (M * X <= Q)%R -> (1 <= Q)%R ->
  (n <= 100)%nat -> (Rabs (nr x - X) <= 2 * (INR (3 * n) * dl) * X)%R ->
  (0 <= nr (nmul (nmul w x) (norm2 c)) <= 8 * Q)%R /\
  (Rabs (nr (nmul (nmul w x) (norm2 c)) - nr w * (Cmod (cv c) ^ 2 * X)) <= dl * Q * (7 * INR n + 14))%R.
Proof.
  intros Hz Hc [Hw0 Hw] HX HQ HQ1 Hn Hx. destruct (norm_child c Hz Hc) as (N1 & [N2 N3] & N4). pose proof dl_b as Hd.
  set (Z := (nr w * X)%R).
  assert (HZ : (0 <= Z <= Q)%R).
  { unfold Z. split; [apply Rmult_le_pos; auto|]. apply Rle_trans with (M * X)%R; [apply Rmult_le_compat_r; auto|exact HQ]. }
  set (d := (INR n * dl)%R). replace (2 * (INR (3 * n) * dl) * X)%R with (6 * d * X)%R in Hx by (unfold d; rewrite mult_INR; cbn [INR]; ring).
  assert (Hdn : (0 <= d <= 1 / 8)%R).
  { unfold d. split; [apply Rmult_le_pos; [apply pos_INR|lra]|]. apply Rle_trans with (100 * (1 / 800))%R; [|lra].
    apply Rmult_le_compat; [apply pos_INR|lra| |lra]. replace 100%R with (INR 100) by (cbn [INR]; ring). now apply le_INR. }
  assert (HdX : (6 * d * X <= 6 * (1 / 8) * X)%R) by (apply Rmult_le_compat_r; lra).
  apply SafeF.abs_between in Hx as Hx'. assert (Hx0 : (0 <= nr x)%R) by lra. assert (Hx2 : (nr x <= 2 * X)%R) by lra.
  assert (Hwx : (0 <= nr w * nr x <= 2 * Z)%R).
  { split; [apply Rmult_le_pos; auto|]. unfold Z. replace (2 * (nr w * X))%R with (nr w * (2 * X))%R by ring. apply Rmult_le_compat_l; auto. }
  assert (Y1 : (Rabs (nr (nmul w x) - Z) <= dl * (nr w * nr x + 1) + 6 * d * Z)%R).
  { apply nmul_est; auto. unfold Z. replace (nr w * nr x - nr w * X)%R with (nr w * (nr x - X))%R by ring.
    rewrite Rabs_mult, (Rabs_pos_eq _ Hw0). replace (6 * d * (nr w * X))%R with (nr w * (6 * d * X))%R by ring. apply Rmult_le_compat_l; auto. }
  set (y := nr (nmul w x)) in *. assert (Hy0 : (0 <= y)%R) by (apply nmul_pos; auto).
  assert (HdZ : (6 * d * Z <= 6 * d * Q)%R) by (apply Rmult_le_compat_l; lra).
  assert (HdQ : (d * Q <= 1 / 8 * Q)%R) by (apply Rmult_le_compat_r; lra).
  assert (HlQ : (0 <= dl * Q)%R) by (apply Rmult_le_pos; lra). assert (HlQ1 : (dl <= dl * Q)%R) by nra.
  assert (HlQ2 : (dl * Q <= 1 / 800 * Q)%R) by (apply Rmult_le_compat_r; lra).
  assert (Ydl : (dl * (nr w * nr x + 1) <= dl * (2 * Q + 1))%R) by (apply Rmult_le_compat_l; lra).
  assert (Yb : (Rabs (y - Z) <= 3 * (dl * Q) + 6 * (d * Q))%R) by (eapply Rle_trans; [exact Y1|]; lra).
  assert (HdQ0 : (0 <= d * Q)%R) by (apply Rmult_le_pos; lra).
  assert (Hy3 : (y <= 3 * Q)%R) by (apply SafeF.abs_between in Yb; lra).
  assert (Hyn : (0 <= y * nr (norm2 c) <= 4 * Q)%R).
  { split; [apply Rmult_le_pos; auto|]. apply Rle_trans with (3 * Q * (102 / 100))%R; [apply Rmult_le_compat; auto|lra]. }
  assert (R1 : (Rabs (nr (nmul (nmul w x) (norm2 c)) - Z * Cmod (cv c) ^ 2) <= dl * (y * nr (norm2 c) + 1) + ((3 * (dl * Q) + 6 * (d * Q)) * (102 / 100) + Q * (dl * (101 / 100))))%R).
  { apply nmul_est; auto. fold y.
    replace (y * nr (norm2 c) - Z * Cmod (cv c) ^ 2)%R with ((y - Z) * nr (norm2 c) + Z * (nr (norm2 c) - Cmod (cv c) ^ 2))%R by ring.
    eapply Rle_trans; [apply Rabs_triang|]. rewrite !Rabs_mult. apply Rplus_le_compat.
    - rewrite (Rabs_pos_eq (nr (norm2 c))) by auto. apply Rmult_le_compat; auto. apply Rabs_pos.
    - rewrite (Rabs_pos_eq Z) by lra. apply Rmult_le_compat; auto; [lra|apply Rabs_pos|lra]. }
  assert (R2 : (dl * (y * nr (norm2 c) + 1) <= dl * (4 * Q + 1))%R) by (apply Rmult_le_compat_l; lra).
  assert (R3 : (Rabs (nr (nmul (nmul w x) (norm2 c)) - Z * Cmod (cv c) ^ 2) <= 14 * (dl * Q) + 7 * (d * Q))%R) by (eapply Rle_trans; [exact R1|]; lra).
  assert (HZc : (0 <= Z * Cmod (cv c) ^ 2 <= Q * (101 / 100))%R).
  { split; [apply Rmult_le_pos; [lra|apply pow2_ge_0]|]. apply Rmult_le_compat; auto; [lra|apply pow2_ge_0|lra]. }
  split.
  - split; [apply nmul_pos; [apply Hy0|exact N2]|]. apply SafeF.abs_between in R3. lra.
  - replace (nr w * (Cmod (cv c) ^ 2 * X))%R with (Z * Cmod (cv c) ^ 2)%R by (unfold Z; ring).
    replace (dl * Q * (7 * INR n + 14))%R with (14 * (dl * Q) + 7 * (d * Q))%R by (unfold d; ring). exact R3.
Qed.

Lemma side_spec s w ii n a nd b (M : R) : Inv s -> reg KV (tb s KV) a nd -> nv nd = Z.of_nat ii -> (b < 2)%nat ->
  probs s (Node a) <> None -> (ii < n <= 100)%nat -> (1 <= M)%R -> (0 <= nr w <= M)%R ->
  exists y, side s w (chd nd b) = Some y /\ (0 <= nr y <= 8 * (M * PB n))%R /\
    (Rabs (nr y - nr w * hb (tb s KV) ii (S ii) (Node a) b) <= dl * (M * PB n) * (7 * INR n + 14))%R.
Proof.
  intros HI Hr Hv Hb Hp Hn HM Hw. pose proof (inv_tb _ HI KV) as HT. pose proof (reg_ok KV _ a nd HT Hr) as Hok.
  assert (Hin : In (chd nd b) (nch nd)). { apply nth_In. rewrite (no_len _ _ _ Hok). exact Hb. }
  pose proof dl_b as Hd. pose proof (PB_ge1 n) as HP1.
  assert (HQ1 : (1 <= M * PB n)%R) by (replace 1%R with (1 * 1)%R by ring; apply Rmult_le_compat; lra).
  rewrite (hb_base _ ii a nd b Hr Hv Hb). unfold side. destruct (iszero (ew (chd nd b))) eqn:Hz.
  - exists n0. split; [reflexivity|]. rewrite nr_0, (no_zero _ _ _ Hok _ Hin Hz). cbn [ew zeroE]. rewrite cv_0, Cmod_0. split; [lra|].
    match goal with |- (Rabs ?u <= _)%R => replace u with 0%R by ring end. rewrite Rabs_R0.
    apply Rmult_le_pos; [apply Rmult_le_pos; lra|]. pose proof (pos_INR n). lra.
  - destruct (probs s (Node a)) as [x|] eqn:Hx; [|congruence].
    destruct (inv_pr _ HI _ _ Hx) as [[X _]|(m' & a' & nd' & H1 & H2 & H3 & H4 & H5)]; [discriminate|].
    inversion H1; subst a'. pose proof (reg_fun _ _ _ _ _ Hr H2). subst nd'.
    pose proof (H5 _ Hin) as Hc. destruct (probs s (en (chd nd b))) as [y|] eqn:Hy; [|congruence].
    pose proof (child_wfe _ a nd ii b HT Hr Hv) as Wc.
    assert (Wp : wfp KV (tb s KV) ii (en (chd nd b))) by (apply (wfe_nz KV _ _ _ Wc), z_nz, Hz).
    pose proof (prob_ok_val _ _ ii _ _ (inv_pr _ HI _ _ Hy) Wp) as Hyv.
    pose proof (psum_nonneg (tb s KV) ii (en (chd nd b))) as Hp0. pose proof (psum_PB _ ii _ HT Wp) as Hp1. pose proof (PB_mono ii n ltac:(lia)) as Hp2.
    pose proof (within_abs (3 * ii) _ _ ltac:(lia) Hp0 Hyv) as Ha.
    exists (nmul (nmul w y) (norm2 (ew (chd nd b)))). split; [reflexivity|].
    apply (summand_spec w y (ew (chd nd b)) M (M * PB n) (psum (tb s KV) ii (en (chd nd b))) n Hz (reg_child_le1 KV _ a nd b HT Hr) Hw Hp0); auto; try lia.
    + apply Rmult_le_compat_l; lra.
    + eapply Rle_trans; [exact Ha|]. apply Rmult_le_compat_r; [exact Hp0|]. apply Rmult_le_compat_l; [lra|]. apply Rmult_le_compat_r; [lra|]. apply le_INR. lia.
Qed.

Lemma sumq_spec s pm ii n (M D : R) (T : nat -> R) (K : nat) : Inv s -> (ii < n <= 100)%nat -> (1 <= M)%R ->
  (dl * (M * PB n) * (7 * INR n + 24) <= D)%R -> (0 <= D)%R ->
  (0 <= T 0%nat)%R -> (0 <= T 1%nat)%R -> (T 0%nat + T 1%nat + 2 * (INR K * D) <= M)%R ->
  (forall p, (0 <= nr (pmget pm p))%R) ->
  forall q (z o : num) j, (0 <= nr z)%R -> (0 <= nr o)%R ->
  (forall p, In p q -> wfp KV (tb s KV) (S ii) p /\ probs s p <> None) ->
  (j + length q <= K)%nat ->
  (Rabs (nr z + W s ii (S ii) pm 0 q - T 0%nat) <= INR j * D)%R -> (Rabs (nr o + W s ii (S ii) pm 1 q - T 1%nat) <= INR j * D)%R ->
  exists z' o', sumq s pm q z o = Some (z', o') /\ (0 <= nr z')%R /\ (0 <= nr o')%R /\
    (Rabs (nr z' - T 0%nat) <= INR K * D)%R /\ (Rabs (nr o' - T 1%nat) <= INR K * D)%R.
Proof.
  intros HI Hn HM HD HD0 HT0 HT1 HK Hpm. induction q as [|p r IH]; intros z o j Hz Ho H Hj Ez Eo.
  - cbn [sumq]. exists z, o. split; [reflexivity|]. cbn [length] in Hj. unfold W in Ez, Eo. cbn [qsum] in Ez, Eo. rewrite Rplus_0_r in Ez, Eo.
    assert (INR j * D <= INR K * D)%R by (apply Rmult_le_compat_r; [exact HD0|]; apply le_INR; lia). repeat split; auto; lra.
  - destruct (H p (or_introl Logic.eq_refl)) as [Hwp Hp]. destruct Hwp as (a & nd & -> & Hr & Hv). cbn [sumq].
    rewrite (readn_reg KV s a nd Hr).
    pose proof (inv_tb _ HI KV) as HT. pose proof (reg_ok KV _ a nd HT Hr) as Hok.
    rewrite (chd_null KV _ nd 0 Hok), (chd_null KV _ nd 1 Hok) by (cbn; lia).
    assert (Hwp : wfp KV (tb s KV) (S ii) (Node a)) by (exists a, nd; auto).
    pose proof (W_pos s ii (S ii) pm 0 (Node a :: r) Hpm) as WP0. pose proof (W_pos s ii (S ii) pm 1 (Node a :: r) Hpm) as WP1.
    assert (HjK : (INR (j + 1) * D <= INR K * D)%R) by (apply Rmult_le_compat_r; [exact HD0|]; apply le_INR; cbn [length] in Hj; lia).
    rewrite plus_INR in HjK. cbn [INR] in HjK.
    apply SafeF.abs_between in Ez as Ez', Eo as Eo'.
    assert (HwM : (0 <= nr (pmget pm (Node a)) <= M)%R).
    { split; [apply Hpm|]. pose proof (W_in s ii HI (S ii) pm (Node a :: r) (Node a) Hpm ltac:(lia) Hwp (or_introl Logic.eq_refl)) as X. lra. }
    destruct (side_spec s (pmget pm (Node a)) ii n a nd 0 M HI Hr Hv ltac:(lia) Hp Hn HM HwM) as (y0 & Y0 & R0 & A0).
    destruct (side_spec s (pmget pm (Node a)) ii n a nd 1 M HI Hr Hv ltac:(lia) Hp Hn HM HwM) as (y1 & Y1 & R1 & A1).
    rewrite Y0, Y1. pose proof dl_b as Hd. pose proof (PB_ge1 n) as HP1.
    assert (HMQ : (M <= M * PB n)%R) by nra. set (Q := (M * PB n)%R) in *.
    assert (Hadd : forall u v x, (0 <= nr u <= M)%R -> (0 <= nr v <= 8 * Q)%R -> (Rabs (nr v - x) <= dl * Q * (7 * INR n + 14))%R ->
       (0 <= nr (nadd u v))%R /\ (Rabs (nr (nadd u v) - (nr u + x)) <= D)%R).
    { intros u v x [Hu0 Hu] [Hv0 Hvq] Hx. destruct (nadd_err u v Hu0 Hv0) as [N1 N2]. split; [lra|].
      replace (nr (nadd u v) - (nr u + x))%R with ((nr (nadd u v) - (nr u + nr v)) + (nr v - x))%R by ring.
      eapply Rle_trans; [apply Rabs_triang|]. eapply Rle_trans; [|exact HD].
      assert (dl * (nr u + nr v) <= dl * (9 * Q))%R by (apply Rmult_le_compat_l; lra).
      assert (0 <= dl * Q)%R by (apply Rmult_le_pos; lra). lra. }
    destruct (Hadd z y0 _ ltac:(split; [exact Hz|lra]) R0 A0) as [Z1 Z2].
    destruct (Hadd o y1 _ ltac:(split; [exact Ho|lra]) R1 A1) as [O1 O2].
    apply (IH (nadd z y0) (nadd o y1) (S j)); auto.
    + intros x Hx. apply H. right. exact Hx.
    + cbn [length] in Hj. lia.
    + rewrite S_INR. unfold W in *. cbn [qsum] in *. apply SafeF.abs_between in Z2. apply Rabs_le. lra.
    + rewrite S_INR. unfold W in *. cbn [qsum] in *. apply SafeF.abs_between in O2. apply Rabs_le. lra.
Qed.

Lemma probs_closed s a nd c : Inv s -> probs s (Node a) <> None -> reg KV (tb s KV) a nd -> In c (nch nd) -> probs s (en c) <> None.
Proof.
  intros HI Hp Hr Hc. destruct (probs s (Node a)) as [x|] eqn:Hx; [|congruence].
  destruct (inv_pr _ HI _ _ Hx) as [[X _]|(m' & a' & nd' & H1 & H2 & H3 & H4 & H5)]; [discriminate|].
  inversion H1; subst a'. pose proof (reg_fun _ _ _ _ _ Hr H2). subst nd'. auto.
Qed.
Lemma readn_tb s s' k p : tb s' = tb s -> readn k p s' = readn k p s.
Proof. intros H. unfold readn. rewrite H. reflexivity. Qed.
Lemma bfs_tb s s' : tb s' = tb s -> forall fuel i st, bfs s' fuel i st = bfs s fuel i st.
Proof.
  intros H. induction fuel as [|f IH]; intros i [[pm vis] q]; cbn [bfs]; destruct q as [|p r]; auto;
    rewrite (readn_tb s s' KV p H); destruct (readn KV p s); auto. destruct (nv n =? i); auto.
Qed.

(* the error of the two sums for an n-qubit vector of squared norm N *)
Definition eone (n : nat) (N : R) : R := (INR (2 * 2 ^ n) * (dl * ((N + 1) * PB n) * (7 * INR n + 24)))%R.
Theorem detProbs_spec s n e ii : Inv s -> (ii < n)%nat -> Z.of_nat n <= NQUBITS -> wfp KV (tb s KV) n (en e) ->
  (eone n (Cmod (cv (ew e)) ^ 2 * psum (tb s KV) n (en e)) <= 1 / 2)%R ->
  exists pz po s', detProbs e (Z.of_nat ii) s = Some (pz, po, s') /\
    (0 <= nr pz)%R /\ (0 <= nr po)%R /\
    (Rabs (nr pz - Cmod (cv (ew e)) ^ 2 * hb (tb s KV) ii n (en e) 0) <= eone n (Cmod (cv (ew e)) ^ 2 * psum (tb s KV) n (en e)))%R /\
    (Rabs (nr po - Cmod (cv (ew e)) ^ 2 * hb (tb s KV) ii n (en e) 1) <= eone n (Cmod (cv (ew e)) ^ 2 * psum (tb s KV) n (en e)))%R /\
    pext s s' /\ Inv s' /\ probs s' (en e) <> None.
Proof.
  intros HI Hii Hn Hw Hsmall. destruct n as [|m]; [lia|].
  assert (Hs1 : exists s1, (match probs s (en e) with
             | Some _ => Some s
             | None => match assignProbabilities e s with Some (_, s1) => Some s1 | None => None end
             end) = Some s1 /\ pext s s1 /\ Inv s1 /\ probs s1 (en e) <> None).
  { destruct (probs s (en e)) as [x|] eqn:Hx.
    - exists s. split; [reflexivity|]. split; [apply pext_refl|]. split; [exact HI|congruence].
    - destruct (assignP_spec PFUEL (S m) e s HI (or_introl Hw)) as (x & s1 & A1 & A2 & A3 & A4 & _).
      { unfold PFUEL. unfold NQUBITS in Hn. lia. }
      { exact Hn. }
      unfold assignProbabilities. rewrite A1. exists s1. auto. }
  destruct Hs1 as (s1 & Hs1 & Hpe & HI1 & Hpr). pose proof (pe_tb _ _ Hpe) as Htb.
  unfold detProbs. rewrite <- (bfs_tb s s1 Htb). rewrite <- Htb in *.
  set (pm0 := pmset (fun _ => None) (en e) (norm2 (ew e))).
  set (c2 := (Cmod (cv (ew e)) ^ 2)%R) in *. set (N := (c2 * psum (tb s1 KV) (S m) (en e))%R) in *.
  pose proof (inv_tb _ HI1 KV) as HTI. pose proof (psum_ge1 _ HTI _ _ Hw) as Hps1. pose proof (psum_PB _ _ _ HTI Hw) as HpsB.
  assert (Hc2 : (0 <= c2)%R) by apply pow2_ge_0. pose proof dl_b as Hd. pose proof (PB_ge1 (S m)) as HPB.
  assert (HcN : (c2 <= N)%R) by (unfold N; nra).
  assert (HN0 : (0 <= N)%R) by lra.
  set (M := (N + 1)%R). assert (HM : (1 <= M)%R) by (unfold M; lra).
  set (D := (dl * (M * PB (S m)) * (7 * INR (S m) + 24))%R).
  assert (HQ : (0 <= dl * (M * PB (S m)))%R) by (apply Rmult_le_pos; [lra|apply Rmult_le_pos; lra]).
  pose proof (pos_INR (S m)) as HInr.
  assert (HD0 : (0 <= D)%R) by (unfold D; apply Rmult_le_pos; [exact HQ|lra]).
  assert (HD8 : (dl * (8 * M) * PB (S m) <= D)%R) by (unfold D; replace (dl * (8 * M) * PB (S m))%R with (dl * (M * PB (S m)) * 8)%R by ring; apply Rmult_le_compat_l; lra).
  set (K := (2 * 2 ^ S m)%nat) in *. change (eone (S m) N) with (INR K * D)%R in *.
  set (T := fun b => (c2 * hb (tb s1 KV) ii (S m) (en e) b)%R).
  assert (HTp : forall b, (0 <= T b)%R) by (intros b; apply Rmult_le_pos; [exact Hc2|apply hb_pos]).
  assert (HTs : (T 0%nat + T 1%nat = N)%R) by (unfold T, N; rewrite <- (hb_psum (tb s1 KV) ii (S m) (en e) Hii); ring).
  assert (HK : (T 0%nat + T 1%nat + 2 * (INR K * D) <= M)%R) by (rewrite HTs; unfold M; lra).
  destruct (norm_abs (ew e)) as [Hn0 Hn1]. fold c2 in Hn1.
  assert (HD1 : forall b, (b < 2)%nat -> (Rabs (nr (norm2 (ew e)) * hb (tb s1 KV) ii (S m) (en e) b - T b) <= D)%R).
  { intros b Hb. unfold T. replace (nr (norm2 (ew e)) * hb (tb s1 KV) ii (S m) (en e) b - c2 * hb (tb s1 KV) ii (S m) (en e) b)%R
      with ((nr (norm2 (ew e)) - c2) * hb (tb s1 KV) ii (S m) (en e) b)%R by ring.
    pose proof (hb_pos (tb s1 KV) ii (S m) (en e) b) as X0. pose proof (hb_PB _ ii (S m) (S m) (en e) b HTI Hw Hii ltac:(lia) Hb) as X1.
    rewrite Rabs_mult, (Rabs_pos_eq _ X0). apply Rle_trans with (dl * M * PB (S m))%R.
    - apply Rmult_le_compat; auto; [apply Rabs_pos|]. eapply Rle_trans; [exact Hn1|]. apply Rmult_le_compat_l; [lra|]. unfold M. lra.
    - unfold D. replace (dl * M * PB (S m))%R with (dl * (M * PB (S m)) * 1)%R by ring. apply Rmult_le_compat_l; lra. }
  destruct (bfs_spec s1 ii (S m) HI1 (fun p => probs s1 p <> None) (fun a nd c Hp Hr Hc => probs_closed s1 a nd c HI1 Hp Hr Hc)
     M D HM HD8 T K (HTp _) (HTp _) HK HD0
     (Pos.to_nat (nexta (tb s1 KV))) m pm0 [en e] [en e] [] 0 1) as (pm & q & j & Hb & Hq & Hpm & Hj & Hsum).
  - constructor.
    + constructor.
    + intros p [].
    + intros p [<-|[]] Hp. pose proof (wfp_lvl _ _ _ _ Hp Hw). lia.
    + constructor; [intros []|constructor].
    + intros p [<-|[]]. exists (S m). split; [lia|]. split; [lia|exact Hw].
    + intros p. unfold pm0. destruct (ptr_eqb (en e) p) eqn:Hq; [apply ptr_eqb_eq in Hq; subst p; rewrite pmget_same; exact Hn0|].
      rewrite pmget_other by (intros ->; rewrite ptr_eqb_refl in Hq; discriminate). unfold pmget. rewrite nr_0. lra.
  - constructor; [intros []|constructor].
  - intros p [<-|[]]. auto.
  - discriminate.
  - lia.
  - reflexivity.
  - intros b Hb. unfold W. cbn [qsum]. unfold pm0. rewrite pmget_same. rewrite !Rplus_0_r. cbn [INR]. rewrite Rmult_1_l. apply HD1. exact Hb.
  - cbn [length]. unfold K, pot. pose proof (Nat.pow_le_mono_r 2 (S m - ii) (S m) ltac:(lia) ltac:(lia)).
    pose proof (Nat.pow_nonzero 2 (S m - ii) ltac:(lia)). lia.
  - reflexivity.
  - lia.
  - cbn [app] in Hb. rewrite Hb, Hs1.
    destruct (sumq_spec s1 pm ii (S m) M D T K HI1) with (q := q) (z := @n0 NO) (o := @n0 NO) (j := j) as (z & o & S1 & S2 & S3 & S4 & S5); auto.
    + unfold NQUBITS in Hn. lia.
    + unfold D. lra.
    + rewrite nr_0; lra.
    + rewrite nr_0; lra.
    + lia.
    + rewrite nr_0, Rplus_0_l. apply Hsum. lia.
    + rewrite nr_0, Rplus_0_l. apply Hsum. lia.
    + rewrite S1. exists z, o, s1. split; [reflexivity|]. split; [exact S2|]. split; [exact S3|]. split; [exact S4|]. split; [exact S5|]. auto.
Qed.
End FpOne.
