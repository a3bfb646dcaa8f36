(* FpE.v -- error bounds for rounded arithmetic.  Everything is a function of the
   single accuracy constant [dl]; with dl = 0 every bound is 0. *)
From Coq Require Import Reals Lra Psatz List Lia.
From Verif Require Import Num FpA.
Open Scope R_scope.

Lemma sq_le_compat a b c d : 0 <= a -> 0 <= c -> a <= b -> c <= d -> a * c <= b * d.
Proof. intros. apply Rmult_le_compat; auto. Qed.

Section FpE.
Context {NO : NumOps} {AC : Accur NO}.
Notation dl := (@dl NO AC).
Notation Gr := (@Gr NO AC).
Notation Gp := (@Gp NO AC).

Ltac pos := repeat first
  [ assumption | apply dl_pos | apply Rplus_le_le_0_compat | apply Rmult_le_pos
  | apply Grp | apply pow_le | (pose proof Gr_ge1; lra) ].

Lemma Gr_pos : 0 <= Gr. Proof. pose proof Gr_ge1. lra. Qed.

(* making a node above level q from children of weight at most W *)
Definition mkerr (q : nat) (W : R) : R := Gp q * (dl * (Gr + 3 * W)).
Lemma mkerr_pos q W : 0 <= W -> 0 <= mkerr q W.
Proof. intros. unfold mkerr. pos. Qed.
Lemma mkerr_mono q W W' : W <= W' -> mkerr q W <= mkerr q W'.
Proof.
  intros. unfold mkerr. apply Rmult_le_compat_l; [apply Grp|]. apply Rmult_le_compat_l; [apply dl_pos|lra].
Qed.

(* restricting operands of total weight s to a half: total weight and error *)
Definition wup (s : R) : R := Gr * Gr * s + 2 * dl.
Definition cerr (m : nat) (s : R) : R := (dl * Gr * s + 2 * dl) * Gp m.
Lemma wup_pos s : 0 <= s -> 0 <= wup s. Proof. intros. unfold wup. pos. Qed.
Lemma wup_mono s s' : s <= s' -> wup s <= wup s'.
Proof.
  intros. unfold wup. apply Rplus_le_compat_r. apply Rmult_le_compat_l; auto. pos.
Qed.
Lemma cerr_pos m s : 0 <= s -> 0 <= cerr m s. Proof. intros. unfold cerr. pos. Qed.
Lemma cerr_mono m s s' : s <= s' -> cerr m s <= cerr m s'.
Proof.
  intros. unfold cerr. apply Rmult_le_compat_r; [apply Grp|]. apply Rplus_le_compat_r.
  apply Rmult_le_compat_l; auto. pos.
Qed.

(* a computed sum, from the bound [ea] for the halves *)
Definition ecomp_ (ea : R -> R) (m : nat) (s : R) : R :=
  let D := ea (wup s) + cerr m s in D + mkerr m (s * Gp (S m) + D).
Fixpoint eadd (n : nat) (s : R) : R :=
  match n with
  | O => 2 * dl + dl * s
  | S m => ecomp_ (eadd m) m (s + 2 * dl) + 3 * (dl * Gp (S m)) + dl * s * Gp (S m)
  end.
Definition ecomp (m : nat) (s : R) : R := ecomp_ (eadd m) m s.
Lemma eadd_S n s : eadd (S n) s = ecomp n (s + 2 * dl) + 3 * (dl * Gp (S n)) + dl * s * Gp (S n).
Proof. reflexivity. Qed.
Lemma ecomp_pos_ ea m s : (forall s, 0 <= s -> 0 <= ea s) -> 0 <= s -> 0 <= ecomp_ ea m s.
Proof.
  intros H Hs. unfold ecomp_. pose proof (H _ (wup_pos s Hs)). pose proof (cerr_pos m s Hs).
  assert (0 <= ea (wup s) + cerr m s) by lra.
  assert (0 <= s * Gp (S m)) by pos.
  pose proof (mkerr_pos m (s * Gp (S m) + (ea (wup s) + cerr m s)) (Rplus_le_le_0_compat _ _ H3 H2)). cbn zeta. lra.
Qed.
Lemma ecomp_mono_ ea m s s' : (forall s s', 0 <= s <= s' -> ea s <= ea s') -> 0 <= s <= s' ->
  ecomp_ ea m s <= ecomp_ ea m s'.
Proof.
  intros H Hs. unfold ecomp_. pose proof (H (wup s) (wup s')) as h.
  assert (0 <= wup s <= wup s') by (split; [apply wup_pos; lra|apply wup_mono; lra]).
  specialize (h H0). pose proof (cerr_mono m s s' ltac:(lra)).
  assert (s * Gp (S m) <= s' * Gp (S m)) by (apply Rmult_le_compat_r; [apply Grp|lra]).
  assert (HH : s * Gp (S m) + (ea (wup s) + cerr m s) <= s' * Gp (S m) + (ea (wup s') + cerr m s')) by lra.
  pose proof (mkerr_mono m _ _ HH).
  cbn zeta. lra.
Qed.
Lemma eadd_pos n s : 0 <= s -> 0 <= eadd n s.
Proof.
  revert s. pose proof dl_pos. induction n as [|m IH]; intros s Hs.
  - cbn. pos.
  - rewrite eadd_S. pose proof (ecomp_pos_ (eadd m) m (s + 2 * dl) IH ltac:(lra)). unfold ecomp.
    assert (0 <= dl * Gp (S m)) by pos. assert (0 <= dl * s * Gp (S m)) by pos. lra.
Qed.
Lemma eadd_mono n s s' : 0 <= s <= s' -> eadd n s <= eadd n s'.
Proof.
  revert s s'. pose proof dl_pos. induction n as [|m IH]; intros s s' Hs.
  - cbn. apply Rplus_le_compat_l, Rmult_le_compat_l; lra.
  - rewrite !eadd_S. pose proof (ecomp_mono_ (eadd m) m (s + 2 * dl) (s' + 2 * dl) IH ltac:(lra)). unfold ecomp.
    assert (dl * s * Gp (S m) <= dl * s' * Gp (S m)).
    { apply Rmult_le_compat_r; [apply Grp|]. apply Rmult_le_compat_l; lra. } lra.
Qed.
Lemma ecomp_pos m s : 0 <= s -> 0 <= ecomp m s.
Proof. apply ecomp_pos_. intros; now apply eadd_pos. Qed.
Lemma ecomp_mono m s s' : 0 <= s <= s' -> ecomp m s <= ecomp m s'.
Proof. apply ecomp_mono_. intros; now apply eadd_mono. Qed.
Lemma eadd_ge2 n s : 0 <= s -> 2 * (dl * Gp n) + dl * s * Gp n <= eadd n s.
Proof.
  intros Hs. pose proof dl_pos. destruct n as [|m].
  - cbn. lra.
  - rewrite eadd_S. pose proof (ecomp_pos m (s + 2 * dl) ltac:(lra)).
    assert (0 <= dl * Gp (S m)) by pos. lra.
Qed.
Lemma eadd_exact n s : dl = 0 -> eadd n s = 0.
Proof.
  intros H. revert s. induction n as [|m IH]; intros s; [cbn; rewrite H; ring|].
  rewrite eadd_S. unfold ecomp, ecomp_, cerr, mkerr. rewrite IH, H. ring.
Qed.

(* products: bound of the exact product of unit-weight diagrams *)
Definition Bd (n : nat) : R := 2 ^ n * (Gp n * Gp n).
Definition Bs (m : nat) : R := 2 ^ m * (Gp (S m) * Gp (S m)).
Definition mvbound (mu : R) (n : nat) (a b : R) : R :=
  Bd n * (dl * (a + b)) + mu * (a * b) +
  Gp n * (dl * (3 * ((Bd n + mu) * (a * b)) + 2 * b + 2 + a * b)).
Definition half_err_ (mu : R) (m : nat) : R :=
  let p := mvbound mu m Gr Gr in 2 * p + eadd m (2 * (Bs m + p)).
Fixpoint emul (n : nat) : R :=
  match n with
  | O => 0
  | S m => let D := half_err_ (emul m) m in D + mkerr m (2 * Bs m + D)
  end.
Definition half_err (m : nat) : R := half_err_ (emul m) m.
Definition emv (n : nat) (a b : R) : R := mvbound (emul n) n a b.
Lemma Bd_pos n : 0 <= Bd n. Proof. unfold Bd. pos. Qed.
Lemma Bs_pos n : 0 <= Bs n. Proof. unfold Bs. pos. Qed.
Lemma mvbound_pos mu n a b : 0 <= mu -> 0 <= a -> 0 <= b -> 0 <= mvbound mu n a b.
Proof. intros. unfold mvbound. pose proof (Bd_pos n). pos. Qed.
Lemma emul_S m : emul (S m) = half_err m + mkerr m (2 * Bs m + half_err m).
Proof. reflexivity. Qed.
Lemma half_err_pos_ mu m : 0 <= mu -> 0 <= half_err_ mu m.
Proof.
  intros. unfold half_err_. pose proof (mvbound_pos mu m Gr Gr H Gr_pos Gr_pos). pose proof (Bs_pos m).
  pose proof (eadd_pos m (2 * (Bs m + mvbound mu m Gr Gr)) ltac:(lra)). cbn zeta. lra.
Qed.
Lemma emul_pos n : 0 <= emul n.
Proof.
  induction n as [|m IH]; [cbn; lra|]. rewrite emul_S. pose proof (half_err_pos_ _ m IH). pose proof (Bs_pos m).
  unfold half_err. pose proof (mkerr_pos m (2 * Bs m + half_err_ (emul m) m) ltac:(lra)). lra.
Qed.
Lemma half_err_pos m : 0 <= half_err m.
Proof. apply half_err_pos_, emul_pos. Qed.
Lemma emv_pos n a b : 0 <= a -> 0 <= b -> 0 <= emv n a b.
Proof. intros. apply mvbound_pos; auto using emul_pos. Qed.
Lemma mvbound_mono mu n a b a' b' : 0 <= mu -> 0 <= a <= a' -> 0 <= b <= b' -> mvbound mu n a b <= mvbound mu n a' b'.
Proof.
  intros Hm Ha Hb. unfold mvbound. pose proof (Bd_pos n) as HB. pose proof dl_pos as Hd.
  assert (Hab : a * b <= a' * b') by (apply Rmult_le_compat; lra).
  assert (H1 : mu * (a * b) <= mu * (a' * b')) by (apply Rmult_le_compat_l; lra).
  assert (H2 : Bd n * (dl * (a + b)) <= Bd n * (dl * (a' + b'))).
  { apply Rmult_le_compat_l; auto. apply Rmult_le_compat_l; lra. }
  assert (H3 : (Bd n + mu) * (a * b) <= (Bd n + mu) * (a' * b')) by (apply Rmult_le_compat_l; lra).
  assert (H4 : Gp n * (dl * (3 * ((Bd n + mu) * (a * b)) + 2 * b + 2 + a * b)) <=
               Gp n * (dl * (3 * ((Bd n + mu) * (a' * b')) + 2 * b' + 2 + a' * b'))).
  { apply Rmult_le_compat_l; [apply Grp|]. apply Rmult_le_compat_l; lra. }
  lra.
Qed.
Lemma emv_mono n a b a' b' : 0 <= a <= a' -> 0 <= b <= b' -> emv n a b <= emv n a' b'.
Proof. intros. apply mvbound_mono; auto using emul_pos. Qed.
Lemma emul_exact n : dl = 0 -> emul n = 0.
Proof.
  intros H. induction n as [|m IH]; [reflexivity|]. rewrite emul_S. unfold half_err, half_err_, mkerr, mvbound.
  rewrite IH, (eadd_exact _ _ H), H. ring.
Qed.
Lemma emv_exact n a b : dl = 0 -> emv n a b = 0.
Proof. intros H. unfold emv, mvbound. rewrite (emul_exact n H), H. ring. Qed.

(* z levels of gate construction over a block with entries at most B *)
Fixpoint egate (z : nat) (B : R) : R :=
  match z with O => 0 | S m => egate m B + mkerr m (B + egate m B) end.
Lemma egate_pos z B : 0 <= B -> 0 <= egate z B.
Proof.
  intros HB. induction z as [|m IH]; cbn [egate]; [lra|]. pose proof (mkerr_pos m (B + egate m B) ltac:(lra)). lra.
Qed.
(* ---- mm_add2 and mm_multiply2 on one thread: as eadd and emul, with one more dl per level
   because an identity level may turn a tiny result into zero or round a weight to one ---- *)
Fixpoint eaddm (n : nat) (s : R) : R :=
  match n with
  | O => 2 * dl + dl * s
  | S m => ecomp_ (eaddm m) m (s + 2 * dl) + 4 * (dl * Gp (S m)) + dl * s * Gp (S m)
  end.
Definition ecb (m : nat) (s : R) : R := ecomp_ (eaddm m) m s.
Definition ecompm (m : nat) (s : R) : R := ecb m s + dl * Gp (S m).
Lemma dGp_pos n : 0 <= dl * Gp n. Proof. pos. Qed.
Lemma eaddm_S n s : eaddm (S n) s = ecompm n (s + 2 * dl) + 3 * (dl * Gp (S n)) + dl * s * Gp (S n).
Proof. unfold ecompm, ecb. cbn [eaddm]. ring. Qed.
Lemma eaddm_pos n : forall s, 0 <= s -> 0 <= eaddm n s.
Proof.
  induction n as [|m IH]; intros s Hs; cbn [eaddm]; [pose proof dl_pos; pos; lra|].
  pose proof dl_pos. pose proof (ecomp_pos_ (eaddm m) m (s + 2 * dl) IH ltac:(lra)). pose proof (dGp_pos (S m)).
  assert (0 <= dl * s * Gp (S m)) by pos. lra.
Qed.
Lemma eaddm_mono n : forall s s', 0 <= s <= s' -> eaddm n s <= eaddm n s'.
Proof.
  induction n as [|m IH]; intros s s' Hs; cbn [eaddm]; pose proof dl_pos.
  - assert (dl * s <= dl * s') by (apply Rmult_le_compat_l; lra). lra.
  - pose proof (ecomp_mono_ (eaddm m) m (s + 2 * dl) (s' + 2 * dl) IH ltac:(lra)).
    assert (dl * s * Gp (S m) <= dl * s' * Gp (S m)) by (apply Rmult_le_compat_r; [apply Grp|]; apply Rmult_le_compat_l; lra). lra.
Qed.
Lemma ecb_pos n s : 0 <= s -> 0 <= ecb n s.
Proof. intros. apply ecomp_pos_; auto using eaddm_pos. Qed.
Lemma ecb_mono n s s' : 0 <= s <= s' -> ecb n s <= ecb n s'.
Proof. intros. apply ecomp_mono_; auto using eaddm_mono. Qed.
Lemma ecompm_pos n s : 0 <= s -> 0 <= ecompm n s.
Proof. intros. unfold ecompm. pose proof (ecb_pos n s H). pose proof (dGp_pos (S n)). lra. Qed.
Lemma ecompm_mono n s s' : 0 <= s <= s' -> ecompm n s <= ecompm n s'.
Proof. intros. unfold ecompm. pose proof (ecb_mono n s s' H). lra. Qed.
Lemma eaddm_ge2 n s : 0 <= s -> 2 * (dl * Gp n) + dl * s * Gp n <= eaddm n s.
Proof.
  intros Hs. destruct n as [|m].
  - cbn [eaddm]. rewrite Gp_0. lra.
  - rewrite eaddm_S. pose proof dl_pos. pose proof (ecompm_pos m (s + 2 * dl) ltac:(lra)). pose proof (dGp_pos (S m)). lra.
Qed.
Lemma eaddm_ecb n s : 0 <= s -> ecb n s + dl * Gp (S n) <= eaddm (S n) s.
Proof.
  intros Hs. rewrite eaddm_S. unfold ecompm. pose proof dl_pos. pose proof (ecb_mono n s (s + 2 * dl) ltac:(lra)).
  pose proof (dGp_pos (S n)). assert (0 <= dl * s * Gp (S n)) by pos. lra.
Qed.
Lemma wup_ge s : 0 <= s -> s <= wup s.
Proof.
  intros Hs. unfold wup. pose proof dl_pos. pose proof Gr_ge1.
  assert (1 * s <= Gr * Gr * s) by (apply Rmult_le_compat_r; nra). lra.
Qed.
Lemma eaddm_le_ecb n s : 0 <= s -> eaddm n s <= ecb n s.
Proof.
  intros Hs. unfold ecb, ecomp_. pose proof (wup_ge s Hs) as Hw. pose proof (eaddm_mono n s (wup s) (conj Hs Hw)) as Hm.
  pose proof (cerr_pos n s Hs). pose proof (eaddm_pos n s Hs). assert (Hg : 0 <= s * Gp (S n)) by pos.
  assert (Hx : 0 <= s * Gp (S n) + (eaddm n (wup s) + cerr n s)) by lra. pose proof (mkerr_pos n _ Hx). cbn zeta. lra.
Qed.
Lemma eaddm_up1 n s : 0 <= s -> eaddm n s <= eaddm (S n) s.
Proof. intros Hs. pose proof (eaddm_le_ecb n s Hs). pose proof (eaddm_ecb n s Hs). pose proof (dGp_pos (S n)). lra. Qed.
Lemma eaddm_up n m s : 0 <= s -> (n <= m)%nat -> eaddm n s <= eaddm m s.
Proof. intros Hs. induction 1 as [|m Hm IH]; [lra|]. pose proof (eaddm_up1 m s Hs). lra. Qed.
Lemma mkerr_up n m W : 0 <= W -> (n <= m)%nat -> mkerr n W <= mkerr m W.
Proof. intros HW Hm. unfold mkerr. apply Rmult_le_compat_r; [pos; lra|now apply Grn_mono]. Qed.
Lemma ecb_up n m s : 0 <= s -> (n <= m)%nat -> ecb n s <= ecb m s.
Proof.
  intros Hs Hm. unfold ecb, ecomp_. pose proof (wup_pos s Hs) as Hw. pose proof (eaddm_up n m (wup s) Hw Hm).
  assert (Hc : cerr n s <= cerr m s).
  { unfold cerr. apply Rmult_le_compat_l; [pos; pose proof dl_pos; lra|now apply Grn_mono]. }
  assert (Hg : s * Gp (S n) <= s * Gp (S m)) by (apply Rmult_le_compat_l; auto; apply Grn_mono; lia).
  pose proof (eaddm_pos n _ Hw). pose proof (cerr_pos n s Hs). assert (0 <= s * Gp (S n)) by pos.
  cbn zeta. apply Rplus_le_compat; [lra|]. eapply Rle_trans; [apply (mkerr_up n m); auto; lra|]. apply mkerr_mono. lra.
Qed.
Lemma eaddm_exact n : forall s, dl = 0 -> eaddm n s = 0.
Proof.
  induction n as [|m IH]; intros s H; cbn [eaddm]; [rewrite H; ring|].
  unfold ecomp_, cerr, mkerr. cbn zeta. rewrite IH, H by exact H. ring.
Qed.
Definition eblk_ (mu : R) (m : nat) : R := let p := mvbound mu m Gr Gr in 2 * p + eaddm m (2 * (Bs m + p)).
Fixpoint emulm (n : nat) : R :=
  match n with
  | O => 0
  | S m => let D := eblk_ (emulm m) m in D + mkerr m (2 * Bs m + D) + dl * Gp (S m)
  end.
Definition eblk (m : nat) : R := eblk_ (emulm m) m.
Definition emulb (m : nat) : R := eblk m + mkerr m (2 * Bs m + eblk m).
Definition emm (n : nat) (a b : R) : R := mvbound (emulm n) n a b.
Lemma emulm_S m : emulm (S m) = emulb m + dl * Gp (S m).
Proof. reflexivity. Qed.
Lemma eblk_pos_ mu m : 0 <= mu -> 0 <= eblk_ mu m.
Proof.
  intros. unfold eblk_. pose proof (mvbound_pos mu m Gr Gr H Gr_pos Gr_pos). pose proof (Bs_pos m).
  pose proof (eaddm_pos m (2 * (Bs m + mvbound mu m Gr Gr)) ltac:(lra)). cbn zeta. lra.
Qed.
Lemma emulm_pos n : 0 <= emulm n.
Proof.
  induction n as [|m IH]; [cbn; lra|]. cbn [emulm]. pose proof (eblk_pos_ _ m IH). pose proof (Bs_pos m). pose proof (dGp_pos (S m)).
  pose proof (mkerr_pos m (2 * Bs m + eblk_ (emulm m) m) ltac:(lra)). cbn zeta. lra.
Qed.
Lemma eblk_pos m : 0 <= eblk m. Proof. apply eblk_pos_, emulm_pos. Qed.
Lemma emulb_pos m : 0 <= emulb m.
Proof. unfold emulb. pose proof (eblk_pos m). pose proof (Bs_pos m). pose proof (mkerr_pos m (2 * Bs m + eblk m) ltac:(lra)). lra. Qed.
Lemma emm_pos n a b : 0 <= a -> 0 <= b -> 0 <= emm n a b.
Proof. intros. apply mvbound_pos; auto using emulm_pos. Qed.
Lemma mvbound_ge mu n : 0 <= mu -> mu <= mvbound mu n Gr Gr.
Proof.
  intros Hm. unfold mvbound. pose proof Gr_ge1. pose proof Gr_pos. pose proof (Bd_pos n). pose proof dl_pos.
  assert (mu * 1 <= mu * (Gr * Gr)) by (apply Rmult_le_compat_l; nra).
  assert (0 <= Bd n * (dl * (Gr + Gr))) by pos.
  assert (0 <= Gp n * (dl * (3 * ((Bd n + mu) * (Gr * Gr)) + 2 * Gr + 2 + Gr * Gr))) by (pos; lra). lra.
Qed.
Lemma emulm_up1 n : emulm n <= emulm (S n).
Proof.
  rewrite emulm_S. unfold emulb, eblk, eblk_. cbn zeta. pose proof (emulm_pos n) as Hp. pose proof (mvbound_ge (emulm n) n Hp) as Hm.
  pose proof (Bs_pos n) as HB. pose proof (dGp_pos (S n)).
  set (p := mvbound (emulm n) n Gr Gr) in *. pose proof (eaddm_pos n (2 * (Bs n + p)) ltac:(lra)).
  pose proof (mkerr_pos n (2 * Bs n + (2 * p + eaddm n (2 * (Bs n + p)))) ltac:(lra)). lra.
Qed.
Lemma emulm_up n m : (n <= m)%nat -> emulm n <= emulm m.
Proof. induction 1 as [|m Hm IH]; [lra|]. pose proof (emulm_up1 m). lra. Qed.
Lemma Bd_up n m : (n <= m)%nat -> Bd n <= Bd m.
Proof.
  intros H. unfold Bd. pose proof (Grn_mono n m H). pose proof (Grp n).
  apply Rmult_le_compat; [apply pow_le; lra|pos|apply Rle_pow; [lra|exact H]|]. apply Rmult_le_compat; auto.
Qed.
Lemma Bs_up n m : (n <= m)%nat -> Bs n <= Bs m.
Proof.
  intros H. unfold Bs. pose proof (Grn_mono (S n) (S m) ltac:(lia)). pose proof (Grp (S n)).
  apply Rmult_le_compat; [apply pow_le; lra|pos|apply Rle_pow; [lra|exact H]|]. apply Rmult_le_compat; auto.
Qed.
Lemma mvbound_up mu mu' n n' a b : 0 <= mu <= mu' -> (n <= n')%nat -> 0 <= a -> 0 <= b -> mvbound mu n a b <= mvbound mu' n' a b.
Proof.
  intros Hmu Hn Ha Hb. unfold mvbound. pose proof (Bd_pos n) as HB. pose proof (Bd_up n n' Hn) as HB'. pose proof dl_pos as Hd.
  assert (Hab : 0 <= a * b) by pos. pose proof (Grn_mono n n' Hn). pose proof (Grp n).
  assert (H1 : mu * (a * b) <= mu' * (a * b)) by (apply Rmult_le_compat_r; lra).
  assert (H2 : Bd n * (dl * (a + b)) <= Bd n' * (dl * (a + b))) by (apply Rmult_le_compat_r; [pos|exact HB']).
  assert (H3 : (Bd n + mu) * (a * b) <= (Bd n' + mu') * (a * b)) by (apply Rmult_le_compat_r; lra).
  assert (H3' : 0 <= (Bd n + mu) * (a * b)) by (apply Rmult_le_pos; lra).
  assert (H4 : Gp n * (dl * (3 * ((Bd n + mu) * (a * b)) + 2 * b + 2 + a * b)) <=
               Gp n' * (dl * (3 * ((Bd n' + mu') * (a * b)) + 2 * b + 2 + a * b))).
  { apply Rmult_le_compat; auto; [apply Rmult_le_pos; lra|]. apply Rmult_le_compat_l; lra. }
  lra.
Qed.
Lemma emm_mono n n' a b a' b' : (n <= n')%nat -> 0 <= a <= a' -> 0 <= b <= b' -> emm n a b <= emm n' a' b'.
Proof.
  intros Hn Ha Hb. unfold emm. eapply Rle_trans; [apply (mvbound_mono _ n a b a' b'); auto using emulm_pos|].
  apply mvbound_up; try lra; auto. split; [apply emulm_pos|now apply emulm_up].
Qed.
Lemma emulb_up n m : (n <= m)%nat -> emulb n <= emulb m.
Proof.
  intros Hn. unfold emulb, eblk, eblk_. cbn zeta.
  pose proof (emm_mono n m Gr Gr Gr Gr Hn (conj Gr_pos (Rle_refl _)) (conj Gr_pos (Rle_refl _))) as Hp. unfold emm in Hp.
  pose proof (emm_pos n Gr Gr Gr_pos Gr_pos) as Hp0. unfold emm in Hp0.
  set (p := mvbound (emulm n) n Gr Gr) in *. set (p' := mvbound (emulm m) m Gr Gr) in *.
  pose proof (Bs_up n m Hn) as HB. pose proof (Bs_pos n) as HB0.
  assert (Ha : eaddm n (2 * (Bs n + p)) <= eaddm m (2 * (Bs m + p'))).
  { eapply Rle_trans; [apply (eaddm_up n m); auto; lra|]. apply eaddm_mono. lra. }
  pose proof (eaddm_pos n (2 * (Bs n + p)) ltac:(lra)).
  apply Rplus_le_compat; [lra|]. eapply Rle_trans; [apply (mkerr_up n m); auto; lra|]. apply mkerr_mono. lra.
Qed.
Lemma emulm_exact n : dl = 0 -> emulm n = 0.
Proof.
  intros H. induction n as [|m IH]; [reflexivity|]. cbn [emulm]. unfold eblk_, mkerr, mvbound. cbn zeta.
  rewrite IH, (eaddm_exact _ _ H), H. ring.
Qed.
End FpE.
