(* MPIP.v -- C31: which block getMPIGate returns *)
From Coq Require Import Reals Lra Psatz ZArith Bool List Lia Arith FunctionalExtensionality.
From Coquelicot Require Import Complex.
From Verif Require Import Num State DD Gates GC Measure Api RNum Wf Sums Err Inv Wp Make Add MulV Canon MM MM2
  GateP StateP Kron Spec SpecP Readout MeasureP MeasAllP GCP MeasOneP ApplyP ApiP Obs Props1 Props2 Prog KronM MPI.
Import ListNotations.
Open Scope nat_scope.

(* ---- specification ---- *)
(* block (r,c) of a matrix cut into 2^m x 2^m blocks; slice r of a vector *)
Definition block (m r c : nat) (A : matrix) : matrix := fun i j => A (r * 2 ^ m + i) (c * 2 ^ m + j).
Definition slice (m r : nat) (v : vector) : vector := fun i => v (r * 2 ^ m + i).
(* [[B,0],[0,B]] *)
Definition repeated (n : nat) (A : matrix) : Prop :=
  meq (n - 1) (block (n - 1) 0 1 A) (fun _ _ => RtoC 0) /\ meq (n - 1) (block (n - 1) 1 0 A) (fun _ _ => RtoC 0) /\
  meq (n - 1) (block (n - 1) 0 0 A) (block (n - 1) 1 1 A).
(* on the way from the whole matrix to block (row,col) of 2^g x 2^g, no block is
   of the form [[B,0],[0,B]], unless it is zero *)
Definition visible (n g row col : nat) (A : matrix) : Prop :=
  forall k, k < g -> let B := block (n - k) (row / 2 ^ (g - k)) (col / 2 ^ (g - k)) A in
    meq (n - k) B (fun _ _ => RtoC 0) \/ ~ repeated (n - k) B.

Lemma Cint (a b : C) : Cmult a b = RtoC 0 -> a = RtoC 0 \/ b = RtoC 0.
Proof.
  intros H. assert (Hm : (Cmod a * Cmod b)%R = 0%R) by (rewrite <- Cmod_mult, H; apply Cmod_0).
  apply Rmult_integral in Hm as [h|h]; [left|right]; now apply Cmod_eq_0.
Qed.
Lemma Ccancel (a b c : C) : a <> RtoC 0 -> Cmult a b = Cmult a c -> b = c.
Proof.
  intros Ha H. assert (Hz : Cmult a (Cminus b c) = RtoC 0) by (replace (Cmult a (Cminus b c)) with (Cminus (Cmult a b) (Cmult a c)) by ring; rewrite H; ring).
  apply Cint in Hz as [h|h]; [contradiction|]. replace b with (Cplus c (Cminus b c)) by ring. rewrite h. ring.
Qed.
Lemma testbit_low r m i l : l < m -> Nat.testbit (r * 2 ^ m + i) l = Nat.testbit i l.
Proof.
  intros H. rewrite <- (Nat.mod_pow2_bits_low (r * 2 ^ m + i) m l), <- (Nat.mod_pow2_bits_low i m l) by auto.
  f_equal. rewrite Nat.add_comm, Nat.mod_add; auto. apply Nat.pow_nonzero. lia.
Qed.
Lemma bit_top r m i : i < 2 ^ m -> r < 2 -> bit (r * 2 ^ m + i) m = r.
Proof.
  intros Hi Hr. unfold bit. rewrite Nat.testbit_eqb.
  rewrite (Nat.add_comm (r * 2 ^ m)), Nat.div_add by (apply Nat.pow_nonzero; lia). rewrite Nat.div_small by auto. cbn [Nat.add].
  rewrite Nat.mod_small by auto. destruct r as [|[|r]]; auto. lia.
Qed.
Lemma mix_top r c m i j : i < 2 ^ m -> j < 2 ^ m -> r < 2 -> c < 2 -> mix (r * 2 ^ m + i) (c * 2 ^ m + j) m = 2 * r + c.
Proof. intros. unfold mix. now rewrite !bit_top. Qed.
Lemma mix_low r c m i j l : l < m -> mix (r * 2 ^ m + i) (c * 2 ^ m + j) l = mix i j l.
Proof. intros. unfold mix, bit. now rewrite !testbit_low. Qed.
Lemma block_block a b r c R' C' A : a <= b ->
  block a r c (block b R' C' A) = block a (R' * 2 ^ (b - a) + r) (C' * 2 ^ (b - a) + c) A.
Proof.
  intros H. unfold block. apply functional_extensionality. intros i. apply functional_extensionality. intros j.
  assert (He : 2 ^ b = 2 ^ (b - a) * 2 ^ a) by (rewrite <- Nat.pow_add_r; f_equal; lia).
  f_equal; rewrite He; ring.
Qed.
Lemma block_00 n A : block n 0 0 A = A.
Proof. reflexivity. Qed.

Section C31.
Context (tau : R) {HTol : Tol tau}.
Let Htau : (0 <= tau < 1 / 2)%R := tol_ok.
#[local] Hint Extern 0 NumOps => exact (RNum tau) : typeclass_instances.
Context {CF : Cfg}.
Notation table := (@table (RNum tau)).
Notation state := (@state (RNum tau)).
Notation edge := (@edge (RNum tau)).
Notation val := (val tau).
Notation wfe := (wfe tau).
Notation wfp := (wfp tau).
Notation reg := (reg tau).
Notation TInv := (TInv tau).
Notation Inv := (Inv tau).
Notation rel := (rel tau).
Notation E := (@E (RNum tau)).
Notation reads_m := (reads_m tau).
Notation matof := (matof tau).

Lemma val_block s m (e : edge) a nd r c : en e = Node a -> reg KM (tb s KM) a nd -> nv nd = Z.of_nat m -> r < 2 -> c < 2 ->
  let ch := nth (2 * r + c) (nch nd) zeroE in
  forall i j, i < 2 ^ m -> j < 2 ^ m -> block m r c (matof s (S m) e) i j = matof s m (E (cmul (ew ch) (ew e)) (en ch)) i j.
Proof.
  intros He Hreg Hv Hr Hc ch i j Hi Hj. unfold block, Obs.matof, matF. destruct e as [w p]. cbn [en ew] in *. subst p.
  rewrite (val_node tau KM _ m a nd w _ Hreg Hv). rewrite mix_top by auto. fold ch.
  rewrite (val_local tau KM _ m ch _ (mix i j)) by (intros; now apply mix_low).
  unfold Wf.val. cbn [ew en]. rewrite (cmul_C tau (ew ch) w). toC. ring.
Qed.
(* a gate whose root is below the top level *)
Lemma low_repeated s m (e : edge) : wfe KM (tb s KM) m e -> repeated (S m) (matof s (S m) e).
Proof.
  intros Hw. unfold repeated. replace (S m - 1) with m by lia.
  assert (Hg : forall r c i j, r < 2 -> c < 2 -> i < 2 ^ m -> j < 2 ^ m ->
    block m r c (matof s (S m) e) i j = Cmult (diag4 (2 * r + c)) (matof s m e i j)).
  { intros r c i j Hr Hc Hi Hj. unfold block, Obs.matof, matF. rewrite (val_KM_up tau) by auto. rewrite mix_top by auto.
    f_equal. apply (val_local tau). intros; now apply mix_low. }
  split; [|split]; intros i j Hi Hj; rewrite !Hg by auto; cbn [diag4 Nat.mul Nat.add]; ring.
Qed.
Lemma mix_surj n ix : (forall l, ix l < 4) -> exists i j, i < 2 ^ n /\ j < 2 ^ n /\ forall l, l < n -> mix i j l = ix l.
Proof.
  intros Hix.
  destruct (ofbits n (fun l => Nat.modulo (ix l / 2) 2)) as (a & Ha & Hx); [intros; apply Nat.mod_upper_bound; lia|].
  destruct (ofbits n (fun l => Nat.modulo (ix l) 2)) as (b & Hb & Hy); [intros; apply Nat.mod_upper_bound; lia|].
  exists a, b. split; auto. split; auto. intros l Hl. unfold mix. specialize (Hx l Hl). specialize (Hy l Hl).
  unfold bix in Hx, Hy. rewrite Hx, Hy. specialize (Hix l). destruct (ix l) as [|[|[|[|]]]]; try lia; reflexivity.
Qed.
Lemma zero_weight s n (e : edge) : Inv s -> wfe KM (tb s KM) n e -> meq n (matof s n e) (fun _ _ => RtoC 0) -> ew e = c0.
Proof.
  intros HI Hw H0. destruct (val_max tau KM _ n e (inv_tb _ _ HI KM) Hw) as (ix & Hix & Hm). cbn [arity] in Hix.
  destruct (mix_surj n ix Hix) as (i & j & Hi & Hj & Hij).
  specialize (H0 i j Hi Hj). unfold Obs.matof, matF in H0. rewrite (val_local tau KM _ n e _ ix) in H0 by auto.
  rewrite H0, Cmod_0 in Hm. symmetry in Hm. apply Cmod_eq_0 in Hm. exact Hm.
Qed.

Lemma pow2_land g : Nat.land (2 ^ g) (2 ^ g - 1) = 0.
Proof.
  apply Nat.bits_inj_0. intros l. rewrite Nat.land_spec. destruct (Nat.eq_dec l g) as [->|Hne].
  - replace (2 ^ g - 1) with (Nat.ones g) by (rewrite Nat.ones_equiv; lia). rewrite Nat.ones_spec_high by lia. apply andb_false_r.
  - rewrite Nat.pow2_bits_false by auto. reflexivity.
Qed.
Lemma pow2_half g : 2 ^ S g / 2 = 2 ^ g.
Proof. rewrite Nat.pow_succ_r', Nat.mul_comm, Nat.div_mul; lia. Qed.
Lemma half_index g row : row < 2 ^ S g -> row / 2 ^ g < 2 /\ (2 ^ g <=? row) = (row / 2 ^ g =? 1).
Proof.
  intros H. rewrite Nat.pow_succ_r' in H. assert (Hp : 2 ^ g <> 0) by (apply Nat.pow_nonzero; lia).
  assert (Hlt : row / 2 ^ g < 2) by (apply Nat.div_lt_upper_bound; lia). split; auto.
  pose proof (Nat.div_mod row (2 ^ g) Hp). pose proof (Nat.mod_upper_bound row (2 ^ g) Hp).
  destruct (Nat.leb_spec (2 ^ g) row); destruct (Nat.eqb_spec (row / 2 ^ g) 1); auto; nia.
Qed.
Lemma gate_index g row col : row < 2 ^ S g -> col < 2 ^ S g ->
  (if 2 ^ g <=? row then 2 else 0) + (if 2 ^ g <=? col then 1 else 0) = 2 * (row / 2 ^ g) + col / 2 ^ g.
Proof.
  intros Hr Hc. destruct (half_index g row Hr) as [R1 ->]. destruct (half_index g col Hc) as [C1 ->].
  destruct (row / 2 ^ g) as [|[|]]; destruct (col / 2 ^ g) as [|[|]]; cbn; lia.
Qed.

(* it always returns a gate on m qubits; from a zero edge, a zero edge *)
Lemma mpi_gate_safe s m : Inv s -> forall g fuel e row col, g <= fuel -> row < 2 ^ g -> col < 2 ^ g ->
  wfe KM (tb s KM) (m + g) e ->
  exists e', mpi_gate s fuel e row col (2 ^ g) = Some e' /\ wfe KM (tb s KM) m e' /\ (ew e = c0 -> ew e' = c0).
Proof.
  intros HI. assert (HT : forall e : edge, en e = Term -> wfe KM (tb s KM) m e) by (intros e He; left; left; exact He).
  assert (HN : forall n (e : edge), en e = Null -> ~ wfe KM (tb s KM) n e).
  { intros n e He [[h|(a & nd & h & _)]|[_ h]]; congruence. }
  induction g as [|g IH]; intros fuel e row col Hf Hr Hc Hw.
  - exists e. rewrite Nat.add_0_r in Hw. split; auto. destruct fuel; cbn [mpi_gate]; destruct (en e) eqn:Hen; auto; now apply HN in Hw.
  - destruct fuel as [|f]; [lia|]. cbn [mpi_gate]. destruct (en e) as [| |a] eqn:Hen; [now apply HN in Hw|exists e; auto|].
    assert (H2 : (2 ^ S g <=? 1) = false).
    { apply Nat.leb_gt. rewrite Nat.pow_succ_r'. assert (2 ^ g <> 0) by (apply Nat.pow_nonzero; lia). lia. }
    rewrite H2, pow2_land, Nat.eqb_refl. cbn [negb].
    rewrite (proj2 (Nat.ltb_lt _ _) Hr), (proj2 (Nat.ltb_lt _ _) Hc). cbn [andb negb readn].
    destruct Hw as [[h|(a' & nd & h & Hreg & Hlt)]|[_ h]]; try congruence. assert (a' = a) by congruence. subst a'.
    destruct (Hreg) as [Hh _]. rewrite Hh. pose proof (reg_ok tau _ _ _ _ (inv_tb tau s HI KM) Hreg) as Hok.
    rewrite pow2_half, gate_index by auto. destruct (half_index g row Hr) as [R1 _]. destruct (half_index g col Hc) as [C1 _].
    set (ix := 2 * (row / 2 ^ g) + col / 2 ^ g). assert (Hix : ix < length (nch nd)) by (rewrite (no_len _ _ _ _ Hok); cbn; unfold ix; lia).
    rewrite (nth_error_nth' (nch nd) zeroE Hix). set (ch := nth ix (nch nd) zeroE).
    assert (Hch : In ch (nch nd)) by (apply nth_In; exact Hix). pose proof (no_wf _ _ _ _ Hok ch Hch) as Hwc. pose proof (no_level _ _ _ _ Hok) as Hl.
    destruct (IH f (E (cmul (ew ch) (ew e)) (en ch)) (row mod 2 ^ g) (col mod 2 ^ g)) as (e' & E1 & E2 & E3).
    + lia.
    + apply Nat.mod_upper_bound, Nat.pow_nonzero. lia.
    + apply Nat.mod_upper_bound, Nat.pow_nonzero. lia.
    + apply (wfe_scale_r tau). eapply (wfe_KM_up tau); [|exact Hwc]. lia.
    + exists e'. split; [exact E1|]. split; [exact E2|]. intros He. apply E3. cbn [ew]. rewrite He.
      change (@eq C (Cmult (ew ch) (RtoC 0)) (RtoC 0)). ring.
Qed.
Lemma visible_sub m g row col A : row < 2 ^ S g -> col < 2 ^ S g -> visible (m + S g) (S g) row col A ->
  visible (m + g) g (row mod 2 ^ g) (col mod 2 ^ g) (block (m + g) (row / 2 ^ g) (col / 2 ^ g) A).
Proof.
  intros Hr Hc Hv k Hk. cbv zeta. rewrite block_block by lia. replace (m + g - (m + g - k)) with k by lia.
  assert (Hx : forall x, x / 2 ^ g * 2 ^ k + x mod 2 ^ g / 2 ^ (g - k) = x / 2 ^ (g - k)).
  { intros x. assert (He : 2 ^ g = 2 ^ (g - k) * 2 ^ k) by (rewrite <- Nat.pow_add_r; f_equal; lia).
    assert (N1 : 2 ^ (g - k) <> 0) by (apply Nat.pow_nonzero; lia). assert (N2 : 2 ^ k <> 0) by (apply Nat.pow_nonzero; lia).
    rewrite (Nat.div_mod x (2 ^ g)) at 3 by (rewrite He; lia). rewrite He at 3.
    replace (2 ^ (g - k) * 2 ^ k * (x / 2 ^ g) + x mod 2 ^ g) with (x mod 2 ^ g + (x / 2 ^ g * 2 ^ k) * 2 ^ (g - k)) by ring.
    rewrite Nat.div_add by auto. lia. }
  rewrite !Hx. specialize (Hv (S k) ltac:(lia)). cbv zeta in Hv.
  replace (m + S g - S k) with (m + g - k) in Hv by lia. replace (S g - S k) with (g - k) in Hv by lia. exact Hv.
Qed.
Lemma visible_ext n g row col A B : row < 2 ^ g -> col < 2 ^ g -> g <= n -> meq n A B -> visible n g row col A -> visible n g row col B.
Proof.
  intros Hr Hc Hg He Hv k Hk. cbv zeta. specialize (Hv k Hk). cbv zeta in Hv.
  assert (Hb : meq (n - k) (block (n - k) (row / 2 ^ (g - k)) (col / 2 ^ (g - k)) A) (block (n - k) (row / 2 ^ (g - k)) (col / 2 ^ (g - k)) B)).
  { assert (Hx : forall x i, x < 2 ^ g -> i < 2 ^ (n - k) -> x / 2 ^ (g - k) * 2 ^ (n - k) + i < 2 ^ n).
    { intros x i Hx Hi. assert (Hd : x / 2 ^ (g - k) < 2 ^ k).
      { apply Nat.div_lt_upper_bound; [apply Nat.pow_nonzero; lia|]. rewrite <- Nat.pow_add_r. now replace (g - k + k) with g by lia. }
      assert (Hn : 2 ^ n = 2 ^ k * 2 ^ (n - k)) by (rewrite <- Nat.pow_add_r; f_equal; lia). rewrite Hn. nia. }
    intros i j Hi Hj. unfold block. apply He; auto. }
  set (A' := block _ _ _ A) in *. set (B' := block _ _ _ B) in *.
  destruct Hv as [Hz|Hn]; [left|right].
  - intros i j Hi Hj. rewrite <- Hb by auto. now apply Hz.
  - intros (R1 & R2 & R3). apply Hn. assert (Hp : forall r i, r < 2 -> i < 2 ^ (n - k - 1) -> r * 2 ^ (n - k - 1) + i < 2 ^ (n - k)).
    { intros r i Hr' Hi. assert (Hq : 2 ^ (n - k) = 2 * 2 ^ (n - k - 1)) by (rewrite <- Nat.pow_succ_r'; f_equal; lia). rewrite Hq. nia. }
    split; [|split]; intros i j Hi Hj; unfold block in *; rewrite !Hb by (apply Hp; auto); auto.
Qed.
(* C31, for a gate none of whose blocks on the way is stripped *)
Lemma mpi_gate_block s m : Inv s -> forall g fuel e row col, g <= fuel -> row < 2 ^ g -> col < 2 ^ g ->
  wfe KM (tb s KM) (m + g) e -> visible (m + g) g row col (matof s (m + g) e) ->
  exists e', mpi_gate s fuel e row col (2 ^ g) = Some e' /\ wfe KM (tb s KM) m e' /\
    meq m (matof s m e') (block m row col (matof s (m + g) e)).
Proof.
  intros HI. induction g as [|g IH]; intros fuel e row col Hf Hr Hc Hw Hv.
  - destruct (mpi_gate_safe s m HI 0 fuel e row col Hf Hr Hc Hw) as (e' & E1 & E2 & _). exists e'. split; auto. split; auto.
    assert (e' = e). { destruct fuel; cbn [mpi_gate] in E1; destruct (en e); cbn in E1; congruence. }
    subst e'. cbn in Hr, Hc. assert (row = 0) by lia. assert (col = 0) by lia. subst row col. rewrite Nat.add_0_r. rewrite block_00. apply meq_refl.
  - pose proof (Hv 0 ltac:(lia)) as H0. cbv zeta in H0. rewrite !Nat.sub_0_r in H0.
    rewrite (Nat.div_small row), (Nat.div_small col), block_00 in H0 by auto.
    assert (Hzero : meq (m + S g) (matof s (m + S g) e) (fun _ _ => RtoC 0) -> exists e', mpi_gate s fuel e row col (2 ^ S g) = Some e' /\ wfe KM (tb s KM) m e' /\
        meq m (matof s m e') (block m row col (matof s (m + S g) e))).
    { intros Hz. destruct (mpi_gate_safe s m HI (S g) fuel e row col Hf Hr Hc Hw) as (e' & E1 & E2 & E3). exists e'. split; auto. split; auto.
      pose proof (zero_weight s _ e HI Hw Hz) as Hz'. intros i j Hi Hj. unfold block, Obs.matof, matF.
      rewrite (val_zw tau _ _ _ e') by auto. rewrite (val_zw tau _ _ _ e) by auto. reflexivity. }
    destruct H0 as [Hz|Hn]; [now apply Hzero|].
    replace (m + S g) with (S (m + g)) in * by lia.
    destruct Hw as [[h|(a & nd & Hen & Hreg & Hlt)]|[Hz h]].
    + exfalso. apply Hn. apply low_repeated. left. now left.
    + destruct (Z.eq_dec (nv nd) (Z.of_nat (m + g))) as [Hl|Hl].
      2:{ exfalso. apply Hn. apply low_repeated. left. right. exists a, nd. repeat split; try apply Hreg; auto. lia. }
      destruct fuel as [|f]; [lia|]. cbn [mpi_gate]. rewrite Hen.
      assert (H2 : (2 ^ S g <=? 1) = false).
      { apply Nat.leb_gt. rewrite Nat.pow_succ_r'. assert (2 ^ g <> 0) by (apply Nat.pow_nonzero; lia). lia. }
      rewrite H2, pow2_land, Nat.eqb_refl. cbn [negb].
      rewrite (proj2 (Nat.ltb_lt _ _) Hr), (proj2 (Nat.ltb_lt _ _) Hc). cbn [andb negb readn].
      destruct (Hreg) as [Hh _]. rewrite Hh. pose proof (reg_ok tau _ _ _ _ (inv_tb tau s HI KM) Hreg) as Hok.
      rewrite pow2_half, gate_index by auto. destruct (half_index g row Hr) as [R1 _]. destruct (half_index g col Hc) as [C1 _].
      set (ix := 2 * (row / 2 ^ g) + col / 2 ^ g). assert (Hix : ix < length (nch nd)) by (rewrite (no_len _ _ _ _ Hok); cbn; unfold ix; lia).
      rewrite (nth_error_nth' (nch nd) zeroE Hix). pose proof (val_block s (m + g) e a nd _ _ Hen Hreg Hl R1 C1) as Hb. cbv zeta in Hb. fold ix in Hb.
      set (ch := nth ix (nch nd) zeroE) in *.
      assert (Hch : In ch (nch nd)) by (apply nth_In; exact Hix). pose proof (no_wf _ _ _ _ Hok ch Hch) as Hwc. rewrite Hl, Nat2Z.id in Hwc.
      destruct (IH f (E (cmul (ew ch) (ew e)) (en ch)) (row mod 2 ^ g) (col mod 2 ^ g)) as (e' & E1 & E2 & E3).
      * lia.
      * apply Nat.mod_upper_bound, Nat.pow_nonzero. lia.
      * apply Nat.mod_upper_bound, Nat.pow_nonzero. lia.
      * apply (wfe_scale_r tau). exact Hwc.
      * eapply visible_ext; [apply Nat.mod_upper_bound, Nat.pow_nonzero; lia|apply Nat.mod_upper_bound, Nat.pow_nonzero; lia|lia|exact Hb|].
        apply visible_sub; auto. now replace (m + S g) with (S (m + g)) by lia.
      * exists e'. split; [exact E1|]. split; [exact E2|]. intros i j Hi Hj. rewrite E3 by auto.
        assert (Hd : forall x, x / 2 ^ g * 2 ^ (m + g - m) + x mod 2 ^ g = x).
        { intros x. replace (m + g - m) with g by lia. rewrite (Nat.div_mod x (2 ^ g)) at 3 by (apply Nat.pow_nonzero; lia). lia. }
        transitivity (block m (row mod 2 ^ g) (col mod 2 ^ g) (block (m + g) (row / 2 ^ g) (col / 2 ^ g) (matof s (S (m + g)) e)) i j).
        -- unfold block at 1 2. rewrite <- Hb; [reflexivity| |]; 
           [pose proof (Nat.mod_upper_bound row (2 ^ g) ltac:(apply Nat.pow_nonzero; lia))|pose proof (Nat.mod_upper_bound col (2 ^ g) ltac:(apply Nat.pow_nonzero; lia))];
           rewrite Nat.pow_add_r; nia.
        -- rewrite block_block by lia. rewrite !Hd. reflexivity.
    + apply Hzero. intros i j _ _. unfold Obs.matof, matF. now rewrite (val_zw tau).
Qed.

(* the identity stripping of makeMEdge leaves no top node above a repeated block *)
Lemma strip_low s m (e : edge) : tau = 0%R -> Inv s -> wfe KM (tb s KM) (S m) e -> ew e <> c0 ->
  repeated (S m) (matof s (S m) e) -> wfe KM (tb s KM) m e.
Proof.
  intros H0 HI Hw Hz Hrep. destruct Hw as [[h|(a & nd & Hen & Hreg & Hlt)]|[h _]]; [left; now left| |contradiction].
  destruct (Z.eq_dec (nv nd) (Z.of_nat m)) as [Hl|Hl]; [|left; right; exists a, nd; repeat split; try apply Hreg; auto; lia].
  exfalso. pose proof (inv_tb tau s HI KM) as HT. pose proof (reg_ok tau _ _ _ _ HT Hreg) as Hok.
  unfold repeated in Hrep. replace (S m - 1) with m in Hrep by lia. destruct Hrep as (R1 & R2 & R3).
  assert (Hch : forall i, i < 4 -> In (nth i (nch nd) zeroE) (nch nd) /\ wfe KM (tb s KM) m (nth i (nch nd) zeroE)).
  { intros i Hi. assert (In (nth i (nch nd) zeroE) (nch nd)) by (apply nth_In; rewrite (no_len _ _ _ _ Hok); exact Hi). split; auto.
    replace m with (Z.to_nat (nv nd)) by lia. now apply (no_wf _ _ _ _ Hok). }
  assert (Hzero : forall r c, r < 2 -> c < 2 -> meq m (block m r c (matof s (S m) e)) (fun _ _ => RtoC 0) -> iszero (ew (nth (2 * r + c) (nch nd) zeroE)) = true).
  { intros r c Hr Hc Hm. destruct (Hch (2 * r + c) ltac:(lia)) as [Hin Hwc].
    pose proof (val_block s m e a nd r c Hen Hreg Hl Hr Hc) as Hb. cbv zeta in Hb. set (ch := nth (2 * r + c) (nch nd) zeroE) in *.
    assert (Hzw : ew (E (cmul (ew ch) (ew e)) (en ch)) = c0).
    { apply (zero_weight s m); auto; [now apply (wfe_scale_r tau)|]. intros i j Hi Hj. rewrite <- Hb by auto. now apply Hm. }
    cbn [ew] in Hzw. rewrite (cmul_C tau (ew ch) (ew e)) in Hzw. apply Cint in Hzw as [h|h]; [|contradiction].
    apply (iszero_0 tau); [apply Htau|exact h]. }
  pose proof (no_strip _ _ _ _ Hok eq_refl H0) as Hs. unfold strippable in Hs.
  pose proof (Hzero 0 1 ltac:(lia) ltac:(lia) R1) as Z1. pose proof (Hzero 1 0 ltac:(lia) ltac:(lia) R2) as Z2. cbn [Nat.mul Nat.add] in Z1, Z2.
  rewrite Z1, Z2 in Hs.
  set (ca := nth 0 (nch nd) zeroE) in *. set (cd := nth 3 (nch nd) zeroE) in *.
  assert (He : ca = cd); [|rewrite He, ptr_eqb_refl, (isequal_refl tau) in Hs; discriminate Hs].
  destruct (Hch 0 ltac:(lia)) as [Ia Wa]. destruct (Hch 3 ltac:(lia)) as [Id Wd]. fold ca in Ia, Wa. fold cd in Id, Wd.
  assert (Hv : meq m (matof s m ca) (matof s m cd)).
  { intros i j Hi Hj. pose proof (val_block s m e a nd 0 0 Hen Hreg Hl ltac:(lia) ltac:(lia) i j Hi Hj) as B0.
    pose proof (val_block s m e a nd 1 1 Hen Hreg Hl ltac:(lia) ltac:(lia) i j Hi Hj) as B3. cbn [Nat.mul Nat.add] in B0, B3. fold ca in B0. fold cd in B3.
    rewrite <- (R3 i j Hi Hj), B0 in B3. unfold Obs.matof, matF, Wf.val in *. cbn [ew en] in B3. rewrite (cmul_C tau (ew ca) (ew e)), (cmul_C tau (ew cd) (ew e)) in B3.
    apply (Ccancel (ew e)); auto. toC. etransitivity; [|etransitivity; [exact B3|]]; ring. }
  destruct (canon_edge tau KM (tb s KM) m ca cd H0 HT Wa Wd) as [He|[Y1 Y2]]; auto.
  - now apply (meq_val tau s m ca cd HI Wa Wd).
  - assert (Hz0 : forall c, In c (nch nd) -> ew c = c0 -> c = zeroE).
    { intros c Hc Hz'. apply (no_zero _ _ _ _ Hok); auto. apply (iszero_0 tau); [apply Htau|exact Hz']. }
    rewrite (Hz0 ca), (Hz0 cd); auto.
Qed.

Lemma matof_reads s n (e : edge) A : Inv s -> wfe KM (tb s KM) n e -> meq n (matof s n e) A -> reads_m s n e A.
Proof.
  intros HI Hw Hm. apply (upto_0_m tau) with (err := 0%R); auto. eapply (dn_reads_m tau) with (F := val KM (tb s KM) n e); auto.
  split; auto. intros ix. replace (Cminus (val KM (tb s KM) n e ix) (val KM (tb s KM) n e ix)) with (RtoC 0) by ring. rewrite Cmod_0. lra.
Qed.

(* C31.  getMPIGate(root, row, col, 2^g) is block (row,col) of the matrix -- for
   gates none of whose enclosing blocks is of the form [[B,0],[0,B]].  Missing:
   all other gates, for which it is false (C31_refuted). *)
Theorem C31_getMPIGate_partial s hs n g (e : edge) A row col : reachable (s, hs) -> In (H KM n e) hs -> reads_m s n e A ->
  g <= n -> row < 2 ^ g -> col < 2 ^ g -> visible n g row col A ->
  exists e', getMPIGate s e row col (2 ^ g) = Some e' /\ reads_m s (n - g) e' (block (n - g) row col A).
Proof.
  intros Hr Hin RA Hg Hrow Hcol Hv. pose proof (reach_Inv tau _ _ Hr) as HI.
  destruct (reach_M tau _ _ _ _ Hr Hin) as (_ & Hw).
  assert (En : (n - g) + g = n) by lia. pose proof (meq_sym _ _ _ (Logic.proj1 RA)) as Hm.
  destruct (mpi_gate_block s (n - g) HI g (2 ^ g) e row col) as (e' & E1 & E2 & E3); rewrite ?En; auto.
  - apply Nat.lt_le_incl, Nat.pow_gt_lin_r. lia.
  - eapply visible_ext; eauto.
  - exists e'. split; [exact E1|]. apply matof_reads; auto. eapply meq_trans; [exact E3|]. rewrite En.
    assert (Hx : forall x i, x < 2 ^ g -> i < 2 ^ (n - g) -> x * 2 ^ (n - g) + i < 2 ^ n).
    { intros x i Hx Hi. assert (Hp : 2 ^ n = 2 ^ g * 2 ^ (n - g)) by (rewrite <- Nat.pow_add_r; f_equal; lia). rewrite Hp. nia. }
    intros i j Hi Hj. unfold block. symmetry. apply Hm; auto.
Qed.
(* it never fails an assertion, whatever the gate *)
Theorem C31_getMPIGate_defined s hs n g (e : edge) row col : reachable (s, hs) -> In (H KM n e) hs ->
  g <= n -> row < 2 ^ g -> col < 2 ^ g -> exists e', getMPIGate s e row col (2 ^ g) = Some e'.
Proof.
  intros Hr Hin Hg Hrow Hcol. pose proof (reach_Inv tau _ _ Hr) as HI.
  destruct (reach_M tau _ _ _ _ Hr Hin) as (_ & Hw).
  destruct (mpi_gate_safe s (n - g) HI g (2 ^ g) e row col) as (e' & E1 & _); auto.
  - apply Nat.lt_le_incl, Nat.pow_gt_lin_r. lia.
  - now replace (n - g + g) with n by lia.
  - exists e'. exact E1.
Qed.
Lemma low_gate s m (e : edge) A row col : tau = 0%R -> Inv s -> wfe KM (tb s KM) (S (S m)) e ->
  meq (S (S m)) (matof s (S (S m)) e) A -> ~ meq (S (S m)) A (fun _ _ => RtoC 0) -> repeated (S (S m)) A ->
  let D := block (S m) 0 0 A in row < 2 -> col < 2 -> ~ repeated (S m) D ->
  exists e', getMPIGate s e row col 2 = Some e' /\ wfe KM (tb s KM) (S m) e' /\
    meq (S m) (matof s (S m) e') (fun i j => if Nat.eqb (i / 2 ^ m) (j / 2 ^ m) then block m row col D (i mod 2 ^ m) (j mod 2 ^ m) else RtoC 0).
Proof.
  intros H0 HI Hw RA Hnz Hrep D Hrow Hcol HD.
  assert (Hrep' : repeated (S (S m)) (matof s (S (S m)) e)).
  { destruct Hrep as (R1 & R2 & R3). unfold repeated in *. replace (S (S m) - 1) with (S m) in * by lia.
    assert (Hx : forall x i, x < 2 -> i < 2 ^ S m -> x * 2 ^ S m + i < 2 ^ S (S m)).
    { intros x i Hx Hi. rewrite (Nat.pow_succ_r' 2 (S m)). nia. }
    split; [|split]; intros i j Hi Hj; unfold block in *; rewrite !RA by (apply Hx; auto); auto. }
  assert (Hz : ew e <> c0).
  { intros Hz. apply Hnz. intros i j Hi Hj. rewrite <- RA by auto. unfold Obs.matof, matF. now apply (val_zw tau). }
  pose proof (strip_low s (S m) e H0 HI Hw Hz Hrep') as Hw1.
  assert (HDm : meq (S m) (matof s (S m) e) D).
  { intros i j Hi Hj. unfold D. unfold block. cbn [Nat.mul Nat.add].
    assert (Hx : forall x, x < 2 ^ S m -> x < 2 ^ S (S m)) by (intros x Hx; rewrite (Nat.pow_succ_r' 2 (S m)); lia).
    rewrite <- RA by auto. unfold Obs.matof, matF. rewrite (val_KM_up tau (tb s KM) (S m) e) by exact Hw1.
    pose proof (mix_top 0 0 (S m) i j Hi Hj ltac:(lia) ltac:(lia)) as Ht. cbn [Nat.mul Nat.add] in Ht. rewrite Ht. cbn [diag4]. ring. }
  assert (Hvis : visible (m + 1) 1 row col (matof s (m + 1) e)).
  { intros k Hk. assert (k = 0) by lia. subst k. right. rewrite !Nat.sub_0_r, !Nat.pow_1_r, !Nat.div_small, block_00 by auto.
    replace (m + 1) with (S m) by lia. intros (R1 & R2 & R3). apply HD.
    assert (Hx : forall x i, x < 2 -> i < 2 ^ m -> x * 2 ^ m + i < 2 ^ S m) by (intros x i Hx Hi; rewrite Nat.pow_succ_r'; nia).
    unfold repeated in *. replace (S m - 1) with m in * by lia.
    split; [|split]; intros i j Hi Hj; unfold block in *; rewrite <- !HDm by (apply Hx; auto); auto. }
  destruct (mpi_gate_block s m HI 1 2 e row col) as (e' & E1 & E2 & E3); auto.
  { now replace (m + 1) with (S m) by lia. }
  exists e'. split; [exact E1|]. split; [apply (wfe_KM_up tau (tb s KM) m (S m)); auto|]. intros i j Hi Hj.
  assert (P : 2 ^ m <> 0) by (apply Nat.pow_nonzero; lia).
  assert (Hdiv : forall x, x < 2 ^ S m -> x / 2 ^ m < 2 /\ x = x / 2 ^ m * 2 ^ m + x mod 2 ^ m /\ x mod 2 ^ m < 2 ^ m).
  { intros x Hx. rewrite Nat.pow_succ_r' in Hx. split; [apply Nat.div_lt_upper_bound; lia|]. split; [|now apply Nat.mod_upper_bound].
    rewrite (Nat.div_mod x (2 ^ m)) at 1 by auto. lia. }
  destruct (Hdiv i Hi) as (I1 & I2 & I3). destruct (Hdiv j Hj) as (J1 & J2 & J3).
  rewrite I2 at 1. rewrite J2 at 1. unfold Obs.matof, matF. rewrite (val_KM_up tau) by exact E2. rewrite mix_top by auto.
  rewrite (val_local tau KM _ m e' _ (mix (i mod 2 ^ m) (j mod 2 ^ m))) by (intros; now apply mix_low).
  change (val KM (tb s KM) m e' (mix (i mod 2 ^ m) (j mod 2 ^ m))) with (matof s m e' (i mod 2 ^ m) (j mod 2 ^ m)). rewrite E3 by auto.
  replace (m + 1) with (S m) by lia.
  assert (Hbl : block m row col (matof s (S m) e) (i mod 2 ^ m) (j mod 2 ^ m) = block m row col D (i mod 2 ^ m) (j mod 2 ^ m)).
  { unfold block at 1 2. apply HDm; rewrite Nat.pow_succ_r'; nia. }
  rewrite Hbl. destruct (i / 2 ^ m) as [|[|]]; destruct (j / 2 ^ m) as [|[|]]; try lia; cbn [Nat.mul Nat.add diag4 Nat.eqb]; ring.
Qed.
(* What it returns for two ranks when the gate does not act on the top qubit,
   A = [[D,0],[0,D]] <> 0: block (row,col) of D -- not D for row = col, nor 0 for row <> col. *)
Theorem C31_refuted_general s hs m (e : edge) A row col : tau = 0%R -> reachable (s, hs) -> In (H KM (S (S m)) e) hs ->
  reads_m s (S (S m)) e A -> ~ meq (S (S m)) A (fun _ _ => RtoC 0) -> repeated (S (S m)) A ->
  let D := block (S m) 0 0 A in row < 2 -> col < 2 -> ~ repeated (S m) D ->
  exists e', getMPIGate s e row col 2 = Some e' /\
    meq (S m) (matof s (S m) e') (fun i j => if Nat.eqb (i / 2 ^ m) (j / 2 ^ m) then block m row col D (i mod 2 ^ m) (j mod 2 ^ m) else RtoC 0).
Proof.
  intros H0 Hr Hin RA Hnz Hrep D Hrow Hcol HD. destruct (reach_M tau _ _ _ _ Hr Hin) as (_ & Hw).
  destruct (low_gate s m e A row col H0 (reach_Inv tau _ _ Hr) Hw (Logic.proj1 RA) Hnz Hrep Hrow Hcol HD) as (e' & E1 & _ & E3). eauto.
Qed.
(* a concrete instance: X on qubit 0 of two, two ranks; the diagonal block comes
   out as the zero matrix *)
Theorem C31_refuted : tau = 0%R -> exists s hs e e',
  reachable (s, hs) /\ In (H KM 2 e) hs /\ reads_m s 2 e (gate1 2 (@Xmat (RNum tau)) 0 []) /\
  getMPIGate s e 0 0 2 = Some e' /\ meq 1 (matof s 1 e') (fun _ _ => RtoC 0) /\
  ~ meq 1 (block 1 0 0 (gate1 2 (@Xmat (RNum tau)) 0 [])) (fun _ _ => RtoC 0).
Proof.
  intros H0. set (GX := gate1 2 (@Xmat (RNum tau)) 0 []).
  assert (Hi : irun [P_gate 2 (@Xmat (RNum tau)) 0%Z []] [IM 2 GX] [[]]).
  { eapply ir_cons; [apply ir_nil|]. cbn. split; [unfold size_ok, NQUBITS; lia|]. split; [unfold qubit; lia|].
    split; [split; [constructor|intros x []]|]. split; reflexivity. }
  destruct (exec_exists tau _ _ _ H0 Hi) as ([s hs] & Hx).
  destruct (exec_refines tau _ (s, hs) _ _ _ H0 Hx Hi) as (_ & Hr & Hf). cbn [fst snd] in *.
  destruct hs as [|h0 hs2]; [now inversion Hf|]. inversion_clear Hf as [|? ? ? ? E0 F1]. destruct h0 as [k0 n0 e]. cbn in E0. destruct E0 as (-> & -> & RE).
  assert (one0 : RtoC 1 <> RtoC 0) by (intros h; injection h as h; revert h; apply R1_neq_R0).
  assert (x01 : block 1 0 0 GX 0 1 = RtoC 1) by (cbn; reflexivity).
  assert (Hnz : ~ meq 1 (block 1 0 0 GX) (fun _ _ => RtoC 0)).
  { intros h. specialize (h 0 1 ltac:(cbn; lia) ltac:(cbn; lia)). rewrite x01 in h. now apply one0. }
  destruct (C31_refuted_general s _ 0 e GX 0 0 H0 Hr (or_introl eq_refl) RE) as (e' & E1 & E2); try lia.
  - intros h. specialize (h 0 1 ltac:(cbn; lia) ltac:(cbn; lia)). now apply one0.
  - split; [|split]; intros i j Hi' Hj'; cbn in Hi', Hj'; destruct i as [|[|]]; destruct j as [|[|]]; try lia; reflexivity.
  - intros (h & _). specialize (h 0 0 ltac:(cbn; lia) ltac:(cbn; lia)). cbn in h. now apply one0.
  - exists s, (H KM 2 e :: hs2), e, e'. split; auto. split; [now left|]. split; auto. split; auto. split; auto.
    intros i j Hi' Hj'. rewrite E2 by auto. cbn in Hi', Hj'. destruct i as [|[|]]; destruct j as [|[|]]; try lia; reflexivity.
Qed.
End C31.
