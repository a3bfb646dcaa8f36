(* FpBackS.v -- C70, circuits that are simulated once and then sampled (qdd_backend.py:
   700-996 with a stable final state), over a rounded arithmetic: the gates, applyGlobal,
   then measureAll(current, False) for every shot. *)
From Coq Require Import Reals Lra Psatz ZArith Bool List Lia Arith FunctionalExtensionality Classical.
From Coquelicot Require Import Complex.
From Verif Require SafeF Backend BackSpec BackendP BackendX BackLink Props2.
From Verif Require Import Num State DD Gates GC Measure Api RNum Wf Sums Err Inv Wp Make Add MulV GateP StateP Kron Spec SpecP Readout
  MeasAllP ApplyP ApiP Obs Props1 Circuit FpA FpE FpW FpM FpAdd FpMul FpGate FpState FpRead FpMeas FpOne FpGC FpKron FpCirc FpProp FpMeasP FpOneP FpOneX FpBack.
Import ListNotations.
Open Scope Z_scope.

(* ---- sampling by thresholds, as a tree ---- *)
Fixpoint tsample (T : nat -> nat -> R) (k b : nat) : tree nat :=
  match k with
  | O => Leaf b
  | S j => Flip (T j b) (fun r => tsample T j (if r then Nat.setbit b j else b))
  end.
Lemma rprod_ext' k f g : (forall i, (i < k)%nat -> f i = g i) -> rprod k f = rprod k g.
Proof. induction k as [|k IH]; intros Hf; cbn [rprod]; [reflexivity|]. rewrite IH by (intros; apply Hf; lia). now rewrite Hf by lia. Qed.
Lemma tsample_Ex T h : looks_up T -> forall k b, Ex (tsample T k (b * 2 ^ k)) h =
  rsum (2 ^ k) (fun i => (weight k T (b * 2 ^ k + i) * h (b * 2 ^ k + i)%nat)%R).
Proof.
  intros [Hl _]. induction k as [|k IH]; intros b.
  - cbn. rewrite !Nat.add_0_r. unfold weight. cbn. ring.
  - assert (Hp : (2 ^ S k = 2 ^ k + 2 ^ k)%nat) by (cbn; lia). pose proof (Nat.pow_nonzero 2 k ltac:(lia)) as Hnz.
    assert (E0 : (b * 2 ^ S k = (2 * b) * 2 ^ k)%nat) by (rewrite Hp; lia).
    assert (E1 : (Nat.setbit (b * 2 ^ S k) k = (2 * b + 1) * 2 ^ k)%nat).
    { rewrite E0. apply Nat.bits_inj. intros l. rewrite Nat.setbit_eqb.
      destruct (Nat.eqb_spec k l) as [->|Hne].
      - cbn [orb]. replace l with (0 + l)%nat at 2 by lia. rewrite Nat.mul_pow2_bits_add. symmetry. apply Nat.testbit_odd_0.
      - cbn [orb]. destruct (Nat.lt_ge_cases l k) as [Hlt|Hge].
        + now rewrite !Nat.mul_pow2_bits_low.
        + replace l with ((l - k) + k)%nat by lia. rewrite !Nat.mul_pow2_bits_add. destruct (l - k)%nat as [|d] eqn:Ed; [lia|].
          now rewrite Nat.testbit_even_succ, Nat.testbit_odd_succ by lia. }
    assert (Hq : forall m i, (i < 2 ^ k)%nat -> ((m * 2 ^ k + i) / 2 ^ k = m)%nat).
    { intros m i Hi. rewrite Nat.div_add_l by lia. rewrite Nat.div_small by lia. lia. }
    assert (Hbit : forall m i, (i < 2 ^ k)%nat -> Nat.testbit (m * 2 ^ k + i) k = Nat.odd m).
    { intros m i Hi. rewrite Nat.testbit_odd, Nat.shiftr_div_pow2. now rewrite Hq. }
    assert (HT : forall m i, (i < 2 ^ k)%nat -> (m / 2 = b)%nat -> T k (m * 2 ^ k + i)%nat = T k (b * 2 ^ S k)%nat).
    { intros m i Hi Hm. apply Hl. rewrite Nat.pow_succ_r', (Nat.mul_comm 2 (2 ^ k)), <- !Nat.div_div by lia. rewrite Hq by exact Hi. rewrite Hm.
      replace (b * (2 ^ k * 2))%nat with ((2 * b) * 2 ^ k)%nat by lia. rewrite Nat.div_mul by lia. rewrite Nat.mul_comm, Nat.div_mul by lia. reflexivity. }
    cbn [tsample BackSpec.Ex]. rewrite E1, E0, !IH, Hp, BackendP.rsum_split, <- !rsum_scale. rewrite <- E0. f_equal; apply rsum_ext'; intros i Hi; unfold weight; cbn [rprod].
    + replace (b * 2 ^ S k + i)%nat with (2 * b * 2 ^ k + i)%nat by (rewrite E0; lia). rewrite (Hbit (2 * b)%nat i Hi). rewrite (HT (2 * b)%nat i Hi) by (rewrite Nat.mul_comm; apply Nat.div_mul; lia).
      replace (Nat.odd (2 * b)) with false by (symmetry; rewrite Nat.odd_mul; reflexivity). ring.
    + replace (b * 2 ^ S k + (2 ^ k + i))%nat with ((2 * b + 1) * 2 ^ k + i)%nat by (rewrite E0; lia). rewrite (Hbit (2 * b + 1)%nat i Hi). rewrite (HT (2 * b + 1)%nat i Hi) by (rewrite Nat.mul_comm, Nat.div_add_l by lia; cbn; lia).
      replace (Nat.odd (2 * b + 1)) with true by (symmetry; rewrite Nat.odd_add, Nat.odd_mul; reflexivity). ring.
Qed.
Lemma tsample_sum T h n : looks_up T -> Ex (tsample T n 0) h = rsum (2 ^ n) (fun b => (weight n T b * h b)%R).
Proof. intros HT. pose proof (tsample_Ex T h HT n 0%nat) as Hx. cbn [Nat.mul Nat.add] in Hx. exact Hx. Qed.
Lemma tsample_okt T : looks_up T -> forall k b, okt (tsample T k b).
Proof. intros [_ HT]. induction k as [|k IH]; intros b; cbn; auto. Qed.
(* the tree gives what the thresholds select *)
Lemma tsample_run T ths : looks_up T -> forall n b k rest b', (b < 2 ^ n)%nat -> (k <= n)%nat -> selects n T ths b -> (n <= length ths)%nat ->
  rest = skipn (n - k) ths -> b' = (b / 2 ^ k * 2 ^ k)%nat -> exists r, Backend.run (tsample T k b') rest = Some (Some b, r).
Proof.
  intros [Hl Hr] n b. induction k as [|k IH]; intros rest b' Hb Hk Hs Hlen -> ->.
  - cbn [tsample Backend.run]. rewrite Nat.pow_0_r, Nat.div_1_r, Nat.mul_1_r. eauto.
  - assert (Hn : nth (n - S k) ths 0%R :: skipn (n - k) ths = skipn (n - S k) ths).
    { replace (n - k)%nat with (S (n - S k)) by lia. assert (Hlt : (n - S k < length ths)%nat) by lia. revert Hlt. generalize (n - S k)%nat. clear.
      induction ths as [|t r IH]; intros [|m] Hm; cbn in *; try lia; [reflexivity|]. rewrite <- (IH m) by lia. reflexivity. }
    rewrite <- Hn. cbn [tsample Backend.run]. pose proof (Hs k ltac:(lia)) as Hk'. replace (n - 1 - k)%nat with (n - S k)%nat in Hk' by lia.
    assert (HT : T k (b / 2 ^ S k * 2 ^ S k)%nat = T k b) by (apply Hl; apply Nat.div_mul; apply Nat.pow_nonzero; lia).
    rewrite HT. pose proof (div_step b k) as Hd. pose proof (Nat.pow_nonzero 2 k ltac:(lia)) as Hnz. pose proof (Nat.pow_succ_r' 2 k) as Hps.
    apply IH; auto; try lia. destruct (Nat.testbit b k) eqn:Hbk.
    + destruct (Rlt_dec _ _) as [Hlt|Hge]; [exfalso; assert (T k b <= nth (n - S k) ths 0)%R by tauto; lra|].
      rewrite Hd. apply Nat.bits_inj. intros l. rewrite Nat.setbit_eqb. destruct (Nat.eqb_spec k l) as [->|Hne]; cbn [orb].
      * replace l with (0 + l)%nat at 3 by lia. rewrite Nat.mul_pow2_bits_add. symmetry. apply Nat.testbit_odd_0.
      * destruct (Nat.lt_ge_cases l k) as [Hlt|Hge'].
        -- rewrite !Nat.mul_pow2_bits_low by lia. reflexivity.
        -- replace l with ((l - S k) + S k)%nat by lia. rewrite Nat.mul_pow2_bits_add. replace (l - S k + S k)%nat with ((S (l - S k)) + k)%nat by lia.
           rewrite Nat.mul_pow2_bits_add. rewrite Nat.testbit_odd_succ by lia. reflexivity.
    + destruct (Rlt_dec _ _) as [Hlt|Hge]; [|exfalso; assert (false = true) by (apply Hk'; lra); discriminate]. rewrite Hd, Hps. lia.
Qed.

Section FpBackS.
Context {NO : NumOps} {AC : Accur NO} {CF : Cfg}.
Notation config := (state * list handle)%type.
Notation weight := FpMeasP.weight.

(* ---- tables of machine numbers that select alike have the same weights ---- *)
Lemma highest (P : nat -> Prop) n : (forall k, (k < n)%nat -> ~ P k) \/ exists k, (k < n)%nat /\ P k /\ forall j, (k < j)%nat -> (j < n)%nat -> ~ P j.
Proof.
  induction n as [|n IH]; [left; lia|]. destruct (classic (P n)) as [Hp|Hp]; [right; exists n; split; [lia|split; [exact Hp|lia]]|].
  destruct IH as [IH|(k & Hk & Hp' & Hj)].
  - left. intros k Hk. destruct (Nat.eq_dec k n) as [->|]; [exact Hp|apply IH; lia].
  - right. exists k. split; [lia|]. split; [exact Hp'|]. intros j H1 H2. destruct (Nat.eq_dec j n) as [->|]; [exact Hp|apply Hj; lia].
Qed.
Lemma rprod_zero k f i : (i < k)%nat -> f i = 0%R -> rprod k f = 0%R.
Proof. induction k as [|k IH]; intros Hi Hz; [lia|]. cbn [rprod]. destruct (Nat.eq_dec i k) as [->|]; [rewrite Hz; ring|rewrite IH by (auto; lia); ring]. Qed.
Lemma draws_list (P : nat -> num -> Prop) : (forall j, exists x, P j x) -> forall n, exists l, length l = n /\ forall j, (j < n)%nat -> P j (nth (n - 1 - j) l n0).
Proof.
  intros HP. induction n as [|n IH]; [exists []; split; [reflexivity|lia]|]. destruct IH as (l & Hl & Hj). destruct (HP n) as [x Hx]. exists (x :: l).
  split; [cbn; lia|]. intros j Hjn. destruct (Nat.eq_dec j n) as [->|Hne]; [replace (S n - 1 - n)%nat with 0%nat by lia; exact Hx|].
  replace (S n - 1 - j)%nat with (S (n - 1 - j)) by lia. cbn [nth]. apply Hj. lia.
Qed.
Lemma same_weights n T T' : looks_up T -> looks_up T' -> (forall k b, exists x : num, T k b = nr x) -> (forall k b, exists x : num, T' k b = nr x) ->
  (forall ths : list num, (n <= length ths)%nat -> (forall x, In x ths -> unif x) -> exists B, (B < 2 ^ n)%nat /\ selects n T (map nr ths) B /\ selects n T' (map nr ths) B) ->
  forall b, (b < 2 ^ n)%nat -> weight n T b = weight n T' b.
Proof.
  intros HT HT' HN HN' Hsel b Hb2. destruct (highest (fun k => T k b <> T' k b) n) as [He|(k & Hk & Hne & Hj)].
  - unfold weight. apply rprod_ext'. intros i Hi. assert (Hx : T i b = T' i b) by (apply NNPP; now apply He). now rewrite Hx.
  - assert (Hj' : forall j, (k < j)%nat -> (j < n)%nat -> T j b = T' j b) by (intros j H1 H2; apply NNPP; now apply Hj).
    destruct (classic (exists j, (k < j)%nat /\ (j < n)%nat /\ (if Nat.testbit b j then (1 - T j b)%R else T j b) = 0%R)) as [(j & H1 & H2 & Hz)|Hno].
    { unfold weight. rewrite (rprod_zero n _ j H2 Hz). rewrite (rprod_zero n _ j H2); [reflexivity|]. rewrite <- (Hj' j H1 H2). exact Hz. }
    exfalso. destruct HT as [HT1 HT2], HT' as [HT1' HT2'].
    assert (Hdr : forall j, exists x : num, unif x /\ ((k < j)%nat -> (j < n)%nat -> (Nat.testbit b j = true <-> (T j b <= nr x)%R)) /\
              (j = k -> nr x = Rmin (T k b) (T' k b))).
    { intros j. destruct (Nat.lt_trichotomy j k) as [Hlt|[->|Hgt]].
      - exists n0. split; [apply unif_nr; rewrite nr_0; lra|]. split; lia.
      - assert (Hx : exists x : num, nr x = Rmin (T k b) (T' k b)).
        { unfold Rmin. destruct (Rle_dec _ _); [destruct (HN k b) as [x Hx]|destruct (HN' k b) as [x Hx]]; exists x; now rewrite Hx. }
        destruct Hx as [x Hx]. exists x. split; [|split; [lia|auto]]. apply unif_nr. rewrite Hx. pose proof (HT2 k b). pose proof (HT2' k b).
        unfold Rmin. destruct (Rle_dec _ _); lra.
      - destruct (Nat.lt_ge_cases j n) as [Hjn|Hjn]; [|exists n0; split; [apply unif_nr; rewrite nr_0; lra|]; split; lia].
        assert (Hf : (if Nat.testbit b j then (1 - T j b)%R else T j b) <> 0%R) by (intros Hz; apply Hno; eauto). pose proof (HT2 j b) as Hr.
        destruct (Nat.testbit b j) eqn:Hb.
        + destruct (HN j b) as [x Hx]. exists x. split; [apply unif_nr; rewrite <- Hx; lra|]. split; [|lia]. intros _ _. rewrite <- Hx. split; [lra|auto].
        + exists n0. split; [apply unif_nr; rewrite nr_0; lra|]. split; [|lia]. intros _ _. rewrite nr_0. split; [discriminate|lra]. }
    destruct (draws_list _ Hdr n) as (ths & Hlen & Hth). set (dr := fun j => nth (n - 1 - j) ths n0) in *.
    destruct (Hsel ths) as (B & HB & S1 & S2); [lia| |].
    { intros x Hx. apply (In_nth _ _ n0) in Hx as (i & Hi & <-). replace i with (n - 1 - (n - 1 - i))%nat by lia. apply Hth. lia. }
    assert (Hnth : forall j, (j < n)%nat -> nth (n - 1 - j) (map nr ths) 0%R = nr (dr j)).
    { intros j Hjn. rewrite (nth_indep _ 0%R (nr n0)) by (rewrite map_length; lia). unfold dr. apply map_nth. }
    assert (Hhi : forall x l, (x < 2 ^ n)%nat -> (n <= l)%nat -> Nat.testbit x l = false).
    { intros x l Hx Hl. destruct (Nat.eq_dec x 0) as [->|Hz]; [apply Nat.bits_0|]. apply Nat.bits_above_log2. apply Nat.log2_lt_pow2; [lia|]. eapply Nat.lt_le_trans; [exact Hx|]. apply Nat.pow_le_mono_r; lia. }
    assert (Hpre : forall j, (forall l, (j < l)%nat -> Nat.testbit B l = Nat.testbit b l) -> (B / 2 ^ S j = b / 2 ^ S j)%nat).
    { intros j Hl. apply Nat.bits_inj. intros l. rewrite !Nat.div_pow2_bits. apply Hl. lia. }
    assert (Hsame : forall i l, (k < l)%nat -> (n <= l + i)%nat -> Nat.testbit B l = Nat.testbit b l).
    { induction i as [|i IH]; intros l Hkl Hl; [now rewrite !Hhi by (auto; lia)|].
      destruct (Nat.lt_ge_cases l n) as [Hln|Hln]; [|now rewrite !Hhi by (auto; lia)].
      assert (Hx : (B / 2 ^ S l = b / 2 ^ S l)%nat) by (apply Hpre; intros m Hm; apply IH; lia).
      pose proof (S1 l Hln) as HS. rewrite (Hnth l Hln), (HT1 l B b Hx) in HS. destruct (Hth l Hln) as (_ & Hd & _). specialize (Hd Hkl Hln). fold (dr l) in Hd.
      destruct (Nat.testbit B l), (Nat.testbit b l); auto; [symmetry|]; tauto. }
    assert (Hx : (B / 2 ^ S k = b / 2 ^ S k)%nat) by (apply Hpre; intros m Hm; apply (Hsame n); lia).
    pose proof (S1 k Hk) as H1. pose proof (S2 k Hk) as H2. rewrite (Hnth k Hk) in H1, H2. rewrite (HT1 k B b Hx) in H1. rewrite (HT1' k B b Hx) in H2.
    destruct (Hth k Hk) as (_ & _ & Hm). fold (dr k) in Hm. rewrite (Hm eq_refl) in H1, H2. unfold Rmin in H1, H2. destruct (Rle_dec (T k b) (T' k b)) as [Hle|Hle].
    + assert (Nat.testbit B k = true) by (apply H1; lra). assert (T' k b <= T k b)%R by (apply H2; assumption). lra.
    + assert (Nat.testbit B k = true) by (apply H2; lra). assert (T k b <= T' k b)%R by (apply H1; assumption). lra.
Qed.

(* ---- what happens between two shots ---- *)
Inductive fmoves (n : nat) : config -> edge -> config -> edge -> Prop :=
| fms_refl c e : fmoves n c e c e
| fms_step c e c1 x1 c2 x2 : fmove n c e c1 x1 -> fmoves n c1 x1 c2 x2 -> fmoves n c e c2 x2.
Lemma fmoves_ok n c e c' e' : fmoves n c e c' e' -> freach c -> In (H KV n e) (snd c) ->
  freach c' /\ In (H KV n e') (snd c') /\ veq n (amps (fst c') n e') (amps (fst c) n e).
Proof.
  induction 1 as [c e|c e c1 x1 c2 x2 Hm Hms IH]; intros Hr Hi; [split; [exact Hr|split; [exact Hi|intros i _; reflexivity]]|].
  destruct (fmove_ok _ _ _ _ _ Hm Hr Hi) as (A1 & A2 & A3). destruct (IH A1 A2) as (B1 & B2 & B3). split; [exact B1|]. split; [exact B2|].
  intros i Hl. now rewrite B3, A3.
Qed.

(* measureAll(e, False) samples with the thresholds T *)
Definition fdraw (n : nat) (e : edge) (s : state) (T : nat -> nat -> R) (s' : state) : Prop :=
  looks_up T /\ (forall k b, exists x : num, T k b = nr x) /\
  forall ths, (n <= length ths)%nat -> (forall x, In x ths -> unif x) ->
    exists b, (b < 2 ^ n)%nat /\ selects n T (map nr ths) b /\ measureAll e false ths s = Some (bitstring n b, e, s').
(* 976-996: k shots; m says which qubit each classical bit was measured from *)
Fixpoint fsamples (n ncl : nat) (m : Backend.dict) (k : nat) (acc : list (list bool)) (c : config) (e : edge) (Tr : tree (list (list bool))) : Prop :=
  match k with
  | O => Tr = Leaf (rev acc)
  | S j => exists s hs x T s' sub, fmoves n c e (s, hs) x /\ fdraw n x s T s' /\ Tr = Backend.bind (tsample T n 0) sub /\
      forall b, (b < 2 ^ n)%nat -> fsamples n ncl m j (Backend.assemble ncl m (bitstring n b) :: acc) (s', H KV n x :: hs) x (sub b)
  end.
Lemma fsamples_Ex {A} n T (sub : nat -> tree A) g : looks_up T -> Ex (Backend.bind (tsample T n 0) sub) g = rsum (2 ^ n) (fun b => (weight n T b * Ex (sub b) g)%R).
Proof. intros HT. rewrite BackendP.Ex_bind. now apply tsample_sum. Qed.
Lemma mean01 n T f : looks_up T -> (forall b, (b < 2 ^ n)%nat -> (0 <= f b <= 1)%R) -> (0 <= rsum (2 ^ n) (fun b => (weight n T b * f b)%R) <= 1)%R.
Proof.
  intros HT Hf. assert (Hw : forall b, (0 <= weight n T b)%R) by (intros; now apply weight_pos). split.
  - apply rsum_nonneg. intros b Hb. apply Rmult_le_pos; [apply Hw|now apply Hf].
  - rewrite <- (weight_sum n T HT). apply rsum_le. intros b Hb. specialize (Hw b). specialize (Hf b Hb). nra.
Qed.
Lemma fsamples_01 n ncl m k : forall acc c e Tr g, (forall l, 0 <= g l <= 1)%R -> fsamples n ncl m k acc c e Tr -> (0 <= Ex Tr g <= 1)%R.
Proof.
  induction k as [|k IH]; intros acc c e Tr g Hg HT; cbn [fsamples] in HT; [subst; cbn; apply Hg|].
  destruct HT as (s & hs & x & T & s' & sub & _ & (HT & _) & -> & Hsub). rewrite fsamples_Ex by exact HT. apply mean01; [exact HT|].
  intros b Hb. eapply IH; [exact Hg|]. apply Hsub. exact Hb.
Qed.
Lemma near_nonzero s hs n e w d : freach (s, hs) -> In (H KV n e) hs -> norm2v n w = 1%R -> (dist n (amps s n e) w <= d)%R -> (d < 1)%R ->
  is_term (en e) = false /\ cv (ew e) <> RtoC 0.
Proof.
  intros Hr Hi Hw Hd Hd1. destruct (reach_V _ _ _ _ Hr Hi) as (HI & Hn1 & Hn & Hwf). split.
  - destruct (wfe_cases_V _ _ _ Hwf Hn1) as [[_ Ht]| ->]; auto. exfalso. rewrite (dist_zero n (amps s n zeroE)) in Hd; [lra| |exact Hw].
    intros i _. unfold amps, vecF. apply val_zeroE.
  - intros X. rewrite (dist_zero n (amps s n e)) in Hd; [lra| |exact Hw]. intros i _. unfold amps, vecF, FpA.val. rewrite X. ring.
Qed.
Lemma zeros_unif n x : In x (repeat n0 n) -> unif x.
Proof. intros Hx. apply repeat_spec in Hx. subst. apply unif_nr. rewrite nr_0. lra. Qed.
Lemma fdraw_ok s hs n e w d T s' : freach (s, hs) -> In (H KV n e) hs -> norm2v n w = 1%R -> (dist n (amps s n e) w <= d)%R -> (d < 1)%R ->
  fdraw n e s T s' ->
  (forall b, (b < 2 ^ n)%nat -> (Rabs (weight n T b - Cmod (w b) ^ 2) <= esamp n + 4 * d)%R) /\
  freach (s', H KV n e :: hs) /\ amps s' n e = amps s n e.
Proof.
  intros Hr Hi Hw Hd Hd1 (HT & HN & Hdr). destruct (near_nonzero s hs n e w d Hr Hi Hw Hd Hd1) as [Hnt Hnz].
  destruct (C68_measureAll_num s hs n e Hr Hi Hnt Hnz) as (T' & HN' & HT' & Hb & Hrun). split.
  - intros b Hlt. assert (Hsw : weight n T b = weight n T' b).
    { apply (same_weights n T T' HT HT' HN HN'); [|exact Hlt]. intros ths Hl Hu.
      destruct (Hdr ths Hl Hu) as (B & HB & Hsel & HM). destruct (Hrun false ths Hl Hu) as (B' & e' & s2 & HM' & HB' & Hsel' & _).
      rewrite HM in HM'. injection HM' as Hbs _ _. apply Props2.bitstring_inj in Hbs; auto. subst B'. exists B. split; [exact HB|]. split; [exact Hsel|]. now apply Hsel'. }
    rewrite Hsw. destruct (Hb b Hlt) as [Hc _]. pose proof (born_close n (amps s n e) w d Hw Hd Hd1 b Hlt) as Hc'.
    replace (weight n T' b - Cmod (w b) ^ 2)%R with ((weight n T' b - born n (amps s n e) b) + (born n (amps s n e) b - Cmod (w b) ^ 2))%R by ring.
    eapply Rle_trans; [apply Rabs_triang|]. now apply Rplus_le_compat.
  - assert (Hl : (n <= length (repeat n0 n))%nat) by (rewrite repeat_length; lia).
    destruct (Hdr _ Hl (zeros_unif n)) as (B & HB & _ & HM). destruct (Hrun false _ Hl (zeros_unif n)) as (B' & e' & s2 & HM' & _ & _ & _ & Hr' & Hk & He').
    rewrite HM in HM'. injection HM' as _ _ <-. subst e'. split; [exact Hr'|now apply Hk].
Qed.
(* the shot of the model: Backend.shot_stable *)
Definition ishot (n ncl : nat) (m : Backend.dict) (w : vector) : tree (list bool) :=
  Backend.bind (Backend.measall n w 0) (fun b => Leaf (Backend.assemble ncl m (bitstring n b))).
Lemma ishot_Ex n ncl m w g : norm2v n w = 1%R -> Ex (ishot n ncl m w) g = rsum (2 ^ n) (fun b => (Cmod (w b) ^ 2 * g (Backend.assemble ncl m (bitstring n b)))%R).
Proof. intros Hw. unfold ishot. rewrite BackendP.Ex_bind, BackendP.measall_dist by exact Hw. reflexivity. Qed.
Lemma rsum_diff n f g h : (forall b, (b < n)%nat -> (Rabs (f b - g b) <= h b)%R) -> (Rabs (rsum n f - rsum n g) <= rsum n h)%R.
Proof.
  induction n as [|n IH]; intros Hf; cbn [rsum]; [rewrite Rminus_0_r, Rabs_R0; lra|].
  replace (rsum n f + f n - (rsum n g + g n))%R with ((rsum n f - rsum n g) + (f n - g n))%R by ring.
  eapply Rle_trans; [apply Rabs_triang|]. apply Rplus_le_compat; [apply IH; intros; apply Hf; lia|apply Hf; lia].
Qed.
Lemma rsum_plus N f g : rsum N (fun i => (f i + g i)%R) = (rsum N f + rsum N g)%R.
Proof. induction N as [|N IH]; cbn [rsum]; [ring|]. rewrite IH. ring. Qed.
Theorem fsamples_sound n ncl m w d : norm2v n w = 1%R -> (0 <= d < 1)%R -> forall k acc c e Tr g, (forall l, 0 <= g l <= 1)%R ->
  freach c -> In (H KV n e) (snd c) -> (dist n (amps (fst c) n e) w <= d)%R -> fsamples n ncl m k acc c e Tr ->
  (Rabs (Ex Tr g - Ex (Backend.replicate k (ishot n ncl m w)) (fun l => g (rev acc ++ l))) <= INR k * (INR (2 ^ n) * (esamp n + 4 * d)))%R.
Proof.
  intros Hw Hd. set (err := (INR (2 ^ n) * (esamp n + 4 * d))%R). induction k as [|k IH]; intros acc c e Tr g Hg Hr Hi Hdi HT; cbn [fsamples] in HT.
  - subst Tr. cbn. rewrite app_nil_r, Rminus_eq_0, Rabs_R0. lra.
  - destruct HT as (s & hs & x & T & s' & sub & Hms & HD & -> & Hsub). destruct (fmoves_ok _ _ _ _ _ Hms Hr Hi) as (A1 & A2 & A3). cbn [fst snd] in *.
    rewrite (dist_veq n _ (amps s n x) w) in Hdi by (intros i Hl; symmetry; now apply A3).
    destruct (fdraw_ok s hs n x w d T s' A1 A2 Hw Hdi (Logic.proj2 Hd) HD) as (B1 & B2 & B3). pose proof (Logic.proj1 HD) as HT.
    rewrite fsamples_Ex by exact HT. rewrite Ex_replicate, ishot_Ex by exact Hw.
    set (Y := fun b => Ex (Backend.replicate k (ishot n ncl m w)) (fun l => g (rev acc ++ Backend.assemble ncl m (bitstring n b) :: l))).
    eapply Rle_trans; [apply (rsum_diff (2 ^ n) _ (fun b => (Cmod (w b) ^ 2 * Y b)%R) (fun b => ((esamp n + 4 * d) + (INR k * err) * (Cmod (w b) ^ 2))%R))|].
    + intros b Hb. specialize (Hsub b Hb). pose proof (fsamples_01 _ _ _ _ _ _ _ _ g Hg Hsub) as H01.
      assert (HY : (Rabs (Ex (sub b) g - Y b) <= INR k * err)%R).
      { assert (Hd' : (dist n (amps s' n x) w <= d)%R) by (rewrite B3; exact Hdi).
        pose proof (IH _ _ _ _ g Hg B2 (or_introl eq_refl) Hd' Hsub) as Hx. unfold Y.
        rewrite (BackendP.Ex_ext _ (fun l => g (rev acc ++ Backend.assemble ncl m (bitstring n b) :: l)) (fun l => g (rev (Backend.assemble ncl m (bitstring n b) :: acc) ++ l))); [exact Hx|].
        intros l. cbn [rev]. now rewrite <- app_assoc. }
      replace (weight n T b * Ex (sub b) g - Cmod (w b) ^ 2 * Y b)%R with ((weight n T b - Cmod (w b) ^ 2) * Ex (sub b) g + Cmod (w b) ^ 2 * (Ex (sub b) g - Y b))%R by ring.
      eapply Rle_trans; [apply Rabs_triang|]. rewrite !Rabs_mult. specialize (B1 b Hb). rewrite (Rabs_pos_eq (Ex (sub b) g)) by lra.
      pose proof (pow2_ge_0 (Cmod (w b))) as Hp. rewrite (Rabs_pos_eq (Cmod (w b) ^ 2)) by exact Hp. apply Rplus_le_compat.
      * eapply Rle_trans; [|exact B1]. rewrite <- (Rmult_1_r (Rabs _)) at 2. apply Rmult_le_compat_l; [apply Rabs_pos|lra].
      * rewrite Rmult_comm. now apply Rmult_le_compat_r.
    + rewrite rsum_plus, rsum_scale, rsum_const. fold (norm2v n w). rewrite Hw, S_INR. right. unfold err. ring.
Qed.
(* ---- the shots can be sampled ---- *)
Lemma measureAll_same e ths ths' s r x s1 r' x' s2 : measureAll e false ths s = Some (r, x, s1) -> measureAll e false ths' s = Some (r', x', s2) -> s1 = s2.
Proof.
  unfold measureAll. destruct (getVar KV (en e) s) as [q|]; [|discriminate].
  destruct (match probs s (en e) with Some _ => Some s | None => _ end) as [s0|]; [|discriminate].
  destruct (sample s0 _ ths _ _); [|discriminate]. destruct (sample s0 _ ths' _ _); [|discriminate]. congruence.
Qed.
Lemma fdraw_runs s hs n e w d : freach (s, hs) -> In (H KV n e) hs -> norm2v n w = 1%R -> (dist n (amps s n e) w <= d)%R -> (d < 1)%R ->
  exists T s', fdraw n e s T s'.
Proof.
  intros Hr Hi Hw Hd Hd1. destruct (near_nonzero s hs n e w d Hr Hi Hw Hd Hd1) as [Hnt Hnz].
  destruct (C68_measureAll_num s hs n e Hr Hi Hnt Hnz) as (T & HN & HT & _ & Hrun).
  assert (Hl : (n <= length (repeat n0 n))%nat) by (rewrite repeat_length; lia).
  destruct (Hrun false _ Hl (zeros_unif n)) as (B' & e' & s' & HM & _). exists T, s'. split; [exact HT|]. split; [exact HN|]. intros ths Hlt Hu.
  destruct (Hrun false ths Hlt Hu) as (B & e2 & s2 & HM2 & HB & Hsel & _ & _ & _ & He2). subst e2. exists B. split; [exact HB|].
  split; [now apply Hsel|]. rewrite HM2. do 2 f_equal. eapply measureAll_same; eauto.
Qed.
Lemma pick_each {A} (P : nat -> A -> Prop) (a0 : A) N : (forall b, (b < N)%nat -> exists t, P b t) -> exists f, forall b, (b < N)%nat -> P b (f b).
Proof.
  induction N as [|N IH]; intros Hp; [exists (fun _ => a0); lia|]. destruct IH as [f Hf]; [intros; apply Hp; lia|]. destruct (Hp N) as [t Ht]; [lia|].
  exists (fun b => if Nat.eqb b N then t else f b). intros b Hb. destruct (Nat.eqb_spec b N) as [->|]; [exact Ht|]. apply Hf. lia.
Qed.
Lemma fsamples_runs n ncl m w d : norm2v n w = 1%R -> (0 <= d < 1)%R -> forall k acc c e, freach c -> In (H KV n e) (snd c) ->
  (dist n (amps (fst c) n e) w <= d)%R -> exists Tr, fsamples n ncl m k acc c e Tr.
Proof.
  intros Hw Hd. induction k as [|k IH]; intros acc [s hs] e Hr Hi Hdi; cbn [fst snd fsamples] in *; [eauto|].
  destruct (fdraw_runs s hs n e w d Hr Hi Hw Hdi (Logic.proj2 Hd)) as (T & s' & HD).
  destruct (fdraw_ok s hs n e w d T s' Hr Hi Hw Hdi (Logic.proj2 Hd) HD) as (_ & B2 & B3).
  destruct (pick_each (fun b t => fsamples n ncl m k (Backend.assemble ncl m (bitstring n b) :: acc) (s', H KV n e :: hs) e t) (Leaf []) (2 ^ n)) as [sub Hsub].
  { intros b _. apply IH; cbn [fst snd]; [exact B2|now left|now rewrite B3]. }
  exists (Backend.bind (tsample T n 0) sub). exists s, hs, e, T, s', sub. split; [apply fms_refl|]. split; [exact HD|]. split; [reflexivity|exact Hsub].
Qed.

(* ---- the global phase (974) ---- *)
Definition angle_ok (gd : R) (th : R) (a : num) : Prop := (Cmod (Cminus (cv (ncos a, nsin a)) (cos th, sin th)) <= gd)%R.
Definition eph (n : nat) (gd : R) : R := (sqrt (INR (2 ^ n)) * (dl * (11 / 10 * (1 + gd) + 1) * Gp n + gd * (11 / 10)))%R.
Lemma eph_pos n gd : (0 <= gd -> 0 <= eph n gd)%R.
Proof.
  intros Hg. unfold eph. apply Rmult_le_pos; [apply sqrt_pos|]. pose proof dl_b. pose proof (Grp n).
  apply Rplus_le_le_0_compat; [apply Rmult_le_pos; [apply Rmult_le_pos; lra|lra]|lra].
Qed.
Lemma dist_phase n th v w : dist n (Backend.phase th v) (Backend.phase th w) = dist n v w.
Proof.
  unfold dist, l2. f_equal. apply rsum_ext'. intros i _. unfold Backend.phase, Backend.scaled.
  replace (Cminus (Cmult (cos th, sin th) (v i)) (Cmult (cos th, sin th) (w i))) with (Cmult (cos th, sin th) (Cminus (v i) (w i))) by ring.
  rewrite Cmod_mult, BackendP.Cmod_phase. ring.
Qed.
Lemma norm_phase n th w : norm2v n (Backend.phase th w) = norm2v n w.
Proof. unfold Backend.phase. rewrite BackendP.norm2v_scaled, BackendP.Cmod_phase. ring. Qed.
Lemma phase_ok s hs n e w d gd th a : freach (s, hs) -> In (H KV n e) hs -> norm2v n w = 1%R -> (dist n (amps s n e) w <= d)%R -> (d <= 1 / 10)%R ->
  (0 <= gd)%R -> angle_ok gd th a ->
  (dist n (amps s n (applyGlobal e a)) (Backend.phase th w) <= d + eph n gd)%R.
Proof.
  intros Hr Hi Hw Hd Hd1 Hgd Ha. destruct (reach_V _ _ _ _ Hr Hi) as (HI & Hn1 & Hn & Hwf).
  eapply Rle_trans; [apply (dist_tri n _ (Backend.phase th (amps s n e)))|]. rewrite dist_phase, Rplus_comm. apply Rplus_le_compat; [exact Hd|].
  unfold eph. pose proof dl_b as Hdl. pose proof (Grp n) as HG. apply dist_of_close; [apply Rplus_le_le_0_compat; [apply Rmult_le_pos; [apply Rmult_le_pos; lra|lra]|lra]|].
  assert (Hb : forall i, (i < 2 ^ n)%nat -> (Cmod (amps s n e i) <= 11 / 10)%R).
  { intros i Hl. pose proof (close_of_dist _ _ _ _ Hd i Hl) as Hx. apply Cmod_sub_le in Hx. pose proof (norm_entry n w i Hw Hl). lra. }
  pose proof (wbV s n e _ HI Hwf Hb) as Hwb. intros i Hl. specialize (Hb i Hl). unfold amps, vecF, FpA.val in *. unfold applyGlobal, Backend.phase, Backend.scaled. cbn [ew en].
  set (vp := valp KV (tb s KV) n (en e) (bix i)) in *. set (c := (ncos a, nsin a)) in *. unfold angle_ok in Ha. fold c in Ha. set (ph := (cos th, sin th) : C) in *.
  assert (Hvp : (Cmod vp <= Gp n)%R) by (apply (valp_le1 KV (tb s KV) (inv_tb _ HI KV)); destruct Hwf as [X|[_ X]]; auto).
  replace (Cminus (Cmult (cv (cmul (ew e) c)) vp) (Cmult ph (Cmult (cv (ew e)) vp)))
    with (Cplus (Cmult (Cminus (cv (cmul (ew e) c)) (Cmult (cv (ew e)) (cv c))) vp) (Cmult (Cminus (cv c) ph) (Cmult (cv (ew e)) vp))) by ring.
  eapply Rle_trans; [apply Cmod_triangle|]. rewrite (Cmod_mult (Cminus (cv (cmul (ew e) c)) _)), (Cmod_mult (Cminus (cv c) ph)).
  assert (Hc : (Cmod (cv c) <= 1 + gd)%R).
  { pose proof (Cmod_sub_le _ _ _ Ha) as X. unfold ph in X. rewrite BackendP.Cmod_phase in X. lra. }
  pose proof (cmul_err (ew e) c) as HC. pose proof (Cmod_ge_0 (cv (ew e))). pose proof (Cmod_ge_0 (cv c)).
  assert (H3 : (dl * (Cmod (cv (ew e)) * Cmod (cv c) + 1) <= dl * (11 / 10 * (1 + gd) + 1))%R).
  { apply Rmult_le_compat_l; [lra|]. apply Rplus_le_compat_r. apply Rmult_le_compat; lra. }
  apply Rplus_le_compat.
  - apply Rmult_le_compat; auto using Cmod_ge_0. lra.
  - apply Rmult_le_compat; auto using Cmod_ge_0.
Qed.

(* ---- the whole job ---- *)
(* the gates of the circuit, in program order *)
Fixpoint gops (l : list inst) : list op :=
  match l with
  | [] => []
  | x :: r => match Backend.op x with Backend.BGate g => match iop g with Some o => o :: gops r | None => gops r end | _ => gops r end
  end.
Lemma finalv_gops n l : units l -> BackLink.lib_ok n l -> forall ops, BackendP.finalv n l (ideal n ops) = ideal n (rev (gops l) ++ ops).
Proof.
  induction l as [|x l IH]; intros Hu Hlo ops; cbn [BackendP.finalv gops]; [reflexivity|].
  assert (Hu' : units l) by (intros y g Hy; apply Hu; now right). assert (Hlo' : BackLink.lib_ok n l) by (intros y g Hy; apply Hlo; now right).
  destruct (Backend.op x) as [g|q c|q|qs|qs|qs|qs] eqn:Ex; try (now apply IH).
  destruct (iop_ok n g) as (o & Ho & _); [eapply Hlo; [left; reflexivity|exact Ex]|eapply Hu; [left; reflexivity|exact Ex]|].
  rewrite Ho. cbn [rev]. rewrite <- (iop_mat n g o Ho). change (mv n (op_mat n o) (ideal n ops)) with (ideal n (o :: ops)). rewrite IH by assumption. rewrite <- app_assoc. reflexivity.
Qed.
Lemma gops_ok n l : units l -> BackLink.lib_ok n l -> forall o, In o (gops l) -> op_ok n o /\ op_unitary o.
Proof.
  induction l as [|x l IH]; intros Hu Hlo o Ho; cbn [gops] in Ho; [contradiction|].
  assert (Hu' : units l) by (intros y g Hy; apply Hu; now right). assert (Hlo' : BackLink.lib_ok n l) by (intros y g Hy; apply Hlo; now right).
  destruct (Backend.op x) as [g|q c|q|qs|qs|qs|qs] eqn:Ex; try (now apply IH).
  destruct (iop_ok n g) as (o' & Ho' & A1 & A2); [eapply Hlo; [left; reflexivity|exact Ex]|eapply Hu; [left; reflexivity|exact Ex]|].
  rewrite Ho' in Ho. destruct Ho as [<-|Ho]; auto.
Qed.
(* 700-974: the gates, one after the other, with anything in between; then the phase *)
Definition frun (gd : R) (c0 : Backend.circ) (c : config) (e : edge) : Prop :=
  exists fs s hs x a, Forall2 (rounds gd) (rev (gops (Backend.data c0))) fs /\ fcirc (Backend.nq c0) fs (s, hs) x /\
    angle_ok gd (Backend.gphase c0) a /\ e = applyGlobal x a /\ c = (s, H KV (Backend.nq c0) e :: hs).
Definition ejob (n : nat) (gd : R) (k : nat) : R := (ecirc n gd k + eph n gd)%R.
Definition sampled_ok (c0 : Backend.circ) (p : Backend.cprop) (req : bool) : Prop :=
  circuit_ok c0 /\ BackendP.circ_ok c0 /\ Backend.validate_circuit req c0 = Some p /\ Backend.stable_final_state p = true.
Definition finalw (c0 : Backend.circ) : vector := Backend.phase (Backend.gphase c0) (BackendP.finalv (Backend.nq c0) (Backend.data c0) (basis 0)).
Lemma finalw_norm c0 : BackendP.circ_ok c0 -> norm2v (Backend.nq c0) (finalw c0) = 1%R.
Proof. intros (Hi & _). unfold finalw. rewrite norm_phase. rewrite (BackendP.finalv_norm _ _ _ _ Hi). apply BackendP.norm_basis0. Qed.
Lemma frun_ok gd c0 c e : circuit_ok c0 -> (0 <= gd)%R -> (ecirc (Backend.nq c0) gd (length (gops (Backend.data c0))) <= 1 / 10)%R -> frun gd c0 c e ->
  freach c /\ In (H KV (Backend.nq c0) e) (snd c) /\
  (dist (Backend.nq c0) (amps (fst c) (Backend.nq c0) e) (finalw c0) <= ejob (Backend.nq c0) gd (length (gops (Backend.data c0))))%R.
Proof.
  intros (Hn & Hi & Hlo & Hu) Hgd Hec (fs & s & hs & x & a & HF & Hc & Ha & -> & ->). cbn [fst snd]. set (n := Backend.nq c0) in *.
  assert (Hok : forall o, In o (rev (gops (Backend.data c0))) -> op_ok n o /\ op_unitary o) by (intros o Ho; apply in_rev in Ho; now apply (gops_ok n (Backend.data c0))).
  destruct (fcirc_ok n gd fs (s, hs) x Hn Hgd Hc _ HF Hok) as (Hr & Hin & Hd). cbn [fst snd] in *. rewrite rev_length in Hd.
  split; [|split; [now left|]].
  - eapply fr_step; [exact Hr|]. eapply fs_call; [apply f_global; exact Hin|]. apply rt_refl || constructor.
  - unfold finalw, ejob. fold n. rewrite (finalv_gops n (Backend.data c0) Hu Hlo [] : BackendP.finalv n (Backend.data c0) (basis 0) = _).
    rewrite app_nil_r. eapply phase_ok; eauto. now apply ideal_norm.
Qed.
Definition esampled (n : nat) (gd : R) (k : nat) : R := (INR (2 ^ n) * (esamp n + 4 * ejob n gd k))%R.
Theorem C70_sampled gd eps c0 p req z c e T : sampled_ok c0 p req -> (0 < z)%Z -> (0 <= gd)%R -> (0 <= eps)%R ->
  let n := Backend.nq c0 in let k := length (gops (Backend.data c0)) in (ecirc n gd k <= 1 / 10)%R -> (ejob n gd k < 1)%R ->
  frun gd c0 c e -> fsamples n (Backend.nc c0) (Backend.clbit_final_values p) (Z.to_nat z) [] c e T ->
  let err := (IZR z * esampled n gd k)%R in
  (forall P, (Rabs (chance T P - chance (Backend.evaluate eps c0 p (Some z)) (counted P)) <= err)%R) /\
  (forall L, (Rabs (Ex T (fun l => if list_eq_dec BackSpec.str_dec l L then 1 else 0) -
      (if (length L =? Z.to_nat z)%nat then BackendP.prodR (map (fun s => BackSpec.dist c0 (rev s)) L) else 0)) <= err)%R).
Proof.
  intros (Hc & Hco & Hv & Hst) Hz Hgd Hep n k Hec Hej Hrun HT err. destruct (frun_ok gd c0 c e Hc Hgd Hec Hrun) as (Hr & Hin & Hd). fold n k in Hd, Hin.
  destruct (BackendP.shot_stable_dist eps c0 p req Hco Hv Hst) as (Hex & Hds). pose proof (finalw_norm c0 Hco) as Hw. fold n in Hw.
  assert (Hej0 : (0 <= ejob n gd k < 1)%R) by (split; [eapply Rle_trans; [|exact Hd]; apply sqrt_pos|exact Hej]).
  assert (Hm : forall g, (forall l, 0 <= g l <= 1)%R -> (Rabs (Ex T g - Ex (Backend.replicate (Z.to_nat z) (Backend.shot_stable c0 p (finalw c0))) g) <= err)%R).
  { intros g Hg. pose proof (fsamples_sound n (Backend.nc c0) (Backend.clbit_final_values p) (finalw c0) _ Hw Hej0 (Z.to_nat z) [] c e T g Hg Hr Hin Hd HT) as Hx. cbn [rev app] in Hx.
    unfold err. replace (IZR z) with (INR (Z.to_nat z)); [exact Hx|]. rewrite INR_IZR_INZ, Z2Nat.id by lia. reflexivity. }
  split.
  - intros P. unfold chance, Backend.evaluate. rewrite Hst, Hex. replace (z =? 0)%Z with false by (symmetry; apply Z.eqb_neq; lia). cbn [Backend.bind].
    rewrite BackendP.Ex_bind. cbn [BackSpec.Ex counted]. apply Hm. intros l. apply b01.
  - intros L. specialize (Hm (fun l => if list_eq_dec BackSpec.str_dec l L then 1%R else 0%R)). rewrite BackendP.replicate_prob in Hm.
    replace (map (fun s => BackSpec.dist c0 (rev s)) L) with (map (BackSpec.Prob BackSpec.str_dec (Backend.shot_stable c0 p (finalw c0))) L); [apply Hm; intros l; destruct (list_eq_dec _ _ _); lra|].
    apply map_ext. intros s. rewrite <- (Hds (rev s)), rev_involutive. reflexivity.
Qed.
(* the circuit can be run and sampled, whatever happened before *)
Lemma fcirc_runs n gd ops c : size_ok n -> (0 <= gd)%R -> freach c -> (forall o, In o ops -> op_ok n o /\ op_unitary o /\ exists f, rounds gd o f) ->
  exists fs s hs e, Forall2 (rounds gd) ops fs /\ fcirc n fs (s, hs) e.
Proof.
  intros Hn Hgd Hr. destruct c as [s0 hs0]. induction ops as [|o ops IH]; intros Hok.
  - destruct (C67_zero_state s0 hs0 n Hr Hn) as (_ & Hrun & _). destruct (Hrun 0%nat) as (e & s' & Hst). apply run_steps in Hst. exists [], s', (H KV n e :: hs0), e. split; [constructor|]. eapply fc_start; eauto.
  - destruct IH as (fs & s & hs & e & HF & Hc); [intros; apply Hok; now right|]. destruct (Hok o) as (A1 & A2 & f & Hf); [now left|].
    assert (Hok' : forall o, In o ops -> op_ok n o /\ op_unitary o) by (intros o' Ho'; destruct (Hok o') as (B1 & B2 & _); [now right|auto]).
    destruct (fcirc_ok n gd fs (s, hs) e Hn Hgd Hc ops HF Hok') as (Hr' & Hin & _). cbn [snd] in Hin.
    destruct (fapply_runs n gd o f s hs e Hn Hgd A1 A2 Hf Hr' Hin) as (c' & e' & Hap & _). inversion Hap; subst.
    eexists (f :: fs), _, _, e'. split; [constructor; eauto|]. eapply fc_op; eauto.
Qed.
Lemma frun_runs gd c0 c : circuit_ok c0 -> (0 <= gd)%R -> fits gd (Backend.data c0) -> (exists a, angle_ok gd (Backend.gphase c0) a) -> freach c ->
  exists c' e, frun gd c0 c' e.
Proof.
  intros (Hn & Hi & Hlo & Hu) Hgd Hf (a & Ha) Hr. set (n := Backend.nq c0) in *.
  destruct (fcirc_runs n gd (rev (gops (Backend.data c0))) c Hn Hgd Hr) as (fs & s & hs & e & HF & Hc).
  { intros o Ho. apply in_rev in Ho. destruct (gops_ok n _ Hu Hlo o Ho) as [A1 A2]. split; [exact A1|]. split; [exact A2|]. clear - Ho Hf Hlo Hu.
    induction (Backend.data c0) as [|x l IH]; cbn [gops] in Ho; [contradiction|].
    assert (Hf' : fits gd l) by (intros y g o' Hy; apply Hf; now right). assert (Hu' : units l) by (intros y g Hy; apply Hu; now right).
    assert (Hlo' : BackLink.lib_ok n l) by (intros y g Hy; apply Hlo; now right).
    destruct (Backend.op x) as [g|q c|q|qs|qs|qs|qs] eqn:Ex; try (now apply IH).
    destruct (iop g) as [o'|] eqn:Eo; [|now apply IH]. destruct Ho as [<-|Ho]; [|now apply IH]. eapply Hf; [left; reflexivity|exact Ex|exact Eo]. }
  exists (s, H KV n (applyGlobal e a) :: hs), (applyGlobal e a), fs, s, hs, e, a. auto.
Qed.
Theorem C70_sampled_runs gd c0 p req k c : sampled_ok c0 p req -> (0 <= gd)%R -> let n := Backend.nq c0 in let g := length (gops (Backend.data c0)) in
  (ecirc n gd g <= 1 / 10)%R -> (ejob n gd g < 1)%R -> fits gd (Backend.data c0) -> (exists a, angle_ok gd (Backend.gphase c0) a) -> freach c ->
  (exists c' e, frun gd c0 c' e) /\
  forall c' e, frun gd c0 c' e -> exists T, fsamples n (Backend.nc c0) (Backend.clbit_final_values p) k [] c' e T.
Proof.
  intros (Hc & Hco & Hv & Hst) Hgd n g Hec Hej Hf Ha Hr. split; [eapply frun_runs; eauto|]. intros c' e Hrun.
  destruct (frun_ok gd c0 c' e Hc Hgd Hec Hrun) as (Hr' & Hin & Hd).
  apply (fsamples_runs n _ _ (finalw c0) (ejob n gd g)); auto; [now apply finalw_norm|]. split; [eapply Rle_trans; [|exact Hd]; apply sqrt_pos|exact Hej].
Qed.

(* ---- shots=None and shots=0; the state vector (1011-1033) ---- *)
Lemma stable_no_cond l : forall measured, BackendP.Stable measured l -> BackendP.plain_measures l -> existsb Backend.has_cond l = false.
Proof.
  induction l as [|x l IH]; intros ms Hs Hp; [reflexivity|]. cbn [existsb]. assert (Hp' : BackendP.plain_measures l) by (intros y q c Hy; apply Hp; now right).
  assert (Hx : Backend.has_cond x = false).
  { cbn [BackendP.Stable] in Hs. destruct (Backend.op x) as [g|q c|q|qs|qs|qs|qs] eqn:Ex; try (now destruct Hs).
    unfold Backend.has_cond. rewrite (Hp x q c); [reflexivity|now left|exact Ex]. }
  rewrite Hx. cbn [orb]. cbn [BackendP.Stable] in Hs. destruct (Backend.op x) as [g|q c|q|qs|qs|qs|qs]; try (destruct Hs as (_ & _ & _ & _ & Hs)); eauto.
Qed.
Theorem C70_exact gd eps c0 p req s hs e : sampled_ok c0 p req -> (0 <= gd)%R ->
  let n := Backend.nq c0 in let k := length (gops (Backend.data c0)) in (n <= 30)%nat -> (ecirc n gd k <= 1 / 10)%R -> let d := ejob n gd k in (d < 1)%R ->
  frun gd c0 (s, hs) e ->
  (exists l l' s', Backend.evaluate eps c0 p None = Leaf (Backend.Probs l) /\ Backend.evaluate eps c0 p (Some 0%Z) = Leaf (Backend.Probs l) /\ length l = (2 ^ n)%nat /\
    probabilities e s = Some (l', s') /\ length l' = (2 ^ n)%nat /\
    forall i, (i < 2 ^ n)%nat -> (0 <= nr (nth i l' n0) <= 1)%R /\ (Rabs (nr (nth i l' n0) - nth i l 0) <= eprob n + 4 * d)%R) /\
  exists v, getVector s e = Some v /\ length v = (2 ^ n)%nat /\ vclose n (d + erd n (1 + d)) (fun i => cv (nth i v Num.c0)) (finalw c0).
Proof.
  intros (Hc & Hco & Hv & Hst) Hgd n k Hn30 Hec d Hej Hrun. destruct (frun_ok gd c0 (s, hs) e Hc Hgd Hec Hrun) as (Hr & Hin & Hd). cbn [fst snd] in *. fold n k in Hd, Hin. fold d in Hd.
  pose proof (finalw_norm c0 Hco) as Hw. fold n in Hw. destruct (near_nonzero s hs n e _ d Hr Hin Hw Hd Hej) as [Hnt Hnz]. split.
  - assert (Hsta : BackendP.Stable [] (Backend.data c0)).
    { unfold Backend.validate_circuit in Hv. destruct (Backend.max_qubits <? Backend.nq c0)%nat; [discriminate|].
      destruct (Backend.classify _ 0 (Backend.data c0) true [] []) as [[st me] m] eqn:Ec. destruct (_ && _)%bool; [discriminate|]. injection Hv as <-. cbn in Hst. subst st.
      now apply BackendP.classify_true in Ec as [Hs _]. }
    destruct (C68_probabilities s hs n e Hr Hin Hn30 Hnt Hnz) as (l' & s' & P1 & _ & P3 & _ & _ & P6).
    exists (Backend.probs n (finalw c0)), l', s'. pose proof Hco as (Hok & _ & Hpm). split; [|split; [|split; [|split; [exact P1|split; [exact P3|]]]]].
    + unfold Backend.evaluate. rewrite (stable_no_cond _ _ Hsta Hpm), Hst.
      rewrite (BackendX.exec_none_stable eps (Backend.nq c0) (Backend.nc c0) (Backend.data c0) [] _ _ Hsta Hok). reflexivity.
    + unfold Backend.evaluate. rewrite Hst. destruct (BackendP.shot_stable_dist eps c0 p req Hco Hv Hst) as (-> & _). reflexivity.
    + unfold Backend.probs. now rewrite map_length, seq_length.
    + intros i Hi. destruct (P6 i Hi) as (Q1 & Q2 & _). split; [exact Q1|]. pose proof (born_close n (amps s n e) (finalw c0) d Hw Hd Hej i Hi) as Q3.
      replace (nth i (Backend.probs n (finalw c0)) 0%R) with (Cmod (finalw c0 i) ^ 2)%R.
      * replace (nr (nth i l' n0) - Cmod (finalw c0 i) ^ 2)%R with ((nr (nth i l' n0) - born n (amps s n e) i) + (born n (amps s n e) i - Cmod (finalw c0 i) ^ 2))%R by ring.
        eapply Rle_trans; [apply Rabs_triang|]. now apply Rplus_le_compat.
      * unfold Backend.probs. rewrite (nth_indep _ 0%R ((fun i => (Cmod (finalw c0 i) ^ 2 / norm2v n (finalw c0))%R) 0%nat)) by (rewrite map_length, seq_length; exact Hi).
        rewrite (map_nth (fun i => (Cmod (finalw c0 i) ^ 2 / norm2v n (finalw c0))%R)), seq_nth by exact Hi. cbn [Nat.add]. rewrite Hw. field.
  - assert (HW : forall i, (i < 2 ^ n)%nat -> (Cmod (amps s n e i) <= 1 + d)%R).
    { intros i Hi. pose proof (close_of_dist _ _ _ _ Hd i Hi) as Hx. pose proof (norm_entry n _ i Hw Hi) as Hy. apply Cmod_sub_le in Hx. lra. }
    destruct (C67_getVector s hs n e _ Hr Hin Hn30 Hnt HW) as (v & Hg & Hl & Hcl). exists v. split; [exact Hg|]. split; [exact Hl|].
    intros i Hi. rewrite Rplus_comm. eapply Cmod_tri3; [now apply Hcl|]. now apply close_of_dist with (n := n).
Qed.
End FpBackS.
