(* FpBack.v -- C70: the shot loop of the Qiskit backend (Backend.v, qdd_backend.py:700-968)
   executed by the library over a rounded arithmetic.  An execution is a tree: draws
   choose the branch, everything else -- schedules, collections, evictions, other calls
   of the process -- may differ from branch to branch.  The distribution of the strings
   it returns is compared with that of the circuit. *)
From Coq Require Import Reals Lra Psatz ZArith Bool List Lia Arith FunctionalExtensionality Classical.
From Coquelicot Require Import Complex.
From Verif Require SafeF Backend BackSpec BackendP BackLink.
From Verif Require Import Num State DD Gates GC Measure Api RNum Wf Sums Err Inv Wp Make Add MulV GateP StateP Kron Spec SpecP Readout
  MeasAllP ApplyP ApiP Obs Props1 Circuit FpA FpE FpW FpM FpAdd FpMul FpGate FpState FpRead FpMeas FpOne FpGC FpKron FpCirc FpProp FpMeasP FpOneP FpOneX.
Import ListNotations.
Open Scope Z_scope.
Notation tree := Backend.tree.
Notation Leaf := Backend.Leaf.
Notation Raise := Backend.Raise.
Notation Flip := Backend.Flip.
Notation Ex := BackSpec.Ex.
Notation inst := Backend.inst.

(* ---- trees of draws ---- *)
Fixpoint okt {A} (t : tree A) : Prop :=
  match t with Backend.Leaf _ | Backend.Raise => True | Backend.Flip p k => (0 <= p <= 1)%R /\ forall b, okt (k b) end.
Lemma okt_Ex {A} (t : tree A) f : okt t -> (forall a, 0 <= f a <= 1)%R -> (0 <= Ex t f <= 1)%R.
Proof.
  intros Ht Hf. induction t as [a| |p k IH]; cbn [BackSpec.Ex]; [apply Hf|lra|].
  destruct Ht as [Hp Hk]. pose proof (IH false (Hk false)) as H0. pose proof (IH true (Hk true)) as H1. nra.
Qed.
(* probability that a draw, uniform in [0,1), is below y *)
Definition clamp (y : R) : R := Rmax 0 (Rmin 1 y).
Lemma clamp_b y : (0 <= clamp y <= 1)%R.
Proof. unfold clamp. split; [apply Rmax_l|]. apply Rmax_lub; [lra|apply Rmin_l]. Qed.
Lemma clamp_id y : (0 <= y <= 1)%R -> clamp y = y.
Proof. intros H. unfold clamp. rewrite Rmin_right by lra. apply Rmax_right. lra. Qed.
Lemma clamp_draw y th : (0 <= th < 1)%R -> ((th < clamp y)%R <-> (th < y)%R).
Proof.
  intros H. unfold clamp. destruct (Rle_dec y 1) as [Hy|Hy].
  - rewrite (Rmin_right 1 y) by lra. destruct (Rle_dec 0 y); [rewrite Rmax_right by lra; tauto|rewrite Rmax_left by lra; lra].
  - rewrite (Rmin_left 1 y) by lra. rewrite Rmax_right by lra. lra.
Qed.
Lemma div_nn a b : (0 <= a -> 0 < b -> 0 <= a / b)%R.
Proof. intros Ha Hb. unfold Rdiv. apply Rmult_le_pos; [exact Ha|left; now apply Rinv_0_lt_compat]. Qed.
Lemma flip_err p Q0 Q1 X0 X1 Y0 Y1 e D0 D1 : (Q0 + Q1 = 1)%R -> (0 <= Q0)%R -> (0 <= Q1)%R -> (0 <= X0 <= 1)%R -> (0 <= X1 <= 1)%R ->
  (Rabs (p - Q0) <= e)%R -> (Q0 * Rabs (X0 - Y0) <= D0)%R -> (Q1 * Rabs (X1 - Y1) <= D1)%R ->
  (Rabs (p * X0 + (1 - p) * X1 - (Q0 * Y0 + Q1 * Y1)) <= e + D0 + D1)%R.
Proof.
  intros HQ H0 H1 HX0 HX1 He HD0 HD1.
  replace (p * X0 + (1 - p) * X1 - (Q0 * Y0 + Q1 * Y1))%R with ((p - Q0) * (X0 - X1) + (Q0 * (X0 - Y0) + Q1 * (X1 - Y1)))%R
    by (replace Q1 with (1 - Q0)%R by lra; ring).
  eapply Rle_trans; [apply Rabs_triang|]. rewrite Rplus_assoc. apply Rplus_le_compat.
  - rewrite Rabs_mult. apply Rle_trans with (e * 1)%R; [|lra]. apply Rmult_le_compat; auto using Rabs_pos. apply Rabs_le. lra.
  - eapply Rle_trans; [apply Rabs_triang|]. rewrite !Rabs_mult, (Rabs_pos_eq Q0), (Rabs_pos_eq Q1) by assumption. lra.
Qed.

(* ---- the gates of the backend as the operations of Circuit.v ---- *)
Definition iop (g : Backend.gop) : option op :=
  match g with
  | Backend.G1 g qs => Some (U1 g (Z.of_nat (last qs 0%nat)) (BackLink.ctl_ids (removelast qs)))
  | Backend.G2 g qs => Some (U2 g (Z.of_nat (nth (length qs - 1) qs 0%nat)) (Z.of_nat (nth (length qs - 2) qs 0%nat)) (BackLink.ctl_ids (firstn (length qs - 2) qs)))
  | Backend.GU _ _ | Backend.GQ _ _ => None
  end.
Definition gate_unit (g : Backend.gop) : Prop :=
  match g with Backend.G1 g _ => unitary 1 g | Backend.G2 g _ => unitary 2 g | _ => False end.
Lemma iop_mat n g o : iop g = Some o -> op_mat n o = Backend.gate_mat n (fun q => q) g.
Proof. destruct g as [g qs|g qs|g qs|A qs]; cbn [iop]; intros Hx; try discriminate; injection Hx as <-; cbn [op_mat Backend.gate_mat]; rewrite !Nat2Z.id; reflexivity. Qed.
Lemma iop_ok n g : BackLink.gate_lib n g -> gate_unit g -> exists o, iop g = Some o /\ op_ok n o /\ op_unitary o.
Proof.
  intros Hg HU. destruct g as [g qs|g qs|g qs|A qs]; cbn [BackLink.gate_lib gate_unit iop] in *; try contradiction; destruct Hg as (Hl & Hnd & Hlt);
    (eexists; split; [reflexivity|]); cbn [op_ok op_unitary]; (split; [|exact HU]).
  - destruct (@exists_last _ qs) as (q0 & t & ->); [destruct qs; [cbn in Hl; lia|discriminate]|].
    rewrite last_last, removelast_last. assert (Ht : (t < n)%nat) by (apply Hlt, in_or_app; right; now left).
    apply NoDup_remove in Hnd as [Hn1 Hn2]. rewrite app_nil_r in *. split; [unfold qubit; lia|].
    apply (BackLink.ctl_ids_ok n q0 [t]); auto; [intros; apply Hlt, in_or_app; now left|]. intros q t' Hq [<-|[]] ->. auto.
  - destruct (@exists_last _ qs) as (q1 & t & ->); [destruct qs; [cbn in Hl; lia|discriminate]|].
    destruct (@exists_last _ q1) as (q0 & u & ->); [destruct q1; [cbn in Hl; lia|discriminate]|].
    rewrite <- app_assoc in *. cbn [app] in *. rewrite app_length. cbn [length].
    replace (length q0 + 2 - 1)%nat with (length q0 + 1)%nat by lia. replace (length q0 + 2 - 2)%nat with (length q0 + 0)%nat by lia.
    rewrite !app_nth2_plus. cbn [nth]. rewrite firstn_app_2. cbn [firstn]. rewrite app_nil_r.
    assert (Ht : (t < n)%nat) by (apply Hlt, in_or_app; right; right; now left). assert (Hu : (u < n)%nat) by (apply Hlt, in_or_app; right; now left).
    apply NoDup_remove in Hnd as [Hn1 Hn2]. apply NoDup_remove in Hn1 as [Hn3 Hn4]. rewrite app_nil_r in *.
    split; [unfold qubit; lia|]. split; [unfold qubit; lia|]. split.
    { intros E. apply Hn2. apply in_or_app. right. left. lia. }
    apply (BackLink.ctl_ids_ok n q0 [t; u]); auto; [intros; apply Hlt, in_or_app; now left|].
    intros q t' Hq [<-|[<-|[]]] ->; [apply Hn4; exact Hq|apply Hn2, in_or_app; now left].
Qed.

Section FpBack.
Context {NO : NumOps} {AC : Accur NO} {CF : Cfg}.
Notation config := (state * list handle)%type.

(* ---- the shot loop ---- *)
(* what may happen between two instructions, with e the current state: any other call,
   dropping handles, collections (the loop makes one after each instruction, 956),
   evictions, other measurements *)
Inductive fmove (n : nat) : config -> edge -> config -> edge -> Prop :=
| fm_call s hs e k m c x s' : fcall hs k m c -> steps (Cfg_ok c s) (Cfg_ok (CRet x) s') -> fmove n (s, hs) e (s', H k m x :: hs) e
| fm_drop s hs e hs' : incl hs' hs -> In (H KV n e) hs' -> fmove n (s, hs) e (s, hs') e
| fm_gc s e ns es ms i force e' es' s' : length ns = length es -> of_kind KM ms -> gc i (e :: es) force s = Some (e' :: es', s') ->
    fmove n (s, rehandle KV (n :: ns) (e :: es) ++ ms) e (s', rehandle KV (n :: ns) (e' :: es') ++ ms) e'
| fm_gc_mat s e ns es vs i force es' s' : length ns = length es -> of_kind KV vs -> gc_mat i es force s = Some (es', s') ->
    fmove n (s, rehandle KM ns es ++ vs) e (s', rehandle KM ns es' ++ vs) e
| fm_evict s hs e s' : evicted s s' -> fmove n (s, hs) e (s', hs) e
| fm_thr s hs e v m : fmove n (s, hs) e (set_gc_thr v m s, hs) e
| fm_probs s hs e m x l s' : In (H KV m x) hs -> is_term (en x) = false -> (m <= 30)%nat ->
    probabilities x s = Some (l, s') -> fmove n (s, hs) e (s', hs) e
| fm_all s hs e m x col ths r x' s' : In (H KV m x) hs -> is_term (en x) = false -> cv (ew x) <> RtoC 0 ->
    (m <= length ths)%nat -> (forall t, In t ths -> unif t) -> measureAll x col ths s = Some (r, x', s') ->
    fmove n (s, hs) e (s', H KV m x' :: hs) e
| fm_one s hs e m x q eps th r s' : In (H KV m x) hs -> is_term (en x) = false -> qubit m q ->
    measureOneCollapsing x q eps th s = Some (r, s') ->
    fmove n (s, hs) e (s', match r with Ret (_, x') => H KV m x' :: hs | Throw => hs end) e
| fm_one' s hs e m x q eps r s' : In (H KV m x) hs -> is_term (en x) = false -> qubit m q ->
    measureOne x q eps s = Some (r, s') -> fmove n (s, hs) e (s', hs) e
| fm_run s hs e m c i x s' : seq_call hs m c -> run_on i c s = Some (x, s') -> fmove n (s, hs) e (s', H KM m x :: hs) e.
(* makeGate or makeTwoQubitGate, then mv_multiply: 770-905, 939-955 *)
Inductive fapply (n : nat) (f : fop) : config -> edge -> config -> edge -> Prop :=
| fap s hs e h s1 e' s2 : steps (Cfg_ok (fop_comp n f) s) (Cfg_ok (CRet h) s1) -> steps (Cfg_ok (mv_multiply h e) s1) (Cfg_ok (CRet e') s2) ->
    fapply n f (s, hs) e (s2, H KV n e' :: H KM n h :: hs) e'.
(* measureOneCollapsing reads 0 for the draws below y, and 1 for the others *)
Definition splits (e : edge) (q : nat) (eps : num) (s : state) (y : num) (e0 : edge) (s0 : state) (e1 : edge) (s1 : state) : Prop :=
  forall th, measureOneCollapsing e (Z.of_nat q) eps th s = Some (if nltb th y then (Ret (false, e0), s0) else (Ret (true, e1), s1)).

(* [flib l c e cl T]: from client c, current state e and classical bits cl, the loop runs
   through l; the tree T branches at the draws and ends as K says.  A call whose result is
   not defined may be followed by anything (fl_lost). *)
Section Loop.
Context {A : Type} (gd : R) (eps : num) (n : nat) (K : config -> list bool -> tree A -> Prop).
Inductive flib : list inst -> config -> edge -> list bool -> tree A -> Prop :=
| fl_nil c e cl T : K c cl T -> flib [] c e cl T
| fl_idle l c e cl T c' e' : fmove n c e c' e' -> flib l c' e' cl T -> flib l c e cl T
| fl_skip x r c e cl T : Backend.skip cl (Backend.cnd x) = true -> flib r c e cl T -> flib (x :: r) c e cl T
| fl_barrier x r qs c e cl T : Backend.skip cl (Backend.cnd x) = false -> Backend.op x = Backend.BBarrier qs ->
    flib r c e cl T -> flib (x :: r) c e cl T
| fl_gate x r g o f c e c' e' cl T : Backend.skip cl (Backend.cnd x) = false -> Backend.op x = Backend.BGate g ->
    iop g = Some o -> rounds gd o f -> fapply n f c e c' e' -> flib r c' e' cl T -> flib (x :: r) c e cl T
| fl_measure x r q k s hs e cl y e0 s0 e1 s1 T0 T1 : Backend.skip cl (Backend.cnd x) = false -> Backend.op x = Backend.BMeasure q k ->
    splits e q eps s y e0 s0 e1 s1 ->
    flib r (s0, H KV n e0 :: hs) e0 (Backend.upd cl k false) T0 -> flib r (s1, H KV n e1 :: hs) e1 (Backend.upd cl k true) T1 ->
    flib (x :: r) (s, hs) e cl (Flip (clamp (nr y)) (fun b : bool => if b then T1 else T0))
| fl_reset x r q s hs e cl y e0 s0 e1 s1 c' e' T0 T1 : Backend.skip cl (Backend.cnd x) = false -> Backend.op x = Backend.BReset q ->
    splits e q eps s y e0 s0 e1 s1 ->
    flib r (s0, H KV n e0 :: hs) e0 cl T0 ->
    fapply n (F1 Xmat (Z.of_nat q) []) (s1, H KV n e1 :: hs) e1 c' e' -> flib r c' e' cl T1 ->
    flib (x :: r) (s, hs) e cl (Flip (clamp (nr y)) (fun b : bool => if b then T1 else T0))
| fl_throw x r q s hs e cl s' : Backend.skip cl (Backend.cnd x) = false ->
    (Backend.op x = Backend.BReset q \/ exists k, Backend.op x = Backend.BMeasure q k) ->
    (forall th, measureOneCollapsing e (Z.of_nat q) eps th s = Some (Throw, s')) -> flib (x :: r) (s, hs) e cl Raise
| fl_raise x r c e cl : Backend.skip cl (Backend.cnd x) = false ->
    match Backend.op x with Backend.BInit _ | Backend.BKraus _ | Backend.BOther _ => True | _ => False end -> flib (x :: r) c e cl Raise
| fl_lost x r q s hs e cl th T : Backend.skip cl (Backend.cnd x) = false ->
    (Backend.op x = Backend.BReset q \/ exists k, Backend.op x = Backend.BMeasure q k) ->
    measureOneCollapsing e (Z.of_nat q) eps th s = None -> okt T -> flib (x :: r) (s, hs) e cl T.
End Loop.

Lemma fmove_ok n c e c' e' : fmove n c e c' e' -> freach c -> In (H KV n e) (snd c) ->
  freach c' /\ In (H KV n e') (snd c') /\ veq n (amps (fst c') n e') (amps (fst c) n e).
Proof.
  intros Hm Hr Hin. destruct Hm as
    [s hs e k m c x s' Hcall Hst|s hs e hs' Hi Hin'
    |s e ns es ms i force e' es' s' Hl Hms Hgc|s e ns es vs i force es' s' Hl Hvs Hgc
    |s hs e s' Hev|s hs e v m|s hs e m x l s' Hx Hxt Hm Hp|s hs e m x col ths r x' s' Hx Hxt Hxz Hl Hu Hp
    |s hs e m x q eps th r s' Hx Hxt Hq Hp|s hs e m x q eps r s' Hx Hxt Hq Hp|s hs e m c i x s' Hcall Hrun]; cbn [fst snd] in *.
  - destruct (reach_V _ _ _ _ Hr Hin) as (HI & _ & _ & Hw).
    destruct (freach_Aok _ Hr) as [_ Hh]. cbn [fst snd] in Hh. destruct (fcall_s _ _ _ _ _ HI Hh Hcall) as (_ & _ & Hwp).
    destruct (wpr_result _ _ _ _ _ HI Hwp Hst) as [Hrel _].
    split; [eapply fr_step; [exact Hr|eapply fs_call; eauto]|]. split; [now right|]. rewrite (amps_rel s) by auto. intros i _. reflexivity.
  - split; [eapply fr_step; [exact Hr|now apply fs_drop]|]. split; [exact Hin'|intros j _; reflexivity].
  - assert (Hl' : length (n :: ns) = length (e :: es)) by (cbn; now rewrite Hl).
    destruct (C67_gc s (n :: ns) (e :: es) ms i force Hr Hl' Hms) as (es2 & s2 & Hg2 & _ & Hv & _).
    rewrite Hgc in Hg2. injection Hg2 as <- <-.
    split; [eapply fr_step; [exact Hr|eapply fs_gc; eauto]|]. split; [now left|].
    intros x Hx. destruct (reach_V _ _ _ _ Hr Hin) as (HI & _ & _ & Hw).
    specialize (Hv 0%nat n e e' (l2 (2 ^ n) (amps s n e)) eq_refl eq_refl eq_refl). cbn [Nat.eqb] in Hv.
    assert (Hz : (Cmod (Cminus (amps s' n e' x) (amps s n e x)) <= 0)%R).
    { apply Hv; [|exact Hx]. intros y Hy. exact (l2_ge (2 ^ n) (amps s n e) y Hy). }
    assert (Hz' : Cmod (Cminus (amps s' n e' x) (amps s n e x)) = 0%R) by (apply Rle_antisym; [exact Hz|apply Cmod_ge_0]).
    apply Cmod_eq_0 in Hz'. replace (amps s' n e' x) with (Cplus (Cminus (amps s' n e' x) (amps s n e x)) (amps s n e x)) by ring. rewrite Hz'. ring.
  - destruct (gc_mat_Aok _ _ _ _ _ _ _ _ Hl Hvs Hgc (freach_Aok _ Hr)) as [_ Htb].
    split; [eapply fr_step; [exact Hr|eapply fs_gc_mat; eauto]|].
    assert (Hin' : In (H KV n e) vs).
    { apply in_app_or in Hin. destruct Hin as [Hin|Hin]; auto. apply in_rehandle in Hin. destruct Hin as (a & b & Hab & _). discriminate Hab. }
    split; [apply in_or_app; now right|]. unfold amps. rewrite Htb. intros j _. reflexivity.
  - split; [eapply fr_step; [exact Hr|now apply fs_evict]|]. split; auto. unfold amps. rewrite (Logic.proj1 Hev). intros j _. reflexivity.
  - split; [eapply fr_step; [exact Hr|apply fs_thr]|]. split; [exact Hin|]. intros j _. reflexivity.
  - split; [eapply fr_step; [exact Hr|exact (fs_probs s hs m x l s' Hx Hxt Hm Hp)]|]. split; auto.
    destruct (reach_V _ _ _ _ Hr Hx) as (HI & Hm1 & _ & Hw).
    destruct (probabilities_tb s m x l s' HI (conj Hm1 Hm) (wfp_nt _ _ _ Hw Hxt) Hp) as [_ Htb]. unfold amps. rewrite Htb. intros j _. reflexivity.
  - split; [eapply fr_step; [exact Hr|exact (fs_all s hs m x col ths r x' s' Hx Hxt Hxz Hl Hu Hp)]|]. split; [now right|].
    destruct (reach_V _ _ _ _ Hr Hx) as (HI & Hm1 & Hm2 & Hw). destruct (reach_V _ _ _ _ Hr Hin) as (_ & _ & _ & He).
    destruct (measureAll_tb s m x col ths r x' s' HI Hm1 Hm2 (wfp_nt _ _ _ Hw Hxt) Hxz Hl Hu Hp) as (s1 & HI1 & Htb & Hrel & _).
    rewrite <- Htb in He. rewrite (amps_rel s1 s' n e HI1 Hrel He). unfold amps. rewrite Htb. intros j _. reflexivity.
  - split; [eapply fr_step; [exact Hr|exact (fs_one s hs m x q eps th r s' Hx Hxt Hq Hp)]|].
    split; [destruct r as [[b e']|]; [now right|exact Hin]|].
    destruct (reach_V _ _ _ _ Hr Hx) as (HI & Hm1 & Hm2 & Hw). destruct (reach_V _ _ _ _ Hr Hin) as (_ & _ & _ & He).
    destruct (measureOneCollapsing_tb s m x q eps th r s' HI Hm1 Hm2 Hq (wfp_nt _ _ _ Hw Hxt) Hp) as (s1 & HI1 & Htb & Hrel & _).
    cbn [fst] in *. rewrite <- Htb in He. rewrite (amps_rel s1 s' n e HI1 Hrel He). unfold amps. rewrite Htb. intros j _. reflexivity.
  - split; [eapply fr_step; [exact Hr|exact (fs_one' s hs m x q eps r s' Hx Hxt Hq Hp)]|]. split; [exact Hin|].
    destruct (reach_V _ _ _ _ Hr Hx) as (HI & Hm1 & Hm2 & Hw).
    destruct (measureOne_tb s m x q eps r s' HI Hm2 (wfp_nt _ _ _ Hw Hxt) Hp) as [_ Htb]. unfold amps. cbn [fst] in *. rewrite Htb. intros j _. reflexivity.
  - destruct (reach_V _ _ _ _ Hr Hin) as (HI & _ & _ & Hw).
    destruct (freach_Aok _ Hr) as [_ Hh]. cbn [fst snd] in Hh. destruct (seq_s i _ _ _ _ HI Hh Hcall) as (_ & x2 & s2 & Hx2 & Hrel & _).
    rewrite Hrun in Hx2. injection Hx2 as <- <-.
    split; [eapply fr_step; [exact Hr|exact (fs_run s hs m c i x s' Hcall Hrun)]|]. split; [now right|]. rewrite (amps_rel s) by auto. intros j _. reflexivity.
Qed.

(* ---- one gate ---- *)
Lemma norm_entry n w i : norm2v n w = 1%R -> (i < 2 ^ n)%nat -> (Cmod (w i) <= 1)%R.
Proof. intros Hn Hi. pose proof (l2_ge (2 ^ n) w i Hi) as Hl. unfold l2 in Hl. unfold norm2v in Hn. now rewrite Hn, sqrt_1 in Hl. Qed.
Definition egt (n : nat) (gd : R) : R := (sqrt (INR (2 ^ n)) * eop n gd (11 / 10))%R.
Lemma egt_pos n gd : (0 <= gd -> 0 <= egt n gd)%R.
Proof. intros H. apply Rmult_le_pos; [apply sqrt_pos|apply eop_pos; lra]. Qed.
Lemma fapply_ok n gd o f c e c' e' w d : size_ok n -> (0 <= gd)%R -> op_ok n o -> op_unitary o -> rounds gd o f ->
  fapply n f c e c' e' -> freach c -> In (H KV n e) (snd c) -> norm2v n w = 1%R -> (dist n (amps (fst c) n e) w <= d)%R -> (d <= 1 / 10)%R ->
  freach c' /\ In (H KV n e') (snd c') /\ (dist n (amps (fst c') n e') (mv n (op_mat n o) w) <= d + egt n gd)%R.
Proof.
  intros Hn Hgd Ho HU Hrd Hap Hr Hin Hw1 Hd Hd1. destruct Hap as [s hs e h s1 e' s2 Hg Hm]. cbn [fst snd] in *.
  destruct (fop_completes n o f gd s hs Hr Hn Hgd Ho HU Hrd) as (Hcall & _ & _ & Hret). specialize (Hret h s1 Hg).
  assert (Hr1 : freach (s1, H KM n h :: hs)) by (eapply fr_step; [exact Hr|eapply fs_call; eauto]).
  destruct (reach_V _ _ _ _ Hr Hin) as (HI & _ & _ & Hw).
  destruct (freach_Aok _ Hr) as [_ Hh]. cbn [fst snd] in Hh. destruct (fcall_s _ _ _ _ _ HI Hh Hcall) as (_ & _ & Hwp).
  destruct (wpr_result _ _ _ _ _ HI Hwp Hg) as [Hrel _].
  assert (Hcall2 : fcall (H KM n h :: hs) KV n (mv_multiply h e)) by (apply f_mul; [now left|now right]).
  pose proof (eg_pos n gd Hgd) as Heg. set (v := amps s n e) in *.
  assert (Hv1 : amps s1 n e = v) by (apply amps_rel; auto).
  assert (HvW : forall i, (i < 2 ^ n)%nat -> (Cmod (v i) <= 11 / 10)%R).
  { intros i Hi. pose proof (close_of_dist _ _ _ _ Hd i Hi) as Hx. pose proof (norm_entry n w i Hw1 Hi) as Hy. apply Cmod_sub_le in Hx. lra. }
  pose proof (op_unitary_mat n o Ho HU) as HUm.
  assert (HAA : forall i j, (i < 2 ^ n)%nat -> (j < 2 ^ n)%nat -> (Cmod (ents s1 n h i j) <= 1 + eg n gd)%R).
  { intros i j Hi Hj. pose proof (unitary_entry n _ i j HUm Hi Hj) as Hx. specialize (Hret i j Hi Hj). apply Cmod_sub_le in Hret. lra. }
  assert (HvW1 : forall i, (i < 2 ^ n)%nat -> (Cmod (amps s1 n e i) <= 11 / 10)%R) by (rewrite Hv1; exact HvW).
  destruct (C67_apply s1 _ n h e _ _ Hr1 (or_introl eq_refl) (or_intror Hin) HAA HvW1) as (_ & _ & Hret2).
  specialize (Hret2 e' s2 Hm). rewrite Hv1 in Hret2.
  split; [eapply fr_step; [exact Hr1|eapply fs_call; eauto]|]. split; [now left|].
  eapply Rle_trans; [apply (dist_tri n (amps s2 n e') (mv n (op_mat n o) v))|].
  rewrite dist_unitary by exact HUm.
  assert (Hc2 : vclose n (eop n gd (11 / 10)) (amps s2 n e') (mv n (op_mat n o) v)).
  { intros i Hi. eapply Rle_trans; [eapply Cmod_tri3; [now apply Hret2|]|unfold eop; apply Rle_refl].
    now apply (mv_close n (op_mat n o) (ents s1 n h) v _ _ Heg Hret HvW). }
  pose proof (dist_of_close n _ _ _ (eop_pos n gd (11 / 10) Hgd ltac:(lra)) Hc2). unfold egt. lra.
Qed.

(* ---- one measurement ---- *)
Definition near_branch (n : nat) (w : vector) (q b : nat) (d : R) (s' : state) (hs : list handle) (e' : edge) : Prop :=
  let Q := probq n w q b in
  (Q <= 4 * (e1 n + d) + em n)%R \/
  (0 < Q)%R /\ freach (s', H KV n e' :: hs) /\ (dist n (amps s' n e') (after n w q b) <= eaft_at n d Q)%R.
Lemma e1_nn n : (0 <= e1 n)%R.
Proof. pose proof (eone_mono n (5 / 4) (5 / 4) ltac:(lra)) as [Hx _]. exact Hx. Qed.
Lemma em_nn n : (0 <= em n)%R.
Proof. unfold em. pose proof (e1_nn n). pose proof dl_b. lra. Qed.
Lemma splits_ok n q eps s hs e y e0 s0 x1 s1 w d : good_sqrt -> (q < n)%nat -> freach (s, hs) -> In (H KV n e) hs ->
  norm2v n w = 1%R -> (dist n (amps s n e) w <= d)%R -> (d <= 1 / 10)%R -> (e1 n <= 1 / 10)%R -> splits e q eps s y e0 s0 x1 s1 ->
  (0 <= nr y <= 1)%R /\ (Rabs (nr y - probq n w q 0) <= em n + 4 * d)%R /\ near_branch n w q 0 d s0 hs e0 /\ near_branch n w q 1 d s1 hs x1.
Proof.
  intros HS Hq Hr Hin Hw Hd Hd1 He Hsp.
  assert (Hq' : qubit n (Z.of_nat q)) by (unfold qubit; lia).
  destruct (C69_near s hs n e (Z.of_nat q) eps w d Hr Hin Hq' Hw Hd Hd1 He) as (Hnt & _ & Hc). destruct (Hc HS) as (p & P1 & P2 & P3).
  rewrite Nat2Z.id in *. clear Hc.
  assert (Hlt : forall th, nltb th y = true <-> (nr th < nr p)%R).
  { intros th. destruct (P3 th) as (r & s' & M & R). rewrite (Hsp th) in M. destruct (nltb th y) eqn:Hy; injection M as <- <-; destruct R as [R _]; [tauto|].
    split; [discriminate|]. intros Hx. apply R in Hx. discriminate. }
  assert (Hyp : nr y = nr p).
  { apply Rle_antisym; apply Rnot_lt_le; intros Hx.
    - apply nr_lt in Hx. apply Hlt in Hx. lra.
    - apply Hlt in Hx. apply nr_lt in Hx. lra. }
  rewrite Hyp. split; [exact P1|]. split; [exact P2|].
  assert (Hbr : forall th b e' s', measureOneCollapsing e (Z.of_nat q) eps th s = Some (Ret (b, e'), s') -> near_branch n w q (if b then 1 else 0)%nat d s' hs e').
  { intros th b e' s' M. destruct (P3 th) as (r & s'' & M' & R). rewrite M in M'. injection M' as <- <-. destruct R as [_ R]. unfold near_branch.
    set (Q := probq n w q (if b then 1 else 0)%nat) in *. cbv zeta in R. fold Q in R. pose proof (e1_nn n). pose proof (em_nn n).
    destruct (Rle_dec (4 * (e1 n + d)) Q) as [HQ|HQ]; [|left; lra]. destruct (Rlt_dec 0 Q) as [HQ0|HQ0]; [|left].
    - right. split; [exact HQ0|]. split; [|now apply R]. eapply fr_step; [exact Hr|]. exact (fs_one s hs n e (Z.of_nat q) eps th _ s' Hin Hnt Hq' M).
    - assert (0 <= d)%R by (eapply Rle_trans; [|exact Hd]; apply l2_pos). lra. }
  split.
  - destruct (Rlt_dec 0 (nr p)) as [Hp|Hp].
    + pose proof (Hsp n0) as M. replace (nltb n0 y) with true in M by (symmetry; apply Hlt; rewrite nr_0; exact Hp). exact (Hbr n0 false e0 s0 M).
    + left. pose proof (e1_nn n). apply SafeF.abs_between in P2. lra.
  - pose proof (Hsp n1) as M. replace (nltb n1 y) with false in M; [exact (Hbr n1 true x1 s1 M)|].
    symmetry. destruct (nltb n1 y) eqn:Hy; auto. apply Hlt in Hy. rewrite nr_1 in Hy. lra.
Qed.
Lemma throw_ok n q eps s hs e s' w d : good_sqrt -> (q < n)%nat -> freach (s, hs) -> In (H KV n e) hs ->
  norm2v n w = 1%R -> (dist n (amps s n e) w <= d)%R -> (d <= 1 / 10)%R -> (e1 n <= 1 / 10)%R ->
  (forall th, measureOneCollapsing e (Z.of_nat q) eps th s = Some (Throw, s')) -> (nr eps <= em n + 4 * d)%R.
Proof.
  intros HS Hq Hr Hin Hw Hd Hd1 He Hsp. assert (Hq' : qubit n (Z.of_nat q)) by (unfold qubit; lia).
  destruct (C69_near s hs n e (Z.of_nat q) eps w d Hr Hin Hq' Hw Hd Hd1 He) as (_ & _ & Hc). destruct (Hc HS) as (p & _ & _ & P3).
  destruct (P3 n0) as (r & s'' & M & R). rewrite Hsp in M. injection M as <- <-. exact R.
Qed.
Lemma lost_ok n q eps s hs e th w d : good_sqrt -> (q < n)%nat -> freach (s, hs) -> In (H KV n e) hs ->
  norm2v n w = 1%R -> (dist n (amps s n e) w <= d)%R -> (d <= 1 / 10)%R -> (e1 n <= 1 / 10)%R ->
  measureOneCollapsing e (Z.of_nat q) eps th s = None -> False.
Proof.
  intros HS Hq Hr Hin Hw Hd Hd1 He Hsp. assert (Hq' : qubit n (Z.of_nat q)) by (unfold qubit; lia).
  destruct (C69_near s hs n e (Z.of_nat q) eps w d Hr Hin Hq' Hw Hd Hd1 He) as (_ & _ & Hc). destruct (Hc HS) as (p & _ & _ & P3).
  destruct (P3 th) as (r & s'' & M & R). rewrite Hsp in M. discriminate.
Qed.
Lemma branch_bound n q X Y a B d : (0 <= q <= 1)%R -> (Rabs (X - Y) <= 1)%R -> (0 <= a)%R -> (0 <= B)%R -> (0 <= d)%R ->
  ((q <= 4 * (e1 n + d) + em n)%R \/ (0 < q)%R /\ (Rabs (X - Y) <= a + B * eaft_at n d q)%R) ->
  (q * Rabs (X - Y) <= q * a + (4 * (e1 n + d) + em n) + B * (sqrt (INR (2 ^ n)) * ecl n + 2 * d))%R.
Proof.
  intros Hq H1 Ha HB Hd Hor. pose proof (Rabs_pos (X - Y)) as H0. pose proof (e1_nn n) as He. pose proof (em_nn n) as Hm. pose proof (ecl_pos n) as Hc. pose proof (sqrt_pos (INR (2 ^ n))) as Hs.
  assert (HS : (0 <= sqrt (INR (2 ^ n)) * ecl n)%R) by (now apply Rmult_le_pos).
  assert (0 <= B * (sqrt (INR (2 ^ n)) * ecl n + 2 * d))%R by (apply Rmult_le_pos; lra). assert (0 <= q * a)%R by (apply Rmult_le_pos; lra).
  destruct Hor as [Hs1|[Hq0 Hx]].
  - assert (q * Rabs (X - Y) <= q * 1)%R by (apply Rmult_le_compat_l; lra). lra.
  - assert (Hy : (q * eaft_at n d q <= sqrt (INR (2 ^ n)) * ecl n + 2 * d)%R).
    { unfold eaft_at. replace (q * (sqrt (INR (2 ^ n)) * ecol n (q / 4) + 2 * d / sqrt q))%R with (sqrt (INR (2 ^ n)) * (q * ecol n (q / 4)) + 2 * d * (q / sqrt q))%R
        by (field; apply Rgt_not_eq, sqrt_lt_R0; lra).
      apply Rplus_le_compat.
      - apply Rmult_le_compat_l; [exact Hs|]. pose proof (ecol_le n q ltac:(lra)) as Hl. apply (Rmult_le_compat_l q) in Hl; [|lra].
        replace (q * (ecl n / q))%R with (ecl n) in Hl by (field; lra). exact Hl.
      - replace (q / sqrt q)%R with (sqrt q) by (apply Rmult_eq_reg_r with (sqrt q); [|apply Rgt_not_eq, sqrt_lt_R0; lra]; rewrite sqrt_sqrt by lra; field; apply Rgt_not_eq, sqrt_lt_R0; lra).
        assert (sqrt q <= 1)%R by (rewrite <- sqrt_1; apply sqrt_le_1_alt; lra). pose proof (sqrt_pos q). nra. }
    assert (Hz : (q * Rabs (X - Y) <= q * (a + B * eaft_at n d q))%R) by (apply Rmult_le_compat_l; lra).
    assert (B * (q * eaft_at n d q) <= B * (sqrt (INR (2 ^ n)) * ecl n + 2 * d))%R by (apply Rmult_le_compat_l; lra). lra.
Qed.

(* ---- the error of the loop ---- *)
(* factor by which an initial error can grow, and error made by the loop itself, in the
   probabilities of the outcomes *)
Fixpoint eB (ep : R) (l : list inst) : R :=
  match l with
  | [] => 10
  | x :: r => match Backend.op x with Backend.BMeasure _ _ | Backend.BReset _ => 12 + 4 * eB ep r + 4 / ep | _ => eB ep r end
  end%R.
Definition emeas (n : nat) (ep : R) : R := (3 * em n + 8 * e1 n + em n / ep)%R.
Fixpoint eA (n : nat) (gd ep : R) (l : list inst) : R :=
  match l with
  | [] => 0
  | x :: r =>
      eA n gd ep r +
      match Backend.op x with
      | Backend.BGate _ => eB ep r * egt n gd
      | Backend.BMeasure _ _ => emeas n ep + 2 * eB ep r * (sqrt (INR (2 ^ n)) * ecl n)
      | Backend.BReset _ => emeas n ep + 2 * eB ep r * (sqrt (INR (2 ^ n)) * ecl n) + eB ep r * egt n gd
      | _ => 0
      end
  end%R.
Lemma eB_ge ep l : (0 < ep -> 10 <= eB ep l)%R.
Proof.
  intros He. induction l as [|x r IH]; cbn [eB]; [lra|]. assert (0 < 4 / ep)%R by (apply Rdiv_lt_0_compat; lra).
  destruct (Backend.op x); lra.
Qed.
Lemma eB_tl ep x r : (0 < ep -> eB ep r <= eB ep (x :: r))%R.
Proof. intros He. pose proof (eB_ge ep r He). assert (0 < 4 / ep)%R by (apply Rdiv_lt_0_compat; lra). cbn [eB]. destruct (Backend.op x); lra. Qed.
Lemma emeas_nn n ep : (0 < ep -> 0 <= emeas n ep)%R.
Proof. intros He. unfold emeas. pose proof (e1_nn n). pose proof (em_nn n). assert (0 <= em n / ep)%R by (apply div_nn; lra). lra. Qed.
Lemma eA_tl n gd ep x r : (0 < ep)%R -> (0 <= gd)%R -> (eA n gd ep r <= eA n gd ep (x :: r))%R.
Proof.
  intros He Hg. pose proof (eB_ge ep r He). pose proof (egt_pos n gd Hg). pose proof (emeas_nn n ep He).
  assert (0 <= eB ep r * egt n gd)%R by (apply Rmult_le_pos; lra).
  assert (0 <= 2 * eB ep r * (sqrt (INR (2 ^ n)) * ecl n))%R by (apply Rmult_le_pos; [lra|apply Rmult_le_pos; [apply sqrt_pos|apply ecl_pos]]).
  cbn [eA]. destruct (Backend.op x); lra.
Qed.
Lemma eA_pos n gd ep l : (0 < ep)%R -> (0 <= gd)%R -> (0 <= eA n gd ep l)%R.
Proof. intros He Hg. induction l as [|x r IH]; [cbn; lra|]. pose proof (eA_tl n gd ep x r He Hg). lra. Qed.

(* ---- trees ---- *)
Lemma flib_okt {A} gd eps n (K : config -> list bool -> tree A -> Prop) l c e cl T : (forall c cl T, K c cl T -> okt T) -> flib gd eps n K l c e cl T -> okt T.
Proof. intros HK HF. induction HF; cbn [okt]; eauto; (split; [apply clamp_b|intros []; assumption]). Qed.
Lemma meas1_okt {A} ep n q v (k : bool -> vector -> tree A) : (forall b v', okt (k b v')) -> okt (Backend.meas1 ep n q v k).
Proof.
  intros Hk. unfold Backend.meas1. destruct (Rlt_dec _ _); cbn [okt]; auto. split; [|auto].
  pose proof (probq_nonneg n v q 0) as H0. pose proof (probq_nonneg n v q 1) as H1. pose proof (probq_total n v q) as Hs.
  destruct (Req_dec (norm2v n v) 0) as [Hz|Hz].
  - replace (probq n v q 0) with 0%R by lra. unfold Rdiv. rewrite Rmult_0_l. lra.
  - assert (0 < norm2v n v)%R by lra. split; [apply div_nn; lra|]. apply Rmult_le_reg_r with (norm2v n v); [lra|]. unfold Rdiv. rewrite Rmult_assoc, Rinv_l by lra. lra.
Qed.
Lemma exec_okt ep n b l : forall v cl log, okt (Backend.exec ep n b l v cl log).
Proof.
  induction l as [|x r IH]; intros v cl log; cbn [Backend.exec]; [exact I|]. destruct (Backend.skip _ _); [apply IH|].
  destruct (Backend.op x); try exact I; try apply IH; destruct b; try apply IH; try exact I; apply meas1_okt; intros; apply IH.
Qed.
Lemma in01_diff x y : (0 <= x <= 1)%R -> (0 <= y <= 1)%R -> (Rabs (x - y) <= 1)%R.
Proof. intros Hx Hy. apply Rabs_le. lra. Qed.

(* ---- the distribution of the classical bits at the end of the loop ---- *)
Definition units (l : list inst) : Prop := forall x g, In x l -> Backend.op x = Backend.BGate g -> gate_unit g.
Lemma dist_veq n v v' w : veq n v v' -> dist n v w = dist n v' w.
Proof. intros Hv. unfold dist. apply l2_ext. intros i Hi. now rewrite Hv. Qed.
Lemma Xmat_rounds gd q : (0 <= gd)%R -> rounds gd (U1 Backend.X (Z.of_nat q) []) (F1 Xmat (Z.of_nat q) []).
Proof.
  intros Hg. apply rd_1. intros i j Hi Hj. assert (Hz : Cminus (cv (Xmat i j)) (Backend.X i j) = RtoC 0).
  { destruct i as [|[|]], j as [|[|]]; try lia; unfold Xmat, mk2, Backend.X, cf_zero, cf_one; cbn; rewrite ?cv_0, ?cv_1; ring. }
  rewrite Hz, Cmod_0. exact Hg.
Qed.
Lemma X_ok n q : (q < n)%nat -> op_ok n (U1 Backend.X (Z.of_nat q) []) /\ op_unitary (U1 Backend.X (Z.of_nat q) []).
Proof.
  intros Hq. split; [split; [unfold qubit; lia|]|].
  - apply (BackLink.ctl_ids_ok n [] [q]); [constructor|intros ? []|intros ? ? []].
  - cbn [op_unitary]. split; intros i j Hi Hj; destruct i as [|[|i]]; try (cbn in Hi; lia); destruct j as [|[|j]]; try (cbn in Hj; lia);
    unfold mm, adjoint, ident, Backend.X; cbn; apply injective_projections; cbn; ring.
Qed.
Lemma measure_step n q eps s hs e y e0 s0 x1 s1 X0 X1 Y0 Y1 w d a B : good_sqrt -> (q < n)%nat -> freach (s, hs) -> In (H KV n e) hs ->
  norm2v n w = 1%R -> (dist n (amps s n e) w <= d)%R -> (d <= 1 / 10)%R -> (e1 n <= 1 / 10)%R -> splits e q eps s y e0 s0 x1 s1 ->
  (0 <= a)%R -> (0 <= B)%R -> (0 <= X0 <= 1)%R -> (0 <= X1 <= 1)%R -> (0 <= Y0 <= 1)%R -> (0 <= Y1 <= 1)%R ->
  (forall d', (0 < probq n w q 0)%R -> freach (s0, H KV n e0 :: hs) -> (dist n (amps s0 n e0) (after n w q 0) <= d')%R -> (Rabs (X0 - Y0) <= a + B * d')%R) ->
  (forall d', (0 < probq n w q 1)%R -> freach (s1, H KV n x1 :: hs) -> (dist n (amps s1 n x1) (after n w q 1) <= d')%R -> (Rabs (X1 - Y1) <= a + B * d')%R) ->
  (Rabs (clamp (nr y) * X0 + (1 - clamp (nr y)) * X1 - (probq n w q 0 * Y0 + probq n w q 1 * Y1)) <=
   a + (3 * em n + 8 * e1 n) + 2 * B * (sqrt (INR (2 ^ n)) * ecl n) + (12 + 4 * B) * d)%R.
Proof.
  intros HS Hq Hr Hin Hw Hd Hd1 He Hsp Ha HB HX0 HX1 HY0 HY1 Hb0 Hb1.
  destruct (splits_ok n q eps s hs e y e0 s0 x1 s1 w d HS Hq Hr Hin Hw Hd Hd1 He Hsp) as (Hy & Hp & Hn0 & Hn1).
  rewrite (clamp_id _ Hy). assert (Hd0 : (0 <= d)%R) by (eapply Rle_trans; [|exact Hd]; apply l2_pos).
  pose proof (probq_total n w q) as Ht. rewrite Hw in Ht. pose proof (probq_nonneg n w q 0) as Q0. pose proof (probq_nonneg n w q 1) as Q1.
  pose proof (branch_bound n (probq n w q 0) X0 Y0 a B d ltac:(lra) ltac:(now apply in01_diff) Ha HB Hd0) as B0.
  pose proof (branch_bound n (probq n w q 1) X1 Y1 a B d ltac:(lra) ltac:(now apply in01_diff) Ha HB Hd0) as B1.
  assert (D0 : (probq n w q 0 * Rabs (X0 - Y0) <= probq n w q 0 * a + (4 * (e1 n + d) + em n) + B * (sqrt (INR (2 ^ n)) * ecl n + 2 * d))%R).
  { apply B0. destruct Hn0 as [Hs|(Hs & Hs' & Hs'')]; [now left|right]. split; [exact Hs|]. now apply Hb0. }
  assert (D1 : (probq n w q 1 * Rabs (X1 - Y1) <= probq n w q 1 * a + (4 * (e1 n + d) + em n) + B * (sqrt (INR (2 ^ n)) * ecl n + 2 * d))%R).
  { apply B1. destruct Hn1 as [Hs|(Hs & Hs' & Hs'')]; [now left|right]. split; [exact Hs|]. now apply Hb1. }
  pose proof (flip_err (nr y) _ _ X0 X1 Y0 Y1 _ _ _ Ht Q0 Q1 HX0 HX1 Hp D0 D1) as HF. eapply Rle_trans; [exact HF|].
  replace a with ((probq n w q 0 + probq n w q 1) * a)%R at 3 by (rewrite Ht; ring). right. ring.
Qed.
Section Sound.
Context {A : Type} (gd : R) (eps : num) (n ncl : nat) (K : config -> list bool -> tree A -> Prop) (f : A -> R) (G : list bool -> R) (delta : R).
Definition within (l : list inst) (T : tree A) (w : vector) (cl : list bool) (log : list (nat * bool)) (d : R) : Prop :=
  (Rabs (Ex T f - Ex (Backend.exec (nr eps) n false l w cl log) (fun x => G (snd (fst x)))) <= delta + eA n gd (nr eps) l + eB (nr eps) l * d)%R.
Theorem flib_sound l c e cl T : size_ok n -> good_sqrt -> (0 <= gd)%R -> (0 < nr eps)%R -> (e1 n <= 1 / 10)%R -> (0 <= delta)%R ->
  (forall a, 0 <= f a <= 1)%R -> (forall x, 0 <= G x <= 1)%R ->
  (forall c cl T, K c cl T -> okt T) -> (forall c cl T, freach c -> K c cl T -> (Rabs (Ex T f - G cl) <= delta)%R) ->
  flib gd eps n K l c e cl T -> forall w d log, BackendP.insts_ok n ncl l -> BackLink.lib_ok n l -> units l ->
  freach c -> In (H KV n e) (snd c) -> norm2v n w = 1%R -> (dist n (amps (fst c) n e) w <= d)%R -> within l T w cl log d.
Proof.
  intros Hn HS Hgd Hep He1 Hdl Hf HG HK1 HK2.
  assert (Htriv : forall l T w cl log d, okt T -> (1 / 10 <= d)%R -> within l T w cl log d).
  { intros l' T' w cl' log d Ho Hd. unfold within. pose proof (eB_ge (nr eps) l' Hep). pose proof (eA_pos n gd (nr eps) l' Hep Hgd).
    eapply Rle_trans; [apply in01_diff; apply okt_Ex; auto using exec_okt|]. nra. }
  assert (Hdist : forall v w d, (dist n v w <= d)%R -> (0 <= d)%R) by (intros v w d Hx; eapply Rle_trans; [|exact Hx]; apply l2_pos).
  assert (Htl : forall x r, BackendP.insts_ok n ncl (x :: r) -> BackLink.lib_ok n (x :: r) -> units (x :: r) -> BackendP.insts_ok n ncl r /\ BackLink.lib_ok n r /\ units r).
  { intros x r h1 h2 h3. split; [|split]; red; intros; [apply h1|eapply h2|eapply h3]; try (right; eassumption); eassumption. }
  assert (Hmono : forall x r T w cl log d, (0 <= d)%R -> Backend.exec (nr eps) n false (x :: r) w cl log = Backend.exec (nr eps) n false r w cl log ->
    within r T w cl log d -> within (x :: r) T w cl log d).
  { intros x r T' w cl' log d Hd0 Hx Hy. unfold within in *. rewrite Hx. pose proof (eA_tl n gd (nr eps) x r Hep Hgd). pose proof (eB_tl (nr eps) x r Hep).
    assert (eB (nr eps) r * d <= eB (nr eps) (x :: r) * d)%R by (apply Rmult_le_compat_r; lra). lra. }
  assert (Hsup : forall x r q, BackendP.insts_ok n ncl (x :: r) -> (Backend.op x = Backend.BReset q \/ exists k, Backend.op x = Backend.BMeasure q k) -> (q < n)%nat).
  { intros x r q Hi Ho. destruct (Hi x (or_introl eq_refl)) as [Hs _]. unfold BackSpec.supported in Hs. destruct Ho as [Ho|[k Ho]]; rewrite Ho in Hs; tauto. }
  assert (Hem : (0 <= em n / nr eps)%R) by (apply div_nn; [apply em_nn|exact Hep]).
  pose proof (e1_nn n) as Hen. pose proof (em_nn n) as Hmn.
  assert (Hec : (0 <= sqrt (INR (2 ^ n)) * ecl n)%R) by (apply Rmult_le_pos; [apply sqrt_pos|apply ecl_pos]).
  assert (H4 : (0 <= 4 / nr eps)%R) by (apply div_nn; lra). pose proof (egt_pos n gd Hgd) as Hgt.
  assert (Hidl : forall l v cl log, (0 <= Ex (Backend.exec (nr eps) n false l v cl log) (fun x => G (snd (fst x))) <= 1)%R) by (intros; apply okt_Ex; [apply exec_okt|auto]).
  induction 1 as [c e cl T Hk|l c e cl T c' e' Hmv Hl IH|x r c e cl T Hsk Hl IH|x r qs c e cl T Hsk Hop Hl IH|x r g o fo c e c' e' cl T Hsk Hop Hio Hrd Hap Hl IH
    |x r q k s hs e cl y e0 s0 x1 s1 T0 T1 Hsk Hop Hsp Hl0 IH0 Hl1 IH1|x r q s hs e cl y e0 s0 x1 s1 c' e' T0 T1 Hsk Hop Hsp Hl0 IH0 Hap Hl1 IH1
    |x r q s hs e cl s' Hsk Hop Hth|x r c e cl Hsk Hop|x r q s hs e cl th T Hsk Hop Hno Ho]; intros w d log Hi Hlo Hu Hr Hin Hw Hd; pose proof (Hdist _ _ _ Hd) as Hd0; cbn [fst snd] in *.
  - unfold within. cbn [Backend.exec BackSpec.Ex eA eB fst snd]. specialize (HK2 c cl T Hr Hk). lra.
  - destruct (fmove_ok n c e c' e' Hmv Hr Hin) as (Hr' & Hin' & Hv). apply IH; auto. rewrite (dist_veq _ _ _ _ Hv). exact Hd.
  - destruct (Htl x r Hi Hlo Hu) as (h1 & h2 & h3). apply Hmono; auto. cbn [Backend.exec]. now rewrite Hsk.
  - destruct (Htl x r Hi Hlo Hu) as (h1 & h2 & h3). apply Hmono; auto. cbn [Backend.exec]. now rewrite Hsk, Hop.
  - destruct (Htl x r Hi Hlo Hu) as (h1 & h2 & h3).
    destruct (Rle_dec d (1 / 10)) as [Hd1|Hd1]; [|apply Htriv; [eapply flib_okt; [exact HK1|exact Hl]|lra]].
    destruct (iop_ok n g (Hlo x g (or_introl eq_refl) Hop) (Hu x g (or_introl eq_refl) Hop)) as (o' & Ho1 & Ho2 & Ho3). rewrite Hio in Ho1. injection Ho1 as <-.
    destruct (fapply_ok n gd o fo c e c' e' w d Hn Hgd Ho2 Ho3 Hrd Hap Hr Hin Hw Hd Hd1) as (Hr' & Hin' & Hd').
    assert (Hw' : norm2v n (mv n (op_mat n o) w) = 1%R) by (rewrite unitary_norm; [exact Hw|now apply op_unitary_mat]).
    specialize (IH (mv n (op_mat n o) w) (d + egt n gd)%R log h1 h2 h3 Hr' Hin' Hw' Hd'). unfold within in *. cbn [Backend.exec eA eB]. rewrite Hsk, Hop, <- (iop_mat n g o Hio). lra.
  - destruct (Htl x r Hi Hlo Hu) as (h1 & h2 & h3). pose proof (flib_okt _ _ _ _ _ _ _ _ _ HK1 Hl0) as O0. pose proof (flib_okt _ _ _ _ _ _ _ _ _ HK1 Hl1) as O1.
    destruct (Rle_dec d (1 / 10)) as [Hd1|Hd1]; [|apply Htriv; [cbn [okt]; split; [apply clamp_b|intros []; assumption]|lra]].
    pose proof (Hsup x r q Hi (or_intror (ex_intro _ k Hop))) as Hq.
    unfold within. cbn [Backend.exec eA eB BackSpec.Ex]. rewrite Hsk, Hop. rewrite BackendP.Ex_meas1 by (auto; lra).
    pose proof (eB_ge (nr eps) r Hep) as HB. pose proof (eA_pos n gd (nr eps) r Hep Hgd) as HA.
    set (Y0 := Ex (Backend.exec (nr eps) n false r _ (Backend.upd cl k false) _) _). set (Y1 := Ex (Backend.exec (nr eps) n false r _ (Backend.upd cl k true) _) _).
    assert (M : (Rabs (clamp (nr y) * Ex T0 f + (1 - clamp (nr y)) * Ex T1 f - (probq n w q 0 * Y0 + probq n w q 1 * Y1)) <=
       (delta + eA n gd (nr eps) r) + (3 * em n + 8 * e1 n) + 2 * eB (nr eps) r * (sqrt (INR (2 ^ n)) * ecl n) + (12 + 4 * eB (nr eps) r) * d)%R).
    { apply (measure_step n q eps s hs e y e0 s0 x1 s1); auto; try lra; try (apply okt_Ex; assumption); try apply Hidl.
      - intros d' Hp Hf' Hd'. unfold Y0. apply IH0; auto; [now left|]. now apply BackendP.norm_collapse.
      - intros d' Hp Hf' Hd'. unfold Y1. apply IH1; auto; [now left|]. now apply BackendP.norm_collapse. }
    eapply Rle_trans; [exact M|]. unfold emeas. assert (0 <= 4 / nr eps * d)%R by (apply Rmult_le_pos; lra). lra.
  - destruct (Htl x r Hi Hlo Hu) as (h1 & h2 & h3). pose proof (flib_okt _ _ _ _ _ _ _ _ _ HK1 Hl0) as O0. pose proof (flib_okt _ _ _ _ _ _ _ _ _ HK1 Hl1) as O1.
    destruct (Rle_dec d (1 / 10)) as [Hd1|Hd1]; [|apply Htriv; [cbn [okt]; split; [apply clamp_b|intros []; assumption]|lra]].
    pose proof (Hsup x r q Hi (or_introl Hop)) as Hq.
    unfold within. cbn [Backend.exec eA eB BackSpec.Ex]. rewrite Hsk, Hop. rewrite BackendP.Ex_meas1 by (auto; lra). cbv iota.
    pose proof (eB_ge (nr eps) r Hep) as HB. pose proof (eA_pos n gd (nr eps) r Hep Hgd) as HA.
    set (w0 := fun i => Cdiv (project q 0 w i) _). set (w1 := fun i => Cdiv (project q 1 w i) _).
    set (Y0 := Ex (Backend.exec (nr eps) n false r w0 cl log) _). set (Y1 := Ex (Backend.exec (nr eps) n false r (mv n _ w1) cl log) _).
    assert (0 <= eB (nr eps) r * egt n gd)%R by (apply Rmult_le_pos; lra).
    assert (M : (Rabs (clamp (nr y) * Ex T0 f + (1 - clamp (nr y)) * Ex T1 f - (probq n w q 0 * Y0 + probq n w q 1 * Y1)) <=
       (delta + eA n gd (nr eps) r + eB (nr eps) r * egt n gd) + (3 * em n + 8 * e1 n) + 2 * eB (nr eps) r * (sqrt (INR (2 ^ n)) * ecl n) + (12 + 4 * eB (nr eps) r) * d)%R).
    { apply (measure_step n q eps s hs e y e0 s0 x1 s1); auto; try lra; try (apply okt_Ex; assumption); try apply Hidl.
      - intros d' Hp Hf' Hd'. assert (W : within r T0 w0 cl log d') by (apply IH0; auto; [now left|now apply BackendP.norm_collapse]). unfold within in W. fold Y0 in W. lra.
      - intros d' Hp Hf' Hd'. destruct (X_ok n q Hq) as [HX1 HX2]. pose proof (Hdist _ _ _ Hd') as Hd0'.
        assert (Hn1 : norm2v n w1 = 1%R) by (now apply BackendP.norm_collapse).
        destruct (Rle_dec d' (1 / 10)) as [Hd2|Hd2].
        + destruct (fapply_ok n gd _ _ _ _ _ _ w1 d' Hn Hgd HX1 HX2 (Xmat_rounds gd q Hgd) Hap Hf' (or_introl eq_refl) Hn1 Hd' Hd2) as (Hr' & Hin' & Hd'').
          cbn [op_mat] in Hd''. rewrite Nat2Z.id in Hd''.
          assert (W : within r T1 (mv n (gate1 n Backend.X q []) w1) cl log (d' + egt n gd)).
          { apply IH1; auto. rewrite unitary_norm; [exact Hn1|now apply BackendP.unitary_X]. }
          unfold within in W. fold Y1 in W. lra.
        + assert (Rabs (Ex T1 f - Y1) <= 1)%R by (apply in01_diff; [apply okt_Ex; assumption|apply Hidl]). nra. }
    eapply Rle_trans; [exact M|]. unfold emeas. assert (0 <= 4 / nr eps * d)%R by (apply Rmult_le_pos; lra). lra.
  - destruct (Rle_dec d (1 / 10)) as [Hd1|Hd1]; [|apply Htriv; [exact Logic.I|lra]].
    pose proof (Hsup x r q Hi Hop) as Hq. pose proof (throw_ok n q eps s hs e s' w d HS Hq Hr Hin Hw Hd Hd1 He1 Hth) as Hx.
    unfold within. eapply Rle_trans; [apply in01_diff; [apply (okt_Ex Raise); [exact Logic.I|exact Hf]|apply Hidl]|].
    pose proof (eB_ge (nr eps) r Hep) as HB. pose proof (eA_pos n gd (nr eps) r Hep Hgd) as HA.
    assert (H1' : (1 <= em n / nr eps + 4 / nr eps * d)%R).
    { replace (em n / nr eps + 4 / nr eps * d)%R with ((em n + 4 * d) / nr eps)%R by (field; lra). apply Rmult_le_reg_r with (nr eps); [exact Hep|]. unfold Rdiv. rewrite Rmult_assoc, Rinv_l by lra. lra. }
    assert (H2' : (em n / nr eps <= eA n gd (nr eps) (x :: r))%R).
    { assert (0 <= eB (nr eps) r * egt n gd)%R by (apply Rmult_le_pos; lra). assert (0 <= 2 * eB (nr eps) r * (sqrt (INR (2 ^ n)) * ecl n))%R by (apply Rmult_le_pos; lra).
      cbn [eA]. unfold emeas. destruct Hop as [Hop|[k Hop]]; rewrite Hop; lra. }
    assert (H3' : (4 / nr eps * d <= eB (nr eps) (x :: r) * d)%R).
    { apply Rmult_le_compat_r; [exact Hd0|]. cbn [eB]. destruct Hop as [Hop|[k Hop]]; rewrite Hop; lra. }
    lra.
  - exfalso. destruct (Hi x (or_introl eq_refl)) as [Hs _]. unfold BackSpec.supported in Hs. destruct (Backend.op x); contradiction.
  - destruct (Rle_dec d (1 / 10)) as [Hd1|Hd1]; [|apply Htriv; [exact Ho|lra]].
    exfalso. exact (lost_ok n q eps s hs e th w d HS (Hsup x r q Hi Hop) Hr Hin Hw Hd Hd1 He1 Hno).
Qed.
End Sound.

(* ---- the loop can always be executed ---- *)
Lemma mOC_term e q eps th s : is_term (en e) = true -> (0 <= q) -> measureOneCollapsing e q eps th s = None.
Proof.
  intros Ht Hq. unfold measureOneCollapsing, detProbs. destruct (en e) as [| |a] eqn:Ep; try discriminate.
  replace (bfs s (Pos.to_nat (nexta (tb s KV))) q _) with (@None ((ptr -> option num) * list ptr)); [reflexivity|].
  destruct (Pos2Nat.is_succ (nexta (tb s KV))) as [f ->]. cbn [bfs readn nv]. replace (-1 =? q) with false by (symmetry; apply Z.eqb_neq; lia).
  unfold visit. cbn [nth nch ew nullE]. rewrite (z_0 c0 cv_0). destruct f; reflexivity.
Qed.
Lemma run_steps i c s e s' : run_on i c s = Some (e, s') -> steps (Cfg_ok c s) (Cfg_ok (CRet e) s').
Proof. intros Hx. pose proof (run_on_steps i c s) as X. now rewrite Hx in X. Qed.
Definition fits (gd : R) (l : list inst) : Prop :=
  forall x g o, In x l -> Backend.op x = Backend.BGate g -> iop g = Some o -> exists fo, rounds gd o fo.
Lemma fapply_runs n gd o f s hs e : size_ok n -> (0 <= gd)%R -> op_ok n o -> op_unitary o -> rounds gd o f -> freach (s, hs) -> In (H KV n e) hs ->
  exists c' e', fapply n f (s, hs) e c' e' /\ freach c' /\ In (H KV n e') (snd c').
Proof.
  intros Hn Hgd Ho HU Hrd Hr Hin. destruct (fop_completes n o f gd s hs Hr Hn Hgd Ho HU Hrd) as (Hcall & _ & Hrun & _).
  destruct (Hrun 0%nat) as (h & s1 & Hg). apply run_steps in Hg.
  assert (Hr1 : freach (s1, H KM n h :: hs)) by (eapply fr_step; [exact Hr|eapply fs_call; eauto]).
  assert (Hcall2 : fcall (H KM n h :: hs) KV n (mv_multiply h e)) by (apply f_mul; [now left|now right]).
  destruct (freach_Aok _ Hr1) as [HI1 Hh1]. cbn [fst snd] in *. destruct (fcall_s _ _ _ _ _ HI1 Hh1 Hcall2) as (_ & _ & Hwp).
  destruct (wpr_run_on 0%nat _ _ _ HI1 Hwp) as (e' & s2 & He & _). apply run_steps in He.
  exists (s2, H KV n e' :: H KM n h :: hs), e'. split; [econstructor; eauto|]. split; [eapply fr_step; [exact Hr1|eapply fs_call; eauto]|now left].
Qed.
(* a measurement reads 0 below some number and 1 from it on, or throws for every draw,
   or is undefined for some draw *)
Lemma mOC_shape n e q eps s hs : freach (s, hs) -> In (H KV n e) hs -> (q < n)%nat ->
  (exists th, measureOneCollapsing e (Z.of_nat q) eps th s = None) \/
  (exists s', forall th, measureOneCollapsing e (Z.of_nat q) eps th s = Some (Throw, s')) \/
  (exists y e0 s0 x1 s1, splits e q eps s y e0 s0 x1 s1 /\ freach (s0, H KV n e0 :: hs) /\ freach (s1, H KV n x1 :: hs)).
Proof.
  intros Hr Hin Hq. destruct (classic (exists th, measureOneCollapsing e (Z.of_nat q) eps th s = None)) as [Hn|Hn]; [now left|right].
  assert (Hd : forall th, measureOneCollapsing e (Z.of_nat q) eps th s <> None) by (intros th Hx; apply Hn; now exists th). clear Hn.
  assert (Hnt : is_term (en e) = false).
  { destruct (is_term (en e)) eqn:Ht; auto. exfalso. apply (Hd n0). apply mOC_term; [exact Ht|lia]. }
  assert (Hq' : qubit n (Z.of_nat q)) by (unfold qubit; lia).
  assert (Hfr : forall th b e' s', measureOneCollapsing e (Z.of_nat q) eps th s = Some (Ret (b, e'), s') -> freach (s', H KV n e' :: hs)).
  { intros th b e' s' M. eapply fr_step; [exact Hr|]. exact (fs_one s hs n e (Z.of_nat q) eps th _ s' Hin Hnt Hq' M). }
  unfold measureOneCollapsing in Hd, Hfr |- *. unfold splits. unfold measureOneCollapsing.
  destruct (detProbs e (Z.of_nat q) s) as [[[pz po] sd]|]; [|exfalso; now apply (Hd n0)].
  destruct (nltb eps (nabs (nsub (nadd pz po) n1))); [left; now exists sd|right].
  destruct (getVar KV (en e) sd) as [v|]; [|exfalso; now apply (Hd n0)].
  set (y := ndiv pz (nadd pz po)) in *.
  set (br := fun zero : bool => match run (makeGate (v + 1) (if zero then proj0 else proj1) (Z.of_nat q) []) sd with
    | None => None | Some (g, s2) => match run (mv_multiply g e) s2 with None => None
      | Some (e', s3) => Some (Ret (negb zero, E (cmul (ew e') (nsqrt (ndiv n1 (if zero then pz else po)), n0)) (en e')), s3) end end : option (outcome (bool * edge) * state)).
  assert (Hd' : forall th, br (nltb th y) <> None) by exact Hd. assert (Hfr' : forall th b e' s', br (nltb th y) = Some (Ret (b, e'), s') -> freach (s', H KV n e' :: hs)) by exact Hfr.
  assert (Hsh : forall z r, br z = Some r -> exists e' s', r = (Ret (negb z, e'), s')).
  { intros z r. unfold br. destruct (run (makeGate _ _ _ _) sd) as [[g s2]|]; [|discriminate]. destruct (run (mv_multiply g e) s2) as [[e' s3]|]; [|discriminate].
    intros M. injection M as <-. eauto. }
  assert (Hyy : nltb y y = false) by (destruct (nltb y y) eqn:Hx; auto; apply nr_lt in Hx; lra).
  destruct (br false) as [r1|] eqn:B1; [|exfalso; apply (Hd' y); now rewrite Hyy].
  destruct (Hsh false r1 B1) as (x1 & s1 & ->). cbn [negb] in B1.
  assert (F1 : freach (s1, H KV n x1 :: hs)) by (apply (Hfr' y true); now rewrite Hyy).
  destruct (classic (exists th, nltb th y = true)) as [[th0 Ht0]|Hno].
  - destruct (br true) as [r0|] eqn:B0; [|exfalso; apply (Hd' th0); now rewrite Ht0]. destruct (Hsh true r0 B0) as (e0 & s0 & ->). cbn [negb] in B0.
    exists y, e0, s0, x1, s1. split; [|split; [apply (Hfr' th0 false); now rewrite Ht0|exact F1]].
    intros th. change (br (nltb th y) = Some (if nltb th y then (Ret (false, e0), s0) else (Ret (true, x1), s1))). destruct (nltb th y); assumption.
  - exists y, x1, s1, x1, s1. split; [|split; exact F1].
    intros th. change (br (nltb th y) = Some (if nltb th y then (Ret (false, x1), s1) else (Ret (true, x1), s1))).
    destruct (nltb th y) eqn:Hx; [exfalso; apply Hno; now exists th|exact B1].
Qed.
Theorem flib_runs {A} gd eps n ncl (K : config -> list bool -> tree A -> Prop) : size_ok n -> (0 <= gd)%R -> (forall c cl, freach c -> exists T, K c cl T) ->
  forall l c e cl, BackendP.insts_ok n ncl l -> BackLink.lib_ok n l -> units l -> fits gd l -> freach c -> In (H KV n e) (snd c) ->
  exists T, flib gd eps n K l c e cl T.
Proof.
  intros Hn Hgd HK. induction l as [|x r IH]; intros [s hs] e cl Hi Hlo Hu Hf Hr Hin; cbn [snd] in *.
  - destruct (HK (s, hs) cl Hr) as [T HT]. exists T. now apply fl_nil.
  - assert (h1 : BackendP.insts_ok n ncl r) by (intros y Hy; apply Hi; now right). assert (h2 : BackLink.lib_ok n r) by (intros y g Hy; apply Hlo; now right).
    assert (h3 : units r) by (intros y g Hy; apply Hu; now right). assert (h4 : fits gd r) by (intros y g o Hy; apply Hf; now right).
    destruct (Backend.skip cl (Backend.cnd x)) eqn:Hsk.
    { destruct (IH (s, hs) e cl h1 h2 h3 h4 Hr Hin) as [T HT]. exists T. now apply fl_skip. }
    destruct (Hi x (or_introl eq_refl)) as [Hs _]. unfold BackSpec.supported in Hs.
    destruct (Backend.op x) as [g|q k|q|qs|qs|qs|qs] eqn:Hop; try contradiction.
    + destruct (iop_ok n g (Hlo x g (or_introl eq_refl) Hop) (Hu x g (or_introl eq_refl) Hop)) as (o & Ho1 & Ho2 & Ho3).
      destruct (Hf x g o (or_introl eq_refl) Hop Ho1) as [fo Hrd].
      destruct (fapply_runs n gd o fo s hs e Hn Hgd Ho2 Ho3 Hrd Hr Hin) as (c' & e' & Hap & Hr' & Hin').
      destruct (IH c' e' cl h1 h2 h3 h4 Hr' Hin') as [T HT]. exists T. eapply fl_gate; eauto.
    + destruct (mOC_shape n e q eps s hs Hr Hin (Logic.proj1 Hs)) as [[th Hth]|[[s' Hth]|(y & e0 & s0 & x1 & s1 & Hsp & F0 & F1)]].
      * exists Raise. eapply fl_lost; [exact Hsk|right; eauto|exact Hth|exact Logic.I].
      * exists Raise. eapply fl_throw; [exact Hsk|right; eauto|exact Hth].
      * destruct (IH _ e0 (Backend.upd cl k false) h1 h2 h3 h4 F0 (or_introl eq_refl)) as [T0 HT0]. destruct (IH _ x1 (Backend.upd cl k true) h1 h2 h3 h4 F1 (or_introl eq_refl)) as [T1 HT1].
        eexists. eapply fl_measure; eauto.
    + destruct (mOC_shape n e q eps s hs Hr Hin Hs) as [[th Hth]|[[s' Hth]|(y & e0 & s0 & x1 & s1 & Hsp & F0 & F1)]].
      * exists Raise. eapply fl_lost; [exact Hsk|left; eauto|exact Hth|exact Logic.I].
      * exists Raise. eapply fl_throw; [exact Hsk|left; eauto|exact Hth].
      * destruct (X_ok n q Hs) as [HX1 HX2].
        destruct (fapply_runs n gd _ _ s1 _ x1 Hn Hgd HX1 HX2 (Xmat_rounds gd q Hgd) F1 (or_introl eq_refl)) as (c' & e' & Hap & Hr' & Hin').
        destruct (IH _ e0 cl h1 h2 h3 h4 F0 (or_introl eq_refl)) as [T0 HT0]. destruct (IH c' e' cl h1 h2 h3 h4 Hr' Hin') as [T1 HT1].
        eexists. eapply fl_reset; eauto.
    + destruct (IH (s, hs) e cl h1 h2 h3 h4 Hr Hin) as [T HT]. exists T. eapply fl_barrier; eauto.
Qed.

(* ---- all shots of a circuit that is simulated again for each (700-968) ---- *)
Inductive fsteps : config -> config -> Prop :=
| fss_refl c : fsteps c c
| fss_step c c' c'' : fstep c c' -> fsteps c' c'' -> fsteps c c''.
Lemma fsteps_reach c c' : fsteps c c' -> freach c -> freach c'.
Proof. intros Hs. induction Hs as [c|c c' c'' Hs Hss IH]; intros Hr; auto. apply IH. eapply fr_step; eauto. Qed.
(* acc: the strings of the previous shots, newest first *)
Fixpoint fshots (gd : R) (eps : num) (c0 : Backend.circ) (k : nat) (acc : list (list bool)) (c : config) (T : tree (list (list bool))) : Prop :=
  match k with
  | O => T = Leaf (rev acc)
  | S j => exists s hs e s', fsteps c (s, hs) /\ steps (Cfg_ok (makeZeroState (Backend.nq c0)) s) (Cfg_ok (CRet e) s') /\
      flib gd eps (Backend.nq c0) (fun c' cl T' => fshots gd eps c0 j (rev cl :: acc) c' T') (Backend.data c0)
        (s', H KV (Backend.nq c0) e :: hs) e (repeat false (Backend.nc c0)) T
  end.
Lemma Ex_replicate {A} k (t : tree A) g : Ex (Backend.replicate (S k) t) g = Ex t (fun a => Ex (Backend.replicate k t) (fun l => g (a :: l))).
Proof. cbn [Backend.replicate]. rewrite BackendP.Ex_bind. apply BackendP.Ex_ext. intros a. rewrite BackendP.Ex_bind. apply BackendP.Ex_ext. intros l. reflexivity. Qed.
Lemma bind_okt {A B} (t : tree A) (k : A -> tree B) : okt t -> (forall a, okt (k a)) -> okt (Backend.bind t k).
Proof. intros Ht Hk. induction t as [a| |p f IH]; cbn [Backend.bind okt] in *; auto. destruct Ht as [Hp Hf]. split; [exact Hp|]. intros b. now apply IH. Qed.
Lemma replicate_okt {A} k (t : tree A) : okt t -> okt (Backend.replicate k t).
Proof. intros Ht. induction k as [|k IH]; cbn [Backend.replicate]; [exact Logic.I|]. apply bind_okt; auto. intros a. apply bind_okt; auto. intros l. exact Logic.I. Qed.
Lemma shot_okt ep c : okt (Backend.shot_unstable ep c).
Proof. unfold Backend.shot_unstable. apply bind_okt; [apply exec_okt|]. intros [[v cl] log]. exact Logic.I. Qed.
Lemma fshots_okt gd eps c0 k : forall acc c T, fshots gd eps c0 k acc c T -> okt T.
Proof.
  induction k as [|k IH]; intros acc c T HT; cbn [fshots] in HT; [now rewrite HT|].
  destruct HT as (s & hs & e & s' & _ & _ & HT). eapply flib_okt; [|exact HT]. intros c' cl T' HK. cbv beta in HK. eapply IH; exact HK.
Qed.
Lemma shot_Ex ep c g : Ex (Backend.shot_unstable ep c) g =
  Ex (Backend.exec ep (Backend.nq c) false (Backend.data c) (basis 0) (repeat false (Backend.nc c)) []) (fun x => g (rev (snd (fst x)))).
Proof. unfold Backend.shot_unstable. rewrite BackendP.Ex_bind. apply BackendP.Ex_ext. intros [[v cl] log]. reflexivity. Qed.
Lemma fshots_sound gd eps c0 : let n := Backend.nq c0 in size_ok n -> good_sqrt -> (0 <= gd)%R -> (0 < nr eps)%R -> (e1 n <= 1 / 10)%R ->
  BackendP.insts_ok n (Backend.nc c0) (Backend.data c0) -> BackLink.lib_ok n (Backend.data c0) -> units (Backend.data c0) ->
  forall k acc c T g, (forall l, 0 <= g l <= 1)%R -> freach c -> fshots gd eps c0 k acc c T ->
  (Rabs (Ex T g - Ex (Backend.replicate k (Backend.shot_unstable (nr eps) c0)) (fun l => g (rev acc ++ l))) <= INR k * eA n gd (nr eps) (Backend.data c0))%R.
Proof.
  intros n Hn HS Hgd Hep He Hi Hlo Hu. induction k as [|k IH]; intros acc c T g Hg Hr HT.
  - cbn [fshots] in HT. subst T. cbn [Backend.replicate BackSpec.Ex]. rewrite app_nil_r. replace (g (rev acc) - g (rev acc))%R with 0%R by ring. rewrite Rabs_R0, Rmult_0_l. lra.
  - destruct HT as (s & hs & e & s' & Hss & Hz & HT). fold n in Hz, HT. pose proof (fsteps_reach _ _ Hss Hr) as Hr0.
    destruct (C67_zero_state s hs n Hr0 Hn) as (_ & _ & Hret). specialize (Hret e s' Hz).
    assert (Hr1 : freach (s', H KV n e :: hs)) by (eapply fr_step; [exact Hr0|eapply fs_call; [apply f_zero; exact Hn|exact Hz]]).
    set (G := fun cl : list bool => Ex (Backend.replicate k (Backend.shot_unstable (nr eps) c0)) (fun l => g (rev acc ++ rev cl :: l))).
    pose proof (eA_pos n gd (nr eps) (Backend.data c0) Hep Hgd) as HA. pose proof (pos_INR k) as Hk.
    assert (HW : within gd eps n g G (INR k * eA n gd (nr eps) (Backend.data c0)) (Backend.data c0) T (basis 0) (repeat false (Backend.nc c0)) [] 0).
    { eapply (flib_sound gd eps n (Backend.nc c0) _ g G); [exact Hn|exact HS|exact Hgd|exact Hep|exact He|now apply Rmult_le_pos|exact Hg| | | |exact HT|exact Hi|exact Hlo|exact Hu|exact Hr1|now left|apply BackendP.norm_basis0|].
      - intros cl. apply okt_Ex; [apply replicate_okt, shot_okt|]. intros l. apply Hg.
      - intros c' cl T' HK. eapply fshots_okt; exact HK.
      - intros c' cl T' Hc' HK. specialize (IH (rev cl :: acc) c' T' g Hg Hc' HK). unfold G. cbn [rev] in IH.
        rewrite (BackendP.Ex_ext (Backend.replicate k (Backend.shot_unstable (nr eps) c0)) (fun l => g (rev acc ++ rev cl :: l)) (fun l => g ((rev acc ++ [rev cl]) ++ l))); [exact IH|]. intros l. now rewrite <- app_assoc.
      - cbn [fst]. rewrite (dist_veq _ _ _ _ Hret). unfold dist. rewrite (l2_ext _ _ (fun _ => RtoC 0)) by (intros; ring). unfold l2.
        rewrite (rsum_ext' _ _ (fun _ => 0%R)) by (intros; rewrite Cmod_0; ring). rewrite rsum_const, Rmult_0_r, sqrt_0. lra. }
    unfold within in HW. rewrite Ex_replicate, shot_Ex. rewrite S_INR. eapply Rle_trans; [exact HW|]. lra.
Qed.
Lemma fshots_runs gd eps c0 : let n := Backend.nq c0 in size_ok n -> (0 <= gd)%R ->
  BackendP.insts_ok n (Backend.nc c0) (Backend.data c0) -> BackLink.lib_ok n (Backend.data c0) -> units (Backend.data c0) -> fits gd (Backend.data c0) ->
  forall k acc c, freach c -> exists T, fshots gd eps c0 k acc c T.
Proof.
  intros n Hn Hgd Hi Hlo Hu Hf. induction k as [|k IH]; intros acc [s hs] Hr; [eexists; reflexivity|].
  destruct (C67_zero_state s hs n Hr Hn) as (_ & Hrun & _). destruct (Hrun 0%nat) as (e & s' & Hz). apply run_steps in Hz.
  assert (Hr1 : freach (s', H KV n e :: hs)) by (eapply fr_step; [exact Hr|eapply fs_call; [apply f_zero; exact Hn|exact Hz]]).
  destruct (flib_runs gd eps n (Backend.nc c0) (fun c' cl T' => fshots gd eps c0 k (rev cl :: acc) c' T') Hn Hgd) with (l := Backend.data c0) (c := (s', H KV n e :: hs)) (e := e) (cl := repeat false (Backend.nc c0)) as [T HT]; auto.
  - now left.
  - exists T. cbn [fshots]. exists s, hs, e, s'. split; [constructor|]. split; [exact Hz|exact HT].
Qed.

(* ---- C70, circuits whose shots are simulated one by one ---- *)
(* probability of a set of result lists *)
Definition chance {A} (t : tree A) (P : A -> bool) : R := Ex t (fun a => if P a then 1%R else 0%R).
Definition counted (P : list (list bool) -> bool) (r : Backend.rdata) : bool := match r with Backend.Counts l => P l | Backend.Probs _ => false end.
(* the circuit's instructions: gates of the tables with unitary matrices, measurements, resets,
   barriers; conditions on one bit or on the register *)
Definition circuit_ok (c0 : Backend.circ) : Prop :=
  size_ok (Backend.nq c0) /\ BackendP.insts_ok (Backend.nq c0) (Backend.nc c0) (Backend.data c0) /\ BackLink.lib_ok (Backend.nq c0) (Backend.data c0) /\ units (Backend.data c0).
Lemma b01 (b : bool) : (0 <= (if b then 1 else 0) <= 1)%R.
Proof. destruct b; lra. Qed.
Theorem C70_resimulated gd eps c0 p z c T : circuit_ok c0 -> Backend.stable_final_state p = false -> (0 < z)%Z ->
  good_sqrt -> (0 <= gd)%R -> (0 < nr eps)%R -> (e1 (Backend.nq c0) <= 1 / 10)%R -> freach c -> fshots gd eps c0 (Z.to_nat z) [] c T ->
  let err := (IZR z * eA (Backend.nq c0) gd (nr eps) (Backend.data c0))%R in
  (forall P, (Rabs (chance T P - chance (Backend.evaluate (nr eps) c0 p (Some z)) (counted P)) <= err)%R) /\
  (forall L, (Rabs (Ex T (fun l => if list_eq_dec BackSpec.str_dec l L then 1 else 0) -
      (if (length L =? Z.to_nat z)%nat then BackendP.prodR (map (fun s => BackSpec.dist c0 (rev s)) L) else 0)) <= err)%R).
Proof.
  intros (Hn & Hi & Hlo & Hu) Hst Hz HS Hgd Hep He Hr HT err.
  assert (Hm : forall g, (forall l, 0 <= g l <= 1)%R -> (Rabs (Ex T g - Ex (Backend.replicate (Z.to_nat z) (Backend.shot_unstable (nr eps) c0)) g) <= err)%R).
  { intros g Hg. pose proof (fshots_sound gd eps c0 Hn HS Hgd Hep He Hi Hlo Hu (Z.to_nat z) [] c T g Hg Hr HT) as Hx. cbn [rev app] in Hx.
    unfold err. replace (IZR z) with (INR (Z.to_nat z)); [exact Hx|]. rewrite INR_IZR_INZ, Z2Nat.id by lia. reflexivity. }
  split.
  - intros P. unfold chance, Backend.evaluate. rewrite Hst. replace (z <=? 0)%Z with false by (symmetry; apply Z.leb_gt; lia).
    rewrite BackendP.Ex_bind. cbn [BackSpec.Ex counted]. apply Hm. intros l. apply b01.
  - intros L. specialize (Hm (fun l => if list_eq_dec BackSpec.str_dec l L then 1%R else 0%R)). rewrite BackendP.replicate_prob in Hm.
    replace (map (fun s => BackSpec.dist c0 (rev s)) L) with (map (BackSpec.Prob BackSpec.str_dec (Backend.shot_unstable (nr eps) c0)) L); [apply Hm; intros l; destruct (list_eq_dec _ _ _); lra|].
    apply map_ext. intros s. rewrite <- (BackendP.shot_unstable_dist (nr eps) c0 (Rlt_le _ _ Hep) Hi (rev s)), rev_involutive. reflexivity.
Qed.
(* the shots can be executed, whatever happened before *)
Theorem C70_resimulated_runs gd eps c0 k c : circuit_ok c0 -> (0 <= gd)%R -> fits gd (Backend.data c0) -> freach c -> exists T, fshots gd eps c0 k [] c T.
Proof. intros (Hn & Hi & Hlo & Hu) Hgd Hf Hr. now apply fshots_runs. Qed.
End FpBack.
