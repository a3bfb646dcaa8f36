(* BackLink.v -- the Qiskit backend on the library: the loop of qdd_backend.py
   (Backend.v) executed with the calls of the decision-diagram engine (Api.v,
   Prog.v) instead of their ideal effects.  With exact comparison, every execution
   of the loop -- any build, hash functions, cache contents, evictions, collections
   and schedule of the fibers -- returns what Backend.v says for the same draws,
   and there is one. *)
From Coq Require Import Reals Lra Psatz ZArith Bool List Lia Arith.
From Coquelicot Require Import Complex.
From Verif Require Import Num State DD Gates GC Measure Api RNum Wf Sums Err Inv Wp Make Add MulV Canon MM MM2
  GateP StateP Kron Spec SpecP Readout GCP MeasureP MeasAllP MeasOneP ApplyP ApiP Obs Props1 Props2 Prog LargeP
  Backend BackSpec BackendP BackendQ BackendX.
Import ListNotations.
Open Scope nat_scope.

(* the call that builds a gate: makeGate (770-776), makeTwoQubitGate (824-830);
   UnitaryGate and QDDGate are not covered here (C25, C40) *)
Definition ctl_ids (qs : list nat) : ctls := ctl_of (fun q => q) qs.
Definition ginstr (n : nat) (g : gop) : option instr :=
  match g with
  | G1 g qs => Some (P_gate n g (Z.of_nat (last qs 0)) (ctl_ids (removelast qs)))
  | G2 g qs => Some (P_gate2 n g (Z.of_nat (nth (length qs - 1) qs 0)) (Z.of_nat (nth (length qs - 2) qs 0)) (ctl_ids (firstn (length qs - 2) qs)))
  | GU _ _ | GQ _ _ => None
  end.
Definition gate_lib (n : nat) (g : gop) : Prop :=
  match g with
  | G1 _ qs => 1 <= length qs /\ NoDup qs /\ (forall q, In q qs -> q < n)
  | G2 _ qs => 2 <= length qs /\ NoDup qs /\ (forall q, In q qs -> q < n)
  | GU _ _ | GQ _ _ => False
  end.
Definition lib_ok (n : nat) (l : list inst) : Prop := forall x g, In x l -> op x = BGate g -> gate_lib n g.

Section Link.
Context (tau : R) {HTol : Tol tau}.
Let Htau : (0 <= tau < 1 / 2)%R := tol_ok.
#[local] Hint Extern 0 NumOps => exact (RNum tau) : typeclass_instances.
Context {CF : Cfg}.
Notation state := (@state (RNum tau)).
Notation handle := (@handle (RNum tau)).
Notation config := (state * list handle)%type.
Notation exec1 := (exec1 tau).
Notation silent := (silent tau).
Notation holds := (holds tau).

(* between two calls: collections, evictions, other reads (Prog.silent), and
   handles other than the newest, which is `current`, may be forgotten *)
Inductive quiet : config -> config -> Prop :=
| q_refl c : quiet c c
| q_silent c c' c'' : silent c c' -> quiet c' c'' -> quiet c c''.
Inductive idle : config -> config -> Prop :=
| id_refl c : idle c c
| id_silent c c' c'' : silent c c' -> idle c' c'' -> idle c c''
| id_forget s h hs hs' c : incl hs' hs -> idle (s, h :: hs') c -> idle (s, h :: hs) c.
(* a gate is built, then multiplied *)
Definition lib_gate (i : instr) (c c' : config) : Prop :=
  exists c1 c2, exec1 i c c1 [] /\ quiet c1 c2 /\ exec1 (P_mul 0 1) c2 c' [].
Section Loop.
Context (eps : R) (n : nat) (stable : bool).
(* 712-965, one pass over the instructions: configuration, val_cbit and draws
   before and after *)
Inductive lib : list inst -> config -> list bool -> list R -> config -> list bool -> list R -> Prop :=
| lb_nil c cl ths : lib [] c cl ths c cl ths
| lb_idle l c0 c cl ths c' cl' ths' : idle c0 c -> lib l c cl ths c' cl' ths' -> lib l c0 cl ths c' cl' ths'
| lb_skip x r c cl ths c' cl' ths' : skip cl (cnd x) = true -> lib r c cl ths c' cl' ths' -> lib (x :: r) c cl ths c' cl' ths'
| lb_barrier x qs r c cl ths c' cl' ths' : skip cl (cnd x) = false -> op x = BBarrier qs ->
    lib r c cl ths c' cl' ths' -> lib (x :: r) c cl ths c' cl' ths'
| lb_gate x g i r c c1 cl ths c' cl' ths' : skip cl (cnd x) = false -> op x = BGate g -> ginstr n g = Some i ->
    lib_gate i c c1 -> lib r c1 cl ths c' cl' ths' -> lib (x :: r) c cl ths c' cl' ths'
| lb_stable x q k r c cl ths c' cl' ths' : skip cl (cnd x) = false -> op x = BMeasure q k -> stable = true ->
    lib r c cl ths c' cl' ths' -> lib (x :: r) c cl ths c' cl' ths'
| lb_measure x q k r c th z c1 cl ths c' cl' ths' : skip cl (cnd x) = false -> op x = BMeasure q k -> stable = false ->
    exec1 (P_measure1 0 (Z.of_nat q) eps th) c c1 [z] -> lib r c1 (upd cl k z) ths c' cl' ths' -> lib (x :: r) c cl (th :: ths) c' cl' ths'
| lb_reset0 x q r c th c1 cl ths c' cl' ths' : skip cl (cnd x) = false -> op x = BReset q -> stable = false ->
    exec1 (P_measure1 0 (Z.of_nat q) eps th) c c1 [false] -> lib r c1 cl ths c' cl' ths' -> lib (x :: r) c cl (th :: ths) c' cl' ths'
| lb_reset1 x q r c th c1 c2 c3 cl ths c' cl' ths' : skip cl (cnd x) = false -> op x = BReset q -> stable = false ->
    exec1 (P_measure1 0 (Z.of_nat q) eps th) c c1 [true] -> quiet c1 c2 -> lib_gate (P_gate n X (Z.of_nat q) []) c2 c3 ->
    lib r c3 cl ths c' cl' ths' -> lib (x :: r) c cl (th :: ths) c' cl' ths'.
End Loop.

(* the newest handle reads v *)
Definition cur (c : config) (n : nat) (v : vector) : Prop :=
  reachable c /\ exists env, Forall2 (holds (fst c)) (snd c) (IV n v :: env).
Definition good (c : config) : Prop := reachable c /\ exists env, Forall2 (holds (fst c)) (snd c) env.
Lemma cur_good c n v : cur c n v -> good c.
Proof. intros (Hr & env & H). split; eauto. Qed.
Hypothesis H0 : tau = 0%R.
Lemma good_quiet c c' env : quiet c c' -> reachable c -> Forall2 (holds (fst c)) (snd c) env -> reachable c' /\ Forall2 (holds (fst c')) (snd c') env.
Proof.
  intros Hq. induction Hq as [c|c c' c'' Hs Hq IH]; intros Hr HF; [auto|].
  destruct c as [s hs], c' as [s' hs']. cbn [fst snd] in *. destruct (silent_ok tau s hs s' hs' env H0 Hr HF Hs). auto.
Qed.
Lemma forget_env s hs hs' env : incl hs' hs -> Forall2 (holds s) hs env -> exists env', Forall2 (holds s) hs' env'.
Proof.
  intros Hi HF. induction hs' as [|h hs' IH]; [exists []; constructor|].
  destruct IH as (env' & IH); [intros x Hx; apply Hi; now right|]. assert (Hh : In h hs) by (apply Hi; now left).
  apply In_nth_error in Hh as (k & Hk). clear -HF Hk IH. revert k Hk. induction HF as [|a b l l' Hab HF IH2]; intros [|k] Hk; try discriminate; cbn in Hk.
  - injection Hk as ->. exists (b :: env'). constructor; auto.
  - eapply IH2; eauto.
Qed.
Lemma cur_idle c c' n v : idle c c' -> cur c n v -> cur c' n v.
Proof.
  intros Hq. induction Hq as [c|c c' c'' Hs Hq IH|s h hs hs' c Hi Hq IH]; intros Hc; auto; apply IH; destruct Hc as (Hr & env & HF).
  - destruct c as [s hs], c' as [s' hs']. cbn [fst snd] in *. destruct (silent_ok tau s hs s' hs' _ H0 Hr HF Hs). split; eauto.
  - cbn [fst snd] in HF. inversion HF as [|a b l l' Hab HF']; subst. split.
    + eapply r_step; [exact Hr|]. apply a_drop. intros x [<-|Hx]; [now left|right; now apply Hi].
    + destruct (forget_env s hs hs' env Hi HF') as (env' & HF2). exists env'. cbn. constructor; auto.
Qed.
Lemma exec1_cur x c c' env m w o o' : reachable c -> Forall2 (holds (fst c)) (snd c) env -> isem x env (IV m w) o -> exec1 x c c' o' ->
  o' = o /\ cur c' m w.
Proof.
  intros Hr HF Hs Hx. destruct c as [s hs], c' as [s' hs']. cbn [fst snd] in *.
  destruct (exec1_ok tau x s hs s' hs' env _ o o' H0 Hr HF Hs Hx) as (-> & Hr' & HF'). split; [reflexivity|]. split; [exact Hr'|eauto].
Qed.
Lemma exec1_env x c c' env r o o' : reachable c -> Forall2 (holds (fst c)) (snd c) env -> isem x env r o -> exec1 x c c' o' ->
  o' = o /\ reachable c' /\ Forall2 (holds (fst c')) (snd c') (r :: env).
Proof.
  intros Hr HF Hs Hx. destruct c as [s hs], c' as [s' hs']. exact (exec1_ok tau x s hs s' hs' env _ o o' H0 Hr HF Hs Hx).
Qed.
Lemma exec1_exists x c env r o : reachable c -> Forall2 (holds (fst c)) (snd c) env -> isem x env r o -> exists c', exec1 x c c' o.
Proof. intros Hr HF Hs. destruct c as [s hs]. apply (exec1_can tau x s hs env r o H0 Hr HF Hs). Qed.
(* the ideal meaning of a gate instruction *)
Definition gmeans (n : nat) (i : instr) (A : matrix) : Prop := forall env, isem i env (IM n A) [].
Lemma lib_gate_cur n i A c c' v : gmeans n i A -> cur c n v -> lib_gate i c c' -> cur c' n (mv n A v).
Proof.
  intros Hg (Hr & env & HF) (c1 & c2 & H1 & H2 & H3).
  destruct (exec1_env i c c1 _ _ _ _ Hr HF (Hg _) H1) as (_ & Hr1 & HF1).
  destruct (good_quiet c1 c2 _ H2 Hr1 HF1) as (Hr2 & HF2).
  refine (Logic.proj2 (exec1_cur (P_mul 0 1) c2 c' _ n (mv n A v) [] [] Hr2 HF2 _ H3)).
  exists n, A, v. cbn. auto.
Qed.
Lemma lib_gate_exists n i A c v : gmeans n i A -> cur c n v -> exists c', lib_gate i c c'.
Proof.
  intros Hg (Hr & env & HF). destruct (exec1_exists i c _ _ _ Hr HF (Hg _)) as (c1 & H1).
  destruct (exec1_env i c c1 _ _ _ _ Hr HF (Hg _) H1) as (_ & Hr1 & HF1).
  destruct (exec1_exists (P_mul 0 1) c1 _ (IV n (mv n A v)) [] Hr1 HF1) as (c2 & H2); [exists n, A, v; cbn; auto|].
  exists c2, c1, c1. split; [exact H1|]. split; [constructor|exact H2].
Qed.
Lemma ctl_ids_ok n qs T : NoDup qs -> (forall q, In q qs -> q < n) -> (forall q t, In q qs -> In t T -> q <> t) ->
  controls_ok n (map Z.of_nat T) (ctl_ids qs).
Proof.
  intros Hn Hq Ht. split.
  - unfold ctl_ids, ctl_of. rewrite map_map. cbn. apply FinFun.Injective_map_NoDup; auto. intros a b E. lia.
  - intros x Hx. unfold ctl_ids, ctl_of in Hx. apply in_map_iff in Hx as (q & <- & Hi). cbn [fst]. split.
    + unfold qubit. specialize (Hq q Hi). lia.
    + intros Hi'. apply in_map_iff in Hi' as (t & E & Hi'). apply (Ht q t Hi Hi'). lia.
Qed.
Lemma ginstr_means n g i : size_ok n -> gate_lib n g -> ginstr n g = Some i -> gmeans n i (gate_mat n (fun q => q) g).
Proof.
  intros Hs Hg Hi env. destruct g as [g qs|g qs|g qs|A qs]; cbn in Hg, Hi; try discriminate; destruct Hg as (Hl & Hnd & Hlt); injection Hi as <-; cbn [isem gate_mat].
  - destruct (@exists_last _ qs) as (q0 & t & ->); [destruct qs; [cbn in Hl; lia|discriminate]|].
    rewrite last_last, removelast_last. assert (Ht : t < n) by (apply Hlt, in_or_app; right; now left).
    apply NoDup_remove in Hnd as [Hn1 Hn2]. rewrite app_nil_r in *.
    split; [exact Hs|]. split; [unfold qubit; lia|]. split; [|rewrite Nat2Z.id; auto].
    apply (ctl_ids_ok n q0 [t]); auto; [intros; apply Hlt, in_or_app; now left|]. intros q t' Hq [<-|[]] ->. auto.
  - destruct (@exists_last _ qs) as (q1 & t & ->); [destruct qs; [cbn in Hl; lia|discriminate]|].
    destruct (@exists_last _ q1) as (q0 & u & ->); [destruct q1; [cbn in Hl; lia|discriminate]|].
    rewrite <- app_assoc in *. cbn [app] in *. rewrite app_length. cbn [length].
    replace (length q0 + 2 - 1) with (length q0 + 1) by lia. replace (length q0 + 2 - 2) with (length q0 + 0) by lia.
    rewrite !app_nth2_plus. cbn [nth]. rewrite firstn_app_2. cbn [firstn]. rewrite app_nil_r.
    assert (Ht : t < n) by (apply Hlt, in_or_app; right; right; now left). assert (Hu : u < n) by (apply Hlt, in_or_app; right; now left).
    apply NoDup_remove in Hnd as [Hn1 Hn2]. apply NoDup_remove in Hn1 as [Hn3 Hn4]. rewrite app_nil_r in *.
    split; [exact Hs|]. split; [unfold qubit; lia|]. split; [unfold qubit; lia|]. split.
    { intros E. apply Hn2. apply in_or_app. right. left. lia. }
    split; [|rewrite !Nat2Z.id; auto].
    apply (ctl_ids_ok n q0 [t; u]); auto; [intros; apply Hlt, in_or_app; now left|].
    intros q t' Hq [<-|[<-|[]]] ->; [auto|]. apply Hn2, in_or_app. now left.
Qed.
Lemma x_means n q : size_ok n -> q < n -> gmeans n (P_gate n X (Z.of_nat q) []) (gate1 n X q []).
Proof.
  intros Hs Hq env. cbn [isem]. split; [exact Hs|]. split; [unfold qubit; lia|]. split; [split; [constructor|intros x []]|].
  rewrite Nat2Z.id. auto.
Qed.
Lemma norm1_nonzero n v : norm2v n v = 1%R -> nonzero_v n v.
Proof.
  intros Hv. destruct (Classical_Prop.classic (nonzero_v n v)) as [h|h]; auto. exfalso.
  assert (norm2v n v = 0%R); [|lra]. unfold norm2v. apply rsum_0. intros i Hi.
  destruct (Ceq_dec (v i) (RtoC 0)) as [->|Hne]; [rewrite Cmod_0; ring|]. exfalso. apply h. exists i. auto.
Qed.
(* one collapsing measurement *)
Definition collapsed (n q : nat) (v : vector) (z : bool) : vector :=
  fun i => Cdiv (project q (b2n z) v i) (RtoC (sqrt (probq n v q (b2n z)))).
Definition outcome (n q : nat) (v : vector) (th : R) : bool := if Rlt_dec th (probq n v q 0 / norm2v n v) then false else true.
Lemma measure_isem n q v eps th env : (0 <= eps)%R -> q < n -> norm2v n v = 1%R -> (0 <= th < 1)%R ->
  isem (P_measure1 0 (Z.of_nat q) eps th) (IV n v :: env) (IV n (collapsed n q v (outcome n q v th))) [outcome n q v th].
Proof.
  intros He Hq Hv Hth. exists n, v, (outcome n q v th). cbn zeta. rewrite Nat2Z.id. split; [reflexivity|].
  split; [now apply norm1_nonzero|]. split; [unfold qubit; lia|]. split; [exact Hth|]. split.
  { rewrite Hv. rewrite Rminus_diag_eq by reflexivity. rewrite Rabs_R0. exact He. }
  split; [unfold outcome; destruct (Rlt_dec _ _); split; auto; try discriminate; try contradiction|].
  split; reflexivity.
Qed.
Lemma outcome_norm n q v th : norm2v n v = 1%R -> (0 <= th < 1)%R -> norm2v n (collapsed n q v (outcome n q v th)) = 1%R.
Proof.
  intros Hv Hth. apply norm_collapse. unfold outcome. rewrite Hv.
  assert (Hsum : (probq n v q 0 + probq n v q 1 = 1)%R).
  { rewrite <- Hv. unfold probq, norm2v. rewrite <- rsum_add. apply rsum_ext'. intros i Hi.
    destruct (bit_01 i q) as [E|E]; rewrite E; cbn [Nat.eqb]; ring. }
  destruct (Rlt_dec th (probq n v q 0 / 1)) as [h|h]; cbn [b2n]; lra.
Qed.
Lemma run_meas1 {A} eps n q v (k : bool -> vector -> tree A) th ths : (0 <= eps)%R -> norm2v n v = 1%R ->
  run (meas1 eps n q v k) (th :: ths) = run (k (outcome n q v th) (collapsed n q v (outcome n q v th))) ths.
Proof.
  intros He Hv. unfold meas1. destruct (Rlt_dec eps (Rabs (norm2v n v - 1))) as [h|h].
  - exfalso. rewrite Hv in h. rewrite Rminus_diag_eq, Rabs_R0 in h by reflexivity. lra.
  - cbn [run]. unfold outcome, collapsed. destruct (Rlt_dec th (probq n v q 0 / norm2v n v)); reflexivity.
Qed.

(* every execution of the loop on the library is the run of Backend.v on the same
   draws *)
Lemma lib_sound eps n ncl stable l c cl ths c' cl' ths' : (0 <= eps)%R -> size_ok n ->
  lib eps n stable l c cl ths c' cl' ths' -> forall v log, insts_ok n ncl l -> lib_ok n l -> norm2v n v = 1%R ->
  (forall x, In x ths -> (0 <= x < 1)%R) -> cur c n v ->
  exists v' log', run (Backend.exec eps n stable l v cl log) ths = Some (Some (v', cl', log'), ths') /\ cur c' n v' /\ norm2v n v' = 1%R.
Proof.
  intros He Hs Hl. induction Hl as [c cl ths|l c0 c cl ths c' cl' ths' Hid Hl IH|x r c cl ths c' cl' ths' Hsk Hl IH
    |x qs r c cl ths c' cl' ths' Hsk Hop Hl IH|x g i r c c1 cl ths c' cl' ths' Hsk Hop Hgi Hg Hl IH
    |x q k r c cl ths c' cl' ths' Hsk Hop Hst Hl IH|x q k r c th z c1 cl ths c' cl' ths' Hsk Hop Hst Hm Hl IH
    |x q r c th c1 cl ths c' cl' ths' Hsk Hop Hst Hm Hl IH|x q r c th c1 c2 c3 cl ths c' cl' ths' Hsk Hop Hst Hm Hq Hg Hl IH];
    intros v log Hok Hlo Hv Hu Hc.
  - exists v, log. cbn. auto.
  - apply IH; auto. eapply cur_idle; eauto.
  - cbn [Backend.exec]. rewrite Hsk. apply IH; auto; [intros y Hy; apply Hok; now right|intros y g Hy; apply Hlo; now right].
  - cbn [Backend.exec]. rewrite Hsk, Hop. apply IH; auto; [intros y Hy; apply Hok; now right|intros y g Hy; apply Hlo; now right].
  - cbn [Backend.exec]. rewrite Hsk, Hop. apply IH; auto; [intros y Hy; apply Hok; now right|intros y g' Hy; apply Hlo; now right| |].
    + rewrite unitary_norm; auto. destruct (Hok x (or_introl eq_refl)) as [Hx _]. unfold supported in Hx. now rewrite Hop in Hx.
    + eapply lib_gate_cur; [|exact Hc|exact Hg]. apply (ginstr_means n g i); auto. apply (Hlo x g); auto. now left.
  - cbn [Backend.exec]. rewrite Hsk, Hop, Hst. rewrite Hst in IH. apply IH; auto; [intros y Hy; apply Hok; now right|intros y g Hy; apply Hlo; now right].
  - assert (Hth : (0 <= th < 1)%R) by (apply Hu; now left).
    destruct (Hok x (or_introl eq_refl)) as [Hx _]. unfold supported in Hx. rewrite Hop in Hx. destruct Hx as [Hqn _].
    cbn [Backend.exec]. rewrite Hsk, Hop, Hst, run_meas1 by auto. rewrite Hst in IH. destruct Hc as (Hr & env & HF).
    destruct (exec1_cur _ c c1 _ _ _ _ _ Hr HF (measure_isem n q v eps th env He Hqn Hv Hth) Hm) as (E & Hc1).
    injection E as ->. apply IH; auto; [intros y Hy; apply Hok; now right|intros y g Hy; apply Hlo; now right|now apply outcome_norm|].
    intros y Hy. apply Hu. now right.
  - assert (Hth : (0 <= th < 1)%R) by (apply Hu; now left).
    destruct (Hok x (or_introl eq_refl)) as [Hx _]. unfold supported in Hx. rewrite Hop in Hx.
    cbn [Backend.exec]. rewrite Hsk, Hop, Hst, run_meas1 by auto. rewrite Hst in IH. destruct Hc as (Hr & env & HF).
    destruct (exec1_cur _ c c1 _ _ _ _ _ Hr HF (measure_isem n q v eps th env He Hx Hv Hth) Hm) as (E & Hc1).
    injection E as E. pose proof (outcome_norm n q v th Hv Hth) as Hno. rewrite <- E in Hc1, Hno |- *.
    apply IH; auto; [intros y Hy; apply Hok; now right|intros y g Hy; apply Hlo; now right|].
    intros y Hy. apply Hu. now right.
  - assert (Hth : (0 <= th < 1)%R) by (apply Hu; now left).
    destruct (Hok x (or_introl eq_refl)) as [Hx _]. unfold supported in Hx. rewrite Hop in Hx.
    cbn [Backend.exec]. rewrite Hsk, Hop, Hst, run_meas1 by auto. rewrite Hst in IH. destruct Hc as (Hr & env & HF).
    destruct (exec1_env _ c c1 _ _ _ _ Hr HF (measure_isem n q v eps th env He Hx Hv Hth) Hm) as (E & Hr1 & HF1).
    injection E as E. pose proof (outcome_norm n q v th Hv Hth) as Hno. rewrite <- E in HF1, Hno |- *.
    destruct (good_quiet c1 c2 _ Hq Hr1 HF1) as (Hr2 & HF2).
    apply IH; auto; [intros y Hy; apply Hok; now right|intros y g Hy; apply Hlo; now right| | |].
    + rewrite unitary_norm; auto. now apply unitary_X.
    + intros y Hy. apply Hu. now right.
    + eapply lib_gate_cur; [apply x_means; auto| |exact Hg]. split; eauto.
Qed.
(* and there is one *)
Lemma lib_complete eps n ncl stable l : (0 <= eps)%R -> size_ok n -> forall c cl ths v log v' cl' log' ths',
  insts_ok n ncl l -> lib_ok n l -> norm2v n v = 1%R -> (forall x, In x ths -> (0 <= x < 1)%R) -> cur c n v ->
  run (Backend.exec eps n stable l v cl log) ths = Some (Some (v', cl', log'), ths') ->
  exists c', lib eps n stable l c cl ths c' cl' ths'.
Proof.
  intros He Hs. induction l as [|x r IH]; intros c cl ths v log v' cl' log' ths' Hok Hlo Hv Hu Hc Hrun; cbn [Backend.exec] in Hrun.
  - injection Hrun as _ <- _ <-. exists c. constructor.
  - assert (Hok' : insts_ok n ncl r) by (intros y Hy; apply Hok; now right).
    assert (Hlo' : lib_ok n r) by (intros y g Hy; apply Hlo; now right).
    destruct (skip cl (cnd x)) eqn:Hsk.
    { destruct (IH c cl ths v log v' cl' log' ths' Hok' Hlo' Hv Hu Hc Hrun) as (c' & H). exists c'. now apply lb_skip. }
    destruct (Hok x (or_introl eq_refl)) as [Hx _]. unfold supported in Hx.
    destruct (op x) as [g|q k|q|qs|qs|qs|qs] eqn:Hop; try contradiction.
    + pose proof (Hlo x g (or_introl eq_refl) Hop) as Hg.
      assert (Ei : exists i, ginstr n g = Some i) by (destruct g; cbn in *; eauto; contradiction). destruct Ei as (i & Ei).
      destruct (lib_gate_exists n i _ c v (ginstr_means n g i Hs Hg Ei) Hc) as (c1 & H1).
      destruct (IH c1 cl ths (mv n (gate_mat n (fun q => q) g) v) log v' cl' log' ths' Hok' Hlo') as (c' & H); auto.
      { rewrite unitary_norm; auto. }
      { eapply lib_gate_cur; [|exact Hc|exact H1]. now apply (ginstr_means n g i). }
      exists c'. eapply lb_gate; eauto.
    + destruct stable eqn:Hst.
      { destruct (IH c cl ths v log v' cl' log' ths' Hok' Hlo' Hv Hu Hc Hrun) as (c' & H). exists c'. eapply lb_stable; eauto. }
      destruct ths as [|th ths]; [unfold meas1 in Hrun; destruct (Rlt_dec _ _); cbn in Hrun; discriminate|].
      assert (Hth : (0 <= th < 1)%R) by (apply Hu; now left). destruct Hx as [Hqn _]. rewrite run_meas1 in Hrun by auto.
      destruct Hc as (Hr & env & HF).
      destruct (exec1_exists _ c _ _ _ Hr HF (measure_isem n q v eps th env He Hqn Hv Hth)) as (c1 & H1).
      destruct (exec1_cur _ c c1 _ _ _ _ _ Hr HF (measure_isem n q v eps th env He Hqn Hv Hth) H1) as (_ & Hc1).
      destruct (IH c1 _ ths _ _ v' cl' log' ths' Hok' Hlo' (outcome_norm n q v th Hv Hth) ltac:(intros y Hy; apply Hu; now right) Hc1 Hrun) as (c' & H).
      exists c'. eapply lb_measure; eauto.
    + destruct stable eqn:Hst; [discriminate|].
      destruct ths as [|th ths]; [unfold meas1 in Hrun; destruct (Rlt_dec _ _); cbn in Hrun; discriminate|].
      assert (Hth : (0 <= th < 1)%R) by (apply Hu; now left). rewrite run_meas1 in Hrun by auto.
      destruct Hc as (Hr & env & HF).
      destruct (exec1_exists _ c _ _ _ Hr HF (measure_isem n q v eps th env He Hx Hv Hth)) as (c1 & H1).
      destruct (exec1_cur _ c c1 _ _ _ _ _ Hr HF (measure_isem n q v eps th env He Hx Hv Hth) H1) as (_ & Hc1).
      pose proof (outcome_norm n q v th Hv Hth) as Hno.
      destruct (outcome n q v th) eqn:Eo.
      * destruct (lib_gate_exists n _ _ c1 _ (x_means n q Hs Hx) Hc1) as (c2 & H2).
        pose proof (lib_gate_cur n _ _ c1 c2 _ (x_means n q Hs Hx) Hc1 H2) as Hc2.
        assert (Hn2 : norm2v n (mv n (gate1 n X q []) (collapsed n q v true)) = 1%R) by (rewrite unitary_norm; auto; now apply unitary_X).
        destruct (IH c2 _ ths _ _ v' cl' log' ths' Hok' Hlo' Hn2 ltac:(intros y Hy; apply Hu; now right) Hc2 Hrun) as (c' & H).
        exists c'. eapply lb_reset1; eauto. constructor.
      * destruct (IH c1 _ ths _ _ v' cl' log' ths' Hok' Hlo' Hno ltac:(intros y Hy; apply Hu; now right) Hc1 Hrun) as (c' & H).
        exists c'. eapply lb_reset0; eauto.
    + destruct (IH c cl ths v log v' cl' log' ths' Hok' Hlo' Hv Hu Hc Hrun) as (c' & H). exists c'. eapply lb_barrier; eauto.
Qed.

(* ---- all shots of one circuit ---- *)
(* before a new state is created, everything may be forgotten *)
Inductive free : config -> config -> Prop :=
| fr_refl c : free c c
| fr_silent c c' c'' : silent c c' -> free c' c'' -> free c c''
| fr_forget s hs hs' c : incl hs' hs -> free (s, hs') c -> free (s, hs) c.
Section Shots.
Context (eps : R) (c0 : circ).
(* 700-968 with reps = shots *)
Inductive lib_unstable : nat -> config -> list R -> list (list bool) -> config -> list R -> Prop :=
| lu_0 c ths : lib_unstable 0 c ths [] c ths
| lu_S k c c1 c2 c3 c' ths ths1 ths' cl l : free c c1 -> exec1 (P_zero (nq c0)) c1 c2 [] ->
    lib eps (nq c0) false (data c0) c2 (repeat false (nc c0)) ths c3 cl ths1 ->
    lib_unstable k c3 ths1 l c' ths' -> lib_unstable (S k) c ths (rev cl :: l) c' ths'.
(* 976-996: every sample takes one draw per qubit *)
Inductive lib_samples (m : dict) : nat -> config -> list R -> list (list bool) -> config -> list R -> Prop :=
| ls_0 c ths : lib_samples m 0 c ths [] c ths
| ls_S k c c1 c2 c' d ths ths' bits l : idle c c1 -> length d = nq c0 -> exec1 (P_measure 0 false d) c1 c2 bits ->
    lib_samples m k c2 ths l c' ths' -> lib_samples m (S k) c (d ++ ths) (assemble (nc c0) m bits :: l) c' ths'.
Inductive lib_counts (p : cprop) (k : nat) : config -> list R -> list (list bool) -> config -> list R -> Prop :=
| lc_unstable c ths l c' ths' : stable_final_state p = false -> lib_unstable k c ths l c' ths' -> lib_counts p k c ths l c' ths'
| lc_stable c c1 c2 c3 c4 c5 c' cl ths ths1 l ths' : stable_final_state p = true -> free c c1 -> exec1 (P_zero (nq c0)) c1 c2 [] ->
    lib eps (nq c0) true (data c0) c2 (repeat false (nc c0)) ths c3 cl ths1 -> idle c3 c4 ->
    exec1 (P_global 0 (gphase c0)) c4 c5 [] -> lib_samples (clbit_final_values p) k c5 ths1 l c' ths' ->
    lib_counts p k c ths l c' ths'.
End Shots.
Lemma free_good c c' : free c c' -> good c -> good c'.
Proof.
  intros Hf. induction Hf as [c|c c' c'' Hs Hf IH|s hs hs' c Hi Hf IH]; intros Hg; auto; apply IH; destruct Hg as (Hr & env & HF).
  - destruct c as [s hs], c' as [s' hs']. cbn [fst snd] in *. destruct (silent_ok tau s hs s' hs' _ H0 Hr HF Hs). split; eauto.
  - cbn [fst snd] in *. split; [eapply r_step; [exact Hr|now apply a_drop]|]. exact (forget_env s hs hs' env Hi HF).
Qed.
Lemma zero_cur n c c' : size_ok n -> good c -> exec1 (P_zero n) c c' [] -> cur c' n (basis 0).
Proof.
  intros Hs (Hr & env & HF) Hx. refine (Logic.proj2 (exec1_cur (P_zero n) c c' env n (basis 0) [] [] Hr HF _ Hx)). cbn. auto.
Qed.
Lemma zero_exists n c : size_ok n -> good c -> exists c', exec1 (P_zero n) c c' [].
Proof. intros Hs (Hr & env & HF). apply (exec1_exists (P_zero n) c env (IV n (basis 0)) [] Hr HF). cbn. auto. Qed.
Lemma global_isem n v a env : isem (P_global 0 a) (IV n v :: env) (IV n (Backend.phase a v)) [].
Proof. cbn [isem]. split; [reflexivity|]. left. exists n, v. split; reflexivity. Qed.
Lemma phase_norm n a v : norm2v n (Backend.phase a v) = norm2v n v.
Proof.
  unfold norm2v, Backend.phase, scaled. apply rsum_ext'. intros i _. rewrite Cmod_mult.
  replace (Cmod (cos a, sin a)) with 1%R; [now rewrite Rmult_1_l|].
  unfold Cmod. cbn [fst snd]. symmetry. rewrite <- sqrt_1 at 1. f_equal.
  pose proof (sin2_cos2 a). unfold Rsqr in *. lra.
Qed.
Lemma measall_total v k : forall b d r, length d = k -> exists b', run (measall k v b) (d ++ r) = Some (Some b', r).
Proof.
  induction k as [|k IH]; intros b d r Hd; destruct d as [|th d]; try discriminate; cbn [measall run app]; [eauto|].
  apply IH. cbn in Hd. lia.
Qed.
Lemma run_len {A} (t : tree A) : forall ths a r, run t ths = Some (a, r) -> exists d, ths = d ++ r.
Proof.
  induction t as [a| |p k IH]; intros ths o r H; cbn in H; try (injection H as <- <-; exists []; reflexivity).
  destruct ths as [|th ths]; [discriminate|]. apply IH in H as (d & ->). exists (th :: d). reflexivity.
Qed.
Lemma measall_len v k : forall b ths a r, run (measall k v b) ths = Some (a, r) -> exists d, ths = d ++ r /\ length d = k.
Proof.
  induction k as [|k IH]; intros b ths o r H; cbn in H.
  - injection H as <- <-. exists []. auto.
  - destruct ths as [|th ths]; [discriminate|]. apply IH in H as (d & -> & E). exists (th :: d). cbn. auto.
Qed.
Lemma sample_isem n v d r b env : norm2v n v = 1%R -> length d = n -> (forall x, In x d -> (0 <= x < 1)%R) ->
  run (measall n v 0) (d ++ r) = Some (Some b, r) -> isem (P_measure 0 false d) (IV n v :: env) (IV n v) (bitstring n b).
Proof.
  intros Hv Hd Hu Hr. destruct (measall_draws n v _ b r Hr) as [Hdr Hb]. cbn [isem]. exists n, v, b.
  split; [reflexivity|]. split; [now apply norm1_nonzero|]. split; [lia|]. split; [exact Hu|]. split; [exact Hb|]. split; [|auto].
  intros k Hk. specialize (Hdr k Hk). rewrite app_nth1 in Hdr by lia.
  assert (Hi : (0 <= nth (n - 1 - k) d 0 < 1)%R) by (apply Hu, nth_In; lia).
  unfold lo_of, hi_of. destruct (Nat.testbit b k).
  - split; [apply Hdr; reflexivity|apply Hi].
  - split; [apply Hi|]. destruct (Rlt_le_dec (nth (n - 1 - k) d 0%R) (cond0 v k b)) as [h|h]; [exact h|].
    apply Hdr in h. discriminate.
Qed.
Lemma samples_sound c0 m k c ths l c' ths' : lib_samples c0 m k c ths l c' ths' -> forall w, (forall x, In x ths -> (0 <= x < 1)%R) ->
  norm2v (nq c0) w = 1%R -> cur c (nq c0) w ->
  run (replicate k (bind (measall (nq c0) w 0) (fun b => Leaf (assemble (nc c0) m (bitstring (nq c0) b))))) ths = Some (Some l, ths') /\
  cur c' (nq c0) w.
Proof.
  intros Hl. induction Hl as [c ths|k c c1 c2 c' d ths ths' bits l Hid Hd Hx Hl IH]; intros w Hu Hw Hc; [cbn; auto|].
  destruct (measall_total w (nq c0) 0 d ths Hd) as (b & Hb).
  assert (Hu1 : forall x, In x d -> (0 <= x < 1)%R) by (intros x Hi; apply Hu, in_or_app; now left).
  pose proof (cur_idle c c1 _ _ Hid Hc) as (Hr & env & HF).
  destruct (exec1_cur _ c1 c2 _ _ _ _ _ Hr HF (sample_isem (nq c0) w d ths b env Hw Hd Hu1 Hb) Hx) as (-> & Hc2).
  destruct (IH w) as (IH1 & IH2); auto; [intros x Hi; apply Hu, in_or_app; now right|].
  split; [|exact IH2]. cbn [replicate]. rewrite run_bind, run_bind, Hb. cbn [run]. rewrite run_bind, IH1. reflexivity.
Qed.
Lemma samples_complete c0 m w k : forall c ths l ths', (forall x, In x ths -> (0 <= x < 1)%R) -> norm2v (nq c0) w = 1%R -> cur c (nq c0) w ->
  run (replicate k (bind (measall (nq c0) w 0) (fun b => Leaf (assemble (nc c0) m (bitstring (nq c0) b))))) ths = Some (Some l, ths') ->
  exists c', lib_samples c0 m k c ths l c' ths'.
Proof.
  induction k as [|k IH]; intros c ths l ths' Hu Hw Hc Hr.
  - cbn in Hr. injection Hr as <- <-. exists c. constructor.
  - cbn [replicate] in Hr. apply run_bind_some in Hr as (s & r & Hs & Hr). apply run_bind_some in Hr as (l' & r' & Hl & Hr).
    cbn in Hr. injection Hr as <- <-. apply run_bind_some in Hs as (b & r1 & Hb & Hs). cbn in Hs. injection Hs as <- <-.
    destruct (measall_len _ _ _ _ _ _ Hb) as (d & -> & Hd).
    assert (Hu1 : forall x, In x d -> (0 <= x < 1)%R) by (intros x Hi; apply Hu, in_or_app; now left).
    destruct Hc as (Hre & env & HF). pose proof (sample_isem (nq c0) w d r1 b env Hw Hd Hu1 Hb) as Hi.
    destruct (exec1_exists _ c _ _ _ Hre HF Hi) as (c2 & H2).
    destruct (exec1_cur _ c c2 _ _ _ _ _ Hre HF Hi H2) as (_ & Hc2).
    destruct (IH c2 r1 l' r') as (c' & H); auto; [intros x Hx; apply Hu, in_or_app; now right|].
    exists c'. econstructor; [constructor|exact Hd|exact H2|exact H].
Qed.
Lemma basis_norm n : norm2v n (basis 0) = 1%R.
Proof. apply BackendP.norm_basis0. Qed.
Lemma rest_uniform {A} (t : tree A) ths a r : run t ths = Some (a, r) -> (forall x, In x ths -> (0 <= x < 1)%R) -> forall x, In x r -> (0 <= x < 1)%R.
Proof. intros H Hu x Hx. apply run_len in H as (d & ->). apply Hu, in_or_app. now right. Qed.
Lemma unstable_sound eps c0 k c ths l c' ths' : (0 <= eps)%R -> size_ok (nq c0) -> lib_unstable eps c0 k c ths l c' ths' ->
  insts_ok (nq c0) (nc c0) (data c0) -> lib_ok (nq c0) (data c0) -> (forall x, In x ths -> (0 <= x < 1)%R) -> good c ->
  run (replicate k (shot_unstable eps c0)) ths = Some (Some l, ths').
Proof.
  intros He Hs Hl Hok Hlo. induction Hl as [c ths|k c c1 c2 c3 c' ths ths1 ths' cl l Hf Hz Hx Hl IH]; intros Hu Hg; [reflexivity|].
  pose proof (zero_cur _ c1 c2 Hs (free_good c c1 Hf Hg) Hz) as Hc2.
  destruct (lib_sound eps _ (nc c0) _ _ _ _ _ _ _ _ He Hs Hx (basis 0) [] Hok Hlo (basis_norm _) Hu Hc2) as (v' & log' & Hr & Hc3 & _).
  assert (Hr' : run (shot_unstable eps c0) ths = Some (Some (rev cl), ths1)) by (unfold shot_unstable; rewrite run_bind, Hr; reflexivity).
  cbn [replicate]. rewrite run_bind, Hr', run_bind, IH; [reflexivity| |eapply cur_good; eauto].
  exact (rest_uniform _ _ _ _ Hr' Hu).
Qed.
Lemma unstable_complete eps c0 k : (0 <= eps)%R -> size_ok (nq c0) -> insts_ok (nq c0) (nc c0) (data c0) -> lib_ok (nq c0) (data c0) ->
  forall c ths l ths', (forall x, In x ths -> (0 <= x < 1)%R) -> good c -> run (replicate k (shot_unstable eps c0)) ths = Some (Some l, ths') ->
  exists c', lib_unstable eps c0 k c ths l c' ths'.
Proof.
  intros He Hs Hok Hlo. induction k as [|k IH]; intros c ths l ths' Hu Hg Hr.
  - cbn in Hr. injection Hr as <- <-. exists c. constructor.
  - cbn [replicate] in Hr. apply run_bind_some in Hr as (s & r & Hs1 & Hr). apply run_bind_some in Hr as (l' & r' & Hl & Hr).
    cbn in Hr. injection Hr as <- <-. pose proof (rest_uniform _ _ _ _ Hs1 Hu) as Hur.
    unfold shot_unstable in Hs1. apply run_bind_some in Hs1 as ([[v cl] log] & r1 & Hx & Hs1). cbn in Hs1. injection Hs1 as <- <-.
    destruct (zero_exists (nq c0) c Hs Hg) as (c2 & Hz). pose proof (zero_cur _ c c2 Hs Hg Hz) as Hc2.
    destruct (lib_complete eps _ (nc c0) _ _ He Hs c2 _ _ _ _ _ _ _ _ Hok Hlo (basis_norm _) Hu Hc2 Hx) as (c3 & H3).
    destruct (lib_sound eps _ (nc c0) _ _ _ _ _ _ _ _ He Hs H3 (basis 0) [] Hok Hlo (basis_norm _) Hu Hc2) as (v' & log' & _ & Hc3 & _).
    destruct (IH c3 r1 l' r' Hur (cur_good _ _ _ Hc3) Hl) as (c' & H). exists c'. econstructor; eauto. constructor.
Qed.
Lemma reach_good c : reachable c -> good c.
Proof.
  intros Hr. split; [exact Hr|]. destruct c as [s hs]. cbn [fst snd]. assert (Hi : incl hs hs) by apply incl_refl. revert Hi.
  generalize hs at 1 3. intros l. induction l as [|[k n e] l IH]; intros Hi; [exists []; constructor|].
  destruct IH as (env & HF); [intros x Hx; apply Hi; now right|]. assert (Hh : In (H k n e) hs) by (apply Hi; now left). destruct k.
  - destruct (handle_reads_v tau s hs n e Hr Hh) as (v & Hv). exists (IV n v :: env). constructor; [|exact HF]. cbn. auto.
  - destruct (handle_reads_m tau s hs n e Hr Hh) as (v & Hv). exists (IM n v :: env). constructor; [|exact HF]. cbn. auto.
Qed.
(* For every circuit of one- and two-qubit gates with controls, measurements,
   resets, barriers and conditions, every number of shots, every reachable
   configuration c of the library and every sequence of draws in [0,1): whatever
   the library does internally, the strings sampled are those of Backend.v. *)
Theorem C58_same_counts eps c0 p z c ths l c' rest : (0 <= eps)%R -> size_ok (nq c0) ->
  insts_ok (nq c0) (nc c0) (data c0) -> lib_ok (nq c0) (data c0) -> (0 < z)%Z -> (forall x, In x ths -> (0 <= x < 1)%R) -> reachable c ->
  lib_counts eps c0 p (Z.to_nat z) c ths l c' rest ->
  run (evaluate eps c0 p (Some z)) ths = Some (Some (Counts l), rest).
Proof.
  intros He Hs Hok Hlo Hz Hu Hre Hl. pose proof (reach_good c Hre) as Hg. unfold evaluate. destruct Hl as [c ths l c' ths' Hst Hl|c c1 c2 c3 c4 c5 c' cl ths ths1 l ths' Hst Hf Hzr Hx Hid Hgl Hl].
  - rewrite Hst. replace (z <=? 0)%Z with false by (symmetry; apply Z.leb_gt; lia).
    rewrite run_bind, (unstable_sound eps c0 _ c ths l c' ths' He Hs Hl Hok Hlo Hu Hg). reflexivity.
  - rewrite Hst. pose proof (zero_cur _ c1 c2 Hs (free_good c c1 Hf Hg) Hzr) as Hc2.
    destruct (lib_sound eps _ (nc c0) _ _ _ _ _ _ _ _ He Hs Hx (basis 0) [] Hok Hlo (basis_norm _) Hu Hc2) as (v' & log' & Hr & Hc3 & Hn).
    rewrite run_bind, Hr. replace (z =? 0)%Z with false by (symmetry; apply Z.eqb_neq; lia).
    pose proof (cur_idle c3 c4 _ _ Hid Hc3) as (Hr4 & env & HF).
    destruct (exec1_cur _ c4 c5 _ _ _ _ _ Hr4 HF (global_isem (nq c0) v' (gphase c0) env) Hgl) as (_ & Hc5).
    destruct (samples_sound c0 _ _ _ _ _ _ _ Hl (Backend.phase (gphase c0) v')) as (Hrun & _); auto.
    + exact (rest_uniform _ _ _ _ Hr Hu).
    + now rewrite phase_norm.
    + rewrite run_bind. unfold shot_stable. rewrite Hrun. reflexivity.
Qed.
(* and the library can always run it: no assertion fails on the way *)
Theorem C58_runs eps c0 p z c ths l rest : (0 <= eps)%R -> size_ok (nq c0) ->
  insts_ok (nq c0) (nc c0) (data c0) -> lib_ok (nq c0) (data c0) -> (0 < z)%Z -> (forall x, In x ths -> (0 <= x < 1)%R) -> reachable c ->
  run (evaluate eps c0 p (Some z)) ths = Some (Some (Counts l), rest) ->
  exists c', lib_counts eps c0 p (Z.to_nat z) c ths l c' rest.
Proof.
  intros He Hs Hok Hlo Hz Hu Hre Hr. pose proof (reach_good c Hre) as Hg. unfold evaluate in Hr. destruct (stable_final_state p) eqn:Hst.
  - apply run_bind_some in Hr as ([[v cl] log] & r & Hx & Hr). replace (z =? 0)%Z with false in Hr by (symmetry; apply Z.eqb_neq; lia).
    apply run_bind_some in Hr as (l' & r' & Hl & Hr). cbn in Hr. injection Hr as <- <-.
    destruct (zero_exists (nq c0) c Hs Hg) as (c2 & Hzr). pose proof (zero_cur _ c c2 Hs Hg Hzr) as Hc2.
    destruct (lib_complete eps _ (nc c0) _ _ He Hs c2 _ _ _ _ _ _ _ _ Hok Hlo (basis_norm _) Hu Hc2 Hx) as (c3 & H3).
    destruct (lib_sound eps _ (nc c0) _ _ _ _ _ _ _ _ He Hs H3 (basis 0) [] Hok Hlo (basis_norm _) Hu Hc2) as (v' & log' & Hx' & Hc3 & Hn).
    rewrite Hx' in Hx. injection Hx as <- <-.
    destruct Hc3 as (Hr3 & env & HF). pose proof (global_isem (nq c0) v' (gphase c0) env) as Hi.
    destruct (exec1_exists _ c3 _ _ _ Hr3 HF Hi) as (c5 & H5).
    destruct (exec1_cur _ c3 c5 _ _ _ _ _ Hr3 HF Hi H5) as (_ & Hc5).
    destruct (samples_complete c0 (clbit_final_values p) (Backend.phase (gphase c0) v') (Z.to_nat z) c5 r l' r') as (c' & H); auto.
    + exact (rest_uniform _ _ _ _ Hx' Hu).
    + now rewrite phase_norm.
    + exists c'. eapply lc_stable; eauto; constructor.
  - replace (z <=? 0)%Z with false in Hr by (symmetry; apply Z.leb_gt; lia).
    apply run_bind_some in Hr as (l' & r' & Hl & Hr). cbn in Hr. injection Hr as <- <-.
    destruct (unstable_complete eps c0 _ He Hs Hok Hlo c ths l' r' Hu Hg Hl) as (c' & H). exists c'. now apply lc_unstable.
Qed.
End Link.

(* the circuits of BackendX meet the hypotheses: two qubits with a controlled gate,
   and a conditional gate and a conditional reset *)
Example C58_bell : insts_ok 2 2 (data bellc) /\ lib_ok 2 (data bellc) /\ size_ok 2.
Proof.
  split; [exact (Logic.proj1 (Logic.proj1 bellc_ok))|]. split; [|unfold size_ok, NQUBITS; lia].
  intros x g [<-|[<-|[<-|[<-|[]]]]] E; cbn in E; try discriminate; injection E as <-; cbn.
  - split; [lia|]. split; [repeat constructor; intros []|intros q [<-|[]]; lia].
  - split; [lia|]. split; [repeat constructor; [intros [h|[]]; discriminate|intros []]|intros q [<-|[<-|[]]]; lia].
Qed.
Example C58_teleport : insts_ok 1 2 (data teleport_like) /\ lib_ok 1 (data teleport_like) /\ size_ok 1.
Proof.
  split; [exact (Logic.proj1 (Logic.proj1 teleport_ok))|]. split; [|unfold size_ok, NQUBITS; lia].
  intros x g [<-|[<-|[<-|[<-|[<-|[]]]]]] E; cbn in E; try discriminate; injection E as <-; cbn;
    (split; [lia|]; split; [repeat constructor; intros []|intros q [<-|[]]; lia]).
Qed.
