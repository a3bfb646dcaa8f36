(* Coll.v -- a machine for SPMD programs whose ranks talk through blocking
   broadcasts (boost::mpi::broadcast as used in src/dd.cpp:821-856): W ranks, each
   with private memory, execute the same list of blocks at their own pace.
   - a local block is one step on private memory;
   - CBcast root out inp: the root contributes out of its memory, every other rank
     continues with inp on the value it received.
   Collective calls carry no tag: the k-th call of a rank belongs to the k-th
   collective of the communicator, so a rank only sees data posted under its own
   call count by the rank it names as root.  The MPI standard lets a broadcast
   synchronise or not: with [sync] nobody leaves a broadcast before all ranks have
   entered it, without it the root leaves at once and the others when the root has
   entered. *)
From Coq Require Import Arith Bool List Lia.
From Verif Require Import Async.
Import ListNotations.

Section Coll.
Context {St Pl : Type}.

Inductive cblock :=
| CLocal (R : nat -> St -> St -> Prop)
| CBcast (root : nat) (out : St -> Pl) (inp : nat -> Pl -> St -> St -> Prop).

(* k_cnt: collectives completed so far; k_in: inside the next one *)
Record ck := Ck { k_blk : nat; k_in : bool; k_cnt : nat; k_mem : St }.
Record cconfig := Cc { cranks : nat -> ck; posts : list (nat * nat * Pl) }.
Definition setk (f : nat -> ck) (r : nat) (x : ck) : nat -> ck := fun q => if Nat.eqb q r then x else f q.
Definition entered (k : nat) (x : ck) : Prop := k < k_cnt x \/ (k_cnt x = k /\ k_in x = true).

Inductive cstep (W : nat) (sync : bool) (prog : list cblock) : cconfig -> cconfig -> Prop :=
| k_local c r b k R st st' : r < W -> cranks c r = Ck b false k st -> nth_error prog b = Some (CLocal R) -> R r st st' ->
    cstep W sync prog c (Cc (setk (cranks c) r (Ck (S b) false k st')) (posts c))
| k_enter c r b k root out inp st : r < W -> cranks c r = Ck b false k st -> nth_error prog b = Some (CBcast root out inp) ->
    cstep W sync prog c (Cc (setk (cranks c) r (Ck b true k st)) (if r =? root then posts c ++ [(k, r, out st)] else posts c))
| k_root c r b k out inp st : r < W -> cranks c r = Ck b true k st -> nth_error prog b = Some (CBcast r out inp) ->
    (sync = true -> forall q, q < W -> entered k (cranks c q)) ->
    cstep W sync prog c (Cc (setk (cranks c) r (Ck (S b) false (S k) st)) (posts c))
| k_recv c r b k root out inp st x st' : r < W -> cranks c r = Ck b true k st -> nth_error prog b = Some (CBcast root out inp) ->
    r <> root -> In (k, root, x) (posts c) -> (sync = true -> forall q, q < W -> entered k (cranks c q)) ->
    inp r x st st' ->
    cstep W sync prog c (Cc (setk (cranks c) r (Ck (S b) false (S k) st')) (posts c)).
Inductive csteps (W : nat) (sync : bool) (prog : list cblock) : cconfig -> cconfig -> Prop :=
| cs_refl c : csteps W sync prog c c
| cs_step c c' c'' : csteps W sync prog c c' -> cstep W sync prog c' c'' -> csteps W sync prog c c''.
Definition cstart (mem : nat -> St) : cconfig := Cc (fun r => Ck 0 false 0 (mem r)) [].
Definition cfinished (W : nat) (prog : list cblock) (c : cconfig) : Prop :=
  forall r, r < W -> k_blk (cranks c r) = length prog /\ k_in (cranks c r) = false.

(* ---- a proof rule ---- *)
Record cannotated (W : nat) (prog : list cblock) (L : nat -> nat -> St -> Prop) (P : nat -> Pl -> Prop) : Prop := {
  cn_local : forall b R r st, nth_error prog b = Some (CLocal R) -> r < W -> L b r st ->
     (exists st', R r st st') /\ forall st', R r st st' -> L (S b) r st';
  cn_root : forall b root out inp, nth_error prog b = Some (CBcast root out inp) -> root < W;
  cn_out : forall b root out inp st, nth_error prog b = Some (CBcast root out inp) -> L b root st -> P b (out st) /\ L (S b) root st;
  cn_recv : forall b root out inp r st x, nth_error prog b = Some (CBcast root out inp) -> r < W -> r <> root ->
     L b r st -> P b x -> (exists st', inp r x st st') /\ forall st', inp r x st st' -> L (S b) r st'
}.

Definition is_coll (b : cblock) : bool := match b with CLocal _ => false | CBcast _ _ _ => true end.
Definition ncoll (prog : list cblock) (b : nat) : nat := length (filter is_coll (firstn b prog)).
Lemma ncoll_S prog b x : nth_error prog b = Some x -> ncoll prog (S b) = ncoll prog b + (if is_coll x then 1 else 0).
Proof.
  revert b. unfold ncoll. induction prog as [|y prog IH]; intros [|b] H; try discriminate.
  - cbn in H. injection H as ->. cbn. now destruct (is_coll x).
  - cbn in H. specialize (IH b H). cbn [firstn filter] in *. destruct (is_coll y); cbn [length] in *; lia.
Qed.
Lemma ncoll_mono prog b b' : b <= b' -> ncoll prog b <= ncoll prog b'.
Proof.
  intros H. induction H as [|b' H IH]; auto. destruct (nth_error prog b') as [x|] eqn:Hx.
  - rewrite (ncoll_S _ _ _ Hx). lia.
  - unfold ncoll in *. apply nth_error_None in Hx. replace (firstn (S b') prog) with (firstn b' prog) by (rewrite !firstn_all2 by lia; reflexivity). exact IH.
Qed.
Lemma ncoll_inj prog b b' x x' : nth_error prog b = Some x -> nth_error prog b' = Some x' -> is_coll x = true -> is_coll x' = true ->
  ncoll prog b = ncoll prog b' -> b = b'.
Proof.
  intros Hb Hb' Hx Hx' He. pose proof (ncoll_S _ _ _ Hb) as E1. pose proof (ncoll_S _ _ _ Hb') as E2. rewrite Hx in E1. rewrite Hx' in E2.
  destruct (lt_eq_lt_dec b b') as [[h|h]|h]; auto; exfalso.
  - pose proof (ncoll_mono prog (S b) b' h). lia.
  - pose proof (ncoll_mono prog (S b') b h). lia.
Qed.

Section CRule.
Context (W : nat) (sync : bool) (prog : list cblock) (L : nat -> nat -> St -> Prop) (P : nat -> Pl -> Prop).
Context (HA : cannotated W prog L P).
Definition cpos (x : ck) : nat := 2 * k_blk x + (if k_in x then 1 else 0).
Record cinv (c : cconfig) : Prop := {
  ci_pre : forall r, r < W -> L (k_blk (cranks c r)) r (k_mem (cranks c r));
  ci_in : forall r, r < W -> k_in (cranks c r) = true -> exists ro o i, nth_error prog (k_blk (cranks c r)) = Some (CBcast ro o i);
  ci_cnt : forall r, r < W -> k_cnt (cranks c r) = ncoll prog (k_blk (cranks c r));
  ci_len : forall r, r < W -> k_blk (cranks c r) <= length prog;
  ci_post : forall k q x, In (k, q, x) (posts c) -> exists b o i, nth_error prog b = Some (CBcast q o i) /\ k = ncoll prog b /\ P b x;
  ci_all : forall b ro o i, nth_error prog b = Some (CBcast ro o i) -> 2 * b < cpos (cranks c ro) -> exists x, In (ncoll prog b, ro, x) (posts c)
}.
Lemma setk_eq f r x : setk f r x r = x.
Proof. unfold setk. now rewrite Nat.eqb_refl. Qed.
Lemma setk_ne f r x q : q <> r -> setk f r x q = f q.
Proof. intros H. unfold setk. now rewrite (proj2 (Nat.eqb_neq q r) H). Qed.
Lemma cinv_start mem : (forall r, r < W -> L 0 r (mem r)) -> cinv (cstart mem).
Proof.
  intros H. constructor; cbn; auto.
  - intros; discriminate.
  - intros; lia.
  - intros k q x [].
  - unfold cpos. cbn. intros; lia.
Qed.
(* rank r moves to the state x' without posting *)
Lemma cinv_move c r x' : cinv c -> r < W -> L (k_blk x') r (k_mem x') ->
  (k_in x' = true -> exists ro o i, nth_error prog (k_blk x') = Some (CBcast ro o i)) ->
  k_cnt x' = ncoll prog (k_blk x') -> k_blk x' <= length prog ->
  (forall b ro o i, nth_error prog b = Some (CBcast ro o i) -> ro = r -> 2 * b < cpos x' -> 2 * b < cpos (cranks c r)) ->
  cinv (Cc (setk (cranks c) r x') (posts c)).
Proof.
  intros HI Hr H1 H2 H3 H4 H5. constructor; cbn [cranks posts].
  - intros q Hq. destruct (Nat.eq_dec q r) as [->|Hne]; [now rewrite setk_eq|rewrite setk_ne by auto; now apply (ci_pre _ HI)].
  - intros q Hq. destruct (Nat.eq_dec q r) as [->|Hne]; [now rewrite setk_eq|rewrite setk_ne by auto; now apply (ci_in _ HI)].
  - intros q Hq. destruct (Nat.eq_dec q r) as [->|Hne]; [now rewrite setk_eq|rewrite setk_ne by auto; now apply (ci_cnt _ HI)].
  - intros q Hq. destruct (Nat.eq_dec q r) as [->|Hne]; [now rewrite setk_eq|rewrite setk_ne by auto; now apply (ci_len _ HI)].
  - apply (ci_post _ HI).
  - intros b ro o i Hb. destruct (Nat.eq_dec ro r) as [->|Hne]; [rewrite setk_eq|rewrite setk_ne by auto; eapply (ci_all _ HI); eauto].
    intros H. eapply (ci_all _ HI); eauto.
Qed.
Lemma cinv_step c c' : cinv c -> cstep W sync prog c c' -> cinv c'.
Proof.
  intros HI Hs. destruct Hs as [c r b k R st st' Hr Hrk Hb HR | c r b k root out inp st Hr Hrk Hb
    | c r b k out inp st Hr Hrk Hb Hsy | c r b k root out inp st x st' Hr Hrk Hb Hne Hin Hsy Hinp];
    pose proof (ci_pre _ HI r Hr) as Hp; pose proof (ci_cnt _ HI r Hr) as Hc; rewrite Hrk in Hp, Hc; cbn [k_blk k_mem k_cnt] in Hp, Hc;
    assert (Hlen : b < length prog) by (apply nth_error_Some; congruence); pose proof (ncoll_S _ _ _ Hb) as HS; cbn [is_coll] in HS.
  - apply cinv_move; cbn [k_blk k_mem k_cnt k_in]; auto; try discriminate; try lia.
    + now apply (cn_local _ _ _ _ HA b R r st Hb Hr Hp).
    + intros b2 ro o i Hb2 -> H. rewrite Hrk. unfold cpos in *. cbn in *. destruct (Nat.eq_dec b2 b) as [->|]; [congruence|lia].
  - destruct (Nat.eqb_spec r root) as [->|Hne].
    + constructor; cbn [cranks posts].
      * intros q Hq. destruct (Nat.eq_dec q root) as [->|Hne]; [rewrite setk_eq; cbn; auto|rewrite setk_ne by auto; now apply (ci_pre _ HI)].
      * intros q Hq. destruct (Nat.eq_dec q root) as [->|Hne]; [rewrite setk_eq; cbn; eauto|rewrite setk_ne by auto; now apply (ci_in _ HI)].
      * intros q Hq. destruct (Nat.eq_dec q root) as [->|Hne]; [rewrite setk_eq; cbn; auto|rewrite setk_ne by auto; now apply (ci_cnt _ HI)].
      * intros q Hq. destruct (Nat.eq_dec q root) as [->|Hne]; [rewrite setk_eq; cbn; lia|rewrite setk_ne by auto; now apply (ci_len _ HI)].
      * intros k' q x Hx. apply in_app_or in Hx as [Hx|[Hx|[]]]; [now apply (ci_post _ HI)|]. injection Hx as <- <- <-.
        exists b, out, inp. split; auto. split; auto. now apply (cn_out _ _ _ _ HA b root out inp st Hb).
      * intros b2 ro o i Hb2 H. destruct (Nat.eq_dec ro root) as [->|Hne].
        -- rewrite setk_eq in H. unfold cpos in H. cbn in H. destruct (Nat.eq_dec b2 b) as [->|Hne].
           ++ exists (out st). apply in_or_app. right. left. now rewrite Hc.
           ++ destruct (ci_all _ HI b2 root o i Hb2) as (x & Hx); [rewrite Hrk; unfold cpos; cbn; lia|]. exists x. apply in_or_app. now left.
        -- rewrite setk_ne in H by auto. destruct (ci_all _ HI b2 ro o i Hb2 H) as (x & Hx). exists x. apply in_or_app. now left.
    + apply cinv_move; cbn [k_blk k_mem k_cnt k_in]; auto; try lia; eauto.
      intros b2 ro o i Hb2 -> H. rewrite Hrk. unfold cpos in *. cbn in *. destruct (Nat.eq_dec b2 b) as [->|]; [congruence|lia].
  - apply cinv_move; cbn [k_blk k_mem k_cnt k_in]; auto; try discriminate; try lia.
    + now apply (cn_out _ _ _ _ HA b r out inp st Hb).
    + intros b2 ro o i Hb2 _ H. rewrite Hrk. unfold cpos in *. cbn in *. lia.
  - destruct (ci_post _ HI k root x Hin) as (b2 & o & i & Hb2 & Hk & HP). assert (b2 = b) by (eapply ncoll_inj; eauto; congruence). subst b2.
    apply cinv_move; cbn [k_blk k_mem k_cnt k_in]; auto; try discriminate; try lia.
    + now apply (cn_recv _ _ _ _ HA b root out inp r st x Hb Hr Hne Hp HP).
    + intros b2 ro o' i' Hb2' _ H. rewrite Hrk. unfold cpos in *. cbn in *. lia.
Qed.
Lemma cinv_steps c c' : cinv c -> csteps W sync prog c c' -> cinv c'.
Proof. intros HI H. induction H; auto. eapply cinv_step; [|eassumption]; auto. Qed.
Lemma entered_pos c r q b o ro i : cinv c -> r < W -> q < W -> nth_error prog b = Some (CBcast ro o i) ->
  2 * b < cpos (cranks c q) -> entered (ncoll prog b) (cranks c q).
Proof.
  intros HI Hr Hq Hb H. unfold entered. rewrite (ci_cnt _ HI q Hq). pose proof (ncoll_S _ _ _ Hb) as HS. cbn [is_coll] in HS. unfold cpos in H.
  destruct (le_lt_dec (k_blk (cranks c q)) b) as [h|h].
  - destruct (k_in (cranks c q)); [|lia]. assert (k_blk (cranks c q) = b) by lia. right. split; congruence.
  - left. pose proof (ncoll_mono prog (S b) _ h). lia.
Qed.
Lemma cinv_progress c : 0 < W -> cinv c -> cfinished W prog c \/ exists c', cstep W sync prog c c'.
Proof.
  intros HW HI. destruct (least_fn (fun r => cpos (cranks c r)) W HW) as (r & Hr & Hm). cbn beta in Hm.
  destruct (cranks c r) as [b inn k st] eqn:Hrk. pose proof (ci_pre _ HI r Hr) as Hp. pose proof (ci_len _ HI r Hr) as Hl. pose proof (ci_cnt _ HI r Hr) as Hc.
  pose proof (ci_in _ HI r Hr) as Hin. rewrite Hrk in *. cbn [k_blk k_in k_cnt k_mem] in *. destruct inn.
  - right. destruct (Hin eq_refl) as (ro & o & i & Hb). clear Hin.
    assert (He : forall q, q < W -> entered k (cranks c q)).
    { intros q Hq. rewrite Hc. eapply (entered_pos c r); eauto. specialize (Hm q Hq). change (2 * b + 1 <= cpos (cranks c q)) in Hm.
      lia. }
    destruct (Nat.eq_dec r ro) as [<-|Hne]; [eexists; eapply k_root; eauto|].
    assert (Hro := cn_root _ _ _ _ HA _ _ _ _ Hb).
    destruct (ci_all _ HI b ro o i Hb) as (x & Hx); [specialize (Hm ro Hro); change (2 * b + 1 <= cpos (cranks c ro)) in Hm; lia|].
    destruct (ci_post _ HI _ _ _ Hx) as (b2 & o2 & i2 & Hb2 & Hk & HP). assert (b2 = b) by (eapply ncoll_inj; eauto). subst b2.
    destruct (cn_recv _ _ _ _ HA b ro o i r st x Hb Hr Hne Hp HP) as [(st' & Hst') _].
    eexists. apply (k_recv W sync prog c r b k ro o i st x st'); auto. now rewrite Hc.
  - destruct (nth_error prog b) as [[R|ro o i]|] eqn:Hb.
    + right. destruct (cn_local _ _ _ _ HA b R r st Hb Hr Hp) as [(st' & H) _]. eexists. eapply k_local; eauto.
    + right. eexists. eapply k_enter; eauto.
    + left. apply nth_error_None in Hb. intros q Hq. specialize (Hm q Hq). pose proof (ci_len _ HI q Hq) as Hlq. pose proof (ci_in _ HI q Hq) as Hiq.
      change (2 * b + 0 <= cpos (cranks c q)) in Hm. unfold cpos in Hm. destruct (k_in (cranks c q)).
      * destruct (Hiq eq_refl) as (ro & o & i & Hb'). assert (k_blk (cranks c q) < length prog) by (apply nth_error_Some; congruence). lia.
      * split; [lia|auto].
Qed.
Definition cleft (c : cconfig) : nat := rsumn W (fun r => 2 * length prog + 2 - cpos (cranks c r)).
Lemma cstep_dec c c' : cinv c -> cstep W sync prog c c' -> cleft c' < cleft c.
Proof.
  intros HI Hs.
  assert (H : exists r x, r < W /\ (forall q, cranks c' q = setk (cranks c) r x q) /\ cpos (cranks c r) < cpos x /\ cpos (cranks c r) < 2 * length prog + 2).
  { destruct Hs as [c r b k R st st' Hr Hrk Hb HR | c r b k root out inp st Hr Hrk Hb
    | c r b k out inp st Hr Hrk Hb Hsy | c r b k root out inp st x st' Hr Hrk Hb Hne Hin Hsy Hinp]; cbn [cranks];
    assert (Hlen : b < length prog) by (apply nth_error_Some; congruence);
    eexists r, _; (split; [exact Hr|]; split; [reflexivity|]); rewrite Hrk; unfold cpos; cbn; lia. }
  destruct H as (r & x & Hr & Hq & H1 & H2). unfold cleft. apply (rsumn_lt W _ _ r Hr).
  - intros q _. rewrite Hq. unfold setk. destruct (Nat.eqb_spec q r) as [->|]; lia.
  - rewrite Hq, setk_eq. lia.
Qed.
(* every execution, under every interleaving, keeps the annotations, is finite and
   never blocks before all ranks are done *)
Theorem coll_rule mem c : 0 < W -> (forall r, r < W -> L 0 r (mem r)) -> csteps W sync prog (cstart mem) c ->
  (cfinished W prog c \/ exists c', cstep W sync prog c c') /\
  Acc (fun y x => cstep W sync prog x y) c /\
  (cfinished W prog c -> forall r, r < W -> L (length prog) r (k_mem (cranks c r))).
Proof.
  intros HW H0 Hs. assert (HI : cinv c) by (eapply cinv_steps; eauto; now apply cinv_start).
  split; [now apply cinv_progress|]. split.
  - clear - HI HA. remember (cleft c) as n eqn:Hn. revert c HI Hn. induction n as [n IH] using lt_wf_ind. intros c HI ->.
    constructor. intros c' Hs. eapply (IH (cleft c')); [apply cstep_dec; assumption|eapply cinv_step; eauto|reflexivity].
  - intros Hf r Hr. destruct (Hf r Hr) as [E1 _]. pose proof (ci_pre _ HI r Hr) as Hp. now rewrite E1 in Hp.
Qed.
End CRule.

(* ---- the rule, composed ---- *)
Definition CAnn (W : nat) (prog : list cblock) (Pre Post : nat -> St -> Prop) : Prop :=
  exists L P, cannotated W prog L P /\
    (forall r st, r < W -> Pre r st -> L 0 r st) /\ (forall r st, r < W -> L (length prog) r st -> Post r st).
Lemma cann_local W R (Pre Post : nat -> St -> Prop) :
  (forall r st, r < W -> Pre r st -> (exists st', R r st st') /\ forall st', R r st st' -> Post r st') ->
  CAnn W [CLocal R] Pre Post.
Proof.
  intros H. exists (fun b r st => match b with 0 => Pre r st | _ => Post r st end), (fun _ _ => True).
  split; [|split; auto]. constructor.
  - intros [|[|b]] R' r st Hb Hr HL; cbn in Hb; try discriminate. injection Hb as <-. apply H; auto.
  - intros [|[|b]] ro o i Hb; cbn in Hb; discriminate.
  - intros [|[|b]] ro o i st Hb; cbn in Hb; discriminate.
  - intros [|[|b]] ro o i r st x Hb; cbn in Hb; discriminate.
Qed.
Lemma cann_bcast W root out inp (Pre Post : nat -> St -> Prop) (PP : Pl -> Prop) : root < W ->
  (forall st, Pre root st -> PP (out st) /\ Post root st) ->
  (forall r st x, r < W -> r <> root -> Pre r st -> PP x -> (exists st', inp r x st st') /\ forall st', inp r x st st' -> Post r st') ->
  CAnn W [CBcast root out inp] Pre Post.
Proof.
  intros H1 H2 H3. exists (fun b r st => match b with 0 => Pre r st | _ => Post r st end), (fun _ => PP).
  split; [|split; auto]. constructor.
  - intros [|[|b]] R' r st Hb; cbn in Hb; discriminate.
  - intros [|[|b]] ro o i Hb; cbn in Hb; try discriminate. injection Hb as <- <- <-. auto.
  - intros [|[|b]] ro o i st Hb HL; cbn in Hb; try discriminate. injection Hb as <- <- <-. auto.
  - intros [|[|b]] ro o i r st x Hb Hr Hne HL; cbn in Hb; try discriminate. injection Hb as <- <- <-. auto.
Qed.
Lemma cann_nil W (Pre : nat -> St -> Prop) : CAnn W [] Pre Pre.
Proof. exists (fun _ => Pre), (fun _ _ => True). split; [|auto]. constructor; intros [|b]; cbn; discriminate. Qed.
Lemma cann_app W p1 p2 (Pre Mid Post : nat -> St -> Prop) : CAnn W p1 Pre Mid -> CAnn W p2 Mid Post -> CAnn W (p1 ++ p2) Pre Post.
Proof.
  intros (L1 & P1 & A1 & I1 & O1) (L2 & P2 & A2 & I2 & O2). set (k := length p1).
  exists (fun b => if b <? k then L1 b else L2 (b - k)), (fun b => if b <? k then P1 b else P2 (b - k)).
  assert (Hnth : forall b x, nth_error (p1 ++ p2) b = Some x ->
    (b < k /\ nth_error p1 b = Some x) \/ (k <= b /\ nth_error p2 (b - k) = Some x)).
  { intros b x Hb. destruct (lt_dec b k) as [h|h]; [left|right]; (split; [lia|]).
    - rewrite nth_error_app1 in Hb; auto. - rewrite nth_error_app2 in Hb; [exact Hb|lia]. }
  assert (Hnext : forall b r st, r < W -> b < k -> L1 (S b) r st -> (if S b <? k then L1 (S b) else L2 (S b - k)) r st).
  { intros b r st Hr Hb HL. destruct (Nat.ltb_spec (S b) k); auto. assert (S b = k) by lia.
    replace (S b - k) with 0 by lia. apply I2; auto. apply O1; auto. fold k. congruence. }
  assert (Hlt : forall b, b < k -> (b <? k) = true) by (intros; now apply Nat.ltb_lt).
  assert (Hge : forall b, k <= b -> (b <? k) = false) by (intros; now apply Nat.ltb_ge).
  split; [constructor|split].
  - intros b R r st Hb Hr HL. destruct (Hnth _ _ Hb) as [[h h']|[h h']].
    + rewrite Hlt in HL by auto. destruct (cn_local _ _ _ _ A1 b R r st h' Hr HL) as [X Y]. split; [exact X|]. intros st' HR. apply (Hnext b); auto.
    + rewrite Hge in HL by auto. destruct (cn_local _ _ _ _ A2 (b - k) R r st h' Hr HL) as [X Y]. split; auto.
      intros st' HR. rewrite Hge by lia. replace (S b - k) with (S (b - k)) by lia. auto.
  - intros b ro o i Hb. destruct (Hnth _ _ Hb) as [[h h']|[h h']]; [eapply (cn_root _ _ _ _ A1)|eapply (cn_root _ _ _ _ A2)]; eauto.
  - intros b ro o i st Hb HL. destruct (Hnth _ _ Hb) as [[h h']|[h h']].
    + rewrite Hlt in * by auto. destruct (cn_out _ _ _ _ A1 _ _ _ _ _ h' HL) as [X Y]. split; [exact X|]. apply (Hnext b); auto. eapply (cn_root _ _ _ _ A1); eauto.
    + rewrite Hge in * by auto. destruct (cn_out _ _ _ _ A2 _ _ _ _ _ h' HL) as [X Y]. split; [exact X|].
      rewrite Hge by lia. replace (S b - k) with (S (b - k)) by lia. auto.
  - intros b ro o i r st x Hb Hr Hne HL HP. destruct (Hnth _ _ Hb) as [[h h']|[h h']].
    + rewrite Hlt in HL, HP by auto. destruct (cn_recv _ _ _ _ A1 b ro o i r st x h' Hr Hne HL HP) as [X Y]. split; [exact X|]. intros st' HR. apply (Hnext b); auto.
    + rewrite Hge in HL, HP by auto. destruct (cn_recv _ _ _ _ A2 (b - k) ro o i r st x h' Hr Hne HL HP) as [X Y]. split; auto.
      intros st' HR. rewrite Hge by lia. replace (S b - k) with (S (b - k)) by lia. auto.
  - intros r st Hr HP. destruct (Nat.ltb_spec 0 k); [now apply I1|]. cbn. apply I2; auto. apply O1; auto. fold k. replace k with 0 by lia. auto.
  - intros r st Hr. rewrite app_length. fold k. rewrite Hge by lia. replace (k + length p2 - k) with (length p2) by lia. auto.
Qed.
Lemma cann_conseq W p (Pre Post Pre' Post' : nat -> St -> Prop) : (forall r st, r < W -> Pre' r st -> Pre r st) ->
  (forall r st, r < W -> Post r st -> Post' r st) -> CAnn W p Pre Post -> CAnn W p Pre' Post'.
Proof. intros H1 H2 (L & P & A & I & O). exists L, P. split; auto. Qed.
Theorem cann_sound W sync prog (Pre Post : nat -> St -> Prop) mem c : 0 < W -> CAnn W prog Pre Post ->
  (forall r, r < W -> Pre r (mem r)) -> csteps W sync prog (cstart mem) c ->
  (cfinished W prog c \/ exists c', cstep W sync prog c c') /\
  Acc (fun y x => cstep W sync prog x y) c /\
  (cfinished W prog c -> forall r, r < W -> Post r (k_mem (cranks c r))).
Proof.
  intros HW (L & P & A & I & O) H0 Hs.
  destruct (coll_rule W sync prog L P A mem c HW (fun r Hr => I r _ Hr (H0 r Hr)) Hs) as (X & Y & Z).
  split; auto.
Qed.
(* every rank gets to the end *)
Theorem cann_finishes W sync prog (Pre Post : nat -> St -> Prop) mem : 0 < W -> CAnn W prog Pre Post ->
  (forall r, r < W -> Pre r (mem r)) -> exists c, csteps W sync prog (cstart mem) c /\ cfinished W prog c.
Proof.
  intros HW HA Hm.
  assert (H : forall c, Acc (fun y x => cstep W sync prog x y) c -> csteps W sync prog (cstart mem) c ->
    exists c', csteps W sync prog (cstart mem) c' /\ cfinished W prog c').
  { induction 1 as [c _ IH]. intros Hc. destruct (cann_sound W sync prog Pre Post mem c HW HA Hm Hc) as ([Hf|(c' & Hs)] & _); [eauto|].
    apply (IH c' Hs). eapply cs_step; eauto. }
  apply (H (cstart mem)); [|constructor]. apply (cann_sound W sync prog Pre Post mem _ HW HA Hm). constructor.
Qed.
End Coll.
