(* Async.v -- a small machine for SPMD message passing (boost::mpi point-to-point
   calls as used in src/dd.cpp:643-717): W ranks, each with private memory,
   execute the same list of blocks at their own pace.
   - a local block is one step on private memory;
   - an exchange block is the sequence
       isend(dst, tag, out); recv(src, tag, x); <use x>; wait_all
     A message is matched by (source, destination, tag), first come first
     served; the ghost field [m_blk] is not looked at.  wait_all completes when
     the message has been received, or at once if [eager]. *)
From Coq Require Import Arith Bool List Lia.
Import ListNotations.

Section Async.
Context {St Pl : Type}.

Inductive block :=
| BLocal (R : nat -> St -> St -> Prop)
| BExch (tag : nat) (dst src : nat -> nat) (out : St -> Pl) (inp : nat -> Pl -> St -> St -> Prop).

Record msg := Msg { m_src : nat; m_dst : nat; m_tag : nat; m_dat : Pl; m_blk : nat }.
Inductive phase := PBegin | PSent | PRecvd.
Record rk := Rk { r_blk : nat; r_ph : phase; r_mem : St }.
Record config := Cfgn { ranks : nat -> rk; net : list msg }.

Definition setr (f : nat -> rk) (r : nat) (x : rk) : nat -> rk := fun q => if Nat.eqb q r then x else f q.
Definition matches (s d t : nat) (m : msg) : bool :=
  Nat.eqb (m_src m) s && Nat.eqb (m_dst m) d && Nat.eqb (m_tag m) t.

Inductive astep (W : nat) (eager : bool) (prog : list block) : config -> config -> Prop :=
| s_local c r R st st' : r < W -> ranks c r = Rk (r_blk (ranks c r)) PBegin st ->
    nth_error prog (r_blk (ranks c r)) = Some (BLocal R) -> R r st st' ->
    astep W eager prog c (Cfgn (setr (ranks c) r (Rk (S (r_blk (ranks c r))) PBegin st')) (net c))
| s_send c r b tag dst src out inp st : r < W -> ranks c r = Rk b PBegin st ->
    nth_error prog b = Some (BExch tag dst src out inp) ->
    astep W eager prog c (Cfgn (setr (ranks c) r (Rk b PSent st)) (net c ++ [Msg r (dst r) tag (out st) b]))
| s_recv c r b tag dst src out inp st st' n1 m n2 : r < W -> ranks c r = Rk b PSent st ->
    nth_error prog b = Some (BExch tag dst src out inp) ->
    net c = n1 ++ m :: n2 -> (forall x, In x n1 -> matches (src r) r tag x = false) ->
    matches (src r) r tag m = true -> inp r (m_dat m) st st' ->
    astep W eager prog c (Cfgn (setr (ranks c) r (Rk b PRecvd st')) (n1 ++ n2))
| s_wait c r b st : r < W -> ranks c r = Rk b PRecvd st ->
    (eager = true \/ forall x, In x (net c) -> m_src x <> r) ->
    astep W eager prog c (Cfgn (setr (ranks c) r (Rk (S b) PBegin st)) (net c)).

Inductive asteps (W : nat) (eager : bool) (prog : list block) : config -> config -> Prop :=
| as_refl c : asteps W eager prog c c
| as_step c c' c'' : asteps W eager prog c c' -> astep W eager prog c' c'' -> asteps W eager prog c c''.

Definition astart (mem : nat -> St) : config := Cfgn (fun r => Rk 0 PBegin (mem r)) [].
Definition finished (W : nat) (prog : list block) (c : config) : Prop :=
  (forall r, r < W -> r_blk (ranks c r) = length prog /\ r_ph (ranks c r) = PBegin) /\ net c = [].

(* ---- a proof rule ---------------------------------------------------------- *)
(* L b r: what rank r's memory satisfies before block b; P b q: what the data
   sent by rank q in block b satisfies *)
Record annotated (W : nat) (prog : list block) (L : nat -> nat -> St -> Prop) (P : nat -> nat -> Pl -> Prop) : Prop := {
  an_local : forall b R r st, nth_error prog b = Some (BLocal R) -> r < W -> L b r st ->
     (exists st', R r st st') /\ forall st', R r st st' -> L (S b) r st';
  an_ring : forall b tag dst src out inp r, nth_error prog b = Some (BExch tag dst src out inp) -> r < W ->
     dst r < W /\ src r < W /\ src (dst r) = r /\ dst (src r) = r;
  an_send : forall b tag dst src out inp r st, nth_error prog b = Some (BExch tag dst src out inp) -> r < W ->
     L b r st -> P b r (out st);
  an_recv : forall b tag dst src out inp r st x, nth_error prog b = Some (BExch tag dst src out inp) -> r < W ->
     L b r st -> P b (src r) x ->
     (exists st', inp r x st st') /\ forall st', inp r x st st' -> L (S b) r st'
}.

Definition phn (p : phase) : nat := match p with PBegin => 0 | PSent => 1 | PRecvd => 2 end.
Definition pos (x : rk) : nat := 3 * r_blk x + phn (r_ph x).

Section Rule.
Context (W : nat) (eager : bool) (prog : list block) (L : nat -> nat -> St -> Prop) (P : nat -> nat -> Pl -> Prop).
Context (HA : annotated W prog L P).

Definition lpre (r : nat) (x : rk) : Prop :=
  match r_ph x with
  | PBegin => L (r_blk x) r (r_mem x)
  | PSent => L (r_blk x) r (r_mem x) /\ exists t d s o i, nth_error prog (r_blk x) = Some (BExch t d s o i)
  | PRecvd => L (S (r_blk x)) r (r_mem x) /\ exists t d s o i, nth_error prog (r_blk x) = Some (BExch t d s o i)
  end.
Definition goodmsg (f : nat -> rk) (m : msg) : Prop :=
  exists d s o i, nth_error prog (m_blk m) = Some (BExch (m_tag m) d s o i) /\
    m_src m < W /\ m_dst m = d (m_src m) /\ P (m_blk m) (m_src m) (m_dat m) /\
    3 * m_blk m < pos (f (m_src m)) /\ pos (f (m_dst m)) <= 3 * m_blk m + 1.
Fixpoint ordered (l : list msg) : Prop :=
  match l with
  | [] => True
  | m :: r => (forall x, In x r -> m_src x = m_src m -> m_blk m < m_blk x) /\ ordered r
  end.
Record ainv (c : config) : Prop := {
  ai_pre : forall r, r < W -> lpre r (ranks c r);
  ai_len : forall r, r < W -> r_blk (ranks c r) <= length prog;
  ai_msg : forall m, In m (net c) -> goodmsg (ranks c) m;
  ai_ord : ordered (net c);
  ai_all : forall r b t d s o i, r < W -> nth_error prog b = Some (BExch t d s o i) ->
     3 * b < pos (ranks c r) -> pos (ranks c (d r)) <= 3 * b + 1 ->
     exists m, In m (net c) /\ m_src m = r /\ m_blk m = b;
  ai_sent : forall r b t d s o i, r < W -> nth_error prog b = Some (BExch t d s o i) ->
     3 * b + 1 < pos (ranks c (d r)) -> 3 * b < pos (ranks c r)
}.

Lemma setr_eq f r x : setr f r x r = x.
Proof. unfold setr. now rewrite Nat.eqb_refl. Qed.
Lemma setr_ne f r x q : q <> r -> setr f r x q = f q.
Proof. intros H. unfold setr. now rewrite (proj2 (Nat.eqb_neq q r) H). Qed.
Lemma ordered_app l m : ordered l -> (forall x, In x l -> m_src x = m_src m -> m_blk x < m_blk m) -> ordered (l ++ [m]).
Proof.
  induction l as [|a l IH]; cbn; intros H Hm; [now split|]. destruct H as [H1 H2]. split; [|apply IH; auto].
  intros x Hx He. apply in_app_or in Hx as [Hx|[<-|[]]]; auto.
Qed.
Lemma ordered_del n1 m n2 : ordered (n1 ++ m :: n2) -> ordered (n1 ++ n2).
Proof.
  induction n1 as [|a n1 IH]; cbn; [tauto|]. intros [H1 H2]. split; auto. intros x Hx. apply H1.
  apply in_app_or in Hx as [?|?]; apply in_or_app; cbn; auto.
Qed.
Lemma ordered_lt n1 m n2 x : ordered (n1 ++ m :: n2) -> In x n2 -> m_src x = m_src m -> m_blk m < m_blk x.
Proof. induction n1 as [|a n1 IH]; cbn; [intros [H _]; auto|]. intros [_ H]; auto. Qed.
Lemma matches_eq s d t m : matches s d t m = true <-> m_src m = s /\ m_dst m = d /\ m_tag m = t.
Proof. unfold matches. rewrite !andb_true_iff, !Nat.eqb_eq. tauto. Qed.

Lemma ainv_start mem : (forall r, r < W -> L 0 r (mem r)) -> ainv (astart mem).
Proof.
  intros H. constructor; cbn; auto.
  - intros; lia.
  - intros m [].
  - intros. unfold pos in *. cbn in *. lia.
  - intros. unfold pos in *. cbn in *. lia.
Qed.
(* the message found by a receive is the one of the same block *)
Lemma recv_right c r b tag dst src out inp st n1 m n2 : ainv c -> r < W -> ranks c r = Rk b PSent st ->
  nth_error prog b = Some (BExch tag dst src out inp) -> net c = n1 ++ m :: n2 ->
  (forall x, In x n1 -> matches (src r) r tag x = false) -> matches (src r) r tag m = true -> m_blk m = b.
Proof.
  intros HI Hr Hrk Hb Hnet Hn1 Hm. apply matches_eq in Hm as (M1 & M2 & M3).
  destruct (an_ring _ _ _ _ HA _ _ _ _ _ _ r Hb Hr) as (R1 & R2 & R3 & R4).
  assert (Hin : In m (net c)) by (rewrite Hnet; apply in_or_app; right; now left).
  destruct (ai_msg _ HI m Hin) as (d & s & o & i & G1 & G2 & G3 & G4 & G5 & G6).
  rewrite M2, Hrk in G6. unfold pos in G6 at 1. cbn in G6.
  assert (Hge : b <= m_blk m) by lia.
  (* the sender has sent its message of block b *)
  rewrite M1 in G5. assert (Hs : 3 * b < pos (ranks c (src r))) by lia.
  destruct (ai_all _ HI (src r) b tag dst src out inp R2 Hb Hs) as (m' & K1 & K2 & K3).
  { rewrite R4, Hrk. unfold pos. cbn. lia. }
  destruct (ai_msg _ HI m' K1) as (d' & s' & o' & i' & G1' & _ & G3' & _).
  rewrite K3, Hb in G1'. injection G1' as T1 T2 T3 T4 T5. 
  assert (Hm' : matches (src r) r tag m' = true).
  { apply matches_eq. rewrite K2, G3', K2, <- T2, R4. auto. }
  rewrite Hnet in K1. apply in_app_or in K1 as [K1|[K1|K1]].
  - apply Hn1 in K1. congruence.
  - now subst m'.
  - pose proof (ai_ord _ HI) as Ho. rewrite Hnet in Ho. pose proof (ordered_lt _ _ _ _ Ho K1) as Hlt. rewrite K2, M1, K3 in Hlt.
    specialize (Hlt eq_refl). lia.
Qed.
Lemma pos_lt_blk (x : rk) b : pos x <= 3 * b + 1 -> r_ph x = PBegin -> r_blk x <= b.
Proof. unfold pos. intros H He. rewrite He in H. cbn in H. lia. Qed.

Lemma ainv_step c c' : ainv c -> astep W eager prog c c' -> ainv c'.
Proof.
  intros HI Hs. destruct Hs as
    [c r R st st' Hr Hrk Hb HR | c r b tag dst src out inp st Hr Hrk Hb
    | c r b tag dst src out inp st st' n1 m n2 Hr Hrk Hb Hnet Hn1 Hm Hinp | c r b st Hr Hrk Hw].
  - (* local *)
    set (b := r_blk (ranks c r)) in *. pose proof (ai_pre _ HI r Hr) as Hp. rewrite Hrk in Hp. cbn in Hp.
    destruct (an_local _ _ _ _ HA b R r st Hb Hr Hp) as [_ HL].
    assert (Hlen : b < length prog) by (apply nth_error_Some; congruence).
    assert (Hpos : pos (ranks c r) = 3 * b) by (rewrite Hrk; unfold pos; cbn; lia).
    assert (Hpos' : forall q, pos (ranks c q) <= pos (setr (ranks c) r (Rk (S b) PBegin st') q)).
    { intros q. destruct (Nat.eq_dec q r) as [->|Hne]; [rewrite setr_eq, Hpos; unfold pos; cbn; lia|rewrite setr_ne by auto; auto]. }
    assert (Hback : forall q b2 t d s o i, nth_error prog b2 = Some (BExch t d s o i) ->
       (3 * b2 < pos (setr (ranks c) r (Rk (S b) PBegin st') q) <-> 3 * b2 < pos (ranks c q)) /\
       (pos (setr (ranks c) r (Rk (S b) PBegin st') q) <= 3 * b2 + 1 <-> pos (ranks c q) <= 3 * b2 + 1)).
    { intros q b2 t d s o i Hb2. destruct (Nat.eq_dec q r) as [->|Hne]; [|rewrite setr_ne by auto; tauto].
      rewrite setr_eq, Hpos. assert (b2 <> b) by (intros ->; congruence). unfold pos. cbn. lia. }
    constructor; cbn [ranks net].
    + intros q Hq. destruct (Nat.eq_dec q r) as [->|Hne]; [rewrite setr_eq; cbn; auto|rewrite setr_ne by auto; now apply (ai_pre _ HI)].
    + intros q Hq. destruct (Nat.eq_dec q r) as [->|Hne]; [rewrite setr_eq; cbn; lia|rewrite setr_ne by auto; now apply (ai_len _ HI)].
    + intros m Hm. destruct (ai_msg _ HI m Hm) as (d & s & o & i & G1 & G2 & G3 & G4 & G5 & G6).
      exists d, s, o, i. split; [auto|]. split; [auto|]. split; [auto|]. split; [auto|]. split; eapply Hback; eauto.
    + apply (ai_ord _ HI).
    + intros q b2 t d s o i Hq Hb2 H1 H2. eapply (ai_all _ HI); eauto; eapply Hback; eauto.
    + intros q b2 t d s o i Hq Hb2 H1. eapply Hback; eauto. eapply (ai_sent _ HI); eauto.
      destruct (le_lt_dec (pos (ranks c (d q))) (3 * b2 + 1)) as [h|h]; auto. apply (Hback (d q) b2 t d s o i Hb2) in h. lia.
  - (* send *)
    pose proof (ai_pre _ HI r Hr) as Hp. rewrite Hrk in Hp. cbn in Hp.
    destruct (an_ring _ _ _ _ HA _ _ _ _ _ _ r Hb Hr) as (R1 & R2 & R3 & R4).
    assert (Hlen : b < length prog) by (apply nth_error_Some; congruence).
    assert (Hpos : pos (ranks c r) = 3 * b) by (rewrite Hrk; unfold pos; cbn; lia).
    assert (Hset : forall q, pos (setr (ranks c) r (Rk b PSent st) q) = if Nat.eqb q r then 3 * b + 1 else pos (ranks c q)).
    { intros q. unfold setr. destruct (Nat.eqb q r); unfold pos; cbn; lia. }
    constructor; cbn [ranks net].
    + intros q Hq. destruct (Nat.eq_dec q r) as [->|Hne]; [rewrite setr_eq; cbn; split; eauto 10|rewrite setr_ne by auto; now apply (ai_pre _ HI)].
    + intros q Hq. destruct (Nat.eq_dec q r) as [->|Hne]; [rewrite setr_eq; cbn; lia|rewrite setr_ne by auto; now apply (ai_len _ HI)].
    + intros m Hm. apply in_app_or in Hm as [Hm|[<-|[]]].
      * destruct (ai_msg _ HI m Hm) as (d & s & o & i & G1 & G2 & G3 & G4 & G5 & G6).
        exists d, s, o, i. split; [auto|]. split; [auto|]. split; [auto|]. split; [auto|]. rewrite !Hset. split.
        -- destruct (Nat.eqb_spec (m_src m) r) as [e|]; auto. rewrite e in G5. lia.
        -- destruct (Nat.eqb_spec (m_dst m) r) as [e|]; auto. rewrite e in G6. lia.
      * exists dst, src, out, inp. cbn [m_blk m_tag m_src m_dst m_dat]. split; [auto|]. split; [auto|]. split; [auto|]. split; [eapply (an_send _ _ _ _ HA); eauto|].
        rewrite !Hset, Nat.eqb_refl. split; [lia|]. destruct (Nat.eqb_spec (dst r) r); [lia|].
        destruct (le_lt_dec (pos (ranks c (dst r))) (3 * b + 1)) as [|Hgt]; auto. exfalso.
        apply (ai_sent _ HI r b tag dst src out inp Hr Hb) in Hgt. lia.
    + apply ordered_app; [apply (ai_ord _ HI)|]. cbn. intros x Hx He.
      destruct (ai_msg _ HI x Hx) as (d & s & o & i & G1 & G2 & G3 & G4 & G5 & G6). rewrite He, Hpos in G5. lia.
    + intros q b2 t d s o i Hq Hb2 H1 H2. rewrite !Hset in *.
      destruct (Nat.eqb_spec q r) as [->|Hne].
      * destruct (Nat.eq_dec b2 b) as [->|Hbb].
        -- eexists. split; [apply in_or_app; right; now left|]. now cbn.
        -- destruct (ai_all _ HI r b2 t d s o i Hq Hb2) as (m & M1 & M2); [lia| |exists m; split; [apply in_or_app; now left|auto]].
           destruct (Nat.eqb_spec (d r) r) as [e|]; auto. rewrite e. lia.
      * destruct (ai_all _ HI q b2 t d s o i Hq Hb2) as (m & M1 & M2); [auto| |exists m; split; [apply in_or_app; now left|auto]].
        destruct (Nat.eqb_spec (d q) r) as [e|]; auto. rewrite e. lia.
    + intros q b2 t d s o i Hq Hb2 H1. rewrite !Hset in *.
      assert (H1' : 3 * b2 + 1 < pos (ranks c (d q)) \/ (d q = r /\ b2 < b)).
      { destruct (Nat.eqb_spec (d q) r) as [e|]; auto. right. split; auto. lia. }
      assert (H2 : 3 * b2 < pos (ranks c q)).
      { destruct H1' as [h|[e h]]; [eapply (ai_sent _ HI); eauto|]. eapply (ai_sent _ HI); eauto. rewrite e. lia. }
      destruct (Nat.eqb_spec q r) as [e|]; auto. subst q. lia.
  - (* receive *)
    pose proof (recv_right c r b tag dst src out inp st n1 m n2 HI Hr Hrk Hb Hnet Hn1 Hm) as Hmb.
    apply matches_eq in Hm as (M1 & M2 & M3).
    pose proof (ai_pre _ HI r Hr) as Hp. rewrite Hrk in Hp. cbn in Hp. destruct Hp as [Hp _].
    destruct (an_ring _ _ _ _ HA _ _ _ _ _ _ r Hb Hr) as (R1 & R2 & R3 & R4).
    assert (Hin : In m (net c)) by (rewrite Hnet; apply in_or_app; right; now left).
    destruct (ai_msg _ HI m Hin) as (dm & sm & om & im & G1 & G2 & G3 & G4 & G5 & G6).
    rewrite Hmb, M1 in G4. rewrite Hmb, M1 in G5.
    destruct (an_recv _ _ _ _ HA b tag dst src out inp r st (m_dat m) Hb Hr Hp G4) as [_ HL].
    assert (Hlen : b < length prog) by (apply nth_error_Some; congruence).
    assert (Hpos : pos (ranks c r) = 3 * b + 1) by (rewrite Hrk; unfold pos; cbn; lia).
    assert (Hset : forall q, pos (setr (ranks c) r (Rk b PRecvd st') q) = if Nat.eqb q r then 3 * b + 2 else pos (ranks c q)).
    { intros q. unfold setr. destruct (Nat.eqb q r); unfold pos; cbn; lia. }
    assert (Hinj : forall q q' b2 t d s o i, q < W -> q' < W -> nth_error prog b2 = Some (BExch t d s o i) -> d q = d q' -> q = q').
    { intros q q' b2 t d s o i Hq Hq' Hb2 He.
      destruct (an_ring _ _ _ _ HA _ _ _ _ _ _ q Hb2 Hq) as (_ & _ & E1 & _).
      destruct (an_ring _ _ _ _ HA _ _ _ _ _ _ q' Hb2 Hq') as (_ & _ & E2 & _). congruence. }
    pose proof (ai_ord _ HI) as Ho. rewrite Hnet in Ho.
    assert (Huniq : forall x, In x (n1 ++ n2) -> m_src x = m_src m -> m_blk x <> b).
    { intros x Hx He Hbx. apply in_app_or in Hx as [Hx|Hx].
      - clear - Ho Hx He Hbx Hmb. induction n1 as [|a n1 IH]; [destruct Hx|]. cbn in Ho. destruct Ho as [O1 O2]. destruct Hx as [->|Hx]; [|auto].
        assert (Hlt := O1 m ltac:(apply in_or_app; right; now left) ltac:(congruence)). lia.
      - pose proof (ordered_lt _ _ _ _ Ho Hx He). lia. }
    assert (Hsub : forall x, In x (n1 ++ n2) -> In x (net c)).
    { intros x Hx. rewrite Hnet. apply in_app_or in Hx as [?|?]; apply in_or_app; cbn; auto. }
    constructor; cbn [ranks net].
    + intros q Hq. destruct (Nat.eq_dec q r) as [->|Hne]; [rewrite setr_eq; cbn; split; eauto 10|rewrite setr_ne by auto; now apply (ai_pre _ HI)].
    + intros q Hq. destruct (Nat.eq_dec q r) as [->|Hne]; [rewrite setr_eq; cbn; lia|rewrite setr_ne by auto; now apply (ai_len _ HI)].
    + intros x Hx. destruct (ai_msg _ HI x (Hsub x Hx)) as (d & s & o & i & X1 & X2 & X3 & X4 & X5 & X6).
      exists d, s, o, i. split; [auto|]. split; [auto|]. split; [auto|]. split; [auto|]. rewrite !Hset. split.
      * destruct (Nat.eqb_spec (m_src x) r) as [e|]; auto. rewrite e in X5. lia.
      * destruct (Nat.eqb_spec (m_dst x) r) as [e|]; auto. rewrite e in X6.
        destruct (Nat.eq_dec (m_blk x) b) as [eb|]; [|lia]. exfalso. rewrite eb in X1. rewrite Hb in X1. injection X1 as T1 T2 T3 T4 T5.
        apply (Huniq x Hx); auto. rewrite M1. apply (Hinj _ _ b tag dst src out inp); auto. congruence.
    + eapply ordered_del. exact Ho.
    + intros q b2 t d s o i Hq Hb2 H1 H2. rewrite !Hset in *.
      assert (H1' : 3 * b2 < pos (ranks c q)) by (destruct (Nat.eqb_spec q r) as [e|]; auto; rewrite e; lia).
      assert (H2' : pos (ranks c (d q)) <= 3 * b2 + 1) by (destruct (Nat.eqb_spec (d q) r) as [e|]; auto; rewrite e; lia).
      destruct (ai_all _ HI q b2 t d s o i Hq Hb2 H1' H2') as (x & X1 & X2 & X3).
      exists x. split; [|auto]. rewrite Hnet in X1. apply in_app_or in X1 as [X1|[X1|X1]]; [apply in_or_app; now left| |apply in_or_app; now right].
      exfalso. subst x. assert (Eb : b2 = b) by congruence. rewrite Eb, Hb in Hb2. injection Hb2 as T1 T2 T3 T4 T5.
      assert (e : d q = r) by (rewrite <- T2; congruence). rewrite e, Nat.eqb_refl in H2. lia.
    + intros q b2 t d s o i Hq Hb2 H1. rewrite !Hset in *.
      assert (H2 : 3 * b2 < pos (ranks c q)).
      { destruct (Nat.eqb_spec (d q) r) as [e|]; [|eapply (ai_sent _ HI); eauto].
        destruct (Nat.eq_dec b2 b) as [->|Hne].
        - rewrite Hb in Hb2. injection Hb2 as T1 T2 T3 T4 T5. assert (q = src r); [|subst q; lia].
          apply (Hinj _ _ b tag dst src out inp); auto. rewrite R4, T2. exact e.
        - eapply (ai_sent _ HI); eauto. rewrite e. lia. }
      destruct (Nat.eqb_spec q r) as [e|]; auto. subst q. lia.
  - (* wait *)
    pose proof (ai_pre _ HI r Hr) as Hp. rewrite Hrk in Hp. cbn in Hp. destruct Hp as [Hp (t0 & d0 & s0 & o0 & i0 & Hb)].
    assert (Hlen : b < length prog) by (apply nth_error_Some; congruence).
    assert (Hpos : pos (ranks c r) = 3 * b + 2) by (rewrite Hrk; unfold pos; cbn; lia).
    assert (Hset : forall q, pos (setr (ranks c) r (Rk (S b) PBegin st) q) = if Nat.eqb q r then 3 * b + 3 else pos (ranks c q)).
    { intros q. unfold setr. destruct (Nat.eqb q r); unfold pos; cbn; lia. }
    constructor; cbn [ranks net].
    + intros q Hq. destruct (Nat.eq_dec q r) as [->|Hne]; [rewrite setr_eq; cbn; auto|rewrite setr_ne by auto; now apply (ai_pre _ HI)].
    + intros q Hq. destruct (Nat.eq_dec q r) as [->|Hne]; [rewrite setr_eq; cbn; lia|rewrite setr_ne by auto; now apply (ai_len _ HI)].
    + intros x Hx. destruct (ai_msg _ HI x Hx) as (d & s & o & i & X1 & X2 & X3 & X4 & X5 & X6).
      exists d, s, o, i. split; [auto|]. split; [auto|]. split; [auto|]. split; [auto|]. rewrite !Hset. split.
      * destruct (Nat.eqb_spec (m_src x) r) as [e|]; auto. rewrite e in X5. lia.
      * destruct (Nat.eqb_spec (m_dst x) r) as [e|]; auto. rewrite e in X6. lia.
    + apply (ai_ord _ HI).
    + intros q b2 t d s o i Hq Hb2 H1 H2. rewrite !Hset in *.
      apply (ai_all _ HI q b2 t d s o i Hq Hb2).
      * destruct (Nat.eqb_spec q r) as [e|]; auto. rewrite e. lia.
      * destruct (Nat.eqb_spec (d q) r) as [e|]; auto. rewrite e. lia.
    + intros q b2 t d s o i Hq Hb2 H1. rewrite !Hset in *.
      assert (H2 : 3 * b2 < pos (ranks c q)).
      { eapply (ai_sent _ HI); eauto. destruct (Nat.eqb_spec (d q) r) as [e|]; auto. rewrite e. lia. }
      destruct (Nat.eqb_spec q r) as [e|]; auto. subst q. lia.
Qed.
Lemma ainv_steps c c' : ainv c -> asteps W eager prog c c' -> ainv c'.
Proof. intros HI H. induction H; auto. eapply ainv_step; [|eassumption]; auto. Qed.

(* some rank is least advanced *)
Lemma pos_mk b ph st : pos (Rk b ph st) = 3 * b + phn ph.
Proof. reflexivity. Qed.
Lemma least_fn (f : nat -> nat) w : 0 < w -> exists r, r < w /\ forall q, q < w -> f r <= f q.
Proof.
  induction w as [|w IH]; [lia|]. intros _. destruct w as [|w]; [exists 0; split; [lia|]; intros q Hq; assert (q = 0) by lia; now subst|].
  destruct IH as (r & Hr & Hm); [lia|]. destruct (le_lt_dec (f r) (f (S w))) as [h|h].
  - exists r. split; [lia|]. intros q Hq. destruct (Nat.eq_dec q (S w)) as [->|]; auto. apply Hm. lia.
  - exists (S w). split; [lia|]. intros q Hq. destruct (Nat.eq_dec q (S w)) as [->|]; auto. specialize (Hm q ltac:(lia)). lia.
Qed.
Lemma least c : 0 < W -> exists r, r < W /\ forall q, q < W -> pos (ranks c r) <= pos (ranks c q).
Proof. apply (least_fn (fun r => pos (ranks c r))). Qed.
(* no deadlock *)
Lemma ainv_progress c : 0 < W -> ainv c -> finished W prog c \/ exists c', astep W eager prog c c'.
Proof.
  intros HW HI. destruct (least c HW) as (r & Hr & Hm).
  destruct (ranks c r) as [b ph st] eqn:Hrk. try rewrite Hrk in Hm. pose proof (ai_pre _ HI r Hr) as Hp. rewrite Hrk in Hp.
  pose proof (ai_len _ HI r Hr) as Hl. rewrite Hrk in Hl. cbn [r_blk] in Hl. destruct ph; cbn in Hp.
  - destruct (nth_error prog b) as [[R|tag dst src out inp]|] eqn:Hb.
    + right. destruct (an_local _ _ _ _ HA b R r st Hb Hr Hp) as [(st' & H) _]. eexists. eapply (s_local W eager prog c r R st st'); rewrite ?Hrk; cbn; eauto.
    + right. eexists. eapply s_send; eauto.
    + left. apply nth_error_None in Hb. assert (b = length prog) by lia. subst b.
      assert (Hall : forall q, q < W -> r_blk (ranks c q) = length prog /\ r_ph (ranks c q) = PBegin).
      { intros q Hq. specialize (Hm q Hq). pose proof (ai_len _ HI q Hq) as Hlq. unfold pos in Hm at 1. cbn in Hm.
        pose proof (ai_pre _ HI q Hq) as Hpq. destruct (ranks c q) as [bq phq stq] eqn:Eq. unfold pos in Hm. cbn in *.
        destruct phq; cbn in *; [split; [lia|auto]| |]; destruct Hpq as [_ (t & d & s & o & i & Hb')];
          assert (bq < length prog) by (apply nth_error_Some; congruence); lia. }
      split; auto. destruct (net c) as [|m l] eqn:Hn; auto. exfalso.
      destruct (ai_msg _ HI m) as (d & s & o & i & G1 & G2 & G3 & G4 & G5 & G6); [rewrite Hn; now left|].
      assert (m_blk m < length prog) by (apply nth_error_Some; congruence).
      destruct (an_ring _ _ _ _ HA _ _ _ _ _ _ (m_src m) G1 G2) as (R1 & _). rewrite <- G3 in R1.
      destruct (Hall _ R1) as [A1 A2]. unfold pos in G6. rewrite A1, A2 in G6. cbn in G6. lia.
  - right. destruct Hp as [Hp (tag & dst & src & out & inp & Hb)].
    destruct (an_ring _ _ _ _ HA _ _ _ _ _ _ r Hb Hr) as (R1 & R2 & R3 & R4).
    assert (Hs : 3 * b < pos (ranks c (src r))). { specialize (Hm (src r) R2). rewrite pos_mk in Hm. cbn [phn] in Hm. lia. }
    destruct (ai_all _ HI (src r) b tag dst src out inp R2 Hb Hs) as (m & K1 & K2 & K3).
    { rewrite R4, Hrk. unfold pos. cbn. lia. }
    destruct (ai_msg _ HI m K1) as (d' & s' & o' & i' & G1' & _ & G3' & _).
    rewrite K3, Hb in G1'. injection G1' as T1 T2 T3 T4 T5.
    assert (Hmm : matches (src r) r tag m = true) by (apply matches_eq; rewrite K2, G3', K2, <- T2, R4; auto).
    (* the first matching message *)
    assert (Hfirst : forall l, In m l -> exists n1 x n2, l = n1 ++ x :: n2 /\ (forall y, In y n1 -> matches (src r) r tag y = false) /\ matches (src r) r tag x = true).
    { induction l as [|y l IH]; [intros []|]. intros Hy. destruct (matches (src r) r tag y) eqn:My.
      - exists [], y, l. repeat split; auto. intros ? [].
      - destruct Hy as [->|Hy]; [congruence|]. destruct (IH Hy) as (n1 & x & n2 & E1 & E2 & E3).
        exists (y :: n1), x, n2. rewrite E1. repeat split; auto. intros z [<-|Hz]; auto. }
    destruct (Hfirst (net c) K1) as (n1 & x & n2 & E1 & E2 & E3).
    pose proof (recv_right c r b tag dst src out inp st n1 x n2 HI Hr Hrk Hb E1 E2 E3) as Hxb.
    assert (Hx : In x (net c)) by (rewrite E1; apply in_or_app; right; now left).
    destruct (ai_msg _ HI x Hx) as (dx & sx & ox & ix & _ & _ & _ & X4 & _). apply matches_eq in E3 as E3'. destruct E3' as (Y1 & Y2 & Y3).
    rewrite Hxb, Y1 in X4. destruct (an_recv _ _ _ _ HA b tag dst src out inp r st (m_dat x) Hb Hr Hp X4) as [(st' & Hst') _].
    eexists. apply (s_recv W eager prog c r b tag dst src out inp st st' n1 x n2); auto.
  - right. eexists. apply (s_wait W eager prog c r b st); auto. right. intros x Hx He.
    destruct (ai_msg _ HI x Hx) as (d & s & o & i & G1 & G2 & G3 & G4 & G5 & G6). rewrite He, Hrk, pos_mk in G5. cbn [phn] in G5.
    destruct (an_ring _ _ _ _ HA _ _ _ _ _ _ (m_src x) G1 G2) as (R1 & _). rewrite <- G3 in R1.
    specialize (Hm _ R1). rewrite pos_mk in Hm. cbn [phn] in Hm. lia.
Qed.
(* every execution is finite *)
Fixpoint rsumn (w : nat) (f : nat -> nat) : nat := match w with 0 => 0 | S w => rsumn w f + f w end.
Definition left_to_do (c : config) : nat := rsumn W (fun r => 3 * length prog + 2 - pos (ranks c r)).
Lemma rsumn_lt w f g r : r < w -> (forall q, q < w -> f q <= g q) -> f r < g r -> rsumn w f < rsumn w g.
Proof.
  induction w as [|w IH]; [lia|]. intros Hr Hle Hlt. cbn.
  assert (Hs : rsumn w f <= rsumn w g).
  { clear - Hle. induction w as [|w IH]; cbn; auto. assert (forall q, q < S w -> f q <= g q) by (intros; apply Hle; lia). pose proof (H w ltac:(lia)). assert (rsumn w f <= rsumn w g) by (apply IH; intros; apply Hle; lia). lia. }
  destruct (Nat.eq_dec r w) as [->|]; [lia|]. specialize (IH ltac:(lia) ltac:(intros; apply Hle; lia) Hlt). pose proof (Hle w ltac:(lia)). lia.
Qed.
Lemma astep_dec c c' : ainv c -> astep W eager prog c c' -> left_to_do c' < left_to_do c.
Proof.
  intros HI Hs.
  assert (H : exists r x, r < W /\ (forall q, ranks c' q = setr (ranks c) r x q) /\ pos (ranks c r) < pos x /\ pos (ranks c r) < 3 * length prog + 2).
  { destruct Hs as [c r R st st' Hr Hrk Hb HR | c r b tag dst src out inp st Hr Hrk Hb
    | c r b tag dst src out inp st st' n1 m n2 Hr Hrk Hb Hnet Hn1 Hm Hinp | c r b st Hr Hrk Hw]; cbn [ranks];
    eexists r, _; (split; [exact Hr|]; split; [reflexivity|]).
    - pose proof (ai_len _ HI r Hr). rewrite Hrk in *. rewrite ?pos_mk. cbn [phn r_blk] in *. lia.
    - pose proof (ai_len _ HI r Hr). rewrite Hrk in *. rewrite ?pos_mk. cbn [phn r_blk] in *. lia.
    - pose proof (ai_len _ HI r Hr). rewrite Hrk in *. rewrite ?pos_mk. cbn [phn r_blk] in *. lia.
    - pose proof (ai_pre _ HI r Hr) as Hp. rewrite Hrk in *. cbn in Hp. destruct Hp as [_ (t & d & s & o & i & Hb)].
      assert (b < length prog) by (apply nth_error_Some; congruence). unfold pos. cbn. lia. }
  destruct H as (r & x & Hr & Hq & H1 & H2). unfold left_to_do. apply (rsumn_lt W _ _ r Hr).
  - intros q _. rewrite Hq. unfold setr. destruct (Nat.eqb_spec q r) as [->|]; lia.
  - rewrite Hq, setr_eq. lia.
Qed.

(* The rule: from memories satisfying L 0, every execution under every
   interleaving keeps the annotations, is finite, never blocks before all ranks
   are done, and ends with no message left and L at the end. *)
Theorem async_rule mem c : 0 < W -> (forall r, r < W -> L 0 r (mem r)) -> asteps W eager prog (astart mem) c ->
  (forall r, r < W -> r_ph (ranks c r) = PBegin -> L (r_blk (ranks c r)) r (r_mem (ranks c r))) /\
  (finished W prog c \/ exists c', astep W eager prog c c') /\
  Acc (fun y x => astep W eager prog x y) c /\
  (finished W prog c -> forall r, r < W -> L (length prog) r (r_mem (ranks c r))).
Proof.
  intros HW H0 Hs. assert (HI : ainv c) by (eapply ainv_steps; eauto; now apply ainv_start).
  split; [|split; [|split]].
  - intros r Hr Hph. pose proof (ai_pre _ HI r Hr) as Hp. unfold lpre in Hp. now rewrite Hph in Hp.
  - now apply ainv_progress.
  - clear - HI HA. remember (left_to_do c) as n eqn:Hn. revert c HI Hn. induction n as [n IH] using lt_wf_ind. intros c HI ->.
    constructor. intros c' Hs. eapply (IH (left_to_do c')); [apply astep_dec; assumption|eapply ainv_step; eauto|reflexivity].
  - intros [Hf _] r Hr. destruct (Hf r Hr) as [E1 E2]. pose proof (ai_pre _ HI r Hr) as Hp. unfold lpre in Hp. rewrite E2, E1 in Hp. exact Hp.
Qed.
End Rule.

(* ---- the rule, composed ---- *)
Definition Ann (W : nat) (prog : list block) (Pre Post : nat -> St -> Prop) : Prop :=
  exists L P, annotated W prog L P /\
    (forall r st, r < W -> Pre r st -> L 0 r st) /\ (forall r st, r < W -> L (length prog) r st -> Post r st).
Lemma ann_local W R (Pre Post : nat -> St -> Prop) :
  (forall r st, r < W -> Pre r st -> (exists st', R r st st') /\ forall st', R r st st' -> Post r st') ->
  Ann W [BLocal R] Pre Post.
Proof.
  intros H. exists (fun b r st => match b with 0 => Pre r st | _ => Post r st end), (fun _ _ _ => True).
  split; [|split; auto]. constructor.
  - intros [|[|b]] R' r st Hb Hr HL; cbn in Hb; try discriminate. injection Hb as <-. apply H; auto.
  - intros [|[|b]] t d s o i r Hb; cbn in Hb; discriminate.
  - intros [|[|b]] t d s o i r st Hb; cbn in Hb; discriminate.
  - intros [|[|b]] t d s o i r st x Hb; cbn in Hb; discriminate.
Qed.
Lemma ann_exch W tag dst src out inp (Pre Post : nat -> St -> Prop) (PP : nat -> Pl -> Prop) :
  (forall r, r < W -> dst r < W /\ src r < W /\ src (dst r) = r /\ dst (src r) = r) ->
  (forall r st, r < W -> Pre r st -> PP r (out st)) ->
  (forall r st x, r < W -> Pre r st -> PP (src r) x -> (exists st', inp r x st st') /\ forall st', inp r x st st' -> Post r st') ->
  Ann W [BExch tag dst src out inp] Pre Post.
Proof.
  intros H1 H2 H3. exists (fun b r st => match b with 0 => Pre r st | _ => Post r st end), (fun _ => PP).
  split; [|split; auto]. constructor.
  - intros [|[|b]] R' r st Hb; cbn in Hb; discriminate.
  - intros [|[|b]] t d s o i r Hb Hr; cbn in Hb; try discriminate. injection Hb as <- <- <- <- <-. auto.
  - intros [|[|b]] t d s o i r st Hb Hr HL; cbn in Hb; try discriminate. injection Hb as <- <- <- <- <-. auto.
  - intros [|[|b]] t d s o i r st x Hb Hr HL; cbn in Hb; try discriminate. injection Hb as <- <- <- <- <-. auto.
Qed.
Lemma ann_nil W (Pre : nat -> St -> Prop) : Ann W [] Pre Pre.
Proof.
  exists (fun _ => Pre), (fun _ _ _ => True). split; [|auto]. constructor; intros [|b]; cbn; discriminate.
Qed.
Lemma ann_app W p1 p2 (Pre Mid Post : nat -> St -> Prop) : Ann W p1 Pre Mid -> Ann W p2 Mid Post -> Ann W (p1 ++ p2) Pre Post.
Proof.
  intros (L1 & P1 & A1 & I1 & O1) (L2 & P2 & A2 & I2 & O2). set (k := length p1).
  exists (fun b => if b <? k then L1 b else L2 (b - k)), (fun b => if b <? k then P1 b else P2 (b - k)).
  assert (Hnth : forall b x, nth_error (p1 ++ p2) b = Some x ->
    (b < k /\ nth_error p1 b = Some x) \/ (k <= b /\ nth_error p2 (b - k) = Some x)).
  { intros b x Hb. destruct (lt_dec b k) as [h|h]; [left|right]; (split; [lia|]).
    - rewrite nth_error_app1 in Hb; auto. - rewrite nth_error_app2 in Hb; [exact Hb|lia]. }
  assert (Hnext : forall b r st, r < W -> b < k -> L1 (S b) r st -> (if S b <? k then L1 (S b) else L2 (S b - k)) r st).
  { intros b r st Hr Hb HL. destruct (Nat.ltb_spec (S b) k); auto. assert (S b = k) by lia.
    replace (S b - k) with 0 by lia. apply I2; auto. apply O1; auto. fold k. congruence. }
  assert (Hlt : forall b, b < k -> (b <? k) = true) by (intros; now apply Nat.ltb_lt).
  assert (Hge : forall b, k <= b -> (b <? k) = false) by (intros; now apply Nat.ltb_ge).
  split; [constructor|split].
  - intros b R r st Hb Hr HL. destruct (Hnth _ _ Hb) as [[h h']|[h h']].
    + rewrite Hlt in HL by auto. destruct (an_local _ _ _ _ A1 b R r st h' Hr HL) as [X Y]. split; [exact X|]. intros st' HR. apply (Hnext b); auto.
    + rewrite Hge in HL by auto. destruct (an_local _ _ _ _ A2 (b - k) R r st h' Hr HL) as [X Y]. split; auto.
      intros st' HR. rewrite Hge by lia. replace (S b - k) with (S (b - k)) by lia. auto.
  - intros b t d s o i r Hb Hr. destruct (Hnth _ _ Hb) as [[h h']|[h h']]; [eapply (an_ring _ _ _ _ A1)|eapply (an_ring _ _ _ _ A2)]; eauto.
  - intros b t d s o i r st Hb Hr HL. destruct (Hnth _ _ Hb) as [[h h']|[h h']].
    + rewrite Hlt in * by auto. eapply (an_send _ _ _ _ A1); eauto.
    + rewrite Hge in * by auto. eapply (an_send _ _ _ _ A2); eauto.
  - intros b t d s o i r st x Hb Hr HL HP. destruct (Hnth _ _ Hb) as [[h h']|[h h']].
    + rewrite Hlt in HL, HP by auto. destruct (an_recv _ _ _ _ A1 b t d s o i r st x h' Hr HL HP) as [X Y]. split; [exact X|]. intros st' HR. apply (Hnext b); auto.
    + rewrite Hge in HL, HP by auto. destruct (an_recv _ _ _ _ A2 (b - k) t d s o i r st x h' Hr HL HP) as [X Y]. split; auto.
      intros st' HR. rewrite Hge by lia. replace (S b - k) with (S (b - k)) by lia. auto.
  - intros r st Hr HP. destruct (Nat.ltb_spec 0 k); [now apply I1|]. cbn. apply I2; auto. apply O1; auto. fold k. replace k with 0 by lia. auto.
  - intros r st Hr. rewrite app_length. fold k. rewrite Hge by lia. replace (k + length p2 - k) with (length p2) by lia. auto.
Qed.
Lemma ann_conseq W p (Pre Post Pre' Post' : nat -> St -> Prop) : (forall r st, r < W -> Pre' r st -> Pre r st) ->
  (forall r st, r < W -> Post r st -> Post' r st) -> Ann W p Pre Post -> Ann W p Pre' Post'.
Proof. intros H1 H2 (L & P & A & I & O). exists L, P. split; auto. Qed.
Theorem ann_sound W eager prog (Pre Post : nat -> St -> Prop) mem c : 0 < W -> Ann W prog Pre Post ->
  (forall r, r < W -> Pre r (mem r)) -> asteps W eager prog (astart mem) c ->
  (finished W prog c \/ exists c', astep W eager prog c c') /\
  Acc (fun y x => astep W eager prog x y) c /\
  (finished W prog c -> forall r, r < W -> Post r (r_mem (ranks c r))).
Proof.
  intros HW (L & P & A & I & O) H0 Hs.
  destruct (async_rule W eager prog L P A mem c HW (fun r Hr => I r _ Hr (H0 r Hr)) Hs) as (_ & X & Y & Z).
  split; auto.
Qed.
End Async.
