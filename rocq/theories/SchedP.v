(* SchedP.v -- C65: what holds of initMT / terminateMT under every interleaving *)
From Coq Require Import Arith ZArith Bool List Lia Permutation.
From Verif Require Import Sched.
Import ListNotations.

(* ---- specification ---- *)
(* the values the calls should return: initMT gives the number of threads in use *)
Definition result (c : call) : option Z := match c with Init n => Some (if (1 <? n)%Z then n else 1%Z) | Term => None end.
(* how many Schedulers a script makes when [cur] threads are in use *)
Fixpoint creations (cur : Z) (l : list call) : nat :=
  match l with
  | [] => 0
  | Init n :: r => if (n =? cur)%Z then creations cur r else if (1 <? n)%Z then S (creations n r) else creations 1 r
  | Term :: r => creations 1 r
  end.
Definition completed (s : st) : Prop := pc s = MIdle /\ script s = [].
(* a thread that may look for fibers in the other schedulers *)
Definition past (t : th) : bool := match tp t with PGo | PWait | PWoken | PDone => true | _ => false end.
Definition ths (s : st) : list th := mth s :: ws s.

(* ---- lists ---- *)
Section Lists.
Context {A : Type}.
Implicit Types (l : list A) (f : A -> bool).
Lemma setnth_length i x l : length (setnth i x l) = length l.
Proof. revert i. induction l as [|y l IH]; intros [|i]; cbn; auto. Qed.
Lemma setnth_same i x l : i < length l -> nth_error (setnth i x l) i = Some x.
Proof. revert i. induction l as [|y l IH]; intros [|i] H; cbn in *; auto; try lia. apply IH. lia. Qed.
Lemma setnth_other i j x l : i <> j -> nth_error (setnth i x l) j = nth_error l j.
Proof. revert i j. induction l as [|y l IH]; intros [|i] [|j] H; cbn; auto; try lia. Qed.
Lemma setnth_split i x l y : nth_error l i = Some y -> exists l1 l2, l = l1 ++ y :: l2 /\ setnth i x l = l1 ++ x :: l2.
Proof.
  revert i. induction l as [|z l IH]; intros [|i] H; cbn in H; try discriminate.
  - injection H as ->. exists [], l. auto.
  - destruct (IH i H) as (l1 & l2 & E1 & E2). exists (z :: l1), l2. cbn. now rewrite E1 at 1; rewrite E2.
Qed.
End Lists.

Definition hasid (t : th) : bool := match tp t with PNew => false | _ => true end.
Definition isbar (t : th) : bool := match tp t with PBar => true | _ => false end.
Definition isreg (t : th) : bool := match tp t with PNew | PId => false | _ => true end.
Definition ids (l : list th) : list nat := map tid (filter hasid l).
Definition nbar (l : list th) : nat := length (filter isbar l).
Lemma filter_mid {A} (f : A -> bool) l1 x l2 : filter f (l1 ++ x :: l2) = filter f l1 ++ (if f x then [x] else []) ++ filter f l2.
Proof. rewrite filter_app. cbn. now destruct (f x). Qed.
Lemma ids_keep i t t' l : nth_error l i = Some t -> hasid t = true -> hasid t' = true -> tid t' = tid t -> ids (setnth i t' l) = ids l.
Proof.
  intros H H1 H2 H3. destruct (setnth_split i t' l t H) as (l1 & l2 & E1 & E2). rewrite E2, E1. unfold ids. rewrite !filter_mid, H1, H2, !map_app. cbn. now rewrite H3.
Qed.
Lemma ids_new i t c l : nth_error l i = Some t -> hasid t = false -> Permutation (ids (setnth i (Th PId c) l)) (c :: ids l).
Proof.
  intros H H1. destruct (setnth_split i (Th PId c) l t H) as (l1 & l2 & E1 & E2). rewrite E2, E1. unfold ids. rewrite !filter_mid, H1, !map_app. cbn.
  symmetry. apply Permutation_middle.
Qed.
Lemma nbar_set i t t' l : nth_error l i = Some t -> nbar (setnth i t' l) + (if isbar t then 1 else 0) = nbar l + (if isbar t' then 1 else 0).
Proof.
  intros H. destruct (setnth_split i t' l t H) as (l1 & l2 & E1 & E2). rewrite E2, E1. unfold nbar. rewrite !filter_mid, !app_length.
  destruct (isbar t), (isbar t'); cbn; lia.
Qed.
Lemma in_set {A} i (x : A) l y : In y (setnth i x l) -> y = x \/ In y l.
Proof.
  revert i. induction l as [|z l IH]; intros [|i] H; cbn in H; auto.
  - destruct H as [<-|H]; [auto|]. right. now right.
  - destruct H as [<-|H]; [right; now left|]. destruct (IH i H); auto. right. now right.
Qed.

(* main is index 0, worker i is index S i *)
Definition ix (who : option nat) : nat := match who with None => 0 | Some i => S i end.
Lemma getth_nth who s t : getth who s = Some t -> nth_error (ths s) (ix who) = Some t.
Proof. destruct who as [i|]; cbn; auto. destruct (pc s); try discriminate. auto. Qed.
Lemma ths_set who t s : ths (setth who t s) = setnth (ix who) t (ths s).
Proof. destruct who; reflexivity. Qed.
Lemma setth_f who t s : cnt (setth who t s) = cnt s /\ bar (setth who t s) = bar s /\ arr (setth who t s) = arr s /\ tc (setth who t s) = tc s /\
  pc (setth who t s) = pc s /\ flag (setth who t s) = flag s /\ nthr (setth who t s) = nthr s /\ script (setth who t s) = script s /\ rets (setth who t s) = rets s.
Proof. destruct who; cbn; repeat split. Qed.

(* ---- the invariant ---- *)
Definition pend (p : mpc) : nat := match p with MNotify (Some m) | MJoin (Some m) => if (1 <? m)%Z then 1 else 0 | _ => 0 end.
Definition cur (s : st) : Z := match pc s with MNotify (Some m) | MJoin (Some m) => if (1 <? m)%Z then m else 1%Z | _ => nthr s end.
Definition pret (s : st) : list (option Z) :=
  match pc s with
  | MIdle => []
  | MNotify k | MJoin k => [match k with None => None | Some m => result (Init m) end]
  | MSpawn | MCtor => [Some (nthr s)]
  end.
Definition early (s : st) : Prop := forall t, In t (ths s) -> past t = false.
Definition released (s : st) : Prop := forall t, In t (ths s) -> past t = true.
Record gen1 (n : nat) (s : st) : Prop := {
  g_tc : tc s = n; g_n : 2 <= n;
  g_len : S (length (ws s)) <= n;
  g_spawn : pc s = MSpawn -> tp (mth s) = PNew;
  g_full : pc s <> MSpawn -> S (length (ws s)) = n;
  g_nd : NoDup (ids (ths s));
  g_lt : forall i, In i (ids (ths s)) -> i < cnt s;
  g_cnt : cnt s = length (ids (ths s));
  g_arr : match arr s with
          | None => bar s = None /\ forall t, In t (ths s) -> isreg t = false
          | Some a => length a = n /\ (forall t, In t (ths s) -> isreg t = true -> nth_error a (tid t) = Some true) /\
              exists miss, bar s = Some (n, miss) /\
                ((early s /\ 1 <= miss /\ miss + nbar (ths s) = n) \/ (released s /\ miss = n))
          end;
  g_main : pc s <> MSpawn -> pc s <> MCtor -> released s /\ arr s <> None
}.
(* after a second Scheduler was started: nobody can register any more *)
Record gen2 (s : st) : Prop := {
  h_pc : pc s = MSpawn \/ pc s = MCtor;
  h_len : S (length (ws s)) <= tc s;
  h_arr : exists a, arr s = Some a /\ length a <= cnt s /\ forall t, In t (ths s) -> isreg t = false /\ (hasid t = true -> length a <= tid t)
}.
Definition okflag (s : st) : Prop := (if flag s then (1 < nthr s)%Z else nthr s = 1%Z) /\
  match pc s with MNotify _ | MJoin _ => flag s = false | MSpawn | MCtor => flag s = true | MIdle => True end.
Record fresh (s : st) : Prop := { f_cnt : cnt s = 0; f_bar : bar s = None; f_arr : arr s = None; f_ws : ws s = []; f_pc : pc s = MIdle; f_flag : flag s = false; f_mth : tp (mth s) = PNew }.
Inductive good (T : nat) (R : list (option Z)) (s : st) : Prop :=
| good_fresh : fresh s -> okflag s -> T = creations 1 (script s) -> R = rets s ++ map result (script s) -> good T R s
| good_one n : gen1 n s -> okflag s -> T = 1 + pend (pc s) + creations (cur s) (script s) -> R = rets s ++ pret s ++ map result (script s) -> good T R s
| good_two : gen2 s -> 2 <= T -> good T R s.

Lemma good_boot l : good (creations 1 l) (map result l) (boot l).
Proof. apply good_fresh; try reflexivity; [now constructor|]. split; reflexivity. Qed.

(* changes that do not concern the threads *)
Lemma gen1_pc n s s' : gen1 n s -> cnt s' = cnt s -> bar s' = bar s -> arr s' = arr s -> ws s' = ws s -> mth s' = mth s -> tc s' = tc s ->
  released s -> arr s <> None -> pc s' <> MSpawn -> pc s' <> MCtor -> pc s <> MSpawn -> gen1 n s'.
Proof.
  intros [] E1 E2 E3 E4 E5 E6 Hr Ha H1 H2 H3. assert (Et : ths s' = ths s) by (unfold ths; congruence).
  constructor; rewrite ?Et, ?E1, ?E2, ?E3, ?E4, ?E5, ?E6; auto; try contradiction.
  - destruct (arr s) as [a|]; auto. destruct g_arr0 as (A1 & A2 & miss & A3 & A4). split; auto. split; auto. exists miss. split; auto.
    unfold early, released in *. now rewrite Et.
  - intros _ _. unfold released in *. rewrite Et. auto.
Qed.
Lemma creations_pend m s : (m <> nthr s)%Z -> creations (nthr s) (Init m :: script s) = (if (1 <? m)%Z then 1 else 0) + creations (if (1 <? m)%Z then m else 1%Z) (script s).
Proof. intros H. cbn [creations]. rewrite (proj2 (Z.eqb_neq _ _) H). now destruct (1 <? m)%Z. Qed.
Lemma result_same s n : okflag s -> n = nthr s -> result (Init n) = Some (nthr s).
Proof. unfold okflag. intros [Ho _] ->. cbn. destruct (flag s); [rewrite (proj2 (Z.ltb_lt _ _) Ho); auto|rewrite Ho; auto]. Qed.

(* a step of the constructor in the first generation *)
Lemma past_reg t : past t = true -> isreg t = true.
Proof. unfold past, isreg. now destruct (tp t). Qed.
Lemma gen1_upd n s who t t' : gen1 n s -> getth who s = Some t -> hasid t = true -> hasid t' = true -> tid t' = tid t ->
  isreg t = isreg t' -> past t = past t' -> isbar t = isbar t' -> gen1 n (setth who t' s).
Proof.
  intros HG Hw H1 H2 H3 H4 H5 H6. pose proof (getth_nth who s t Hw) as Hn. destruct HG.
  destruct (setth_f who t' s) as (F1 & F2 & F3 & F4 & F5 & F6 & F7 & F8 & F9).
  assert (Hids : ids (ths (setth who t' s)) = ids (ths s)) by (rewrite ths_set; eapply ids_keep; eauto).
  assert (Hin : forall x, In x (ths (setth who t' s)) -> In x (ths s) \/ x = t') by (intros x Hx; rewrite ths_set in Hx; apply in_set in Hx; tauto).
  assert (Ht : In t (ths s)) by (eapply nth_error_In; eauto).
  assert (Hlen : length (ws (setth who t' s)) = length (ws s)) by (destruct who; cbn; auto using setnth_length).
  assert (Hnb : nbar (ths (setth who t' s)) = nbar (ths s)) by (rewrite ths_set; pose proof (nbar_set (ix who) t t' (ths s) Hn) as Hb; rewrite H6 in Hb; lia).
  constructor; rewrite ?Hids, ?F1, ?F4, ?F5, ?Hlen; auto.
  - intros Hp. specialize (g_spawn0 Hp). destruct who as [i|]; cbn; auto. cbn in Hw. rewrite Hp in Hw. discriminate.
  - rewrite F3, F2. destruct (arr s) as [a|].
    + destruct g_arr0 as (A1 & A2 & miss & A3 & A4). split; auto. split.
      * intros x Hx Hr. destruct (Hin x Hx) as [h| ->]; auto. rewrite H3. apply A2; auto. congruence.
      * exists miss. split; auto. rewrite Hnb. destruct A4 as [(B1 & B2 & B3)|(B1 & B2)]; [left|right]; (split; auto); intros x Hx; destruct (Hin x Hx) as [h| ->]; auto; rewrite <- H5; auto.
    + destruct g_arr0 as (A1 & A2). split; auto. intros x Hx. destruct (Hin x Hx) as [h| ->]; auto. rewrite <- H4. auto.
  - intros P1 P2. destruct (g_main0 P1 P2) as [Q1 Q2]. rewrite F3. split; auto. intros x Hx. destruct (Hin x Hx) as [h| ->]; auto. rewrite <- H5. auto.
Qed.
Lemma ids_le l : length (ids l) <= length l.
Proof. unfold ids. rewrite map_length. induction l as [|x l IH]; cbn; auto. destruct (hasid x); cbn; lia. Qed.
Lemma gen1_cnt_le n s : gen1 n s -> cnt s <= n.
Proof. intros []. rewrite g_cnt0. eapply Nat.le_trans; [apply ids_le|]. exact g_len0. Qed.
Lemma hasid_ids t l : In t l -> hasid t = true -> In (tid t) (ids l).
Proof. intros H1 H2. unfold ids. apply in_map, filter_In. auto. Qed.

Lemma gen1_id n s who t : gen1 n s -> getth who s = Some t -> tp t = PNew -> gen1 n (setth who (Th PId (cnt s)) (upd_cnt s (S (cnt s)))).
Proof.
  intros HG Hw Hp. pose proof (getth_nth who s t Hw) as Hn. pose proof HG as HG'. destruct HG'.
  set (s1 := upd_cnt s (S (cnt s))). set (t' := Th PId (cnt s)). assert (E1 : ths s1 = ths s) by reflexivity.
  destruct (setth_f who t' s1) as (F1 & F2 & F3 & F4 & F5 & F6 & F7 & F8 & F9).
  assert (Hh : hasid t = false) by (unfold hasid; now rewrite Hp).
  assert (Hperm : Permutation (ids (ths (setth who t' s1))) (cnt s :: ids (ths s))) by (rewrite ths_set, E1; eapply ids_new; eauto).
  assert (Hin : forall x, In x (ths (setth who t' s1)) -> In x (ths s) \/ x = t') by (intros x Hx; rewrite ths_set in Hx; apply in_set in Hx; rewrite E1 in Hx; tauto).
  assert (Ht : In t (ths s)) by (eapply nth_error_In; eauto).
  assert (Hlen : length (ws (setth who t' s1)) = length (ws s)) by (destruct who; cbn; auto using setnth_length).
  assert (Hb1 : isbar t = false) by (unfold isbar; now rewrite Hp).
  assert (Hnb : nbar (ths (setth who t' s1)) = nbar (ths s)).
  { rewrite ths_set, E1. pose proof (nbar_set (ix who) t t' (ths s) Hn) as Hb. rewrite Hb1 in Hb. change (isbar t') with false in Hb. cbv iota in Hb. lia. }
  assert (Hpast : past t = false) by (unfold past; now rewrite Hp).
  constructor; rewrite ?F1, ?F4, ?F5, ?Hlen; auto.
  - intros Hq. change (pc s = MSpawn) in Hq. specialize (g_spawn0 Hq). destruct who as [i|]; cbn; auto. cbn in Hw. rewrite Hq in Hw. discriminate.
  - eapply Permutation_NoDup; [symmetry; exact Hperm|]. constructor; auto. intros h. apply g_lt0 in h. lia.
  - intros i Hi. cbn [cnt upd_cnt s1]. apply (Permutation_in _ Hperm) in Hi as [<-|Hi]; [lia|]. apply g_lt0 in Hi. lia.
  - rewrite (Permutation_length Hperm). cbn [length]. rewrite <- g_cnt0. reflexivity.
  - rewrite F3, F2. cbn [arr bar upd_cnt s1]. destruct (arr s) as [a|].
    + destruct g_arr0 as (A1 & A2 & miss & A3 & A4). split; auto. split.
      * intros x Hx Hr. destruct (Hin x Hx) as [h| ->]; auto. discriminate.
      * exists miss. split; auto. rewrite Hnb. destruct A4 as [(B1 & B2 & B3)|(B1 & B2)]; [left|].
        -- split; auto. intros x Hx. destruct (Hin x Hx) as [h| ->]; auto.
        -- specialize (B1 t Ht). congruence.
    + destruct g_arr0 as (A1 & A2). split; auto. intros x Hx. destruct (Hin x Hx) as [h| ->]; auto.
  - intros P1 P2. destruct (g_main0 P1 P2) as [Q1 Q2]. specialize (Q1 t Ht). congruence.
Qed.
Lemma nbar_unreg l : (forall t, In t l -> isreg t = false) -> nbar l = 0.
Proof.
  unfold nbar. induction l as [|x l IH]; cbn; auto. intros H. pose proof (H x (or_introl eq_refl)) as Hx.
  assert (isbar x = false) as -> by (unfold isbar, isreg in *; destruct (tp x); congruence). apply IH. auto.
Qed.
Lemma gen1_reg n s who t : gen1 n s -> getth who s = Some t -> tp t = PId -> exists s', register who t s = Ok s' /\ gen1 n s' /\
  pc s' = pc s /\ flag s' = flag s /\ nthr s' = nthr s /\ script s' = script s /\ rets s' = rets s.
Proof.
  intros HG Hw Hp. pose proof (getth_nth who s t Hw) as Hn. pose proof (gen1_cnt_le n s HG) as Hc. pose proof HG as HG'. destruct HG'.
  assert (Ht : In t (ths s)) by (eapply nth_error_In; eauto).
  assert (Hh : hasid t = true) by (unfold hasid; now rewrite Hp).
  pose proof (g_lt0 _ (hasid_ids t _ Ht Hh)) as Hid.
  unfold register. set (a := match arr s with None => repeat false (tc s) | Some a => a end). set (b := match bar s with None => (tc s, tc s) | Some b => b end).
  assert (Hla : length a = n). { unfold a. destruct (arr s); [apply g_arr0|]. rewrite repeat_length. exact g_tc0. }
  rewrite (proj2 (Nat.ltb_lt (tid t) (length a)) ltac:(lia)).
  set (s1 := set_static s (Some b) (Some (setnth (tid t) true a))). set (t' := Th PReg (tid t)).
  destruct (setth_f who t' s1) as (F1 & F2 & F3 & F4 & F5 & F6 & F7 & F8 & F9).
  eexists. split; [reflexivity|]. rewrite F5, F6, F7, F8, F9. split; [|auto].
  assert (E1 : ths s1 = ths s) by reflexivity.
  assert (Hids : ids (ths (setth who t' s1)) = ids (ths s)) by (rewrite ths_set, E1; eapply ids_keep; eauto).
  assert (Hin : forall x, In x (ths (setth who t' s1)) -> In x (ths s) \/ x = t') by (intros x Hx; rewrite ths_set in Hx; apply in_set in Hx; rewrite E1 in Hx; tauto).
  assert (Hlen : length (ws (setth who t' s1)) = length (ws s)) by (destruct who; cbn; auto using setnth_length).
  assert (Hb1 : isbar t = false) by (unfold isbar; now rewrite Hp).
  assert (Hnb : nbar (ths (setth who t' s1)) = nbar (ths s)).
  { rewrite ths_set, E1. pose proof (nbar_set (ix who) t t' (ths s) Hn) as Hb. rewrite Hb1 in Hb. change (isbar t') with false in Hb. cbv iota in Hb. lia. }
  assert (Hpast : past t = false) by (unfold past; now rewrite Hp).
  constructor; rewrite ?Hids, ?F1, ?F4, ?F5, ?Hlen; auto.
  - intros Hq. change (pc s = MSpawn) in Hq. specialize (g_spawn0 Hq). destruct who as [i|]; cbn; auto. cbn in Hw. rewrite Hq in Hw. discriminate.
  - rewrite F3, F2. cbn [arr bar set_static s1]. split; [now rewrite setnth_length|]. split.
    + intros x Hx Hr. assert (Hcase : tid x = tid t \/ In x (ths s)) by (destruct (Hin x Hx) as [h| ->]; auto).
      destruct (Nat.eq_dec (tid x) (tid t)) as [e|e]; [rewrite e; apply setnth_same; lia|]. destruct Hcase as [h|h]; [contradiction|].
      rewrite setnth_other by auto. unfold a. destruct (arr s) as [a0|]; [now apply g_arr0|]. destruct g_arr0 as [_ A]. rewrite A in Hr by auto. discriminate.
    + unfold b. rewrite Hnb. destruct (arr s) as [a0|].
      * destruct g_arr0 as (A1 & A2 & miss & A3 & A4). rewrite A3. exists miss. split; auto. destruct A4 as [(B1 & B2 & B3)|(B1 & B2)].
        -- left. split; auto. intros x Hx. destruct (Hin x Hx) as [h| ->]; auto.
        -- specialize (B1 t Ht). congruence.
      * destruct g_arr0 as [A1 A2]. rewrite A1. exists n. rewrite g_tc0. split; auto. left. split; [|split; [lia|]].
        -- intros x Hx. destruct (Hin x Hx) as [h| ->]; auto. specialize (A2 x h). unfold past, isreg in *. destruct (tp x); congruence.
        -- rewrite (nbar_unreg _ A2). lia.
  - intros P1 P2. destruct (g_main0 P1 P2) as [Q1 Q2]. specialize (Q1 t Ht). congruence.
Qed.
Lemma nbar_all l : nbar l = length l -> forall t, In t l -> isbar t = true.
Proof.
  unfold nbar. induction l as [|x l IH]; cbn; [contradiction|]. assert (Hle : length (filter isbar l) <= length l) by (clear; induction l as [|y l IH]; cbn; auto; destruct (isbar y); cbn; lia).
  destruct (isbar x) eqn:Hx; cbn [length]; intros H t Hi; [|lia]. destruct Hi as [<-|Ht]; [exact Hx|]. apply IH; auto.
Qed.
Lemma go_ids l : ids (map go l) = ids l.
Proof.
  unfold ids. induction l as [|x l IH]; cbn; auto. assert (hasid (go x) = hasid x /\ tid (go x) = tid x) as [-> E].
  { unfold go, hasid. destruct x as [p i]. now destruct p. } destruct (hasid x); cbn; rewrite ?E, IH; auto.
Qed.
Lemma gen1_arrive n s who t size miss : gen1 n s -> getth who s = Some t -> tp t = PReg -> bar s = Some (size, miss) ->
  gen1 n (arrive who t size miss s).
Proof.
  intros HG Hw Hp Hbar. pose proof (getth_nth who s t Hw) as Hn. pose proof HG as HG'. destruct HG'.
  assert (Ht : In t (ths s)) by (eapply nth_error_In; eauto).
  assert (Hpast : past t = false) by (unfold past; now rewrite Hp).
  assert (Hh : hasid t = true) by (unfold hasid; now rewrite Hp).
  assert (Hb1 : isbar t = false) by (unfold isbar; now rewrite Hp).
  destruct (arr s) as [a|] eqn:Ha; [|destruct g_arr0 as [A _]; congruence].
  destruct g_arr0 as (A1 & A2 & miss' & A3 & A4). rewrite Hbar in A3. injection A3 as -> <-.
  destruct A4 as [(B1 & B2 & B3)|(B1 & B2)]; [|specialize (B1 t Ht); congruence].
  assert (Hpc : pc s = MSpawn \/ pc s = MCtor).
  { destruct (pc s) eqn:Epc; auto; destruct (g_main0 ltac:(discriminate) ltac:(discriminate)) as [Q _]; specialize (Q t Ht); congruence. }
  unfold arrive. rewrite Ha. destruct (Nat.eqb_spec miss 1) as [->|Hm].
  - (* the last one *)
    set (s1 := set_static s (Some (n, n)) (Some a)). set (t' := Th PGo (tid t)).
    destruct (setth_f who t' s1) as (F1 & F2 & F3 & F4 & F5 & F6 & F7 & F8 & F9).
    set (s2 := setth who t' s1) in *.
    assert (E2 : ths s2 = setnth (ix who) t' (ths s)) by exact (ths_set who t' s1).
    assert (Hids : ids (ths (release s2)) = ids (ths s)).
    { change (ths (release s2)) with (map go (ths s2)). rewrite go_ids, E2. eapply ids_keep; eauto. }
    assert (Hlen : length (ws (release s2)) = length (ws s)) by (cbn [ws release]; rewrite map_length; unfold s2; destruct who; cbn; auto using setnth_length).
    assert (Hspawn : pc s <> MSpawn).
    { intros Hq. specialize (g_spawn0 Hq). assert (Hx : nbar (ths s) < length (ws s)).
      { unfold ths, nbar. cbn [filter]. assert (isbar (mth s) = false) as -> by (unfold isbar; now rewrite g_spawn0).
        destruct who as [i|]; [|cbn in Hw; rewrite Hq in Hw; discriminate]. cbn in Hw.
        destruct (setnth_split i t (ws s) t Hw) as (l1 & l2 & E & _). rewrite E, filter_mid, Hb1, !app_length. cbn.
        assert (Hl : forall l, length (filter isbar l) <= length l) by (induction l as [|y l IH]; cbn; auto; destruct (isbar y); cbn; lia).
        pose proof (Hl l1). pose proof (Hl l2). lia. }
      lia. }
    assert (Hall : forall x, In x (ths s) -> x = t \/ isbar x = true \/ past x = true \/ True) by auto.
    assert (Hrel : released (release s2)).
    { intros x Hx. change (ths (release s2)) with (map go (ths s2)) in Hx. apply in_map_iff in Hx as (y & <- & Hy).
      rewrite E2 in Hy. destruct (setnth_split (ix who) t' (ths s) t Hn) as (l1 & l2 & L1 & L2). rewrite L2 in Hy.
      assert (Hnb : nbar (l1 ++ l2) = length (l1 ++ l2)).
      { assert (Hl : length (ths s) = n) by (cbn; auto). rewrite L1 in Hl. rewrite app_length in Hl. cbn in Hl.
        assert (Hx : nbar (ths s) = nbar (l1 ++ l2)) by (rewrite L1; unfold nbar; rewrite filter_mid, Hb1, filter_app; reflexivity).
        rewrite app_length. lia. }
      apply in_app_or in Hy as [Hy|[<-|Hy]]; [|reflexivity|];
        (assert (Hbx : isbar y = true) by (apply (nbar_all _ Hnb), in_or_app; auto)); unfold isbar in Hbx; destruct y as [p q]; cbn in Hbx; destruct p; try discriminate; reflexivity. }
    constructor; cbn [cnt bar arr tc pc release]; fold s2; rewrite ?Hids, ?F1, ?F2, ?F3, ?F4, ?F5; rewrite ?Hlen; auto; try contradiction.
    + cbn [arr bar set_static s1]. split; auto. split.
      * intros x Hx Hr. assert (Hx' : In (tid x) (ids (ths s))) by (rewrite <- Hids; apply hasid_ids; auto; unfold isreg, hasid in *; destruct (tp x); congruence).
        unfold ids in Hx'. apply in_map_iff in Hx' as (y & <- & Hy). apply filter_In in Hy as [Hy Hy2]. apply A2; auto.
        destruct (setnth_split (ix who) t' (ths s) t Hn) as (l1 & l2 & L1 & L2).
        assert (Hnb : nbar (l1 ++ l2) = length (l1 ++ l2)).
        { assert (Hl : length (ths s) = n) by (cbn; auto). rewrite L1 in Hl. rewrite app_length in Hl. cbn in Hl.
          assert (Hx2 : nbar (ths s) = nbar (l1 ++ l2)) by (rewrite L1; unfold nbar; rewrite filter_mid, Hb1, filter_app; reflexivity).
          rewrite app_length. lia. }
        rewrite L1 in Hy. apply in_app_or in Hy as [Hy|[<-|Hy]]; [|unfold isreg; now rewrite Hp|];
          (assert (Hbx : isbar y = true) by (apply (nbar_all _ Hnb), in_or_app; auto)); unfold isbar in Hbx; unfold isreg; destruct (tp y); try discriminate; reflexivity.
      * exists n. split; auto.
    + intros _ _. split; auto. cbn. congruence.
  - set (s1 := set_static s (Some (n, miss - 1)) (Some a)). set (t' := Th PBar (tid t)).
    destruct (setth_f who t' s1) as (F1 & F2 & F3 & F4 & F5 & F6 & F7 & F8 & F9).
    assert (E1 : ths s1 = ths s) by reflexivity.
    assert (Hids : ids (ths (setth who t' s1)) = ids (ths s)) by (rewrite ths_set, E1; eapply ids_keep; eauto).
    assert (Hin : forall x, In x (ths (setth who t' s1)) -> In x (ths s) \/ x = t') by (intros x Hx; rewrite ths_set in Hx; apply in_set in Hx; rewrite E1 in Hx; tauto).
    assert (Hlen : length (ws (setth who t' s1)) = length (ws s)) by (destruct who; cbn; auto using setnth_length).
    assert (Hnb : nbar (ths (setth who t' s1)) = S (nbar (ths s))).
    { rewrite ths_set, E1. pose proof (nbar_set (ix who) t t' (ths s) Hn) as Hb. rewrite Hb1 in Hb. change (isbar t') with true in Hb. cbv iota in Hb. lia. }
    constructor; rewrite ?Hids, ?F1, ?F4, ?F5, ?Hlen; auto.
    + intros Hq. change (pc s = MSpawn) in Hq. specialize (g_spawn0 Hq). destruct who as [i|]; cbn; auto. cbn in Hw. rewrite Hq in Hw. discriminate.
    + rewrite F3, F2. cbn [arr bar set_static s1]. split; auto. split.
      * intros x Hx Hr. destruct (Hin x Hx) as [h| ->]; auto. cbn. apply A2; auto. unfold isreg. now rewrite Hp.
      * exists (miss - 1). split; auto. left. split; [|split; [lia|]].
        -- intros x Hx. destruct (Hin x Hx) as [h| ->]; auto.
        -- rewrite Hnb. lia.
    + intros P1 P2. cbn [pc set_static s1] in *. destruct Hpc; contradiction.
Qed.

(* ---- every step keeps the invariant ---- *)
Lemma gen1_ctor_pc n s who t : gen1 n s -> getth who s = Some t -> past t = false -> pc s = MSpawn \/ pc s = MCtor.
Proof.
  intros [] Hw Hp. assert (Ht : In t (ths s)) by (eapply nth_error_In, getth_nth; eauto).
  destruct (pc s) eqn:Epc; auto; destruct (g_main0 ltac:(discriminate) ltac:(discriminate)) as [Q _]; specialize (Q t Ht); congruence.
Qed.
Lemma arrive_f who t size miss s : let s' := arrive who t size miss s in
  pc s' = pc s /\ flag s' = flag s /\ nthr s' = nthr s /\ script s' = script s /\ rets s' = rets s.
Proof. unfold arrive. destruct (miss =? 1), who; cbn; auto. Qed.
Lemma good_same T R n s s' : gen1 n s' -> okflag s -> T = 1 + pend (pc s) + creations (cur s) (script s) -> R = rets s ++ pret s ++ map result (script s) ->
  pc s' = pc s -> flag s' = flag s -> nthr s' = nthr s -> script s' = script s -> rets s' = rets s -> good T R s'.
Proof.
  intros HG Ho -> -> E1 E2 E3 E4 E5. apply (good_one _ _ _ n); auto.
  - unfold okflag in *. now rewrite E1, E2, E3.
  - unfold cur. now rewrite E1, E3, E4.
  - unfold pret. now rewrite E1, E3, E4, E5.
Qed.
Lemma released_cnt n s : gen1 n s -> released s -> S (length (ws s)) = n -> cnt s = n.
Proof.
  intros [] Hr Hl. rewrite g_cnt0. unfold ids. rewrite map_length.
  assert (H : forall l, (forall t, In t l -> past t = true) -> length (filter hasid l) = length l).
  { induction l as [|x l IH]; cbn; auto. intros H. pose proof (H x (or_introl eq_refl)) as Hx. assert (hasid x = true) as -> by (unfold past, hasid in *; destruct (tp x); congruence).
    cbn. f_equal. auto. }
  rewrite H by exact Hr. exact Hl.
Qed.
Lemma create_two T R n s m : gen1 n s -> pc s <> MSpawn -> pc s <> MCtor -> (1 < m)%Z -> 2 <= T -> forall s0, cnt s0 = cnt s -> arr s0 = arr s -> good T R (create m s0).
Proof.
  intros HG P1 P2 Hm HT s0 E1 E2. apply good_two; auto. pose proof HG as HG'. destruct HG'. destruct (g_main0 P1 P2) as [Q1 Q2].
  pose proof (released_cnt n s HG Q1 (g_full0 P1)) as Hc. destruct (arr s) as [a|] eqn:Ea; [|contradiction]. destruct g_arr0 as [A1 _].
  unfold create. rewrite (proj2 (Z.ltb_lt 1 m) Hm). constructor; cbn; auto.
  - lia.
  - exists a. split; auto. split; [lia|]. intros t [<-|[]]. split; [reflexivity|discriminate].
Qed.
Lemma wake_same t : hasid (wake t) = hasid t /\ tid (wake t) = tid t /\ isbar (wake t) = isbar t /\ isreg (wake t) = isreg t /\ past (wake t) = past t.
Proof. destruct t as [p i]. destruct p; repeat split. Qed.
Lemma gen1_wake n s k : gen1 n s -> pc s <> MSpawn -> pc s <> MCtor -> gen1 n (upd_pc (upd_ws s (map wake (ws s))) (MJoin k)).
Proof.
  intros [] P1 P2. destruct (g_main0 P1 P2) as [Q1 Q2].
  assert (Hid : ids (mth s :: map wake (ws s)) = ids (ths s)).
  { unfold ids, ths. cbn [filter]. assert (H : forall l, map tid (filter hasid (map wake l)) = map tid (filter hasid l)).
    { induction l as [|x l IH]; cbn [map filter]; auto. destruct (wake_same x) as (W1 & W2 & _). rewrite W1. destruct (hasid x); cbn [map]; rewrite ?W2, IH; auto. }
    destruct (hasid (mth s)); cbn [map]; rewrite H; auto. }
  assert (Hr : released (upd_pc (upd_ws s (map wake (ws s))) (MJoin k))).
  { intros t [<-|Ht]; [apply Q1; now left|]. cbn in Ht. apply in_map_iff in Ht as (x & <- & Hx). destruct (wake_same x) as (_ & _ & _ & _ & ->). apply Q1. now right. }
  constructor; cbn [tc ws mth cnt arr bar pc upd_pc upd_ws]; unfold ths in *; cbn [mth ws upd_pc upd_ws] in *; rewrite ?Hid, ?map_length; auto; try discriminate.
  destruct (arr s) as [a|]; [|contradiction]. destruct g_arr0 as (A1 & A2 & miss & A3 & A4). split; auto. split.
  - intros t [<-|Ht] Hrg; [apply A2; auto; now left|]. apply in_map_iff in Ht as (x & <- & Hx). destruct (wake_same x) as (_ & W2 & _ & W4 & _). rewrite W2. apply A2; [now right|congruence].
  - exists miss. split; auto. right. split; [exact Hr|]. destruct A4 as [(B1 & _ & _)|[_ B]]; auto. specialize (B1 (mth s) (or_introl eq_refl)). specialize (Q1 (mth s) (or_introl eq_refl)). congruence.
Qed.
Lemma good_step T R s o : good T R s -> step s o -> (exists s', o = Ok s' /\ good T R s') \/ (o = UB /\ 2 <= T).
Proof.
  intros [Hf Ho HT HR|n HG Ho HT HR|HG HT] Hs.
  - (* no Scheduler yet *)
    destruct Hf, Ho as [Ho _]. rewrite f_flag0 in Ho. left.
    inversion Hs; subst; try congruence; try (match goal with H : pc s = _ |- _ => rewrite f_pc0 in H; discriminate end);
      try (match goal with H : nth_error (ws s) _ = _ |- _ => rewrite f_ws0 in H; destruct i; discriminate end);
      try (match goal with H : getth ?w s = _ |- _ => exfalso; destruct w as [i|]; cbn in H; [rewrite f_ws0 in H; destruct i; discriminate|rewrite f_pc0 in H; discriminate] end).
    + eexists. split; [reflexivity|]. apply good_fresh; [constructor; cbn; auto| |..].
      * split; cbn; auto. rewrite f_flag0. auto.
      * cbn. rewrite H0. cbn. now rewrite Ho, Z.eqb_refl.
      * cbn. rewrite H0, <- app_assoc. cbn. now rewrite Ho.
    + eexists. split; [reflexivity|]. unfold create. destruct (1 <? n)%Z eqn:En.
      * apply Z.ltb_lt in En. apply (good_one _ _ _ (Z.to_nat n)).
        -- constructor; cbn; auto; try lia; try discriminate; try contradiction.
           ++ constructor.
           ++ rewrite f_arr0. split; auto. intros t [<-|[]]. reflexivity.
        -- split; cbn; auto.
        -- cbn. rewrite H0. cbn. rewrite (proj2 (Z.eqb_neq n 1)) by lia. now rewrite (proj2 (Z.ltb_lt 1 n) En).
        -- cbn. rewrite H0. cbn. now rewrite (proj2 (Z.ltb_lt 1 n) En).
      * apply good_fresh; [constructor; cbn; auto| |..].
        -- split; cbn; auto. rewrite f_flag0. auto.
        -- cbn. rewrite H0. cbn. rewrite En. now rewrite (proj2 (Z.eqb_neq n 1)) by (intros ->; congruence).
        -- cbn. rewrite H0, <- app_assoc. cbn. now rewrite En, Ho.
    + eexists. split; [reflexivity|]. apply good_fresh; [constructor; cbn; auto| |..].
      * split; cbn; auto. rewrite f_flag0. auto.
      * cbn. rewrite H0. cbn. auto.
      * cbn. rewrite H0, <- app_assoc. cbn. auto.
  - (* the first Scheduler *)
    inversion Hs; subst.
    + (* m_same *) left. eexists. split; [reflexivity|]. pose proof HG as HG'. destruct HG'. destruct (g_main0 ltac:(congruence) ltac:(congruence)) as [Q1 Q2].
      apply (good_one _ _ _ n).
      * eapply gen1_pc; eauto; cbn; congruence.
      * destruct Ho as [Ho _]. split; cbn; auto.
      * rewrite H. unfold cur. rewrite H. cbn. rewrite H0. cbn. now rewrite Z.eqb_refl.
      * unfold pret. rewrite H. cbn [pc ret rets pop script]. rewrite H0. cbn [tl app map]. rewrite <- app_assoc. f_equal. cbn [app]. f_equal. apply (result_same s); auto.
    + (* m_again *) left. eexists. split; [reflexivity|]. pose proof HG as HG'. destruct HG'. destruct (g_main0 ltac:(congruence) ltac:(congruence)) as [Q1 Q2].
      apply (good_one _ _ _ n).
      * eapply gen1_pc; eauto; cbn; congruence.
      * split; cbn; auto.
      * rewrite H. unfold cur. rewrite H. cbn. rewrite H0. cbn. rewrite (proj2 (Z.eqb_neq _ _) H1). destruct (1 <? n0)%Z; reflexivity.
      * unfold pret. rewrite H. cbn. rewrite H0. cbn. reflexivity.
    + (* m_first *) left. eexists. split; [reflexivity|]. pose proof HG as HG'. destruct HG'. destruct (g_main0 ltac:(congruence) ltac:(congruence)) as [Q1 Q2].
      assert (Hn1 : nthr s = 1%Z) by (destruct Ho as [Ho _]; now rewrite H2 in Ho).
      destruct (1 <? n0)%Z eqn:En.
      * apply (create_two _ _ n s); auto; try congruence; [now apply Z.ltb_lt|]. rewrite H. unfold cur. rewrite H. cbn. rewrite H0. cbn. rewrite (proj2 (Z.eqb_neq _ _) H1), En. lia.
      * unfold create. rewrite En. apply (good_one _ _ _ n).
        -- eapply gen1_pc; eauto; cbn; congruence.
        -- destruct Ho as [Ho _]. split; cbn; auto.
        -- rewrite H. unfold cur. rewrite H. cbn. rewrite H0. cbn. rewrite (proj2 (Z.eqb_neq _ _) H1), En. now rewrite Hn1.
        -- unfold pret. rewrite H. cbn. rewrite H0. cbn. rewrite En, <- app_assoc, Hn1. reflexivity.
    + (* m_term *) left. eexists. split; [reflexivity|]. pose proof HG as HG'. destruct HG'. destruct (g_main0 ltac:(congruence) ltac:(congruence)) as [Q1 Q2].
      apply (good_one _ _ _ n).
      * eapply gen1_pc; eauto; cbn; congruence.
      * split; cbn; auto.
      * rewrite H. unfold cur. rewrite H. cbn. rewrite H0. cbn. reflexivity.
      * unfold pret. rewrite H. cbn. rewrite H0. cbn. reflexivity.
    + (* m_noterm *) left. eexists. split; [reflexivity|]. pose proof HG as HG'. destruct HG'. destruct (g_main0 ltac:(congruence) ltac:(congruence)) as [Q1 Q2].
      assert (Hn1 : nthr s = 1%Z) by (destruct Ho as [Ho _]; now rewrite H1 in Ho).
      apply (good_one _ _ _ n).
      * eapply gen1_pc; eauto; cbn; congruence.
      * destruct Ho as [Ho _]. split; cbn; auto.
      * rewrite H. unfold cur. rewrite H. cbn. rewrite H0. cbn. now rewrite Hn1.
      * unfold pret. rewrite H. cbn. rewrite H0. cbn. now rewrite <- app_assoc.
    + (* m_notify *) left. eexists. split; [reflexivity|]. apply (good_one _ _ _ n).
      * apply gen1_wake; auto; congruence.
      * destruct Ho as [Ho Ho2]. rewrite H in Ho2. split; cbn; auto.
      * rewrite H. unfold cur. rewrite H. cbn. reflexivity.
      * unfold pret. rewrite H. cbn. reflexivity.
    + (* m_join *) left. eexists. split; [reflexivity|]. pose proof HG as HG'. destruct HG'. destruct (g_main0 ltac:(congruence) ltac:(congruence)) as [Q1 Q2].
      assert (Hn1 : nthr s = 1%Z /\ flag s = false) by (destruct Ho as [Ho Ho2]; rewrite H in Ho2; now rewrite Ho2 in Ho).
      destruct Hn1 as [Hn1 Hfl]. destruct k as [m|].
      * destruct (1 <? m)%Z eqn:Em.
        -- apply (create_two _ _ n s); auto; try congruence; [now apply Z.ltb_lt|]. rewrite H. cbn. rewrite Em. lia.
        -- unfold create. rewrite Em. apply (good_one _ _ _ n).
           ++ eapply gen1_pc; eauto; cbn; congruence.
           ++ destruct Ho as [Ho _]. split; cbn; auto.
           ++ rewrite H. unfold cur. rewrite H. cbn. now rewrite Em, Hn1.
           ++ unfold pret. rewrite H. cbn. now rewrite Em, <- app_assoc, Hn1.
      * apply (good_one _ _ _ n).
        -- eapply gen1_pc; eauto; cbn; congruence.
        -- destruct Ho as [Ho _]. split; cbn; auto.
        -- rewrite H. unfold cur. rewrite H. cbn. reflexivity.
        -- unfold pret. rewrite H. cbn. now rewrite <- app_assoc.
    + (* m_spawn *) left. eexists. split; [reflexivity|]. pose proof HG as HG'. destruct HG'. 
      assert (Hids : ids (mth s :: ws s ++ [Th PNew 0]) = ids (ths s)).
      { unfold ids, ths. change (mth s :: ws s ++ [Th PNew 0]) with ((mth s :: ws s) ++ [Th PNew 0]). rewrite filter_app. cbn [filter hasid tp]. now rewrite app_nil_r. }
      assert (Hnb : nbar (mth s :: ws s ++ [Th PNew 0]) = nbar (ths s)).
      { unfold nbar, ths. change (mth s :: ws s ++ [Th PNew 0]) with ((mth s :: ws s) ++ [Th PNew 0]). rewrite filter_app. cbn [filter isbar tp]. now rewrite app_nil_r. }
      assert (Hin : forall t, In t (mth s :: ws s ++ [Th PNew 0]) -> In t (ths s) \/ t = Th PNew 0).
      { intros t [<-|Ht]; [left; now left|]. apply in_app_or in Ht as [Ht|[<-|[]]]; auto. left. now right. }
      apply (good_one _ _ _ n); auto. constructor; unfold ths in *; cbn [tc ws mth cnt arr bar pc upd_ws] in *; rewrite ?Hids, ?Hnb; auto; try congruence.
      * rewrite app_length. cbn. lia.
      * destruct (arr s) as [a|].
        -- destruct g_arr0 as (A1 & A2 & miss & A3 & A4). split; auto. split.
           ++ intros t Ht Hr. destruct (Hin t Ht) as [h| ->]; auto. discriminate.
           ++ exists miss. split; auto. left. destruct A4 as [(B1 & B2 & B3)|(B1 & B2)].
              ** split; auto. intros t Ht. destruct (Hin t Ht) as [h| ->]; auto.
              ** specialize (B1 (mth s) (or_introl eq_refl)). unfold past in B1. rewrite g_spawn0 in B1 by auto. discriminate.
        -- destruct g_arr0 as [A1 A2]. split; auto. intros t Ht. destruct (Hin t Ht) as [h| ->]; auto.
    + (* m_spawned *) left. eexists. split; [reflexivity|]. pose proof HG as HG'. destruct HG'. apply (good_one _ _ _ n).
      * constructor; unfold ths in *; cbn [tc ws mth cnt arr bar pc upd_pc] in *; auto; try congruence; try contradiction.
      * destruct Ho as [Ho Ho2]. rewrite H in Ho2. split; cbn; auto.
      * rewrite H. unfold cur. rewrite H. reflexivity.
      * unfold pret. rewrite H. reflexivity.
    + (* m_up *) left. eexists. split; [reflexivity|]. pose proof HG as HG'. destruct HG'.
      assert (Hm : past (mth s) = true) by (unfold past; now rewrite H0).
      assert (Q2 : arr s <> None).
      { intros e. rewrite e in g_arr0. destruct g_arr0 as [_ A]. specialize (A (mth s) (or_introl eq_refl)). apply past_reg in Hm. congruence. }
      assert (Q1 : released s).
      { destruct (arr s) as [a|]; [|contradiction]. destruct g_arr0 as (A1 & A2 & miss & A3 & A4). destruct A4 as [(B1 & B2 & B3)|(B1 & B2)]; auto.
        specialize (B1 (mth s) (or_introl eq_refl)). congruence. }
      apply (good_one _ _ _ n).
      * eapply gen1_pc; eauto; cbn; congruence.
      * destruct Ho as [Ho _]. split; cbn; auto.
      * rewrite H. unfold cur. rewrite H. cbn. reflexivity.
      * unfold pret. rewrite H. cbn. now rewrite <- app_assoc.
    + (* t_id *) left. eexists. split; [reflexivity|]. eapply good_same; eauto using gen1_id; destruct who; reflexivity.
    + (* t_reg *) left. destruct (gen1_reg n s who t HG H H0) as (s' & E & HG' & E1 & E2 & E3 & E4 & E5). exists s'. split; auto. eapply good_same; eauto.
    + (* t_arr *) left. eexists. split; [reflexivity|]. destruct (arrive_f who t size miss s) as (E1 & E2 & E3 & E4 & E5). eapply good_same; eauto using gen1_arrive.
    + (* w_wait *) left. eexists. split; [reflexivity|]. eapply good_same; eauto. eapply (gen1_upd n s (Some i) t); eauto; unfold hasid, isreg, past, isbar; now rewrite H0.
    + (* w_end *) left. eexists. split; [reflexivity|]. eapply good_same; eauto. eapply (gen1_upd n s (Some i) t); eauto; unfold hasid, isreg, past, isbar; now rewrite H0.
  - (* a second Scheduler *)
    destruct HG as [Hpc Hlen (a & Ha & Hc & Ht)].
    assert (Hget : forall who t, getth who s = Some t -> In t (ths s)) by (intros who t Hw; eapply nth_error_In, getth_nth; eauto).
    assert (Hset : forall who t t', getth who s = Some t -> forall x, In x (ths (setth who t' s)) -> In x (ths s) \/ x = t') by (intros who t t' Hw x Hx; rewrite ths_set in Hx; apply in_set in Hx; tauto).
    assert (Hreg : forall who t, getth who s = Some t -> isreg t = true -> False) by (intros who t Hw Hr; destruct (Ht t (Hget who t Hw)); congruence).
    inversion Hs; subst; try (match goal with H : pc s = _ |- _ => destruct Hpc as [Hpc|Hpc]; rewrite Hpc in H; discriminate end).
    + left. eexists. split; [reflexivity|]. apply good_two; auto. constructor; cbn; auto.
      * rewrite app_length. cbn. lia.
      * exists a. split; auto. split; auto. intros t [<-|Hx]; [apply Ht; now left|]. apply in_app_or in Hx as [Hx|[<-|[]]]; [apply Ht; now right|]. split; [reflexivity|discriminate].
    + left. eexists. split; [reflexivity|]. apply good_two; auto. constructor; cbn; auto. exists a. auto.
    + exfalso. destruct (Ht (mth s) (or_introl eq_refl)) as [Hx _]. unfold isreg in Hx. rewrite H0 in Hx. discriminate.
    + left. eexists. split; [reflexivity|]. apply good_two; auto. set (s1 := upd_cnt s (S (cnt s))).
      destruct (setth_f who (Th PId (cnt s)) s1) as (F1 & F2 & F3 & F4 & F5 & F6 & F7 & F8 & F9).
      constructor; rewrite ?F1, ?F3, ?F4, ?F5; auto.
      * assert (length (ws (setth who (Th PId (cnt s)) s1)) = length (ws s)) as -> by (destruct who; cbn; auto using setnth_length). exact Hlen.
      * exists a. split; auto. split; [cbn; lia|]. intros x Hx. rewrite ths_set in Hx. apply in_set in Hx as [->|Hx]; [|now apply Ht]. split; [reflexivity|]. intros _. cbn. lia.
    + right. unfold register. rewrite Ha. destruct (Ht t (Hget who t H)) as [_ Hx].
      assert (Hh : hasid t = true) by (unfold hasid; now rewrite H0). specialize (Hx Hh).
      rewrite (proj2 (Nat.ltb_ge (tid t) (length a))) by lia. auto.
    + exfalso. apply (Hreg who t H). unfold isreg. now rewrite H0.
    + exfalso. apply (Hreg (Some i) t H). unfold isreg. now rewrite H0.
    + exfalso. apply (Hreg (Some i) t H). unfold isreg. now rewrite H0.
Qed.

Lemma reach_good l s : runs_to (boot l) (Ok s) -> good (creations 1 l) (map result l) s.
Proof.
  remember (boot l) as s0 eqn:E0. remember (Ok s) as o eqn:Eo. intros H. revert s Eo. induction H as [s0'|s0' s' o H IH Hs]; intros s Eo.
  - injection Eo as <-. subst. apply good_boot.
  - subst. specialize (IH eq_refl s' eq_refl). destruct (good_step _ _ _ _ IH Hs) as [(s'' & E & HG)|[E _]]; [|discriminate]. injection E as <-. exact HG.
Qed.

(* ---- the executions are finite ---- *)
Definition rank (p : tph) : nat := match p with PNew => 7 | PId => 6 | PReg => 5 | PBar => 4 | PGo => 3 | PWait => 2 | PWoken => 1 | PDone => 0 end.
Definition ranks (l : list th) : nat := list_sum (map (fun t => rank (tp t)) l).
Definition cw (n : Z) : nat := 8 * Z.to_nat n + 20.
Definition callw (c : call) : nat := match c with Init n => cw n + 4 | Term => 4 end.
Definition pcw (s : st) : nat := match pc s with
  | MIdle => 0 | MNotify None => 3 | MJoin None => 2
  | MNotify (Some m) => cw m + 3 | MJoin (Some m) => cw m + 2
  | MSpawn => 8 * (tc s - 1 - length (ws s)) + 3 | MCtor => 2 end.
Definition steps_left (s : st) : nat := list_sum (map callw (script s)) + pcw s + ranks (ws s) + rank (tp (mth s)).
Lemma ranks_set i t t' l : nth_error l i = Some t -> rank (tp t') < rank (tp t) -> ranks (setnth i t' l) < ranks l.
Proof.
  intros H Hr. destruct (setnth_split i t' l t H) as (l1 & l2 & E1 & E2). rewrite E2, E1. unfold ranks. rewrite !map_app, !list_sum_app. cbn [map list_sum]. change (list_sum (rank (tp t') :: map (fun t0 => rank (tp t0)) l2)) with (rank (tp t') + list_sum (map (fun t0 => rank (tp t0)) l2)).
  change (list_sum (rank (tp t) :: map (fun t0 => rank (tp t0)) l2)) with (rank (tp t) + list_sum (map (fun t0 => rank (tp t0)) l2)). lia.
Qed.
Lemma ranks_map f l : (forall t, rank (tp (f t)) <= rank (tp t)) -> ranks (map f l) <= ranks l.
Proof.
  intros H. unfold ranks. induction l as [|x l IH]; [apply le_n|]. cbn [map]. specialize (H x).
  change (rank (tp (f x)) + list_sum (map (fun t => rank (tp t)) (map f l)) <= rank (tp x) + list_sum (map (fun t => rank (tp t)) l)). lia.
Qed.
Lemma ranks_cons x l : ranks (x :: l) = rank (tp x) + ranks l.
Proof. reflexivity. Qed.
Lemma ranks_new l : ranks (l ++ [Th PNew 0]) = ranks l + 7.
Proof. unfold ranks. rewrite map_app, list_sum_app. reflexivity. Qed.
Lemma rank_go t : rank (tp (go t)) <= rank (tp t).
Proof. destruct t as [p i]; destruct p; cbn; lia. Qed.
Lemma rank_wake t : rank (tp (wake t)) <= rank (tp t).
Proof. destruct t as [p i]; destruct p; cbn; lia. Qed.
Lemma left_set who t t' s s1 : getth who s = Some t -> rank (tp t') < rank (tp t) -> ths s1 = ths s -> pc s1 = pc s -> tc s1 = tc s -> script s1 = script s ->
  steps_left (setth who t' s1) < steps_left s.
Proof.
  intros Hw Hr E1 E2 E3 E4. unfold ths in E1. injection E1 as Em Ew.
  destruct who as [i|]; cbn in Hw.
  - pose proof (ranks_set i t t' (ws s) Hw Hr) as H. unfold steps_left, pcw. cbn [setth upd_ws pc tc ws mth script]. rewrite setnth_length, E2, E3, E4, Em, Ew. lia.
  - destruct (pc s) eqn:Ep; try discriminate. injection Hw as Hw. unfold steps_left, pcw. cbn [setth pc tc ws mth script]. rewrite E2, E4, Ew, Hw, Ep. lia.
Qed.
Lemma left_release s : steps_left (release s) <= steps_left s.
Proof.
  unfold steps_left, pcw, release. cbn [pc tc ws mth script]. rewrite map_length. pose proof (ranks_map go (ws s) rank_go). pose proof (rank_go (mth s)). lia.
Qed.
Lemma left_create n s : steps_left (create n s) + 2 <= list_sum (map callw (script s)) + cw n + ranks (ws s) + rank (tp (mth s)).
Proof.
  unfold create. destruct (1 <? n)%Z eqn:En; unfold steps_left, pcw, cw; cbn [pc tc ws mth script ret length tp rank].
  - change (ranks []) with 0. lia.
  - lia.
Qed.
Lemma step_left s s' : step s (Ok s') -> steps_left s' < steps_left s.
Proof.
  enough (Hg : forall o, step s o -> match o with Ok s' => steps_left s' < steps_left s | UB => True end) by (intros Hs; exact (Hg _ Hs)).
  intros o Hs. inversion Hs; subst.
  - unfold steps_left, pcw. cbn [pc tc ws mth script ret pop tl]. rewrite H0, H. cbn [tl map]. change (list_sum (callw (Init (nthr s)) :: map callw r)) with (callw (Init (nthr s)) + list_sum (map callw r)). unfold callw, cw. lia.
  - unfold steps_left, pcw. cbn [pc tc ws mth script upd_pc drop pop tl]. rewrite H0, H. cbn [tl map]. change (list_sum (callw (Init n) :: map callw r)) with (callw (Init n) + list_sum (map callw r)). unfold callw. lia.
  - pose proof (left_create n (pop s)) as Hc. cbn [script pop ws mth tl] in Hc. unfold steps_left at 2, pcw. rewrite H. rewrite H0 in *. cbn [tl map] in *. change (list_sum (callw (Init n) :: map callw r)) with (callw (Init n) + list_sum (map callw r)). unfold callw at 1. lia.
  - unfold steps_left, pcw. cbn [pc tc ws mth script upd_pc drop pop tl]. rewrite H0, H. cbn [tl map]. change (list_sum (callw Term :: map callw r)) with (callw Term + list_sum (map callw r)). unfold callw at 2. lia.
  - unfold steps_left, pcw. cbn [pc tc ws mth script ret pop tl]. rewrite H0, H. cbn [tl map]. change (list_sum (callw Term :: map callw r)) with (callw Term + list_sum (map callw r)). unfold callw at 2. lia.
  - unfold steps_left, pcw. cbn [pc tc ws mth script upd_pc upd_ws]. rewrite H. pose proof (ranks_map wake (ws s) rank_wake). destruct k; lia.
  - destruct k as [m|].
    + pose proof (left_create m s). unfold steps_left at 2, pcw. rewrite H. lia.
    + unfold steps_left, pcw. cbn [pc tc ws mth script ret]. rewrite H. lia.
  - unfold steps_left, pcw. cbn [pc tc ws mth script upd_ws]. rewrite H, ranks_new, app_length. cbn [length]. lia.
  - unfold steps_left, pcw. cbn [pc tc ws mth script upd_pc]. rewrite H. lia.
  - unfold steps_left, pcw. cbn [pc tc ws mth script ret]. rewrite H. lia.
  - eapply left_set; eauto. rewrite H0. cbn. lia.
  - unfold register. destruct (tid t <? _); [|exact I]. eapply left_set; eauto. rewrite H0. cbn. lia.
  - unfold arrive. destruct (miss =? 1).
    + eapply Nat.le_lt_trans; [apply left_release|]. eapply left_set; eauto. rewrite H0. cbn. lia.
    + eapply left_set; eauto. rewrite H0. cbn. lia.
  - eapply (left_set (Some i)); eauto. rewrite H0. cbn. lia.
  - eapply (left_set (Some i)); eauto. rewrite H0. cbn. lia.
Qed.
Inductive runs_in : nat -> st -> outcome -> Prop :=
| ri_refl s : runs_in 0 s (Ok s)
| ri_step k s s' o : runs_in k s (Ok s') -> step s' o -> runs_in (S k) s o.
Lemma runs_in_left k s s' : runs_in k s (Ok s') -> k + steps_left s' <= steps_left s.
Proof.
  remember (Ok s') as o eqn:Eo. intros H. revert s' Eo. induction H as [s|k s s1 o H IH Hs]; intros s' Eo; [injection Eo as ->; lia|].
  subst o. specialize (IH s1 eq_refl). apply step_left in Hs. lia.
Qed.

(* ---- where an execution can end ---- *)
Definition stuck (s : st) : Prop := forall o, ~ step s o.
(* terminateMT waits for a thread that nobody will wake up *)
Definition hang (s : st) : Prop := exists k, pc s = MJoin k /\ exists t, In t (ws s) /\ tp t = PWait.
Definition mth_ok (s : st) : Prop := match tp (mth s) with PWait | PWoken | PDone => False | _ => True end.
Lemma mth_ok_step s s' : mth_ok s -> step s (Ok s') -> mth_ok s'.
Proof.
  intros H0. enough (Hg : forall o, step s o -> match o with Ok s' => mth_ok s' | UB => True end) by (intros Hs; exact (Hg _ Hs)).
  assert (Hgo : forall s1, mth_ok s1 -> mth_ok (release s1)) by (intros s1; unfold mth_ok, release, go; cbn [mth]; destruct (mth s1) as [p i]; destruct p; cbn; auto).
  intros o Hs. inversion Hs; subst; try exact H0.
  - unfold create. destruct (1 <? n)%Z; [exact I|exact H0].
  - destruct k; [|exact H0]. unfold create. destruct (1 <? z)%Z; [exact I|exact H0].
  - destruct who; [exact H0|exact I].
  - unfold register. destruct (tid t <? _); [|exact I]. destruct who; [exact H0|exact I].
  - unfold arrive. destruct (miss =? 1); [apply Hgo|]; (destruct who; [exact H0|exact I]).
Qed.
Lemma reach_mth l s : runs_to (boot l) (Ok s) -> mth_ok s.
Proof.
  remember (boot l) as s0 eqn:E0. remember (Ok s) as o eqn:Eo. intros H. revert s Eo. induction H as [s0'|s0' s' o H IH Hs]; intros s Eo.
  - injection Eo as <-. subst. exact I.
  - subst. eapply mth_ok_step; eauto.
Qed.
Lemma stuck_end T R s : good T R s -> mth_ok s -> stuck s -> hang s \/ (completed s /\ T <= 1 /\ rets s = R).
Proof.
  intros Hg Hm Hs.
  assert (Hidle : pc s = MIdle -> script s = []).
  { intros Hp. destruct (script s) as [|[n|] r] eqn:Er; auto; exfalso.
    - destruct (Z.eq_dec n (nthr s)) as [e|e]; [eapply Hs, m_same; eauto|]. destruct (flag s) eqn:Ef; [eapply Hs, m_again; eauto|eapply Hs, m_first; eauto].
    - destruct (flag s) eqn:Ef; [eapply Hs, m_term; eauto|eapply Hs, m_noterm; eauto]. }
  assert (Hspawn : pc s = MSpawn -> S (length (ws s)) <= tc s -> False).
  { intros Hp Hl. destruct (Nat.eq_dec (S (length (ws s))) (tc s)) as [e|e]; [eapply Hs, m_spawned; eauto|eapply Hs, m_spawn; eauto; lia]. }
  destruct Hg as [Hf Ho HT HR|n HG Ho HT HR|HG HT].
  - right. destruct Hf. specialize (Hidle f_pc0). rewrite Hidle in *. split; [now split|]. subst. cbn in *. rewrite app_nil_r. auto.
  - pose proof HG as HG'. destruct HG'. destruct (pc s) eqn:Ep.
    + right. specialize (Hidle eq_refl). subst T R. unfold cur, pret. rewrite Ep, Hidle. cbn. rewrite app_nil_r. split; [now split|auto].
    + exfalso. eapply Hs, m_notify; eauto.
    + left. exists k. split; auto. destruct (g_main0 ltac:(discriminate) ltac:(discriminate)) as [Q1 _].
      destruct (existsb (fun t => match tp t with PWait => true | _ => false end) (ws s)) eqn:Ex.
      * apply existsb_exists in Ex as (t & Ht & E). exists t. split; auto. now destruct (tp t).
      * exfalso. eapply Hs, m_join; eauto. intros t Ht. assert (Hw : tp t <> PWait).
        { intros e. assert (existsb (fun t => match tp t with PWait => true | _ => false end) (ws s) = true) by (apply existsb_exists; exists t; now rewrite e). congruence. }
        pose proof (Q1 t (or_intror Ht)) as Hp. destruct (In_nth_error _ _ Ht) as [i Hi]. unfold past in Hp. destruct (tp t) eqn:Et; try discriminate; try contradiction; auto; exfalso.
        -- eapply Hs, w_wait; eauto.
        -- eapply Hs, w_end; eauto.
    + exfalso. apply Hspawn; auto. lia.
    + exfalso. assert (Hreg : forall who t, getth who s = Some t -> tp t = PReg -> False).
      { intros who t Hw Ht. destruct (arr s) as [a|].
        - destruct g_arr0 as (_ & _ & miss & A3 & _). eapply Hs, t_arr; eauto.
        - destruct g_arr0 as [_ A]. assert (Hi : In t (ths s)) by (eapply nth_error_In, getth_nth; eauto). specialize (A t Hi). unfold isreg in A. rewrite Ht in A. discriminate. }
      assert (Hnot : forall who t, getth who s = Some t -> tp t = PBar \/ past t = true).
      { intros who t Hw. unfold past. destruct (tp t) eqn:Et; auto; exfalso; [eapply Hs, t_id; eauto|eapply Hs, t_reg; eauto|eapply Hreg; eauto]. }
      assert (Hmain : getth None s = Some (mth s)) by (cbn; now rewrite Ep).
      destruct (Hnot None (mth s) Hmain) as [Hb|Hb].
      * (* main in the barrier: everybody is there *)
        assert (Hal : forall t, In t (ths s) -> tp t = PBar \/ past t = true).
        { intros t Ht. destruct Ht as [<-|Ht]; [auto|]. destruct (In_nth_error _ _ Ht) as [i Hi]. apply (Hnot (Some i)). exact Hi. }
        destruct (arr s) as [a|].
        -- destruct g_arr0 as (A1 & A2 & miss & A3 & A4). destruct A4 as [(B1 & B2 & B3)|(B1 & B2)].
           ++ assert (Hbar : nbar (ths s) = length (ths s)).
              { unfold nbar. assert (Hall : forall t, In t (ths s) -> isbar t = true) by (intros t Ht; destruct (Hal t Ht) as [h|h]; [unfold isbar; now rewrite h|rewrite (B1 t Ht) in h; discriminate]).
                clear -Hall. induction (ths s) as [|x l IH]; cbn; auto. rewrite (Hall x (or_introl eq_refl)). cbn. f_equal. apply IH. intros t Ht. apply Hall. now right. }
              assert (length (ths s) = n) by (cbn; apply g_full0; discriminate). lia.
           ++ specialize (B1 (mth s) (or_introl eq_refl)). unfold past in B1. rewrite Hb in B1. discriminate.
        -- destruct g_arr0 as [_ A]. specialize (A (mth s) (or_introl eq_refl)). unfold isreg in A. rewrite Hb in A. discriminate.
      * unfold mth_ok in Hm. unfold past in Hb. destruct (tp (mth s)) eqn:Et; try discriminate; try contradiction. eapply Hs, m_up; eauto.
  - exfalso. destruct HG as [Hpc Hlen (a & Ha & Hc & Ht)]. destruct Hpc as [Hp|Hp]; [now apply Hspawn|].
    assert (Hmain : getth None s = Some (mth s)) by (cbn; now rewrite Hp). destruct (Ht (mth s) (or_introl eq_refl)) as [Hx _]. unfold isreg in Hx.
    destruct (tp (mth s)) eqn:Et; try discriminate; [eapply Hs, t_id; eauto|eapply Hs, t_reg; eauto].
Qed.
(* ---- all the schedulers are in place when a thread starts to look for fibers ---- *)
Lemma all_registered T R s t : good T R s -> In t (ths s) -> past t = true -> exists a, arr s = Some a /\ length a = tc s /\ forall i, i < length a -> nth_error a i = Some true.
Proof.
  intros [Hf _ _ _|n HG _ _ _|HG _] Ht Hp;
    [exfalso; destruct Hf; unfold ths in Ht; rewrite f_ws0 in Ht; destruct Ht as [<-|[]]; unfold past in Hp; rewrite f_mth0 in Hp; discriminate| |
     exfalso; destruct HG as [_ _ (a & _ & _ & H)]; destruct (H t Ht) as [Hx _]; apply past_reg in Hp; congruence].
  pose proof HG as HG'. destruct HG'. destruct (arr s) as [a|] eqn:Ea.
  - destruct g_arr0 as (A1 & A2 & miss & A3 & A4). exists a. split; auto. split; [congruence|]. intros i Hi.
    assert (Hr : released s) by (destruct A4 as [(B1 & _)|(B1 & _)]; auto; rewrite (B1 t Ht) in Hp; discriminate).
    assert (Hl : S (length (ws s)) = n).
    { destruct (pc s) eqn:Ep; try (apply g_full0; discriminate). specialize (Hr (mth s) (or_introl eq_refl)). unfold past in Hr. rewrite g_spawn0 in Hr by auto. discriminate. }
    pose proof (released_cnt n s HG Hr Hl) as Hc.
    assert (Hin : In i (ids (ths s))).
    { assert (Hinc : incl (ids (ths s)) (seq 0 n)) by (intros j Hj; apply in_seq; apply g_lt0 in Hj; lia).
      assert (Hinc2 : incl (seq 0 n) (ids (ths s))) by (apply NoDup_length_incl; auto; rewrite seq_length, <- g_cnt0, Hc; auto).
      apply Hinc2, in_seq. lia. }
    unfold ids in Hin. apply in_map_iff in Hin as (x & <- & Hx). apply filter_In in Hx as [Hx _]. apply A2; auto. apply past_reg. auto.
  - destruct g_arr0 as [_ A]. specialize (A t Ht). apply past_reg in Hp. congruence.
Qed.

(* ---- terminateMT ---- *)
(* nobody waits for a notification that is already gone *)
Definition heard (s : st) : Prop := arr s <> None /\
  ((exists k, pc s = MNotify k /\ forall t, In t (ws s) -> tp t = PWait) \/
   (pc s <> MSpawn /\ pc s <> MCtor /\ (forall k, pc s <> MNotify k) /\ flag s = false /\ forall t, In t (ws s) -> tp t = PWoken \/ tp t = PDone)).
Lemma heard_step s s' T R : T <= 1 -> good T R s -> heard s -> step s (Ok s') -> heard s'.
Proof.
  intros HT Hgood [Ha Hh] Hs.
  enough (Hg : forall o, step s o -> match o with Ok s' => heard s' | UB => True end) by (exact (Hg _ Hs)).
  clear s' Hs. intros o Hs.
  destruct Hgood as [Hf _ _ _|n HG [Ho1 Ho2] HTT _|_ HT']; [destruct Hf; contradiction| |lia].
  destruct Hh as [(k & Hp & Hw)|(P1 & P2 & P3 & Hf & Hw)].
  - assert (Hno : forall who t, getth who s = Some t -> tp t <> PWait -> False).
    { intros who t H1 H2. destruct who as [i|]; cbn in H1; [|rewrite Hp in H1; discriminate]. apply nth_error_In in H1. auto. }
    inversion Hs; subst; try congruence.
    + split; [exact Ha|]. right. cbn. split; [discriminate|]. split; [discriminate|]. split; [discriminate|]. split.
      * now rewrite Hp in Ho2.
      * intros t Ht. apply in_map_iff in Ht as (x & <- & Hx). specialize (Hw x Hx). unfold wake. rewrite Hw. now left.
    + exfalso. apply (Hno who t H). congruence.
    + exfalso. apply (Hno who t H). congruence.
    + exfalso. apply (Hno who t H). congruence.
    + exfalso. apply (Hno (Some i) t H). congruence.
    + exfalso. apply (Hno (Some i) t H). congruence.
  - assert (Hno : forall who t, getth who s = Some t -> tp t <> PWoken -> tp t <> PDone -> False).
    { intros who t H1 H2 H3. destruct who as [i|]; cbn in H1; [|destruct (pc s); congruence]. apply nth_error_In in H1. destruct (Hw _ H1); contradiction. }
    rewrite Hf in Ho1. inversion Hs; subst; try congruence.
    + split; [exact Ha|]. right. cbn. repeat split; auto; discriminate.
    + unfold cur in HT. rewrite H, H0, Ho1 in HT. cbn in HT. rewrite (proj2 (Z.eqb_neq n0 1)) in HT by congruence. unfold create. destruct (1 <? n0)%Z; [lia|].
      split; [exact Ha|]. right. cbn. repeat split; auto; discriminate.
    + split; [exact Ha|]. right. cbn. repeat split; auto; discriminate.
    + rewrite H in HT. destruct k as [m|]; [cbn in HT; unfold create; destruct (1 <? m)%Z; [lia|]|]; (split; [exact Ha|]; right; cbn; repeat split; auto; discriminate).
    + exfalso. apply (Hno who t H); congruence.
    + exfalso. apply (Hno who t H); congruence.
    + exfalso. apply (Hno who t H); congruence.
    + exfalso. apply (Hno (Some i) t H); congruence.
    + split; [exact Ha|]. right. cbn. repeat split; auto. intros x Hx. apply in_set in Hx as [->|Hx]; auto.
Qed.
Lemma runs_good T R s s' : good T R s -> runs_to s (Ok s') -> good T R s'.
Proof.
  intros Hg H. remember (Ok s') as o eqn:Eo. revert s' Eo. induction H as [s0|s0 s1 o H IH Hs]; intros s' Eo; [injection Eo as <-; auto|].
  subst. specialize (IH Hg s1 eq_refl). destruct (good_step _ _ _ _ IH Hs) as [(s'' & E & HG)|[E _]]; [|discriminate]. injection E as <-. exact HG.
Qed.
Lemma runs_mth s s' : mth_ok s -> runs_to s (Ok s') -> mth_ok s'.
Proof.
  intros Hg H. remember (Ok s') as o eqn:Eo. revert s' Eo. induction H as [s0|s0 s1 o H IH Hs]; intros s' Eo; [injection Eo as <-; auto|].
  subst. exact (mth_ok_step _ _ (IH Hg s1 eq_refl) Hs).
Qed.
Lemma runs_heard T R s s' : T <= 1 -> good T R s -> heard s -> runs_to s (Ok s') -> heard s'.
Proof.
  intros HT Hg Hh H. remember (Ok s') as o eqn:Eo. revert s' Eo. induction H as [s0|s0 s1 o H IH Hs]; intros s' Eo; [injection Eo as <-; auto|].
  subst. exact (heard_step _ _ T R HT (runs_good _ _ _ _ Hg H) (IH Hg Hh s1 eq_refl) Hs).
Qed.

(* ---- scripts that ask for one number of threads only ---- *)
Definition only (n : Z) (s : st) : Prop := Forall (fun c => c = Init n) (script s) /\ (flag s = true -> nthr s = n) /\ match pc s with MNotify _ | MJoin _ => False | _ => True end.
Lemma only_step n s s' : only n s -> step s (Ok s') -> only n s'.
Proof.
  intros (H1 & H2 & H3) Hs0. enough (Hg : forall o, step s o -> match o with Ok s' => only n s' | UB => True end) by (exact (Hg _ Hs0)).
  clear s' Hs0. intros o Hs.
  assert (Hsame : forall s1, script s1 = script s -> flag s1 = flag s -> nthr s1 = nthr s -> pc s1 = pc s -> only n s1) by (intros s1 E1 E2 E3 E4; unfold only; now rewrite E1, E2, E3, E4).
  inversion Hs; subst.
  - rewrite H0 in H1. inversion H1; subst. unfold only. cbn. now rewrite H0.
  - rewrite H0 in H1. inversion H1; subst. injection H8 as ->. specialize (H2 H5). congruence.
  - rewrite H0 in H1. inversion H1; subst. injection H8 as ->. unfold create. destruct (1 <? n)%Z; unfold only; cbn; now rewrite H0.
  - rewrite H0 in H1. inversion H1; subst. discriminate.
  - rewrite H0 in H1. inversion H1; subst. discriminate.
  - rewrite H in H3. contradiction.
  - rewrite H in H3. contradiction.
  - now apply Hsame.
  - unfold only. cbn. auto.
  - unfold only. cbn. auto.
  - destruct who; now apply Hsame.
  - unfold register. destruct (tid t <? _); [|exact I]. destruct who; now apply Hsame.
  - unfold arrive. destruct (miss =? 1), who; now apply Hsame.
  - now apply Hsame.
  - now apply Hsame.
Qed.
Lemma runs_only n s s' : only n s -> runs_to s (Ok s') -> only n s'.
Proof.
  intros Hg H. remember (Ok s') as o eqn:Eo. revert s' Eo. induction H as [s0|s0 s1 o H IH Hs]; intros s' Eo; [injection Eo as <-; auto|].
  subst. exact (only_step _ _ _ (IH Hg s1 eq_refl) Hs).
Qed.

(* ---- terminateMT returns after the workers ---- *)
Definition ended (s : st) : Prop := pc s = MIdle -> flag s = false -> forall t, In t (ws s) -> tp t = PDone.
Lemma ended_step T R s s' : good T R s -> ended s -> step s (Ok s') -> ended s'.
Proof.
  intros Hgood He Hs0. enough (Hg : forall o, step s o -> match o with Ok s' => ended s' | UB => True end) by (exact (Hg _ Hs0)).
  clear s' Hs0. intros o Hs.
  assert (Hno : forall who t, getth who s = Some t -> tp t <> PDone -> pc s = MIdle -> flag s = false -> False).
  { intros who t H1 H2 H3 H4. destruct who as [i|]; cbn in H1; [|rewrite H3 in H1; discriminate]. apply nth_error_In in H1. exact (H2 (He H3 H4 t H1)). }
  inversion Hs; subst; try (intros Hx; cbn in Hx; congruence).
  - intros _ Hf. exact (He H Hf).
  - unfold create. destruct (1 <? n)%Z; [intros Hx; discriminate|]. intros _ Hf. exact (He H Hf).
  - intros _ Hf. exact (He H Hf).
  - destruct k as [m|]; [unfold create; destruct (1 <? m)%Z; [intros Hx; discriminate|]|]; intros _ _; exact H0.
  - intros _ Hf. cbn in Hf. exfalso. destruct Hgood as [Hx _ _ _|n _ [_ Ho] _ _|[_ _ (a & _ & _ & Hx)] _]; [destruct Hx; congruence|rewrite H in Ho; congruence|].
    destruct (Hx (mth s) (or_introl eq_refl)) as [Hy _]. unfold isreg in Hy. rewrite H0 in Hy. discriminate.
  - intros Hp Hf. exfalso. apply (Hno who t H); [congruence|destruct who; exact Hp|destruct who; exact Hf].
  - unfold register. destruct (tid t <? _); [|exact I]. intros Hp Hf. exfalso. apply (Hno who t H); [congruence|destruct who; exact Hp|destruct who; exact Hf].
  - intros Hp Hf. destruct (arrive_f who t size miss s) as (E1 & E2 & _). exfalso. apply (Hno who t H); congruence.
  - intros Hp Hf. exfalso. apply (Hno (Some i) t H); [congruence|exact Hp|exact Hf].
  - intros Hp Hf. exfalso. apply (Hno (Some i) t H); [congruence|exact Hp|exact Hf].
Qed.
Lemma runs_ended T R s s' : good T R s -> ended s -> runs_to s (Ok s') -> ended s'.
Proof.
  intros Hg Hh H. remember (Ok s') as o eqn:Eo. revert s' Eo. induction H as [s0|s0 s1 o H IH Hs]; intros s' Eo; [injection Eo as <-; auto|].
  subst. exact (ended_step T R _ _ (runs_good _ _ _ _ Hg H) (IH Hg Hh s1 eq_refl) Hs).
Qed.

(* ==== C65 ==== *)
(* a program that starts the threads once: no out-of-bounds access under any
   interleaving, every execution is finite, and one that cannot go on has answered
   every call with the number of threads in use, or is a terminateMT that waits for a
   thread that missed the notification *)
Theorem C65_partial l : creations 1 l <= 1 ->
  ~ runs_to (boot l) UB /\
  (forall k s, runs_in k (boot l) (Ok s) -> k <= steps_left (boot l)) /\
  (forall s, runs_to (boot l) (Ok s) -> stuck s -> hang s \/ (completed s /\ rets s = map result l)).
Proof.
  intros HT. split; [|split].
  - intros H. inversion H; subst. destruct (good_step _ _ _ _ (reach_good l _ H0) H1) as [(s2 & E & _)|[_ Hx]]; [discriminate|lia].
  - intros k s H. apply runs_in_left in H. lia.
  - intros s H Hs. destruct (stuck_end _ _ s (reach_good l s H) (reach_mth l s H) Hs) as [h|(h1 & _ & h2)]; auto.
Qed.
(* in whatever program: a thread that may look for work in the other schedulers finds
   all of them in place *)
Theorem C65_ready l s t : runs_to (boot l) (Ok s) -> In t (ths s) -> past t = true ->
  exists a, arr s = Some a /\ length a = tc s /\ forall i, i < length a -> nth_error a i = Some true.
Proof. intros H. apply (all_registered (creations 1 l) (map result l)). now apply reach_good. Qed.
(* in whatever program: when no call is running and the threads are stopped, every
   worker has ended *)
Theorem C65_stopped l s t : runs_to (boot l) (Ok s) -> pc s = MIdle -> flag s = false -> In t (ws s) -> tp t = PDone.
Proof.
  intros H H1 H2 H3. assert (He : ended s) by (apply (runs_ended _ _ _ _ (good_boot l)); auto; intros _ _ x []). exact (He H1 H2 t H3).
Qed.
(* initMT(n), however often with the same n: always returns n (1 if n < 2) *)
Theorem C65_init n l s : Forall (fun c => c = Init n) l -> runs_to (boot l) (Ok s) -> stuck s -> completed s /\ rets s = map result l.
Proof.
  intros Hl H Hs. assert (Ho : only n s) by (eapply runs_only; [|exact H]; split; [exact Hl|split; [discriminate|exact I]]).
  destruct (stuck_end _ _ s (reach_good l s H) (reach_mth l s H) Hs) as [(k & h & _)|(h1 & _ & h2)]; auto.
  destruct Ho as (_ & _ & Ho). rewrite h in Ho. contradiction.
Qed.
(* terminateMT comes back if every worker was waiting when it was called *)
Theorem C65_term l s k s' : creations 1 l <= 1 -> runs_to (boot l) (Ok s) -> pc s = MNotify k -> (forall t, In t (ws s) -> tp t = PWait) ->
  runs_to s (Ok s') -> stuck s' -> completed s' /\ rets s' = map result l.
Proof.
  intros HT H Hp Hw H2 Hs. pose proof (reach_good l s H) as Hg. pose proof (runs_good _ _ _ _ Hg H2) as Hg2.
  destruct (stuck_end _ _ s' Hg2 (runs_mth _ _ (reach_mth l s H) H2) Hs) as [(j & h & t & Ht & Et)|(h1 & _ & h2)]; auto. exfalso.
  assert (Hh : heard s).
  { split; [|left; eauto]. destruct Hg as [Hf _ _ _|m [] _ _ _|[[h'|h'] _ _] _]; [destruct Hf; congruence| |congruence|congruence]. apply g_main0; congruence. }
  destruct (runs_heard _ _ _ _ HT Hg Hh H2) as [_ [(k' & h' & _)|(_ & _ & _ & _ & Hx)]]; [congruence|]. destruct (Hx t Ht); congruence.
Qed.
(* the full claim is refuted: a program that starts the threads twice never gets
   through, whatever the interleaving: it writes out of bounds or hangs *)
Theorem C65_refuted l : 2 <= creations 1 l -> forall s, runs_to (boot l) (Ok s) -> ~ completed s /\ (stuck s -> hang s).
Proof.
  intros HT s H. pose proof (reach_good l s H) as Hg. split.
  - intros [Hp Hsc]. destruct Hg as [Hf _ E _|n HG _ E _|[[h|h] _ _] _]; try congruence; rewrite Hsc in E; [cbn in E; lia|]. unfold cur in E. rewrite Hp in E. cbn in E. lia.
  - intros Hs. destruct (stuck_end _ _ s Hg (reach_mth l s H) Hs) as [h|(_ & h & _)]; auto. lia.
Qed.
(* QddBackend._run_experiment calls initMT(n) before and terminateMT after every
   job (qdd/qdd_backend.py:375-376, 395-396): a process that runs two never gets
   through *)
Corollary C65_refuted_backend n k : (1 < n)%Z -> 2 <= k -> forall s, runs_to (boot (concat (repeat [Init n; Term] k))) (Ok s) -> ~ completed s /\ (stuck s -> hang s).
Proof.
  intros Hn Hk. apply C65_refuted. assert (Hc : forall j, creations 1 (concat (repeat [Init n; Term] j)) = j).
  { induction j as [|j IH]; cbn; auto. rewrite (proj2 (Z.eqb_neq n 1)) by lia. rewrite (proj2 (Z.ltb_lt 1 n) Hn). now rewrite IH. }
  now rewrite Hc.
Qed.

(* ---- examples ---- *)
Lemma runs_cons s s1 o : step s (Ok s1) -> runs_to s1 o -> runs_to s o.
Proof.
  intros Hs H. induction H as [s1|s1 s2 o H IH H2]; [eapply r_step; [apply r_refl|exact Hs]|]. eapply r_step; [apply IH; exact Hs|exact H2].
Qed.
Lemma t_reg' s s1 who t : getth who s = Some t -> tp t = PId -> register who t s = Ok s1 -> step s (Ok s1).
Proof. intros H1 H2 <-. now apply t_reg. Qed.
Ltac goes := first [reflexivity | discriminate | cbn; lia].
Ltac st c := eapply runs_cons; [eapply c; goes|]; cbv.
Ltac stw c w := eapply runs_cons; [eapply c with (who := w); goes|]; cbv.
Ltac sti c := eapply runs_cons; [eapply c with (i := 0); goes|]; cbv.
Ltac up := st m_first; st m_spawn; st m_spawned; stw t_id (@None nat); stw t_id (Some 0); stw t_reg' (@None nat); stw t_reg' (Some 0); stw t_arr (Some 0); stw t_arr (@None nat); st m_up.
Ltac down := sti w_wait; st m_term; st m_notify; sti w_end; eapply runs_cons; [eapply m_join; [reflexivity|intros ? [<-|[]]; reflexivity]|]; cbv.
(* started once and stopped; the further calls change nothing *)
Theorem C65_example : exists s, runs_to (boot [Init 2; Init 2; Term; Term; Init 0]) (Ok s) /\ completed s /\ rets s = [Some 2%Z; Some 2%Z; None; None; Some 1%Z].
Proof.
  eexists. split; [|split].
  - up. st m_same. down. st m_noterm. st m_first. apply r_refl.
  - split; reflexivity.
  - reflexivity.
Qed.
(* the second start writes out of bounds *)
Theorem C65_refuted_ub : runs_to (boot [Init 2; Term; Init 2]) UB.
Proof.
  up. down. st m_first. st m_spawn. st m_spawned. stw t_id (@None nat).
  eapply r_step; [apply r_refl|]. change UB with (register None (Th PId 2) (St 3 (Some (2, 2)) (Some [true; true]) [Th PNew 0] (Th PId 2) 2 MCtor true 2%Z [] [Some 2%Z; None])).
  apply t_reg; reflexivity.
Qed.
(* terminateMT before the worker waits: the program hangs *)
Theorem C65_refuted_hang : exists s, runs_to (boot [Init 2; Term]) (Ok s) /\ stuck s /\ hang s.
Proof.
  eexists. split; [|split].
  - up. st m_term. st m_notify. sti w_wait. apply r_refl.
  - intros o Hs. inversion Hs; subst; try discriminate.
    + specialize (H0 (Th PWait 1) (or_introl eq_refl)). discriminate.
    + destruct who as [[|[|]]|]; try discriminate. injection H as <-. discriminate.
    + destruct who as [[|[|]]|]; try discriminate. injection H as <-. discriminate.
    + destruct who as [[|[|]]|]; try discriminate. injection H as <-. discriminate.
    + destruct i as [|[|]]; try discriminate. injection H as <-. discriminate.
    + destruct i as [|[|]]; try discriminate. injection H as <-. discriminate.
  - exists None. split; [reflexivity|]. eexists. split; [left; reflexivity|reflexivity].
Qed.
