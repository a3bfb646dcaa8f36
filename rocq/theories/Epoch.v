(* Epoch.v -- epoch-based reclamation, include/epoch.h and src/epoch.cpp, one shared
   access per step, any number of threads, interleaved arbitrarily.
   Simplifications: sequentially consistent memory; the set of registered threads
   (deletionLists) is fixed and a thread that never entered has epoch 0
   (value-initialised); epochs and counters are unbounded; recycled DeleteEntry
   records (freeLabelDeletes) are memory only and left out; deletionListCount is the
   number of nodes in the list.  The client protocol is part of the model: a thread
   gets references only inside a guard and only to linked nodes, drops them when
   its outermost guard ends, and retires a node after unlinking it, once. *)
From Coq Require Import Arith List Bool Lia Permutation.
Import ListNotations.

(* a DeleteEntry, epoch.h:9-14 *)
Record label := Lab { nodes : list nat; lepoch : nat }.
(* where a node is *)
Inductive status := Linked | Unlinked (by_ : nat) | Retired (by_ : nat) | Freed.
Inductive pcs :=
| Run                                        (* in client code *)
| Enter1 (e : nat)                           (* epoch.cpp:59: global epoch loaded *)
| Exit1                                      (* 75-78: going to clean up *)
| Scan (todo : list nat) (oldest : option nat)             (* 81-87; None: uint64 max *)
| Del (oldest : option nat) (done rest : list label).      (* 89-102 *)
(* a thread: its DeletionList (epoch.h:17-35) and what the client does *)
Record thr := Th {
  loc : option nat;                          (* localEpoch; None: uint64 max *)
  cnt : nat;                                 (* thresholdCounter *)
  labels : list label;                       (* headDeletionList, first = head *)
  pc : pcs;
  depth : nat;                               (* guards entered and not left *)
  held : list nat }.                         (* references the client may follow *)
Record state := St { glob : nat; where_ : nat -> status; th : nat -> thr; frees : list nat }.

Definition upd {A} (f : nat -> A) (k : nat) (x : A) : nat -> A := fun j => if Nat.eqb j k then x else f j.
(* DeletionList::add, epoch.cpp:32-54 *)
Definition add (n e : nat) (l : list label) : list label :=
  match l with
  | Lab ns _ :: r => if length ns <? 32 then Lab (ns ++ [n]) e :: r else Lab [n] e :: l
  | [] => [Lab [n] e]
  end.
Definition lnodes (l : list label) : list nat := flat_map nodes l.
Definition omin (a b : option nat) : option nat :=   (* e < oldest ? e : oldest *)
  match a, b with Some x, Some y => Some (if x <? y then x else y) | Some x, None => Some x | None, b => b end.
Definition below (e : nat) (o : option nat) : bool := match o with None => true | Some x => e <? x end.
(* the end of a guard for the client *)
Definition leave (t : thr) : thr :=
  Th (loc t) (cnt t) (labels t) (pc t) (pred (depth t)) (held t).
Definition drop_refs (t : thr) : list nat := if depth t =? 1 then [] else held t.

Section Steps.
Context (N : nat) (startGC : nat) (nest : bool).   (* threads 0..N-1; startGCThreshhold; may guards be nested? *)

Inductive step : state -> state -> Prop :=
(* enterEpoch, epoch.cpp:58-62, from the guard's constructor (epoch.h:88-90, 100-102) *)
| s_enter1 s k : k < N -> pc (th s k) = Run -> (depth (th s k) = 0 \/ nest = true) ->
    step s (St (glob s) (where_ s) (upd (th s) k (Th (loc (th s k)) (cnt (th s k)) (labels (th s k)) (Enter1 (glob s)) (depth (th s k)) (held (th s k)))) (frees s))
| s_enter2 s k e : k < N -> pc (th s k) = Enter1 e ->
    step s (St (glob s) (where_ s) (upd (th s) k (Th (Some e) (cnt (th s k)) (labels (th s k)) Run (S (depth (th s k))) (held (th s k)))) (frees s))
(* client: follow a link; unlink a node *)
| s_acquire s k n : k < N -> pc (th s k) = Run -> 0 < depth (th s k) -> where_ s n = Linked ->
    step s (St (glob s) (where_ s) (upd (th s) k (Th (loc (th s k)) (cnt (th s k)) (labels (th s k)) Run (depth (th s k)) (n :: held (th s k)))) (frees s))
| s_unlink s k n : k < N -> pc (th s k) = Run -> 0 < depth (th s k) -> where_ s n = Linked ->
    step s (St (glob s) (upd (where_ s) n (Unlinked k)) (th s) (frees s))
(* markNodeForDeletion, epoch.cpp:64-67 *)
| s_mark s k n : k < N -> pc (th s k) = Run -> where_ s n = Unlinked k ->
    step s (St (glob s) (upd (where_ s) n (Retired k))
      (upd (th s) k (Th (loc (th s k)) (S (cnt (th s k))) (add n (glob s) (labels (th s k))) Run (depth (th s k)) (held (th s k)))) (frees s))
(* exitEpochAndCleanup, epoch.cpp:69-105, from ~EpochGuard (epoch.h:92-94): lines 71-78 *)
| s_exit s k : k < N -> pc (th s k) = Run -> 0 < depth (th s k) ->
    step s (let t := th s k in
      let g := if cnt t mod 64 =? 1 then S (glob s) else glob s in
      St g (where_ s) (upd (th s) k
        (if startGC <? cnt t then
           if length (lnodes (labels t)) =? 0 then Th (loc t) 0 (labels t) Run (pred (depth t)) (drop_refs t)
           else Th (loc t) (cnt t) (labels t) Exit1 (depth t) (drop_refs t)
         else Th (loc t) (cnt t) (labels t) Run (pred (depth t)) (drop_refs t))) (frees s))
(* line 79 *)
| s_exit_max s k : k < N -> pc (th s k) = Exit1 ->
    step s (St (glob s) (where_ s) (upd (th s) k (Th None (cnt (th s k)) (labels (th s k)) (Scan (seq 0 N) None) (depth (th s k)) (held (th s k)))) (frees s))
(* lines 82-87 *)
| s_scan s k j todo o : k < N -> pc (th s k) = Scan (j :: todo) o ->
    step s (St (glob s) (where_ s) (upd (th s) k (Th (loc (th s k)) (cnt (th s k)) (labels (th s k)) (Scan todo (omin (loc (th s j)) o)) (depth (th s k)) (held (th s k)))) (frees s))
| s_scan_end s k o : k < N -> pc (th s k) = Scan [] o ->
    step s (St (glob s) (where_ s) (upd (th s) k (Th (loc (th s k)) (cnt (th s k)) (labels (th s k)) (Del o [] (labels (th s k))) (depth (th s k)) (held (th s k)))) (frees s))
(* lines 90-102 *)
| s_del s k o done l rest : k < N -> pc (th s k) = Del o done (l :: rest) -> below (lepoch l) o = true ->
    step s (St (glob s) (fun n => if existsb (Nat.eqb n) (nodes l) then Freed else where_ s n)
      (upd (th s) k (Th (loc (th s k)) (cnt (th s k)) (done ++ rest) (Del o done rest) (depth (th s k)) (held (th s k)))) (nodes l ++ frees s))
| s_keep s k o done l rest : k < N -> pc (th s k) = Del o done (l :: rest) -> below (lepoch l) o = false ->
    step s (St (glob s) (where_ s) (upd (th s) k (Th (loc (th s k)) (cnt (th s k)) (labels (th s k)) (Del o (done ++ [l]) rest) (depth (th s k)) (held (th s k)))) (frees s))
(* line 103 *)
| s_del_end s k o done : k < N -> pc (th s k) = Del o done [] ->
    step s (St (glob s) (where_ s) (upd (th s) k (Th (loc (th s k)) 0 (labels (th s k)) Run (pred (depth (th s k))) (held (th s k)))) (frees s))
(* ~EpochGuardReadonly, epoch.h:104-105 *)
| s_exit_readonly s k : k < N -> pc (th s k) = Run -> 0 < depth (th s k) ->
    step s (St (glob s) (where_ s) (upd (th s) k (Th (loc (th s k)) (cnt (th s k)) (labels (th s k)) Run (pred (depth (th s k))) (drop_refs (th s k)))) (frees s))
(* ~ThreadInfo, epoch.h:108-110, outside every guard *)
| s_destroy s k : k < N -> pc (th s k) = Run -> depth (th s k) = 0 ->
    step s (St (glob s) (where_ s) (upd (th s) k (Th None (cnt (th s k)) (labels (th s k)) Run 0 (held (th s k)))) (frees s)).

Definition init : state := St 0 (fun _ => Linked) (fun _ => Th (Some 0) 0 [] Run 0 []) [].
Inductive reach : state -> Prop :=
| r_init : reach init
| r_step s s' : reach s -> step s s' -> reach s'.
End Steps.

(* ---- C54 for guards that are not nested: the invariant ---- *)
Definition local (g : nat) (w : nat -> status) (k : nat) (t : thr) : Prop :=
  depth t <= 1 /\
  (held t <> [] -> pc t = Run /\ depth t = 1 /\ loc t <> None) /\
  (depth t = 1 -> pc t = Run -> loc t <> None) /\
  (forall e, loc t = Some e -> e <= g) /\ (forall e, pc t = Enter1 e -> e <= g /\ depth t = 0) /\
  (forall o d r, pc t = Del o d r -> labels t = d ++ r) /\
  NoDup (lnodes (labels t)) /\
  (forall n, In n (lnodes (labels t)) -> w n = Retired k) /\
  (forall n, In n (held t) -> w n <> Freed).
(* [t] (thread k) holds references; [r] has retired nodes *)
Definition pair (k : nat) (t r : thr) : Prop :=
  forall n l, In n (held t) -> In l (labels r) -> In n (nodes l) ->
  (forall e, loc t = Some e -> e <= lepoch l) /\
  match pc r with
  | Scan todo o => ~ In k todo -> exists x, o = Some x /\ x <= lepoch l
  | Del o _ _ => exists x, o = Some x /\ x <= lepoch l
  | _ => True
  end.
Definition inv (N : nat) (s : state) : Prop :=
  (forall k, k < N -> local (glob s) (where_ s) k (th s k)) /\
  (forall k j, k < N -> j < N -> pair k (th s k) (th s j)) /\
  NoDup (frees s) /\ (forall n, In n (frees s) -> where_ s n = Freed).

Lemma inv_upd N s k g w t' f : inv N s -> k < N -> glob s <= g ->
  (forall j n, j < N -> j <> k -> where_ s n = Retired j -> w n = Retired j) ->
  (forall j n, j < N -> j <> k -> In n (held (th s j)) -> w n <> Freed) ->
  local g w k t' ->
  (forall j, j < N -> j <> k -> pair j (th s j) (th s k) -> pair j (th s j) t') ->
  (forall j, j < N -> j <> k -> pair k (th s k) (th s j) -> pair k t' (th s j)) ->
  pair k t' t' -> NoDup f -> (forall n, In n f -> w n = Freed) ->
  inv N (St g w (upd (th s) k t') f).
Proof.
  intros (IL & IP & IF1 & IF2) Hk Hg Hw Hh HL HP1 HP2 HP3 HF1 HF2. unfold inv. cbn [glob where_ th frees]. split; [|split; [|split; auto]].
  - intros j Hj. unfold upd. destruct (Nat.eqb_spec j k) as [->|Hne]; [exact HL|].
    destruct (IL j Hj) as (L1 & L2 & L3 & L4 & L5 & L6 & L7 & L8 & L9). unfold local.
    split; [exact L1|]. split; [exact L2|]. split; [exact L3|]. split; [intros e He; specialize (L4 e He); lia|].
    split; [intros e He; destruct (L5 e He); split; [lia|auto]|]. split; [exact L6|]. split; [exact L7|].
    split; [intros n Hn; apply Hw; auto|]. intros n Hn. apply (Hh j); auto.
  - intros i j Hi Hj. unfold upd. destruct (Nat.eqb_spec i k) as [->|Hni], (Nat.eqb_spec j k) as [->|Hnj]; auto.
Qed.
(* a step that changes neither the retired nodes nor what is held *)
Lemma pair_ret j t r r' : pair j t r -> labels r' = labels r ->
  match pc r' with Scan _ _ | Del _ _ _ => False | _ => True end -> pair j t r'.
Proof. intros H E1 E2 n l Hn Hl Hin. rewrite E1 in Hl. destruct (H n l Hn Hl Hin) as [H1 _]. split; auto. destruct (pc r'); auto; contradiction. Qed.
Lemma pair_hold j t t' r : pair j t r -> (forall n, In n (held t') -> In n (held t)) -> (held t' = [] \/ loc t' = loc t) -> pair j t' r.
Proof.
  intros H E1 E2 n l Hn Hl Hin. destruct E2 as [E2|E2]; [rewrite E2 in Hn; destruct Hn|]. destruct (H n l (E1 n Hn) Hl Hin) as [H1 H2]. rewrite E2. auto.
Qed.
Lemma pair_none j t r : held t = [] -> pair j t r.
Proof. intros H n l Hn. rewrite H in Hn. destruct Hn. Qed.
Lemma in_lnodes n l ls : In l ls -> In n (nodes l) -> In n (lnodes ls).
Proof. intros H1 H2. unfold lnodes. apply in_flat_map. eauto. Qed.
Lemma lnodes_add n e ls : forall m, In m (lnodes (add n e ls)) <-> m = n \/ In m (lnodes ls).
Proof.
  intros m. unfold lnodes. destruct ls as [|[ns e0] r]; cbn [add].
  - cbn. intuition.
  - destruct (length ns <? 32); cbn [flat_map nodes]; rewrite !in_app_iff; cbn; intuition.
Qed.
Lemma nodup_add n e ls : NoDup (lnodes ls) -> ~ In n (lnodes ls) -> NoDup (lnodes (add n e ls)).
Proof.
  intros H1 H2. unfold lnodes in *. destruct ls as [|[ns e0] r]; cbn [add].
  - cbn. constructor; [auto|constructor].
  - destruct (length ns <? 32); cbn [flat_map nodes] in *.
    + rewrite <- app_assoc. cbn [app]. apply NoDup_Add with (a := n) (l := ns ++ flat_map nodes r); [apply Add_app|]. auto.
    + cbn [app]. constructor; auto.
Qed.
(* the entries of the list after [add]: an old node's entry did not get an older epoch *)
Lemma add_entry n e ls l m : In l (add n e ls) -> In m (nodes l) ->
  (m = n /\ lepoch l = e) \/ (exists l0, In l0 ls /\ In m (nodes l0) /\ (lepoch l = lepoch l0 \/ lepoch l = e)).
Proof.
  destruct ls as [|[ns e0] r]; cbn [add].
  - intros [<-|[]]. cbn. intros [<-|[]]. auto.
  - destruct (length ns <? 32).
    + intros [<-|Hl]; cbn [nodes lepoch].
      * rewrite in_app_iff. cbn. intros [Hm|[<-|[]]]; auto. right. exists (Lab ns e0). cbn. auto.
      * intros Hm. right. exists l. cbn. auto.
    + intros [<-|Hl]; cbn [nodes lepoch].
      * intros [<-|[]]. auto.
      * intros Hm. right. exists l. auto.
Qed.
Lemma nodup_app_disj {A} (b c : list A) : NoDup (b ++ c) -> NoDup c /\ NoDup b /\ forall x, In x b -> ~ In x c.
Proof.
  induction b as [|y b IH]; cbn; intros H.
  - split; [auto|]. split; [constructor|]. intros x [].
  - inversion H as [|? ? H1 H2]; subst. destruct (IH H2) as (I1 & I2 & I3). rewrite in_app_iff in H1. split; auto. split; [constructor; auto|].
    intros x [<-|Hx]; auto.
Qed.
Lemma NoDup_app_intro {A} (b c : list A) : NoDup b -> NoDup c -> (forall x, In x b -> ~ In x c) -> NoDup (b ++ c).
Proof.
  induction b as [|y b IH]; cbn; intros H1 H2 H3; auto. inversion H1; subst. constructor.
  - rewrite in_app_iff. intros [h|h]; [contradiction|]. apply (H3 y); auto.
  - apply IH; auto.
Qed.
Lemma lnodes_app a b : lnodes (a ++ b) = lnodes a ++ lnodes b.
Proof. apply flat_map_app. Qed.
Lemma lnodes_mid a l b : Permutation (lnodes (a ++ l :: b)) (nodes l ++ lnodes (a ++ b)).
Proof.
  rewrite !lnodes_app. unfold lnodes at 2. cbn [flat_map]. change (flat_map nodes b) with (lnodes b).
  rewrite !app_assoc. apply Permutation_app_tail. apply Permutation_app_comm.
Qed.
Lemma existsb_in n l : existsb (Nat.eqb n) l = true <-> In n l.
Proof.
  rewrite existsb_exists. split; [intros (x & H & E); apply Nat.eqb_eq in E; now subst|]. intros H. exists n. split; auto. apply Nat.eqb_refl.
Qed.

Ltac noin := let x := fresh in intros ? x; solve [destruct x].
Ltac upd1 := apply inv_upd; [assumption|assumption|auto| | | | | | | |]; [try solve [auto]|try solve [auto]| | | | |try solve [auto]|try solve [auto]].
Ltac loc9 := unfold local; cbn [depth held pc loc labels].
Ltac s9 := refine (conj _ (conj _ (conj _ (conj _ (conj _ (conj _ (conj _ (conj _ _)))))))).
Lemma step_inv N gc s s' : inv N s -> step N gc false s s' -> inv N s'.
Proof.
  intros HI Hs. pose proof HI as (IL & IP & IF1 & IF2). destruct Hs as
    [s k Hk Hpc Hn|s k e Hk Hpc|s k n Hk Hpc Hd Hw|s k n Hk Hpc Hd Hw|s k n Hk Hpc Hw|s k Hk Hpc Hd|s k Hk Hpc|s k j todo o Hk Hpc|s k o Hk Hpc|s k o done l rest Hk Hpc Hb|s k o done l rest Hk Hpc Hb|s k o done Hk Hpc|s k Hk Hpc Hd|s k Hk Hpc Hd];
    destruct (IL k Hk) as (L1 & L2 & L3 & L4 & L5 & L6 & L7 & L8 & L9); try rewrite Hpc in *;
    assert (H0 : forall j n, j < N -> j <> k -> In n (held (th s j)) -> where_ s n <> Freed) by (intros j0 n0 Hj0 _; destruct (IL j0 Hj0) as (_ & _ & _ & _ & _ & _ & _ & _ & H9); auto).
  - (* enter1 *)
    destruct Hn as [Hn|Hn]; [|discriminate].
    assert (Hh : held (th s k) = []). { destruct (held (th s k)) eqn:E; auto. destruct L2 as (_ & L2 & _); [congruence|lia]. }
    upd1.
    + loc9. rewrite Hh. s9; auto; try congruence; try lia; try noin; try (intros; discriminate).
      intros e [= <-]; auto.
    + intros j Hj Hne HP. eapply pair_ret; [exact HP| |]; cbn; auto.
    + intros j Hj Hne HP. apply pair_none. exact Hh.
    + apply pair_none. exact Hh.
  - (* enter2 *)
    destruct (L5 e eq_refl) as [He Hd0].
    assert (Hh : held (th s k) = []). { destruct (held (th s k)) eqn:E; auto. destruct L2 as (L2 & _); [congruence|discriminate]. }
    upd1.
    + loc9. rewrite Hh, Hd0. s9; auto; try congruence; try lia; try noin; try (intros; discriminate).
    + intros j Hj Hne HP. eapply pair_ret; [exact HP| |]; cbn; auto.
    + intros j Hj Hne HP. apply pair_none. exact Hh.
    + apply pair_none. exact Hh.
  - (* acquire *)
    assert (Hd1 : depth (th s k) = 1) by lia.
    assert (Hnew : forall j l, j < N -> In l (labels (th s j)) -> ~ In n (nodes l)).
    { intros j l Hj Hl Hin. destruct (IL j Hj) as (_ & _ & _ & _ & _ & _ & _ & H8 & _). rewrite (H8 n) in Hw; [discriminate|]. eapply in_lnodes; eauto. }
    assert (HP : forall j, j < N -> pair k (Th (loc (th s k)) (cnt (th s k)) (labels (th s k)) Run (depth (th s k)) (n :: held (th s k))) (th s j)).
    { intros j Hj m l [<-|Hm] Hl Hin; [exfalso; eapply Hnew; eauto|]. cbn [loc]. apply (IP k j Hk Hj m l Hm Hl Hin). }
    upd1.
    + loc9. s9; auto; try congruence; try lia; try (intros; discriminate).
      intros m [<-|Hm]; auto. rewrite Hw. discriminate.
    + intros j Hj Hne HPj. eapply pair_ret; [exact HPj| |]; cbn; auto.
    + intros j Hj Hne _. apply HP; auto.
    + eapply pair_ret; [apply (HP k Hk)| |]; cbn; auto.
  - (* unlink *)
    unfold inv. cbn [glob where_ th frees]. split; [|split; [auto|split; auto]].
    + intros j Hj. destruct (IL j Hj) as (M1 & M2 & M3 & M4 & M5 & M6 & M7 & M8 & M9). unfold local. s9; auto; try (apply M2; auto); try (eapply M5; eauto).
      * intros m Hm. unfold upd. destruct (Nat.eqb_spec m n) as [->|]; auto. rewrite (M8 n Hm) in Hw. discriminate.
      * intros m Hm. unfold upd. destruct (Nat.eqb_spec m n) as [->|]; auto. discriminate.
    + intros m Hm. unfold upd. destruct (Nat.eqb_spec m n) as [->|]; auto. rewrite (IF2 n Hm) in Hw. discriminate.
  - (* mark *)
    assert (HP : forall j, j < N -> pair j (th s j) (Th (loc (th s k)) (S (cnt (th s k))) (add n (glob s) (labels (th s k))) Run (depth (th s k)) (held (th s k)))).
    { intros j Hj m l Hm Hl Hin. cbn [pc labels] in *. split; auto. intros e He.
      destruct (IL j Hj) as (_ & _ & _ & M4 & _). specialize (M4 e He).
      destruct (add_entry _ _ _ _ _ Hl Hin) as [[_ ->]|(l0 & Hl0 & Hin0 & E)]; auto.
      destruct (IP j k Hj Hk m l0 Hm Hl0 Hin0) as [H1 _]. specialize (H1 e He). lia. }
    assert (Hne : forall m, where_ s m <> Unlinked k -> upd (where_ s) n (Retired k) m = where_ s m).
    { intros m Hm. unfold upd. destruct (Nat.eqb_spec m n) as [->|]; auto. congruence. }
    upd1.
    + intros j m Hj _ E. rewrite Hne; auto. rewrite E. discriminate.
    + intros j m Hj Hjk Hm. unfold upd. destruct (Nat.eqb m n); [discriminate|]. apply (H0 j); auto.
    + loc9. s9; auto; try (apply L2; auto); try (intros; discriminate).
      * apply nodup_add; auto. intros Hin. rewrite (L8 n Hin) in Hw. discriminate.
      * intros m Hm. apply lnodes_add in Hm. unfold upd. destruct (Nat.eqb_spec m n) as [->|Hmn]; auto. destruct Hm as [->|Hm]; [congruence|auto].
      * intros m Hm. unfold upd. destruct (Nat.eqb m n); [discriminate|]. auto.
    + intros j Hj Hjk _. apply HP; auto.
    + intros j Hj Hjk HPj. exact HPj.
    + intros m l Hm Hl Hin. apply (HP k Hk m l); auto.
    + intros m Hm. rewrite Hne; auto. rewrite (IF2 m Hm). discriminate.
  - (* exit *)
    assert (Hd1 : depth (th s k) = 1) by lia. set (t := th s k) in *. cbv zeta.
    assert (Hg : glob s <= (if cnt t mod 64 =? 1 then S (glob s) else glob s)) by (destruct (_ =? 1); lia).
    assert (Hdr : drop_refs t = []) by (unfold drop_refs; now rewrite Hd1). rewrite Hdr, Hd1. cbn [pred].
    assert (L4' : forall e, loc t = Some e -> e <= (if cnt t mod 64 =? 1 then S (glob s) else glob s)) by (intros e He; specialize (L4 e He); lia).
    destruct (gc <? cnt t); [destruct (length (lnodes (labels t)) =? 0)|]; (upd1;
      [ loc9; s9; auto; try congruence; try lia; try noin; try (intros; discriminate)
      | intros j Hj Hne HP; eapply pair_ret; [exact HP| |]; cbn; auto
      | intros j Hj Hne HP; apply pair_none; reflexivity
      | apply pair_none; reflexivity ]).
  - (* exit max *)
    assert (Hh : held (th s k) = []). { destruct (held (th s k)) eqn:E; auto. destruct L2 as (L2 & _); [congruence|discriminate]. }
    upd1.
    + loc9. rewrite Hh. s9; auto; try congruence; try noin; try (intros; discriminate).
    + intros j Hj Hne HP n l Hn Hl Hin. cbn [pc labels] in *. destruct (HP n l Hn Hl Hin) as [H1 _]. split; auto.
      intros Hx. exfalso. apply Hx. apply in_seq. lia.
    + intros j Hj Hne HP. apply pair_none. exact Hh.
    + apply pair_none. exact Hh.
  - (* scan *)
    assert (Hh : held (th s k) = []). { destruct (held (th s k)) eqn:E; auto. destruct L2 as (L2 & _); [congruence|discriminate]. }
    upd1.
    + loc9. rewrite Hh. s9; auto; try congruence; try noin; try (intros; discriminate).
    + intros i Hi Hne HP n l Hn Hl Hin. cbn [pc labels] in *. destruct (HP n l Hn Hl Hin) as [H1 H2]. rewrite Hpc in H2. split; auto.
      intros Hx. destruct (Nat.eq_dec i j) as [->|Hij].
      * destruct (IL j Hi) as (_ & M2 & _). destruct M2 as (_ & _ & M2); [intros E; rewrite E in Hn; destruct Hn|].
        destruct (loc (th s j)) as [e|] eqn:Ee; [|congruence]. specialize (H1 e eq_refl). cbn [omin]. destruct o as [y|]; eauto.
        destruct (Nat.ltb_spec e y); eauto. exists y. split; auto. lia.
      * destruct H2 as (x & -> & Hx2); [intros [Hji|Hji]; [congruence|contradiction]|].
        destruct (loc (th s j)) as [e|]; cbn [omin]; eauto. destruct (Nat.ltb_spec e x); eauto. exists e. split; auto. lia.
    + intros i Hi Hne HP. apply pair_none. exact Hh.
    + apply pair_none. exact Hh.
  - (* scan end *)
    assert (Hh : held (th s k) = []). { destruct (held (th s k)) eqn:E; auto. destruct L2 as (L2 & _); [congruence|discriminate]. }
    upd1.
    + loc9. rewrite Hh. s9; auto; try congruence; try noin; try (intros; discriminate). intros o0 d r [= <- <- <-]. reflexivity.
    + intros i Hi Hne HP n l Hn Hl Hin. cbn [pc labels] in *. destruct (HP n l Hn Hl Hin) as [H1 H2]. rewrite Hpc in H2. split; auto.
    + intros i Hi Hne HP. apply pair_none. exact Hh.
    + apply pair_none. exact Hh.
  - (* delete *)
    pose proof (L6 _ _ _ eq_refl) as EL. rewrite EL in L7, L8.
    assert (Hp := lnodes_mid done l rest). rewrite Hp in L7. destruct (nodup_app_disj _ _ L7) as (N1 & N2 & N3).
    assert (HlR : forall n, In n (nodes l) -> where_ s n = Retired k).
    { intros n Hn. apply L8. rewrite Hp. apply in_app_iff. auto. }
    assert (Hh : held (th s k) = []). { destruct (held (th s k)) eqn:E; auto. destruct L2 as (L2 & _); [congruence|discriminate]. }
    assert (Hkeep : forall n, where_ s n <> Retired k -> (if existsb (Nat.eqb n) (nodes l) then Freed else where_ s n) = where_ s n).
    { intros n Hn. destruct (existsb (Nat.eqb n) (nodes l)) eqn:E; auto. apply existsb_in in E. rewrite HlR in Hn by auto. congruence. }
    upd1.
    + intros j n Hj Hne E. rewrite Hkeep; auto. rewrite E. congruence.
    + intros j n Hj Hne Hn. destruct (existsb (Nat.eqb n) (nodes l)) eqn:E; [|apply (H0 j); auto].
      exfalso. apply existsb_in in E. destruct (IP j k Hj Hk n l Hn) as [_ H2]; auto; [rewrite EL; apply in_elt|].
      rewrite Hpc in H2. destruct H2 as (x & -> & Hx). cbn [below] in Hb. apply Nat.ltb_lt in Hb. lia.
    + loc9. rewrite Hh. s9; auto; try congruence; try noin; try (intros; discriminate).
      intros n Hn. destruct (existsb (Nat.eqb n) (nodes l)) eqn:E.
      * exfalso. apply existsb_in in E. eapply N3; eauto.
      * apply L8. rewrite Hp. apply in_app_iff. auto.
    + intros j Hj Hne HP n l0 Hn Hl0 Hin. cbn [pc labels] in *. destruct (HP n l0 Hn) as [H1 H2]; auto.
      { rewrite EL. apply in_app_iff in Hl0. apply in_app_iff. cbn. tauto. }
      rewrite Hpc in H2. auto.
    + intros j Hj Hne HP. apply pair_none. exact Hh.
    + apply pair_none. exact Hh.
    + apply NoDup_app_intro; auto. intros n Hn Hf. specialize (HlR n Hn). rewrite (IF2 n Hf) in HlR. discriminate.
    + intros n Hn. apply in_app_iff in Hn. destruct (existsb (Nat.eqb n) (nodes l)) eqn:E; auto.
      destruct Hn as [Hn|Hn]; auto. apply existsb_in in Hn. congruence.
  - (* keep *)
    pose proof (L6 _ _ _ eq_refl) as EL.
    assert (Hh : held (th s k) = []). { destruct (held (th s k)) eqn:E; auto. destruct L2 as (L2 & _); [congruence|discriminate]. }
    upd1.
    + loc9. rewrite Hh. s9; auto; try congruence; try noin; try (intros; discriminate). intros o0 d r [= <- <- <-]. rewrite EL. now rewrite <- app_assoc.
    + intros i Hi Hne HP n l0 Hn Hl Hin. cbn [pc labels] in *. destruct (HP n l0 Hn Hl Hin) as [H1 H2]. rewrite Hpc in H2. split; auto.
    + intros i Hi Hne HP. apply pair_none. exact Hh.
    + apply pair_none. exact Hh.
  - (* del end *)
    assert (Hh : held (th s k) = []). { destruct (held (th s k)) eqn:E; auto. destruct L2 as (L2 & _); [congruence|discriminate]. }
    upd1.
    + loc9. rewrite Hh. s9; auto; try congruence; try lia; try noin; try (intros; discriminate).
    + intros j Hj Hne HP. eapply pair_ret; [exact HP| |]; cbn; auto.
    + intros i Hi Hne HP. apply pair_none. exact Hh.
    + apply pair_none. exact Hh.
  - (* readonly *)
    assert (Hdr : drop_refs (th s k) = []) by (unfold drop_refs; now replace (depth (th s k)) with 1 by lia).
    upd1.
    + loc9. rewrite Hdr. s9; auto; try congruence; try lia; try noin; try (intros; discriminate).
    + intros j Hj Hne HP. eapply pair_ret; [exact HP| |]; cbn; auto.
    + intros i Hi Hne HP. apply pair_none. exact Hdr.
    + apply pair_none. exact Hdr.
  - (* destroy *)
    assert (Hh : held (th s k) = []). { destruct (held (th s k)) eqn:E; auto. destruct L2 as (_ & L2 & _); [congruence|lia]. }
    upd1.
    + loc9. rewrite Hh. s9; auto; try congruence; try lia; try noin; try (intros; discriminate).
    + intros j Hj Hne HP. eapply pair_ret; [exact HP| |]; cbn; auto.
    + intros i Hi Hne HP. apply pair_none. exact Hh.
    + apply pair_none. exact Hh.
Qed.
Lemma reach_inv N gc s : reach N gc false s -> inv N s.
Proof.
  induction 1; [|eapply step_inv; eauto]. unfold inv, init. cbn. split; [|split; [|split; [constructor|intros ? []]]].
  - intros k Hk. loc9. s9; try lia; try congruence; try (intros; discriminate); try noin; try constructor.
    intros e [= <-]. lia.
  - intros k j _ _. apply pair_none. reflexivity.
Qed.
(* no thread ever holds a reference to a freed node, and no node is freed twice *)
Theorem C54_safe N gc s : reach N gc false s ->
  (forall k n, k < N -> In n (held (th s k)) -> ~ In n (frees s)) /\ NoDup (frees s).
Proof.
  intros H. destruct (reach_inv _ _ _ H) as (IL & IP & IF1 & IF2). split; auto. intros k n Hk Hn Hf.
  destruct (IL k Hk) as (_ & _ & _ & _ & _ & _ & _ & _ & H9). apply (H9 n Hn). auto.
Qed.

Ltac sd := first [lia | cbn; lia | cbn; reflexivity | cbn; now left | cbn; now right].
Tactic Notation "fwd" hyp(R) uconstr(c) := eapply r_step in R; [|eapply c; sd]; lazy in R.
(* the theorem is not vacuous: nodes do get freed, and references are held meanwhile *)
Example C54_example : exists s, reach 2 0 false s /\ held (th s 0) = [8] /\ frees s = [7].
Proof.
  pose proof (r_init 2 0 false) as R. lazy in R.
  fwd R (s_destroy 2 0 false _ 0).
  fwd R (s_enter1 2 0 false _ 1). fwd R (s_enter2 2 0 false _ 1). fwd R (s_acquire 2 0 false _ 1 7). fwd R (s_unlink 2 0 false _ 1 7). fwd R (s_mark 2 0 false _ 1 7).
  fwd R (s_exit 2 0 false _ 1).
  fwd R (s_enter1 2 0 false _ 0). fwd R (s_enter2 2 0 false _ 0). fwd R (s_acquire 2 0 false _ 0 8).
  fwd R (s_exit_max 2 0 false _ 1). fwd R (s_scan 2 0 false _ 1). fwd R (s_scan 2 0 false _ 1). fwd R (s_scan_end 2 0 false _ 1).
  fwd R (s_del 2 0 false _ 1). fwd R (s_del_end 2 0 false _ 1).
  eexists. split; [exact R|]. split; reflexivity.
Qed.
(* FINDING: with a guard opened inside a guard the scheme is unsafe: the inner guard
   publishes a newer epoch, so a node the outer guard still protects is freed *)
Theorem C54_nested_refuted : exists s, reach 2 0 true s /\ exists n, In n (held (th s 0)) /\ In n (frees s).
Proof.
  pose proof (r_init 2 0 true) as R. lazy in R.
  fwd R (s_enter1 2 0 true _ 0). fwd R (s_enter2 2 0 true _ 0). fwd R (s_acquire 2 0 true _ 0 7).
  fwd R (s_enter1 2 0 true _ 1). fwd R (s_enter2 2 0 true _ 1). fwd R (s_unlink 2 0 true _ 1 7). fwd R (s_mark 2 0 true _ 1 7).
  fwd R (s_exit 2 0 true _ 1).
  fwd R (s_enter1 2 0 true _ 0). fwd R (s_enter2 2 0 true _ 0).
  fwd R (s_exit_max 2 0 true _ 1). fwd R (s_scan 2 0 true _ 1). fwd R (s_scan 2 0 true _ 1). fwd R (s_scan_end 2 0 true _ 1).
  fwd R (s_del 2 0 true _ 1).
  eexists. split; [exact R|]. exists 7. cbn. auto.
Qed.
