(* Race.v -- the per-thread multiplication cache under fiber migration: one access to
   an entry's field per step, any number of threads and fibers.
   A fiber runs the body of mv_multiply2 (src/dd.cpp:1366-1468; vv_add2 1105-1187 has
   the same shape): it takes a reference to the cache of the thread it is running
   on, searches it, waits for its children (the scheduler may resume it on another
   thread, src/task.cpp:44-82), and writes its result through the reference.
   One bucket of four entries per cache is modelled (include/cache.hpp:396-416); the
   memoised function is an arbitrary [val]; the check for reclaimed nodes
   (getVar() != -2) and the hit counters are left out; memory is sequentially
   consistent. *)
From Coq Require Import Arith List Bool Lia.
Import ListNotations.

Section Race.
Context (val : nat * nat -> nat * nat).   (* the right result (weight, node) for a pair of operands; node 0 = nullptr is not a result *)
Context (migrate : bool).                 (* may a suspended fiber resume on another thread? *)

(* Entry, cache.hpp:396-408 *)
Record entry := En { e_l : nat; e_r : nat; e_w : nat; e_n : nat; e_valid : bool; e_picked : nat }.
Definition empty_entry : entry := En 0 0 0 0 false 0.
Inductive pcs :=
| PNew
| PValid (i : nat) | PLhs (i : nat) | PRhs (i : nat)       (* find, cache.hpp:508-520, at entry i *)
| PW (i : nat) | PN (i w : nat)                             (* copying the result *)
| PSusp                                                    (* waiting for the children *)
| PPick                                                    (* set_in_bucket, 559-605: choosing the entry *)
| PSetL (i : nat) | PSetR (i : nat) | PSetW (i : nat) | PSetN (i : nat) | PSetP (i : nat) | PSetV (i : nat)   (* set, 535-557 *)
| PDone (hit : option (nat * nat)).
Record fiber := Fi { key : nat * nat; cap : nat; pc : pcs; on : option nat }.
Record state := St { cache : nat -> nat -> entry; fib : nat -> fiber }.

Definition upd {A} (f : nat -> A) (k : nat) (x : A) : nat -> A := fun j => if Nat.eqb j k then x else f j.
Definition setf (s : state) (f : nat) (p : pcs) : nat -> fiber :=
  upd (fib s) f (Fi (key (fib s f)) (cap (fib s f)) p (on (fib s f))).
Definition sete (s : state) (c i : nat) (e : entry) : nat -> nat -> entry := upd (cache s) c (upd (cache s c) i e).
Definition ent (s : state) (f i : nat) : entry := cache s (cap (fib s f)) i.
Definition free (s : state) (t : nat) : Prop := forall g, on (fib s g) <> Some t.
(* the entry set_in_bucket chooses: the first without a node, else the least picked one *)
Definition choose (b : nat -> entry) : nat :=
  if e_n (b 0) =? 0 then 0 else if e_n (b 1) =? 0 then 1 else if e_n (b 2) =? 0 then 2 else if e_n (b 3) =? 0 then 3 else
  let i1 := if e_picked (b 1) <? e_picked (b 0) then 1 else 0 in
  let i2 := if e_picked (b 2) <? e_picked (b i1) then 2 else i1 in
  if e_picked (b 3) <? e_picked (b i2) then 3 else i2.

Inductive step : state -> state -> Prop :=
(* the fiber starts on a thread and takes the reference (dd.cpp:1385) *)
| s_start s f t : pc (fib s f) = PNew -> free s t ->
    step s (St (cache s) (upd (fib s) f (Fi (key (fib s f)) t (PValid 0) (Some t))))
(* find *)
| s_valid s f i : pc (fib s f) = PValid i -> i < 4 -> e_valid (ent s f i) = true -> step s (St (cache s) (setf s f (PLhs i)))
| s_invalid s f i : pc (fib s f) = PValid i -> i < 4 -> e_valid (ent s f i) = false -> step s (St (cache s) (setf s f (PValid (S i))))
| s_lhs s f i : pc (fib s f) = PLhs i -> e_l (ent s f i) = fst (key (fib s f)) -> step s (St (cache s) (setf s f (PRhs i)))
| s_lhs_no s f i : pc (fib s f) = PLhs i -> e_l (ent s f i) <> fst (key (fib s f)) -> step s (St (cache s) (setf s f (PValid (S i))))
| s_rhs s f i : pc (fib s f) = PRhs i -> e_r (ent s f i) = snd (key (fib s f)) -> step s (St (cache s) (setf s f (PW i)))
| s_rhs_no s f i : pc (fib s f) = PRhs i -> e_r (ent s f i) <> snd (key (fib s f)) -> step s (St (cache s) (setf s f (PValid (S i))))
| s_w s f i : pc (fib s f) = PW i -> step s (St (cache s) (setf s f (PN i (e_w (ent s f i)))))
| s_hit s f i w : pc (fib s f) = PN i w ->
    step s (St (cache s) (upd (fib s) f (Fi (key (fib s f)) (cap (fib s f)) (PDone (Some (w, e_n (ent s f i)))) None)))
(* a miss: the fiber waits and leaves its thread (dd.cpp:1449-1453) *)
| s_miss s f : pc (fib s f) = PValid 4 ->
    step s (St (cache s) (upd (fib s) f (Fi (key (fib s f)) (cap (fib s f)) PSusp None)))
(* it is resumed by its own thread, or by a thief *)
| s_resume s f t : pc (fib s f) = PSusp -> free s t -> (t = cap (fib s f) \/ migrate = true) ->
    step s (St (cache s) (upd (fib s) f (Fi (key (fib s f)) (cap (fib s f)) PPick (Some t))))
(* set (dd.cpp:1459) *)
| s_pick s f : pc (fib s f) = PPick -> step s (St (cache s) (setf s f (PSetL (choose (cache s (cap (fib s f)))))))
| s_setl s f i : pc (fib s f) = PSetL i ->
    step s (St (let e := ent s f i in sete s (cap (fib s f)) i (En (fst (key (fib s f))) (e_r e) (e_w e) (e_n e) (e_valid e) (e_picked e))) (setf s f (PSetR i)))
| s_setr s f i : pc (fib s f) = PSetR i ->
    step s (St (let e := ent s f i in sete s (cap (fib s f)) i (En (e_l e) (snd (key (fib s f))) (e_w e) (e_n e) (e_valid e) (e_picked e))) (setf s f (PSetW i)))
| s_setw s f i : pc (fib s f) = PSetW i ->
    step s (St (let e := ent s f i in sete s (cap (fib s f)) i (En (e_l e) (e_r e) (fst (val (key (fib s f)))) (e_n e) (e_valid e) (e_picked e))) (setf s f (PSetN i)))
| s_setn s f i : pc (fib s f) = PSetN i ->
    step s (St (let e := ent s f i in sete s (cap (fib s f)) i (En (e_l e) (e_r e) (e_w e) (snd (val (key (fib s f)))) (e_valid e) (e_picked e))) (setf s f (PSetP i)))
| s_setp s f i : pc (fib s f) = PSetP i ->
    step s (St (let e := ent s f i in sete s (cap (fib s f)) i (En (e_l e) (e_r e) (e_w e) (e_n e) (e_valid e) 1)) (setf s f (PSetV i)))
| s_setv s f i : pc (fib s f) = PSetV i ->
    step s (St (let e := ent s f i in sete s (cap (fib s f)) i (En (e_l e) (e_r e) (e_w e) (e_n e) true (e_picked e)))
      (upd (fib s) f (Fi (key (fib s f)) (cap (fib s f)) (PDone None) None))).

(* all caches empty, no fiber started; fiber f will multiply the operands [keys f] *)
Definition init (keys : nat -> nat * nat) : state := St (fun _ _ => empty_entry) (fun f => Fi (keys f) 0 PNew None).
Inductive reach (keys : nat -> nat * nat) : state -> Prop :=
| r_init : reach keys (init keys)
| r_step s s' : reach keys s -> step s s' -> reach keys s'.

(* ---- specification ---- *)
(* fiber f is inside a search or an update of cache c *)
Definition accessing (s : state) (f c : nat) : Prop :=
  cap (fib s f) = c /\ match pc (fib s f) with PNew | PSusp | PDone _ => False | _ => True end.
Definition race_free (s : state) : Prop := forall f g c, accessing s f c -> accessing s g c -> f = g.
Definition hits_right (s : state) : Prop := forall f r, pc (fib s f) = PDone (Some r) -> r = val (key (fib s f)).

(* ---- proof, without migration ---- *)
Definition good (e : entry) : Prop := e_valid e = true -> (e_w e, e_n e) = val (e_l e, e_r e).
Definition partial_set (k : nat * nat) (p : pcs) (i : nat) (e : entry) : Prop :=
  match p with
  | PSetR j => j = i /\ e_l e = fst k
  | PSetW j => j = i /\ e_l e = fst k /\ e_r e = snd k
  | PSetN j => j = i /\ e_l e = fst k /\ e_r e = snd k /\ e_w e = fst (val k)
  | PSetP j | PSetV j => j = i /\ e_l e = fst k /\ e_r e = snd k /\ e_w e = fst (val k) /\ e_n e = snd (val k)
  | _ => False
  end.
Definition mounted_pc (p : pcs) : Prop := match p with PNew | PSusp | PDone _ => False | _ => True end.
Definition fact (k : nat * nat) (p : pcs) (e : nat -> entry) : Prop :=
  match p with
  | PLhs i => e_valid (e i) = true
  | PRhs i => e_valid (e i) = true /\ e_l (e i) = fst k
  | PW i => e_valid (e i) = true /\ e_l (e i) = fst k /\ e_r (e i) = snd k
  | PN i w => e_valid (e i) = true /\ e_l (e i) = fst k /\ e_r (e i) = snd k /\ w = e_w (e i)
  | PSetR i | PSetW i | PSetN i | PSetP i | PSetV i => partial_set k p i (e i)
  | PDone (Some r) => r = val k
  | _ => True
  end.
Definition inv (s : state) : Prop :=
  (forall f, mounted_pc (pc (fib s f)) -> on (fib s f) = Some (cap (fib s f))) /\
  (forall f g t, on (fib s f) = Some t -> on (fib s g) = Some t -> f = g) /\
  (forall c i, good (cache s c i) \/ exists f, cap (fib s f) = c /\ mounted_pc (pc (fib s f)) /\ partial_set (key (fib s f)) (pc (fib s f)) i (cache s c i)) /\
  (forall f, fact (key (fib s f)) (pc (fib s f)) (cache s (cap (fib s f)))).

Lemma inv_upd s f x ca : inv s ->
  (mounted_pc (pc x) -> on x = Some (cap x)) ->
  (forall t, on x = Some t -> on (fib s f) = Some t \/ free s t) ->
  key x = key (fib s f) ->
  (forall c j, ca c j = cache s c j \/ (mounted_pc (pc (fib s f)) /\ c = cap (fib s f))) ->
  (forall c i, good (cache s c i) \/ (cap (fib s f) = c /\ mounted_pc (pc (fib s f)) /\ partial_set (key (fib s f)) (pc (fib s f)) i (cache s c i)) ->
     good (ca c i) \/ (cap x = c /\ mounted_pc (pc x) /\ partial_set (key x) (pc x) i (ca c i))) ->
  fact (key x) (pc x) (ca (cap x)) ->
  inv (St ca (upd (fib s) f x)).
Proof.
  intros (I1 & I2 & I3 & I4) H1 H2 Hk H3 H4 H5.
  assert (Hex : forall g, g <> f -> mounted_pc (pc (fib s g)) -> mounted_pc (pc (fib s f)) -> cap (fib s g) <> cap (fib s f)).
  { intros g Hg Mg Mf E. apply Hg. apply (I2 g f (cap (fib s f))); [rewrite <- E|]; apply I1; auto. }
  assert (Hsame : forall g i, g <> f -> mounted_pc (pc (fib s g)) -> ca (cap (fib s g)) i = cache s (cap (fib s g)) i).
  { intros g i Hg Mg. destruct (H3 (cap (fib s g)) i) as [E|[Mf E]]; auto. exfalso. eapply Hex; eauto. }
  unfold inv. cbn [cache fib]. split; [|split; [|split]].
  - intros g. unfold upd. destruct (Nat.eqb_spec g f) as [->|]; auto.
  - intros g h t. unfold upd. destruct (Nat.eqb_spec g f) as [->|Hg], (Nat.eqb_spec h f) as [->|Hh]; auto; intros Eg Eh.
    + destruct (H2 t Eg) as [E|E]; [eapply I2; eauto|]. exfalso. eapply E; eauto.
    + destruct (H2 t Eh) as [E|E]; [eapply I2; eauto|]. exfalso. eapply E; eauto.
    + eapply I2; eauto.
  - intros c i.
    assert (Hf : good (cache s c i) \/ (cap (fib s f) = c /\ mounted_pc (pc (fib s f)) /\ partial_set (key (fib s f)) (pc (fib s f)) i (cache s c i)) ->
      good (ca c i) \/ exists g, cap (upd (fib s) f x g) = c /\ mounted_pc (pc (upd (fib s) f x g)) /\ partial_set (key (upd (fib s) f x g)) (pc (upd (fib s) f x g)) i (ca c i)).
    { intros H. destruct (H4 c i H) as [h|h]; auto. right. exists f. unfold upd. rewrite Nat.eqb_refl. exact h. }
    destruct (I3 c i) as [h|(g & Eg & Mg & Pg)]; [auto|]. destruct (Nat.eq_dec g f) as [->|Hg]; [auto|].
    right. exists g. unfold upd. destruct (Nat.eqb_spec g f); [contradiction|]. split; auto. split; auto. rewrite <- Eg, Hsame; auto. now rewrite Eg.
  - intros g. unfold upd. destruct (Nat.eqb_spec g f) as [->|Hg]; auto.
    specialize (I4 g). assert (Hs := Hsame g). destruct (pc (fib s g)); cbn [fact mounted_pc] in *; auto; rewrite Hs; auto.
Qed.
(* a step that only moves the fiber *)
Lemma inv_move s f x : inv s ->
  (mounted_pc (pc x) -> on x = Some (cap x)) ->
  (forall t, on x = Some t -> on (fib s f) = Some t \/ free s t) ->
  key x = key (fib s f) ->
  (forall i e, ~ (mounted_pc (pc (fib s f)) /\ partial_set (key (fib s f)) (pc (fib s f)) i e)) ->
  fact (key x) (pc x) (cache s (cap x)) -> inv (St (cache s) (upd (fib s) f x)).
Proof.
  intros HI H1 H2 Hk H3 H5. apply inv_upd; auto. intros c i [h|(E & M & P)]; auto. exfalso. eapply H3; eauto.
Qed.
Ltac mv HI Hp := apply inv_move; [exact HI|cbn; intros; try (exact (Logic.proj1 HI _ ltac:(rewrite Hp; exact I))); try contradiction; auto|cbn; intros; auto; try discriminate|reflexivity|rewrite Hp; cbn; tauto|cbn; auto].
Lemma sete_other s c i e c' j : (c', j) <> (c, i) -> sete s c i e c' j = cache s c' j.
Proof.
  intros H. unfold sete, upd. destruct (Nat.eqb_spec c' c) as [->|]; auto. destruct (Nat.eqb_spec j i) as [->|]; auto. congruence.
Qed.
Lemma sete_same s c i e : sete s c i e c i = e.
Proof. unfold sete, upd. now rewrite !Nat.eqb_refl. Qed.
(* a step that writes the entry the fiber is filling *)
Lemma inv_write s f i e p o : inv s -> mounted_pc (pc (fib s f)) ->
  (mounted_pc p -> o = on (fib s f)) -> (o = None \/ o = on (fib s f)) ->
  (forall j e', j <> i -> ~ partial_set (key (fib s f)) (pc (fib s f)) j e') ->
  good e \/ (mounted_pc p /\ partial_set (key (fib s f)) p i e) ->
  fact (key (fib s f)) p (upd (cache s (cap (fib s f))) i e) ->
  inv (St (sete s (cap (fib s f)) i e) (upd (fib s) f (Fi (key (fib s f)) (cap (fib s f)) p o))).
Proof.
  intros HI HM Ho Ho2 Hj He HF. apply inv_upd; auto; cbn [pc on cap key].
  - intros Mp. rewrite (Ho Mp). apply HI. exact HM.
  - intros t Et. destruct Ho2 as [->| ->]; [discriminate|]. auto.
  - intros c j. destruct (Nat.eq_dec c (cap (fib s f))) as [->|Hne]; auto. left. apply sete_other. congruence.
  - intros c j H. destruct (Nat.eq_dec c (cap (fib s f))) as [->|Hc].
    + destruct (Nat.eq_dec j i) as [->|Hi].
      * rewrite sete_same. destruct He as [He|[M P]]; auto.
      * rewrite sete_other by congruence. destruct H as [H|(_ & _ & P)]; auto. exfalso. eapply Hj; eauto.
    + rewrite sete_other by congruence. destruct H as [H|(E & _)]; auto. congruence.
  - unfold sete, upd at 1. rewrite Nat.eqb_refl. exact HF.
Qed.

Lemma step_inv s s' : migrate = false -> inv s -> step s s' -> inv s'.
Proof.
  intros Hm HI Hs. pose proof HI as (I1 & I2 & I3 & I4).
  destruct Hs as [s f t Hp Hfr|s f i Hp Hi He|s f i Hp Hi He|s f i Hp He|s f i Hp He|s f i Hp He|s f i Hp He|s f i Hp|s f i w Hp|s f Hp|s f t Hp Hfr Ht|s f Hp|s f i Hp|s f i Hp|s f i Hp|s f i Hp|s f i Hp|s f i Hp];
    pose proof (I4 f) as F; rewrite Hp in F; cbn [fact partial_set] in F; unfold setf, ent in *; cbv zeta.
  - apply inv_move; cbn; auto. + intros t0 [= <-]. auto. + rewrite Hp. cbn. tauto.
  - mv HI Hp.
  - mv HI Hp.
  - mv HI Hp.
  - mv HI Hp.
  - mv HI Hp. tauto.
  - mv HI Hp.
  - mv HI Hp. tauto.
  - (* hit *)
    mv HI Hp. destruct F as (F1 & F2 & F3 & F4).
    assert (Hg : good (cache s (cap (fib s f)) i)).
    { destruct (I3 (cap (fib s f)) i) as [h|(g & Eg & Mg & Pg)]; auto. exfalso.
      assert (g = f). { apply (I2 g f (cap (fib s f))); [rewrite <- Eg; apply I1; auto|apply I1; rewrite Hp; exact I]. }
      subst g. rewrite Hp in Pg. exact Pg. }
    rewrite F4, (Hg F1), F2, F3. now destruct (key (fib s f)).
  - mv HI Hp.
  - apply inv_move; cbn; auto.
    + intros _. destruct Ht as [->|Ht]; [reflexivity|congruence].
    + intros t0 [= <-]. auto.
    + rewrite Hp. cbn. tauto.
  - mv HI Hp.
  - apply inv_write; auto; rewrite ?Hp; cbn [mounted_pc partial_set fact]; auto.
    + unfold upd. rewrite Nat.eqb_refl. cbn. auto.
  - apply inv_write; auto; rewrite ?Hp; cbn [mounted_pc partial_set fact]; auto.
    + intros j e' Hj [E _]. congruence.
    + right. cbn. tauto.
    + unfold upd. rewrite Nat.eqb_refl. cbn. tauto.
  - apply inv_write; auto; rewrite ?Hp; cbn [mounted_pc partial_set fact]; auto.
    + intros j e' Hj [E _]. congruence.
    + right. cbn. tauto.
    + unfold upd. rewrite Nat.eqb_refl. cbn. tauto.
  - apply inv_write; auto; rewrite ?Hp; cbn [mounted_pc partial_set fact]; auto.
    + intros j e' Hj [E _]. congruence.
    + right. cbn. tauto.
    + unfold upd. rewrite Nat.eqb_refl. cbn. tauto.
  - apply inv_write; auto; rewrite ?Hp; cbn [mounted_pc partial_set fact]; auto.
    + intros j e' Hj [E _]. congruence.
    + unfold upd. rewrite Nat.eqb_refl. cbn. tauto.
  - apply inv_write; auto; rewrite ?Hp; cbn [mounted_pc partial_set fact]; auto; try tauto.
    + intros j e' Hj [E _]. congruence.
    + left. intros _. cbn [e_w e_n e_l e_r]. destruct F as (_ & F1 & F2 & F3 & F4). rewrite F1, F2, F3, F4. destruct (key (fib s f)) as [a b]. cbn [fst snd]. now destruct (val (a, b)).
Qed.
Lemma reach_inv keys s : migrate = false -> reach keys s -> inv s.
Proof.
  intros Hm. induction 1 as [|s s' Hr IH Hs]; [|eapply step_inv; eauto].
  unfold inv, init. cbn. split; [|split; [|split]]; try tauto; try discriminate. left. intros H. discriminate.
Qed.
(* If a suspended fiber is only ever resumed by the thread it started on: no two
   fibers are ever inside the same cache, and every hit returns the right result. *)
Theorem C51_no_migration_partial keys s : migrate = false -> reach keys s -> race_free s /\ hits_right s.
Proof.
  intros Hm Hr. destruct (reach_inv keys s Hm Hr) as (I1 & I2 & I3 & I4). split.
  - intros f g c [E1 A1] [E2 A2]. apply (I2 f g c); [rewrite <- E1|rewrite <- E2]; apply I1; [destruct (pc (fib s f)); auto|destruct (pc (fib s g)); auto].
  - intros f r Hp. specialize (I4 f). rewrite Hp in I4. exact I4.
Qed.
End Race.

(* FINDING: with work stealing (the scheduler the code installs) the cache is shared by
   two threads and a hit can return the result of other operands. *)
Definition ex_val (k : nat * nat) : nat * nat := (fst k, S (snd k)).
Definition ex_keys (f : nat) : nat * nat := match f with 0 => (1, 1) | _ => (2, 2) end.
Ltac sd := first [lia | cbn; lia | cbn; reflexivity | cbn; discriminate | cbn; now left | now right
  | let g := fresh "g" in intros g; destruct g as [|[|[|g]]]; cbn; discriminate ].
Tactic Notation "fwd" hyp(R) uconstr(c) := eapply r_step in R; [|eapply c; sd]; lazy in R.
Theorem C51_migration_refuted : exists s, reach ex_val true ex_keys s /\ ~ hits_right ex_val s.
Proof.
  pose proof (r_init ex_val true ex_keys) as R. cbv [init] in R.
  fwd R (s_start _ _ _ 0 0). do 4 fwd R (s_invalid _ _ _ 0). fwd R (s_miss _ _ _ 0).
  fwd R (s_start _ _ _ 1 0). do 4 fwd R (s_invalid _ _ _ 1). fwd R (s_miss _ _ _ 1).
  fwd R (s_resume _ _ _ 0 1). fwd R (s_resume _ _ _ 1 0). fwd R (s_pick _ _ _ 0). fwd R (s_pick _ _ _ 1).
  fwd R (s_setl _ _ _ 0). fwd R (s_setr _ _ _ 0).
  fwd R (s_setl _ _ _ 1). fwd R (s_setr _ _ _ 1). fwd R (s_setw _ _ _ 1). fwd R (s_setn _ _ _ 1). fwd R (s_setp _ _ _ 1). fwd R (s_setv _ _ _ 1).
  fwd R (s_setw _ _ _ 0). fwd R (s_setn _ _ _ 0). fwd R (s_setp _ _ _ 0). fwd R (s_setv _ _ _ 0).
  fwd R (s_start _ _ _ 2 0). fwd R (s_valid _ _ _ 2). fwd R (s_lhs _ _ _ 2). fwd R (s_rhs _ _ _ 2). fwd R (s_w _ _ _ 2). fwd R (s_hit _ _ _ 2).
  eexists. split; [exact R|]. intros H. specialize (H 2 _ eq_refl). discriminate H.
Qed.
(* and there are hits without migration *)
Example C51_example : exists s, reach ex_val false ex_keys s /\ pc (fib s 2) = PDone (Some (2, 3)).
Proof.
  pose proof (r_init ex_val false ex_keys) as R. cbv [init] in R.
  fwd R (s_start _ _ _ 1 0). do 4 fwd R (s_invalid _ _ _ 1). fwd R (s_miss _ _ _ 1).
  fwd R (s_resume _ _ _ 1 0). fwd R (s_pick _ _ _ 1).
  fwd R (s_setl _ _ _ 1). fwd R (s_setr _ _ _ 1). fwd R (s_setw _ _ _ 1). fwd R (s_setn _ _ _ 1). fwd R (s_setp _ _ _ 1). fwd R (s_setv _ _ _ 1).
  fwd R (s_start _ _ _ 2 0). fwd R (s_valid _ _ _ 2). fwd R (s_lhs _ _ _ 2). fwd R (s_rhs _ _ _ 2). fwd R (s_w _ _ _ 2). fwd R (s_hit _ _ _ 2).
  eexists. split; [exact R|]. reflexivity.
Qed.
