(* Wsq.v -- the Chase-Lev work-stealing deque of include/wsq.hpp, one shared-memory
   access per step, any number of thieves, interleaved arbitrarily.
   Simplifications: memory is sequentially consistent (the fences and memory
   orders of the C++ code are not modelled, so reorderings a relaxed memory model
   allows are not covered);
   int64 indices are unbounded; steal_half (which does not compile) and the
   destructor are left out. *)
From Coq Require Import ZArith List Bool Lia Permutation.
Import ListNotations.
Open Scope Z_scope.

Section Wsq.
Context {T : Type}.

(* Array, wsq.hpp:29-66: capacity C = 2^lg, mask M = C - 1.  A slot that was never
   stored to holds None (an uninitialised std::atomic). *)
Record arr := Arr { lg : Z; slots : Z -> option T }.
Definition capacity (a : arr) : Z := 2 ^ lg a.
(* wsq.hpp:49-56 *)
Definition aget (a : arr) (i : Z) : option T := slots a (Z.land i (capacity a - 1)).
Definition aput (a : arr) (i : Z) (x : option T) : arr :=
  Arr (lg a) (fun j => if j =? Z.land i (capacity a - 1) then x else slots a j).
(* resize, wsq.hpp:58-64: copies the indices t, ..., b-1 *)
Fixpoint copy_from (n : nat) (src dst : arr) (i : Z) : arr :=
  match n with O => dst | S m => copy_from m src (aput dst i (aget src i)) (i + 1) end.
Definition resize (a : arr) (b t : Z) : arr := copy_from (Z.to_nat (b - t)) a (Arr (lg a + 1) (fun _ => None)) t.

(* the owner between two of its accesses *)
Inductive opc :=
| Idle
| Push1 (x : T) (b : Z)              (* wsq.hpp:174: b loaded *)
| Push2 (x : T) (b t : Z)            (* 175: t loaded *)
| PushR (x : T) (b : Z) (a : nat)    (* 179-182: array [a] built, not yet published *)
| Push3 (x : T) (b : Z)              (* 176-184: there is room *)
| Push4 (x : T) (b : Z)              (* 186: slot written *)
| Pop1 (b : Z)                       (* 194-195: b = bottom - 1, array loaded *)
| Pop2 (b : Z)                       (* 196: bottom stored *)
| PopTake (b : Z)                    (* 198-202: t < b seen *)
| PopLast (b : Z)                    (* 198-204: t == b seen *)
| PopCas (b : Z) (x : option T)      (* 203: slot read, t == b *)
| PopEnd (b : Z) (x : option T)      (* 206-210: result of the CAS known; bottom to be restored *)
| PopNone (b : Z).                   (* 198, 214: t > b seen *)
(* a thief *)
Inductive tpc :=
| TIdle
| Steal1 (t : Z)                     (* 233: t loaded *)
| Steal2 (t : Z)                     (* 235-239: b loaded, t < b *)
| Steal3 (t : Z) (a : nat)           (* 240: array loaded *)
| Steal4 (t : Z) (x : option T).     (* 241: slot read *)

(* what the callers observe, at the moment the call takes effect for them: the last
   shared access of the call *)
Inductive event := EPush (x : T) | EPop (x : option T) | EEmpty | ESteal (x : option T).

Record state := St {
  top : Z; bottom : Z;               (* 68-69 *)
  cur : nat;                         (* 70: _array, an index into [arrays] *)
  arrays : nat -> arr; next : nat;   (* the arrays ever allocated; none is freed before the destructor (71, 148) *)
  owner : opc; thief : nat -> tpc }.
Definition setthief (f : nat -> tpc) (k : nat) (p : tpc) : nat -> tpc := fun j => if Nat.eqb j k then p else f j.
Definition setarr (f : nat -> arr) (k : nat) (a : arr) : nat -> arr := fun j => if Nat.eqb j k then a else f j.

Inductive step : state -> option event -> state -> Prop :=
(* push, wsq.hpp:173-189 *)
| s_push1 s x : owner s = Idle ->
    step s None (St (top s) (bottom s) (cur s) (arrays s) (next s) (Push1 x (bottom s)) (thief s))
| s_push2 s x b : owner s = Push1 x b ->
    step s None (St (top s) (bottom s) (cur s) (arrays s) (next s) (Push2 x b (top s)) (thief s))
| s_push_room s x b t : owner s = Push2 x b t -> ~ capacity (arrays s (cur s)) - 1 < b - t ->
    step s None (St (top s) (bottom s) (cur s) (arrays s) (next s) (Push3 x b) (thief s))
| s_push_full s x b t : owner s = Push2 x b t -> capacity (arrays s (cur s)) - 1 < b - t ->
    step s None (St (top s) (bottom s) (cur s) (setarr (arrays s) (next s) (resize (arrays s (cur s)) b t)) (S (next s)) (PushR x b (next s)) (thief s))
| s_push_publish s x b a : owner s = PushR x b a ->
    step s None (St (top s) (bottom s) a (arrays s) (next s) (Push3 x b) (thief s))
| s_push_slot s x b : owner s = Push3 x b ->
    step s None (St (top s) (bottom s) (cur s) (setarr (arrays s) (cur s) (aput (arrays s (cur s)) b (Some x))) (next s) (Push4 x b) (thief s))
| s_push_bottom s x b : owner s = Push4 x b ->
    step s (Some (EPush x)) (St (top s) (b + 1) (cur s) (arrays s) (next s) Idle (thief s))
(* pop, wsq.hpp:193-219 *)
| s_pop1 s : owner s = Idle ->
    step s None (St (top s) (bottom s) (cur s) (arrays s) (next s) (Pop1 (bottom s - 1)) (thief s))
| s_pop2 s b : owner s = Pop1 b ->
    step s None (St (top s) b (cur s) (arrays s) (next s) (Pop2 b) (thief s))
| s_pop_take s b : owner s = Pop2 b -> top s < b ->
    step s None (St (top s) (bottom s) (cur s) (arrays s) (next s) (PopTake b) (thief s))
| s_pop_last s b : owner s = Pop2 b -> top s = b ->
    step s None (St (top s) (bottom s) (cur s) (arrays s) (next s) (PopLast b) (thief s))
| s_pop_none s b : owner s = Pop2 b -> b < top s ->
    step s None (St (top s) (bottom s) (cur s) (arrays s) (next s) (PopNone b) (thief s))
| s_pop_read s b : owner s = PopTake b ->
    step s (Some (EPop (aget (arrays s (cur s)) b))) (St (top s) (bottom s) (cur s) (arrays s) (next s) Idle (thief s))
| s_pop_read_last s b : owner s = PopLast b ->
    step s None (St (top s) (bottom s) (cur s) (arrays s) (next s) (PopCas b (aget (arrays s (cur s)) b)) (thief s))
| s_pop_won s b x : owner s = PopCas b x -> top s = b ->
    step s None (St (b + 1) (bottom s) (cur s) (arrays s) (next s) (PopEnd b x) (thief s))
| s_pop_lost s b x : owner s = PopCas b x -> top s <> b ->
    step s None (St (top s) (bottom s) (cur s) (arrays s) (next s) (PopNone b) (thief s))
| s_pop_end s b x : owner s = PopEnd b x ->
    step s (Some (EPop x)) (St (top s) (b + 1) (cur s) (arrays s) (next s) Idle (thief s))
| s_pop_empty s b : owner s = PopNone b ->
    step s (Some EEmpty) (St (top s) (b + 1) (cur s) (arrays s) (next s) Idle (thief s))
(* steal, wsq.hpp:232-250 *)
| s_steal1 s k : thief s k = TIdle ->
    step s None (St (top s) (bottom s) (cur s) (arrays s) (next s) (owner s) (setthief (thief s) k (Steal1 (top s))))
| s_steal_empty s k t : thief s k = Steal1 t -> bottom s <= t ->
    step s None (St (top s) (bottom s) (cur s) (arrays s) (next s) (owner s) (setthief (thief s) k TIdle))
| s_steal2 s k t : thief s k = Steal1 t -> t < bottom s ->
    step s None (St (top s) (bottom s) (cur s) (arrays s) (next s) (owner s) (setthief (thief s) k (Steal2 t)))
| s_steal3 s k t : thief s k = Steal2 t ->
    step s None (St (top s) (bottom s) (cur s) (arrays s) (next s) (owner s) (setthief (thief s) k (Steal3 t (cur s))))
| s_steal4 s k t a : thief s k = Steal3 t a ->
    step s None (St (top s) (bottom s) (cur s) (arrays s) (next s) (owner s) (setthief (thief s) k (Steal4 t (aget (arrays s a) t))))
| s_steal_won s k t x : thief s k = Steal4 t x -> top s = t ->
    step s (Some (ESteal x)) (St (t + 1) (bottom s) (cur s) (arrays s) (next s) (owner s) (setthief (thief s) k TIdle))
| s_steal_lost s k t x : thief s k = Steal4 t x -> top s <> t ->
    step s None (St (top s) (bottom s) (cur s) (arrays s) (next s) (owner s) (setthief (thief s) k TIdle)).

(* the constructor, wsq.hpp:137-143: a power-of-two capacity *)
Definition init (l : Z) : state := St 0 0 0 (fun _ => Arr l (fun _ => None)) 1 Idle (fun _ => TIdle).

Inductive run : state -> list event -> state -> Prop :=
| run_nil s : run s [] s
| run_tau s h s1 s2 : run s h s1 -> step s1 None s2 -> run s h s2
| run_ev s h s1 e s2 : run s h s1 -> step s1 (Some e) s2 -> run s (h ++ [e]) s2.

(* ---- specification: a sequential double-ended queue, oldest task first ---- *)
Inductive deque : list T -> event -> list T -> Prop :=
| d_push q x : deque q (EPush x) (q ++ [x])
| d_pop q x : deque (q ++ [x]) (EPop (Some x)) q
| d_empty : deque [] EEmpty []
| d_steal q x : deque (x :: q) (ESteal (Some x)) q.
Inductive deque_run : list event -> list T -> Prop :=
| dr_nil : deque_run [] []
| dr_ev h q e q' : deque_run h q -> deque q e q' -> deque_run (h ++ [e]) q'.
Definition pushed (h : list event) : list T := flat_map (fun e => match e with EPush x => [x] | _ => [] end) h.
Definition returned (h : list event) : list T :=
  flat_map (fun e => match e with EPop (Some x) | ESteal (Some x) => [x] | _ => [] end) h.

(* ---- invariant ---- *)
Lemma land_mod a i : 0 <= lg a -> Z.land i (capacity a - 1) = i mod capacity a.
Proof.
  intros H. unfold capacity. rewrite <- Z.land_ones by exact H. f_equal. now rewrite Z.ones_equiv, Z.sub_1_r.
Qed.
Lemma aget_aput_same a i x : aget (aput a i x) i = x.
Proof. unfold aget, aput, capacity. cbn. now rewrite Z.eqb_refl. Qed.
Lemma aget_aput_other a i j x : 0 <= lg a -> i <> j -> Z.abs (i - j) < capacity a -> aget (aput a i x) j = aget a j.
Proof.
  intros Hl Hne Hc. unfold aget, aput. cbn [slots lg]. change (capacity (Arr (lg a) _)) with (capacity a).
  destruct (Z.eqb_spec (Z.land j (capacity a - 1)) (Z.land i (capacity a - 1))) as [E|]; auto. exfalso.
  rewrite !land_mod in E by auto. assert (HC : 0 < capacity a) by (apply Z.pow_pos_nonneg; lia).
  pose proof (Z.div_mod i (capacity a) ltac:(lia)). pose proof (Z.div_mod j (capacity a) ltac:(lia)).
  assert (Hd : i - j = capacity a * (i / capacity a - j / capacity a)) by lia.
  remember (i / capacity a - j / capacity a) as d eqn:Ed. clear Ed E H H0.
  destruct (Z.lt_trichotomy d 0) as [h|[h|h]]; [|subst d; lia|]; nia.
Qed.
Lemma copy_lg : forall n src dst i, lg (copy_from n src dst i) = lg dst.
Proof. induction n; intros; cbn; auto. now rewrite IHn. Qed.
Lemma copy_keep : forall n src dst i j, 0 <= lg dst -> j < i -> i + Z.of_nat n - j <= capacity dst -> aget (copy_from n src dst i) j = aget dst j.
Proof.
  induction n as [|n IH]; intros src dst i j Hl Hj Hc; cbn [copy_from]; auto.
  rewrite IH; [| |lia|].
  - apply aget_aput_other; auto; lia.
  - exact Hl.
  - change (capacity (aput dst i (aget src i))) with (capacity dst). lia.
Qed.
Lemma copy_get : forall n src dst i j, 0 <= lg dst -> Z.of_nat n <= capacity dst -> i <= j < i + Z.of_nat n -> aget (copy_from n src dst i) j = aget src j.
Proof.
  induction n as [|n IH]; intros src dst i j Hl Hc Hj; [lia|]. cbn [copy_from].
  destruct (Z.eq_dec j i) as [->|Hne].
  - rewrite copy_keep; [apply aget_aput_same|exact Hl|lia|]. change (capacity (aput dst i (aget src i))) with (capacity dst). lia.
  - apply IH; [exact Hl| |lia]. change (capacity (aput dst i (aget src i))) with (capacity dst). lia.
Qed.

(* the end of the abstract queue, and the first index no thief may still win *)
Definition aend (s : state) : Z :=
  match owner s with
  | Idle | Push1 _ _ | Push2 _ _ _ | PushR _ _ _ | Push3 _ _ | Push4 _ _ | Pop1 _ => bottom s
  | Pop2 b | PopTake b | PopLast b | PopCas b _ | PopEnd b _ | PopNone b => b + 1
  end.
Definition limit (s : state) : Z :=
  match owner s with PopTake b | PopEnd b _ | PopNone b => b | _ => aend s end.
(* values of the indices i, ..., i+n-1 *)
Fixpoint vals (v : Z -> T) (n : nat) (i : Z) : list T := match n with O => [] | S m => v i :: vals v m (i + 1) end.
Definition contents (s : state) (v : Z -> T) : list T :=
  match owner s with
  | PopEnd b _ => [v b]
  | _ => vals v (Z.to_nat (aend s - top s)) (top s)
  end.
Definition owner_ok (s : state) (v : Z -> T) : Prop :=
  match owner s with
  | Idle => True
  | Push1 x b => b = bottom s
  | Push2 x b t => b = bottom s /\ t <= top s /\ b - t <= capacity (arrays s (cur s))
  | PushR x b a => b = bottom s /\ (a < next s)%nat /\ 0 <= lg (arrays s a) /\
      b - top s < capacity (arrays s a) /\
      forall i, top s <= i < b -> aget (arrays s a) i = Some (v i)
  | Push3 x b => b = bottom s /\ b - top s < capacity (arrays s (cur s))
  | Push4 x b => b = bottom s /\ b - top s < capacity (arrays s (cur s)) /\ aget (arrays s (cur s)) b = Some x
  | Pop1 b => b = bottom s - 1
  | Pop2 b => b = bottom s
  | PopTake b => b = bottom s /\ top s <= b
  | PopLast b => b = bottom s /\ b <= top s
  | PopCas b x => b = bottom s /\ b <= top s /\ (top s = b -> x = Some (v b))
  | PopEnd b x => b = bottom s /\ top s = b + 1 /\ x = Some (v b)
  | PopNone b => b = bottom s /\ top s = b + 1
  end.
Definition thief_ok (s : state) (v : Z -> T) (p : tpc) : Prop :=
  match p with
  | TIdle => True
  | Steal1 t => t <= top s
  | Steal2 t => t <= top s /\ (t = top s -> t < limit s)
  | Steal3 t a => t <= top s /\ (a < next s)%nat /\ (t = top s -> t < limit s /\ aget (arrays s a) t = Some (v t))
  | Steal4 t x => t <= top s /\ (t = top s -> t < limit s /\ x = Some (v t))
  end.
Definition inv (s : state) (v : Z -> T) : Prop :=
  top s <= aend s /\ aend s - top s <= capacity (arrays s (cur s)) /\
  (cur s < next s)%nat /\ (forall a, 0 <= lg (arrays s a)) /\
  (forall i, top s <= i < aend s -> aget (arrays s (cur s)) i = Some (v i)) /\
  owner_ok s v /\ forall k, thief_ok s v (thief s k).

Lemma vals_snoc v : forall n i, vals v (S n) i = vals v n i ++ [v (i + Z.of_nat n)].
Proof.
  induction n as [|n IH]; intros i.
  - cbn. now rewrite Z.add_0_r.
  - change (vals v (S (S n)) i) with (v i :: vals v (S n) (i + 1)). rewrite IH. cbn [vals app]. do 3 f_equal. f_equal. lia.
Qed.
Lemma vals_ext v w : forall n i, (forall j, i <= j < i + Z.of_nat n -> v j = w j) -> vals v n i = vals w n i.
Proof. induction n as [|n IH]; intros i H; cbn; auto. f_equal; [apply H; lia|apply IH; intros; apply H; lia]. Qed.

Lemma thief_step s s' v w k p :
  thief s' = setthief (thief s) k p -> (forall j q, thief_ok s v q -> thief s j = q -> thief_ok s' w q) -> thief_ok s' w p ->
  (forall j, thief_ok s v (thief s j)) -> forall j, thief_ok s' w (thief s' j).
Proof.
  intros E H Hp Hall j. rewrite E. unfold setthief. destruct (Nat.eqb_spec j k); auto. eapply H; [apply Hall|reflexivity].
Qed.

Ltac spl := repeat match goal with |- _ /\ _ => split end.
(* thieves other than the one that moves, when nothing they depend on changes *)
Lemma thief_keep s s' v w :
  top s' = top s -> (next s <= next s')%nat ->
  (forall t, t = top s -> t < limit s -> t < limit s') ->
  (forall a t, (a < next s)%nat -> t = top s -> t < limit s -> aget (arrays s a) t = Some (v t) -> aget (arrays s' a) t = Some (w t)) ->
  (forall t, t = top s -> t < limit s -> w t = v t) ->
  forall p, thief_ok s v p -> thief_ok s' w p.
Proof.
  intros E1 E2 E3 E4 E5 [|t|t|t a|t x]; cbn [thief_ok]; rewrite ?E1; auto.
  - intros [H1 H2]. split; auto.
  - intros (H1 & H2 & H3). spl; auto; try lia. intros Et. destruct (H3 Et) as [H4 H5]. split; eauto.
  - intros (H1 & H2). split; auto. intros Et. destruct (H2 Et) as [H3 H4]. split; auto. rewrite E5; auto.
Qed.
(* when top moves up, no thief has the new value *)
Lemma thief_moved s s' v w :
  top s < top s' -> (next s <= next s')%nat -> forall p, thief_ok s v p -> thief_ok s' w p.
Proof.
  intros E1 E2 [|t|t|t a|t x]; cbn [thief_ok]; auto; intros H; spl; try lia.
Qed.


Ltac keepk := match goal with I7 : forall k, thief_ok ?s ?v _ |- forall k, thief_ok ?s' ?w _ =>
  intros k; apply (thief_keep s s' v w); cbn [top next arrays]; auto; unfold limit, aend; cbn [owner bottom top];
  try (match goal with Ho : owner _ = _ |- _ => rewrite Ho end); try (intros; lia); auto end.
Ltac opn Ho := unfold owner_ok, contents in *; unfold aend in *; cbn [top bottom cur arrays next owner thief] in *; try rewrite Ho in *.

Lemma step_ok s e s' v : inv s v -> step s e s' ->
  exists w, inv s' w /\ match e with None => contents s' w = contents s v | Some e => deque (contents s v) e (contents s' w) end.
Proof.
  intros (I1 & I2 & I3 & I4 & I5 & I6 & I7) Hs. destruct Hs; rename H into Ho.
  - (* push1 *) exists v. split; [|opn Ho; reflexivity]. unfold inv. opn Ho. spl; auto. keepk.
  - exists v. split; [|opn Ho; reflexivity]. unfold inv. opn Ho. spl; auto; try lia. keepk.
  - exists v. split; [|opn Ho; reflexivity]. unfold inv. opn Ho. destruct I6 as (-> & H1 & H2). spl; auto; try lia. keepk.
  - (* full *)
    exists v. split; [|opn Ho; reflexivity]. unfold inv. opn Ho. destruct I6 as (-> & H1 & H2).
    assert (Hc : setarr (arrays s) (next s) (resize (arrays s (cur s)) (bottom s) t) (cur s) = arrays s (cur s)).
    { unfold setarr. destruct (Nat.eqb_spec (cur s) (next s)); [lia|reflexivity]. }
    assert (Hcap : capacity (resize (arrays s (cur s)) (bottom s) t) = 2 * capacity (arrays s (cur s))).
    { unfold capacity, resize. rewrite copy_lg. cbn [lg]. pose proof (I4 (cur s)). rewrite Z.pow_add_r by lia. lia. }
    assert (Hpos : 0 < capacity (arrays s (cur s))) by (apply Z.pow_pos_nonneg; [lia|apply I4]).
    rewrite Hc. spl; auto; try lia.
    + intros a. unfold setarr. destruct (Nat.eqb a (next s)); auto. unfold resize. rewrite copy_lg. cbn [lg]. pose proof (I4 (cur s)). lia.
    + unfold setarr. rewrite Nat.eqb_refl. unfold resize. rewrite copy_lg. cbn [lg]. pose proof (I4 (cur s)). lia.
    + unfold setarr. rewrite Nat.eqb_refl, Hcap. lia.
    + intros i Hi. unfold setarr. rewrite Nat.eqb_refl. unfold resize. rewrite copy_get; [apply I5; lia| | |lia].
      * cbn [lg]. pose proof (I4 (cur s)). lia.
      * unfold capacity at 1. cbn [lg]. pose proof (I4 (cur s)). rewrite Z.pow_add_r by lia. unfold capacity in H2. lia.
    + intros k. apply (thief_keep s _ v v); cbn [top next arrays]; auto.
      * unfold limit, aend. cbn [owner bottom]. rewrite Ho. auto.
      * intros a t0 Ha _ _ Hg. unfold setarr. destruct (Nat.eqb_spec a (next s)); [lia|exact Hg].
  - (* publish *)
    exists v. split; [|opn Ho; reflexivity]. unfold inv. opn Ho. destruct I6 as (-> & H1 & H2 & H3 & H4). spl; auto; try lia. keepk.
  - (* slot *)
    opn Ho. destruct I6 as (-> & H1).
    assert (Hc : forall i, i <> bottom s -> top s <= i < bottom s -> aget (aput (arrays s (cur s)) (bottom s) (Some x)) i = aget (arrays s (cur s)) i).
    { intros i Hi1 Hi2. apply aget_aput_other; auto. lia. }
    exists v. split; [|reflexivity]. unfold inv. opn Ho.
    replace (setarr _ _ _ (cur s)) with (aput (arrays s (cur s)) (bottom s) (Some x)) by (unfold setarr; now rewrite Nat.eqb_refl).
    change (capacity (aput (arrays s (cur s)) (bottom s) (Some x))) with (capacity (arrays s (cur s))).
    spl; auto; try lia.
    + intros a. unfold setarr. destruct (Nat.eqb a (cur s)); [apply I4|auto].
    + intros i Hi. rewrite Hc by lia. auto.
    + apply aget_aput_same.
    + intros k. apply (thief_keep s _ v v); cbn [top next arrays]; auto.
      * unfold limit, aend. cbn [owner bottom]. rewrite Ho. auto.
      * intros a t0 Ha -> Hl Hg. unfold limit, aend in Hl. rewrite Ho in Hl. unfold setarr. destruct (Nat.eqb_spec a (cur s)) as [->|]; [|exact Hg].
        rewrite Hc by lia. exact Hg.
  - (* bottom *)
    opn Ho. destruct I6 as (-> & H1 & H2).
    set (w := fun i => if i =? bottom s then x else v i).
    assert (Hw : forall i, i <> bottom s -> w i = v i) by (intros i Hi; unfold w; destruct (Z.eqb_spec i (bottom s)); [lia|reflexivity]).
    exists w. split.
    + unfold inv. opn Ho. spl; auto; try lia.
      * intros i Hi. destruct (Z.eq_dec i (bottom s)) as [->|Hne]; [rewrite H2; unfold w; now rewrite Z.eqb_refl|]. rewrite Hw by auto. apply I5. lia.
      * intros k. apply (thief_keep s _ v w); cbn [top next arrays]; auto; unfold limit, aend; cbn [owner bottom]; rewrite Ho.
        { lia. }
        { intros a t0 _ -> Hl Hg. rewrite Hw by lia. exact Hg. }
        { intros t0 -> Hl. apply Hw. lia. }
    + replace (Z.to_nat (bottom s + 1 - top s)) with (S (Z.to_nat (bottom s - top s))) by lia.
      rewrite vals_snoc. replace (top s + Z.of_nat (Z.to_nat (bottom s - top s))) with (bottom s) by lia.
      replace (w (bottom s)) with x by (unfold w; now rewrite Z.eqb_refl).
      rewrite (vals_ext w v) by (intros; apply Hw; lia). constructor.
  - (* pop1 *) exists v. split; [|opn Ho; reflexivity]. unfold inv. opn Ho. spl; auto. keepk.
  - (* pop2 *) exists v. opn Ho. subst b. replace (bottom s - 1 + 1) with (bottom s) in * by lia. split; [|reflexivity]. unfold inv. opn Ho. replace (bottom s - 1 + 1) with (bottom s) in * by lia. spl; auto. keepk.
  - (* take *) exists v. split; [|opn Ho; reflexivity]. unfold inv. opn Ho. spl; auto; try lia. keepk.
  - exists v. split; [|opn Ho; reflexivity]. unfold inv. opn Ho. spl; auto; try lia. keepk.
  - exists v. split; [|opn Ho; reflexivity]. unfold inv. opn Ho. spl; auto; try lia. keepk.
  - (* read *)
    opn Ho. destruct I6 as (-> & H1). exists v. split.
    + unfold inv. opn Ho. spl; auto; try lia.
      * intros i Hi. apply I5. lia.
      * keepk.
    + rewrite I5 by lia. replace (Z.to_nat (bottom s + 1 - top s)) with (S (Z.to_nat (bottom s - top s))) by lia.
      rewrite vals_snoc. replace (top s + Z.of_nat (Z.to_nat (bottom s - top s))) with (bottom s) by lia. constructor.
  - (* read last *)
    exists v. split; [|opn Ho; reflexivity]. unfold inv. opn Ho. destruct I6 as (-> & H1). spl; auto; try lia.
    + intros E. apply I5. lia.
    + keepk.
  - (* won *)
    opn Ho. destruct I6 as (-> & H1 & H2). exists v. split.
    + unfold inv. opn Ho. spl; auto; try lia.
      intros k. apply (thief_moved s _ v v); cbn [top next]; auto. lia.
    + rewrite H0. replace (Z.to_nat (bottom s + 1 - bottom s)) with 1%nat by lia. reflexivity.
  - (* lost *)
    opn Ho. destruct I6 as (-> & H1 & H2). exists v. split; [|reflexivity]. unfold inv. opn Ho. spl; auto; try lia.
    keepk.
  - (* end *)
    opn Ho. destruct I6 as (-> & H1 & ->). exists v. split.
    + unfold inv. opn Ho. spl; auto; try lia. keepk.
    + rewrite H1. rewrite Z.sub_diag. cbn. exact (d_pop [] _).
  - (* empty *)
    opn Ho. destruct I6 as (-> & H1). exists v. split.
    + unfold inv. opn Ho. spl; auto; try lia. keepk.
    + rewrite H1, Z.sub_diag. cbn. constructor.
  - (* steal1 *)
    exists v. split; [|reflexivity]. unfold inv. spl; auto. eapply (thief_step s _ v v k); [reflexivity|auto| |exact I7]. cbn. lia.
  - exists v. split; [|reflexivity]. unfold inv. spl; auto. eapply (thief_step s _ v v k); [reflexivity|auto| |exact I7]. cbn. auto.
  - (* steal2 *)
    exists v. split; [|reflexivity]. unfold inv. spl; auto. eapply (thief_step s _ v v k); [reflexivity|auto| |exact I7].
    pose proof (I7 k) as Hk. rewrite Ho in Hk. cbn [thief_ok top] in *. split; auto. intros Et.
    unfold limit, aend, owner_ok in *. cbn [owner bottom]. destruct (owner s); lia.
  - (* steal3 *)
    exists v. split; [|reflexivity]. unfold inv. spl; auto. eapply (thief_step s _ v v k); [reflexivity|auto| |exact I7].
    pose proof (I7 k) as Hk. rewrite Ho in Hk. cbn [thief_ok top] in *. destruct Hk as [Hk1 Hk2]. spl; auto. intros Et. split; [auto|].
    cbn [arrays]. specialize (Hk2 Et). apply I5. split; [lia|]. unfold limit, aend in *. destruct (owner s); lia.
  - (* steal4 *)
    exists v. split; [|reflexivity]. unfold inv. spl; auto. eapply (thief_step s _ v v k); [reflexivity|auto| |exact I7].
    pose proof (I7 k) as Hk. rewrite Ho in Hk. cbn [thief_ok top] in *. destruct Hk as (Hk1 & Hk2 & Hk3). spl; auto.
  - (* steal won *)
    pose proof (I7 k) as Hk. rewrite Ho in Hk. cbn [thief_ok] in Hk. destruct Hk as (Hk1 & Hk2). destruct (Hk2 ltac:(lia)) as [Hk3 ->]. subst t.
    assert (Hla : limit s <= aend s) by (unfold limit, aend; destruct (owner s); lia).
    exists v. split.
    + unfold inv. cbn [top cur arrays next]. assert (Hsame : aend (St (top s + 1) (bottom s) (cur s) (arrays s) (next s) (owner s) (setthief (thief s) k TIdle)) = aend s) by reflexivity.
      rewrite Hsame. spl; auto; try lia.
      * intros i Hi. apply I5. lia.
      * unfold owner_ok, limit, aend in *. cbn [owner bottom top arrays cur next]. destruct (owner s); cbn beta iota in *; spl; try tauto; try lia; try (intros; apply I6; lia).
      * eapply (thief_step s _ v v k); [reflexivity| |cbn; auto|exact I7].
        intros j q Hq _. revert Hq. apply thief_moved; cbn; auto. lia.
    + assert (Hne : match owner s with PopEnd _ _ => False | _ => True end).
      { unfold owner_ok, limit in *. destruct (owner s); auto. lia. }
      unfold contents. change (aend (St (top s + 1) (bottom s) (cur s) (arrays s) (next s) (owner s) (setthief (thief s) k TIdle))) with (aend s).
      cbn [owner top]. replace (Z.to_nat (aend s - top s)) with (S (Z.to_nat (aend s - (top s + 1)))) by lia. cbn [vals].
      destruct (owner s); try contradiction; constructor.
  - (* steal lost *)
    exists v. split; [|reflexivity]. unfold inv. spl; auto. eapply (thief_step s _ v v k); [reflexivity|auto| |exact I7]. cbn. auto.
Qed.

Lemma init_ok l v : 0 <= l -> inv (init l) v.
Proof.
  intros H. unfold inv, init. cbn. spl; auto; try lia. unfold capacity. cbn. pose proof (Z.pow_pos_nonneg 2 l). lia.
Qed.
Lemma run_ok l h s (x0 : T) : 0 <= l -> run (init l) h s -> exists v, inv s v /\ deque_run h (contents s v).
Proof.
  intros Hl Hr. remember (init l) as s0 eqn:E0. induction Hr as [s|s h s1 s2 Hr IH Hs|s h s1 e s2 Hr IH Hs].
  - subst s. exists (fun _ => x0). split; [now apply init_ok|constructor].
  - destruct (IH E0) as (v & Hi & Hd). destruct (step_ok _ _ _ _ Hi Hs) as (w & Hw & Ec). exists w. rewrite Ec. auto.
  - destruct (IH E0) as (v & Hi & Hd). destruct (step_ok _ _ _ _ Hi Hs) as (w & Hw & Ec). exists w. split; auto. econstructor; eauto.
Qed.

(* ---- C53 ---- *)
Lemma deque_perm : forall h q, deque_run h q -> Permutation (pushed h) (returned h ++ q).
Proof.
  induction 1 as [|h q e q' Hd IH He]; [constructor|]. unfold pushed, returned in *. rewrite !flat_map_app. cbn [flat_map].
  rewrite !app_nil_r. destruct He; cbn [app]; rewrite ?app_nil_r in *; auto.
  - rewrite IH. rewrite <- app_assoc. reflexivity.
  - rewrite IH. rewrite <- app_assoc. apply Permutation_app_head. apply Permutation_app_comm.
  - rewrite IH, <- app_assoc. reflexivity.
Qed.
(* every history of results, in the order in which the calls end, is a history of a
   sequential deque: the owner gets the newest task, a thief the oldest one, and no
   task is invented, lost or returned twice.  [x0]: there are tasks. *)
Theorem C53_deque l h s (x0 : T) : 0 <= l -> run (init l) h s ->
  exists q, deque_run h q /\ Permutation (pushed h) (returned h ++ q).
Proof. intros Hl Hr. destruct (run_ok l h s x0 Hl Hr) as (v & _ & Hd). eauto using deque_perm. Qed.
(* when pop reports empty, every task ever pushed has been returned to someone *)
Theorem C53_empty_means_empty l h s (x0 : T) : 0 <= l -> run (init l) (h ++ [EEmpty]) s -> Permutation (pushed h) (returned h).
Proof.
  intros Hl Hr. destruct (run_ok l _ s x0 Hl Hr) as (v & _ & Hd). inversion Hd as [E|h0 q e q' Hd0 He E1 E2].
  - symmetry in E. apply app_eq_nil in E. destruct E as [_ E]. discriminate.
  - apply app_inj_tail in E1. destruct E1 as [-> ->]. inversion He; subst. apply deque_perm in Hd0. now rewrite app_nil_r in Hd0.
Qed.
(* between two calls of the owner, bottom - top is the number of tasks left (what
   size() computes, wsq.hpp:164-168) and the live slots hold exactly those tasks *)
Theorem C53_size l h s (x0 : T) : 0 <= l -> run (init l) h s -> owner s = Idle ->
  exists q, deque_run h q /\ Z.of_nat (length q) = bottom s - top s /\
    forall i, (i < length q)%nat -> aget (arrays s (cur s)) (top s + Z.of_nat i) = nth_error q i.
Proof.
  intros Hl Hr Ho. destruct (run_ok l h s x0 Hl Hr) as (v & Hi & Hd). exists (contents s v). split; auto.
  destruct Hi as (I1 & I2 & _ & _ & I5 & _ & _). unfold contents. rewrite Ho. unfold aend in *. rewrite Ho in *.
  assert (Hlen : forall n i, length (vals v n i) = n) by (induction n; intros; cbn; auto).
  assert (Hnth : forall n i j, (j < n)%nat -> nth_error (vals v n i) j = Some (v (i + Z.of_nat j))).
  { induction n as [|n IH]; intros i j Hj; [lia|]. destruct j as [|j]; cbn [vals nth_error]; [now rewrite Z.add_0_r|].
    rewrite IH by lia. f_equal. f_equal. lia. }
  rewrite Hlen. split; [lia|]. intros i Hlt. rewrite Hnth by lia. apply I5. lia.
Qed.
(* no call waits: while the owner is inside a call it can always step, and at most six
   steps end the call; likewise a thief, five *)
Definition owner_left (p : opc) : nat :=
  match p with
  | Idle => 0 | Push1 _ _ => 5 | Push2 _ _ _ => 4 | PushR _ _ _ => 3 | Push3 _ _ => 2 | Push4 _ _ => 1
  | Pop1 _ => 5 | Pop2 _ => 4 | PopTake _ => 1 | PopLast _ => 3 | PopCas _ _ => 2 | PopEnd _ _ => 1 | PopNone _ => 1
  end.
Theorem C53_owner_wait_free s : owner s <> Idle -> exists e s', step s e s' /\ (owner_left (owner s') < owner_left (owner s))%nat.
Proof.
  intros H. destruct (owner s) eqn:Ho; [congruence|..].
  - do 2 eexists. split; [eapply s_push2; eauto|cbn; lia].
  - destruct (Z_lt_dec (capacity (arrays s (cur s)) - 1) (b - t)).
    + do 2 eexists. split; [eapply s_push_full; eauto|cbn; lia].
    + do 2 eexists. split; [eapply s_push_room; eauto|cbn; lia].
  - do 2 eexists. split; [eapply s_push_publish; eauto|cbn; lia].
  - do 2 eexists. split; [eapply s_push_slot; eauto|cbn; lia].
  - do 2 eexists. split; [eapply s_push_bottom; eauto|cbn; lia].
  - do 2 eexists. split; [eapply s_pop2; eauto|cbn; lia].
  - destruct (Z.lt_trichotomy (top s) b) as [h|[h|h]].
    + do 2 eexists. split; [eapply s_pop_take; eauto|cbn; lia].
    + do 2 eexists. split; [eapply s_pop_last; eauto|cbn; lia].
    + do 2 eexists. split; [eapply s_pop_none; eauto|cbn; lia].
  - do 2 eexists. split; [eapply s_pop_read; eauto|cbn; lia].
  - do 2 eexists. split; [eapply s_pop_read_last; eauto|cbn; lia].
  - destruct (Z.eq_dec (top s) b).
    + do 2 eexists. split; [eapply s_pop_won; eauto|cbn; lia].
    + do 2 eexists. split; [eapply s_pop_lost; eauto|cbn; lia].
  - do 2 eexists. split; [eapply s_pop_end; eauto|cbn; lia].
  - do 2 eexists. split; [eapply s_pop_empty; eauto|cbn; lia].
Qed.
End Wsq.

(* a run: push 7 and 8 (the second push doubles the array), a thief takes the oldest
   task while the owner is popping the other one, then the owner finds the deque empty *)
Ltac side := first [vm_compute; reflexivity | vm_compute; discriminate | vm_compute; intros; discriminate].
Ltac ta R c := eapply run_tau in R; [|first [eapply c; cbn; reflexivity|eapply c; [cbn; reflexivity|side]]]; lazy in R.
Ltac ev R c := eapply run_ev in R; [|first [eapply c; cbn; reflexivity|eapply c; [cbn; reflexivity|side]]]; lazy in R.
Example C53_example : exists s, owner s = Idle /\
  run (init (T := nat) 0) [EPush 7%nat; EPush 8%nat; ESteal (Some 7%nat); EPop (Some 8%nat); EEmpty] s.
Proof.
  remember (init (T := nat) 0) as s0 eqn:E0.
  pose proof (run_nil s0) as R. rewrite E0 in R at 2. clear E0. cbv [init] in R.
  eapply run_tau in R; [|apply (s_push1 _ 7%nat); reflexivity]. lazy in R.
  ta R @s_push2. ta R @s_push_room. ta R @s_push_slot. ev R @s_push_bottom.
  eapply run_tau in R; [|apply (s_push1 _ 8%nat); reflexivity]. lazy in R.
  ta R @s_push2. ta R @s_push_full. ta R @s_push_publish. ta R @s_push_slot. ev R @s_push_bottom.
  eapply run_tau in R; [|apply (s_steal1 _ 0%nat); reflexivity]. lazy in R.
  eapply run_tau in R; [|eapply (s_steal2 _ 0%nat); [cbn; reflexivity|side]]. lazy in R.
  ta R @s_pop1. ta R @s_pop2.
  eapply run_tau in R; [|eapply (s_steal3 _ 0%nat); cbn; reflexivity]. lazy in R.
  eapply run_tau in R; [|eapply (s_steal4 _ 0%nat); cbn; reflexivity]. lazy in R.
  eapply run_ev in R; [|eapply (s_steal_won _ 0%nat); [cbn; reflexivity|side]]. lazy in R.
  ta R @s_pop_last. ta R @s_pop_read_last. ta R @s_pop_won. ev R @s_pop_end.
  ta R @s_pop1. ta R @s_pop2. ta R @s_pop_none. ev R @s_pop_empty.
  eexists. split; [|exact R]. reflexivity.
Qed.
