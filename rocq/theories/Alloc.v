(* Alloc.v -- property C48: the unique table's allocator, at the granularity of
   the individual calls getNode / fill / lookup / returnNode, interleaved in any
   order by any number of threads (include/table.hpp:37-135).  DD.v treats
   getNode-fill-lookup as one action; the theorems at the end show that the
   finer interleavings keep every registered node intact and never create a
   duplicate. *)
From Coq Require Import ZArith Bool List Lia Arith.
From Verif Require Import Num State DD GC.
Import ListNotations.
Open Scope Z_scope.

Section Alloc.
Context {NO : NumOps} {CF : Cfg}.

(* the table, the slots handed out and neither registered nor returned yet, and
   how many slots each thread has carved out of its chunks *)
Record world := W { w_t : table; w_own : list positive; w_cut : tid -> Z }.
Definition bump (f : tid -> Z) (i : tid) : tid -> Z := fun j => if Nat.eqb i j then f j + 1 else f j.
Definition drop (a : positive) (l : list positive) : list positive := filter (fun b => negb (Pos.eqb a b)) l.

(* [wo]: register_wo_lookup allowed (only vec_to_vNode called by gc uses it).
   A slot is filled, registered or returned only by the fiber it was handed to;
   the fiber may meanwhile have moved to another thread j. *)
Inductive micro (k : kind) (wo : bool) : world -> world -> Prop :=
| m_get i t own cut a t' : getNode i t = (a, t') ->
    micro k wo (W t own cut) (W t' (a :: own) (match p_avail (pools t i) with [] => bump cut i | _ => cut end))
| m_fill a nd t own cut : In a own -> micro k wo (W t own cut) (W (writeNode a nd t) own cut)
| m_lookup j a nd t own cut p t' : In a own -> heap t a = Some nd -> lookup k j a nd t = Some (p, t') ->
    micro k wo (W t own cut) (W t' (drop a own) cut)
| m_register a nd t own cut p t' : wo = true -> In a own -> heap t a = Some nd -> register_wo_lookup k a nd t = Some (p, t') ->
    micro k wo (W t own cut) (W t' (drop a own) cut)
| m_return j a nd t own cut : In a own -> heap t a = Some nd ->
    micro k wo (W t own cut) (W (returnNode j a nd t) (drop a own) cut).
Inductive micros (k : kind) (wo : bool) : world -> world -> Prop :=
| ms_refl w : micros k wo w w
| ms_step w w' w'' : micros k wo w w' -> micro k wo w' w'' -> micros k wo w w''.
(* a collection starts again from an empty table *)
Definition world_init : world := W table_init [] (fun _ => 0).
Definition live (k : kind) (wo : bool) (w : world) : Prop := micros k wo world_init w.

Definition avail (w : world) (i : tid) : list positive := p_avail (pools (w_t w) i).
Definition registered (w : world) (a : positive) : Prop := exists v key, In a (chain (w_t w) v key).

Record ainv (k : kind) (w : world) : Prop := {
  i_own_nd : NoDup (w_own w);
  i_av_nd : forall i, NoDup (avail w i);
  i_ch_nd : forall v key, NoDup (chain (w_t w) v key);
  i_own_lt : forall a, In a (w_own w) -> (a < nexta (w_t w))%positive;
  i_av_lt : forall i a, In a (avail w i) -> (a < nexta (w_t w))%positive;
  i_ch_lt : forall v key a, In a (chain (w_t w) v key) -> (a < nexta (w_t w))%positive;
  i_own_av : forall i a, In a (w_own w) -> ~ In a (avail w i);
  i_own_ch : forall v key a, In a (w_own w) -> ~ In a (chain (w_t w) v key);
  i_av_ch : forall i v key a, In a (avail w i) -> ~ In a (chain (w_t w) v key);
  i_av_av : forall i j a, In a (avail w i) -> In a (avail w j) -> i = j;
  i_ch_key : forall v key a, In a (chain (w_t w) v key) -> exists nd, heap (w_t w) a = Some nd /\ nv nd = v /\ nkey k nd = key;
  i_left : forall i, 0 <= p_left (pools (w_t w) i);
  i_asz : forall i, 1 <= p_asize (pools (w_t w) i);
  i_cut : forall i, p_allocs (pools (w_t w) i) = w_cut w i + p_left (pools (w_t w) i)
}.

Lemma in_drop a b l : In b (drop a l) <-> In b l /\ a <> b.
Proof. unfold drop. rewrite filter_In, negb_true_iff, Pos.eqb_neq. tauto. Qed.
Lemma nodup_drop a l : NoDup l -> NoDup (drop a l).
Proof. apply NoDup_filter. Qed.
Lemma pupd_same p i x : pupd p i x i = x.
Proof. unfold pupd. now rewrite Nat.eqb_refl. Qed.
Lemma pupd_case p i x j : pupd p i x j = x /\ j = i \/ pupd p i x j = p j /\ j <> i.
Proof. unfold pupd. destruct (Nat.eqb_spec i j); auto. Qed.
Lemma cupd_case c v k l v' k' : (cupd c v k l v' k' = l /\ v' = v /\ k' = k) \/ (cupd c v k l v' k' = c v' k' /\ (v' <> v \/ k' <> k)).
Proof. unfold cupd. destruct (Z.eqb_spec v v'), (Z.eqb_spec k k'); cbn; auto. Qed.
Lemma hupd_same h a nd : hupd h a nd a = Some nd.
Proof. unfold hupd. now rewrite Pos.eqb_refl. Qed.
Lemma hupd_other h a b nd : a <> b -> hupd h a nd b = h b.
Proof. intros Hn. unfold hupd. destruct (Pos.eqb_spec a b); congruence. Qed.

Lemma ainv_init k : ainv k world_init.
Proof. constructor; cbn; unfold INITIAL_ALLOCATION_SIZE, GROWTH_FACTOR; intros; try contradiction; try constructor; try lia; discriminate. Qed.

(* what getNode does *)
Lemma getNode_spec i t a t' : getNode i t = (a, t') ->
  heap t' = heap t /\ chain t' = chain t /\
  ((exists rest, p_avail (pools t i) = a :: rest /\ nexta t' = nexta t /\
     (forall j, pools t' j = if Nat.eqb i j then {| p_avail := rest; p_left := p_left (pools t i); p_asize := p_asize (pools t i); p_allocs := p_allocs (pools t i) |} else pools t j)) \/
   (p_avail (pools t i) = [] /\ a = nexta t /\ nexta t' = Pos.succ (nexta t) /\
     (forall j, j <> i -> pools t' j = pools t j) /\ p_avail (pools t' i) = [] /\
     (p_allocs (pools t' i) - p_left (pools t' i) = p_allocs (pools t i) - p_left (pools t i) + 1) /\
     (0 <= p_left (pools t i) -> 1 <= p_asize (pools t i) -> 0 <= p_left (pools t' i)) /\
     (1 <= p_asize (pools t i) -> 1 <= p_asize (pools t' i)))).
Proof.
  unfold getNode. destruct (p_avail (pools t i)) as [|x rest] eqn:Ea; intros Hg; injection Hg as <- <-; cbn.
  - split; [reflexivity|]. split; [reflexivity|]. right. split; [reflexivity|]. split; [reflexivity|]. split; [reflexivity|].
    split. { intros j Hj. unfold pupd. destruct (Nat.eqb_spec i j); congruence. }
    rewrite pupd_same. destruct (Z.eqb_spec (p_left (pools t i)) 0); cbn; unfold GROWTH_FACTOR; repeat split; lia.
  - split; [reflexivity|]. split; [reflexivity|]. left. exists rest. repeat split; reflexivity.
Qed.

Lemma not_lt_self a : ~ (a < a)%positive. Proof. lia. Qed.

Lemma inv_return k j a nd t own cut : ainv k (W t own cut) -> In a own -> ainv k (W (returnNode j a nd t) (drop a own) cut).
Proof.
  intros Hi Ha.
  destruct Hi as [A1 A2 A3 A4 A5 A6 A7 A8 A9 A10 A11 A12 A13 A14]. unfold avail in *. cbn in *.
  assert (Hp : forall l x, In x (p_avail (pupd (pools t) j {| p_avail := a :: p_avail (pools t j); p_left := p_left (pools t j); p_asize := p_asize (pools t j); p_allocs := p_allocs (pools t j) |} l)) ->
    (x = a /\ l = j) \/ In x (p_avail (pools t l))).
  { intros l x. destruct (pupd_case (pools t) j {| p_avail := a :: p_avail (pools t j); p_left := p_left (pools t j); p_asize := p_asize (pools t j); p_allocs := p_allocs (pools t j) |} l) as [[-> ->]|[-> _]]; cbn; [intros [<-|Hx]|]; auto. }
  constructor; unfold avail; cbn.
  * now apply nodup_drop.
  * intros l. destruct (pupd_case (pools t) j {| p_avail := a :: p_avail (pools t j); p_left := p_left (pools t j); p_asize := p_asize (pools t j); p_allocs := p_allocs (pools t j) |} l) as [[-> ->]|[-> _]]; cbn; [|auto].
    constructor; auto.
  * auto.
  * intros x Hx. apply in_drop in Hx. destruct Hx. eauto.
  * intros l x Hx. apply Hp in Hx. destruct Hx as [[-> ->]|Hx]; eauto.
  * eauto.
  * intros l x Hx Hy. apply in_drop in Hx. destruct Hx as [Hx Hn]. apply Hp in Hy. destruct Hy as [[-> ->]|Hy]; [congruence|]. eapply A7; eauto.
  * intros v key x Hx. apply in_drop in Hx. destruct Hx. eauto.
  * intros l v key x Hx. apply Hp in Hx. destruct Hx as [[-> ->]|Hx]; eauto.
  * intros l l' x Hx Hy. apply Hp in Hx, Hy. destruct Hx as [[-> ->]|Hx], Hy as [[E ->]|Hy]; auto.
    -- exfalso. eapply A7; eauto.
    -- subst x. exfalso. eapply A7; eauto.
    -- eauto.
  * intros v key x Hx. rewrite hupd_other; [eauto|]. intros <-. eapply A8; eauto.
  * intros l. destruct (pupd_case (pools t) j {| p_avail := a :: p_avail (pools t j); p_left := p_left (pools t j); p_asize := p_asize (pools t j); p_allocs := p_allocs (pools t j) |} l) as [[-> ->]|[-> _]]; cbn; auto.
  * intros l. destruct (pupd_case (pools t) j {| p_avail := a :: p_avail (pools t j); p_left := p_left (pools t j); p_asize := p_asize (pools t j); p_allocs := p_allocs (pools t j) |} l) as [[-> ->]|[-> _]]; cbn; auto.
  * intros l. destruct (pupd_case (pools t) j {| p_avail := a :: p_avail (pools t j); p_left := p_left (pools t j); p_asize := p_asize (pools t j); p_allocs := p_allocs (pools t j) |} l) as [[-> ->]|[-> _]]; cbn; auto.
Qed.
Lemma inv_register k a nd t own cut t' : ainv k (W t own cut) -> In a own -> heap t a = Some nd ->
  t' = {| heap := heap t; chain := cupd (chain t) (nv nd) (nkey k nd) (a :: chain t (nv nd) (nkey k nd)); nexta := nexta t; pools := pools t |} ->
  ainv k (W t' (drop a own) cut).
Proof.
  intros Hi Ha Hh ->.
  destruct Hi as [A1 A2 A3 A4 A5 A6 A7 A8 A9 A10 A11 A12 A13 A14]. unfold avail in *. cbn in *.
  assert (Hc : forall v key x, In x (cupd (chain t) (nv nd) (nkey k nd) (a :: chain t (nv nd) (nkey k nd)) v key) ->
     (x = a /\ v = nv nd /\ key = nkey k nd) \/ In x (chain t v key)).
  { intros v key x. destruct (cupd_case (chain t) (nv nd) (nkey k nd) (a :: chain t (nv nd) (nkey k nd)) v key) as [(-> & -> & ->)|[-> _]]; cbn; [intros [<-|Hx]|]; auto. }
  constructor; unfold avail; cbn; auto.
  - now apply nodup_drop.
  - intros v key. destruct (cupd_case (chain t) (nv nd) (nkey k nd) (a :: chain t (nv nd) (nkey k nd)) v key) as [(-> & -> & ->)|[-> _]]; [|auto].
    constructor; auto.
  - intros x Hx. apply in_drop in Hx. destruct Hx. eauto.
  - intros v key x Hx. apply Hc in Hx. destruct Hx as [(-> & -> & ->)|Hx]; eauto.
  - intros i x Hx. apply in_drop in Hx. destruct Hx. eauto.
  - intros v key x Hx Hy. apply in_drop in Hx. destruct Hx. apply Hc in Hy. destruct Hy as [(-> & -> & ->)|Hy]; [congruence|]. eapply A8; eauto.
  - intros i v key x Hx Hy. apply Hc in Hy. destruct Hy as [(-> & -> & ->)|Hy]; [eapply A7; eauto|]. eapply A9; eauto.
  - intros v key x Hx. apply Hc in Hx. destruct Hx as [(-> & -> & ->)|Hx]; eauto.
Qed.
Lemma micro_inv k wo w w' : ainv k w -> micro k wo w w' -> ainv k w'.
Proof.
  intros Hi Hm. destruct Hm as [i t own cut a t' Hg|a nd t own cut Ha|j a nd t own cut p t' Ha Hh Hl|a nd t own cut p t' _ Ha Hh Hl|j a nd t own cut Ha Hh].
  - (* get *)
    destruct Hi as [A1 A2 A3 A4 A5 A6 A7 A8 A9 A10 A11 A12 A13 A14]. unfold avail in *. cbn in *.
    destruct (getNode_spec _ _ _ _ Hg) as (Eh & Ec & [(rest & Ea & En & Ep)|(Ea & En & En' & Ep & Epi & Eal & Elf & Eas)]).
    + assert (Hin : In a (p_avail (pools t i))) by (rewrite Ea; now left).
      assert (Hav : forall j x, In x (p_avail (pools t' j)) -> In x (p_avail (pools t j)) /\ (j = i -> In x rest)).
      { intros j x. rewrite Ep. destruct (Nat.eqb_spec i j) as [->|Hn]; cbn; [intros Hx; rewrite Ea; split; [now right|auto]|].
        intros Hx. split; [exact Hx|congruence]. }
      assert (Hna : ~ In a rest) by (pose proof (A2 i) as N; rewrite Ea in N; now inversion N).
      constructor; unfold avail; cbn.
      * constructor; [intros Ho; exact (A7 i a Ho Hin)|exact A1].
      * intros j. rewrite Ep. destruct (Nat.eqb_spec i j) as [->|Hn]; cbn; [|apply A2].
        pose proof (A2 j) as N. rewrite Ea in N. now inversion N.
      * intros; rewrite Ec; auto.
      * intros x [<-|Hx]; rewrite En; eauto.
      * intros j x Hx. rewrite En. apply Hav in Hx. destruct Hx; eauto.
      * intros v key x. rewrite Ec, En. eauto.
      * intros j x [<-|Hx] Hy; apply Hav in Hy; destruct Hy as [Hy Hz]; [|eapply A7; eauto].
        apply Hna, Hz. symmetry. eapply A10; eauto.
      * intros v key x. rewrite Ec. intros [<-|Hx]; [eapply A9; eauto|eauto].
      * intros j v key x Hx. rewrite Ec. apply Hav in Hx. destruct Hx. eauto.
      * intros j j' x Hx Hy. apply Hav in Hx, Hy. destruct Hx, Hy. eauto.
      * intros v key x. rewrite Ec, Eh. eauto.
      * intros j. rewrite Ep. destruct (Nat.eqb_spec i j) as [->|]; cbn; auto.
      * intros j. rewrite Ep. destruct (Nat.eqb_spec i j) as [->|]; cbn; auto.
      * intros j. rewrite Ep, Ea. destruct (Nat.eqb_spec i j) as [->|]; cbn; auto.
    + assert (Hav : forall j x, In x (p_avail (pools t' j)) -> In x (p_avail (pools t j))).
      { intros j x. destruct (Nat.eq_dec j i) as [->|Hn]; [rewrite Epi; intros []|rewrite Ep by exact Hn; auto]. }
      constructor; unfold avail; cbn.
      * constructor; [|exact A1]. intros Ho. rewrite En in Ho. exact (not_lt_self _ (A4 _ Ho)).
      * intros j. destruct (Nat.eq_dec j i) as [->|Hn]; [rewrite Epi; constructor|rewrite Ep by exact Hn; auto].
      * intros; rewrite Ec; auto.
      * intros x [<-|Hx]; rewrite En'; [lia|]. specialize (A4 _ Hx). lia.
      * intros j x Hx. rewrite En'. specialize (A5 _ _ (Hav _ _ Hx)). lia.
      * intros v key x. rewrite Ec, En'. intros Hx. specialize (A6 _ _ _ Hx). lia.
      * intros j x [<-|Hx] Hy; apply Hav in Hy; [|eapply A7; eauto]. rewrite En in Hy. exact (not_lt_self _ (A5 _ _ Hy)).
      * intros v key x. rewrite Ec. intros [<-|Hx]; [|eauto]. rewrite En. intros Hy. exact (not_lt_self _ (A6 _ _ _ Hy)).
      * intros j v key x Hx. rewrite Ec. eauto.
      * intros j j' x Hx Hy. eauto.
      * intros v key x. rewrite Ec, Eh. eauto.
      * intros j. destruct (Nat.eq_dec j i) as [->|Hn]; [auto|rewrite Ep by exact Hn; auto].
      * intros j. destruct (Nat.eq_dec j i) as [->|Hn]; [auto|rewrite Ep by exact Hn; auto].
      * intros j. rewrite Ea. unfold bump. destruct (Nat.eqb_spec i j) as [->|Hn]; [specialize (A14 j); lia|].
        rewrite Ep by congruence. auto.
  - (* fill *)
    destruct Hi as [A1 A2 A3 A4 A5 A6 A7 A8 A9 A10 A11 A12 A13 A14]. unfold avail in *. cbn in *.
    constructor; unfold avail; cbn; auto.
    intros v key x Hx. rewrite hupd_other; [eauto|]. intros <-. eapply A8; eauto.
  - (* lookup *)
    unfold lookup in Hl. destruct (level_ok (nv nd)); [|discriminate].
    destruct (scan _ _ _) as [[b|]|]; [| |discriminate]; injection Hl as _ <-.
    + now apply inv_return.
    + eapply inv_register; eauto.
  - unfold register_wo_lookup in Hl. destruct (level_ok (nv nd)); [|discriminate]. injection Hl as _ <-. eapply inv_register; eauto.
  - now apply inv_return.
Qed.

Lemma live_inv k wo w : live k wo w -> ainv k w.
Proof.
  unfold live. intros H. remember world_init as w0 eqn:E. revert E.
  induction H as [w|w w' w'' H IH Hm]; intros ->; [apply ainv_init|]. eapply micro_inv; eauto.
Qed.

(* C48: the slot returned by getNode is in use nowhere: it is not registered in
   the unique table, not held by any fiber, and no longer available to any thread *)
Theorem C48_getNode_fresh k wo w i a t' : live k wo w -> getNode i (w_t w) = (a, t') ->
  ~ registered w a /\ ~ In a (w_own w) /\ (forall j, ~ In a (p_avail (pools t' j))).
Proof.
  intros Hl Hg. pose proof (live_inv _ _ _ Hl) as Hi.
  assert (Hm : micro k wo w (W t' (a :: w_own w) (match p_avail (pools (w_t w) i) with [] => bump (w_cut w) i | _ => w_cut w end))).
  { destruct w as [t own cut]. now apply m_get. }
  pose proof (micro_inv _ _ _ _ Hi Hm) as Hi'. destruct (getNode_spec _ _ _ _ Hg) as (_ & Ec & _).
  split; [|split].
  - intros (v & key & Hx). apply (i_own_ch _ _ Hi' v key a (or_introl eq_refl)). cbn. now rewrite Ec.
  - pose proof (i_own_nd _ _ Hi') as N. cbn in N. now inversion N.
  - intros j. exact (i_own_av _ _ Hi' j a (or_introl eq_refl)).
Qed.

(* get_allocations() of a thread never under-reports the slots this thread has
   carved out of its chunks *)
Theorem C48_allocations k wo w i : live k wo w -> w_cut w i <= p_allocs (pools (w_t w) i).
Proof. intros Hl. pose proof (live_inv _ _ _ Hl) as Hi. pose proof (i_cut _ _ Hi i). pose proof (i_left _ _ Hi i). lia. Qed.

(* Registered nodes are never modified, moved or dropped, whatever the other
   threads do *)
Lemma micro_stable k wo w w' v key a : ainv k w -> micro k wo w w' -> In a (chain (w_t w) v key) ->
  In a (chain (w_t w') v key) /\ heap (w_t w') a = heap (w_t w) a.
Proof.
  intros Hi Hm Hx. pose proof (i_own_ch _ _ Hi v key a) as Ho.
  destruct Hm as [i t own cut b t' Hg|b nd t own cut Ha|j b nd t own cut p t' Ha Hh Hl|b nd t own cut p t' _ Ha Hh Hl|j b nd t own cut Ha Hh]; cbn in *.
  - destruct (getNode_spec _ _ _ _ Hg) as (-> & -> & _). auto.
  - split; [exact Hx|]. apply hupd_other. intros ->. now apply Ho.
  - unfold lookup in Hl. destruct (level_ok (nv nd)); [|discriminate].
    destruct (scan _ _ _) as [[c|]|]; [| |discriminate]; injection Hl as _ <-; cbn.
    + split; [exact Hx|]. apply hupd_other. intros ->. now apply Ho.
    + split; [|reflexivity]. destruct (cupd_case (chain t) (nv nd) (nkey k nd) (b :: chain t (nv nd) (nkey k nd)) v key) as [(-> & -> & ->)|[-> _]]; [now right|auto].
  - unfold register_wo_lookup in Hl. destruct (level_ok (nv nd)); [|discriminate]. injection Hl as _ <-; cbn.
    split; [|reflexivity]. destruct (cupd_case (chain t) (nv nd) (nkey k nd) (b :: chain t (nv nd) (nkey k nd)) v key) as [(-> & -> & ->)|[-> _]]; [now right|auto].
  - split; [exact Hx|]. apply hupd_other. intros ->. now apply Ho.
Qed.
Theorem C48_registered_stable k wo w w' a nd : live k wo w -> micros k wo w w' -> registered w a -> heap (w_t w) a = Some nd ->
  registered w' a /\ heap (w_t w') a = Some nd.
Proof.
  intros Hl Hs (v & key & Hx) Hh.
  assert (H : live k wo w' /\ In a (chain (w_t w') v key) /\ heap (w_t w') a = Some nd).
  { induction Hs as [w|w w1 w2 Hs IH Hm]; [auto|]. destruct (IH Hl Hx Hh) as (I1 & I2 & I3).
    split; [eapply ms_step; eauto|]. destruct (micro_stable _ _ _ _ _ _ _ (live_inv _ _ _ I1) Hm I2) as [J1 J2].
    split; [exact J1|congruence]. }
  destruct H as (_ & H1 & H2). split; [exists v, key; exact H1|exact H2].
Qed.

(* No duplicate: a node is registered by lookup only when no node equal to it
   (operator==) is registered *)
Definition apart (w : world) : Prop := forall v key l1 a l2 b na nb, chain (w_t w) v key = l1 ++ a :: l2 -> In b l2 ->
  heap (w_t w) a = Some na -> heap (w_t w) b = Some nb -> node_eqb na nb = false.
Lemma scan_none h l nd : scan h l nd = Some None -> forall b nb, In b l -> h b = Some nb -> node_eqb nd nb = false.
Proof.
  induction l as [|x l IH]; intros Hs b nb Hb Hn; cbn in *; [contradiction|].
  destruct (h x) as [nx|] eqn:Ex; [|discriminate]. destruct (node_eqb nd nx) eqn:Eq; [discriminate|].
  destruct Hb as [<-|Hb]; [congruence|eauto].
Qed.
Lemma apart_stable k w w' : ainv k w -> apart w -> (forall v key, chain (w_t w') v key = chain (w_t w) v key) ->
  (forall v key a, In a (chain (w_t w) v key) -> heap (w_t w') a = heap (w_t w) a) -> apart w'.
Proof.
  intros Hi Ha Hc Hh v key l1 a l2 b na nb E Hb H1 H2. rewrite Hc in E.
  assert (Ia : In a (chain (w_t w) v key)) by (rewrite E; apply in_or_app; right; now left).
  assert (Ib : In b (chain (w_t w) v key)) by (rewrite E; apply in_or_app; right; now right).
  rewrite (Hh _ _ _ Ia) in H1. rewrite (Hh _ _ _ Ib) in H2. eapply Ha; eauto.
Qed.
Lemma micro_apart k w w' : ainv k w -> micro k false w w' -> apart w -> apart w'.
Proof.
  intros Hi Hm Hap. pose proof (fun v key a => micro_stable k false w w' v key a Hi Hm) as Hst.
  inversion Hm as [i t own cut b t' Hg E1 E2|b nd t own cut Ha E1 E2|j b nd t own cut p t' Ha Hh Hl E1 E2|b nd t own cut p t' Hwo|j b nd t own cut Ha Hh E1 E2];
    [| | |discriminate|]; subst w w'; cbn in *.
  - apply (apart_stable k (W t own cut)); auto; cbn; [destruct (getNode_spec _ _ _ _ Hg) as (_ & -> & _); auto|]. intros v key x Hx; now apply (Hst v key).
  - apply (apart_stable k (W t own cut)); auto; cbn. intros v key x Hx; now apply (Hst v key).
  - pose proof Hl as Hl'. unfold lookup in Hl. destruct (level_ok (nv nd)); [|discriminate].
    destruct (scan (heap t) (chain t (nv nd) (nkey k nd)) nd) as [[c|]|] eqn:Es; [| |discriminate]; injection Hl as _ <-; cbn in *.
    + apply (apart_stable k (W t own cut)); auto; cbn. intros v key x Hx; now apply (Hst v key).
    + intros v key l1 a l2 c na nc. cbn.
      destruct (cupd_case (chain t) (nv nd) (nkey k nd) (b :: chain t (nv nd) (nkey k nd)) v key) as [(-> & -> & ->)|[-> _]]; [|eapply Hap].
      intros E Hc H1 H2. destruct l1 as [|x l1]; injection E as <- E.
      * subst l2. rewrite Hh in H1. injection H1 as <-. eapply scan_none; eauto.
      * eapply (Hap (nv nd) (nkey k nd) l1 a l2 c); eauto.
  - apply (apart_stable k (W t own cut)); auto; cbn. intros v key x Hx; now apply (Hst v key).
Qed.
Theorem C48_no_duplicates k w v v' key key' a b na nb : live k false w -> (forall x y, node_eqb x y = node_eqb y x) ->
  (forall x y, node_eqb x y = true -> nv x = nv y /\ nkey k x = nkey k y) ->
  In a (chain (w_t w) v key) -> In b (chain (w_t w) v' key') -> heap (w_t w) a = Some na -> heap (w_t w) b = Some nb ->
  node_eqb na nb = true -> a = b.
Proof.
  intros Hl Hsym Hkey Ha Hb H1 H2 He. pose proof (live_inv _ _ _ Hl) as Hi.
  assert (Hap : apart w).
  { clear - Hl. unfold live in Hl. remember world_init as w0 eqn:E. revert E. induction Hl as [w|w w' w'' H IH Hm]; intros ->.
    - intros v key l1 a l2 b na nb E. destruct l1; discriminate.
    - eapply micro_apart; [|exact Hm|auto]. eapply live_inv; exact H. }
  destruct (i_ch_key _ _ Hi _ _ _ Ha) as (na' & Ea & Va & Ka). destruct (i_ch_key _ _ Hi _ _ _ Hb) as (nb' & Eb & Vb & Kb).
  rewrite H1 in Ea. injection Ea as <-. rewrite H2 in Eb. injection Eb as <-.
  destruct (Hkey _ _ He) as [Hv Hk]. assert (Ev : v' = v) by congruence. assert (Ek : key' = key) by congruence. rewrite Ev, Ek in Hb.
  apply in_split in Ha. destruct Ha as (l1 & l2 & E). rewrite E in Hb. apply in_app_or in Hb. destruct Hb as [Hb|[Hb|Hb]]; [|exact Hb|].
  - apply in_split in Hb. destruct Hb as (m1 & m2 & ->). rewrite <- app_assoc in E. cbn in E.
    pose proof (Hap v key m1 b (m2 ++ a :: l2) a nb na E ltac:(apply in_or_app; right; now left) H2 H1) as Hf.
    rewrite Hsym in Hf. congruence.
  - pose proof (Hap v key l1 a l2 b na nb E Hb H1 H2). congruence.
Qed.

(* the actions of DD.v are sequences of these steps by one thread *)
Theorem C48_intern_is_micro k wo i nd s p s' own cut : intern k i nd s = Some (p, s') ->
  exists cut', micros k wo (W (tb s k) own cut) (W (tb s' k) (drop (fst (getNode i (tb s k))) (fst (getNode i (tb s k)) :: own)) cut').
Proof.
  unfold intern. destruct (getNode i (tb s k)) as [a t1] eqn:Eg. cbn [fst].
  destruct (lookup k i a nd (writeNode a nd t1)) as [[q t2]|] eqn:El; [|discriminate]. intros E. injection E as <- <-.
  assert (Ht : tb (set_tb s k t2) k = t2) by (cbn; destruct k; reflexivity). rewrite Ht.
  eexists. eapply ms_step; [eapply ms_step; [eapply ms_step; [apply ms_refl|]|]|].
  - apply m_get. exact Eg.
  - apply (m_fill k wo a nd). now left.
  - eapply m_lookup; [now left|cbn; apply hupd_same|exact El].
Qed.
Theorem C48_scratch_is_micro k wo i nd s own cut :
  exists cut', micros k wo (W (tb s k) own cut) (W (tb (scratch k i nd s) k) (drop (fst (getNode i (tb s k))) (fst (getNode i (tb s k)) :: own)) cut').
Proof.
  unfold scratch. destruct (getNode i (tb s k)) as [a t1] eqn:Eg. cbn [fst].
  assert (Ht : forall t2, tb (set_tb s k t2) k = t2) by (intros; cbn; destruct k; reflexivity). rewrite Ht.
  eexists. eapply ms_step; [eapply ms_step; [eapply ms_step; [apply ms_refl|]|]|].
  - apply m_get. exact Eg.
  - apply (m_fill k wo a nd). now left.
  - apply m_return; [now left|cbn; apply hupd_same].
Qed.

(* FINDING: the counter is per thread.  Slots handed out by thread 1 do not show
   in thread 0's get_allocations(), on which gc called from thread 0 decides:
   however many nodes the workers have allocated, gc(es, false) does nothing. *)
Fixpoint gets (i : tid) (n : nat) (w : world) : world :=
  match n with
  | O => w
  | S m => let w' := gets i m w in
           let '(a, t') := getNode i (w_t w') in
           W t' (a :: w_own w') (match p_avail (pools (w_t w') i) with [] => bump (w_cut w') i | _ => w_cut w' end)
  end.
Theorem C48_total_allocations_refuted k wo (n : nat) (s : state) es : exists w, live k wo w /\ length (w_own w) = n /\
  (tb s KV = w_t w -> gc_v s = 65536 -> gc 0%nat es false s = Some (es, s)).
Proof.
  exists (gets 1%nat n world_init).
  assert (H : live k wo (gets 1%nat n world_init) /\ length (w_own (gets 1%nat n world_init)) = n /\ pools (w_t (gets 1%nat n world_init)) 0%nat = pool_init).
  { induction n as [|n (I1 & I2 & I3)]; [split; [apply ms_refl|split; reflexivity]|]. cbn [gets].
    destruct (gets 1%nat n world_init) as [t own cut] eqn:E. cbn [w_t w_own w_cut] in *.
    destruct (getNode 1%nat t) as [a t'] eqn:Eg. split; [|split].
    - eapply ms_step; [exact I1|]. now apply m_get.
    - cbn. congruence.
    - cbn. destruct (getNode_spec _ _ _ _ Eg) as (_ & _ & [(r & _ & _ & Ep)|(_ & _ & _ & Ep & _)]); rewrite Ep; [exact I3|exact I3|discriminate]. }
  destruct H as (H1 & H2 & H3). split; [exact H1|]. split; [exact H2|].
  intros Ht Hg. unfold gc, below_thr. rewrite Ht, H3, Hg. reflexivity.
Qed.
End Alloc.
