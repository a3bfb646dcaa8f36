(* PruneP.v -- C49 (prune) and C50 (save_binary / load_binary). *)
From Coq Require Import Reals Lra Psatz ZArith NArith Nnat Bool List Lia Arith FunctionalExtensionality.
From Coquelicot Require Import Complex.
From Verif Require Import Num State DD Gates GC Measure Api Prune RNum Wf Sums Err Inv Wp Make Add MulV Canon
  GateP StateP Spec SpecP Readout GCP MeasureP MeasAllP ApiP Obs Props1 Props2.
Import ListNotations.
Open Scope Z_scope.

Section PruneP.
Context (tau : R) {HTol : Tol tau}.
Let Htau : (0 <= tau < 1 / 2)%R := tol_ok.
#[local] Hint Extern 0 NumOps => exact (RNum tau) : typeclass_instances.
Context {CF : Cfg}.
Notation state := (@state (RNum tau)).
Notation edge := (@edge (RNum tau)).
Notation node := (@node (RNum tau)).
Notation table := (@table (RNum tau)).
Notation handle := (@handle (RNum tau)).
Notation TInv := (TInv tau).
Notation reg := (reg tau).
Notation val := (val tau).
Notation valp := (valp tau).
Notation wfe := (wfe tau).
Notation wfp := (wfp tau).
Notation okp := (okp tau).

Lemma karity_arity k : karity k = arity k. Proof. now destruct k. Qed.

(* ---- the specification side: the nodes met along all paths ---- *)
(* every node address met when following every path from p, with repetition *)
Fixpoint nodes (t : table) (n : nat) (p : ptr) : list positive :=
  match n with
  | O => []
  | S m => match p with
           | Node a => match heap t a with
                       | Some nd => a :: flat_map (fun c => nodes t m (en c)) (nch nd)
                       | None => []
                       end
           | _ => []
           end
  end.
(* no node of the diagram is met twice: the diagram is a tree *)
Definition unshared (t : table) (n : nat) (e : edge) : Prop := NoDup (nodes t n (en e)).

(* ---- zeroing order ---- *)
Definition zch (c c' : edge) : Prop := c' = c \/ c' = zeroE.
Definition zle (t t' : table) : Prop := forall a nd, heap t a = Some nd ->
  exists nd', heap t' a = Some nd' /\ nv nd' = nv nd /\ Forall2 zch (nch nd) (nch nd').
Lemma F2_refl l : Forall2 zch l l.
Proof. induction l; constructor; auto. now left. Qed.
Lemma zle_refl t : zle t t.
Proof. intros a nd H. exists nd. repeat split; auto. apply F2_refl. Qed.
Lemma F2_trans l1 l2 l3 : Forall2 zch l1 l2 -> Forall2 zch l2 l3 -> Forall2 zch l1 l3.
Proof.
  intros H. revert l3. induction H; intros l3 H3; inversion H3; subst; constructor; auto.
  unfold zch in *. destruct H as [->| ->], H4 as [->| ->]; auto.
Qed.
Lemma zle_trans t1 t2 t3 : zle t1 t2 -> zle t2 t3 -> zle t1 t3.
Proof.
  intros A B a nd H. destruct (A a nd H) as (nd2 & H2 & E2 & F2). destruct (B a nd2 H2) as (nd3 & H3 & E3 & F3).
  exists nd3. repeat split; [auto|congruence|eapply F2_trans; eauto].
Qed.
Lemma F2_nth l l' i : Forall2 zch l l' -> zch (nth i l zeroE) (nth i l' zeroE).
Proof. intros H. revert i. induction H; intros [|i]; cbn; auto; now left. Qed.
Lemma F2_len l l' : Forall2 zch l l' -> length l' = length l.
Proof. induction 1; cbn; auto. Qed.
Lemma F2_upd l i : Forall2 zch l (upd_nth i zeroE l).
Proof. revert i. induction l as [|x l IH]; intros [|i]; cbn; constructor; try (now right); try (now left); auto. apply F2_refl. Qed.

Lemma upd_nth_same i x l : (i < length l)%nat -> nth_error (upd_nth i x l) i = Some x.
Proof. revert l. induction i; intros [|y l] H; cbn in *; try lia; auto. apply IHi. lia. Qed.
Lemma upd_nth_other i j x l : i <> j -> nth_error (upd_nth i x l) j = nth_error l j.
Proof. revert j l. induction i; intros [|j] [|y l] H; cbn in *; try lia; auto. Qed.
Lemma upd_nth_len i x l : length (upd_nth i x l) = length l.
Proof. revert l. induction i; intros [|y l]; cbn; auto. Qed.

Lemma nd_app (A : Type) (l l' : list A) : NoDup (l ++ l') -> NoDup l /\ NoDup l' /\ forall x, In x l -> ~ In x l'.
Proof.
  induction l as [|x l IH]; cbn; intros H; [repeat split; auto; constructor|].
  inversion H as [|? ? H1 H2]. subst. destruct (IH H2) as (A1 & A2 & A3). split; [constructor; auto; intros Hi; apply H1, in_or_app; auto|].
  split; [exact A2|]. intros y [<-|Hy]; [intros Hi; apply H1, in_or_app; auto|auto].
Qed.

(* ---- nodes below an ok pointer ---- *)
Lemma okp_S k t n a : TInv k t -> okp k t n (Node a) ->
  exists nd m, reg k t a nd /\ nv nd = Z.of_nat m /\ (m < n)%nat /\ (k = KV -> n = S m) /\
    length (nch nd) = karity k /\ (forall c, In c (nch nd) -> okp k t m (en c)).
Proof.
  intros HT [H|H]; [discriminate|].
  assert (Hx : exists nd, reg k t a nd /\ nv nd < Z.of_nat n /\ (k = KV -> n = S (Z.to_nat (nv nd)))).
  { destruct k; cbn in H.
    - destruct n as [|m]; [discriminate|]. destruct H as (a' & nd & E & Hr & Hv). injection E as <-.
      exists nd. split; [exact Hr|]. split; [lia|]. intros _. lia.
    - destruct H as [H|(a' & nd & E & Hr & Hv)]; [discriminate|]. injection E as <-.
      exists nd. split; [exact Hr|]. split; [exact Hv|]. discriminate. }
  destruct Hx as (nd & Hr & Hv & HK). pose proof (reg_ok tau _ _ _ _ HT Hr) as Hok.
  destruct (no_level _ _ _ _ Hok) as [Hl _].
  exists nd, (Z.to_nat (nv nd)). split; [exact Hr|]. split; [lia|]. split; [lia|]. split; [exact HK|].
  split; [rewrite karity_arity; apply Hok|]. intros c Hc. apply (wfe_okp tau). now apply Hok.
Qed.

Section Zero.
Context (k : kind) (t0 : table) (HT : TInv k t0).

Lemma valp_term_eq t t' n ix : valp k t n Term ix = valp k t' n Term ix.
Proof. induction n; cbn; auto. now rewrite IHn. Qed.
Lemma skip_or k' i : skipf k' i = RtoC 0 \/ skipf k' i = RtoC 1.
Proof. destruct k'; cbn; auto. destruct i as [|[|[|[|i]]]]; cbn; auto. Qed.
Lemma valp_term_01 t n ix : valp k t n Term ix = RtoC 0 \/ valp k t n Term ix = RtoC 1.
Proof.
  induction n; cbn; auto. destruct (skip_or k (ix n)) as [->| ->]; destruct IHn as [->| ->];
    [left|left|left|right]; ring.
Qed.
(* a node's value is 0 or 1 times that of the child selected *)
Lemma valp_down n a nd m ix : heap t0 a = Some nd -> nv nd = Z.of_nat m -> (m < n)%nat ->
  exists sc, (sc = RtoC 0 \/ sc = RtoC 1) /\
    forall t' nd', zle t0 t' -> heap t' a = Some nd' ->
      valp k t' n (Node a) ix = Cmult sc (val k t' m (nth (ix m) (nch nd') zeroE) ix).
Proof.
  intros Ha Hv Hm. induction n as [|n IH]; [lia|].
  destruct (Nat.eq_dec m n) as [->|Hne].
  - exists (RtoC 1). split; [auto|]. intros t' nd' Hz Hh. cbn [Wf.valp]. rewrite Hh.
    destruct (Hz a nd Ha) as (nd2 & H2 & E2 & _). rewrite Hh in H2. injection H2 as <-.
    rewrite E2, Hv, Z.eqb_refl. unfold val, Wf.val. ring.
  - destruct IH as (sc & Hsc & IH); [lia|].
    exists (Cmult (skipf k (ix n)) sc). split.
    { destruct (skip_or k (ix n)) as [->| ->]; destruct Hsc as [->| ->]; [left|left|left|right]; ring. }
    intros t' nd' Hz Hh. cbn [Wf.valp]. rewrite Hh.
    destruct (Hz a nd Ha) as (nd2 & H2 & E2 & _). rewrite Hh in H2. injection H2 as <-.
    assert (Hq : (nv nd' =? Z.of_nat n) = false) by (apply Z.eqb_neq; lia). rewrite Hq.
    rewrite (IH t' nd' Hz Hh). ring.
Qed.

(* zeroing turns every value into itself or 0 *)
Lemma val_zle n : forall t t' e e' ix, zle t0 t -> zle t t' -> okp k t0 n (en e) -> zch e e' ->
  val k t' n e' ix = val k t n e ix \/ val k t' n e' ix = RtoC 0.
Proof.
  induction n as [n IH] using lt_wf_ind. intros t t' e e' ix H0 Hz Hok [->| ->]; [|right; apply (val_zeroE tau)].
  destruct e as [w p]. cbn [en] in Hok. unfold val, Wf.val. cbn [ew en].
  destruct p as [| |a].
  - exfalso. eapply (okp_null tau); eauto.
  - left. now rewrite (valp_term_eq t' t).
  - destruct (okp_S k t0 n a HT Hok) as (nd & m & Hr & Hv & Hm & _ & Hlen & Hc).
    destruct (valp_down n a nd m ix (Logic.proj1 Hr) Hv Hm) as (sc & Hsc & Hd).
    destruct (H0 a nd (Logic.proj1 Hr)) as (nd1 & H1 & E1 & F1).
    destruct (Hz a nd1 H1) as (nd2 & H2 & E2 & F2).
    rewrite (Hd t nd1 H0 H1), (Hd t' nd2 (zle_trans _ _ _ H0 Hz) H2).
    assert (Hok' : okp k t0 m (en (nth (ix m) (nch nd1) zeroE))).
    { destruct (F2_nth _ _ (ix m) F1) as [->| ->]; [|now left].
      destruct (nth_in_or_default (ix m) (nch nd) zeroE) as [Hi| ->]; [now apply Hc|now left]. }
    destruct (IH m Hm t t' _ _ ix H0 Hz Hok' (F2_nth _ _ (ix m) F2)) as [->| ->]; [now left|right; ring].
Qed.

Lemma val_le1' n e ix : okp k t0 n (en e) -> (Cmod (val k t0 n e ix) <= Cmod (ew e))%R.
Proof.
  intros Hok. unfold val, Wf.val. rewrite Cmod_mult.
  assert (H : (Cmod (valp k t0 n (en e) ix) <= 1)%R) by (apply (valp_le1 tau); auto; destruct Hok; auto).
  pose proof (Cmod_ge_0 (ew e)). nra.
Qed.

(* values depend only on the nodes met *)
Lemma nodes_S n a nd m : heap t0 a = Some nd -> (m < n)%nat -> (forall c, In c (nch nd) -> okp k t0 m (en c)) ->
  In a (nodes t0 n (Node a)) /\ forall c b, In c (nch nd) -> In b (nodes t0 m (en c)) -> In b (nodes t0 n (Node a)).
Proof.
  intros Ha Hm Hc. destruct n as [|n]; [lia|]. cbn. rewrite Ha. split; [now left|].
  intros c b Hi Hb. right. apply in_flat_map. exists c. split; [exact Hi|].
  assert (Hmn : (m <= n)%nat) by lia. clear -Hb Hmn.
  revert n c Hmn Hb. generalize (m) as i. induction i as [|i IH]; intros n c Hmn Hb; [destruct Hb|].
  destruct n as [|n]; [lia|]. cbn in *. destruct (en c); try contradiction. destruct (heap t0 a); try contradiction.
  destruct Hb as [->|Hb]; [now left|]. right. apply in_flat_map in Hb as (x & Hx & Hb). apply in_flat_map.
  exists x. split; auto. apply (IH n x); auto. lia.
Qed.
Lemma val_frame n : forall t t' e ix, zle t0 t -> zle t0 t' -> okp k t0 n (en e) ->
  (forall a, In a (nodes t0 n (en e)) -> heap t' a = heap t a) -> val k t' n e ix = val k t n e ix.
Proof.
  induction n as [n IH] using lt_wf_ind. intros t t' e ix H0 H0' Hok Hh.
  destruct e as [w p]. cbn [en] in *. unfold val, Wf.val. cbn [ew en]. f_equal.
  destruct p as [| |a].
  - exfalso. eapply (okp_null tau); eauto.
  - apply valp_term_eq.
  - destruct (okp_S k t0 n a HT Hok) as (nd & m & Hr & Hv & Hm & _ & Hlen & Hc).
    destruct (nodes_S n a nd m (Logic.proj1 Hr) Hm Hc) as [N1 N2].
    destruct (valp_down n a nd m ix (Logic.proj1 Hr) Hv Hm) as (sc & Hsc & Hd).
    destruct (H0 a nd (Logic.proj1 Hr)) as (nd1 & H1 & E1 & F1).
    assert (H2 : heap t' a = Some nd1) by (rewrite Hh; auto).
    rewrite (Hd t nd1 H0 H1), (Hd t' nd1 H0' H2). f_equal. apply IH; auto.
    + destruct (F2_nth _ _ (ix m) F1) as [->| ->]; [|now left].
      destruct (nth_in_or_default (ix m) (nch nd) zeroE) as [Hi| ->]; [now apply Hc|now left].
    + intros b Hb. apply Hh. destruct (F2_nth _ _ (ix m) F1) as [Ec|Ec]; rewrite Ec in Hb; [|destruct m; destruct Hb].
      destruct (nth_in_or_default (ix m) (nch nd) zeroE) as [Hi|Ei]; [|rewrite Ei in Hb; destruct m; destruct Hb].
      eapply N2; eauto.
Qed.
Lemma nodes_level n : forall p a nd, okp k t0 n p -> In a (nodes t0 n p) -> heap t0 a = Some nd -> nv nd < Z.of_nat n.
Proof.
  induction n as [|n IH]; intros p a nd Hok Hi Ha; [destruct Hi|].
  cbn in Hi. destruct p as [| |b]; try contradiction.
  destruct (okp_S k t0 (S n) b HT Hok) as (nb & m & Hr & Hv & Hm & HK & Hlen & Hc).
  rewrite (Logic.proj1 Hr) in Hi. destruct Hi as [->|Hi].
  - rewrite (Logic.proj1 Hr) in Ha. injection Ha as <-. lia.
  - apply in_flat_map in Hi as (c & Hin & Hi).
    assert (Hup : okp k t0 n (en c)).
    { specialize (Hc c Hin). destruct k; [replace n with m by (specialize (HK eq_refl); lia); exact Hc|].
      destruct Hc as [Hc|Hc]; [now left|]. right. eapply (wfp_KM_up tau); [|exact Hc]. lia. }
    specialize (IH _ _ _ Hup Hi Ha). lia.
Qed.

Lemma nodes_fuel n : forall n' p, okp k t0 n p -> (n <= n')%nat -> nodes t0 n' p = nodes t0 n p.
Proof.
  induction n as [n IH] using lt_wf_ind. intros n' p Hok Hn.
  destruct p as [| |a]; [exfalso; eapply (okp_null tau); eauto|destruct n, n'; reflexivity|].
  destruct (okp_S k t0 n a HT Hok) as (nd & m & Hr & Hv & Hm & HK & Hlen & Hc).
  destruct n as [|n]; [lia|]. destruct n' as [|n']; [lia|]. cbn. rewrite (Logic.proj1 Hr). f_equal.
  assert (G : forall l, (forall c, In c l -> okp k t0 m (en c)) ->
     flat_map (fun c => nodes t0 n' (en c)) l = flat_map (fun c => nodes t0 n (en c)) l).
  { induction l as [|c l IHl]; intros Hl; [reflexivity|]. cbn. f_equal; [|apply IHl; intros; apply Hl; now right].
    rewrite (IH m Hm n' (en c)) by (try lia; apply Hl; now left).
    rewrite (IH m Hm n (en c)) by (try lia; apply Hl; now left). reflexivity. }
  now apply G.
Qed.
Lemma nodes_node n a nd m : okp k t0 n (Node a) -> heap t0 a = Some nd -> nv nd = Z.of_nat m -> (m < n)%nat ->
  (forall c, In c (nch nd) -> okp k t0 m (en c)) ->
  nodes t0 n (Node a) = a :: flat_map (fun c => nodes t0 m (en c)) (nch nd).
Proof.
  intros Hok Ha Hv Hm Hc. destruct n as [|n]; [lia|]. cbn. rewrite Ha. f_equal.
  assert (G : forall l, (forall c, In c l -> okp k t0 m (en c)) ->
     flat_map (fun c => nodes t0 n (en c)) l = flat_map (fun c => nodes t0 m (en c)) l).
  { induction l as [|c l IHl]; intros Hl; [reflexivity|]. cbn. f_equal; [|apply IHl; intros; apply Hl; now right].
    apply nodes_fuel; [apply Hl; now left|lia]. }
  now apply G.
Qed.

(* ---- the run ---- *)
Context (thr : R) (Hthr : (0 < thr)%R).
Notation pmem := (@pmem (RNum tau)).
Definition tmok (st : pmem) : Prop :=
  length (pm_term st) = karity k /\ forall e, In e (pm_term st) -> ew e = c0.
Definition chd (t : table) (a : positive) (i : nat) : edge :=
  match heap t a with Some nd => nth i (nch nd) zeroE | None => zeroE end.
Definition lok (l : loc) (n : nat) : Prop :=
  match l with
  | LRoot => True
  | LCh (Node a) i => (i < karity k)%nat /\ exists nd, heap t0 a = Some nd /\ length (nch nd) = karity k /\ Z.of_nat n <= nv nd
  | LCh _ _ => False
  end.
Definition post (st : pmem) (l : loc) (e : edge) (n : nat) (num : C) (st' : pmem) : Prop :=
  (exists e', getl st' l = Some e' /\ zch e e' /\
    (forall ix, (Cmod (Cmult num (val k (pm_tab st) n e ix)) < thr)%R -> val k (pm_tab st') n e' ix = RtoC 0) /\
    (NoDup (nodes t0 n (en e)) -> forall ix, (thr <= Cmod (Cmult num (val k (pm_tab st) n e ix)))%R ->
       val k (pm_tab st') n e' ix = val k (pm_tab st) n e ix)) /\
  zle (pm_tab st) (pm_tab st') /\ tmok st' /\
  (l <> LRoot -> pm_root st' = pm_root st) /\
  (forall b, ~ In b (nodes t0 n (en e)) -> (forall i, l <> LCh (Node b) i) -> heap (pm_tab st') b = heap (pm_tab st) b) /\
  (forall b j i, l = LCh (Node b) j -> i <> j -> chd (pm_tab st') b i = chd (pm_tab st) b i).

Lemma small_spec (w : C) : small thr w = true <-> (Cmod w < thr)%R.
Proof.
  unfold small. cbn [nltb nsqrt RNum]. rewrite norm2_Cmod. rewrite sqrt_pow2 by apply Cmod_ge_0. apply Rltb_true.
Qed.
Lemma small_false (w : C) : small thr w = false -> (thr <= Cmod w)%R.
Proof. intros H. destruct (Rle_lt_dec thr (Cmod w)) as [|Hl]; auto. apply small_spec in Hl. congruence. Qed.

Lemma getl_chd st a nd i : heap t0 a = Some nd -> length (nch nd) = karity k -> zle t0 (pm_tab st) -> (i < karity k)%nat ->
  getl st (LCh (Node a) i) = Some (chd (pm_tab st) a i).
Proof.
  intros Ha Hl Hz Hi. destruct (Hz a nd Ha) as (nd' & H' & _ & F). cbn. unfold chd. rewrite H'.
  apply nth_error_nth'. rewrite (F2_len _ _ F). lia.
Qed.
Lemma chd_zle t t' a i : zle t t' -> heap t a <> None -> zch (chd t a i) (chd t' a i).
Proof.
  intros Hz Ha. unfold chd. destruct (heap t a) as [nd|] eqn:E; [|congruence].
  destruct (Hz a nd E) as (nd' & -> & _ & F). now apply F2_nth.
Qed.

(* writing zero through the reference *)
Lemma setl_post st l e n num : zle t0 (pm_tab st) -> tmok st -> getl st l = Some e -> lok l n -> okp k t0 n (en e) ->
  (Cmod (Cmult num (ew e)) < thr)%R ->
  (forall ix, (Cmod (Cmult num (val k (pm_tab st) n e ix)) <= Cmod (Cmult num (ew e)))%R) ->
  exists st', setl st l zeroE = Some st' /\ post st l e n num st'.
Proof.
  intros Hz Ht Hg Hl Hok Hs Hle.
  assert (Hex : forall ix t', (thr <= Cmod (Cmult num (val k (pm_tab st) n e ix)))%R -> val k t' n zeroE ix = val k (pm_tab st) n e ix).
  { intros ix t' Hx. specialize (Hle ix). lra. }
  destruct l as [|p i].
  - cbn. eexists. split; [reflexivity|]. split; [|split; [|split; [|split; [|split]]]].
    + exists zeroE. split; [reflexivity|]. split; [now right|]. split; [intros; apply (val_zeroE tau)|]. intros _ ix Hx. now apply Hex.
    + apply zle_refl.
    + exact Ht. + intros H; now elim H. + reflexivity. + discriminate.
  - destruct p as [| |a]; cbn in Hl; try contradiction.
    destruct Hl as (Hi & nd & Ha & Hlen & Hn). destruct (Hz a nd Ha) as (nd' & H' & E' & F').
    cbn. rewrite H'. eexists. split; [reflexivity|].
    assert (Hlen' : length (nch nd') = karity k) by (rewrite (F2_len _ _ F'); exact Hlen).
    split; [|split; [|split; [|split; [|split]]]].
    + exists zeroE. split; [cbn; rewrite hupd_same; cbn; apply upd_nth_same; lia|].
      split; [now right|]. split; [intros; apply (val_zeroE tau)|]. intros _ ix Hx. now apply Hex.
    + intros b nb Hb. cbn. destruct (Pos.eq_dec a b) as [->|Hne].
      * rewrite hupd_same. rewrite H' in Hb. injection Hb as <-. eexists. split; [reflexivity|]. split; [reflexivity|]. apply F2_upd.
      * rewrite hupd_other by exact Hne. exists nb. repeat split; auto. apply F2_refl.
    + exact Ht. + reflexivity.
    + intros b _ Hb. cbn. rewrite hupd_other; [reflexivity|]. intros <-. now elim (Hb i).
    + intros b j i' Hq Hij. injection Hq as <- <-. unfold chd. cbn. rewrite hupd_same, H'. cbn.
      destruct (nth_error (nch nd') i') as [x|] eqn:Ex.
      * rewrite (nth_error_nth _ _ _ Ex). apply nth_error_nth. now rewrite upd_nth_other by congruence.
      * apply nth_error_None in Ex. rewrite !nth_overflow by (rewrite ?upd_nth_len; lia). reflexivity.
Qed.

Definition runs_post (f : nat) : Prop := forall l st e n num, (n + 2 <= f)%nat -> zle t0 (pm_tab st) -> tmok st ->
  getl st l = Some e -> lok l n -> okp k t0 n (en e) ->
  exists c st', prune_go k f thr num l st = Some (c, st') /\ post st l e n num st'.

Lemma tm_kids f cur l e : (1 <= f)%nat -> en e = Term -> forall is st, tmok st -> getl st l = Some e ->
  (match l with LCh Term _ => False | _ => True end) -> (forall i, In i is -> (i < karity k)%nat) ->
  exists c st', prune_kids (prune_go k f thr cur) l is st = Some (c, st') /\ tmok st' /\
    pm_root st' = pm_root st /\ pm_tab st' = pm_tab st.
Proof.
  intros Hf He. induction is as [|i is IH]; intros st Ht Hg Hl Hi; cbn.
  - eexists _, st. split; [reflexivity|]. auto.
  - rewrite Hg, He. destruct (nth_error (pm_term st) i) as [x|] eqn:Ex.
    2:{ apply nth_error_None in Ex. specialize (Hi i (or_introl eq_refl)). destruct Ht. lia. }
    set (st1 := PM (pm_root st) (pm_tab st) (upd_nth i zeroE (pm_term st))).
    assert (Hgo : prune_go k f thr cur (LCh Term i) st = Some (1, st1)).
    { destruct f as [|f]; [lia|]. cbn [prune_go getl]. rewrite Ex. rewrite (Logic.proj2 Ht x (nth_error_In _ _ Ex)).
      assert (Hs : small thr (cmul cur c0) = true).
      { apply small_spec. rewrite cmul_C. change (@c0 (RNum tau)) with (RtoC 0). rewrite Cmult_0_r, Cmod_0. exact Hthr. }
      rewrite Hs. reflexivity. }
    rewrite Hgo.
    assert (Ht1 : tmok st1).
    { split; cbn; [rewrite upd_nth_len; apply Ht|]. intros y Hy. apply In_nth_error in Hy as (j & Hj).
      destruct (Nat.eq_dec i j) as [->|Hne].
      - rewrite upd_nth_same in Hj by (apply nth_error_Some; congruence). injection Hj as <-. reflexivity.
      - rewrite upd_nth_other in Hj by exact Hne. apply (Logic.proj2 Ht). eapply nth_error_In; eauto. }
    assert (Hg1 : getl st1 l = Some e) by (destruct l as [|[| |a] j]; auto; destruct Hl).
    destruct (IH st1 Ht1 Hg1 Hl) as (c & st' & -> & A & B & D); [intros; apply Hi; now right|].
    eexists _, st'. split; [reflexivity|]. auto.
Qed.

Lemma node_kids f cur l e n a nd m : runs_post f -> (m + 2 <= f)%nat -> (m < n)%nat -> en e = Node a -> lok l n ->
  heap t0 a = Some nd -> nv nd = Z.of_nat m -> length (nch nd) = karity k -> (forall c, In c (nch nd) -> okp k t0 m (en c)) ->
  let kn := fun i => nodes t0 m (en (nth i (nch nd) zeroE)) in
  forall is st, NoDup is -> (forall i, In i is -> (i < karity k)%nat) ->
  getl st l = Some e -> zle t0 (pm_tab st) -> tmok st ->
  exists c st', prune_kids (prune_go k f thr cur) l is st = Some (c, st') /\
    getl st' l = Some e /\ zle (pm_tab st) (pm_tab st') /\ tmok st' /\ pm_root st' = pm_root st /\
    (forall b, b <> a -> (forall i, In i is -> ~ In b (kn i)) -> heap (pm_tab st') b = heap (pm_tab st) b) /\
    (forall i, ~ In i is -> chd (pm_tab st') a i = chd (pm_tab st) a i) /\
    (forall i ix, In i is -> (Cmod (Cmult cur (val k (pm_tab st) m (chd (pm_tab st) a i) ix)) < thr)%R ->
       val k (pm_tab st') m (chd (pm_tab st') a i) ix = RtoC 0) /\
    (NoDup (flat_map kn is) -> forall i ix, In i is ->
       (thr <= Cmod (Cmult cur (val k (pm_tab st) m (chd (pm_tab st) a i) ix)))%R ->
       val k (pm_tab st') m (chd (pm_tab st') a i) ix = val k (pm_tab st) m (chd (pm_tab st) a i) ix).
Proof.
  intros IHf Hmf Hmn He Hlok Ha Hv Hlen Hc kn.
  assert (Hkid : forall t i, zle t0 t -> okp k t0 m (en (chd t a i))).
  { intros t i Hz. assert (H' := chd_zle t0 t a i Hz ltac:(rewrite Ha; discriminate)). unfold chd at 1 in H'. rewrite Ha in H'.
    destruct H' as [->| ->]; [|now left]. destruct (nth_in_or_default i (nch nd) zeroE) as [Hi| ->]; [now apply Hc|now left]. }
  assert (Hkn : forall t i b, zle t0 t -> In b (nodes t0 m (en (chd t a i))) -> In b (kn i)).
  { intros t i b Hz Hb. assert (H' := chd_zle t0 t a i Hz ltac:(rewrite Ha; discriminate)). unfold chd at 1 in H'. rewrite Ha in H'.
    destruct H' as [E'|E']; rewrite E' in Hb; [exact Hb|destruct m; destruct Hb]. }
  assert (Hlev : forall i b nb, In b (kn i) -> heap t0 b = Some nb -> nv nb < Z.of_nat m).
  { intros i b nb Hb Hh. eapply nodes_level; [|exact Hb|exact Hh].
    destruct (nth_in_or_default i (nch nd) zeroE) as [Hi| ->]; [now apply Hc|now left]. }
  assert (Hake : forall i, ~ In a (kn i)) by (intros i Hi; specialize (Hlev i a nd Hi Ha); lia).
  induction is as [|i is IH]; intros st Hnd Hi Hg Hz Ht.
  { exists 0, st. split; [reflexivity|]. repeat split; auto; try apply Ht; try contradiction. apply zle_refl. }
  cbn [prune_kids]. rewrite Hg, He. inversion Hnd as [|? ? Hni Hnd']. subst.
  assert (Hik : (i < karity k)%nat) by (apply Hi; now left).
  destruct (IHf (LCh (Node a) i) st (chd (pm_tab st) a i) m cur Hmf Hz Ht (getl_chd st a nd i Ha Hlen Hz Hik)
     ltac:(cbn; split; [exact Hik|]; exists nd; repeat split; auto; lia) (Hkid _ i Hz))
    as (c1' & st1 & E1 & (e1 & G1 & Zc1 & V1 & X1) & Z1 & T1 & R1 & F1 & S1).
  rewrite E1. pose proof (zle_trans _ _ _ Hz Z1) as Hz1.
  rewrite (getl_chd st1 a nd i Ha Hlen Hz1 Hik) in G1. injection G1 as <-.
  assert (Hg1 : getl st1 l = Some e).
  { destruct l as [|[| |b] j]; cbn in Hlok; try contradiction.
    - rewrite <- Hg. cbn. f_equal. apply R1. discriminate.
    - destruct Hlok as (Hj & nb & Hb & Hlb & Hlv). rewrite <- Hg. cbn. rewrite F1; [reflexivity| |].
      + intros Hin. apply (Hkn _ _ _ Hz) in Hin. specialize (Hlev _ _ _ Hin Hb). lia.
      + intros j' Hq. injection Hq as -> ->. rewrite Hb in Ha. injection Ha as <-. lia. }
  destruct (IH st1 Hnd' ltac:(intros; apply Hi; now right) Hg1 Hz1 T1)
    as (c2 & st2 & E2 & G2 & Z2 & T2 & R2 & F2 & S2 & V2 & X2).
  rewrite E2. exists (c1' + c2), st2. split; [reflexivity|].
  pose proof (zle_trans _ _ _ Hz1 Z2) as Hz2.
  split; [exact G2|]. split; [eapply zle_trans; eauto|]. split; [exact T2|].
  split; [rewrite R2; apply R1; discriminate|].
  split; [|split; [|split]].
  - intros b Hb Hn. rewrite F2; [|exact Hb|intros; apply Hn; now right]. apply F1.
    + intros Hin. apply (Hkn _ _ _ Hz) in Hin. now elim (Hn i (or_introl eq_refl)).
    + intros j Hq. congruence.
  - intros j Hj. rewrite S2 by (intros Hx; apply Hj; now right). apply (S1 a i j eq_refl). intros ->. apply Hj. now left.
  - intros j ix [<-|Hj] Hs.
    + rewrite S2 by exact Hni. specialize (V1 ix Hs).
      destruct (val_zle m (pm_tab st1) (pm_tab st2) (chd (pm_tab st1) a i) (chd (pm_tab st1) a i) ix Hz1 Z2 (Hkid _ i Hz1) (or_introl eq_refl)) as [->| ->]; [exact V1|reflexivity].
    + assert (Hji : j <> i) by (intros ->; contradiction).
      destruct (val_zle m (pm_tab st) (pm_tab st1) (chd (pm_tab st) a j) (chd (pm_tab st1) a j) ix Hz Z1 (Hkid _ j Hz)
        ltac:(rewrite (S1 a i j eq_refl Hji); now left)) as [Eq|Eq].
      * apply V2; auto. now rewrite Eq.
      * apply V2; auto. rewrite Eq, Cmult_0_r, Cmod_0. exact Hthr.
  - intros Hdup. cbn in Hdup. destruct (nd_app _ _ _ Hdup) as (Hdup1 & Hdup2 & Hd').
    assert (Hdisj : forall b j, In j is -> In b (kn i) -> ~ In b (kn j)).
    { intros b j Hj Hb Hb'. apply (Hd' b Hb). apply in_flat_map; eauto. }
    intros j ix [<-|Hj] Hs.
    + rewrite S2 by exact Hni.
      assert (Hnd1 : NoDup (nodes t0 m (en (chd (pm_tab st) a i)))).
      { assert (H' := chd_zle t0 (pm_tab st) a i Hz ltac:(rewrite Ha; discriminate)). unfold chd at 1 in H'. rewrite Ha in H'.
        destruct H' as [->| ->]; [exact Hdup1|]. destruct m; constructor. }
      rewrite <- (X1 Hnd1 ix Hs). apply val_frame; auto.
      intros b Hb. apply (Hkn _ _ _ Hz1) in Hb. apply F2; [intros ->; now elim (Hake i)|].
      intros j Hj. now apply Hdisj.
    + assert (Hji : j <> i) by (intros ->; contradiction).
      assert (Eq : val k (pm_tab st1) m (chd (pm_tab st1) a j) ix = val k (pm_tab st) m (chd (pm_tab st) a j) ix).
      { rewrite (S1 a i j eq_refl Hji). apply val_frame; auto. intros b Hb. apply F1.
        - intros Hin. apply (Hkn _ _ _ Hz) in Hin, Hb. now elim (Hdisj b j Hj).
        - intros j' Hq. injection Hq as -> ->. apply (Hkn _ _ _ Hz) in Hb. now elim (Hake j). }
      rewrite <- Eq. apply X2; auto. now rewrite Eq.
Qed.

Lemma seq_nth_all (l : list edge) : flat_map (fun i => nodes t0 0 (en (nth i l zeroE))) (seq 0 (length l)) = [].
Proof. induction (seq 0 (length l)); auto. Qed.
Lemma flat_map_seq {B} (g : edge -> list B) (l : list edge) :
  flat_map (fun i => g (nth i l zeroE)) (seq 0 (length l)) = flat_map g l.
Proof.
  induction l as [|x l IH]; [reflexivity|]. cbn [length seq flat_map nth]. f_equal.
  rewrite <- seq_shift. rewrite <- IH. clear. induction (seq 0 (length l)) as [|y r IHr]; [reflexivity|]. cbn. now rewrite IHr.
Qed.

(* moduli in a zeroed table are bounded by the weight of the edge *)
Lemma val_bound n t e ix : zle t0 t -> okp k t0 n (en e) -> (Cmod (val k t n e ix) <= Cmod (ew e))%R.
Proof.
  intros Hz Hok. destruct (val_zle n t0 t e e ix (zle_refl _) Hz Hok (or_introl eq_refl)) as [->| ->].
  - now apply val_le1'.
  - rewrite Cmod_0. apply Cmod_ge_0.
Qed.

Lemma prune_runs f : runs_post f.
Proof.
  induction f as [|f IH]; intros l st e n num Hf Hz Ht Hg Hlok Hok; [lia|].
  cbn [prune_go]. rewrite Hg. rewrite cmul_C.
  assert (Hle : forall ix, (Cmod (Cmult num (val k (pm_tab st) n e ix)) <= Cmod (Cmult num (ew e)))%R).
  { intros ix. rewrite !Cmod_mult. apply Rmult_le_compat_l; [apply Cmod_ge_0|]. now apply val_bound. }
  destruct (@small (RNum tau) thr (Cmult num (ew e))) eqn:Hs.
  - apply small_spec in Hs. destruct (setl_post st l e n num Hz Ht Hg Hlok Hok Hs Hle) as (st' & -> & Hp). eauto.
  - apply small_false in Hs.
    destruct e as [w p]. cbn [ew en] in *. destruct p as [| |a].
    + exfalso. eapply (okp_null tau); eauto.
    + destruct (tm_kids f (Cmult num w) l (E w Term) ltac:(lia) eq_refl (seq 0 (karity k)) st Ht Hg) as (c & st' & -> & T' & R' & B').
      * destruct l as [|[| |b] j]; auto.
      * intros i Hi. apply in_seq in Hi. lia.
      * exists c, st'. split; [reflexivity|].
        assert (Hg' : getl st' l = Some (E w Term)).
        { rewrite <- Hg. destruct l as [|[| |b] j]; cbn in *; try contradiction; [now rewrite R'|now rewrite B']. }
        split; [|rewrite B'; repeat split; auto; try apply T'; try apply zle_refl].
        exists (E w Term). split; [exact Hg'|]. split; [now left|]. rewrite B'. split; [|auto].
        intros ix Hx. unfold val, Wf.val in Hx |- *. cbn [ew en] in Hx |- *.
        destruct (valp_term_01 (pm_tab st) n ix) as [Ev|Ev]; rewrite Ev in Hx |- *; [ring|]. rewrite Cmult_1_r in Hx. lra.
    + destruct (okp_S k t0 n a HT Hok) as (nd & m & Hr & Hv & Hm & HK & Hlen & Hc).
      pose proof (Logic.proj1 Hr) as Ha.
      destruct (node_kids f (Cmult num w) l (E w (Node a)) n a nd m IH ltac:(lia) Hm eq_refl Hlok Ha Hv Hlen Hc (seq 0 (karity k)) st
        (seq_NoDup _ _) ltac:(intros i Hi; apply in_seq in Hi; lia) Hg Hz Ht)
        as (c & st' & E' & G' & Z' & T' & R' & F' & S' & V' & X').
      rewrite E'. exists c, st'. split; [reflexivity|].
      pose proof (zle_trans _ _ _ Hz Z') as Hz'.
      pose proof (nodes_node n a nd m Hok Ha Hv Hm Hc) as Hnodes.
      assert (Hval : forall ix, exists sc, (sc = RtoC 0 \/ sc = RtoC 1) /\
         val k (pm_tab st) n (E w (Node a)) ix = Cmult w (Cmult sc (val k (pm_tab st) m (chd (pm_tab st) a (ix m)) ix)) /\
         val k (pm_tab st') n (E w (Node a)) ix = Cmult w (Cmult sc (val k (pm_tab st') m (chd (pm_tab st') a (ix m)) ix))).
      { intros ix. destruct (valp_down n a nd m ix Ha Hv Hm) as (sc & Hsc & Hd). exists sc. split; [exact Hsc|].
        change (val k (pm_tab st) n (E w (Node a)) ix) with (Cmult w (valp k (pm_tab st) n (Node a) ix)).
        change (val k (pm_tab st') n (E w (Node a)) ix) with (Cmult w (valp k (pm_tab st') n (Node a) ix)).
        destruct (Hz a nd Ha) as (n1 & H1 & _). destruct (Hz' a nd Ha) as (n2 & H2 & _).
        rewrite (Hd _ n1 Hz H1), (Hd _ n2 Hz' H2). unfold chd. rewrite H1, H2. split; reflexivity. }
      assert (Hout : forall j ix', ~ (j < karity k)%nat -> val k (pm_tab st) m (chd (pm_tab st) a j) ix' = RtoC 0 /\ val k (pm_tab st') m (chd (pm_tab st') a j) ix' = RtoC 0).
      { intros j ix' Hj. unfold chd. destruct (Hz a nd Ha) as (n1 & H1 & _ & L1). destruct (Hz' a nd Ha) as (n2 & H2 & _ & L2).
        rewrite H1, H2. rewrite !nth_overflow by (rewrite ?(F2_len _ _ L1), ?(F2_len _ _ L2); lia). split; apply (val_zeroE tau). }
      split; [|split; [exact Z'|split; [exact T'|split; [intros _; exact R'|split]]]].
      * exists (E w (Node a)). split; [exact G'|]. split; [now left|]. split.
        -- intros ix Hx. destruct (Hval ix) as (sc & Hsc & E1 & E2). rewrite E2. rewrite E1 in Hx.
           destruct (Nat.lt_ge_cases (ix m) (karity k)) as [Hlt|Hge]; [|destruct (Hout (ix m) ix ltac:(lia)) as [_ ->]; ring].
           destruct Hsc as [->| ->]; [ring|]. rewrite (V' (ix m) ix); [ring|apply in_seq; lia|].
           rewrite Cmult_1_l in Hx. now rewrite <- Cmult_assoc.
        -- intros Hnd ix Hx. cbn [en] in Hnd. rewrite Hnodes in Hnd. inversion Hnd as [|? ? _ Hnd']. subst.
           destruct (Hval ix) as (sc & Hsc & E1 & E2). rewrite E2. rewrite E1 in Hx |- *.
           destruct (Nat.lt_ge_cases (ix m) (karity k)) as [Hlt|Hge]; [|destruct (Hout (ix m) ix ltac:(lia)) as [-> ->]; ring].
           destruct Hsc as [->| ->]; [ring|]. f_equal. f_equal. apply X'; [|apply in_seq; lia|].
           ++ rewrite <- Hlen. rewrite (flat_map_seq (fun c => nodes t0 m (en c)) (nch nd)). exact Hnd'.
           ++ rewrite Cmult_1_l in Hx. now rewrite <- Cmult_assoc.
      * intros b Hb Hnl. cbn [en] in Hb. rewrite Hnodes in Hb. apply F'.
        -- intros ->. apply Hb. now left.
        -- intros i Hi Hin. apply Hb. right. apply in_flat_map. exists (nth i (nch nd) zeroE). split; [|exact Hin].
           apply nth_In. apply in_seq in Hi. lia.
      * intros b j i -> Hij. cbn in Hlok. destruct Hlok as (Hj & nb & Hb & Hlb & Hlv). unfold chd.
        rewrite F'; [reflexivity| |].
        -- intros ->. rewrite Hb in Ha. injection Ha as <-. lia.
        -- intros i' Hi' Hin. assert (Hlt : nv nb < Z.of_nat m).
           { eapply nodes_level; [|exact Hin|exact Hb]. apply Hc. apply nth_In. apply in_seq in Hi'. lia. }
           lia.
Qed.
End Zero.

(* ---- reading a zeroed table ---- *)
Lemma fillVector_zle t0 s : TInv KV t0 -> zle t0 (tb s KV) -> forall n e row w m, wfe KV t0 n e ->
  exists m', fillVector s n e row w m = Some m' /\
    forall j, m' j = if inblk n row j then Cmult w (val KV (tb s KV) n e (nbix j)) else m j.
Proof.
  intros HT Hz. induction n as [|n IH]; intros e row w m He; cbn [fillVector].
  - assert (Hp : en e = Term) by (destruct He as [h|[_ h]]; auto). rewrite Hp. cbn [is_term].
    eexists. split; [reflexivity|]. intros j. unfold vupd. rewrite inblk_0. destruct (row =? j)%N; auto.
    unfold Wf.val. rewrite (cmul_C tau). change (Wf.valp tau KV (tb s KV) 0 (en e) (nbix j)) with (RtoC 1). toC. ring.
  - destruct (is_term (en e)) eqn:Ht.
    + assert (Hp : en e = Term) by (destruct (en e); (discriminate Ht || auto)).
      assert (Hw : ew e = c0).
      { destruct He as [(a & nd & h & _)|[h _]]; auto. rewrite Hp in h. discriminate. }
      eexists. split; [reflexivity|]. intros j. rewrite vfill_spec, N.shiftl_mul_pow2, <- inblk_range.
      destruct (inblk (S n) row j); auto. rewrite (val_zw tau) by auto. rewrite Hw, (cmul_C tau).
      change (@c0 (RNum tau)) with (RtoC 0). toC. ring.
    + destruct He as [(a & nd & Hp & Hr & Hv)|[_ h]]; [|rewrite h in Ht; discriminate].
      pose proof (reg_ok tau _ _ _ _ HT Hr) as Hok.
      destruct (Hz a nd (Logic.proj1 Hr)) as (nd' & Hh & Hv' & HF).
      rewrite Hp. unfold readn. rewrite Hh.
      pose proof (no_len _ _ _ _ Hok) as Hl.
      assert (Hw0 : forall c, In c (nch nd) -> wfe KV t0 n c).
      { intros c Hc. pose proof (no_wf _ _ _ _ Hok c Hc) as h. now rewrite Hv, Nat2Z.id in h. }
      assert (Hw : forall c, In c (nch nd') -> wfe KV t0 n c).
      { intros c Hc. apply In_nth_error in Hc as (i & Hi). apply (nth_error_nth _ _ zeroE) in Hi.
        pose proof (F2_nth _ _ i HF) as Hx. rewrite Hi in Hx. destruct Hx as [->| ->]; [|apply (wfe_zero tau)].
        destruct (nth_in_or_default i (nch nd) zeroE) as [H'| ->]; [now apply Hw0|apply (wfe_zero tau)]. }
      pose proof (F2_len _ _ HF) as Hl'. rewrite Hl in Hl'. cbn in Hl'.
      destruct (nch nd') as [|c0' [|c1' [|]]] eqn:Hch; try discriminate Hl'.
      cbn [nth].
      replace (N.shiftl row 1) with (2 * row)%N by (rewrite N.shiftl_mul_pow2; change (2 ^ 1)%N with 2%N; lia).
      destruct (IH c0' (2 * row)%N (cmul (ew e) w) m) as (m1 & -> & H1); [apply Hw; cbn; auto|].
      destruct (IH c1' (2 * row + 1)%N (cmul (ew e) w) m1) as (m2 & -> & H2); [apply Hw; cbn; auto|].
      eexists. split; [reflexivity|]. intros j. rewrite H2, H1, inblk_S.
      assert (Hval : val KV (tb s KV) (S n) e (nbix j) =
        Cmult (ew e) (val KV (tb s KV) n (nth (nbix j n) (nch nd') zeroE) (nbix j))).
      { unfold Wf.val at 1. rewrite Hp. cbn [Wf.valp]. rewrite Hh, Hv', Hv, Z.eqb_refl. reflexivity. }
      rewrite Hval, Hch. rewrite (nbix_bit j n). rewrite (cmul_C tau (ew e) w).
      destruct (N.testbit j (N.of_nat n)) eqn:Hb; cbn [nth].
      * destruct (inblk n (2 * row + 1) j); [toC; ring|].
        destruct (inblk n (2 * row) j) eqn:Hi; auto. apply inblk_not in Hi. congruence.
      * destruct (inblk n (2 * row + 1) j) eqn:Hi; [apply inblk_not1 in Hi; congruence|].
        destruct (inblk n (2 * row) j); [toC; ring|auto].
Qed.
Lemma getVector_zle t0 s n e : TInv KV t0 -> zle t0 (tb s KV) -> wfp KV t0 n (en e) -> (1 <= n <= 30)%nat ->
  getVector s e = Some (map (fun i => val KV (tb s KV) n e (bix i)) (seq 0 (2 ^ n))).
Proof.
  intros HT Hz Hw Hn. destruct n as [|m]; [lia|]. pose proof Hw as Hw'. destruct Hw as (a & nd & Hp & Hr & Hv).
  destruct (Hz a nd (Logic.proj1 Hr)) as (nd' & Hh & Hv' & HF).
  unfold getVector. rewrite Hp. cbn [is_term]. unfold getVar, readn. rewrite Hh, Hv', Hv.
  replace (shift_ok (Z.of_nat m + 1)) with true by (unfold shift_ok; symmetry; apply andb_true_intro; split; [apply Z.leb_le|apply Z.ltb_lt]; lia).
  replace (Z.to_nat (Z.of_nat m + 1)) with (S m) by lia.
  destruct (fillVector_zle t0 s HT Hz (S m) e 0%N c1 (fun _ => c0) (or_introl Hw')) as (v & -> & Hs).
  f_equal. apply map_ext_in. intros i Hi. apply in_seq in Hi. rewrite Hs.
  replace (inblk (S m) 0 (N.of_nat i)) with true.
  - unfold nbix. rewrite Nat2N.id. change (@c1 (RNum tau)) with (RtoC 1). toC. ring.
  - symmetry. rewrite inblk_range. rewrite N.mul_0_l. apply andb_true_iff. split; [apply N.leb_le; lia|].
    apply N.ltb_lt. lia.
Qed.
Lemma reads_zle t0 s n e : TInv KV t0 -> zle t0 (tb s KV) -> (1 <= n)%nat -> wfe KV t0 n e ->
  reads_v tau s n e (vecof tau s n e).
Proof.
  intros HT Hz Hn Hw. split; [apply veq_refl|]. split.
  - intros Ht i Hi. unfold vecof, vecF. destruct (wfe_cases_V tau _ _ _ Hw Hn) as [[_ H1]| ->].
    + rewrite Ht in H1. discriminate.
    + unfold Wf.val. cbn [ew]. change (ew (@zeroE (RNum tau))) with (RtoC 0). ring.
  - intros H30 Ht. pose proof (wfp_nt tau _ _ _ Hw Ht) as Hp.
    pose proof (getVector_zle t0 s n e HT Hz Hp ltac:(lia)) as Hg.
    eexists. split; [exact Hg|]. split; [now rewrite map_length, seq_length|].
    intros i Hi. unfold vof, vecof, vecF.
    rewrite nth_indep with (d' := val KV (tb s KV) n e (bix 0)) by (rewrite map_length, seq_length; exact Hi).
    rewrite (map_nth (fun i => val KV (tb s KV) n e (bix i))), seq_nth by exact Hi. reflexivity.
Qed.

(* ---- C49 ---- *)
(* the state of the process after prune: the nodes were changed in place *)
Definition after (s : state) (st : @pmem (RNum tau)) : state := set_tb s KV (pm_tab st).
(* the vector with the amplitudes below thr replaced by 0 *)
Definition cut (thr : R) (v : vector) : vector := fun i => if Rltb (Cmod (v i)) thr then RtoC 0 else v i.
(* the children of the static terminal node have weight 0 (start up, and after
   every prune) *)
Definition term_zero (tm : list edge) : Prop := length tm = 2%nat /\ forall e, In e tm -> ew e = c0.
Lemma term_zero_init : term_zero (term_init KV).
Proof. split; [reflexivity|]. intros e [<-|[<-|[]]]; reflexivity. Qed.

Lemma prune_call s hs n e v thr tm : reachable (s, hs) -> In (H KV n e) hs -> reads_v tau s n e v -> (0 < thr)%R -> term_zero tm ->
  exists cnt st, prune KV e thr (tb s KV) tm = Some (cnt, st) /\ term_zero (pm_term st) /\
    zle (tb s KV) (pm_tab st) /\ zch e (pm_root st) /\ wfe KV (tb s KV) n e /\ (1 <= n)%nat /\
    reads_v tau (after s st) n (pm_root st) (vecof tau (after s st) n (pm_root st)) /\
    (forall i, (i < 2 ^ n)%nat -> (Cmod (v i) < thr)%R -> vecof tau (after s st) n (pm_root st) i = RtoC 0) /\
    (unshared (tb s KV) n e -> forall i, (i < 2 ^ n)%nat -> (thr <= Cmod (v i))%R -> vecof tau (after s st) n (pm_root st) i = v i).
Proof.
  intros Hr Hi Hv Hthr Htm. pose proof (reach_Inv tau _ _ Hr) as HI. destruct (reach_V tau _ _ _ _ Hr Hi) as (A1 & A2 & A3).
  pose proof (inv_tb _ _ HI KV) as HT.
  pose proof (wfe_okp tau _ _ _ _ A3) as Hok.
  destruct (prune_runs KV (tb s KV) HT thr Hthr 103 LRoot (PM e (tb s KV) tm) e n (RtoC 1)) as (c & st & E1 & (e' & G & Zc & V & X) & Z & T & _);
    [unfold NQUBITS in A1; lia|apply zle_refl|exact Htm|reflexivity|exact I|exact Hok|].
  cbn in G. injection G as <-. exists c, st. split; [exact E1|]. split; [exact T|]. split; [exact Z|]. split; [exact Zc|]. split; [exact A3|]. split; [exact A2|].
  assert (Hz : zle (tb s KV) (tb (after s st) KV)) by exact Z.
  split; [|split].
  - apply (reads_zle (tb s KV)); auto. destruct Zc as [->| ->]; [exact A3|apply (wfe_zero tau)].
  - intros i Hl Hs. apply V. cbn. rewrite Cmult_1_l. rewrite <- (Logic.proj1 Hv i Hl) in Hs. exact Hs.
  - intros Hu i Hl Hs. rewrite <- (Logic.proj1 Hv i Hl) in Hs |- *. apply X; [exact Hu|]. cbn. rewrite Cmult_1_l. exact Hs.
Qed.

(* Every diagram: prune returns; afterwards every amplitude of every held vector
   state, passed or not, is what it was or 0, and those of the passed state that
   were below thr are 0.  Missing: amplitudes at or above thr, and the other
   states, may also become 0 (see the two refutations below). *)
Theorem C49_partial s hs n e v thr tm : reachable (s, hs) -> In (H KV n e) hs -> reads_v tau s n e v -> (0 < thr)%R -> term_zero tm ->
  exists cnt st v', prune KV e thr (tb s KV) tm = Some (cnt, st) /\ term_zero (pm_term st) /\
    reads_v tau (after s st) n (pm_root st) v' /\
    (forall i, (i < 2 ^ n)%nat -> v' i = v i \/ v' i = RtoC 0) /\
    (forall i, (i < 2 ^ n)%nat -> (Cmod (v i) < thr)%R -> v' i = RtoC 0) /\
    (forall m h w, In (H KV m h) hs -> reads_v tau s m h w ->
       exists w', reads_v tau (after s st) m h w' /\ forall i, (i < 2 ^ m)%nat -> w' i = w i \/ w' i = RtoC 0) /\
    (forall m h A, In (H KM m h) hs -> reads_m tau s m h A -> reads_m tau (after s st) m h A).
Proof.
  intros Hr Hi Hv Hthr Htm. pose proof (reach_Inv tau _ _ Hr) as HI. pose proof (inv_tb _ _ HI KV) as HT.
  destruct (prune_call s hs n e v thr tm Hr Hi Hv Hthr Htm) as (c & st & E1 & T & Z & Zc & Hw & Hn & R1 & V & X).
  exists c, st, (vecof tau (after s st) n (pm_root st)). split; [exact E1|]. split; [exact T|]. split; [exact R1|].
  split; [|split; [exact V|split]].
  - intros i Hl. rewrite <- (Logic.proj1 Hv i Hl).
    apply (val_zle KV (tb s KV) HT n (tb s KV) (pm_tab st) e (pm_root st) (bix i) (zle_refl _) Z (wfe_okp tau _ _ _ _ Hw) Zc).
  - intros m h w Hh Hrd. destruct (reach_V tau _ _ _ _ Hr Hh) as (B1 & B2 & B3).
    exists (vecof tau (after s st) m h). split; [apply (reads_zle (tb s KV)); auto|].
    intros i Hl. rewrite <- (Logic.proj1 Hrd i Hl).
    apply (val_zle KV (tb s KV) HT m (tb s KV) (pm_tab st) h h (bix i) (zle_refl _) Z (wfe_okp tau _ _ _ _ B3) (or_introl eq_refl)).
  - intros m h A Hh Hrd. destruct (reach_M tau _ _ _ _ Hr Hh) as (B1 & B3).
    assert (EM : tb (after s st) KM = tb s KM) by reflexivity.
    pose proof (getMatrix_spec tau s m h (inv_tb _ _ HI KM) B3) as G1.
    pose proof (getMatrix_spec tau (after s st) m h) as G2. rewrite EM in G2. specialize (G2 (inv_tb _ _ HI KM) B3).
    destruct Hrd as (M1 & M2). split; [exact M1|]. intros H30. destruct (M2 H30) as (l & Hl & M3).
    exists l. split; [|exact M3]. rewrite (G2 H30). rewrite <- Hl. symmetry. exact (G1 H30).
Qed.

(* A diagram in which no node is shared: exactly the small amplitudes vanish. *)
Theorem C49_unshared_partial s hs n e v thr tm : reachable (s, hs) -> In (H KV n e) hs -> reads_v tau s n e v -> (0 < thr)%R -> term_zero tm ->
  unshared (tb s KV) n e ->
  exists cnt st, prune KV e thr (tb s KV) tm = Some (cnt, st) /\ reads_v tau (after s st) n (pm_root st) (cut thr v).
Proof.
  intros Hr Hi Hv Hthr Htm Hu. 
  destruct (prune_call s hs n e v thr tm Hr Hi Hv Hthr Htm) as (c & st & E1 & T & Z & Zc & Hw & Hn & R1 & V & X).
  exists c, st. split; [exact E1|]. eapply (reads_v_veq tau); [|exact R1].
  intros i Hl. unfold cut. destruct (Rltb_spec (Cmod (v i)) thr) as [Hlt|Hge]; [now apply V|apply X; auto; lra].
Qed.

(* ---- C50 ---- *)
(* What comes back is the state without its root weight: v = ew e * u, and the
   loaded handle reads u (root weight 1).  Missing: the factor ew e. *)
Theorem C50_scaled_partial s hs n e v s2 hs2 i : reachable (s, hs) -> In (H KV n e) hs -> reads_v tau s n e v ->
  is_term (en e) = false -> reachable (s2, hs2) ->
  exists cs e' s3 u, save_binary s e = Some cs /\ load_binary i cs s2 = Some (e', s3) /\
    ew e' = c1 /\ veq n v (fun b => Cmult (ew e) (u b)) /\
    reads_v_upto tau (INR n * (2 * tau)) s3 n e' u /\ (tau = 0%R -> reads_v tau s3 n e' u) /\
    (forall m h w, In (H KV m h) hs2 -> reads_v tau s2 m h w -> reads_v tau s3 m h w).
Proof.
  intros Hr Hi Hv Hnt Hr2. pose proof (reach_Inv tau _ _ Hr) as HI. pose proof (reach_Inv tau _ _ Hr2) as I2.
  destruct (reach_V tau _ _ _ _ Hr Hi) as (A1 & A2 & A3).
  pose proof (wfe_okp tau _ _ _ _ A3) as Hok.
  assert (H101 : (n <= 101)%nat) by (unfold NQUBITS in A1; lia).
  destruct (roundtrip tau KV i false s n (en e) (tb s2 KV) (inv_tb _ _ HI KV) (inv_tb _ _ I2 KV) H101 Hok)
    as (j & cs & q & t3 & E1 & E2 & T3 & X3 & G); [discriminate|].
  pose proof (Inv_set_tb tau s2 KV t3 I2 T3 X3) as R3. pose proof (rel_inv _ _ _ R3) as I3.
  assert (Ht : tb (set_tb s2 KV t3) KV = t3) by reflexivity.
  set (u := vecof tau s n (@E (RNum tau) c1 (en e))).
  assert (Hw1 : wfe KV (tb s KV) n (@E (RNum tau) c1 (en e))) by (left; exact (wfp_nt tau _ _ _ A3 Hnt)).
  pose proof (reads_vecof tau s n _ HI A2 Hw1) as Hu1.
  exists cs, (@E (RNum tau) c1 q), (set_tb s2 KV t3), u.
  split; [unfold save_binary; now rewrite E1|]. split; [unfold load_binary; now rewrite E2|]. split; [reflexivity|].
  split.
  { intros b Hb. rewrite <- (Logic.proj1 Hv b Hb). unfold u, vecof, vecF, Wf.val. cbn [ew en].
    change (@c1 (RNum tau)) with (RtoC 1). now rewrite Cmult_1_l. }
  assert (Hu : reads_v_upto tau (1 * (INR n * (2 * tau))) (set_tb s2 KV t3) n (@E (RNum tau) c1 q) u).
  { eapply (keep_reads_v tau s); eauto; [lra| |].
    - rewrite Ht. eapply (good_keep tau _ _ _ _ (@E (RNum tau) c1 (en e))); [lra|exact G].
    - cbn [ew]. change (@c1 (RNum tau)) with (RtoC 1). rewrite Cmod_1. lra. }
  rewrite Rmult_1_l in Hu. split; [exact Hu|]. split.
  - intros H0. eapply (upto_0_v tau); [|exact Hu]. rewrite H0. ring.
  - intros m' h w Hin Hw. destruct (reach_V tau _ _ _ _ Hr2 Hin) as (B1 & B2 & B3).
    eapply (reads_v_veq tau); [exact (Logic.proj1 Hw)|]. rewrite <- (vecof_rel tau s2 _ m' h I2 R3 B3).
    apply (reads_vecof tau); auto. eapply (wfe_ext tau); [apply (rel_ext _ _ _ KV R3)|exact B3].
Qed.
End PruneP.
