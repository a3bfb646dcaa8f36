(* CacheP.v -- property C47: the operation caches return only what was stored. *)
From Coq Require Import Reals Lra ZArith Bool List Lia Arith.
From Verif Require Import Num State DD RNum Wf.
Import ListNotations.
Open Scope Z_scope.

Section CacheP.
Context (tau : R) {HTol : Tol tau}.
Let Htau : (0 <= tau < 1 / 2)%R := tol_ok.
#[local] Hint Extern 0 NumOps => exact (RNum tau) : typeclass_instances.
Context {CF : Cfg}.
Notation state := (@state (RNum tau)).
Notation edge := (@edge (RNum tau)).
Ltac toR := change (@num (RNum tau)) with R in *.

(* what was stored: kind of cache, thread, operands, result *)
Inductive cop := ASet (k : kind) (i : tid) (l r res : edge) | MSet (k : kind) (i : tid) (l r : ptr) (res : edge).

(* [history s h]: the caches of state s are the outcome of the stores h (newest
   first) since they were last cleared, in the middle of finds and of changes of
   everything but the caches *)
Inductive history : state -> list cop -> Prop :=
| h_init : history state_init []
| h_clear s h : history s h -> history (clear_caches s) []
| h_aset s h k i l r e s' : history s h -> aset k i l r e s = Some s' -> history s' (ASet k i l r e :: h)
| h_mset s h k i l r e s' : history s h -> mset k i l r e s = Some s' -> history s' (MSet k i l r e :: h)
| h_mfind s h k i l r e s' : history s h -> mfind k i l r s = Some (e, s') -> history s' h
| h_other s h s' : history s h -> ac s' = ac s -> mc s' = mc s -> history s' h.

(* the comparison of operands: same node, weights equal up to the tolerance *)
Definition near (a b : edge) : Prop :=
  en a = en b /\ (Rabs (fst (ew a) - fst (ew b)) <= tau)%R /\ (Rabs (snd (ew a) - snd (ew b)) <= tau)%R.

Lemma edge_eqb_near (a b : edge) : edge_eqb a b = true <-> near a b.
Proof.
  unfold edge_eqb, near, isequal. rewrite andb_true_iff, orb_true_iff, !andb_true_iff, ptr_eqb_eq. cbn.
  rewrite !Rleb_true, !Reqb_true. split.
  - intros [[[H1 H2]|[H1 H2]] H3]; [|tauto]. rewrite H1, H2, !Rminus_eq_0, Rabs_R0. tauto.
  - tauto.
Qed.
Lemma near_refl a : near a a.
Proof. unfold near. rewrite !Rminus_eq_0, Rabs_R0. tauto. Qed.

(* the invariant: every valid entry was stored *)
Definition hinv (s : state) (h : list cop) : Prop :=
  (forall i k lv key e, ac s i k lv key = Some e ->
     In (ASet k i (a_l e) (a_r e) (a_res e)) h \/ In (ASet k i (a_r e) (a_l e) (a_res e)) h) /\
  (forall i k lv key e, In e (mc s i k lv key) -> m_valid e = true -> In (MSet k i (m_l e) (m_r e) (m_res e)) h) /\
  (forall i k lv key, length (mc s i k lv key) = 4%nat) /\
  (forall i k lv key e, In e (mc s i k lv key) -> m_valid e = false -> m_res e = nullE).

Lemma in_upd_nth {A} (f : A -> A) : forall (l : list A) i x, In x (upd_nth i f l) -> In x l \/ exists y, nth_error l i = Some y /\ x = f y.
Proof.
  induction l as [|a l IH]; intros [|i] x Hx; cbn in *; try contradiction.
  - destruct Hx as [<-|Hx]; eauto.
  - destruct Hx as [<-|Hx]; auto. destruct (IH _ _ Hx) as [|(y & H1 & H2)]; eauto.
Qed.
Lemma upd_nth_length {A} (f : A -> A) : forall (l : list A) i, length (upd_nth i f l) = length l.
Proof. induction l; intros [|i]; cbn; auto. Qed.
Lemma upd_nth_nth {A} (f : A -> A) d : forall (l : list A) i, (i < length l)%nat -> nth i (upd_nth i f l) d = f (nth i l d).
Proof. induction l; intros [|i] Hi; cbn in *; try lia; auto. apply IHl. lia. Qed.

Lemma find_in k i lv key (s : state) l r j : mbucket_find (mc s i k lv key) l r = Some j ->
  let e := nth j (mc s i k lv key) ment_init in In e (mc s i k lv key) /\ m_valid e = true /\ m_l e = l /\ m_r e = r.
Proof.
  generalize (mc s i k lv key). intros es. revert j. induction es as [|e es IH]; intros j Hj; cbn in *; [discriminate|].
  destruct (m_valid e && ptr_eqb (m_l e) l && ptr_eqb (m_r e) r) eqn:E.
  - injection Hj as <-. apply andb_prop in E. destruct E as [E E3]. apply andb_prop in E. destruct E as [E1 E2].
    apply ptr_eqb_eq in E2, E3. cbn. auto.
  - destruct (mbucket_find es l r) as [j'|] eqn:E'; [|discriminate]. injection Hj as <-.
    destruct (IH _ eq_refl) as (H1 & H2 & H3 & H4). cbn. auto.
Qed.
Ltac key_case := match goal with |- context [if ?b then _ else _] => destruct b eqn:Ekey | H : context [if ?b then _ else _] |- _ => destruct b eqn:Ekey end.
Lemma keys_eq i i' k k' lv lv' key key' : Nat.eqb i i' && kind_eqb k k' && (lv =? lv') && (key =? key') = true ->
  i = i' /\ k = k' /\ lv = lv' /\ key = key'.
Proof.
  rewrite !andb_true_iff, Nat.eqb_eq, !Z.eqb_eq. intros [[[H1 H2] H3] H4]. repeat split; auto. destruct k, k'; auto; discriminate.
Qed.

Lemma hinv_set_mc s h i k lv key j f : hinv s h -> (forall y, In y (mc s i k lv key) -> m_valid (f y) = m_valid y /\ m_l (f y) = m_l y /\ m_r (f y) = m_r y /\ m_res (f y) = m_res y) ->
  hinv (set_mc s i k lv key (upd_nth j f (mc s i k lv key))) h.
Proof.
  intros (A & B & D & E) Hf. split; [exact A|]. split; [|split].
  - intros i' k' lv' key' e. cbn. destruct (_ && _) eqn:Ek; [|apply B]. apply keys_eq in Ek. destruct Ek as (<- & <- & <- & <-).
    intros He Hv. destruct (in_upd_nth _ _ _ _ He) as [H1|(y & H1 & ->)]; [eapply B; eauto|].
    apply nth_error_In in H1. destruct (Hf _ H1) as (F1 & F2 & F3 & F4). rewrite F2, F3, F4. eapply B; [exact H1|]. rewrite <- F1. exact Hv.
  - intros i' k' lv' key'. cbn. destruct (_ && _) eqn:Ek; [|apply D]. rewrite upd_nth_length. apply D.
  - intros i' k' lv' key' e. cbn. destruct (_ && _) eqn:Ek; [|apply E]. apply keys_eq in Ek. destruct Ek as (<- & <- & <- & <-).
    intros He Hv. destruct (in_upd_nth _ _ _ _ He) as [H1|(y & H1 & ->)]; [eapply E; eauto|].
    apply nth_error_In in H1. destruct (Hf _ H1) as (F1 & F2 & F3 & F4). rewrite F4. eapply E; [exact H1|]. rewrite <- F1. exact Hv.
Qed.

Lemma hinv_empty s : (ac s = fun _ _ _ _ => None) -> (mc s = fun _ _ _ _ => bucket_init) -> hinv s [].
Proof.
  intros Ha Hm. unfold hinv. rewrite Ha, Hm. repeat split; intros.
  - discriminate.
  - cbn in H. repeat (destruct H as [<-|H]; [discriminate|]). contradiction.
  - cbn in H. repeat (destruct H as [<-|H]; [reflexivity|]). contradiction.
Qed.
Lemma history_inv s h : history s h -> hinv s h.
Proof.
  induction 1 as [|s h Hh IH|s h k i l r e s' Hh IH Hs|s h k i l r e s' Hh IH Hs|s h k i l r e s' Hh IH Hs|s h s' Hh IH Ha Hm].
  - apply hinv_empty; reflexivity.
  - apply hinv_empty; reflexivity.
  - destruct IH as (A & B & D & E). unfold aset in Hs.
    destruct (aorder k l r s) as [[[lv a] b]|] eqn:Eo; [|discriminate]. destruct (level_ok lv); [|discriminate]. injection Hs as <-.
    split; [|split; [|split]].
    + intros i' k' lv' key' e'. cbn. destruct (_ && _) eqn:Ek.
      * apply keys_eq in Ek. destruct Ek as (<- & <- & <- & <-). intros Hx. injection Hx as <-. cbn.
        unfold aorder in Eo. destruct (getVar k (en l) s), (getVar k (en r) s); try discriminate.
        destruct (_ <? _); injection Eo as _ <- <-; auto.
      * intros Hx. destruct (A _ _ _ _ _ Hx); auto.
    + intros i' k' lv' key' e' H1 H2. right. eapply B; eauto.
    + exact D.
    + exact E.
  - destruct IH as (A & B & D & E). unfold mset in Hs.
    destruct (getVar KM l s) as [lv|] eqn:Eo; [|discriminate]. destruct (level_ok lv); [|discriminate]. injection Hs as <-.
    split; [|split; [|split]].
    + intros i' k' lv' key' e' Hx. destruct (A _ _ _ _ _ Hx); cbn; auto.
    + intros i' k' lv' key' e'. cbn [mc set_mc]. destruct (_ && _) eqn:Ek.
      * apply keys_eq in Ek. destruct Ek as (<- & <- & <- & <-). intros Hx Hv.
        destruct (in_upd_nth _ _ _ _ Hx) as [H1|(y & H1 & ->)]; [right; eapply B; eauto|]. cbn. auto.
      * intros Hx Hv. right. eapply B; eauto.
    + intros i' k' lv' key'. cbn [mc set_mc]. destruct (_ && _) eqn:Ek; [|apply D]. rewrite upd_nth_length. apply D.
    + intros i' k' lv' key' e'. cbn [mc set_mc]. destruct (_ && _) eqn:Ek; [|apply E].
      intros Hx Hv. destruct (in_upd_nth _ _ _ _ Hx) as [H1|(y & H1 & ->)]; [eapply E; eauto|]. discriminate Hv.
  - unfold mfind in Hs. destruct (getVar KM l s) as [lv|]; [|discriminate]. destruct (level_ok lv); [|discriminate].
    destruct (mbucket_find _ _ _) as [j|] eqn:Ef; [|injection Hs as _ <-; exact IH].
    destruct (getVar k _ s) as [v|]; [|discriminate].
    destruct (v =? -2); injection Hs as _ <-; apply hinv_set_mc; auto; cbn; auto.
  - destruct IH as (A & B & D & E). unfold hinv. rewrite Ha, Hm. auto.
Qed.

(* C47, addition cache: a hit is a result stored on this thread since the last
   clear, for operands equal to the query's up to the tolerance, in one of the
   two orders; otherwise the (null) miss edge is returned. *)
Theorem C47_add_find s h k i l r e : history s h -> afind k i l r s = Some e ->
  e = nullE \/ exists l' r', In (ASet k i l' r' e) h /\ ((near l' l /\ near r' r) \/ (near l' r /\ near r' l)).
Proof.
  intros Hh Hf. destruct (history_inv _ _ Hh) as (A & _). unfold afind in Hf.
  destruct (aorder k l r s) as [[[lv a] b]|] eqn:Eo; [|discriminate]. destruct (level_ok lv); [|discriminate].
  destruct (ac s i k lv _) as [x|] eqn:Ea; [|injection Hf as <-; auto].
  destruct (edge_eqb (a_l x) a && edge_eqb (a_r x) b) eqn:Eq; [|injection Hf as <-; auto].
  destruct (getVar k (en (a_res x)) s) as [v|]; [|discriminate]. destruct (v =? -2); injection Hf as <-; [auto|]. right.
  apply andb_prop in Eq. destruct Eq as [Q1 Q2]. apply edge_eqb_near in Q1, Q2.
  assert (Hab : (a = l /\ b = r) \/ (a = r /\ b = l)).
  { unfold aorder in Eo. destruct (getVar k (en l) s), (getVar k (en r) s); try discriminate.
    destruct (_ <? _); injection Eo as _ <- <-; auto. }
  destruct (A _ _ _ _ _ Ea) as [Hin|Hin]; eexists; eexists; (split; [exact Hin|]);
    destruct Hab as [[-> ->]|[-> ->]]; auto.
Qed.
(* C47, multiplication caches: the operands are identical pointers, in order *)
Theorem C47_mul_find s h k i l r e s' : history s h -> mfind k i l r s = Some (e, s') ->
  e = nullE \/ In (MSet k i l r e) h.
Proof.
  intros Hh Hs. destruct (history_inv _ _ Hh) as (_ & B & _).
  unfold mfind in Hs. destruct (getVar KM l s) as [lv|]; [|discriminate]. destruct (level_ok lv); [|discriminate].
  destruct (mbucket_find _ _ _) as [j|] eqn:Ef; [|injection Hs as <- _; auto].
  destruct (getVar k _ s) as [v|]; [|discriminate].
  destruct (find_in _ _ _ _ _ _ _ _ Ef) as (H1 & H2 & H3 & H4).
  destruct (v =? -2); injection Hs as <- _; [auto|]. right.
  pose proof (B _ _ _ _ _ H1 H2) as H5. rewrite H3, H4 in H5. exact H5.
Qed.
(* after a clear every find misses *)
Theorem C47_clear s h k i : history s h ->
  (forall l r e, afind k i l r (clear_caches s) = Some e -> e = nullE) /\
  (forall l r e s', mfind k i l r (clear_caches s) = Some (e, s') -> e = nullE).
Proof.
  intros Hh. apply h_clear in Hh. split.
  - intros l r e Hf. destruct (C47_add_find _ _ _ _ _ _ _ Hh Hf) as [|(l' & r' & [] & _)]; auto.
  - intros l r e s' Hf. destruct (C47_mul_find _ _ _ _ _ _ _ _ Hh Hf) as [|[]]; auto.
Qed.
(* the caches do cache: a find directly after the store returns the stored result *)
Theorem C47_add_hit s k i l r e s' v : aset k i l r e s = Some s' -> getVar k (en e) s = Some v -> v <> -2 ->
  afind k i l r s' = Some e.
Proof.
  unfold aset. destruct (aorder k l r s) as [[[lv a] b]|] eqn:Eo; [|discriminate].
  destruct (level_ok lv) eqn:El; [|discriminate]. intros Hs Hv Hn. injection Hs as <-.
  assert (Hrd : forall p x, getVar k p (set_ac s i k lv (hpair k a b mod NBUCKETS) x) = getVar k p s) by reflexivity.
  unfold afind, aorder. rewrite !Hrd. unfold aorder in Eo. rewrite Eo, El. cbn [ac set_ac].
  rewrite Nat.eqb_refl, !Z.eqb_refl. replace (kind_eqb k k) with true by (destruct k; reflexivity). cbn [andb a_l a_r a_res].
  rewrite !(proj2 (edge_eqb_near _ _) (near_refl _)). cbn [andb]. rewrite Hrd, Hv.
  destruct (Z.eqb_spec v (-2)); [contradiction|reflexivity].
Qed.
Lemma first_empty_lt : forall (es : list ment) j, first_empty es = Some j -> (j < length es)%nat.
Proof.
  induction es as [|e es IH]; intros j; cbn; [discriminate|]. destruct (is_null _); [intros Hj; injection Hj as <-; lia|].
  destruct (first_empty es) as [j'|]; [|discriminate]. intros Hj; injection Hj as <-. specialize (IH _ eq_refl). lia.
Qed.
Lemma min_picked_lt : forall (es : list ment) i best bp, (best < i)%nat -> (min_picked_from es i best bp < i + length es)%nat.
Proof.
  induction es as [|e es IH]; intros i best bp Hb; cbn; [lia|].
  destruct (_ <? _).
  - specialize (IH (S i) i (m_picked e)). lia.
  - specialize (IH (S i) best bp). lia.
Qed.
Lemma victim_lt (es : list ment) : es <> [] -> (victim es < length es)%nat.
Proof.
  intros Hne. unfold victim. destruct (first_empty es) eqn:E; [eapply first_empty_lt; eauto|].
  destruct es as [|e es]; [contradiction|]. pose proof (min_picked_lt es 1 0 (m_picked e)). cbn. lia.
Qed.
Lemma find_none_in (es : list ment) l r : (forall e, In e es -> m_valid e = true -> ~ (m_l e = l /\ m_r e = r)) -> mbucket_find es l r = None.
Proof.
  induction es as [|e es IH]; intros Hx; cbn; [reflexivity|].
  destruct (m_valid e && ptr_eqb (m_l e) l && ptr_eqb (m_r e) r) eqn:E.
  - exfalso. apply andb_prop in E. destruct E as [E E3]. apply andb_prop in E. destruct E as [E1 E2].
    apply ptr_eqb_eq in E2, E3. apply (Hx e (or_introl eq_refl) E1). auto.
  - rewrite IH; [reflexivity|]. intros e' He. apply Hx. now right.
Qed.
Lemma find_upd (x : ment) l r : m_valid x = true -> m_l x = l -> m_r x = r -> forall (es : list ment) j, (j < length es)%nat ->
  (forall e, In e es -> m_valid e = true -> ~ (m_l e = l /\ m_r e = r)) -> mbucket_find (upd_nth j (fun _ => x) es) l r = Some j.
Proof.
  intros X1 X2 X3. induction es as [|e es IH]; intros j Hj Hx; cbn in *; [lia|]. destruct j as [|j]; cbn.
  - rewrite X1, X2, X3. rewrite !(proj2 (ptr_eqb_eq _ _) eq_refl). reflexivity.
  - destruct (m_valid e && ptr_eqb (m_l e) l && ptr_eqb (m_r e) r) eqn:E.
    + exfalso. apply andb_prop in E. destruct E as [E E3]. apply andb_prop in E. destruct E as [E1 E2].
      apply ptr_eqb_eq in E2, E3. apply (Hx e (or_introl eq_refl) E1). auto.
    + rewrite IH; [reflexivity|lia|]. intros e' He. apply Hx. now right.
Qed.
Theorem C47_mul_hit s h k i l r e s' v : history s h -> (forall e', ~ In (MSet k i l r e') h) ->
  mset k i l r e s = Some s' -> getVar k (en e) s = Some v -> v <> -2 ->
  exists s'', mfind k i l r s' = Some (e, s'').
Proof.
  intros Hh Hno. destruct (history_inv _ _ Hh) as (_ & B & D & _). unfold mset.
  destruct (getVar KM l s) as [lv|] eqn:Eo; [|discriminate].
  destruct (level_ok lv) eqn:El; [|discriminate]. intros Hs Hv Hn. injection Hs as <-.
  set (key := hptr l mod NBUCKETS) in *. set (es := mc s i k lv key) in *.
  set (x := {| m_valid := true; m_l := l; m_r := r; m_res := e; m_picked := 1 |}).
  assert (Hrd : forall k' p y, getVar k' p (set_mc s i k lv key y) = getVar k' p s) by reflexivity.
  unfold mfind. rewrite Hrd, Eo, El. fold key. cbn [mc set_mc].
  rewrite Nat.eqb_refl, !Z.eqb_refl. replace (kind_eqb k k) with true by (destruct k; reflexivity). cbn [andb].
  assert (Hlt : (victim es < length es)%nat).
  { apply victim_lt. intros Hc. pose proof (D i k lv key) as Hd. fold es in Hd. rewrite Hc in Hd. discriminate. }
  rewrite (find_upd x l r eq_refl eq_refl eq_refl es _ Hlt).
  - rewrite (upd_nth_nth _ _ _ _ Hlt). cbn [x m_res]. rewrite Hrd, Hv.
    destruct (Z.eqb_spec v (-2)); [contradiction|]. eauto.
  - intros y Hy Hval [H1 H2]. pose proof (B _ _ _ _ _ Hy Hval) as Hin. rewrite H1, H2 in Hin. exact (Hno _ Hin).
Qed.

(* every step of every operation, on any thread, keeps such a history: the
   theorems above apply to all finds of all executions *)
Lemma some_inj {A} (x y : A) : Some x = Some y -> x = y.
Proof. congruence. Qed.
Theorem C47_steps_history c s c' s' h : history s h -> steps (Cfg_ok c s) (Cfg_ok c' s') -> exists h', history s' (h' ++ h).
Proof.
  intros Hh Hs. remember (Cfg_ok c s) as g eqn:Eg. remember (Cfg_ok c' s') as g' eqn:Eg'.
  revert c s h Hh Eg. induction Hs as [g|g g1 g2 H1 H2 IH]; intros c s h Hh Eg.
  - rewrite Eg in Eg'. injection Eg' as _ <-. exists []. exact Hh.
  - assert (H3 : forall c1 s1, g1 = Cfg_ok c1 s1 -> exists h', history s1 (h' ++ h)).
    { clear IH H2. revert c s Hh Eg. induction H1 as [i cc0 s0 g1 Ha|? ? ? ? ? ? ? IHs|? ? ? ? ? ? ? IHs| | |]; intros cq sq Hh Eg cq1 sq1 E1.
      { rewrite E1 in Ha. clear E1. revert Ha.
        injection Eg as -> ->. intros Ha. destruct cq; cbn in Ha; try discriminate; apply some_inj in Ha.
        + destruct (readn k p sq); [injection Ha as _ <-; now exists []|discriminate].
        + unfold intern in Ha. destruct (getNode i (tb sq k)) as [a t1]. destruct (lookup _ _ _ _ _) as [[p t2]|]; [|discriminate].
          injection Ha as _ <-. exists []. eapply h_other; eauto.
        + injection Ha as _ <-. exists []. unfold scratch. destruct (getNode i (tb sq k)) as [a t1]. eapply h_other; eauto.
        + destruct (afind k i l r sq); [injection Ha as _ <-; now exists []|discriminate].
        + destruct (aset k i l r res sq) eqn:E; [|discriminate]. injection Ha as _ <-. eexists [_]. eapply h_aset; eauto.
        + destruct (mfind k i l r sq) as [[e s2]|] eqn:E; [|discriminate]. injection Ha as _ <-. exists []. eapply h_mfind; eauto.
        + destruct (mset k i l r res sq) eqn:E; [|discriminate]. injection Ha as _ <-. eexists [_]. eapply h_mset; eauto. }
      1,2: injection Eg as _ E2; injection E1 as _ E3; rewrite <- E3; eapply IHs; [rewrite <- E2 in Hh; exact Hh|reflexivity|reflexivity].
      1,2: discriminate.
      injection Eg as _ <-. injection E1 as _ <-. now exists []. }
    destruct g1 as [c1 s1|].
    + destruct (H3 _ _ eq_refl) as (h1 & H4). destruct (IH Eg' _ _ _ H4 eq_refl) as (h2 & H5).
      exists (h2 ++ h1). now rewrite <- app_assoc.
    + exfalso. rewrite Eg' in H2. inversion H2 as [|? ? ? Hw]. inversion Hw.
Qed.
End CacheP.
