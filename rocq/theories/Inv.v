(* Inv.v -- the global invariant: tables, caches and the probability memo. *)
From Coq Require Import Reals Lra Psatz ZArith Bool List Lia.
From Coquelicot Require Import Complex.
From Verif Require Import Num State RNum Wf Sums Err.
Import ListNotations.
Open Scope Z_scope.

Definition rowix (ix : nat -> nat) : nat -> nat := fun l => Nat.div (ix l) 2.
Definition colix (ix : nat -> nat) : nat -> nat := fun l => Nat.modulo (ix l) 2.
(* matrix-vector and matrix-matrix product of denotations on n levels *)
Definition mvF (n : nat) (F G : (nat -> nat) -> C) (ix : nat -> nat) : C :=
  bsum n (fun k => Cmult (F (comb ix k)) (G k)).
Definition mmF (n : nat) (F G : (nat -> nat) -> C) (ix : nat -> nat) : C :=
  bsum n (fun k => Cmult (F (comb (rowix ix) k)) (G (comb k (colix ix)))).

Section Inv.
Context (tau : R) {HTol : Tol tau}.
Let Htau : (0 <= tau < 1 / 2)%R := tol_ok.
#[local] Hint Extern 0 NumOps => exact (RNum tau) : typeclass_instances.
Context {CF : Cfg}.
Notation table := (@table (RNum tau)).
Notation state := (@state (RNum tau)).
Notation edge := (@edge (RNum tau)).
Notation val := (val tau).
Notation valp := (valp tau).
Notation wfe := (wfe tau).
Notation wfp := (wfp tau).
Notation reg := (reg tau).
Notation TInv := (TInv tau).

(* e is well-formed at n levels and denotes F up to err *)
Definition dnt (k : kind) (t : table) (n : nat) (e : edge) (F : (nat -> nat) -> C) (err : R) : Prop :=
  wfe k t n e /\ forall ix, (Cmod (Cminus (val k t n e ix) (F ix)) <= err)%R.

(* squared norm of the sub-diagram *)
Definition psum (t : table) (n : nat) (p : ptr) : R :=
  rbsum n (fun k => (Cmod (valp KV t n p k) ^ 2)%R).

Definition add_ok (k : kind) (t : table) (lv : Z) (e : aent) : Prop :=
  match k with
  | KV => exists m, wfp KV t (S m) (en (a_l e)) /\ wfp KV t (S m) (en (a_r e)) /\
          dnt KV t (S m) (a_res e)
            (fun ix => Cplus (val KV t (S m) (a_l e) ix) (val KV t (S m) (a_r e) ix))
            (ecomp tau m (Cmod (ew (a_l e)) + Cmod (ew (a_r e))))
  | KM => exists m, lv = Z.of_nat m /\ wfp KM t (S m) (en (a_l e)) /\
          wfp KM t (S m) (en (a_r e)) /\
          dnt KM t (S m) (a_res e)
            (fun ix => Cplus (val KM t (S m) (a_l e) ix) (val KM t (S m) (a_r e) ix))
            (ecompm tau m (Cmod (ew (a_l e)) + Cmod (ew (a_r e))))
  end.
Definition lev_is (t : table) (p : ptr) (v : Z) : Prop :=
  exists a nd, p = Node a /\ reg KM t a nd /\ nv nd = v.
Definition mul_ok (k : kind) (tv tm : table) (e : ment) : Prop :=
  match k with
  | KV => exists m, wfp KM tm (S m) (m_l e) /\ wfp KV tv (S m) (m_r e) /\
          dnt KV tv (S m) (m_res e)
            (mvF (S m) (valp KM tm (S m) (m_l e)) (valp KV tv (S m) (m_r e))) (emul tau (S m))
  | KM => exists lv rv m, lev_is tm (m_l e) lv /\ lev_is tm (m_r e) rv /\
          m = Z.to_nat (Z.max lv rv + 1) /\
          dnt KM tm m (m_res e)
            (mmF m (valp KM tm m (m_l e)) (valp KM tm m (m_r e))) (emulm tau m)
  end.
Definition prob_ok (t : table) (pr : ptr -> option R) (p : ptr) (x : R) : Prop :=
  (p = Term /\ x = 1%R) \/
  exists m a nd, p = Node a /\ reg KV t a nd /\ nv nd = Z.of_nat m /\ x = psum t (S m) p /\
    forall c, In c (nch nd) -> pr (en c) <> None.

Record Inv (s : state) : Prop := {
  inv_tb : forall k, TInv k (tb s k);
  inv_ac : forall i k lv key e, ac s i k lv key = Some e -> add_ok k (tb s k) lv e;
  inv_mc : forall i k lv key e, In e (mc s i k lv key) -> m_valid e = true ->
             mul_ok k (tb s KV) (tb s KM) e;
  inv_pr : forall p x, probs s p = Some x -> prob_ok (tb s KV) (probs s) p x;
  inv_len : forall i k lv key, length (mc s i k lv key) = 4%nat
}.

Definition sext (s s' : state) : Prop := forall k, ext tau k (tb s k) (tb s' k).
(* what any number of concurrent library steps may do *)
Definition rel (s s' : state) : Prop := sext s s' /\ Inv s' /\ probs s' = probs s
   /\ gc_v s' = gc_v s /\ gc_m s' = gc_m s.

Lemma sext_refl s : sext s s.
Proof. intros k. apply ext_refl. Qed.
Lemma rel_refl s : Inv s -> rel s s.
Proof. intros. split; [apply sext_refl|]; auto. Qed.
Lemma rel_trans s1 s2 s3 : rel s1 s2 -> rel s2 s3 -> rel s1 s3.
Proof.
  intros (H1 & _ & P1 & G1 & M1) (H2 & I2 & P2 & G2 & M2). split; [|split; [|split; [|split]]]; auto; try congruence.
  intros k. eapply ext_trans; [apply H1|apply H2].
Qed.
Lemma rel_inv s s' : rel s s' -> Inv s'.
Proof. intros (_ & H & _); exact H. Qed.
Lemma rel_ext s s' k : rel s s' -> ext tau k (tb s k) (tb s' k).
Proof. intros (H & _). apply H. Qed.

Lemma Inv_init : Inv state_init.
Proof.
  constructor; cbn.
  - intros k. now apply TInv_init.
  - intros i k lv key e H. discriminate H.
  - intros i k lv key e H Hv. exfalso.
    repeat (destruct H as [<-|H]; [discriminate|]). destruct H.
  - intros p x H. discriminate H.
  - reflexivity.
Qed.

Lemma valp_ext k t t' n p ix : TInv k t -> ext tau k t t' -> wfp k t n p ->
  valp k t' n p ix = valp k t n p ix.
Proof.
  intros HT He Hp.
  pose proof (val_ext tau k t t' HT He n (E c1 p) ix (or_introl Hp)) as H.
  unfold Wf.val in H; cbn [ew en] in H. change (@c1 (RNum tau)) with (RtoC 1) in H.
  now rewrite !Cmult_1_l in H.
Qed.

Lemma dnt_ext k t t' n e F err : TInv k t -> ext tau k t t' -> dnt k t n e F err -> dnt k t' n e F err.
Proof.
  intros HT He [H1 H2]. split.
  - eapply wfe_ext; eauto.
  - intros ix. rewrite (val_ext tau k t t'); auto.
Qed.
Lemma dnt_F k t n e F G err : (forall ix, F ix = G ix) -> dnt k t n e F err -> dnt k t n e G err.
Proof. intros H [H1 H2]. split; auto. intros ix. now rewrite <- H. Qed.
Lemma dnt_weaken k t n e F err err' : (err <= err')%R -> dnt k t n e F err -> dnt k t n e F err'.
Proof. intros H [H1 H2]. split; auto. intros ix. eapply Rle_trans; eauto. Qed.
Lemma dnt_err k t n e F G err d :
  (forall ix, Cmod (Cminus (F ix) (G ix)) <= d)%R -> dnt k t n e F err -> dnt k t n e G (err + d).
Proof.
  intros H [H1 H2]. split; auto. intros ix.
  replace (Cminus (val k t n e ix) (G ix)) with
    (Cplus (Cminus (val k t n e ix) (F ix)) (Cminus (F ix) (G ix))) by ring.
  eapply Rle_trans; [apply Cmod_triangle|]. specialize (H ix); specialize (H2 ix). lra.
Qed.
Lemma dnt_exact k t n e F : dnt k t n e F 0 -> forall ix, val k t n e ix = F ix.
Proof.
  intros [_ H] ix. specialize (H ix).
  assert (Hz : Cmod (Cminus (val k t n e ix) (F ix)) = 0%R).
  { pose proof (Cmod_ge_0 (Cminus (val k t n e ix) (F ix))). lra. }
  apply Cmod_eq_0 in Hz. replace (val k t n e ix) with (Cplus (Cminus (val k t n e ix) (F ix)) (F ix)) by ring.
  rewrite Hz. ring.
Qed.
Lemma dnt_of_exact k t n e F : wfe k t n e -> (forall ix, val k t n e ix = F ix) -> dnt k t n e F 0.
Proof.
  intros H1 H2. split; auto. intros ix. rewrite H2.
  replace (Cminus (F ix) (F ix)) with (RtoC 0) by ring. rewrite Cmod_0. lra.
Qed.

Lemma add_ok_ext k t t' lv e : TInv k t -> ext tau k t t' -> add_ok k t lv e -> add_ok k t' lv e.
Proof.
  intros HT He. destruct k; unfold add_ok.
  - intros (m & H1 & H2 & H3). exists m.
    split; [eapply wfp_ext; eauto|]. split; [eapply wfp_ext; eauto|].
    eapply dnt_F; [|eapply dnt_ext; eauto]. intros ix. cbn.
    rewrite !(val_ext tau KV t t'); auto; now left.
  - intros (m & Hl & H1 & H2 & H3). exists m. split; auto.
    split; [eapply (wfp_ext tau KM); eauto|]. split; [eapply (wfp_ext tau KM); eauto|].
    eapply dnt_F; [|eapply dnt_ext; eauto]. intros ix. cbn.
    rewrite !(val_ext tau KM t t'); auto; now left.
Qed.
Lemma lev_is_ext t t' p v : ext tau KM t t' -> lev_is t p v -> lev_is t' p v.
Proof. intros He (a & nd & H1 & H2 & H3). exists a, nd. auto. Qed.
Lemma lev_wfp t p v n : lev_is t p v -> v < Z.of_nat n -> wfp KM t n p.
Proof. intros (a & nd & H1 & H2 & H3) H. right. exists a, nd. subst; auto. Qed.
Lemma mul_ok_ext k tv tv' tm tm' e : TInv KV tv -> TInv KM tm -> ext tau KV tv tv' -> ext tau KM tm tm' ->
  mul_ok k tv tm e -> mul_ok k tv' tm' e.
Proof.
  intros HTv HTm Hev Hem. destruct k; unfold mul_ok.
  - intros (m & H1 & H2 & H3). exists m.
    split; [eapply (wfp_ext tau KM); eauto|]. split; [eapply (wfp_ext tau KV); eauto|].
    eapply dnt_F; [|eapply dnt_ext; eauto]. intros ix. unfold mvF.
    apply bsum_ext. intros kk. now rewrite !valp_ext with (t' := tm') (t := tm) by auto;
      rewrite !valp_ext with (t' := tv') (t := tv) by auto.
  - intros (lv & rv & m & H1 & H2 & Hm & H3). exists lv, rv, m.
    split; [eapply lev_is_ext; eauto|]. split; [eapply lev_is_ext; eauto|]. split; auto.
    assert (Hlv : 0 <= lv).
    { destruct H1 as (a & nd & _ & Hr & <-). apply (reg_ok tau KM) in Hr; auto. apply Hr. }
    assert (wfp KM tm m (m_l e)) by (eapply lev_wfp; eauto; lia).
    assert (wfp KM tm m (m_r e)) by (eapply lev_wfp; eauto; lia).
    eapply dnt_F; [|eapply dnt_ext; eauto]. intros ix. unfold mmF.
    apply bsum_ext. intros kk. now rewrite !valp_ext with (t' := tm') (t := tm) by auto.
Qed.
Lemma psum_ext t t' n p : TInv KV t -> ext tau KV t t' -> wfp KV t n p -> psum t' n p = psum t n p.
Proof.
  intros HT He Hp. unfold psum. apply rbsum_ext. intros kk.
  now rewrite valp_ext with (t := t) by auto.
Qed.
Lemma prob_ok_ext t t' pr p x : TInv KV t -> ext tau KV t t' -> prob_ok t pr p x -> prob_ok t' pr p x.
Proof.
  intros HT He [H|(m & a & nd & -> & H2 & H3 & H4 & H5)]; [now left|right].
  exists m, a, nd. split; auto. split; [now apply He|]. split; auto. split; auto.
  rewrite psum_ext with (t := t); auto. exists a, nd; auto.
Qed.

(* replacing the table of kind k by an extension *)
Lemma Inv_set_tb s k t' : Inv s -> TInv k t' -> ext tau k (tb s k) t' -> rel s (set_tb s k t').
Proof.
  intros HI HT He.
  assert (Hs : sext s (set_tb s k t')).
  { intros k'. cbn. destruct (kind_eqb k k') eqn:E; [|apply ext_refl].
    apply kind_eqb_eq in E. now subst. }
  split; [exact Hs|]. split; [|split; [|split]; reflexivity]. constructor.
  - intros k'. cbn. destruct (kind_eqb k k') eqn:E; [apply kind_eqb_eq in E; now subst|].
    apply HI.
  - intros i k' lv key e H. eapply add_ok_ext; [apply HI|apply Hs|]. eapply inv_ac; eauto.
  - intros i k' lv key e H Hv.
    apply (mul_ok_ext k' (tb s KV) _ (tb s KM) _); try apply Hs; try apply (inv_tb _ HI).
    eapply inv_mc; eauto.
  - intros p x H. cbn [probs set_tb] in *. eapply prob_ok_ext; [apply HI|apply Hs|].
    now apply inv_pr.
  - apply (inv_len _ HI).
Qed.

Lemma intern_rel k i nd s : Inv s -> nodeok tau k (tb s k) nd ->
  exists b nd' s', intern k i nd s = Some (Node b, s') /\ rel s s' /\
    reg k (tb s' k) b nd' /\ node_eqb nd nd' = true.
Proof.
  intros HI Hok. destruct (intern_spec tau k i nd s) as (b & nd' & t' & H1 & H2 & H3 & H4 & H5); auto.
  { apply HI. }
  exists b, nd', (set_tb s k t'). split; auto. split; [now apply Inv_set_tb|].
  split; auto. now rewrite set_tb_same.
Qed.
Lemma scratch_rel k i nd s : Inv s -> rel s (scratch k i nd s).
Proof.
  intros HI. destruct (scratch_spec tau k i nd s) as (t' & -> & H1 & H2); [apply HI|].
  now apply Inv_set_tb.
Qed.

Lemma Inv_set_ac s i k lv key e : Inv s -> add_ok k (tb s k) lv e -> rel s (set_ac s i k lv key (Some e)).
Proof.
  intros HI Hok. split; [exact (sext_refl s)|]. split; [|split; [|split]; reflexivity]. constructor; [apply HI| |apply HI|apply HI|apply HI].
  intros i' k' lv' key' e'. cbn.
  destruct (Nat.eqb i i' && kind_eqb k k' && (lv =? lv') && (key =? key')) eqn:E; [|apply HI].
  intros [= <-]. apply andb_prop in E as [E _]. apply andb_prop in E as [E E3].
  apply andb_prop in E as [_ E2]. apply kind_eqb_eq in E2. apply Z.eqb_eq in E3. now subst.
Qed.
Lemma In_upd_nth {A} j (f : A -> A) l x : In x (upd_nth j f l) -> In x l \/ exists y, In y l /\ x = f y.
Proof.
  revert j. induction l as [|y l IH]; intros j; [destruct j; cbn; tauto|]. destruct j; cbn.
  - intros [<-|H]; [right; exists y; auto|auto].
  - intros [<-|H]; auto. apply IH in H as [H|(z & H1 & H2)]; auto. right; exists z; auto.
Qed.
Lemma upd_nth_len {A} j (f : A -> A) l : length (upd_nth j f l) = length l.
Proof. revert j. induction l as [|x l IH]; intros [|j]; cbn; auto. Qed.
Lemma Inv_set_mc s i k lv key es : Inv s ->
  (forall e, In e es -> m_valid e = true -> mul_ok k (tb s KV) (tb s KM) e) -> length es = 4%nat ->
  rel s (set_mc s i k lv key es).
Proof.
  intros HI Hok Hlen. split; [exact (sext_refl s)|]. split; [|split; [|split]; reflexivity].
  constructor; [apply HI|apply HI| |apply HI|].
  2:{ intros i' k' lv' key'. cbn.
      destruct (Nat.eqb i i' && kind_eqb k k' && (lv =? lv') && (key =? key')); [exact Hlen|apply HI]. }
  intros i' k' lv' key' e' Hin. cbn in *.
  destruct (Nat.eqb i i' && kind_eqb k k' && (lv =? lv') && (key =? key')) eqn:E; [|eapply HI; eauto].
  apply andb_prop in E as [E _]. apply andb_prop in E as [E E3].
  apply andb_prop in E as [_ E2]. apply kind_eqb_eq in E2. subst k'. auto.
Qed.

(* reading well-formed pointers *)
Lemma readn_reg k s a nd : reg k (tb s k) a nd -> readn k (Node a) s = Some nd.
Proof. intros [H _]. exact H. Qed.
Lemma wfe_getVar k s n e : Inv s -> wfe k (tb s k) n e ->
  exists v, getVar k (en e) s = Some v /\ -1 <= v < Z.of_nat n /\ en e <> Null.
Proof.
  intros HI H. unfold getVar.
  assert (Hn : forall a nd, reg k (tb s k) a nd -> nv nd < Z.of_nat n -> en e = Node a ->
     exists v, match readn k (en e) s with Some nd => Some (nv nd) | None => None end = Some v /\
       -1 <= v < Z.of_nat n /\ en e <> Null).
  { intros a nd Hr Hv ->. rewrite (readn_reg k s a nd) by auto. exists (nv nd).
    apply (reg_ok tau k) in Hr; [|apply HI]. pose proof (no_level _ _ _ _ Hr).
    split; [reflexivity|]. split; [lia|discriminate]. }
  assert (Ht : en e = Term ->
     exists v, match readn k (en e) s with Some nd => Some (nv nd) | None => None end = Some v /\
       -1 <= v < Z.of_nat n /\ en e <> Null).
  { intros ->. exists (-1). cbn. split; [reflexivity|]. split; [lia|discriminate]. }
  destruct H as [H|[_ H]]; auto. destruct k; cbn in H.
  - destruct n as [|m]; auto. destruct H as (a & nd & H1 & H2 & H3). apply (Hn a nd); auto. lia.
  - destruct H as [H|(a & nd & H1 & H2 & H3)]; auto. apply (Hn a nd); auto.
Qed.

Lemma mbucket_find_spec es l r j : mbucket_find es l r = Some j ->
  In (nth j es ment_init) es /\ m_valid (nth j es ment_init) = true /\
  m_l (nth j es ment_init) = l /\ m_r (nth j es ment_init) = r.
Proof.
  revert j. induction es as [|e es IH]; cbn; [discriminate|]. intros j.
  destruct (m_valid e && ptr_eqb (m_l e) l && ptr_eqb (m_r e) r) eqn:E.
  - intros [= <-]. apply andb_prop in E as [E E3]. apply andb_prop in E as [E1 E2].
    apply ptr_eqb_eq in E2, E3. auto.
  - destruct (mbucket_find es l r) eqn:Ef; [|discriminate]. intros [= <-].
    destruct (IH n eq_refl) as (H1 & H2 & H3 & H4). auto.
Qed.

(* the add cache *)
Lemma afind_spec k i l r s n : Inv s -> wfe k (tb s k) (S n) l -> wfe k (tb s k) (S n) r ->
  (exists a, en l = Node a) \/ (exists a, en r = Node a) -> Z.of_nat n < NQUBITS ->
  exists res, afind k i l r s = Some res /\
    (res = nullE \/
     exists lv e a b, aorder k l r s = Some (lv, a, b) /\
       add_ok k (tb s k) lv e /\ a_res e = res /\ edge_eqb (a_l e) a = true /\ edge_eqb (a_r e) b = true).
Proof.
  intros HI Hl Hr Hn Hq. unfold afind.
  destruct (wfe_getVar _ _ _ _ HI Hl) as (lv & Hlv & Hlb & _).
  destruct (wfe_getVar _ _ _ _ HI Hr) as (rv & Hrv & Hrb & _).
  assert (Hge : forall e v a, wfe k (tb s k) (S n) e -> en e = Node a -> getVar k (en e) s = Some v -> 0 <= v).
  { intros e v a He Ha Hv.
    assert (Hx : exists nd, reg k (tb s k) a nd).
    { destruct He as [He|[_ He]]; [|congruence]. rewrite Ha in He. destruct k; cbn in He.
      - destruct He as (a' & nd & [= <-] & H & _); eauto.
      - destruct He as [?|(a' & nd & [= <-] & H & _)]; [discriminate|eauto]. }
    destruct Hx as (nd & Hx). unfold getVar in Hv. rewrite Ha, (readn_reg k s a nd) in Hv by auto.
    injection Hv as <-. apply (reg_ok tau k) in Hx; [|apply HI]. apply Hx. }
  assert (Hord : exists v a b, aorder k l r s = Some (v, a, b) /\ level_ok v = true).
  { unfold aorder. rewrite Hlv, Hrv. destruct (lv <? rv) eqn:Hc.
    - apply Z.ltb_lt in Hc. exists rv, r, l. split; auto. apply level_ok_true.
      destruct Hn as [[a Ha]|[a Ha]].
      + pose proof (Hge _ _ _ Hl Ha Hlv). lia.
      + pose proof (Hge _ _ _ Hr Ha Hrv). lia.
    - apply Z.ltb_ge in Hc. exists lv, l, r. split; auto. apply level_ok_true.
      destruct Hn as [[a Ha]|[a Ha]].
      + pose proof (Hge _ _ _ Hl Ha Hlv). lia.
      + pose proof (Hge _ _ _ Hr Ha Hrv). lia. }
  destruct Hord as (v & a & b & Ho & Hok). rewrite Ho, Hok.
  destruct (ac s i k v (hpair k a b mod NBUCKETS)) as [e|] eqn:Hac; [|eauto].
  destruct (edge_eqb (a_l e) a && edge_eqb (a_r e) b) eqn:Heq; [|eauto].
  apply andb_prop in Heq as [Ha Hb]. pose proof (inv_ac _ HI _ _ _ _ _ Hac) as Hent.
  assert (Hwf : exists m, wfe k (tb s k) m (a_res e)).
  { destruct k; cbn in Hent.
    - destruct Hent as (m & _ & _ & H & _); eauto.
    - destruct Hent as (m & _ & _ & _ & H & _); eauto. }
  destruct Hwf as (m & Hwf). destruct (wfe_getVar _ _ _ _ HI Hwf) as (rv' & Hrv' & Hrb' & _).
  rewrite Hrv'. destruct (rv' =? -2) eqn:Hm; [eauto|].
  exists (a_res e). split; auto. right. exists v, e, a, b. auto.
Qed.
Lemma aset_spec k i l r res s lv a b : Inv s -> aorder k l r s = Some (lv, a, b) -> level_ok lv = true ->
  add_ok k (tb s k) lv {| a_l := a; a_r := b; a_res := res |} ->
  exists s', aset k i l r res s = Some s' /\ rel s s'.
Proof.
  intros HI Ho Hok He. unfold aset. rewrite Ho, Hok. eexists; split; eauto. now apply Inv_set_ac.
Qed.
Lemma aorder_cases k l r s lv a b : aorder k l r s = Some (lv, a, b) ->
  (a = l /\ b = r /\ getVar k (en l) s = Some lv) \/ (a = r /\ b = l /\ getVar k (en r) s = Some lv).
Proof.
  unfold aorder. destruct (getVar k (en l) s), (getVar k (en r) s); try discriminate.
  destruct (z <? z0); intros [= <- <- <-]; auto.
Qed.

(* the multiplication cache *)
Lemma mfind_spec k i l r s a nd : Inv s -> l = Node a -> reg KM (tb s KM) a nd ->
  exists res s', mfind k i l r s = Some (res, s') /\ rel s s' /\
    (res = nullE \/
     exists e, m_l e = l /\ m_r e = r /\ m_res e = res /\ mul_ok k (tb s KV) (tb s KM) e).
Proof.
  intros HI -> Hr. unfold mfind, getVar. rewrite (readn_reg KM s a nd) by auto.
  pose proof (reg_ok tau KM _ _ _ (inv_tb _ HI KM) Hr) as Hok.
  rewrite level_ok_true by apply Hok.
  set (es := mc s i k (nv nd) _).
  destruct (mbucket_find es (Node a) r) as [j|] eqn:Hf.
  2:{ eexists _, s. split; [reflexivity|]. split; [now apply rel_refl|now left]. }
  apply mbucket_find_spec in Hf as (Hin & Hv & Hml & Hmr). set (e := nth j es ment_init) in *.
  pose proof (inv_mc _ HI _ _ _ _ _ Hin Hv) as Hent.
  assert (Hwf : exists m, wfe k (tb s k) m (m_res e)).
  { destruct k; cbn in Hent.
    - destruct Hent as (m & _ & _ & H & _); eauto.
    - destruct Hent as (lv & rv & m & _ & _ & _ & H & _); eauto. }
  destruct Hwf as (m & Hwf). destruct (wfe_getVar _ _ _ _ HI Hwf) as (rv & Hrv & Hrb & _).
  unfold getVar in Hrv. rewrite Hrv.
  assert (Hset : forall z, rel s (set_mc s i k (nv nd) (hptr (Node a) mod NBUCKETS) (upd_nth j (set_picked z) es))).
  { intros z. apply Inv_set_mc; auto; [|rewrite upd_nth_len; apply HI]. intros e' He' Hv'.
    apply In_upd_nth in He' as [He'|(e2 & He2 & ->)].
    - eapply (inv_mc _ HI); eauto.
    - assert (H : mul_ok k (tb s KV) (tb s KM) e2) by (eapply (inv_mc _ HI); eauto).
      destruct k; exact H. }
  destruct (rv =? -2) eqn:Hm.
  { apply Z.eqb_eq in Hm. lia. }
  eexists _, _. split; [reflexivity|]. split; [apply Hset|]. right. exists e. auto.
Qed.
Lemma mset_spec k i l r res s a nd : Inv s -> l = Node a -> reg KM (tb s KM) a nd ->
  (forall b z, mul_ok k (tb s KV) (tb s KM)
     {| m_valid := b; m_l := l; m_r := r; m_res := res; m_picked := z |}) ->
  exists s', mset k i l r res s = Some s' /\ rel s s'.
Proof.
  intros HI -> Hr Hent. unfold mset, getVar. rewrite (readn_reg KM s a nd) by auto.
  pose proof (reg_ok tau KM _ _ _ (inv_tb _ HI KM) Hr) as Hok.
  rewrite level_ok_true by apply Hok. eexists; split; [reflexivity|].
  apply Inv_set_mc; auto; [|rewrite upd_nth_len; apply HI]. intros e' He' Hv'.
  apply In_upd_nth in He' as [He'|(e2 & He2 & ->)].
  - eapply (inv_mc _ HI); eauto.
  - apply Hent.
Qed.

End Inv.
