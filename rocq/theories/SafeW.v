(* SafeW.v -- the structural invariant of the library state over an arbitrary
   arithmetic, the effect of every atomic action on it, and the rely-guarantee
   calculus of Wp.v for it. *)
From Coq Require Import ZArith Bool List Lia.
From Verif Require Import Num State DD Wf Wp SafeA.
Import ListNotations.
Open Scope Z_scope.

Section SafeW.
Context {NO : NumOps} {AR : Arith NO} {CF : Cfg}.

Definition add_ok (k : kind) (t : table) (lv : Z) (e : aent) : Prop :=
  match k with
  | KV => exists m, sp KV t (S m) (en (a_l e)) /\ sp KV t (S m) (en (a_r e)) /\
          se KV t (S m) (a_res e)
  | KM => exists m, lv = Z.of_nat m /\ se KM t (S m) (a_res e)
  end.
Definition lev_is (t : table) (p : ptr) (v : Z) : Prop :=
  exists a nd, p = Node a /\ reg KM t a nd /\ nv nd = v.
Definition mul_ok (k : kind) (tv tm : table) (e : ment) : Prop :=
  match k with
  | KV => exists m, sp KV tv (S m) (m_r e) /\ se KV tv (S m) (m_res e)
  | KM => exists lv rv, lev_is tm (m_l e) lv /\ lev_is tm (m_r e) rv /\
          se KM tm (Z.to_nat (Z.max lv rv + 1)) (m_res e)
  end.
Definition prob_ok (t : table) (pr : ptr -> option num) (p : ptr) (x : num) : Prop :=
  ps x /\
  (p = Term \/
   exists a nd, p = Node a /\ reg KV t a nd /\ forall c, In c (nch nd) -> pr (en c) <> None).

Record Inv (s : state) : Prop := {
  inv_tb : forall k, TInv k (tb s k);
  inv_ac : forall i k lv key e, ac s i k lv key = Some e -> add_ok k (tb s k) lv e;
  inv_mc : forall i k lv key e, In e (mc s i k lv key) -> m_valid e = true ->
             mul_ok k (tb s KV) (tb s KM) e;
  inv_pr : forall p x, probs s p = Some x -> prob_ok (tb s KV) (probs s) p x;
  inv_len : forall i k lv key, length (mc s i k lv key) = 4%nat
}.

Definition sext (s s' : state) : Prop := forall k, ext k (tb s k) (tb s' k).
(* what any number of concurrent library steps may do *)
Definition rel (s s' : state) : Prop := sext s s' /\ Inv s' /\ probs s' = probs s
   /\ gc_v s' = gc_v s /\ gc_m s' = gc_m s.

Lemma sext_refl s : sext s s.
Proof. intros k. apply ext_refl. Qed.
Lemma rel_refl s : Inv s -> rel s s.
Proof. intros. split; [apply sext_refl|]; auto. Qed.
Lemma rel_trans s1 s2 s3 : rel s1 s2 -> rel s2 s3 -> rel s1 s3.
Proof.
  intros (H1 & _ & P1 & G1 & M1) (H2 & I2 & P2 & G2 & M2). split; [|split; [|split; [|split]]]; auto; try congruence.
  intros k. eapply ext_trans; [apply H1|apply H2].
Qed.
Lemma rel_inv s s' : rel s s' -> Inv s'.
Proof. intros (_ & H & _); exact H. Qed.
Lemma rel_ext s s' k : rel s s' -> ext k (tb s k) (tb s' k).
Proof. intros (H & _). apply H. Qed.

Lemma Inv_init : Inv state_init.
Proof.
  constructor; cbn.
  - intros k. now apply TInv_init.
  - intros i k lv key e H. discriminate H.
  - intros i k lv key e H Hv. exfalso.
    repeat (destruct H as [<-|H]; [discriminate|]). destruct H.
  - intros p x H. discriminate H.
  - reflexivity.
Qed.


Lemma add_ok_ext k t t' lv e : ext k t t' -> add_ok k t lv e -> add_ok k t' lv e.
Proof.
  intros He. destruct k; unfold add_ok.
  - intros (m & H1 & H2 & H3). exists m.
    split; [eapply sp_ext; eauto|]. split; [eapply sp_ext; eauto|]. eapply se_ext; eauto.
  - intros (m & Hl & H3). exists m. split; auto. eapply se_ext; eauto.
Qed.
Lemma lev_is_ext t t' p v : ext KM t t' -> lev_is t p v -> lev_is t' p v.
Proof. intros He (a & nd & H1 & H2 & H3). exists a, nd. auto. Qed.
Lemma lev_sp t p v n : lev_is t p v -> v < Z.of_nat n -> sp KM t n p.
Proof. intros (a & nd & H1 & H2 & H3) H. right. exists a, nd. subst; auto. Qed.
Lemma mul_ok_ext k tv tv' tm tm' e : ext KV tv tv' -> ext KM tm tm' ->
  mul_ok k tv tm e -> mul_ok k tv' tm' e.
Proof.
  intros Hev Hem. destruct k; unfold mul_ok.
  - intros (m & H2 & H3). exists m.
    split; [eapply (sp_ext KV); eauto|]. eapply se_ext; eauto.
  - intros (lv & rv & H1 & H2 & H3). exists lv, rv.
    split; [eapply lev_is_ext; eauto|]. split; [eapply lev_is_ext; eauto|]. eapply se_ext; eauto.
Qed.
Lemma prob_ok_ext t t' pr p x : ext KV t t' -> prob_ok t pr p x -> prob_ok t' pr p x.
Proof.
  intros He [Hp [H|(a & nd & -> & H2 & H5)]]; split; auto. right.
  exists a, nd. auto.
Qed.

(* replacing the table of kind k by an extension *)
Lemma Inv_set_tb s k t' : Inv s -> TInv k t' -> ext k (tb s k) t' -> rel s (set_tb s k t').
Proof.
  intros HI HT He.
  assert (Hs : sext s (set_tb s k t')).
  { intros k'. cbn. destruct (kind_eqb k k') eqn:E; [|apply ext_refl].
    apply kind_eqb_eq in E. now subst. }
  split; [exact Hs|]. split; [|split; [|split]; reflexivity]. constructor.
  - intros k'. cbn. destruct (kind_eqb k k') eqn:E; [apply kind_eqb_eq in E; now subst|].
    apply HI.
  - intros i k' lv key e H. eapply add_ok_ext; [apply Hs|]. eapply inv_ac; eauto.
  - intros i k' lv key e H Hv.
    apply (mul_ok_ext k' (tb s KV) _ (tb s KM) _); try apply Hs; try apply (inv_tb _ HI).
    eapply inv_mc; eauto.
  - intros p x H. cbn [probs set_tb] in *. eapply prob_ok_ext; [apply Hs|].
    now apply inv_pr.
  - apply (inv_len _ HI).
Qed.

Lemma intern_rel k i nd s : Inv s -> nodeok k (tb s k) nd ->
  exists b nd' s', intern k i nd s = Some (Node b, s') /\ rel s s' /\
    reg k (tb s' k) b nd' /\ nv nd' = nv nd.
Proof.
  intros HI Hok. destruct (intern_spec k i nd s) as (b & nd' & t' & H1 & H2 & H3 & H4 & H5); auto.
  { apply HI. }
  exists b, nd', (set_tb s k t'). split; auto. split; [now apply Inv_set_tb|].
  split; auto. now rewrite set_tb_same.
Qed.
Lemma scratch_rel k i nd s : Inv s -> rel s (scratch k i nd s).
Proof.
  intros HI. destruct (scratch_spec k i nd s) as (t' & -> & H1 & H2); [apply HI|].
  now apply Inv_set_tb.
Qed.

Lemma Inv_set_ac s i k lv key e : Inv s -> add_ok k (tb s k) lv e -> rel s (set_ac s i k lv key (Some e)).
Proof.
  intros HI Hok. split; [exact (sext_refl s)|]. split; [|split; [|split]; reflexivity]. constructor; [apply HI| |apply HI|apply HI|apply HI].
  intros i' k' lv' key' e'. cbn.
  destruct (Nat.eqb i i' && kind_eqb k k' && (lv =? lv') && (key =? key')) eqn:E; [|apply HI].
  intros [= <-]. apply andb_prop in E as [E _]. apply andb_prop in E as [E E3].
  apply andb_prop in E as [_ E2]. apply kind_eqb_eq in E2. apply Z.eqb_eq in E3. now subst.
Qed.
Lemma In_upd_nth {A} j (f : A -> A) l x : In x (upd_nth j f l) -> In x l \/ exists y, In y l /\ x = f y.
Proof.
  revert j. induction l as [|y l IH]; intros j; [destruct j; cbn; tauto|]. destruct j; cbn.
  - intros [<-|H]; [right; exists y; auto|auto].
  - intros [<-|H]; auto. apply IH in H as [H|(z & H1 & H2)]; auto. right; exists z; auto.
Qed.
Lemma upd_nth_len {A} j (f : A -> A) l : length (upd_nth j f l) = length l.
Proof. revert j. induction l as [|x l IH]; intros [|j]; cbn; auto. Qed.
Lemma Inv_set_mc s i k lv key es : Inv s ->
  (forall e, In e es -> m_valid e = true -> mul_ok k (tb s KV) (tb s KM) e) -> length es = 4%nat ->
  rel s (set_mc s i k lv key es).
Proof.
  intros HI Hok Hlen. split; [exact (sext_refl s)|]. split; [|split; [|split]; reflexivity].
  constructor; [apply HI|apply HI| |apply HI|].
  2:{ intros i' k' lv' key'. cbn.
      destruct (Nat.eqb i i' && kind_eqb k k' && (lv =? lv') && (key =? key')); [exact Hlen|apply HI]. }
  intros i' k' lv' key' e' Hin. cbn in *.
  destruct (Nat.eqb i i' && kind_eqb k k' && (lv =? lv') && (key =? key')) eqn:E; [|eapply HI; eauto].
  apply andb_prop in E as [E _]. apply andb_prop in E as [E E3].
  apply andb_prop in E as [_ E2]. apply kind_eqb_eq in E2. subst k'. auto.
Qed.

(* reading well-formed pointers *)
Lemma readn_reg k s a nd : reg k (tb s k) a nd -> readn k (Node a) s = Some nd.
Proof. intros [H _]. exact H. Qed.
Lemma se_getVar k s n e : Inv s -> se k (tb s k) n e ->
  exists v, getVar k (en e) s = Some v /\ -1 <= v < Z.of_nat n /\ en e <> Null.
Proof.
  intros HI H. unfold getVar.
  assert (Hn : forall a nd, reg k (tb s k) a nd -> nv nd < Z.of_nat n -> en e = Node a ->
     exists v, match readn k (en e) s with Some nd => Some (nv nd) | None => None end = Some v /\
       -1 <= v < Z.of_nat n /\ en e <> Null).
  { intros a nd Hr Hv ->. rewrite (readn_reg k s a nd) by auto. exists (nv nd).
    apply (reg_ok k) in Hr; [|apply HI]. pose proof (no_level _ _ _ Hr).
    split; [reflexivity|]. split; [lia|discriminate]. }
  assert (Ht : en e = Term ->
     exists v, match readn k (en e) s with Some nd => Some (nv nd) | None => None end = Some v /\
       -1 <= v < Z.of_nat n /\ en e <> Null).
  { intros ->. exists (-1). cbn. split; [reflexivity|]. split; [lia|discriminate]. }
  destruct H as [H|[_ H]]; auto. destruct k; cbn in H.
  - destruct n as [|m]; auto. destruct H as (a & nd & H1 & H2 & H3). apply (Hn a nd); auto. lia.
  - destruct H as [H|(a & nd & H1 & H2 & H3)]; auto. apply (Hn a nd); auto.
Qed.

Lemma mbucket_find_spec es l r j : mbucket_find es l r = Some j ->
  In (nth j es ment_init) es /\ m_valid (nth j es ment_init) = true /\
  m_l (nth j es ment_init) = l /\ m_r (nth j es ment_init) = r.
Proof.
  revert j. induction es as [|e es IH]; cbn; [discriminate|]. intros j.
  destruct (m_valid e && ptr_eqb (m_l e) l && ptr_eqb (m_r e) r) eqn:E.
  - intros [= <-]. apply andb_prop in E as [E E3]. apply andb_prop in E as [E1 E2].
    apply ptr_eqb_eq in E2, E3. auto.
  - destruct (mbucket_find es l r) eqn:Ef; [|discriminate]. intros [= <-].
    destruct (IH n eq_refl) as (H1 & H2 & H3 & H4). auto.
Qed.

(* the add cache *)
Lemma afind_spec k i l r s n : Inv s -> se k (tb s k) (S n) l -> se k (tb s k) (S n) r ->
  (exists a, en l = Node a) \/ (exists a, en r = Node a) -> Z.of_nat n < NQUBITS ->
  exists res, afind k i l r s = Some res /\
    (res = nullE \/
     exists lv e a b, aorder k l r s = Some (lv, a, b) /\
       add_ok k (tb s k) lv e /\ a_res e = res /\ edge_eqb (a_l e) a = true /\ edge_eqb (a_r e) b = true).
Proof.
  intros HI Hl Hr Hn Hq. unfold afind.
  destruct (se_getVar _ _ _ _ HI Hl) as (lv & Hlv & Hlb & _).
  destruct (se_getVar _ _ _ _ HI Hr) as (rv & Hrv & Hrb & _).
  assert (Hge : forall e v a, se k (tb s k) (S n) e -> en e = Node a -> getVar k (en e) s = Some v -> 0 <= v).
  { intros e v a He Ha Hv.
    assert (Hx : exists nd, reg k (tb s k) a nd).
    { destruct He as [He|[_ He]]; [|congruence]. rewrite Ha in He. destruct k; cbn in He.
      - destruct He as (a' & nd & [= <-] & H & _); eauto.
      - destruct He as [?|(a' & nd & [= <-] & H & _)]; [discriminate|eauto]. }
    destruct Hx as (nd & Hx). unfold getVar in Hv. rewrite Ha, (readn_reg k s a nd) in Hv by auto.
    injection Hv as <-. apply (reg_ok k) in Hx; [|apply HI]. apply Hx. }
  assert (Hord : exists v a b, aorder k l r s = Some (v, a, b) /\ level_ok v = true).
  { unfold aorder. rewrite Hlv, Hrv. destruct (lv <? rv) eqn:Hc.
    - apply Z.ltb_lt in Hc. exists rv, r, l. split; auto. apply level_ok_true.
      destruct Hn as [[a Ha]|[a Ha]].
      + pose proof (Hge _ _ _ Hl Ha Hlv). lia.
      + pose proof (Hge _ _ _ Hr Ha Hrv). lia.
    - apply Z.ltb_ge in Hc. exists lv, l, r. split; auto. apply level_ok_true.
      destruct Hn as [[a Ha]|[a Ha]].
      + pose proof (Hge _ _ _ Hl Ha Hlv). lia.
      + pose proof (Hge _ _ _ Hr Ha Hrv). lia. }
  destruct Hord as (v & a & b & Ho & Hok). rewrite Ho, Hok.
  destruct (ac s i k v (hpair k a b mod NBUCKETS)) as [e|] eqn:Hac; [|eauto].
  destruct (edge_eqb (a_l e) a && edge_eqb (a_r e) b) eqn:Heq; [|eauto].
  apply andb_prop in Heq as [Ha Hb]. pose proof (inv_ac _ HI _ _ _ _ _ Hac) as Hent.
  assert (Hwf : exists m, se k (tb s k) m (a_res e)).
  { destruct k; cbn in Hent.
    - destruct Hent as (m & _ & _ & H); eauto.
    - destruct Hent as (m & _ & H); eauto. }
  destruct Hwf as (m & Hwf). destruct (se_getVar _ _ _ _ HI Hwf) as (rv' & Hrv' & Hrb' & _).
  rewrite Hrv'. destruct (rv' =? -2) eqn:Hm; [eauto|].
  exists (a_res e). split; auto. right. exists v, e, a, b. auto.
Qed.
Lemma aset_spec k i l r res s lv a b : Inv s -> aorder k l r s = Some (lv, a, b) -> level_ok lv = true ->
  add_ok k (tb s k) lv {| a_l := a; a_r := b; a_res := res |} ->
  exists s', aset k i l r res s = Some s' /\ rel s s'.
Proof.
  intros HI Ho Hok He. unfold aset. rewrite Ho, Hok. eexists; split; eauto. now apply Inv_set_ac.
Qed.
Lemma aorder_cases k l r s lv a b : aorder k l r s = Some (lv, a, b) ->
  (a = l /\ b = r /\ getVar k (en l) s = Some lv) \/ (a = r /\ b = l /\ getVar k (en r) s = Some lv).
Proof.
  unfold aorder. destruct (getVar k (en l) s), (getVar k (en r) s); try discriminate.
  destruct (z <? z0); intros [= <- <- <-]; auto.
Qed.

(* the multiplication cache *)
Lemma mfind_spec k i l r s a nd : Inv s -> l = Node a -> reg KM (tb s KM) a nd ->
  exists res s', mfind k i l r s = Some (res, s') /\ rel s s' /\
    (res = nullE \/
     exists e, m_l e = l /\ m_r e = r /\ m_res e = res /\ mul_ok k (tb s KV) (tb s KM) e).
Proof.
  intros HI -> Hr. unfold mfind, getVar. rewrite (readn_reg KM s a nd) by auto.
  pose proof (reg_ok KM _ _ _ (inv_tb _ HI KM) Hr) as Hok.
  rewrite level_ok_true by apply Hok.
  set (es := mc s i k (nv nd) _).
  destruct (mbucket_find es (Node a) r) as [j|] eqn:Hf.
  2:{ eexists _, s. split; [reflexivity|]. split; [now apply rel_refl|now left]. }
  apply mbucket_find_spec in Hf as (Hin & Hv & Hml & Hmr). set (e := nth j es ment_init) in *.
  pose proof (inv_mc _ HI _ _ _ _ _ Hin Hv) as Hent.
  assert (Hwf : exists m, se k (tb s k) m (m_res e)).
  { destruct k; cbn in Hent.
    - destruct Hent as (m & _ & H); eauto.
    - destruct Hent as (lv & rv & _ & _ & H); eauto. }
  destruct Hwf as (m & Hwf). destruct (se_getVar _ _ _ _ HI Hwf) as (rv & Hrv & Hrb & _).
  unfold getVar in Hrv. rewrite Hrv.
  assert (Hset : forall z, rel s (set_mc s i k (nv nd) (hptr (Node a) mod NBUCKETS) (upd_nth j (set_picked z) es))).
  { intros z. apply Inv_set_mc; auto; [|rewrite upd_nth_len; apply HI]. intros e' He' Hv'.
    apply In_upd_nth in He' as [He'|(e2 & He2 & ->)].
    - eapply (inv_mc _ HI); eauto.
    - assert (H : mul_ok k (tb s KV) (tb s KM) e2) by (eapply (inv_mc _ HI); eauto).
      destruct k; exact H. }
  destruct (rv =? -2) eqn:Hm.
  { apply Z.eqb_eq in Hm. lia. }
  eexists _, _. split; [reflexivity|]. split; [apply Hset|]. right. exists e. auto.
Qed.
Lemma mset_spec k i l r res s a nd : Inv s -> l = Node a -> reg KM (tb s KM) a nd ->
  (forall b z, mul_ok k (tb s KV) (tb s KM)
     {| m_valid := b; m_l := l; m_r := r; m_res := res; m_picked := z |}) ->
  exists s', mset k i l r res s = Some s' /\ rel s s'.
Proof.
  intros HI -> Hr Hent. unfold mset, getVar. rewrite (readn_reg KM s a nd) by auto.
  pose proof (reg_ok KM _ _ _ (inv_tb _ HI KM) Hr) as Hok.
  rewrite level_ok_true by apply Hok. eexists; split; [reflexivity|].
  apply Inv_set_mc; auto; [|rewrite upd_nth_len; apply HI]. intros e' He' Hv'.
  apply In_upd_nth in He' as [He'|(e2 & He2 & ->)].
  - eapply (inv_mc _ HI); eauto.
  - apply Hent.
Qed.

Definition post := edge -> state -> Prop.
Definition stable (Q : post) : Prop := forall e s s', Inv s -> rel s s' -> Q e s -> Q e s'.

Fixpoint wpr (c : comp) (Q : post) (s : state) : Prop :=
  forall s', rel s s' ->
  match c with
  | CRet e => Q e s'
  | CFail => False
  | CRead k p f => exists nd, readn k p s' = Some nd /\ wpr (f nd) Q s'
  | CIntern k nd f => forall i : tid, exists p s2, intern k i nd s' = Some (p, s2) /\ rel s' s2 /\ wpr (f p) Q s2
  | CScratch k nd c' => forall i : tid, wpr c' Q (scratch k i nd s')
  | CAFind k l r f => forall i : tid, exists e, afind k i l r s' = Some e /\ wpr (f e) Q s'
  | CASet k l r e c' => forall i : tid, exists s2, aset k i l r e s' = Some s2 /\ rel s' s2 /\ wpr c' Q s2
  | CMFind k l r f => forall i : tid, exists e s2, mfind k i l r s' = Some (e, s2) /\ rel s' s2 /\ wpr (f e) Q s2
  | CMSet k l r e c' => forall i : tid, exists s2, mset k i l r e s' = Some s2 /\ rel s' s2 /\ wpr c' Q s2
  | CPar c1 c2 f => exists Q1 Q2, stable Q1 /\ stable Q2 /\ wpr c1 Q1 s' /\ wpr c2 Q2 s' /\      forall e1 e2 s2, rel s' s2 -> Q1 e1 s2 -> Q2 e2 s2 -> wpr (f e1 e2) Q s2
  end.

Lemma wpr_rel c Q s s' : rel s s' -> wpr c Q s -> wpr c Q s'.
Proof.
  intros Hr. destruct c; cbn; intros H s2 Hr2; exact (H s2 (rel_trans _ _ _ Hr Hr2)).
Qed.

Lemma wpr_mono c (Q Q' : post) s : Inv s -> (forall e s', rel s s' -> Q e s' -> Q' e s') ->
  wpr c Q s -> wpr c Q' s.
Proof.
  revert s. induction c; intros s HI HQ; cbn; intros H' s' Hr; specialize (H' s' Hr);
    pose proof (rel_inv _ _ Hr) as HI'.
  - auto.
  - auto.
  - destruct H' as (nd & H1 & H2). exists nd; split; auto. apply H; auto. intros; apply HQ; auto. eapply rel_trans; eauto.
  - intros i. destruct (H' i) as (p & s2 & H1 & H2 & H3). exists p, s2; split; [|split]; auto.
    apply H; auto. { eapply rel_inv; eauto. }
    intros; apply HQ; auto. repeat (eapply rel_trans; eauto).
  - intros i. pose proof (scratch_rel k i nd s' HI') as Hs.
    apply IHc; auto. { eapply rel_inv; eauto. }
    intros; apply HQ; auto. repeat (eapply rel_trans; eauto).
  - intros i. destruct (H' i) as (e & H1 & H2). exists e; split; auto. apply H; auto.
    intros; apply HQ; auto. eapply rel_trans; eauto.
  - intros i. destruct (H' i) as (s2 & H1 & H2 & H3). exists s2; split; [|split]; auto.
    apply IHc; auto. { eapply rel_inv; eauto. }
    intros; apply HQ; auto. repeat (eapply rel_trans; eauto).
  - intros i. destruct (H' i) as (p & s2 & H1 & H2 & H3). exists p, s2; split; [|split]; auto.
    apply H; auto. { eapply rel_inv; eauto. }
    intros; apply HQ; auto. repeat (eapply rel_trans; eauto).
  - intros i. destruct (H' i) as (s2 & H1 & H2 & H3). exists s2; split; [|split]; auto.
    apply IHc; auto. { eapply rel_inv; eauto. }
    intros; apply HQ; auto. repeat (eapply rel_trans; eauto).
  - destruct H' as (Q1 & Q2 & S1 & S2 & H1 & H2 & H3). exists Q1, Q2.
    split; [|split; [|split; [|split]]]; auto. intros e1 e2 s2 Hr2 HQ1 HQ2.
    apply H; auto. { eapply rel_inv; eauto. }
    intros; apply HQ; auto. repeat (eapply rel_trans; eauto).
Qed.

Lemma wpr_bind c g Q s : Inv s -> wpr c (fun e s' => wpr (g e) Q s') s -> wpr (bind c g) Q s.
Proof.
  revert s. induction c; intros s HI; cbn; intros H';
    try (intros s' Hr; specialize (H' s' Hr); pose proof (rel_inv _ _ Hr) as HI').
  - apply (H' s). now apply rel_refl.
  - auto.
  - destruct H' as (nd & H1 & H2). exists nd; split; auto.
  - intros i. destruct (H' i) as (p & s2 & H1 & H2 & H3). exists p, s2; split; [|split]; auto.
    apply H; auto. eapply rel_inv; eauto.
  - intros i. apply IHc; auto. eapply rel_inv; now apply scratch_rel.
  - intros i. destruct (H' i) as (e & H1 & H2). exists e; split; auto.
  - intros i. destruct (H' i) as (s2 & H1 & H2 & H3). exists s2; split; [|split]; auto.
    apply IHc; auto. eapply rel_inv; eauto.
  - intros i. destruct (H' i) as (p & s2 & H1 & H2 & H3). exists p, s2; split; [|split]; auto.
    apply H; auto. eapply rel_inv; eauto.
  - intros i. destruct (H' i) as (s2 & H1 & H2 & H3). exists s2; split; [|split]; auto.
    apply IHc; auto. eapply rel_inv; eauto.
  - destruct H' as (Q1 & Q2 & S1 & S2 & H1 & H2 & H3). exists Q1, Q2.
    split; [|split; [|split; [|split]]]; auto. intros e1 e2 s2 Hr2 HQ1 HQ2.
    apply H; auto. eapply rel_inv; eauto.
Qed.

Lemma wpr_ret e (Q : post) s : (forall s', rel s s' -> Q e s') -> wpr (CRet e) Q s.
Proof. intros H s' Hr. auto. Qed.

(* soundness *)
Lemma wpr_step c s g Q : step (Cfg_ok c s) g -> Inv s -> wpr c Q s ->
  exists c' s', g = Cfg_ok c' s' /\ rel s s' /\ wpr c' Q s'.
Proof.
  intros Hs. remember (Cfg_ok c s) as g0. revert c s Q Heqg0.
  induction Hs; intros cc ss Q [= <- <-] HI Hw.
  - destruct c; cbn in H, Hw; specialize (Hw s (rel_refl _ HI)); try discriminate; injection H as <-.
    + destruct Hw.
    + destruct Hw as (nd & -> & H2). eexists _, _; split; [reflexivity|]; split; [now apply rel_refl|exact H2].
    + destruct (Hw i) as (p & s2 & -> & H2 & H3). eauto.
    + specialize (Hw i). eexists _, _. split; [reflexivity|]. split; auto. now apply scratch_rel.
    + destruct (Hw i) as (e & -> & H2). eexists _, _; split; [reflexivity|]; split; [now apply rel_refl|exact H2].
    + destruct (Hw i) as (s2 & -> & H2 & H3). eauto.
    + destruct (Hw i) as (e & s2 & -> & H2 & H3). eauto.
    + destruct (Hw i) as (s2 & -> & H2 & H3). eauto.
  - destruct (Hw s (rel_refl _ HI)) as (Q1 & Q2 & S1 & S2 & H1 & H2 & H3).
    destruct (IHHs _ _ Q1 eq_refl HI H1) as (? & ? & [= <- <-] & Hr & Hw').
    eexists _, _. split; [reflexivity|]. split; auto. intros s2 Hr2. exists Q1, Q2.
    split; [|split; [|split; [|split]]]; auto.
    + eapply wpr_rel; eauto.
    + eapply wpr_rel; [|exact H2]. eapply rel_trans; eauto.
    + intros. apply H3; auto. eapply rel_trans; eauto. eapply rel_trans; eauto.
  - destruct (Hw s (rel_refl _ HI)) as (Q1 & Q2 & S1 & S2 & H1 & H2 & H3).
    destruct (IHHs _ _ Q2 eq_refl HI H2) as (? & ? & [= <- <-] & Hr & Hw').
    eexists _, _. split; [reflexivity|]. split; auto. intros s2 Hr2. exists Q1, Q2.
    split; [|split; [|split; [|split]]]; auto.
    + eapply wpr_rel; [|exact H1]. eapply rel_trans; eauto.
    + eapply wpr_rel; eauto.
    + intros. apply H3; auto. eapply rel_trans; eauto. eapply rel_trans; eauto.
  - destruct (Hw s (rel_refl _ HI)) as (Q1 & Q2 & S1 & S2 & H1 & H2 & H3).
    destruct (IHHs _ _ Q1 eq_refl HI H1) as (? & ? & [=] & _).
  - destruct (Hw s (rel_refl _ HI)) as (Q1 & Q2 & S1 & S2 & H1 & H2 & H3).
    destruct (IHHs _ _ Q2 eq_refl HI H2) as (? & ? & [=] & _).
  - destruct (Hw s (rel_refl _ HI)) as (Q1 & Q2 & S1 & S2 & H1 & H2 & H3).
    eexists _, _. split; [reflexivity|]. split; [now apply rel_refl|].
    apply H3; [now apply rel_refl| |].
    + apply (H1 s). now apply rel_refl.
    + apply (H2 s). now apply rel_refl.
Qed.

Lemma wpr_steps c s g Q : steps (Cfg_ok c s) g -> Inv s -> wpr c Q s ->
  exists c' s', g = Cfg_ok c' s' /\ rel s s' /\ wpr c' Q s'.
Proof.
  intros H. remember (Cfg_ok c s) as g0. revert c s Heqg0.
  induction H; intros c s -> HI Hw.
  - eexists _, _. split; [reflexivity|]. split; auto. now apply rel_refl.
  - destruct (wpr_step _ _ _ _ H HI Hw) as (c' & s' & -> & Hr & Hw').
    destruct (IHsteps _ _ eq_refl (rel_inv _ _ Hr) Hw') as (c2 & s2 & -> & Hr2 & Hw2).
    eexists _, _. split; [reflexivity|]. split; auto. eapply rel_trans; eauto.
Qed.

(* no schedule goes wrong, and every result satisfies the postcondition *)
Theorem wpr_safe c s Q : Inv s -> wpr c Q s -> ~ steps (Cfg_ok c s) Wrong.
Proof. intros HI Hw H. destruct (wpr_steps _ _ _ _ H HI Hw) as (? & ? & [=] & _). Qed.
Theorem wpr_result c s Q e s' : Inv s -> wpr c Q s -> steps (Cfg_ok c s) (Cfg_ok (CRet e) s') ->
  rel s s' /\ Q e s'.
Proof.
  intros HI Hw H. destruct (wpr_steps _ _ _ _ H HI Hw) as (? & ? & [= <- <-] & Hr & Hw').
  split; auto. apply (Hw' s'). apply rel_refl. eapply rel_inv; eauto.
Qed.
Theorem wpr_run c s Q : Inv s -> wpr c Q s -> exists e s', run c s = Some (e, s') /\ rel s s' /\ Q e s'.
Proof.
  intros HI Hw. pose proof (run_steps c s) as H. destruct (run c s) as [[e s']|].
  - exists e, s'. split; auto. eapply wpr_result; eauto.
  - exfalso. eapply wpr_safe; eauto.
Qed.

Theorem wpr_run_on i c s Q : Inv s -> wpr c Q s -> exists e s', run_on i c s = Some (e, s') /\ rel s s' /\ Q e s'.
Proof.
  intros HI Hw. pose proof (run_on_steps i c s) as H. destruct (run_on i c s) as [[e s']|].
  - exists e, s'. split; auto. eapply wpr_result; eauto.
  - exfalso. eapply wpr_safe; eauto.
Qed.

(* forked or sequential, two sub-computations *)
Lemma wpr_fork2 lim cv c1 c2 f (Q Q1 Q2 : post) s : Inv s -> stable Q1 -> stable Q2 ->
  wpr c1 Q1 s -> wpr c2 Q2 s ->
  (forall e1 e2 s2, rel s s2 -> Q1 e1 s2 -> Q2 e2 s2 -> wpr (f e1 e2) Q s2) ->
  wpr (fork2 lim cv c1 c2 f) Q s.
Proof.
  intros HI S1 S2 H1 H2 H3. unfold fork2. destruct (mt_on && (lim <? cv)).
  - intros s' Hr. exists Q1, Q2. split; [|split; [|split; [|split]]]; auto.
    + eapply wpr_rel; eauto.
    + eapply wpr_rel; eauto.
    + intros. apply H3; auto. eapply rel_trans; eauto.
  - apply wpr_bind; auto. eapply wpr_mono; [auto| |exact H1]. intros e1 s1 Hr1 HQ1.
    pose proof (rel_inv _ _ Hr1) as HI1.
    apply wpr_bind; auto. eapply wpr_mono; [auto| |eapply wpr_rel; [exact Hr1|exact H2]].
    intros e2 s2 Hr2 HQ2. apply H3; auto. eapply rel_trans; eauto. eapply S1; eauto.
Qed.

(* reading a registered node *)
Lemma wpr_read k a nd f (Q : post) s : Inv s -> reg k (tb s k) a nd ->
  wpr (f nd) Q s -> wpr (CRead k (Node a) f) Q s.
Proof.
  intros HI Hr Hw s' Hr'. exists nd. split; [|eapply wpr_rel; eauto].
  apply (readn_reg). now apply (rel_ext _ _ k Hr').
Qed.
Lemma wpr_scratch k nd c (Q : post) s : Inv s -> wpr c Q s -> wpr (CScratch k nd c) Q s.
Proof.
  intros HI Hw s' Hr i. eapply wpr_rel; [|exact Hw]. eapply rel_trans; [exact Hr|].
  apply scratch_rel; auto. eapply rel_inv; eauto.
Qed.
Lemma wpr_intern k nd f (Q : post) s : Inv s -> nodeok k (tb s k) nd ->
  (forall b nd' s2, rel s s2 -> reg k (tb s2 k) b nd' -> nv nd' = nv nd -> wpr (f (Node b)) Q s2) ->
  wpr (CIntern k nd f) Q s.
Proof.
  intros HI Hok Hw s' Hr i. pose proof (rel_inv _ _ Hr) as HI'.
  destruct (intern_rel k i nd s' HI') as (b & nd' & s2 & H1 & H2 & H3 & H4).
  - eapply nodeok_ext; [apply (rel_ext _ _ k Hr)|auto].
  - exists (Node b), s2. split; auto. split; auto. eapply Hw; eauto. eapply rel_trans; eauto.
Qed.

End SafeW.
