(* SafeC.v -- C66: whatever the arithmetic does (rounding included), no client
   of the library can make it read unregistered memory, loop or get stuck. *)
From Coq Require Import ZArith Bool List Lia Arith.
From Verif Require Import Num State DD Gates GC Measure Api Wf Wp SafeA SafeW SafeO SafeG SafeM SafeR SafeP.
Import ListNotations.
Open Scope Z_scope.

Section SafeC.
Context {NO : NumOps} {AR : Arith NO} {CF : Cfg}.

Definition hok (s : state) (h : handle) : Prop :=
  Z.of_nat (h_n h) <= NQUBITS /\ (h_k h = KV -> (1 <= h_n h)%nat) /\ se (h_k h) (tb s (h_k h)) (h_n h) (h_e h).
Definition Aok (c : client) : Prop := Inv (fst c) /\ forall h, In h (snd c) -> hok (fst c) h.

Lemma hok_ext s s' h : sext s s' -> hok s h -> hok s' h.
Proof. intros Hr (H1 & H2 & H3). split; [exact H1|]. split; [exact H2|]. eapply se_ext; [apply Hr|exact H3]. Qed.
Lemma hok_rel s s' h : rel s s' -> hok s h -> hok s' h.
Proof. intros Hr. apply hok_ext. intros k. apply (rel_ext _ _ _ Hr). Qed.
Lemma sp_nt t n (e : edge) : se KV t n e -> is_term (en e) = false -> sp KV t n (en e).
Proof. intros [Hw|[_ Hw]] Ht; auto. rewrite Hw in Ht. discriminate. Qed.

Theorem seq_s i s hs n c : Inv s -> (forall h, In h hs -> hok s h) -> seq_call hs n c ->
  Z.of_nat n <= NQUBITS /\ exists e s', run_on i c s = Some (e, s') /\ rel s s' /\ se KM (tb s' KM) n e.
Proof.
  intros HI Hh Hc. destruct Hc as [n a b Ha Hb|n a b Ha Hb|n t0 t1 Hs Hq0 Hq1 Hne].
  - destruct (Hh _ Ha) as (A1 & _ & A3). destruct (Hh _ Hb) as (_ & _ & B3). cbn [h_k h_n h_e] in *.
    split; [exact A1|]. now apply run_mm_add.
  - destruct (Hh _ Ha) as (A1 & _ & A3). destruct (Hh _ Hb) as (_ & _ & B3). cbn [h_k h_n h_e] in *.
    split; [exact A1|]. now apply run_mm_multiply.
  - split; [apply Hs|]. apply run_makeSwap; auto. apply Hs.
Qed.

Theorem call_s s hs k n c : ntol <> n0 -> Inv s -> (forall h, In h hs -> hok s h) -> call hs k n c ->
  Z.of_nat n <= NQUBITS /\ (k = KV -> (1 <= n)%nat) /\ wpr c (SE k n) s.
Proof.
  intros Htol HI Hh Hc.
  destruct Hc as [n Hs|n Hs|n g t l Hs Hq Hl|n g t0 t1 l Hs Hq0 Hq1 Hne Hl|n t c Hs Hq0 Hq1 Hne|n t0 t1 Ht Hs Hq0 Hq1 Hne|n t0 t1 c Hs Hq0 Hq1 Hqc Hne Hc0 Hc1|n t0 t1 Hs Hq0 Hq1 Hne
    |n a b lim Ha Hb|n g v Ha Hb|n a b Ht Ha Hb|n a b Ht Ha Hb|na nb a b Ha Hb Hta Htb Hn|k n e a Ha|n Hs];
    try contradiction.
  - destruct Hs as [H1 H2]. split; [exact H2|]. split; [auto|]. now apply makeZeroState_s.
  - destruct Hs as [H1 H2]. split; [exact H2|]. split; [auto|]. now apply makeOneState_s.
  - split; [apply Hs|]. split; [discriminate|]. apply makeGate_s; auto. apply Hs.
  - split; [apply Hs|]. split; [discriminate|]. apply makeTwoQubitGate_s; auto. apply Hs.
  - split; [apply Hs|]. split; [discriminate|]. unfold CX. apply makeGate_s; auto. apply Hs.
  - split; [apply Hs|]. split; [discriminate|]. unfold CSWAP. apply makeTwoQubitGate_s; auto. apply Hs.
  - split; [apply Hs|]. split; [discriminate|]. unfold ISWAP. apply makeTwoQubitGate_s; auto. apply Hs.
  - destruct (Hh _ Ha) as (A1 & A2 & A3). destruct (Hh _ Hb) as (B1 & B2 & B3). cbn [h_k h_n h_e] in *.
    split; [exact A1|]. split; [exact A2|]. now apply vv_add_s.
  - destruct (Hh _ Ha) as (A1 & A2 & A3). destruct (Hh _ Hb) as (B1 & B2 & B3). cbn [h_k h_n h_e] in *.
    split; [exact A1|]. split; [exact B2|]. now apply mv_multiply_s.
  - destruct (Hh _ Ha) as (A1 & A2 & A3). destruct (Hh _ Hb) as (B1 & B2 & B3). cbn [h_k h_n h_e] in *.
    specialize (A2 eq_refl). specialize (B2 eq_refl).
    split; [exact Hn|]. split; [lia|]. apply vv_kronecker_s; auto; now apply sp_nt.
  - destruct (Hh _ Ha) as (A1 & A2 & A3). cbn [h_k h_n h_e] in *. split; [exact A1|]. split; [exact A2|].
    apply wpr_ret. intros s' Hr. apply (se_rel _ _ _ s); [exact Hr|]. unfold applyGlobal. now apply se_scale_r.
  - split; [apply Hs|]. split; [discriminate|]. apply wpr_ret. intros s' _. left. now left.
Qed.

Lemma in_rehandle k ns (es : list edge) h : In h (rehandle k ns es) -> exists n e, h = H k n e /\ In (n, e) (combine ns es).
Proof. unfold rehandle. rewrite in_map_iff. intros ([n e] & <- & Hi). exists n, e. auto. Qed.
Lemma combine_F2 {A B D} (P : B -> D -> Prop) : forall (ns : list A) es es', Forall2 P es es' ->
  forall n e', In (n, e') (combine ns es') -> exists e, In (n, e) (combine ns es) /\ P e e'.
Proof.
  induction ns as [|m ns IH]; intros es es' HF n e' Hi; [destruct Hi|].
  destruct HF as [|e e0 es es' He HF]; [destruct Hi|]. cbn in Hi. destruct Hi as [Hi|Hi].
  - inversion Hi; subst. exists e. split; auto. now left.
  - destruct (IH es es' HF n e' Hi) as (e1 & H1 & H2). exists e1. split; auto. now right.
Qed.
Lemma live_of k s ns (es : list edge) ms : length ns = length es ->
  (forall h, In h (rehandle k ns es ++ ms) -> hok s h) -> live k (tb s k) es.
Proof.
  intros Hl Hh e He. destruct (In_nth _ _ zeroE He) as (i & Hi & <-).
  assert (Hin : In (nth i ns 0%nat, nth i es zeroE) (combine ns es)).
  { rewrite <- combine_nth by auto. apply nth_In. rewrite combine_length. lia. }
  destruct (Hh (H k (nth i ns 0%nat) (nth i es zeroE))) as (A1 & A2 & A3).
  { apply in_or_app; left. unfold rehandle. apply in_map_iff. eexists; split; [|exact Hin]. reflexivity. }
  exists (nth i ns 0%nat). cbn [h_k h_n h_e] in *. split; [unfold NQUBITS in A1; lia|exact A3].
Qed.
Lemma evict_inv s s' : Inv s -> evicted s s' -> Inv s'.
Proof.
  intros HI (E1 & E2 & E3 & E4 & E5 & E6 & E7). constructor.
  - rewrite E1. apply HI.
  - intros i k lv key e He. rewrite E1. eapply HI. apply E5, He.
  - intros i k lv key e He Hv. rewrite E1. eapply HI; [apply E6; eauto|auto].
  - intros p x Hp. rewrite E1, E2. rewrite E2 in Hp. now apply HI.
  - intros i k lv key. rewrite E7. apply HI.
Qed.
Lemma tb_sext s s' : tb s' = tb s -> sext s s'.
Proof. intros H k. rewrite H. apply ext_refl. Qed.

Theorem Aok_step c c' : ntol <> n0 -> astep c c' -> Aok c -> Aok c'.
Proof.
  intros Htol Hs [HI Hh]. destruct Hs as [s hs k n c e s' Hc Hst|s hs hs' Hi|s hs n m e Hi Hnm Hm|s ns es ms i force es' s' Hl Hk Hg|s ns es vs i force es' s' Hl Hk Hg
    |s hs v m|s hs n e l s' Hi Ht Hn Hp|s hs n e col ths r e' s' Hi Ht Hw Hl Hu Hm|s hs n e q eps th r s' Hi Ht Hw Hq Hu Hm|s hs n e q eps r s' Hi Ht Hq Hm|s hs s' He|s hs n c i e s' Hc Hx];
    cbn [fst snd] in *.
  - destruct (call_s _ _ _ _ _ Htol HI Hh Hc) as (A1 & A2 & Hw).
    destruct (wpr_result _ _ _ _ _ HI Hw Hst) as [Hr Hq]. split; [exact (rel_inv _ _ Hr)|].
    cbn [fst snd]. intros h [<-|Hin].
    + split; [exact A1|]. split; [exact A2|exact Hq].
    + eapply hok_rel; eauto.
  - split; [exact HI|]. cbn [fst snd]. auto.
  - split; [exact HI|]. cbn [fst snd]. intros h [<-|Hin]; auto. destruct (Hh _ Hi) as (A1 & A2 & A3). cbn [h_k h_n h_e] in *.
    split; [exact Hm|]. split; [discriminate|]. eapply se_KM_up; eauto.
  - pose proof (live_of _ _ _ _ _ Hl Hh) as Hlv.
    destruct (gc_s i es force s HI Hlv) as (es1 & s1 & G1 & G2 & G3 & G4).
    rewrite G1 in Hg. inversion Hg; subst es1 s1. split; [exact G2|]. cbn [fst snd]. intros h Hin. apply in_app_or in Hin as [Hin|Hin].
    + apply in_rehandle in Hin as (n & e' & -> & Hin).
      destruct (combine_F2 _ _ _ _ G4 _ _ Hin) as (e & Hin' & Hw).
      destruct (Hh (H KV n e)) as (A1 & A2 & A3).
      { apply in_or_app; left. unfold rehandle. apply in_map_iff. exists (n, e). auto. }
      split; [exact A1|]. split; [exact A2|]. apply Hw. exact A3.
    + destruct (Hh h (in_or_app _ _ _ (or_intror Hin))) as (A1 & A2 & A3). rewrite (Hk _ Hin) in *.
      split; [exact A1|]. rewrite (Hk _ Hin). split; [discriminate|]. rewrite G3. exact A3.
  - pose proof (live_of _ _ _ _ _ Hl Hh) as Hlv.
    destruct (gc_mat_s i es force s HI Hlv) as (es1 & s1 & G1 & G2 & G3 & G4).
    rewrite G1 in Hg. inversion Hg; subst es1 s1. split; [exact G2|]. cbn [fst snd]. intros h Hin. apply in_app_or in Hin as [Hin|Hin].
    + apply in_rehandle in Hin as (n & e' & -> & Hin).
      destruct (combine_F2 _ _ _ _ G4 _ _ Hin) as (e & Hin' & Hw).
      destruct (Hh (H KM n e)) as (A1 & A2 & A3).
      { apply in_or_app; left. unfold rehandle. apply in_map_iff. exists (n, e). auto. }
      split; [exact A1|]. split; [exact A2|]. apply Hw. exact A3.
    + destruct (Hh h (in_or_app _ _ _ (or_intror Hin))) as (A1 & A2 & A3). rewrite (Hk _ Hin) in *.
      split; [exact A1|]. rewrite (Hk _ Hin). split; [exact A2|]. rewrite G3. exact A3.
  - split; [|exact Hh]. destruct HI as [I1 I2 I3 I4 I5]. constructor; auto.
  - destruct (Hh _ Hi) as (A1 & A2 & A3). cbn [h_k h_n h_e] in *.
    destruct (probabilities_s s n e HI Hn (sp_nt _ _ _ A3 Ht)) as (l1 & s1 & P1 & P2 & P3).
    rewrite P1 in Hp. inversion Hp; subst. split; [exact P3|]. cbn [fst snd]. intros h Hin. eapply hok_ext; [apply tb_sext, P2|auto].
  - destruct (Hh _ Hi) as (A1 & A2 & A3). cbn [h_k h_n h_e] in *.
    destruct (measureAll_s s n e col ths HI A1 (sp_nt _ _ _ A3 Ht) Hl) as (str & e1 & s1 & P1 & P2 & P3 & _).
    { apply Forall_forall. exact Hu. }
    rewrite P1 in Hm. inversion Hm; subst. split; [apply P2|]. cbn [fst snd].
    intros h [<-|Hin]; [split; [exact A1|]; split; [exact A2|exact P3]|]. eapply hok_ext; [apply P2|auto].
  - destruct (Hh _ Hi) as (A1 & A2 & A3). cbn [h_k h_n h_e] in *. unfold qubit in Hq.
    pose proof (measureOneCollapsing_s s n e (Z.to_nat q) eps th HI A1 (sp_nt _ _ _ A3 Ht) ltac:(lia)) as HM.
    rewrite Z2Nat.id in HM by lia. destruct HM as (r1 & s1 & M1 & M2 & M3). rewrite M1 in Hm. inversion Hm; subst.
    split; [apply M2|]. cbn [fst snd]. assert (Hold : forall h, In h hs -> hok s' h).
    { intros h Hin. eapply hok_ext; [apply M2|auto]. }
    destruct r as [[b e']|]; [|exact Hold]. intros h [<-|Hin]; [split; [exact A1|]; split; [exact A2|exact M3]|auto].
  - destruct (Hh _ Hi) as (A1 & A2 & A3). cbn [h_k h_n h_e] in *. unfold qubit in Hq.
    pose proof (measureOne_s s n e (Z.to_nat q) eps HI A1 (sp_nt _ _ _ A3 Ht) ltac:(lia)) as HM.
    rewrite Z2Nat.id in HM by lia. destruct HM as (r1 & s1 & M1 & M2).
    rewrite M1 in Hm. inversion Hm; subst. split; [apply M2|]. cbn [fst snd]. intros h Hin. eapply hok_ext; [apply M2|auto].
  - split; [eapply evict_inv; eauto|]. cbn [fst snd]. intros h Hin. eapply hok_ext; [apply tb_sext, He|auto].
  - destruct (seq_s i s hs n c HI Hh Hc) as (A1 & e1 & s1 & X1 & R1 & D1). rewrite X1 in Hx. injection Hx as <- <-.
    split; [exact (rel_inv _ _ R1)|]. cbn [fst snd]. intros h [<-|Hin].
    + split; [exact A1|]. split; [discriminate|exact D1].
    + eapply hok_rel; eauto.
Qed.

Theorem reachable_s c : ntol <> n0 -> reachable c -> Aok c.
Proof.
  intros Htol. induction 1 as [|c c' _ IH Hs].
  - split; [apply Inv_init|]. intros h [].
  - eapply Aok_step; eauto.
Qed.

(* ---- the property ---- *)
(* every call, under every schedule of its fibers: no bad access, no infinite
   schedule, no deadlock *)
Theorem C66_calls_safe s hs k n c : ntol <> n0 -> reachable (s, hs) -> call hs k n c ->
  ~ steps (Cfg_ok c s) Wrong /\
  (forall f : nat -> config, f 0%nat = Cfg_ok c s -> ~ forall i, step (f i) (f (S i))) /\
  (forall c' s', steps (Cfg_ok c s) (Cfg_ok c' s') ->
     (exists e, c' = CRet e) \/ (exists c'' s'', step (Cfg_ok c' s') (Cfg_ok c'' s''))) /\
  (forall i, exists e s', run_on i c s = Some (e, s')).
Proof.
  intros Ht Hr Hc. destruct (reachable_s _ Ht Hr) as [HI Hh]. cbn [fst snd] in *.
  destruct (call_s _ _ _ _ _ Ht HI Hh Hc) as (_ & _ & Hw).
  pose proof (wpr_safe _ _ _ HI Hw) as Hsafe. split; [exact Hsafe|]. split; [|split].
  - intros f H0 Hf. pose proof (schedules_finite (f 0%nat)) as Ha.
    assert (HH : forall g, Acc nstep g -> forall i, g <> f i).
    { induction 1 as [g _ IH]. intros i ->. apply (IH (f (S i))) with (i := S i); [|reflexivity]. unfold nstep. apply Hf. }
    exact (HH _ Ha 0%nat eq_refl).
  - intros c' s' Hst. destruct (step_progress c' s') as [X|[[c'' s''|] X]]; [now left|right; eauto|].
    exfalso. apply Hsafe. eapply steps_trans; [exact Hst|]. now apply steps_one.
  - intros i. destruct (wpr_run_on i _ _ _ HI Hw) as (e & s' & He & _). eauto.
Qed.
Theorem C66_seq_calls_safe s hs i n c : ntol <> n0 -> reachable (s, hs) -> seq_call hs n c ->
  exists e s', run_on i c s = Some (e, s').
Proof.
  intros Ht Hr Hc. destruct (reachable_s _ Ht Hr) as [HI Hh]. cbn [fst snd] in *.
  destruct (seq_s i s hs n c HI Hh Hc) as (_ & e & s' & He & _). eauto.
Qed.
Theorem C66_collections_safe s ns es ms i force : ntol <> n0 -> length ns = length es ->
  (reachable (s, rehandle KV ns es ++ ms) -> gc i es force s <> None) /\
  (reachable (s, rehandle KM ns es ++ ms) -> gc_mat i es force s <> None).
Proof.
  intros Ht Hl. split; intros Hr; destruct (reachable_s _ Ht Hr) as [HI Hh]; cbn [fst snd] in *.
  - destruct (gc_s i es force s HI (live_of _ _ _ _ _ Hl Hh)) as (es1 & s1 & -> & _). discriminate.
  - destruct (gc_mat_s i es force s HI (live_of _ _ _ _ _ Hl Hh)) as (es1 & s1 & -> & _). discriminate.
Qed.
Theorem C66_measurement_safe s hs n e : ntol <> n0 -> reachable (s, hs) -> In (H KV n e) hs -> is_term (en e) = false ->
  ((n <= 30)%nat -> probabilities e s <> None) /\
  (forall col ths, (n <= length ths)%nat -> (forall x, In x ths -> unif x) -> measureAll e col ths s <> None) /\
  (forall q eps th, qubit n q -> measureOneCollapsing e q eps th s <> None) /\
  (forall q eps, qubit n q -> measureOne e q eps s <> None).
Proof.
  intros Ht Hr Hi Hnt. destruct (reachable_s _ Ht Hr) as [HI Hh]. cbn [fst snd] in *.
  destruct (Hh _ Hi) as (A1 & A2 & A3). cbn [h_k h_n h_e] in *. pose proof (sp_nt _ _ _ A3 Hnt) as Hp.
  split; [|split; [|split]].
  - intros Hn. destruct (probabilities_s s n e HI Hn Hp) as (l & s' & -> & _). discriminate.
  - intros col ths Hl Hu. destruct (measureAll_s s n e col ths HI A1 Hp Hl) as (str & e' & s' & -> & _); [|discriminate].
    apply Forall_forall. exact Hu.
  - intros q eps th Hq. unfold qubit in Hq.
    pose proof (measureOneCollapsing_s s n e (Z.to_nat q) eps th HI A1 Hp ltac:(lia)) as HM. rewrite Z2Nat.id in HM by lia.
    destruct HM as (r & s' & -> & _). discriminate.
  - intros q eps Hq. unfold qubit in Hq.
    pose proof (measureOne_s s n e (Z.to_nat q) eps HI A1 Hp ltac:(lia)) as HM. rewrite Z2Nat.id in HM by lia.
    destruct HM as (r & s' & -> & _). discriminate.
Qed.
Theorem C66_readout_safe s hs n e : ntol <> n0 -> reachable (s, hs) ->
  (In (H KV n e) hs -> (n <= 30)%nat -> is_term (en e) = false -> getVector s e <> None) /\
  (In (H KM n e) hs -> (n <= 30)%nat -> getMatrix s e (Z.of_nat n) <> None) /\
  (In (H KV n e) hs -> get_nNodes s e <> None) /\
  (In (H KV n e) hs -> is_term (en e) = false -> forall s2 hs2 i, reachable (s2, hs2) ->
     exists cs, save_binary s e = Some cs /\ load_binary i cs s2 <> None).
Proof.
  intros Ht Hr. destruct (reachable_s _ Ht Hr) as [HI Hh]. cbn [fst snd] in *.
  split; [|split; [|split]]; intros Hi; destruct (Hh _ Hi) as (A1 & A2 & A3); cbn [h_k h_n h_e] in *.
  - intros Hn Hnt. now apply (getVector_s s n).
  - intros Hn. now apply getMatrix_s.
  - apply (nNodes_s s n); auto. unfold NQUBITS in A1. lia.
  - intros Hnt s2 hs2 i Hr2. destruct (reachable_s _ Ht Hr2) as [HI2 _]. cbn [fst] in HI2.
    destruct (save_load_s i s s2 n e HI HI2) as (cs & e' & s' & Hs & Hl & _); [unfold NQUBITS in A1; lia|now apply sp_nt|].
    exists cs. split; [exact Hs|]. rewrite Hl. discriminate.
Qed.
(* mm_kronecker, called on reachable gates *)
Theorem C66_mm_kronecker_safe s hs na nb a b : ntol <> n0 -> reachable (s, hs) -> In (H KM na a) hs -> In (H KM nb b) hs ->
  Z.of_nat (na + nb) <= NQUBITS -> ~ steps (Cfg_ok (mm_kronecker a b) s) Wrong.
Proof.
  intros Ht Hr Ha Hb Hn. destruct (reachable_s _ Ht Hr) as [HI Hh]. cbn [fst snd] in *.
  destruct (Hh _ Ha) as (A1 & A2 & A3). destruct (Hh _ Hb) as (B1 & B2 & B3). cbn [h_k h_n h_e] in *.
  apply (wpr_safe _ _ (SE KM (na + nb)) HI). now apply (mm_kronecker_s na nb).
Qed.
End SafeC.
