(* Props2.v -- properties C13, C14, C16-C22 and the rest of C15: collections,
   serialisation, probabilities and measurement, from every reachable client
   state. *)
From Coq Require Import Reals Lra Psatz ZArith Bool List Lia Arith FunctionalExtensionality.
From Coquelicot Require Import Complex.
From Verif Require Import Num State DD Gates GC Measure Api RNum Wf Sums Err Inv Wp Make Add MulV Canon MM MM2
  GateP StateP Kron Spec SpecP Readout GCP MeasureP MeasAllP MeasOneP ApplyP ApiP Obs Props1.
Import ListNotations.
Open Scope Z_scope.

Section Props2.
Context (tau : R) {HTol : Tol tau}.
Let Htau : (0 <= tau < 1 / 2)%R := tol_ok.
#[local] Hint Extern 0 NumOps => exact (RNum tau) : typeclass_instances.
Context {CF : Cfg}.
Notation state := (@state (RNum tau)).
Notation edge := (@edge (RNum tau)).
Notation handle := (@handle (RNum tau)).
Notation content := (@content (RNum tau)).
Notation Inv := (Inv tau).
Notation rel := (rel tau).
Notation dn := (dn tau).
Notation val := (val tau).
Notation wfe := (wfe tau).
Notation wfp := (wfp tau).
Notation E := (@E (RNum tau)).
Notation vecof := (vecof tau).
Notation matof := (matof tau).
Notation reads_v := (reads_v tau).
Notation reads_m := (reads_m tau).
Notation reads_v_upto := (reads_v_upto tau).
Notation reads_m_upto := (reads_m_upto tau).
Ltac toR := change (@num (RNum tau)) with R in *.

(* ---- handles kept across a change of the tables ---- *)
Lemma keep_reads_v s s' d n (e e' : edge) v X : Inv s -> Inv s' -> (1 <= n)%nat -> (0 <= d)%R ->
  keep tau KV (tb s KV) (tb s' KV) d e e' -> wfe KV (tb s KV) n e -> reads_v s n e v -> (Cmod (ew e) <= X)%R ->
  reads_v_upto (X * (INR n * d)) s' n e' v.
Proof.
  intros HI I' Hn Hd [_ Hk] Hw Hv HX. destruct (Hk n Hw) as [Hw' Hc].
  exists (vecof s' n e'). split; [now apply (reads_vecof tau)|]. intros i Hi.
  rewrite <- (Logic.proj1 Hv i Hi). eapply Rle_trans; [apply Hc|].
  apply Rmult_le_compat_r; auto. apply Rmult_le_pos; auto. apply pos_INR.
Qed.
Lemma keep_reads_m s s' d n (e e' : edge) A X : Inv s -> Inv s' -> (0 <= d)%R ->
  keep tau KM (tb s KM) (tb s' KM) d e e' -> wfe KM (tb s KM) n e -> reads_m s n e A -> (Cmod (ew e) <= X)%R ->
  reads_m_upto (X * (INR n * d)) s' n e' A.
Proof.
  intros HI I' Hd [_ Hk] Hw Hv HX. destruct (Hk n Hw) as [Hw' Hc].
  exists (matof s' n e'). split; [now apply (reads_matof tau)|]. intros i j Hi Hj.
  rewrite <- (Logic.proj1 Hv i j Hi Hj). eapply Rle_trans; [apply Hc|].
  apply Rmult_le_compat_r; auto. apply Rmult_le_pos; auto. apply pos_INR.
Qed.
Lemma keeps_nth k t t' es es' : keeps tau k t t' true es es' -> length es' = length es /\
  forall j e e', nth_error es j = Some e -> nth_error es' j = Some e' -> keep tau k t t' (if Nat.eqb j 0 then 0 else 2 * tau)%R e e'.
Proof.
  destruct es as [|e r], es' as [|e' r']; cbn [keeps]; try tauto.
  - split; auto. intros [|j] ? ? Hx; discriminate.
  - intros [H1 H2]. split.
    + cbn. f_equal. symmetry. eapply Forall2_len; eauto.
    + intros [|j] x x' Hx Hx'; cbn in Hx, Hx'.
      * injection Hx as <-. injection Hx' as <-. exact H1.
      * cbn [Nat.eqb]. revert j Hx Hx'. induction H2 as [|a b l l' Hab _ IH]; intros [|j] Hx Hx'; try discriminate; cbn in *.
        -- injection Hx as <-. injection Hx' as <-. exact Hab.
        -- eapply IH; eauto.
Qed.
Lemma rehandle_nth k ns (es : list edge) j n e : nth_error ns j = Some n -> nth_error es j = Some e -> In (H k n e) (rehandle k ns es).
Proof.
  intros Hn He. unfold rehandle. apply in_map_iff. exists (n, e). split; auto.
  revert es j Hn He. induction ns as [|a ns IH]; intros [|b es] [|j] Hn He; try discriminate; cbn in *.
  - injection Hn as <-. injection He as <-. now left.
  - right. eapply IH; eauto.
Qed.
(* how far the j-th collected handle may move: not at all for the first *)
Definition gc_slack (j n : nat) (X : R) : R := if Nat.eqb j 0 then 0%R else (X * (INR n * (2 * tau)))%R.

(* ---- C13 ---- *)
Theorem C13_gc s ns es ms i force : reachable (s, rehandle KV ns es ++ ms) -> length ns = length es -> of_kind KM ms ->
  exists es' s', gc i es force s = Some (es', s') /\ length es' = length es /\
    (forall j n e e' v X, nth_error ns j = Some n -> nth_error es j = Some e -> nth_error es' j = Some e' ->
       reads_v s n e v -> (forall b, (b < 2 ^ n)%nat -> (Cmod (v b) <= X)%R) ->
       reads_v_upto (gc_slack j n X) s' n e' v /\ (tau = 0%R -> reads_v s' n e' v)) /\
    (forall m h A, In (H KM m h) ms -> reads_m s m h A -> reads_m s' m h A) /\
    (p_allocs (pools (tb s KV) i) < u64 (gc_v s) -> force = false -> es' = es /\ s' = s) /\
    (u64 (gc_v s) <= p_allocs (pools (tb s KV) i) \/ force = true ->
       (forall i' k lv key, ac s' i' k lv key = None) /\ (forall p, probs s' p = None)) /\
    reachable (s', rehandle KV ns es' ++ ms).
Proof.
  intros Hr Hlen Hms. pose proof (reach_Inv tau _ _ Hr) as HI.
  pose proof (reachable_ok tau _ Hr) as [_ Hh]. cbn [fst snd] in Hh.
  destruct (gc_spec tau i es force s HI (live_of tau KV s ns es ms Hlen Hh)) as (es' & s' & Hg & I' & Htm & Hk & Hbelow & Habove).
  destruct (keeps_nth _ _ _ _ _ Hk) as [Hl Hj].
  exists es', s'. split; [exact Hg|]. split; [exact Hl|]. split; [|split; [|split; [|split]]].
  - intros j n e e' v X Hn He He' Hv HX.
    assert (Hin : In (H KV n e) (rehandle KV ns es ++ ms)) by (apply in_or_app; left; eapply rehandle_nth; eauto).
    destruct (reach_V tau _ _ _ _ Hr Hin) as (A1 & A2 & A3).
    destruct (C12_root_weight_max_v tau _ _ _ _ _ Hr Hin Hv) as (_ & b & Hb & Ew).
    assert (HwX : (Cmod (ew e) <= X)%R) by (rewrite <- Ew; auto).
    pose proof (Hj j e e' He He') as Hke.
    assert (Hu : reads_v_upto (gc_slack j n X) s' n e' v).
    { unfold gc_slack. destruct (Nat.eqb j 0) eqn:Ej; try rewrite Ej in Hke.
      - replace 0%R with (X * (INR n * 0))%R by ring. apply (keep_reads_v s s' 0 n e e' v X); auto; lra.
      - apply (keep_reads_v s s' (2 * tau) n e e' v X); auto; lra. }
    split; auto. intros H0. eapply (upto_0_v tau); [|exact Hu]. unfold gc_slack. rewrite H0. destruct (Nat.eqb j 0); ring.
  - intros m h A Hi RA. destruct (reach_M tau _ _ _ _ Hr (in_or_app _ _ _ (or_intror Hi))) as (A1 & A3).
    eapply (reads_m_meq tau); [exact (Logic.proj1 RA)|].
    replace (matof s m h) with (matof s' m h) by (unfold matof, Obs.matof; now rewrite Htm).
    apply (reads_matof tau); auto. now rewrite Htm.
  - exact Hbelow.
  - exact Habove.
  - eapply r_step; [exact Hr|]. eapply a_gc; eauto.
Qed.
(* ---- C14 ---- *)
Theorem C14_gc_mat s ns es vs i force : reachable (s, rehandle KM ns es ++ vs) -> length ns = length es -> of_kind KV vs ->
  exists es' s', gc_mat i es force s = Some (es', s') /\ length es' = length es /\
    (forall j n e e' A X, nth_error ns j = Some n -> nth_error es j = Some e -> nth_error es' j = Some e' ->
       reads_m s n e A -> (forall a b, (a < 2 ^ n)%nat -> (b < 2 ^ n)%nat -> (Cmod (A a b) <= X)%R) ->
       reads_m_upto (gc_slack j n X) s' n e' A /\ (tau = 0%R -> reads_m s' n e' A)) /\
    (forall m h v, In (H KV m h) vs -> reads_v s m h v -> reads_v s' m h v) /\
    (p_allocs (pools (tb s KM) i) < u64 (gc_m s) -> force = false -> es' = es /\ s' = s) /\
    (u64 (gc_m s) <= p_allocs (pools (tb s KM) i) \/ force = true ->
       forall i' k lv key, ac s' i' k lv key = None) /\
    reachable (s', rehandle KM ns es' ++ vs).
Proof.
  intros Hr Hlen Hms. pose proof (reach_Inv tau _ _ Hr) as HI.
  pose proof (reachable_ok tau _ Hr) as [_ Hh]. cbn [fst snd] in Hh.
  destruct (gc_mat_spec tau i es force s HI (live_of tau KM s ns es vs Hlen Hh)) as (es' & s' & Hg & I' & Htm & Hk & _ & Hbelow & Habove).
  destruct (keeps_nth _ _ _ _ _ Hk) as [Hl Hj].
  exists es', s'. split; [exact Hg|]. split; [exact Hl|]. split; [|split; [|split; [|split]]].
  - intros j n e e' v X Hn He He' Hv HX.
    assert (Hin : In (H KM n e) (rehandle KM ns es ++ vs)) by (apply in_or_app; left; eapply rehandle_nth; eauto).
    destruct (reach_M tau _ _ _ _ Hr Hin) as (A1 & A3).
    destruct (C12_root_weight_max_m tau _ _ _ _ _ Hr Hin Hv) as (_ & a & b & Ha & Hb & Ew).
    assert (HwX : (Cmod (ew e) <= X)%R) by (rewrite <- Ew; auto).
    pose proof (Hj j e e' He He') as Hke.
    assert (Hu : reads_m_upto (gc_slack j n X) s' n e' v).
    { unfold gc_slack. destruct (Nat.eqb j 0) eqn:Ej; try rewrite Ej in Hke.
      - replace 0%R with (X * (INR n * 0))%R by ring. apply (keep_reads_m s s' 0 n e e' v X); auto; lra.
      - apply (keep_reads_m s s' (2 * tau) n e e' v X); auto; lra. }
    split; auto. intros H0. eapply (upto_0_m tau); [|exact Hu]. unfold gc_slack. rewrite H0. destruct (Nat.eqb j 0); ring.
  - intros m h A Hi RA. destruct (reach_V tau _ _ _ _ Hr (in_or_app _ _ _ (or_intror Hi))) as (A1 & A2 & A3).
    eapply (reads_v_veq tau); [exact (Logic.proj1 RA)|].
    replace (vecof s m h) with (vecof s' m h) by (unfold vecof, Obs.vecof; now rewrite Htm).
    apply (reads_vecof tau); auto. now rewrite Htm.
  - exact Hbelow.
  - exact Habove.
  - eapply r_step; [exact Hr|]. eapply a_gc_mat; eauto.
Qed.

(* ---- C16 : serialisation ---- *)
Definition children_first (cs : list content) : Prop :=
  forall j c, (1 <= j)%nat -> nth_error cs j = Some c -> forall x, In x (c_ix c) -> (x < j)%nat.
Lemma EI_children k t ps cs m : TInv tau k t -> EI tau k t ps cs m -> children_first cs.
Proof.
  intros HT He j c Hj Hc x Hx. destruct (ei_desc _ _ _ _ _ _ He j c Hj Hc) as (a & nd & _ & Hr & _ & _ & Hl & Hix).
  destruct (nth_in_ex _ _ 0%nat Hx) as (i & Hi & <-). apply Hix. now rewrite <- Hl.
Qed.
Lemma okp_le k t n p : TInv tau k t -> GCP.okp tau k t n p -> Z.of_nat n <= NQUBITS -> (n <= 101)%nat.
Proof. intros _ _ Hn. unfold NQUBITS in Hn. lia. Qed.
(* The sender is any reachable client, the receiver any other one (another
   process, or an earlier or later moment of the same one). *)
Theorem C16_roundtrip_v s hs n e v X s2 hs2 i : reachable (s, hs) -> In (H KV n e) hs -> reads_v s n e v ->
  (forall b, (b < 2 ^ n)%nat -> (Cmod (v b) <= X)%R) -> reachable (s2, hs2) ->
  exists j cs q t3, node_to_vec KV s (en e) = Some (j, cs) /\ children_first cs /\
    vec_to_node KV i false cs (tb s2 KV) = Some (q, t3) /\
    let s3 := set_tb s2 KV t3 in
    reads_v_upto (X * (INR n * (2 * tau))) s3 n (E (ew e) q) v /\ (tau = 0%R -> reads_v s3 n (E (ew e) q) v) /\
    (forall m h w, In (H KV m h) hs2 -> reads_v s2 m h w -> reads_v s3 m h w).
Proof.
  intros Hr Hi Hv HX Hr2. pose proof (reach_Inv tau _ _ Hr) as HI. pose proof (reach_Inv tau _ _ Hr2) as I2.
  destruct (reach_V tau _ _ _ _ Hr Hi) as (A1 & A2 & A3).
  destruct (C12_root_weight_max_v tau _ _ _ _ _ Hr Hi Hv) as (_ & b & Hb & Ew).
  assert (HwX : (Cmod (ew e) <= X)%R) by (rewrite <- Ew; auto).
  pose proof (wfe_okp tau _ _ _ _ A3) as Hok.
  assert (H101 : (n <= 101)%nat) by (unfold NQUBITS in A1; lia).
  destruct (node_to_vec_spec tau KV s n (en e) (inv_tb _ _ HI KV) H101 Hok) as (j0 & cs0 & ps & m & E0 & HE & _).
  destruct (roundtrip tau KV i false s n (en e) (tb s2 KV) (inv_tb _ _ HI KV) (inv_tb _ _ I2 KV) H101 Hok)
    as (j & cs & q & t3 & E1 & E2 & T3 & X3 & G); [discriminate|].
  rewrite E0 in E1. injection E1 as <- <-.
  pose proof (Inv_set_tb tau s2 KV t3 I2 T3 X3) as R3. pose proof (rel_inv _ _ _ R3) as I3.
  assert (Ht : tb (set_tb s2 KV t3) KV = t3) by reflexivity.
  exists j0, cs0, q, t3. split; [exact E0|]. split; [eapply EI_children; [apply HI|exact HE]|]. split; [exact E2|]. cbn zeta.
  assert (Hu : reads_v_upto (X * (INR n * (2 * tau))) (set_tb s2 KV t3) n (E (ew e) q) v).
  { eapply (keep_reads_v s); eauto; [lra|]. rewrite Ht. eapply (good_keep tau); [lra|exact G]. }
  split; [exact Hu|]. split.
  - intros H0. eapply (upto_0_v tau); [|exact Hu]. rewrite H0. ring.
  - intros m' h w Hin Hw. destruct (reach_V tau _ _ _ _ Hr2 Hin) as (B1 & B2 & B3).
    eapply (reads_v_veq tau); [exact (Logic.proj1 Hw)|]. rewrite <- (vecof_rel tau s2 _ m' h I2 R3 B3).
    apply (reads_vecof tau); auto. eapply (wfe_ext tau); [apply (rel_ext _ _ _ KV R3)|exact B3].
Qed.
Theorem C16_roundtrip_m s hs n e A X s2 hs2 i : reachable (s, hs) -> In (H KM n e) hs -> reads_m s n e A ->
  (forall a b, (a < 2 ^ n)%nat -> (b < 2 ^ n)%nat -> (Cmod (A a b) <= X)%R) -> reachable (s2, hs2) ->
  exists j cs q t3, node_to_vec KM s (en e) = Some (j, cs) /\ children_first cs /\
    vec_to_node KM i false cs (tb s2 KM) = Some (q, t3) /\
    let s3 := set_tb s2 KM t3 in
    reads_m_upto (X * (INR n * (2 * tau))) s3 n (E (ew e) q) A /\ (tau = 0%R -> reads_m s3 n (E (ew e) q) A) /\
    (forall m h w, In (H KM m h) hs2 -> reads_m s2 m h w -> reads_m s3 m h w).
Proof.
  intros Hr Hi Hv HX Hr2. pose proof (reach_Inv tau _ _ Hr) as HI. pose proof (reach_Inv tau _ _ Hr2) as I2.
  destruct (reach_M tau _ _ _ _ Hr Hi) as (A1 & A3).
  destruct (C12_root_weight_max_m tau _ _ _ _ _ Hr Hi Hv) as (_ & a & b & Ha & Hb & Ew).
  assert (HwX : (Cmod (ew e) <= X)%R) by (rewrite <- Ew; auto).
  pose proof (wfe_okp tau _ _ _ _ A3) as Hok.
  assert (H101 : (n <= 101)%nat) by (unfold NQUBITS in A1; lia).
  destruct (node_to_vec_spec tau KM s n (en e) (inv_tb _ _ HI KM) H101 Hok) as (j0 & cs0 & ps & m & E0 & HE & _).
  destruct (roundtrip tau KM i false s n (en e) (tb s2 KM) (inv_tb _ _ HI KM) (inv_tb _ _ I2 KM) H101 Hok)
    as (j & cs & q & t3 & E1 & E2 & T3 & X3 & G); [discriminate|].
  rewrite E0 in E1. injection E1 as <- <-.
  pose proof (Inv_set_tb tau s2 KM t3 I2 T3 X3) as R3. pose proof (rel_inv _ _ _ R3) as I3.
  assert (Ht : tb (set_tb s2 KM t3) KM = t3) by reflexivity.
  exists j0, cs0, q, t3. split; [exact E0|]. split; [eapply EI_children; [apply HI|exact HE]|]. split; [exact E2|]. cbn zeta.
  assert (Hu : reads_m_upto (X * (INR n * (2 * tau))) (set_tb s2 KM t3) n (E (ew e) q) A).
  { eapply (keep_reads_m s); eauto; [lra|]. rewrite Ht. eapply (good_keep tau); [lra|exact G]. }
  split; [exact Hu|]. split.
  - intros H0. eapply (upto_0_m tau); [|exact Hu]. rewrite H0. ring.
  - intros m' h w Hin Hw. destruct (reach_M tau _ _ _ _ Hr2 Hin) as (B1 & B3).
    eapply (reads_m_meq tau); [exact (Logic.proj1 Hw)|]. rewrite <- (matof_rel tau s2 _ m' h I2 R3 B3).
    apply (reads_matof tau); auto. eapply (wfe_ext tau); [apply (rel_ext _ _ _ KM R3)|exact B3].
Qed.

(* ---- C17 ---- *)
Theorem C17_get_nNodes s hs n e : reachable (s, hs) -> In (H KV n e) hs ->
  exists l, get_nNodes s e = Some (length l) /\ NoDup l /\ forall a, In a l <-> reach tau KV s (en e) (Node a).
Proof.
  intros Hr Hi. destruct (reach_V tau _ _ _ _ Hr Hi) as (A1 & A2 & A3).
  assert (H101 : (n <= 100)%nat) by (unfold NQUBITS in A1; lia).
  apply (get_nNodes_spec tau s n e); auto. apply (reach_Inv tau s hs Hr).
Qed.

(* ---- measurement: what other handles see ---- *)
Lemma pext_vecof s s' n e : pext tau s s' -> vecof s' n e = vecof s n e.
Proof. intros Hp. unfold vecof, Obs.vecof. now rewrite (pe_tb _ _ _ Hp). Qed.
Lemma frame_pr s hs s1 s' : reachable (s, hs) -> pext tau s s1 -> Inv s1 -> rel s1 s' -> Inv s' ->
  (forall m h w, In (H KV m h) hs -> reads_v s m h w -> reads_v s' m h w) /\
  (forall m h A, In (H KM m h) hs -> reads_m s m h A -> reads_m s' m h A).
Proof.
  intros Hr Px I1 R1 I'. split.
  - intros m h w Hin Hw'. destruct (reach_V tau _ _ _ _ Hr Hin) as (B1 & B2 & B3).
    assert (B3' : wfe KV (tb s1 KV) m h) by (rewrite (pe_tb _ _ _ Px); exact B3).
    eapply (reads_v_veq tau); [exact (Logic.proj1 Hw')|]. change (Obs.vecof tau s m h) with (vecof s m h).
    rewrite <- (pext_vecof s s1 m h Px), <- (vecof_rel tau s1 s' m h I1 R1 B3').
    apply (reads_vecof tau); auto. eapply (wfe_ext tau); [apply (rel_ext _ _ _ KV R1)|exact B3'].
  - intros m h w Hin Hw'. destruct (reach_M tau _ _ _ _ Hr Hin) as (B1 & B3).
    assert (B3' : wfe KM (tb s1 KM) m h) by (rewrite (pe_tb _ _ _ Px); exact B3).
    eapply (reads_m_meq tau); [exact (Logic.proj1 Hw')|].
    replace (Obs.matof tau s m h) with (matof s1 m h) by (unfold Obs.matof; now rewrite (pe_tb _ _ _ Px)).
    rewrite <- (matof_rel tau s1 s' m h I1 R1 B3').
    apply (reads_matof tau); auto. eapply (wfe_ext tau); [apply (rel_ext _ _ _ KM R1)|exact B3'].
Qed.
Lemma nonzero_w n v s hs e : reachable (s, hs) -> In (H KV n e) hs -> reads_v s n e v -> nonzero_v n v ->
  ew e <> c0 /\ is_term (en e) = false /\ wfp KV (tb s KV) n (en e).
Proof.
  intros Hr Hi Hv (b & Hb & Hn). destruct (reach_V tau _ _ _ _ Hr Hi) as (A1 & A2 & A3).
  assert (Hw : ew e <> c0).
  { intros Hw. apply Hn. rewrite <- (Logic.proj1 Hv b Hb). unfold Obs.vecof, vecF, Wf.val. rewrite Hw.
    change (@c0 (RNum tau)) with (RtoC 0). ring. }
  split; auto. pose proof (wfe_nz tau _ _ _ _ A3 Hw) as Hp. split; auto.
  destruct n as [|n]; [lia|]. destruct Hp as (a & nd & -> & _). reflexivity.
Qed.
Lemma rsum_scal N a f : rsum N (fun i => (a * f i)%R) = (a * rsum N f)%R.
Proof. induction N as [|N IH]; cbn; [ring|]. rewrite IH. ring. Qed.

(* ---- C18 ---- *)
Theorem C18_probabilities s hs n e v : reachable (s, hs) -> In (H KV n e) hs -> (n <= 30)%nat -> reads_v s n e v -> nonzero_v n v ->
  exists l s', probabilities e s = Some (l, s') /\ length l = (2 ^ n)%nat /\
    (forall i, (i < 2 ^ n)%nat -> nth i l 0%R = (Cmod (v i) ^ 2 / norm2v n v)%R) /\
    rsum (2 ^ n) (fun i => nth i l 0%R) = 1%R /\ reachable (s', hs).
Proof.
  intros Hr Hi H30 Hv Hnz. pose proof (reach_Inv tau _ _ Hr) as HI. destruct (reach_V tau _ _ _ _ Hr Hi) as (A1 & A2 & A3).
  destruct (nonzero_w n v s hs e Hr Hi Hv Hnz) as (Hw & Ht & Hp).
  destruct (probabilities_spec tau s n e HI ltac:(lia) Hp) as (s' & Hpr & Px & I').
  assert (Hwp : (0 < Cmod (ew e))%R) by (apply Cmod_gt_0; exact Hw).
  assert (Hnv : norm2v n v = (Cmod (ew e) ^ 2 * psum tau (tb s KV) n (en e))%R).
  { unfold norm2v, psum. rewrite rbsum_rsum, <- rsum_scal. apply rsum_ext. intros i Hl.
    rewrite <- (Logic.proj1 Hv i Hl). unfold Obs.vecof, vecF, Wf.val. rewrite Cmod_mult. ring. }
  pose proof (psum_pos tau _ (inv_tb _ _ HI KV) n _ Hp) as Hps.
  assert (Hn : forall i, (i < 2 ^ n)%nat -> (Cmod (valp tau KV (tb s KV) n (en e) (bix i)) ^ 2 / psum tau (tb s KV) n (en e) = Cmod (v i) ^ 2 / norm2v n v)%R).
  { intros i Hl. rewrite Hnv, <- (Logic.proj1 Hv i Hl). unfold Obs.vecof, vecF, Wf.val. rewrite Cmod_mult. field.
    split; lra. }
  eexists _, s'. split; [exact Hpr|]. split; [now rewrite map_length, seq_length|].
  assert (Hnth : forall i, (i < 2 ^ n)%nat -> nth i (map (fun i => (Cmod (valp tau KV (tb s KV) n (en e) (bix i)) ^ 2 / psum tau (tb s KV) n (en e))%R) (seq 0 (2 ^ n))) 0%R = (Cmod (v i) ^ 2 / norm2v n v)%R).
  { intros i Hl. set (f := fun i => (Cmod (valp tau KV (tb s KV) n (en e) (bix i)) ^ 2 / psum tau (tb s KV) n (en e))%R).
    rewrite nth_indep with (d' := f 0%nat) by (rewrite map_length, seq_length; exact Hl).
    rewrite (map_nth f), seq_nth by exact Hl. apply Hn. exact Hl. }
  split; [exact Hnth|]. split.
  - rewrite (rsum_ext _ _ (fun i => (/ norm2v n v * Cmod (v i) ^ 2)%R)).
    + rewrite rsum_scal. change (rsum (2 ^ n) (fun i => (Cmod (v i) ^ 2)%R)) with (norm2v n v). apply Rinv_l.
      rewrite Hnv. apply Rgt_not_eq. apply Rmult_lt_0_compat; auto. apply pow_lt. exact Hwp.
    + intros i Hl. rewrite Hnth by exact Hl. unfold Rdiv. ring.
  - eapply r_step; [exact Hr|]. eapply a_probs; eauto.
Qed.

(* ---- C19, C20 ---- *)
Lemma unif_of (x : R) : (0 <= x < 1)%R -> @unif (RNum tau) x.
Proof.
  intros [H0 H1]. split; [apply (Rleb_true 0 x); exact H0|apply (Rltb_true x 1); exact H1].
Qed.
Lemma bitstring_inj n a b : (a < 2 ^ n)%nat -> (b < 2 ^ n)%nat -> bitstring n a = bitstring n b -> a = b.
Proof.
  intros Ha Hb Hs. apply (bits_inj_n n); auto. intros l Hl. unfold bitstring in Hs.
  assert (Hm : forall x, In x (rev (seq 0 n)) -> Nat.testbit a x = Nat.testbit b x).
  { intros x Hx. revert Hs. generalize dependent (rev (seq 0 n)). intros L Hx Hs. induction L as [|y L IH]; [destruct Hx|].
    cbn in Hs. injection Hs as H1 H2. destruct Hx as [<-|Hx]; auto. }
  apply Hm. rewrite <- in_rev. apply in_seq. lia.
Qed.
(* For every sequence of draws in [0,1): the outcome is the basis state b, of
   non-zero amplitude, whose interval contains the k-th draw for every k; with
   collapse the handle becomes |b>, without it is left alone; the other handles
   are unaffected. *)
Theorem C19_C20_measureAll s hs n e v col ths : reachable (s, hs) -> In (H KV n e) hs -> reads_v s n e v -> nonzero_v n v ->
  (n <= length ths)%nat -> (forall x, In x ths -> (0 <= x < 1)%R) ->
  exists b e' s', measureAll e col ths s = Some (bitstring n b, e', s') /\ (b < 2 ^ n)%nat /\ v b <> RtoC 0 /\
    (forall c, (c < 2 ^ n)%nat ->
       (c = b <-> forall k, (k < n)%nat -> (lo_of v c k <= nth (n - 1 - k) ths 0 < hi_of v c k)%R)) /\
    (if col then reads_v s' n e' (basis b) else e' = e) /\
    (forall m h w, In (H KV m h) hs -> reads_v s m h w -> reads_v s' m h w) /\
    (forall m h A, In (H KM m h) hs -> reads_m s m h A -> reads_m s' m h A) /\
    reachable (s', H KV n e' :: hs).
Proof.
  intros Hr Hi Hv Hnz Hlen Hths. pose proof (reach_Inv tau _ _ Hr) as HI. destruct (reach_V tau _ _ _ _ Hr Hi) as (A1 & A2 & A3).
  destruct (nonzero_w n v s hs e Hr Hi Hv Hnz) as (Hw & Ht & Hp).
  destruct (measureAll_spec tau s n e col ths HI A2 A1 Hp Hw Hlen Hths) as (b & e' & s1 & s' & Hm & Hb & Hd & Hpos & Px & I1 & I' & R1 & Hcol).
  exists b, e', s'. split; [exact Hm|]. split; [exact Hb|].
  assert (Hvb : forall i, (i < 2 ^ n)%nat -> vecF (val KV (tb s KV) n e) i = v i) by exact (Logic.proj1 Hv).
  split. { rewrite <- Hvb by exact Hb. intros Hz. rewrite Hz, Cmod_0 in Hpos. lra. }
  assert (Hmarg : forall k c, (c < 2 ^ n)%nat -> (k <= n)%nat -> marg (vecF (val KV (tb s KV) n e)) k c = marg v k c).
  { intros k c Hc Hk. unfold marg. apply rsum_ext. intros i Hl. rewrite Hvb; auto.
    assert (Hq : (c / 2 ^ k < 2 ^ (n - k))%nat).
    { apply Nat.div_lt_upper_bound; [apply Nat.pow_nonzero; lia|]. rewrite <- Nat.pow_add_r. replace (k + (n - k))%nat with n by lia. exact Hc. }
    assert (E2 : (2 ^ n = 2 ^ (n - k) * 2 ^ k)%nat) by (rewrite <- Nat.pow_add_r; f_equal; lia).
    rewrite E2. nia. }
  assert (Hcl : forall c k, (c < 2 ^ n)%nat -> (Nat.clearbit c k < 2 ^ n)%nat).
  { intros c k Hc. apply lt_pow2_bits. intros l Hl. destruct (Nat.eq_dec l k) as [->|Hne]; [apply Nat.clearbit_eq|].
    rewrite Nat.clearbit_neq by lia. eapply pow2_bits_high; eauto. }
  assert (Hcond : forall k c, (c < 2 ^ n)%nat -> (k < n)%nat -> cond0 (vecF (val KV (tb s KV) n e)) k c = cond0 v k c).
  { intros k c Hc Hk. unfold cond0. rewrite !Hmarg; auto; lia. }
  assert (Hnth : forall k, (k < n)%nat -> (0 <= nth k ths 0 < 1)%R).
  { intros k Hk. apply Hths. apply nth_In. lia. }
  assert (Hdv : draws n v ths b).
  { intros k Hk. rewrite <- Hcond by assumption. apply Hd. exact Hk. }
  split.
  { intros c Hc. rewrite <- (draws_intervals n v ths c Hnth). split; [intros ->; exact Hdv|].
    intros Hdc. eapply (draws_unique n v ths); eauto. }
  destruct (frame_pr s hs s1 s' Hr Px I1 R1 I') as [Rs' Rm'].
  split; [|split; [|split]].
  - destruct col.
    + destruct Hcol as (W1 & W2 & W3). eapply (reads_v_veq tau); [|apply (reads_vecof tau); [exact I'|exact A2|left; exact W2]].
      intros i Hl. unfold Obs.vecof, vecF. rewrite W3. now apply bsF_basis.
    + exact (Logic.proj1 Hcol).
  - exact Rs'.
  - exact Rm'.
  - eapply r_step; [exact Hr|]. eapply a_all; eauto. intros x Hx. apply unif_of. auto.
Qed.
(* The intervals of b have total length |v_b|^2 / ||v||^2 : draws uniform in
   [0,1) return b with exactly this probability. *)
Theorem C19_born_rule n v b : (b < 2 ^ n)%nat -> v b <> RtoC 0 ->
  (rprod n (fun k => hi_of v b k - lo_of v b k) = Cmod (v b) ^ 2 / norm2v n v)%R /\
  (forall k, (0 <= lo_of v b k)%R /\ (hi_of v b k <= 1)%R).
Proof.
  intros Hb Hn. assert (Hp : (0 < Cmod (v b))%R) by (apply Cmod_gt_0; exact Hn). split.
  - now apply born_product.
  - intros k. now apply cond0_range.
Qed.

(* ---- C21, C22 ---- *)
Theorem C21_measureOneCollapsing s hs n e v q (eps th : R) : reachable (s, hs) -> In (H KV n e) hs -> reads_v s n e v -> nonzero_v n v ->
  qubit n q -> (0 <= th < 1)%R ->
  let k := Z.to_nat q in
  (Rabs (norm2v n v - 1) <= eps)%R ->
  exists (r : bool) e' s', measureOneCollapsing e q eps th s = Some (Ret (r, e'), s') /\
    let b := if r then 1%nat else 0%nat in
    (r = false <-> (th < probq n v k 0 / norm2v n v)%R) /\ (0 < probq n v k b)%R /\
    (let target := fun i => Cdiv (project k b v i) (RtoC (sqrt (probq n v k b))) in
     reads_v_upto (eproj tau n (Cmod (ew e)) / sqrt (probq n v k b)) s' n e' target /\
     (tau = 0%R -> reads_v s' n e' target)) /\
    (forall m h w, In (H KV m h) hs -> reads_v s m h w -> reads_v s' m h w) /\
    (forall m h A, In (H KM m h) hs -> reads_m s m h A -> reads_m s' m h A) /\
    reachable (s', H KV n e' :: hs).
Proof.
  intros Hr Hi Hv Hnz Hq Hth k He. pose proof (reach_Inv tau _ _ Hr) as HI. destruct (reach_V tau _ _ _ _ Hr Hi) as (A1 & A2 & A3).
  destruct (nonzero_w n v s hs e Hr Hi Hv Hnz) as (Hw & Ht & Hp).
  assert (Hk : (k < n)%nat) by (unfold qubit, k in *; lia).
  pose proof (measureOneCollapsing_spec tau s n e k eps th HI Hk A1 Hp Hw Hth) as Hs. cbn zeta in Hs.
  assert (Hvb : forall i, (i < 2 ^ n)%nat -> vecF (val KV (tb s KV) n e) i = v i) by exact (Logic.proj1 Hv).
  assert (Hnorm : norm2v n (vecF (val KV (tb s KV) n e)) = norm2v n v) by (unfold norm2v; apply rsum_ext; intros i Hl; now rewrite Hvb).
  assert (Hpq : forall b, probq n (vecF (val KV (tb s KV) n e)) k b = probq n v k b) by (intros b; unfold probq; apply rsum_ext; intros i Hl; now rewrite Hvb).
  rewrite Hnorm in Hs. replace (Rltb eps (Rabs (norm2v n v - 1))) with false in Hs by (symmetry; apply Rltb_false; exact He).
  destruct Hs as (r & e' & s1 & s' & Hm & Hs). cbn zeta in Hs. rewrite !Hpq in Hs.
  destruct Hs as (Hd & Hpos & Px & I1 & R1 & Hw' & Hc).
  replace (Z.of_nat k) with q in Hm by (unfold qubit, k in *; lia).
  exists r, e', s'. split; [exact Hm|]. cbn zeta. split; [exact Hd|]. split; [exact Hpos|].
  pose proof (rel_inv _ _ _ R1) as I'.
  assert (Hu : reads_v_upto (eproj tau n (Cmod (ew e)) / sqrt (probq n v k (if r then 1%nat else 0%nat))) s' n e'
     (fun i => Cdiv (project k (if r then 1%nat else 0%nat) v i) (RtoC (sqrt (probq n v k (if r then 1%nat else 0%nat)))))).
  { exists (vecof s' n e'). split; [now apply (reads_vecof tau)|]. intros i Hl. specialize (Hc i Hl).
    unfold project in *. destruct (Nat.eqb (bit i k) _); [rewrite Hvb in Hc by exact Hl|]; exact Hc. }
  split; [split; [exact Hu|]|split; [|split]].
  - intros H0. eapply (upto_0_v tau); [|exact Hu]. rewrite (eproj_0 tau) by exact H0. unfold Rdiv. ring.
  - exact (Logic.proj1 (frame_pr s hs s1 s' Hr Px I1 R1 I')).
  - exact (Logic.proj2 (frame_pr s hs s1 s' Hr Px I1 R1 I')).
  - eapply (r_step _ (s', H KV n e' :: hs)); [exact Hr|].
    exact (a_one s hs n e q eps th (Ret (r, e')) s' Hi Ht Hw Hq (unif_of th Hth) Hm).
Qed.
(* a state whose norm is not 1 (within epsilon) is rejected and nothing changes
   but the memo of sub-norms *)
Theorem C21_rejects_unnormalised s hs n e v q (eps th : R) : reachable (s, hs) -> In (H KV n e) hs -> reads_v s n e v -> nonzero_v n v ->
  qubit n q -> (0 <= th < 1)%R -> (eps < Rabs (norm2v n v - 1))%R ->
  exists s', measureOneCollapsing e q eps th s = Some (Throw, s') /\ tb s' = tb s /\ ac s' = ac s /\ mc s' = mc s /\
    gc_v s' = gc_v s /\ gc_m s' = gc_m s /\ reachable (s', hs).
Proof.
  intros Hr Hi Hv Hnz Hq Hth He. pose proof (reach_Inv tau _ _ Hr) as HI. destruct (reach_V tau _ _ _ _ Hr Hi) as (A1 & A2 & A3).
  destruct (nonzero_w n v s hs e Hr Hi Hv Hnz) as (Hw & Ht & Hp).
  assert (Hk : (Z.to_nat q < n)%nat) by (unfold qubit in *; lia).
  pose proof (measureOneCollapsing_spec tau s n e _ eps th HI Hk A1 Hp Hw Hth) as Hs. cbn zeta in Hs.
  assert (Hvb : forall i, (i < 2 ^ n)%nat -> vecF (val KV (tb s KV) n e) i = v i) by exact (Logic.proj1 Hv).
  assert (Hnorm : norm2v n (vecF (val KV (tb s KV) n e)) = norm2v n v) by (unfold norm2v; apply rsum_ext; intros i Hl; now rewrite Hvb).
  rewrite Hnorm in Hs. replace (Rltb eps (Rabs (norm2v n v - 1))) with true in Hs by (symmetry; apply Rltb_true; exact He).
  destruct Hs as (s' & Hm & Px & I'). replace (Z.of_nat (Z.to_nat q)) with q in Hm by (unfold qubit in *; lia).
  exists s'. split; [exact Hm|]. destruct Px. repeat (split; [assumption|]).
  eapply (r_step _ (s', hs)); [exact Hr|].
  exact (a_one s hs n e q eps th Throw s' Hi Ht Hw Hq (unif_of th Hth) Hm).
Qed.
Theorem C22_measureOne s hs n e v q (eps : R) : reachable (s, hs) -> In (H KV n e) hs -> reads_v s n e v -> nonzero_v n v -> qubit n q ->
  exists s', measureOne e q eps s =
      Some (if Rltb eps (Rabs (norm2v n v - 1)) then Throw else Ret (probq n v (Z.to_nat q) 0 / norm2v n v)%R, s') /\
    reachable (s', hs).
Proof.
  intros Hr Hi Hv Hnz Hq. pose proof (reach_Inv tau _ _ Hr) as HI. destruct (reach_V tau _ _ _ _ Hr Hi) as (A1 & A2 & A3).
  destruct (nonzero_w n v s hs e Hr Hi Hv Hnz) as (Hw & Ht & Hp).
  assert (Hk : (Z.to_nat q < n)%nat) by (unfold qubit in *; lia).
  pose proof (measureOne_spec tau s n e _ eps HI Hk A1 Hp) as Hs. cbn zeta in Hs.
  assert (Hvb : forall i, (i < 2 ^ n)%nat -> vecF (val KV (tb s KV) n e) i = v i) by exact (Logic.proj1 Hv).
  assert (Hnorm : norm2v n (vecF (val KV (tb s KV) n e)) = norm2v n v) by (unfold norm2v; apply rsum_ext; intros i Hl; now rewrite Hvb).
  assert (Hpq : probq n (vecF (val KV (tb s KV) n e)) (Z.to_nat q) 0 = probq n v (Z.to_nat q) 0) by (unfold probq; apply rsum_ext; intros i Hl; now rewrite Hvb).
  rewrite Hnorm, Hpq in Hs. destruct Hs as (s' & Px & I' & Hm).
  replace (Z.of_nat (Z.to_nat q)) with q in Hm by (unfold qubit in *; lia).
  exists s'. split; [exact Hm|]. eapply r_step; [exact Hr|]. eapply a_one'; eauto.
Qed.

(* ---- C15, the remaining entry points: no reachable, in-contract use fails ---- *)
Theorem C15_readout_safe s hs n e : reachable (s, hs) ->
  (In (H KV n e) hs -> (n <= 30)%nat -> is_term (en e) = false -> getVector s e <> None) /\
  (In (H KM n e) hs -> (n <= 30)%nat -> getMatrix s e (Z.of_nat n) <> None) /\
  (In (H KV n e) hs -> get_nNodes s e <> None).
Proof.
  intros Hr. split; [|split].
  - intros Hi Hn Ht. destruct (handle_reads_v tau _ _ _ _ Hr Hi) as (v & _ & _ & Hg). destruct (Hg Hn Ht) as (l & -> & _). discriminate.
  - intros Hi Hn. destruct (handle_reads_m tau _ _ _ _ Hr Hi) as (v & _ & Hg). destruct (Hg Hn) as (l & -> & _). discriminate.
  - intros Hi. destruct (C17_get_nNodes _ _ _ _ Hr Hi) as (l & -> & _). discriminate.
Qed.
End Props2.
