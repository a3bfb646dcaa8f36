(* FpProp.v -- C67: what the library computes over a rounded arithmetic of accuracy
   dl stays close to the exact result: single operations, and whole circuits. *)
From Coq Require Import Reals Lra Psatz ZArith Bool List Lia Arith FunctionalExtensionality.
From Coquelicot Require Import Complex.
From Verif Require Import Num State DD Gates GC Measure Api RNum Wf Sums Err Inv Wp Make Add MulV GateP StateP Kron Spec SpecP Readout
  MeasAllP ApiP Obs Props1 Circuit FpA FpE FpW FpM FpAdd FpMul FpGate FpState FpRead FpMeas FpOne FpGC FpKron FpCirc.
Import ListNotations.
Open Scope Z_scope.

Section FpProp.
Context {NO : NumOps} {AC : Accur NO} {CF : Cfg}.
Notation dl := (@dl NO AC).
Notation Gr := (@Gr NO AC).
Notation Gp := (@Gp NO AC).
Notation state := (@State.state NO).
Notation edge := (@State.edge NO).
Notation handle := (@Api.handle NO).
Notation comp := (@DD.comp NO).
Notation gmat := (@Gates.gmat NO).

(* the vector / matrix a handle stands for: products of the (machine) weights along
   the paths of the diagram, taken exactly *)
Definition amps (s : state) (n : nat) (e : edge) : vector := vecF (val KV (tb s KV) n e).
Definition ents (s : state) (n : nat) (g : edge) : matrix := matF (val KM (tb s KM) n g).

Lemma wbV s n (e : edge) W : Inv s -> wfe KV (tb s KV) n e -> (forall i, (i < 2 ^ n)%nat -> (Cmod (amps s n e i) <= W)%R) -> (Cmod (cv (ew e)) <= W)%R.
Proof.
  intros HI Hw Hb. destruct (val_max KV _ n e (inv_tb _ HI KV) Hw) as (ix & Hix & <-).
  destruct (ofbits n ix Hix) as (B & HB & Hx). rewrite <- (val_local KV _ n e _ _ Hx). apply Hb. exact HB.
Qed.
Lemma wbM s n (e : edge) W : Inv s -> wfe KM (tb s KM) n e ->
  (forall i j, (i < 2 ^ n)%nat -> (j < 2 ^ n)%nat -> (Cmod (ents s n e i j) <= W)%R) -> (Cmod (cv (ew e)) <= W)%R.
Proof.
  intros HI Hw Hb. destruct (val_max KM _ n e (inv_tb _ HI KM) Hw) as (ix & Hix & <-). cbn [arity] in Hix.
  destruct (ofbits n (fun l => Nat.modulo (ix l / 2) 2)) as (A & HA & Hx); [intros; apply Nat.mod_upper_bound; lia|].
  destruct (ofbits n (fun l => Nat.modulo (ix l) 2)) as (B & HB & Hy); [intros; apply Nat.mod_upper_bound; lia|].
  assert (Hb2 : forall l, (l < n)%nat -> mix A B l = ix l).
  { intros l Hl. unfold mix. specialize (Hx l Hl). specialize (Hy l Hl). unfold bix in Hx, Hy. rewrite Hx, Hy.
    specialize (Hix l). destruct (ix l) as [|[|[|[|]]]]; try lia; reflexivity. }
  rewrite <- (val_local KM _ n e _ _ Hb2). apply (Hb A B HA HB).
Qed.
Lemma amps_rel s s' n e : Inv s -> rel s s' -> wfe KV (tb s KV) n e -> amps s' n e = amps s n e.
Proof.
  intros HI Hr Hw. apply functional_extensionality. intros i. unfold amps, vecF.
  apply val_ext; auto; [apply HI|apply (rel_ext _ _ _ Hr)].
Qed.

(* completes under every schedule, and every result satisfies P *)
Definition completes (c : comp) (s : state) (P : edge -> state -> Prop) : Prop :=
  ~ steps (Cfg_ok c s) Wrong /\
  (forall i, exists e s', run_on i c s = Some (e, s')) /\
  (forall e s', steps (Cfg_ok c s) (Cfg_ok (CRet e) s') -> P e s').
Lemma completes_wpr c s (Q : post) (P : edge -> state -> Prop) : Inv s -> wpr c Q s -> (forall e s', rel s s' -> Q e s' -> P e s') -> completes c s P.
Proof.
  intros HI Hw HP. split; [eapply wpr_safe; eauto|]. split.
  - intros i. destruct (wpr_run_on i _ _ _ HI Hw) as (e & s' & He & _). eauto.
  - intros e s' Hst. destruct (wpr_result _ _ _ _ _ HI Hw Hst) as [Hr Hq]. auto.
Qed.
Lemma reach_V s hs n e : freach (s, hs) -> In (H KV n e) hs -> Inv s /\ (1 <= n)%nat /\ Z.of_nat n <= NQUBITS /\ wfe KV (tb s KV) n e.
Proof. intros Hr Hi. destruct (freach_Aok _ Hr) as [HI Hh]. destruct (Hh _ Hi) as (A1 & A2 & A3). cbn in *. auto. Qed.
Lemma reach_M s hs n e : freach (s, hs) -> In (H KM n e) hs -> Inv s /\ Z.of_nat n <= NQUBITS /\ wfe KM (tb s KM) n e.
Proof. intros Hr Hi. destruct (freach_Aok _ Hr) as [HI Hh]. destruct (Hh _ Hi) as (A1 & A2 & A3). cbn in *. auto. Qed.

(* ---- single operations ---- *)
Lemma basis0_of n e s : isbs n (fun _ => 0%nat) e s -> veq n (amps s n e) (basis 0).
Proof. intros (_ & _ & Hv) i Hi. unfold amps, vecF. rewrite Hv. rewrite <- bix_0. apply bsF_basis; auto. apply Nat.neq_0_lt_0, Nat.pow_nonzero; lia. Qed.
Theorem C67_zero_state s hs n : freach (s, hs) -> size_ok n ->
  completes (makeZeroState n) s (fun e s' => veq n (amps s' n e) (basis 0)).
Proof.
  intros Hr [H1 H2]. destruct (freach_Aok _ Hr) as [HI _]. cbn in HI.
  apply completes_wpr with (Q := isbs n (fun _ => 0%nat)); auto.
  - apply wpr_makeZeroState with (b := fun _ => 0%nat); auto.
  - intros e s' _ Hb. now apply basis0_of.
Qed.
Theorem C67_add s hs n a b lim A B : freach (s, hs) -> In (H KV n a) hs -> In (H KV n b) hs ->
  (forall i, (i < 2 ^ n)%nat -> (Cmod (amps s n a i) <= A)%R) -> (forall i, (i < 2 ^ n)%nat -> (Cmod (amps s n b i) <= B)%R) ->
  completes (vv_add lim a b) s (fun e s' => vclose n (eadd n (A + B)) (amps s' n e) (fun i => Cplus (amps s n a i) (amps s n b i))).
Proof.
  intros Hr Ha Hb HA HB. destruct (reach_V _ _ _ _ Hr Ha) as (HI & H1 & H2 & Hwa). destruct (reach_V _ _ _ _ Hr Hb) as (_ & _ & _ & Hwb).
  eapply completes_wpr; [exact HI|apply (wpr_vv_add' lim n s a b HI H1 H2 Hwa Hwb)|]. intros e s' _ [_ Hd] i Hi. eapply Rle_trans; [apply Hd|].
  pose proof (wbV _ _ _ _ HI Hwa HA). pose proof (wbV _ _ _ _ HI Hwb HB).
  apply eadd_mono. pose proof (Cmod_ge_0 (cv (ew a))). pose proof (Cmod_ge_0 (cv (ew b))). lra.
Qed.
Theorem C67_apply s hs n g v A B : freach (s, hs) -> In (H KM n g) hs -> In (H KV n v) hs ->
  (forall i j, (i < 2 ^ n)%nat -> (j < 2 ^ n)%nat -> (Cmod (ents s n g i j) <= A)%R) -> (forall i, (i < 2 ^ n)%nat -> (Cmod (amps s n v i) <= B)%R) ->
  completes (mv_multiply g v) s (fun e s' => vclose n (emv n A B) (amps s' n e) (mv n (ents s n g) (amps s n v))).
Proof.
  intros Hr Hg Hv HA HB. destruct (reach_M _ _ _ _ Hr Hg) as (HI & H2 & Hwg). destruct (reach_V _ _ _ _ Hr Hv) as (_ & H1 & _ & Hwv).
  eapply completes_wpr; [exact HI|apply (wpr_mv_multiply' n s g v HI H1 H2 Hwg Hwv)|]. intros e s' _ [_ Hd] i Hi. unfold ents, amps at 2. rewrite <- mvF_mv.
  eapply Rle_trans; [apply Hd|]. pose proof (wbM _ _ _ _ HI Hwg HA). pose proof (wbV _ _ _ _ HI Hwv HB).
  apply emv_mono; split; auto using Cmod_ge_0.
Qed.
Lemma gate_entries (m : nat) (g : gmat) (G : matrix) gd : (forall i j, (i < m)%nat -> (j < m)%nat -> (Cmod (Cminus (cv (g i j)) (G i j)) <= gd)%R) ->
  (forall i j, (i < m)%nat -> (j < m)%nat -> (Cmod (G i j) <= 1)%R) -> forall i j, (i < m)%nat -> (j < m)%nat -> (Cmod (cv (g i j)) <= 1 + gd)%R.
Proof. intros Hd HG i j Hi Hj. specialize (Hd i j Hi Hj). specialize (HG i j Hi Hj). apply Cmod_sub_le in Hd. lra. Qed.
Lemma gate1_close n (g g' : matrix) t l d : (0 <= d)%R -> (forall i j, (i < 2)%nat -> (j < 2)%nat -> (Cmod (Cminus (g i j) (g' i j)) <= d)%R) ->
  mclose n d (gate1 n g t l) (gate1 n g' t l).
Proof.
  intros Hd Hg i j _ _. unfold gate1. assert (Hz : forall x : C, (Cmod (Cminus x x) <= d)%R).
  { intros x. replace (Cminus x x) with (RtoC 0) by ring. now rewrite Cmod_0. }
  destruct (agree_off _ _ _ _); auto. destruct (ctl_ok l i); auto. apply Hg; apply bit_lt.
Qed.
Lemma gate2_close n (g g' : matrix) hi lo l d : (0 <= d)%R -> (forall i j, (i < 4)%nat -> (j < 4)%nat -> (Cmod (Cminus (g i j) (g' i j)) <= d)%R) ->
  mclose n d (gate2 n g hi lo l) (gate2 n g' hi lo l).
Proof.
  intros Hd Hg i j _ _. unfold gate2. assert (Hz : forall x : C, (Cmod (Cminus x x) <= d)%R).
  { intros x. replace (Cminus x x) with (RtoC 0) by ring. now rewrite Cmod_0. }
  destruct (agree_off _ _ _ _); auto. destruct (ctl_ok l i); auto.
  pose proof (bit_lt i hi); pose proof (bit_lt i lo); pose proof (bit_lt j hi); pose proof (bit_lt j lo). apply Hg; lia.
Qed.
(* makeGate, for machine entries within gd of a matrix with entries at most B *)
Theorem C67_gate1 s hs n (g : gmat) (G : matrix) t l B gd : freach (s, hs) -> size_ok n -> qubit n t -> controls_ok n [t] l -> (1 <= B)%R -> (0 <= gd)%R ->
  (forall i j, (i < 2)%nat -> (j < 2)%nat -> (Cmod (cv (g i j)) <= B)%R /\ (Cmod (Cminus (cv (g i j)) (G i j)) <= gd)%R) ->
  completes (makeGate (Z.of_nat n) g t (mkControls l)) s (fun e s' => mclose n (egate n B + gd) (ents s' n e) (gate1 n G (Z.to_nat t) l)).
Proof.
  intros Hr Hn Hq Hc HB Hgd Hg. destruct (freach_Aok _ Hr) as [HI _]. cbn in HI.
  destruct (wpr_gate1 n g t l B s HI Hn Hq Hc HB) as (F & HF & Hw); [intros; now apply Hg|].
  eapply completes_wpr; [exact HI|exact Hw|]. intros e s' _ [_ Hd] i j Hi Hj. eapply Cmod_tri3; [apply Hd|].
  change (F (mix i j)) with (matF F i j). rewrite HF by auto. apply gate1_close; auto. intros; now apply Hg.
Qed.
Theorem C67_gate2 s hs n (g : gmat) (G : matrix) t0 t1 l B gd : freach (s, hs) -> size_ok n -> qubit n t0 -> qubit n t1 -> t0 <> t1 ->
  controls_ok n [t0; t1] l -> (1 <= B)%R -> (0 <= gd)%R ->
  (forall i j, (i < 4)%nat -> (j < 4)%nat -> (Cmod (cv (g i j)) <= B)%R /\ (Cmod (Cminus (cv (g i j)) (G i j)) <= gd)%R) ->
  completes (makeTwoQubitGate (Z.of_nat n) g t0 t1 (mkControls l)) s (fun e s' => mclose n (egate n B + gd) (ents s' n e) (gate2 n G (Z.to_nat t0) (Z.to_nat t1) l)).
Proof.
  intros Hr Hn Hq0 Hq1 Hne Hc HB Hgd Hg. destruct (freach_Aok _ Hr) as [HI _]. cbn in HI.
  destruct (wpr_gate2 n g t0 t1 l B s HI Hn Hq0 Hq1 Hne Hc HB) as (F & HF & Hw); [intros; now apply Hg|].
  eapply completes_wpr; [exact HI|exact Hw|]. intros e s' _ [_ Hd] i j Hi Hj. eapply Cmod_tri3; [apply Hd|].
  change (F (mix i j)) with (matF F i j). rewrite HF by auto. apply gate2_close; auto. intros; now apply Hg.
Qed.
Theorem C67_kronecker s hs na nb a b A B : freach (s, hs) -> In (H KV na a) hs -> In (H KV nb b) hs ->
  is_term (en a) = false -> is_term (en b) = false -> Z.of_nat (na + nb) <= NQUBITS ->
  (forall i, (i < 2 ^ na)%nat -> (Cmod (amps s na a i) <= A)%R) -> (forall i, (i < 2 ^ nb)%nat -> (Cmod (amps s nb b i) <= B)%R) ->
  completes (vv_kronecker a b) s (fun e s' => vclose (na + nb) (ekron nb na A B) (amps s' (na + nb) e) (kronv nb (amps s na a) (amps s nb b))).
Proof.
  intros Hr Ha Hb Ta Tb Hn HA HB. destruct (reach_V _ _ _ _ Hr Ha) as (HI & A1 & A2 & Hwa). destruct (reach_V _ _ _ _ Hr Hb) as (_ & B1 & B2 & Hwb).
  eapply completes_wpr; [exact HI|eapply (wpr_vv_kronecker na nb a b s); [exact HI|exact Hn|exact A1|exact B1|exact (wfp_nt _ _ _ Hwa Ta)|exact (wfp_nt _ _ _ Hwb Tb)|intros e s' _ Hd; exact Hd]|].
  intros e s' _ [_ Hd] m Hm.
  assert (Hk : kvF nb (val KV (tb s KV) na a) (val KV (tb s KV) nb b) (bix m) = kronv nb (amps s na a) (amps s nb b) m).
  { unfold kvF, kronv, amps, vecF. f_equal.
    - apply val_local. intros l Hl. unfold shift, bix, bit.
      rewrite <- Nat.shiftr_div_pow2, Nat.shiftr_spec by lia. now rewrite Nat.add_comm.
    - apply val_local. intros l Hl. unfold bix, bit. rewrite Nat.mod_pow2_bits_low by lia. reflexivity. }
  rewrite <- Hk. eapply Rle_trans; [apply Hd|]. pose proof (wbV _ _ _ _ HI Hwa HA). pose proof (wbV _ _ _ _ HI Hwb HB).
  pose proof (Cmod_ge_0 (cv (ew a))) as Ga. pose proof (Cmod_ge_0 (cv (ew b))) as Gb.
  eapply Rle_trans; [apply (ekron_mono nb na _ A); lra|apply ekron_mono_b; lra].
Qed.
(* getVector returns the amplitudes *)
Theorem C67_getVector s hs n e W : freach (s, hs) -> In (H KV n e) hs -> (n <= 30)%nat -> is_term (en e) = false ->
  (forall i, (i < 2 ^ n)%nat -> (Cmod (amps s n e i) <= W)%R) ->
  exists v, getVector s e = Some v /\ length v = (2 ^ n)%nat /\ vclose n (erd n W) (fun i => cv (nth i v c0)) (amps s n e).
Proof.
  intros Hr Hi Hn Ht HW. destruct (reach_V _ _ _ _ Hr Hi) as (HI & H1 & H2 & Hw).
  destruct (getVector_spec s n e (inv_tb _ HI KV) (wfp_nt _ _ _ Hw Ht) (conj H1 Hn)) as (v & Hv & Hl & Hd).
  exists v. split; auto. split; auto. intros i Hi'. eapply Rle_trans; [apply Hd; auto|]. apply erd_mono.
  split; [apply Cmod_ge_0|]. eapply wbV; eauto.
Qed.
(* a collection leaves every handle's vector unchanged up to one tolerance per level,
   the first handle's exactly *)
Theorem C67_gc s ns es ms i force : freach (s, rehandle KV ns es ++ ms) -> length ns = length es -> of_kind KM ms ->
  exists es' s', gc i es force s = Some (es', s') /\ length es' = length es /\
    (forall j n e e' W, nth_error ns j = Some n -> nth_error es j = Some e -> nth_error es' j = Some e' ->
       (forall x, (x < 2 ^ n)%nat -> (Cmod (amps s n e x) <= W)%R) ->
       vclose n (if Nat.eqb j 0 then 0 else W * (INR n * dl * Gp n)) (amps s' n e') (amps s n e)) /\
    (forall n g, In (H KM n g) ms -> ents s' n g = ents s n g).
Proof.
  intros Hr Hl Hk. pose proof (freach_Aok _ Hr) as HA. pose proof HA as [HI Hh]. cbn [fst snd] in *.
  destruct (gc_s i es force s HI (live_of _ _ _ _ _ Hl Hh)) as (es' & s' & Hg & G2 & G3 & G4).
  exists es', s'. split; [exact Hg|]. pose proof (keeps_F2 _ _ _ _ _ _ G4) as HF. split; [symmetry; eapply Forall2_len; eauto|]. split.
  - intros j n e e' W Hn He He' HW.
    assert (Hin : In (H KV n e) (rehandle KV ns es ++ ms)).
    { apply in_or_app. left. unfold rehandle. apply in_map_iff. exists (n, e). split; auto.
      clear - Hn He. revert es j Hn He. induction ns as [|m ns IH]; intros [|x es] [|j] Hn He; cbn in *; try discriminate.
      - injection Hn as <-. injection He as <-. now left.
      - right. eapply IH; eauto. }
    destruct (Hh _ Hin) as (A1 & A2 & A3). cbn [h_k h_n h_e] in *.
    pose proof (wbV _ _ _ _ HI A3 HW) as Hwb.
    assert (Hkeep : keep KV (tb s KV) (tb s' KV) (if Nat.eqb j 0 then 0%R else dl) e e').
    { unfold keeps in G4. destruct es as [|x es], es' as [|x' es']; try contradiction; [destruct j; discriminate He|].
      destruct G4 as [K1 K2]. destruct j as [|j]; cbn [nth_error Nat.eqb] in *.
      - injection He as <-. injection He' as <-. exact K1.
      - clear - K2 He He'. revert j He He'. induction K2 as [|u u' r r' Hu K2 IH]; intros [|j] He He'; try discriminate; cbn in *.
        + injection He as <-. injection He' as <-. exact Hu.
        + eapply IH; eauto. }
    destruct Hkeep as (_ & Hw). destruct (Hw n A3) as (_ & _ & Hd). intros x Hx. unfold amps, vecF. eapply Rle_trans; [apply Hd|].
    destruct (Nat.eqb j 0); [rewrite egc_0; lra|]. unfold egc. apply Rmult_le_compat_r; [|exact Hwb].
    apply Rmult_le_pos; [apply Rmult_le_pos; [apply pos_INR|apply dl_pos]|apply Grp].
  - intros n g _. unfold ents. now rewrite G3.
Qed.

(* ---- circuits ---- *)
(* one- and two-qubit gates as the client passes them, with machine entries *)
Inductive fop := F1 (g : gmat) (t : Z) (l : ctls) | F2 (g : gmat) (t0 t1 : Z) (l : ctls).
(* the machine gate f has the qubits and controls of o, and entries within gd of o's *)
Inductive rounds (gd : R) : op -> fop -> Prop :=
| rd_1 g m t l : (forall i j, (i < 2)%nat -> (j < 2)%nat -> (Cmod (Cminus (cv (m i j)) (g i j)) <= gd)%R) -> rounds gd (U1 g t l) (F1 m t l)
| rd_2 g m t0 t1 l : (forall i j, (i < 4)%nat -> (j < 4)%nat -> (Cmod (Cminus (cv (m i j)) (g i j)) <= gd)%R) -> rounds gd (U2 g t0 t1 l) (F2 m t0 t1 l).
Definition fop_comp (n : nat) (f : fop) : comp :=
  match f with
  | F1 g t l => makeGate (Z.of_nat n) g t (mkControls l)
  | F2 g t0 t1 l => makeTwoQubitGate (Z.of_nat n) g t0 t1 (mkControls l)
  end.
(* [fcirc n fs c e]: the gates fs (last first) were applied to |0...0>, giving the
   handle e, in the middle of other activity, ending in client c *)
Inductive fcirc (n : nat) : list fop -> state * list handle -> edge -> Prop :=
| fc_start s hs e s' : freach (s, hs) -> steps (Cfg_ok (makeZeroState n) s) (Cfg_ok (CRet e) s') ->
    fcirc n [] (s', H KV n e :: hs) e
| fc_op f fs s hs e g s1 e' s2 : fcirc n fs (s, hs) e ->
    steps (Cfg_ok (fop_comp n f) s) (Cfg_ok (CRet g) s1) ->
    steps (Cfg_ok (mv_multiply g e) s1) (Cfg_ok (CRet e') s2) ->
    fcirc n (f :: fs) (s2, H KV n e' :: H KM n g :: hs) e'
| fc_call fs s hs e k m c x s' : fcirc n fs (s, hs) e -> fcall hs k m c -> steps (Cfg_ok c s) (Cfg_ok (CRet x) s') ->
    fcirc n fs (s', H k m x :: hs) e
| fc_drop fs s hs e hs' : fcirc n fs (s, hs) e -> incl hs' hs -> In (H KV n e) hs' -> fcirc n fs (s, hs') e
| fc_gc fs s e ns es ms i force e' es' s' : fcirc n fs (s, rehandle KV (n :: ns) (e :: es) ++ ms) e ->
    length ns = length es -> of_kind KM ms -> gc i (e :: es) force s = Some (e' :: es', s') ->
    fcirc n fs (s', rehandle KV (n :: ns) (e' :: es') ++ ms) e'
| fc_gc_mat fs s e ns es vs i force es' s' : fcirc n fs (s, rehandle KM ns es ++ vs) e ->
    length ns = length es -> of_kind KV vs -> gc_mat i es force s = Some (es', s') ->
    fcirc n fs (s', rehandle KM ns es' ++ vs) e
| fc_evict fs s hs e s' : fcirc n fs (s, hs) e -> evicted s s' -> fcirc n fs (s', hs) e
| fc_thr fs s hs e v m : fcirc n fs (s, hs) e -> fcirc n fs (set_gc_thr v m s, hs) e
| fc_probs fs s hs e m x l s' : fcirc n fs (s, hs) e -> In (H KV m x) hs -> is_term (en x) = false -> (m <= 30)%nat ->
    probabilities x s = Some (l, s') -> fcirc n fs (s', hs) e
| fc_all fs s hs e m x col ths r x' s' : fcirc n fs (s, hs) e -> In (H KV m x) hs -> is_term (en x) = false -> cv (ew x) <> RtoC 0 ->
    (m <= length ths)%nat -> (forall t, In t ths -> unif t) -> measureAll x col ths s = Some (r, x', s') ->
    fcirc n fs (s', H KV m x' :: hs) e
| fc_one fs s hs e m x q eps th r s' : fcirc n fs (s, hs) e -> In (H KV m x) hs -> is_term (en x) = false -> qubit m q ->
    measureOneCollapsing x q eps th s = Some (r, s') ->
    fcirc n fs (s', match r with Ret (_, x') => H KV m x' :: hs | Throw => hs end) e
| fc_one' fs s hs e m x q eps r s' : fcirc n fs (s, hs) e -> In (H KV m x) hs -> is_term (en x) = false -> qubit m q ->
    measureOne x q eps s = Some (r, s') -> fcirc n fs (s', hs) e
| fc_run fs s hs e m c i x s' : fcirc n fs (s, hs) e -> seq_call hs m c -> run_on i c s = Some (x, s') -> fcirc n fs (s', H KM m x :: hs) e.

Definition eg (n : nat) (gd : R) : R := (egate n (1 + gd) + gd)%R.
Definition eop (n : nat) (gd W : R) : R := (emv n (1 + eg n gd) W + INR (2 ^ n) * (eg n gd * W))%R.
Fixpoint ecirc (n : nat) (gd : R) (k : nat) : R :=
  match k with O => 0%R | S j => (ecirc n gd j + sqrt (INR (2 ^ n)) * eop n gd (1 + ecirc n gd j))%R end.
Lemma eg_pos n gd : (0 <= gd -> 0 <= eg n gd)%R.
Proof. intros H. unfold eg. pose proof (egate_pos n (1 + gd) ltac:(lra)). lra. Qed.
Lemma eop_pos n gd W : (0 <= gd -> 0 <= W -> 0 <= eop n gd W)%R.
Proof.
  intros Hg HW. unfold eop. pose proof (eg_pos n gd Hg) as He. pose proof (emv_pos n (1 + eg n gd) W ltac:(lra) HW).
  pose proof (pos_INR (2 ^ n)). apply Rplus_le_le_0_compat; auto. apply Rmult_le_pos; auto. apply Rmult_le_pos; auto.
Qed.
Lemma ecirc_pos n gd k : (0 <= gd -> 0 <= ecirc n gd k)%R.
Proof.
  intros Hg. induction k as [|k IH]; cbn [ecirc]; [lra|]. pose proof (eop_pos n gd (1 + ecirc n gd k) Hg ltac:(lra)). pose proof (sqrt_pos (INR (2 ^ n))). nra.
Qed.
Lemma fop_completes n o f gd s hs : freach (s, hs) -> size_ok n -> (0 <= gd)%R -> op_ok n o -> op_unitary o -> rounds gd o f ->
  fcall hs KM n (fop_comp n f) /\ completes (fop_comp n f) s (fun e s' => mclose n (eg n gd) (ents s' n e) (op_mat n o)).
Proof.
  intros Hr Hn Hgd Hok HU Hrd. destruct Hrd as [g m t l Hm|g m t0 t1 l Hm]; cbn [op_ok op_unitary fop_comp op_mat] in *.
  - destruct Hok as [Hq Hc]. split; [now apply f_gate|]. apply (C67_gate1 s hs); auto; [lra|]. intros i j Hi Hj. split; [|now apply Hm].
    apply (gate_entries 2 m g gd Hm); auto. intros a b Ha Hb. exact (unitary_entry 1 g a b HU Ha Hb).
  - destruct Hok as (Hq0 & Hq1 & Hne & Hc). split; [now apply f_gate2|]. apply (C67_gate2 s hs); auto; [lra|]. intros i j Hi Hj. split; [|now apply Hm].
    apply (gate_entries 4 m g gd Hm); auto. intros a b Ha Hb. exact (unitary_entry 2 g a b HU Ha Hb).
Qed.
Lemma fcirc_ok n gd fs c e : size_ok n -> (0 <= gd)%R -> fcirc n fs c e -> forall ops, Forall2 (rounds gd) ops fs ->
  (forall o, In o ops -> op_ok n o /\ op_unitary o) ->
  freach c /\ In (H KV n e) (snd c) /\ (dist n (amps (fst c) n e) (ideal n ops) <= ecirc n gd (length ops))%R.
Proof.
  intros Hn Hgd Hc. induction Hc as
    [s hs e s' Hr Hst|f fs s hs e g s1 e' s2 Hc IH Hg Hm|fs s hs e k m c x s' Hc IH Hcall Hst|fs s hs e hs' Hc IH Hi Hin
    |fs s e ns es ms i force e' es' s' Hc IH Hl Hms Hgc|fs s e ns es vs i force es' s' Hc IH Hl Hvs Hgc
    |fs s hs e s' Hc IH Hev|fs s hs e v m Hc IH|fs s hs e m x l s' Hc IH Hx Hxt Hm Hp|fs s hs e m x col ths r x' s' Hc IH Hx Hxt Hxz Hl Hu Hp
    |fs s hs e m x q eps th r s' Hc IH Hx Hxt Hq Hp|fs s hs e m x q eps r s' Hc IH Hx Hxt Hq Hp|fs s hs e m c i x s' Hc IH Hcall Hrun];
    cbn [fst snd] in *; intros ops HF Hok.
  - inversion HF; subst. destruct (C67_zero_state s hs n Hr Hn) as (_ & _ & Hret). specialize (Hret e s' Hst).
    split; [eapply fr_step; [exact Hr|eapply fs_call; [apply f_zero; exact Hn|exact Hst]]|]. split; [now left|].
    cbn [ideal length ecirc]. unfold dist.
    rewrite (l2_ext _ _ (fun _ => RtoC 0)) by (intros i Hi; rewrite Hret by exact Hi; ring). unfold l2. rewrite (rsum_ext' _ _ (fun _ => 0%R)).
    + rewrite rsum_const, Rmult_0_r, sqrt_0. lra.
    + intros i _. rewrite Cmod_0. ring.
  - inversion HF as [|o f' ops' fs' Hrd HF' E1 E2]; subst. rename ops' into ops.
    assert (Hok' : forall o, In o ops -> op_ok n o /\ op_unitary o) by (intros o' Ho; apply Hok; now right).
    destruct (IH ops HF' Hok') as (Hr & Hin & Hd). clear IH.
    destruct (Hok o (or_introl eq_refl)) as [Ho HU].
    destruct (fop_completes n o f gd s hs Hr Hn Hgd Ho HU Hrd) as (Hcall & _ & _ & Hret). specialize (Hret g s1 Hg).
    assert (Hr1 : freach (s1, H KM n g :: hs)) by (eapply fr_step; [exact Hr|eapply fs_call; eauto]).
    destruct (reach_V _ _ _ _ Hr Hin) as (HI & _ & _ & Hw).
    destruct (freach_Aok _ Hr) as [_ Hh]. cbn [fst snd] in Hh. destruct (fcall_s _ _ _ _ _ HI Hh Hcall) as (_ & _ & Hwp).
    destruct (wpr_result _ _ _ _ _ HI Hwp Hg) as [Hrel _].
    assert (Hcall2 : fcall (H KM n g :: hs) KV n (mv_multiply g e)) by (apply f_mul; [now left|now right]).
    set (ec := ecirc n gd (length ops)) in *. pose proof (ecirc_pos n gd (length ops) Hgd) as Hec. fold ec in Hec.
    pose proof (eg_pos n gd Hgd) as Heg. set (w := amps s n e) in *.
    assert (Hw1 : amps s1 n e = w) by (apply amps_rel; auto).
    assert (HwW : forall i, (i < 2 ^ n)%nat -> (Cmod (w i) <= 1 + ec)%R).
    { intros i Hi. pose proof (close_of_dist _ _ _ _ Hd i Hi) as Hx. pose proof (ideal_le1 n ops i Hok' Hi) as Hy. apply Cmod_sub_le in Hx. lra. }
    pose proof (op_unitary_mat n o Ho HU) as HUm.
    assert (HAA : forall i j, (i < 2 ^ n)%nat -> (j < 2 ^ n)%nat -> (Cmod (ents s1 n g i j) <= 1 + eg n gd)%R).
    { intros i j Hi Hj. pose proof (unitary_entry n _ i j HUm Hi Hj) as Hx. specialize (Hret i j Hi Hj). apply Cmod_sub_le in Hret. lra. }
    assert (HwW1 : forall i, (i < 2 ^ n)%nat -> (Cmod (amps s1 n e i) <= 1 + ec)%R) by (rewrite Hw1; exact HwW).
    destruct (C67_apply s1 _ n g e _ _ Hr1 (or_introl eq_refl) (or_intror Hin) HAA HwW1) as (_ & _ & Hret2).
    specialize (Hret2 e' s2 Hm). rewrite Hw1 in Hret2.
    split; [eapply fr_step; [exact Hr1|eapply fs_call; eauto]|]. split; [now left|].
    cbn [ideal length ecirc]. fold ec.
    eapply Rle_trans; [apply (dist_tri n (amps s2 n e') (mv n (op_mat n o) w))|].
    rewrite dist_unitary by exact HUm.
    assert (Hc2 : vclose n (eop n gd (1 + ec)) (amps s2 n e') (mv n (op_mat n o) w)).
    { intros i Hi. eapply Rle_trans; [eapply Cmod_tri3; [now apply Hret2|]|unfold eop; apply Rle_refl].
      now apply (mv_close n (op_mat n o) (ents s1 n g) w _ _ Heg Hret HwW). }
    pose proof (dist_of_close n _ _ _ (eop_pos n gd (1 + ec) Hgd ltac:(lra)) Hc2). lra.
  - destruct (IH ops HF Hok) as (Hr & Hin & Hd). destruct (reach_V _ _ _ _ Hr Hin) as (HI & _ & _ & Hw).
    destruct (freach_Aok _ Hr) as [_ Hh]. cbn [fst snd] in Hh. destruct (fcall_s _ _ _ _ _ HI Hh Hcall) as (_ & _ & Hwp).
    destruct (wpr_result _ _ _ _ _ HI Hwp Hst) as [Hrel _].
    split; [eapply fr_step; [exact Hr|eapply fs_call; eauto]|]. split; [now right|]. now rewrite (amps_rel s).
  - destruct (IH ops HF Hok) as (Hr & _ & Hd). split; [eapply fr_step; [exact Hr|now apply fs_drop]|]. auto.
  - destruct (IH ops HF Hok) as (Hr & Hin & Hd).
    assert (Hl' : length (n :: ns) = length (e :: es)) by (cbn; now rewrite Hl).
    destruct (C67_gc s (n :: ns) (e :: es) ms i force Hr Hl' Hms) as (es2 & s2 & Hg2 & _ & Hv & _).
    rewrite Hgc in Hg2. injection Hg2 as <- <-.
    split; [eapply fr_step; [exact Hr|eapply fs_gc; eauto]|]. split; [now left|].
    specialize (Hv 0%nat n e e' (1 + ecirc n gd (length ops))%R eq_refl eq_refl eq_refl). cbn [Nat.eqb] in Hv.
    eapply Rle_trans; [apply (dist_tri n _ (amps s n e))|].
    assert (Hz : (dist n (amps s' n e') (amps s n e) <= sqrt (INR (2 ^ n)) * 0)%R).
    { apply dist_of_close; [lra|]. apply Hv. intros x Hx. pose proof (close_of_dist _ _ _ _ Hd x Hx) as H1. pose proof (ideal_le1 n ops x Hok Hx) as H2.
      apply Cmod_sub_le in H1. lra. }
    lra.
  - destruct (IH ops HF Hok) as (Hr & Hin & Hd).
    destruct (gc_mat_Aok _ _ _ _ _ _ _ _ Hl Hvs Hgc (freach_Aok _ Hr)) as [_ Htb].
    split; [eapply fr_step; [exact Hr|eapply fs_gc_mat; eauto]|].
    assert (Hin' : In (H KV n e) vs).
    { apply in_app_or in Hin. destruct Hin as [Hin|Hin]; auto. apply in_rehandle in Hin. destruct Hin as (a & b & Hab & _). discriminate Hab. }
    split; [apply in_or_app; now right|]. unfold amps in *. now rewrite Htb.
  - destruct (IH ops HF Hok) as (Hr & Hin & Hd). split; [eapply fr_step; [exact Hr|now apply fs_evict]|]. split; auto.
    unfold amps in *. now rewrite (Logic.proj1 Hev).
  - destruct (IH ops HF Hok) as (Hr & Hin & Hd). split; [eapply fr_step; [exact Hr|apply fs_thr]|]. auto.
  - destruct (IH ops HF Hok) as (Hr & Hin & Hd). split; [eapply fr_step; [exact Hr|exact (fs_probs s hs m x l s' Hx Hxt Hm Hp)]|]. split; auto.
    destruct (reach_V _ _ _ _ Hr Hx) as (HI & Hm1 & _ & Hw).
    destruct (probabilities_tb s m x l s' HI (conj Hm1 Hm) (wfp_nt _ _ _ Hw Hxt) Hp) as [_ Htb]. unfold amps in *. now rewrite Htb.
  - destruct (IH ops HF Hok) as (Hr & Hin & Hd). split; [eapply fr_step; [exact Hr|exact (fs_all s hs m x col ths r x' s' Hx Hxt Hxz Hl Hu Hp)]|]. split; [now right|].
    destruct (reach_V _ _ _ _ Hr Hx) as (HI & Hm1 & Hm2 & Hw). destruct (reach_V _ _ _ _ Hr Hin) as (_ & _ & _ & He).
    destruct (measureAll_tb s m x col ths r x' s' HI Hm1 Hm2 (wfp_nt _ _ _ Hw Hxt) Hxz Hl Hu Hp) as (s1 & HI1 & Htb & Hrel & _).
    rewrite <- Htb in He. rewrite (amps_rel s1 s' n e HI1 Hrel He). unfold amps in *. now rewrite Htb.
  - destruct (IH ops HF Hok) as (Hr & Hin & Hd). split; [eapply fr_step; [exact Hr|exact (fs_one s hs m x q eps th r s' Hx Hxt Hq Hp)]|].
    split; [cbn [snd] in *; destruct r as [[b e']|]; [now right|exact Hin]|].
    destruct (reach_V _ _ _ _ Hr Hx) as (HI & Hm1 & Hm2 & Hw). destruct (reach_V _ _ _ _ Hr Hin) as (_ & _ & _ & He).
    destruct (measureOneCollapsing_tb s m x q eps th r s' HI Hm1 Hm2 Hq (wfp_nt _ _ _ Hw Hxt) Hp) as (s1 & HI1 & Htb & Hrel & _).
    cbn [fst] in *. rewrite <- Htb in He. rewrite (amps_rel s1 s' n e HI1 Hrel He). unfold amps in *. now rewrite Htb.
  - destruct (IH ops HF Hok) as (Hr & Hin & Hd). split; [eapply fr_step; [exact Hr|exact (fs_one' s hs m x q eps r s' Hx Hxt Hq Hp)]|]. split; [exact Hin|].
    destruct (reach_V _ _ _ _ Hr Hx) as (HI & Hm1 & Hm2 & Hw).
    destruct (measureOne_tb s m x q eps r s' HI Hm2 (wfp_nt _ _ _ Hw Hxt) Hp) as [_ Htb]. unfold amps in *. cbn [fst] in *. now rewrite Htb.
  - destruct (IH ops HF Hok) as (Hr & Hin & Hd). destruct (reach_V _ _ _ _ Hr Hin) as (HI & _ & _ & Hw).
    destruct (freach_Aok _ Hr) as [_ Hh]. cbn [fst snd] in Hh. destruct (seq_s i _ _ _ _ HI Hh Hcall) as (_ & x2 & s2 & Hx2 & Hrel & _).
    rewrite Hrun in Hx2. injection Hx2 as <- <-.
    split; [eapply fr_step; [exact Hr|exact (fs_run s hs m c i x s' Hcall Hrun)]|]. split; [now right|]. cbn [fst] in *. now rewrite (amps_rel s).
Qed.
Lemma dist_zero n v : (forall i, (i < 2 ^ n)%nat -> v i = RtoC 0) -> forall w, norm2v n w = 1%R -> dist n v w = 1%R.
Proof.
  intros Hv w Hw. unfold dist, l2. unfold norm2v in Hw. rewrite (rsum_ext' _ _ (fun i => (Cmod (w i) ^ 2)%R)); [now rewrite Hw, sqrt_1|].
  intros i Hi. rewrite Hv by exact Hi. replace (Cminus (RtoC 0) (w i)) with (Copp (w i)) by ring. now rewrite Cmod_opp.
Qed.
(* the state after the circuit is within ecirc of the ideal one, in the 2-norm; the list
   returned by getVector is entrywise within ecirc plus the error of reading *)
Theorem C67_circuit n gd ops fs s hs e : size_ok n -> (0 <= gd)%R -> Forall2 (rounds gd) ops fs ->
  (forall o, In o ops -> op_ok n o /\ op_unitary o) -> fcirc n fs (s, hs) e ->
  let ec := ecirc n gd (length ops) in
  (dist n (amps s n e) (ideal n ops) <= ec)%R /\
  ((n <= 30)%nat -> is_term (en e) = false ->
     exists v, getVector s e = Some v /\ length v = (2 ^ n)%nat /\
       vclose n (ec + erd n (1 + ec)) (fun i => cv (nth i v c0)) (ideal n ops)) /\
  ((ec < 1)%R -> is_term (en e) = false).
Proof.
  intros Hn Hgd HF Hok Hc ec. destruct (fcirc_ok n gd fs (s, hs) e Hn Hgd Hc ops HF Hok) as (Hr & Hin & Hd). cbn [fst snd] in *. fold ec in Hd.
  split; [exact Hd|]. destruct (reach_V _ _ _ _ Hr Hin) as (HI & H1 & H2 & Hw). split.
  - intros Hn30 Ht. assert (HW : forall i, (i < 2 ^ n)%nat -> (Cmod (amps s n e i) <= 1 + ec)%R).
    { intros i Hi. pose proof (close_of_dist _ _ _ _ Hd i Hi) as Hx. pose proof (ideal_le1 n ops i Hok Hi) as Hy. apply Cmod_sub_le in Hx. lra. }
    destruct (C67_getVector s hs n e _ Hr Hin Hn30 Ht HW) as (v & Hv & Hl & Hcl). exists v. split; auto. split; auto.
    intros i Hi. rewrite Rplus_comm. eapply Cmod_tri3; [now apply Hcl|]. now apply close_of_dist with (n := n).
  - intros Hec. destruct (wfe_cases_V _ _ _ Hw H1) as [[_ Ht]| ->]; auto. exfalso.
    rewrite (dist_zero n (amps s n zeroE)) in Hd; [lra| |now apply ideal_norm].
    intros i _. unfold amps, vecF. apply val_zeroE.
Qed.
(* the next gate can always be made and applied, under every schedule *)
Theorem C67_circuit_progress n gd ops fs o f s hs e : size_ok n -> (0 <= gd)%R -> Forall2 (rounds gd) ops fs ->
  (forall o, In o ops -> op_ok n o /\ op_unitary o) -> op_ok n o -> op_unitary o -> rounds gd o f -> fcirc n fs (s, hs) e ->
  completes (fop_comp n f) s (fun g s1 => completes (mv_multiply g e) s1 (fun e' s2 =>
    fcirc n (f :: fs) (s2, H KV n e' :: H KM n g :: hs) e')).
Proof.
  intros Hn Hgd HF Hok Ho HU Hrd Hc. destruct (fcirc_ok n gd fs (s, hs) e Hn Hgd Hc ops HF Hok) as (Hr & Hin & _). cbn [fst snd] in *.
  destruct (fop_completes n o f gd s hs Hr Hn Hgd Ho HU Hrd) as (Hcall & Hnw & Hrun & _). split; [exact Hnw|]. split; [exact Hrun|].
  intros g s1 Hg. assert (Hr1 : freach (s1, H KM n g :: hs)) by (eapply fr_step; [exact Hr|eapply fs_call; eauto]).
  assert (Hcall2 : fcall (H KM n g :: hs) KV n (mv_multiply g e)) by (apply f_mul; [now left|now right]).
  destruct (freach_Aok _ Hr1) as [HI1 Hh1]. cbn [fst snd] in *. destruct (fcall_s _ _ _ _ _ HI1 Hh1 Hcall2) as (_ & _ & Hwp).
  split; [eapply wpr_safe; eauto|]. split.
  - intros i. destruct (wpr_run_on i _ _ _ HI1 Hwp) as (e' & s2 & He & _). eauto.
  - intros e' s2 Hm. eapply fc_op; eauto.
Qed.
End FpProp.
