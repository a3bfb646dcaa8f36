(* BcastP.v -- C64: the broadcast variant of the distributed product; and, for both
   variants, what holds of every gate and tolerance (C32_ring_safe, C64_bcast_safe) *)
From Coq Require Import Reals Lra Psatz ZArith Bool List Lia Arith FunctionalExtensionality Permutation.
From Coquelicot Require Import Complex.
From Verif Require Import Num State DD Gates GC Measure Api RNum Wf Sums Err Inv Wp Make Add MulV Canon MM MM2
  GateP StateP Kron Spec SpecP Readout MeasureP MeasAllP GCP MeasOneP ApplyP ApiP Obs Props1 Props2 Prog Circuit Async MPI MPIP Coll MPIB RingP.
Import ListNotations.
Open Scope nat_scope.

(* local blocks proved for the ring are ones for broadcasts *)
Lemma cann_of_locals {St Pl} W Rs (Pre Post : nat -> St -> Prop) :
  @Ann St Pl W (map BLocal Rs) Pre Post -> @CAnn St Pl W (map CLocal Rs) Pre Post.
Proof.
  intros (L & P & A & I & O). exists L, (fun _ _ => True).
  assert (Hn : forall b x, nth_error (map (@CLocal St Pl) Rs) b = Some x -> exists R, x = CLocal R /\ nth_error (map (@BLocal St Pl) Rs) b = Some (BLocal R)).
  { intros b x Hb. rewrite nth_error_map in *. destruct (nth_error Rs b) as [R|]; [|discriminate]. injection Hb as <-. exists R. auto. }
  split; [constructor|split; [exact I|]].
  - intros b R r st Hb Hr HL. destruct (Hn _ _ Hb) as (R' & E' & Hb'). injection E' as <-. exact (an_local _ _ _ _ A b R r st Hb' Hr HL).
  - intros b ro o i Hb. destruct (Hn _ _ Hb) as (R' & E' & _). discriminate.
  - intros b ro o i st Hb. destruct (Hn _ _ Hb) as (R' & E' & _). discriminate.
  - intros b ro o i r st x Hb. destruct (Hn _ _ Hb) as (R' & E' & _). discriminate.
  - intros r st Hr. rewrite map_length in *. now apply O.
Qed.

Section Bcast.
Context (tau : R) {HTol : Tol tau}.
Let Htau : (0 <= tau < 1 / 2)%R := tol_ok.
#[local] Hint Extern 0 NumOps => exact (RNum tau) : typeclass_instances.
Context {CF : Cfg}.
Notation state := (@state (RNum tau)).
Notation edge := (@edge (RNum tau)).
Notation val := (val tau).
Notation wfe := (wfe tau).
Notation Inv := (Inv tau).
Notation rel := (rel tau).
Notation dn := (dn tau).
Notation E := (@E (RNum tau)).
Notation reads_v := (reads_v tau).
Notation matof := (matof tau).
Notation vecof := (vecof tau).
Notation mem := (@mem (RNum tau)).
Notation payload := (@payload (RNum tau)).
Notation keep_m := (keep_m tau).
Notation keep_v := (keep_v tau).
Notation runs_ok := (runs_ok tau).

Section Fun.
Context (H0 : tau = 0%R) (lim : Z) (n g : nat) (Hg : g < n) (Hn : size_ok n).
Let m := n - g.
Let W := 2 ^ g.
Notation CAnnM := (@CAnn mem payload W).
Notation encodes := (encodes tau n g).
Notation Ready := (Ready tau n g).
Notation Loaded := (Loaded tau n g).
Context (A : matrix) (psi : vector).
(* the columns added by rank r after i broadcasts *)
Definition cols (r i : nat) : list nat := r :: filter (fun c => negb (c =? r)) (seq 0 i).
Definition BRound (i r : nat) (st : mem) : Prop :=
  exists x, st = Some x /\ Inv (rm_s x) /\
    (wfe KM (tb (rm_s x) KM) n (rm_lhs x) /\ meq n (matof (rm_s x) n (rm_lhs x)) A) /\
    (wfe KV (tb (rm_s x) KV) m (rm_res x) /\ veq m (vecof (rm_s x) m (rm_res x))
       (fun j => lsum (fun c => mv m (block m r c A) (slice m c psi) j) (cols r i))) /\
    encodes (slice m r psi) (rm_buf x).
Lemma Hm1b : 1 <= m. Proof. unfold m. lia. Qed.
Lemma HmQb : (Z.of_nat m <= NQUBITS)%Z. Proof. destruct Hn. unfold m. lia. Qed.
#[local] Hint Resolve Hm1b HmQb : core.

Lemma cols_S r i : cols r (S i) = if i =? r then cols r i else cols r i ++ [i].
Proof.
  unfold cols. rewrite seq_S, filter_app. cbn [Nat.add filter]. destruct (Nat.eqb_spec i r); cbn [negb]; [now rewrite app_nil_r|reflexivity].
Qed.
Lemma cols_perm_all r : r < W -> Permutation (cols r W) (seq 0 W).
Proof.
  intros Hr. apply NoDup_Permutation_bis.
  - unfold cols. constructor; [|apply NoDup_filter, seq_NoDup]. rewrite filter_In, Nat.eqb_refl. intros [_ h]. discriminate.
  - unfold cols. cbn [length]. rewrite seq_length.
    assert (Hl : forall i, length (filter (fun c => negb (c =? r)) (seq 0 i)) + (if r <? i then 1 else 0) = i).
    { induction i as [|i IH]; [reflexivity|]. rewrite seq_S, filter_app, app_length. cbn [Nat.add filter].
      destruct (Nat.eqb_spec i r) as [->|]; cbn [negb length].
      - destruct (Nat.ltb_spec r r); [lia|]. destruct (Nat.ltb_spec r (S r)); lia.
      - destruct (Nat.ltb_spec r i); destruct (Nat.ltb_spec r (S i)); lia. }
    specialize (Hl W). destruct (Nat.ltb_spec r W); lia.
  - intros x [<-|Hx]; [apply in_seq; lia|]. apply filter_In in Hx as [Hx _]. exact Hx.
Qed.

Context (Hvis : forall r c, r < W -> c < W -> visible n g r c A).
Lemma cann_start : (forall r, r < W -> visible n g r r A) -> CAnnM [CLocal (start W)] (Loaded A psi) (BRound 0).
Proof.
  intros Hd. apply (cann_of_locals W [start W]). cbn [map].
  eapply (ann_conseq W _ (Loaded A psi) (Round tau n g 1 A psi 0)); [auto| |].
  2:{ apply (ann_start tau H0 n g Hg Hn 1 W); [lia|pose proof (Nat.pow_nonzero 2 g); unfold W; lia|lia|].
      intros r c Hr Hc He. rewrite !Nat.div_1_r in He. subst c. now apply Hd. }
  intros r st Hr (x & Ex & HI & HA & HR & He).
  rewrite (col_0 (2 ^ g) W 1) in * by (unfold W in *; lia). exists x. split; auto. split; auto. split; auto. split; auto.
  destruct HR as [R1 R2]. split; auto. eapply veq_trans; [exact R2|]. intros j Hj. cbn [seq map lsum cols filter].
  rewrite (col_0 (2 ^ g) W 1) by (unfold W in *; lia). reflexivity.
Qed.
Lemma cann_round i : i < W -> CAnnM [bround lim W i] (BRound i) (BRound (S i)).
Proof.
  intros Hi. apply (cann_bcast W i _ _ _ _ (fun x => encodes (slice m i psi) x)); auto.
  - intros st (x & -> & HI & HA & HR & He). split; [exact He|]. exists x. split; auto. split; auto. split; auto. split; auto.
    rewrite cols_S, Nat.eqb_refl. exact HR.
  - intros r st x Hr Hne (y & -> & HI & HA & HR & Hb) Hx. cbn [use_b].
    destruct (extract tau n g Hg _ _ _ r i HI HA Hr Hi (Hvis r i Hr Hi)) as (gt & E1 & E2 & E3). fold W in E1. fold m in E2, E3. rewrite E1.
    destruct (decode tau H0 n g Hg Hn _ x _ HI Hx) as (p & t & D1 & D2 & D3). fold m in D3. rewrite D1. pose proof (rel_inv _ _ _ D2) as HI1.
    destruct (keep_m _ _ _ gt _ HI D2 (conj E2 E3)) as [E2' E3'].
    destruct (mul_block tau H0 n g Hg Hn _ gt _ _ _ HI1 E2' E3' (Logic.proj1 D3) (Logic.proj2 D3)) as (F & HF & Hw). fold m in HF, Hw.
    set (G := fun ix => val KV (tb (rm_s y) KV) m (rm_res y) ix).
    apply (runs_ok _ _ (dn KV m (fun ix => Cplus (G ix) (F ix)) 0)); auto.
    + apply (wpr_bind tau); [exact HI1|]. eapply (wpr_mono tau); [exact HI1| |exact Hw]. intros e1 s1 R1 Hd1.
      pose proof (rel_inv _ _ _ R1) as HI2. pose proof (rel_trans _ _ _ _ D2 R1) as R02.
      destruct (keep_v _ _ _ (rm_res y) _ HI R02 HR) as [K1 K2].
      eapply (wpr_mono tau); [exact HI2| |apply (wpr_vv_add' tau lim m s1 (rm_res y) e1); auto; apply Hd1].
      intros e2 s2 _ [Q1 Q2]. split; auto. intros ix. eapply Rle_trans; [|right; apply (eadd_0 tau); exact H0].
      eapply Rle_trans; [|apply Q2]. right. f_equal. f_equal. f_equal.
      * unfold G. symmetry. apply (val_ext tau KV); auto; [apply HI|apply (rel_ext _ _ _ KV R02)|apply HR].
      * symmetry. apply Cmod_le0, Hd1.
    + intros e s' Hrel Hdn. split; [eexists; reflexivity|]. intros m' ->. eexists. split; [reflexivity|]. cbn [rm_s rm_lhs rm_res rm_buf].
      pose proof (rel_inv _ _ _ Hrel) as HI'. pose proof (rel_trans _ _ _ _ D2 Hrel) as R02.
      split; auto. split; [exact (keep_m _ _ _ _ _ HI R02 HA)|]. split; [|exact Hb].
      eapply (dn_veq tau); [reflexivity|exact Hdn|]. intros k Hk. unfold vecF. rewrite cols_S. rewrite (proj2 (Nat.eqb_neq i r) ltac:(lia)). rewrite lsum_app. cbn [lsum].
      f_equal; [apply (Logic.proj2 HR); auto|]. rewrite <- HF by auto. unfold vecF. ring.
Qed.
Lemma cann_rounds k : k <= W -> CAnnM (map (bround lim W) (seq 0 k)) (BRound 0) (BRound k).
Proof.
  induction k as [|k IH]; intros Hk; [apply cann_nil|]. rewrite seq_S, map_app. cbn [Nat.add map].
  eapply cann_app; [apply IH; lia|]. apply cann_round. lia.
Qed.
Lemma cann_finish : CAnnM [CLocal finish] (BRound W) (Ready (mv n A psi)).
Proof.
  apply cann_local. intros r st Hr (x & -> & HI & _ & HR & _). cbn [finish]. split; [eexists; reflexivity|]. intros m' ->.
  eexists. split; [reflexivity|]. cbn [rm_s rm_rhs]. split; auto. split; [apply HR|]. eapply veq_trans; [apply HR|].
  intros i Hi. rewrite (lsum_perm _ _ _ (cols_perm_all r Hr)). fold m. 
  transitivity (slice m r (mv (g + m) A psi) i); [|unfold slice; f_equal; unfold m; f_equal; lia].
  rewrite mv_slice. symmetry. apply csum_list.
  - apply seq_NoDup.
  - intros c Hc. apply in_seq in Hc. unfold W in *. lia.
  - intros c Hc Hn'. exfalso. apply Hn', in_seq. unfold W in *. lia.
Qed.
Lemma cann_bcast_all : CAnnM (CLocal (start W) :: map (bround lim W) (seq 0 W) ++ [CLocal finish]) (Loaded A psi) (Ready (mv n A psi)).
Proof.
  change (CLocal (start W) :: map (bround lim W) (seq 0 W) ++ [CLocal finish]) with
    ([CLocal (start W)] ++ (map (bround lim W) (seq 0 W) ++ [CLocal finish])).
  eapply cann_app; [apply cann_start; auto|]. eapply cann_app; [apply cann_rounds; lia|apply cann_finish].
Qed.
End Fun.

(* ---- clients ---- *)
Definition bclient (lim : Z) (n g : nat) (gs : list (op * nat)) : list (@cblock mem payload) :=
  bcast_client lim n g (map (fun ol => (op_comp tau n (fst ol), snd ol)) gs).
(* what the broadcast variant needs of a gate: its targets are at most L, and no
   block taken by getMPIGate has been stripped (C31_refuted) *)
Definition bcast_gate (n g : nat) (o : op) (L : nat) : Prop :=
  op_ok n o /\ L < n /\ (forall t, In t (op_targets o) -> t <= L) /\
  forall r c, r < 2 ^ g -> c < 2 ^ g -> (L < n - g -> r = c) -> visible n g r c (op_mat n o).

Lemma cann_mul lim n g o L psi : tau = 0%R -> g < n -> size_ok n -> bcast_gate n g o L ->
  @CAnn mem payload (2 ^ g) (CLocal (build (op_comp tau n o)) :: mv_multiply_MPI_bcast lim n g L) (Ready tau n g psi) (Ready tau n g (mv n (op_mat n o) psi)).
Proof.
  intros H0 Hg Hn (Ho & HL & Ht & Hv).
  change (CLocal (build (op_comp tau n o)) :: mv_multiply_MPI_bcast lim n g L) with ([CLocal (build (op_comp tau n o))] ++ mv_multiply_MPI_bcast lim n g L).
  eapply cann_app.
  { apply (cann_of_locals (2 ^ g) [build (op_comp tau n o)]). apply (ann_build tau n g (op_comp tau n o) (op_mat n o)). intros. now apply op_comp_ok. }
  unfold mv_multiply_MPI_bcast, is_local. destruct (Nat.ltb_spec L (n - g)) as [Hl|Hl].
  - apply (cann_of_locals (2 ^ g) [start (2 ^ g); finish]). cbn [map].
    assert (Hs : small_world n g L = 1) by (unfold small_world; replace (1 + L + g - n) with 0 by lia; reflexivity).
    apply (ann_ring tau H0 lim n g Hg Hn 1 (2 ^ g)); try lia.
    + pose proof (Nat.pow_nonzero 2 g). lia.
    + intros r c Hr Hc He. rewrite !Nat.div_1_r in He. apply Hv; auto.
    + intros r c i j Hr Hc He Hi Hj. apply (op_group n g o L); auto. now rewrite Hs.
  - apply (cann_bcast_all H0 lim n g Hg Hn). intros r c Hr Hc. apply Hv; auto. lia.
Qed.
Lemma cann_client lim n g gs : tau = 0%R -> g < n -> size_ok n -> (forall o L, In (o, L) gs -> bcast_gate n g o L) ->
  forall psi ops, psi = ideal n ops ->
  @CAnn mem payload (2 ^ g) (flat_map (fun cl => CLocal (build (fst cl)) :: mv_multiply_MPI_bcast lim n g (snd cl)) (map (fun ol => (op_comp tau n (fst ol), snd ol)) gs))
    (Ready tau n g psi) (Ready tau n g (ideal n (rev (map fst gs) ++ ops))).
Proof.
  intros H0 Hg Hn. induction gs as [|[o L] gs IH]; intros Hgs psi ops ->; [apply cann_nil|]. cbn [map flat_map fst snd].
  eapply cann_app; [apply (cann_mul lim n g o L); auto; apply Hgs; now left|]. cbn [rev]. rewrite <- app_assoc. apply IH; [|reflexivity].
  intros o' L' Hin. apply Hgs. now right.
Qed.
Lemma cann_bclient lim n g gs : tau = 0%R -> g < n -> size_ok n -> (forall o L, In (o, L) gs -> bcast_gate n g o L) ->
  @CAnn mem payload (2 ^ g) (bclient lim n g gs) (Start tau) (Ready tau n g (ideal n (rev (map fst gs)))).
Proof.
  intros H0 Hg Hn Hgs. unfold bclient, bcast_client. eapply (cann_app _ [CLocal (zero_mpi n g)]).
  - apply (cann_of_locals (2 ^ g) [zero_mpi n g]). apply (ann_zero tau n g Hg Hn).
  - replace (rev (map fst gs)) with (rev (map fst gs) ++ []) by apply app_nil_r. apply cann_client; auto.
Qed.

(* C64.  W = 2^g ranks start the all-zero state of n qubits and apply gates with
   mv_multiply_MPI_bcast.  Under every interleaving, whether broadcasts synchronise
   or not: no deadlock, termination, and at the end rank r's handle reads as
   amplitudes r*2^(n-g) .. (r+1)*2^(n-g)-1 of the circuit's state.
   Missing: gates which have a block of the form [[B,0],[0,B]] above the rank
   blocks (false there: C64_refuted) and positive tolerances. *)
Theorem C64_bcast_partial lim n g sync gs (mem0 : nat -> mem) c :
  tau = 0%R -> g < n -> size_ok n -> (forall o L, In (o, L) gs -> bcast_gate n g o L) ->
  (forall r, r < 2 ^ g -> exists x hs, mem0 r = Some x /\ reachable (rm_s x, hs)) ->
  csteps (2 ^ g) sync (bclient lim n g gs) (cstart mem0) c ->
  (cfinished (2 ^ g) (bclient lim n g gs) c \/ exists c', cstep (2 ^ g) sync (bclient lim n g gs) c c') /\
  Acc (fun y x => cstep (2 ^ g) sync (bclient lim n g gs) x y) c /\
  (cfinished (2 ^ g) (bclient lim n g gs) c -> forall r, r < 2 ^ g ->
     exists x, k_mem (cranks c r) = Some x /\ holds tau (n - g) (rm_s x) (rm_rhs x) (slice (n - g) r (ideal n (rev (map fst gs))))).
Proof.
  intros H0 Hg Hn Hgs Hmem Hst. pose proof (cann_bclient lim n g gs H0 Hg Hn Hgs) as HA.
  destruct (cann_sound (2 ^ g) sync _ _ _ mem0 c ltac:(pose proof (Nat.pow_nonzero 2 g); lia) HA) as (P1 & P2 & P3); auto.
  { intros r Hr. destruct (Hmem r Hr) as (x & hs & -> & Hx). exists x. split; auto. exact (reach_Inv tau _ _ Hx). }
  split; auto. split; auto. intros Hf r Hr. destruct (P3 Hf r Hr) as (x & Ex & HI & Hw & Hv). exists x. split; auto. split; auto. split; auto.
  eapply (reads_v_veq tau); [exact Hv|]. apply (reads_vecof tau); auto. lia.
Qed.
Theorem C64_bcast_finishes lim n g sync gs (mem0 : nat -> mem) :
  tau = 0%R -> g < n -> size_ok n -> (forall o L, In (o, L) gs -> bcast_gate n g o L) ->
  (forall r, r < 2 ^ g -> exists x hs, mem0 r = Some x /\ reachable (rm_s x, hs)) ->
  exists c, csteps (2 ^ g) sync (bclient lim n g gs) (cstart mem0) c /\ cfinished (2 ^ g) (bclient lim n g gs) c.
Proof.
  intros H0 Hg Hn Hgs Hmem. pose proof (cann_bclient lim n g gs H0 Hg Hn Hgs) as HA.
  apply (cann_finishes (2 ^ g) sync _ _ _ mem0 ltac:(pose proof (Nat.pow_nonzero 2 g); lia) HA).
  intros r Hr. destruct (Hmem r Hr) as (x & hs & -> & Hx). exists x. split; auto. exact (reach_Inv tau _ _ Hx).
Qed.
(* two ranks: the condition is that the gate acts on the top qubit *)
Theorem C64_two_ranks n o L : 1 < n -> op_ok n o -> L < n -> (forall t, In t (op_targets o) -> t <= L) ->
  ~ repeated n (op_mat n o) -> bcast_gate n 1 o L.
Proof.
  intros Hn Ho HL Ht Hr. split; auto. split; auto. split; auto. intros r c Hr' Hc' _ k Hk.
  replace k with 0 by lia. right. cbn in Hr', Hc'. replace (n - 0) with n by lia. cbn [Nat.sub].
  rewrite (Nat.div_small r), (Nat.div_small c) by (cbn; lia). now rewrite block_00.
Qed.

(* ---- every gate, every tolerance: safety, no deadlock, termination ---- *)
Section Safe.
Context (lim : Z) (n g : nat) (Hg : g < n) (Hn : size_ok n).
Let m := n - g.
Let W := 2 ^ g.
Lemma Hm1s : 1 <= m. Proof. unfold m. lia. Qed.
Lemma HmQs : (Z.of_nat m <= NQUBITS)%Z. Proof. destruct Hn. unfold m. lia. Qed.
Lemma Hm101s : m <= 101. Proof. destruct Hn. unfold m. unfold NQUBITS in *. lia. Qed.
#[local] Hint Resolve Hm1s HmQs Hm101s : core.
Definition enc (x : payload) : Prop :=
  exists s0 (e0 : edge) j, Inv s0 /\ wfe KV (tb s0 KV) m e0 /\ ew e0 = fst x /\ node_to_vec KV s0 (en e0) = Some (j, snd x).
Definition SReady (r : nat) (st : mem) : Prop := exists x, st = Some x /\ Inv (rm_s x) /\ wfe KV (tb (rm_s x) KV) m (rm_rhs x).
Definition SLoaded (r : nat) (st : mem) : Prop :=
  exists x, st = Some x /\ Inv (rm_s x) /\ wfe KV (tb (rm_s x) KV) m (rm_rhs x) /\ wfe KM (tb (rm_s x) KM) n (rm_lhs x).
Definition SRound (r : nat) (st : mem) : Prop :=
  exists x, st = Some x /\ Inv (rm_s x) /\ wfe KM (tb (rm_s x) KM) n (rm_lhs x) /\ wfe KV (tb (rm_s x) KV) m (rm_res x) /\ enc (rm_buf x).
Notation SAnn := (@Ann mem payload W).
Lemma wf_keep k s s' l e : rel s s' -> wfe k (tb s k) l e -> wfe k (tb s' k) l e.
Proof. intros Hr. eapply (wfe_ext tau). apply (rel_ext _ _ _ k Hr). Qed.
Lemma sann_zero : SAnn [BLocal (zero_mpi n g)] (Start tau) SReady.
Proof.
  eapply ann_conseq; [intros r st _ H; exact H| |apply (ann_zero tau n g Hg Hn)].
  intros r st Hr (x & Ex & HI & Hw & _). exists x. auto.
Qed.
Lemma sann_build c : (forall s, Inv s -> exists F err, wpr tau c (dn KM n F err) s) -> SAnn [BLocal (build c)] SReady SLoaded.
Proof.
  intros Hc. apply ann_local. intros r st Hr (x & -> & HI & Hv). cbn [build]. destruct (Hc _ HI) as (F & err & Hw).
  apply (runs_ok _ _ (dn KM n F err)); auto. intros e s' Hrel [Hd _]. split; [eexists; reflexivity|]. intros m' ->. eexists. split; [reflexivity|].
  cbn [rm_s rm_rhs rm_lhs]. split; [exact (rel_inv _ _ _ Hrel)|]. split; [now apply (wf_keep KV (rm_s x))|exact Hd].
Qed.
Lemma sgate s e r c : Inv s -> wfe KM (tb s KM) n e -> r < W -> c < W -> exists e', getMPIGate s e r c W = Some e' /\ wfe KM (tb s KM) m e'.
Proof.
  intros HI Hw Hr Hc. destruct (mpi_gate_safe tau s m HI g W e r c) as (e' & E1 & E2 & _); auto.
  - apply Nat.lt_le_incl. unfold W. apply Nat.pow_gt_lin_r. lia.
  - now replace (m + g) with n by (unfold m; lia).
  - exists e'. auto.
Qed.
Lemma sencode s e : Inv s -> wfe KV (tb s KV) m e -> exists j cs, node_to_vec KV s (en e) = Some (j, cs) /\ enc (ew e, cs).
Proof.
  intros HI Hw. destruct (node_to_vec_spec tau KV s m (en e) (inv_tb _ _ HI KV) Hm101s (wfe_okp _ _ _ _ _ Hw)) as (j & cs & ps & mm & E1 & _).
  exists j, cs. split; auto. exists s, e, j. auto.
Qed.
Lemma sdecode s x : Inv s -> enc x ->
  exists p t, vec_to_node KV 0 false (snd x) (tb s KV) = Some (p, t) /\ rel s (set_tb s KV t) /\ wfe KV (tb (set_tb s KV t) KV) m (E (fst x) p).
Proof.
  intros HI (s0 & e0 & j & I0 & Hw & Ew & Ec).
  destruct (roundtrip tau KV 0 false s0 m (en e0) (tb s KV) (inv_tb _ _ I0 KV) (inv_tb _ _ HI KV) Hm101s (wfe_okp _ _ _ _ _ Hw)) as
    (j' & cs & q & t3 & A1 & A2 & A3 & A4 & A5); [discriminate|].
  rewrite Ec in A1. injection A1 as <- <-. exists q, t3. split; auto. split; [now apply Inv_set_tb|].
  destruct (good_keep tau _ _ _ _ e0 q (dof_pos tau false) A5) as [_ Hk]. rewrite Ew in Hk. destruct (Hk m Hw) as [Hw' _].
  replace (tb (set_tb s KV t3) KV) with t3 by (symmetry; apply set_tb_same). exact Hw'.
Qed.
Lemma sann_start : SAnn [BLocal (start W)] SLoaded SRound.
Proof.
  apply ann_local. intros r st Hr (x & -> & HI & Hv & HA). cbn [start].
  destruct (sgate _ _ r r HI HA Hr Hr) as (gt & E1 & E2). rewrite E1.
  eapply runs_ok; [exact HI|apply (wpr_mv_multiply' tau m); auto|]. cbn beta. intros e s' Hrel [Hd _].
  pose proof (rel_inv _ _ _ Hrel) as HI'.
  destruct (sencode s' (rm_rhs x) HI' (wf_keep KV _ _ _ _ Hrel Hv)) as (j & cs & Ej & He). rewrite Ej.
  split; [eexists; reflexivity|]. intros m' ->. eexists. split; [reflexivity|]. cbn [rm_s rm_lhs rm_res rm_buf].
  split; auto. split; [exact (wf_keep KM _ _ _ _ Hrel HA)|]. split; auto.
Qed.
Lemma srun gt y x p t (k : edge -> mem) : Inv (rm_s y) -> wfe KV (tb (rm_s y) KV) m (rm_res y) -> wfe KM (tb (rm_s y) KM) m gt ->
  rel (rm_s y) (set_tb (rm_s y) KV t) -> wfe KV (tb (set_tb (rm_s y) KV t) KV) m (E (fst x) p) ->
  wpr tau (bind (mv_multiply gt (E (@fst cx (list content) x) p)) (fun e1 => vv_add lim (rm_res y) e1))
    (fun e s' => wfe KV (tb s' KV) m e) (set_tb (rm_s y) KV t).
Proof.
  intros HI HR E2 D2 D3. pose proof (rel_inv _ _ _ D2) as HI1.
  apply (wpr_bind tau); [exact HI1|].
  eapply (wpr_mono tau); [exact HI1| |apply (wpr_mv_multiply' tau m); auto; exact (wf_keep KM _ _ _ _ D2 E2)]. intros e1 s1 R1 [Hd1 _].
  pose proof (rel_inv _ _ _ R1) as HI2. pose proof (rel_trans _ _ _ _ D2 R1) as R02.
  eapply (wpr_mono tau); [exact HI2| |apply (wpr_vv_add' tau lim m s1 (rm_res y) e1); auto; exact (wf_keep KV _ _ _ _ R02 HR)].
  intros e2 s2 _ [Q1 _]. exact Q1.
Qed.
Lemma sann_round small d i : W = d * small -> 0 < d -> 0 < small -> 1 <= i < small -> SAnn [round lim W small i] SRound SRound.
Proof.
  intros HW Hd Hs Hi. apply (ann_exch W i _ _ _ _ _ _ (fun q x => enc x)).
  - intros r Hr. destruct (ring_ok W d small HW Hd Hs r Hr) as (a & b & c & e). auto.
  - intros r st Hr (x & -> & _ & _ & _ & He). exact He.
  - intros r st x Hr (y & -> & HI & HA & HR & _) Hx.
    destruct (col_lt W d small HW Hd Hs r i Hr ltac:(lia)) as [Hc Hq]. cbn [use].
    destruct (sgate _ _ r (col_of W small i r) HI HA Hr Hc) as (gt & E1 & E2). rewrite E1.
    destruct (sdecode _ x HI Hx) as (p & t & D1 & D2 & D3). rewrite D1.
    eapply runs_ok; [exact (rel_inv _ _ _ D2)|apply (srun gt y x p t (fun _ => None)); auto|]. cbn beta. intros e s' Hrel Hd1.
    split; [eexists; reflexivity|]. intros m' ->. eexists. split; [reflexivity|]. cbn [rm_s rm_lhs rm_res rm_buf].
    pose proof (rel_trans _ _ _ _ D2 Hrel) as R02. split; [exact (rel_inv _ _ _ Hrel)|]. split; [exact (wf_keep KM _ _ _ _ R02 HA)|]. auto.
Qed.
Lemma sann_rounds small d k : W = d * small -> 0 < d -> 0 < small -> k < small -> SAnn (map (round lim W small) (seq 1 k)) SRound SRound.
Proof.
  intros HW Hd Hs. induction k as [|k IH]; intros Hk; [apply ann_nil|]. rewrite seq_S, map_app. cbn [Nat.add map].
  eapply ann_app; [apply IH; lia|]. apply (sann_round small d); auto. lia.
Qed.
Lemma sann_finish : SAnn [BLocal finish] SRound SReady.
Proof.
  apply ann_local. intros r st Hr (x & -> & HI & _ & HR & _). cbn [finish]. split; [eexists; reflexivity|]. intros m' ->.
  eexists. split; [reflexivity|]. cbn [rm_s rm_rhs]. auto.
Qed.
Lemma scann_round i : i < W -> @CAnn mem payload W [bround lim W i] SRound SRound.
Proof.
  intros Hi. apply (cann_bcast W i _ _ _ _ enc); auto.
  - intros st H. split; auto. destruct H as (x & -> & _ & _ & _ & He). exact He.
  - intros r st x Hr Hne (y & -> & HI & HA & HR & Hb) Hx. cbn [use_b].
    destruct (sgate _ _ r i HI HA Hr Hi) as (gt & E1 & E2). rewrite E1.
    destruct (sdecode _ x HI Hx) as (p & t & D1 & D2 & D3). rewrite D1.
    eapply runs_ok; [exact (rel_inv _ _ _ D2)|apply (srun gt y x p t (fun _ => None)); auto|]. cbn beta. intros e s' Hrel Hd1.
    split; [eexists; reflexivity|]. intros m' ->. eexists. split; [reflexivity|]. cbn [rm_s rm_lhs rm_res rm_buf].
    pose proof (rel_trans _ _ _ _ D2 Hrel) as R02. split; [exact (rel_inv _ _ _ Hrel)|]. split; [exact (wf_keep KM _ _ _ _ R02 HA)|]. auto.
Qed.
Lemma scann_rounds k : k <= W -> @CAnn mem payload W (map (bround lim W) (seq 0 k)) SRound SRound.
Proof.
  induction k as [|k IH]; intros Hk; [apply cann_nil|]. rewrite seq_S, map_app. cbn [Nat.add map].
  eapply cann_app; [apply IH; lia|]. apply scann_round. lia.
Qed.
Lemma op_comp_any o s : op_ok n o -> Inv s -> exists F err, wpr tau (op_comp tau n o) (dn KM n F err) s.
Proof.
  intros Ho HI. destruct o as [gm t l|gm t0 t1 l]; cbn in Ho |- *.
  - destruct (entry_bound_ex 2 gm) as (B & HB & Hb). destruct (wpr_gate1 tau n gm t l B s) as (F & F1 & _ & F3); try tauto. eauto.
  - destruct (entry_bound_ex 4 gm) as (B & HB & Hb). destruct (wpr_gate2 tau n gm t0 t1 l B s) as (F & F1 & _ & F3); try tauto. eauto.
Qed.
Lemma sann_client gs : (forall o L, In (o, L) gs -> op_ok n o /\ L < n) -> SAnn (client tau lim n g gs) (Start tau) SReady.
Proof.
  intros Hgs. unfold client, mpi_client. eapply (ann_app _ [BLocal (zero_mpi n g)]); [apply sann_zero|].
  induction gs as [|[o L] gs IH]; [apply ann_nil|]. cbn [map flat_map fst snd]. destruct (Hgs o L (or_introl eq_refl)) as [Ho HL].
  eapply ann_app; [|apply IH; intros; apply Hgs; now right].
  eapply (ann_app _ [BLocal (build (op_comp tau n o))]); [apply sann_build; intros; now apply op_comp_any|].
  unfold mv_multiply_MPI. destruct (is_local n g L).
  - eapply (ann_app _ [BLocal (start W)]); [apply sann_start|apply sann_finish].
  - destruct (small_div n g L Hg HL) as (d & Hd & HW & Hs).
    eapply (ann_app _ [BLocal (start W)]); [apply sann_start|]. eapply ann_app; [|apply sann_finish].
    apply (sann_rounds _ d); auto. lia.
Qed.
Lemma scann_client gs : (forall o L, In (o, L) gs -> op_ok n o) -> @CAnn mem payload W (bclient lim n g gs) (Start tau) SReady.
Proof.
  intros Hgs. unfold bclient, bcast_client. eapply (cann_app _ [CLocal (zero_mpi n g)]); [apply (cann_of_locals W [zero_mpi n g]), sann_zero|].
  induction gs as [|[o L] gs IH]; [apply cann_nil|]. cbn [map flat_map fst snd]. pose proof (Hgs o L (or_introl eq_refl)) as Ho.
  eapply cann_app; [|apply IH; intros o' L' Hin; apply (Hgs o' L'); now right].
  eapply (cann_app _ [CLocal (build (op_comp tau n o))]); [apply (cann_of_locals W [build (op_comp tau n o)]), sann_build; intros; now apply op_comp_any|].
  unfold mv_multiply_MPI_bcast. destruct (is_local n g L).
  - apply (cann_of_locals W [start W; finish]). cbn [map]. eapply (ann_app _ [BLocal (start W)]); [apply sann_start|apply sann_finish].
  - eapply (cann_app _ [CLocal (start W)]); [apply (cann_of_locals W [start W]), sann_start|].
    eapply cann_app; [apply scann_rounds; lia|]. apply (cann_of_locals W [finish]), sann_finish.
Qed.
End Safe.
(* the handle of a rank is a vector of n qubits in that rank's tables *)
Definition handle (n : nat) (s : state) (e : edge) : Prop := Inv s /\ wfe KV (tb s KV) n e.
(* C32, the part about messages, for every gate, largest_qubit argument and
   tolerance: no rank aborts or meets undefined behaviour, no deadlock, every
   message is received, every execution ends *)
Theorem C32_ring_safe lim n g eager gs (mem0 : nat -> mem) c :
  g < n -> size_ok n -> (forall o L, In (o, L) gs -> op_ok n o /\ L < n) ->
  (forall r, r < 2 ^ g -> exists x hs, mem0 r = Some x /\ reachable (rm_s x, hs)) ->
  asteps (2 ^ g) eager (client tau lim n g gs) (astart mem0) c ->
  (finished (2 ^ g) (client tau lim n g gs) c \/ exists c', astep (2 ^ g) eager (client tau lim n g gs) c c') /\
  Acc (fun y x => astep (2 ^ g) eager (client tau lim n g gs) x y) c /\
  (finished (2 ^ g) (client tau lim n g gs) c -> forall r, r < 2 ^ g ->
     exists x, r_mem (ranks c r) = Some x /\ handle (n - g) (rm_s x) (rm_rhs x)).
Proof.
  intros Hg Hn Hgs Hmem Hst. pose proof (sann_client lim n g Hg Hn gs Hgs) as HA.
  destruct (ann_sound (2 ^ g) eager _ _ _ mem0 c ltac:(pose proof (Nat.pow_nonzero 2 g); lia) HA) as (P1 & P2 & P3); auto.
  { intros r Hr. destruct (Hmem r Hr) as (x & hs & -> & Hx). exists x. split; auto. exact (reach_Inv tau _ _ Hx). }
Qed.
Theorem C64_bcast_safe lim n g sync gs (mem0 : nat -> mem) c :
  g < n -> size_ok n -> (forall o L, In (o, L) gs -> op_ok n o) ->
  (forall r, r < 2 ^ g -> exists x hs, mem0 r = Some x /\ reachable (rm_s x, hs)) ->
  csteps (2 ^ g) sync (bclient lim n g gs) (cstart mem0) c ->
  (cfinished (2 ^ g) (bclient lim n g gs) c \/ exists c', cstep (2 ^ g) sync (bclient lim n g gs) c c') /\
  Acc (fun y x => cstep (2 ^ g) sync (bclient lim n g gs) x y) c /\
  (cfinished (2 ^ g) (bclient lim n g gs) c -> forall r, r < 2 ^ g ->
     exists x, k_mem (cranks c r) = Some x /\ handle (n - g) (rm_s x) (rm_rhs x)).
Proof.
  intros Hg Hn Hgs Hmem Hst. pose proof (scann_client lim n g Hg Hn gs Hgs) as HA.
  destruct (cann_sound (2 ^ g) sync _ _ _ mem0 c ltac:(pose proof (Nat.pow_nonzero 2 g); lia) HA) as (P1 & P2 & P3); auto.
  { intros r Hr. destruct (Hmem r Hr) as (x & hs & -> & Hx). exists x. split; auto. exact (reach_Inv tau _ _ Hx). }
Qed.

(* X on the top qubit of two, two ranks: meets the hypotheses of C64 *)
Notation Xm := (@Xmat (RNum tau)).
Theorem C64_example : bcast_gate 2 1 (U1 Xm 1%Z []) 1.
Proof.
  apply C64_two_ranks; try lia.
  - cbn. split; [unfold qubit; lia|]. split; [constructor|intros x []].
  - cbn. intros t [<-|[]]. cbn. lia.
  - intros (h & _). specialize (h 0 0 ltac:(cbn; lia) ltac:(cbn; lia)). cbn in h. now apply one_ne0.
Qed.
(* a controlled gate whose target is local and whose control is the top qubit *)
Theorem C64_example_control : bcast_gate 2 1 (U1 Xm 0%Z [(1%Z, true)]) 0.
Proof.
  apply C64_two_ranks; try lia.
  - cbn. split; [unfold qubit; lia|]. split; [constructor; [intros []|constructor]|]. intros x [<-|[]]. cbn. split; [unfold qubit; lia|]. intros [h|[]]; discriminate.
  - cbn. intros t [<-|[]]. cbn. lia.
  - intros (_ & _ & h). specialize (h 0 1 ltac:(cbn; lia) ltac:(cbn; lia)). cbn in h. symmetry in h. now apply one_ne0.
Qed.
(* C64 is false for gates on local qubits, as C32: X on qubit 0 of two, two ranks *)
Theorem C64_refuted lim sync (mem0 : nat -> mem) : tau = 0%R ->
  (forall r, r < 2 -> exists x hs, mem0 r = Some x /\ reachable (rm_s x, hs)) ->
  let prog := bclient lim 2 1 [(U1 Xm 0%Z [], 0)] in
  slice 1 0 (ideal 2 [U1 Xm 0%Z []]) 1 = RtoC 1 /\
  (exists c, csteps 2 sync prog (cstart mem0) c /\ cfinished 2 prog c) /\
  (forall c, csteps 2 sync prog (cstart mem0) c -> cfinished 2 prog c ->
     exists x, k_mem (cranks c 0) = Some x /\ reads_v (rm_s x) 1 (rm_rhs x) (fun _ => RtoC 0)).
Proof.
  intros H0 Hmem prog. split; [unfold slice; cbn [ideal op_mat]; change (Z.to_nat 0) with 0; rewrite gate1_action by (cbn; lia); cbn; apply injective_projections; cbn; ring|].
  assert (HA : @CAnn mem payload 2 prog (Start tau) (Lost tau)).
  { change prog with (map (@CLocal mem payload) [zero_mpi 2 1; build (op_comp tau 2 (U1 Xm 0%Z [])); start 2; finish]).
    apply cann_of_locals. exact (ann_lost tau lim H0). }
  assert (Hst : forall r, r < 2 -> Start tau r (mem0 r)).
  { intros r Hr. destruct (Hmem r Hr) as (x & hs & -> & Hx). exists x. split; auto. exact (reach_Inv tau _ _ Hx). }
  split; [apply (cann_finishes 2 sync prog _ _ mem0 ltac:(lia) HA Hst)|].
  intros c Hc Hf. destruct (cann_sound 2 sync prog _ _ mem0 c ltac:(lia) HA Hst Hc) as (_ & _ & P). destruct (P Hf 0 ltac:(lia)) as (x & Ex & HI & Hv).
  destruct (Hv eq_refl) as [Hw Hv']. exists x. split; auto. eapply (reads_v_veq tau); [exact Hv'|]. apply (reads_vecof tau); auto.
Qed.
End Bcast.
