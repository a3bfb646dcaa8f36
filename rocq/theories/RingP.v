(* RingP.v -- C32: the ring exchange of mv_multiply_MPI *)
From Coq Require Import Reals Lra Psatz ZArith Bool List Lia Arith FunctionalExtensionality Permutation.
From Coquelicot Require Import Complex.
From Verif Require Import Num State DD Gates GC Measure Api RNum Wf Sums Err Inv Wp Make Add MulV Canon MM MM2
  GateP StateP Kron Spec SpecP Readout MeasureP MeasAllP GCP MeasOneP ApplyP ApiP Obs Props1 Props2 Prog Circuit Async MPI MPIP.
Import ListNotations.
Open Scope nat_scope.

(* ---- ranks in groups of [small], small dividing W ---- *)
Section Arith.
Context (W d small : nat) (HW : W = d * small) (Hd : 0 < d) (Hs : 0 < small).
Lemma mod_back q p i : p < small -> i <= small -> (q * small + p + W - i) mod small = if i <=? p then (p - i) else if i =? p + small then 0 else p + small - i.
Proof.
  intros Hp Hi. assert (Ed : q * small + p + W - i = (p + small - i) + (q + d - 1) * small).
  { rewrite HW. assert (Hd' : exists d', d = S d') by (exists (d - 1); lia). destruct Hd' as (d' & ->). replace (q + S d' - 1) with (q + d') by lia. cbn [Nat.mul]. rewrite Nat.mul_add_distr_r. lia. }
  rewrite Ed.
  rewrite Nat.mod_add by lia. destruct (Nat.leb_spec i p).
  - replace (p + small - i) with ((p - i) + 1 * small) by lia. rewrite Nat.mod_add, Nat.mod_small; lia.
  - destruct (Nat.eqb_spec i (p + small)); [replace (p + small - i) with 0 by lia; apply Nat.mod_0_l; lia|]. apply Nat.mod_small. lia.
Qed.
Lemma mod_fwd q p : p < small -> (q * small + p + 1 + W) mod small = if p + 1 =? small then 0 else p + 1.
Proof.
  intros Hp. replace (q * small + p + 1 + W) with ((p + 1) + (q + d) * small) by (rewrite HW, Nat.mul_add_distr_r; lia).
  rewrite Nat.mod_add by lia. destruct (Nat.eqb_spec (p + 1) small) as [->|]; [apply Nat.mod_same; lia|apply Nat.mod_small; lia].
Qed.
Lemma offset_form q p : p < small -> offset W small (q * small + p) = q * small.
Proof.
  intros Hp. unfold offset. replace (q * small + p + W) with (p + (q + d) * small) by (rewrite HW, Nat.mul_add_distr_r; lia).
  rewrite Nat.mod_add, Nat.mod_small by lia. lia.
Qed.
Lemma split_rank r : exists q p, r = q * small + p /\ p < small /\ q = r / small.
Proof.
  exists (r / small), (r mod small). pose proof (Nat.div_mod r small ltac:(lia)). pose proof (Nat.mod_upper_bound r small ltac:(lia)).
  split; [lia|]. split; auto.
Qed.
Lemma div_form q p : p < small -> (q * small + p) / small = q.
Proof. intros Hp. rewrite Nat.add_comm, Nat.div_add by lia. rewrite Nat.div_small by auto. lia. Qed.
Lemma group_lt q p p' : p < small -> p' < small -> q * small + p < W -> q * small + p' < W.
Proof. intros Hp Hp' H. rewrite HW in *. assert (q < d) by nia. nia. Qed.

Lemma ring_ok r : r < W -> right_nb W small r < W /\ left_nb W small r < W /\
  left_nb W small (right_nb W small r) = r /\ right_nb W small (left_nb W small r) = r.
Proof.
  intros Hr. destruct (split_rank r) as (q & p & E & Hp & _). subst r.
  unfold right_nb, left_nb. rewrite !(offset_form q p) by auto. rewrite (mod_fwd q p), (mod_back q p 1) by lia.
  set (pr := if p + 1 =? small then 0 else p + 1).
  set (pl := if 1 <=? p then p - 1 else if 1 =? p + small then 0 else p + small - 1).
  assert (Hpr : pr < small) by (unfold pr; destruct (Nat.eqb_spec (p + 1) small); lia).
  assert (Hpl : pl < small) by (unfold pl; destruct (Nat.leb_spec 1 p); [lia|]; destruct (Nat.eqb_spec 1 (p + small)); lia).
  rewrite (Nat.add_comm pr), (Nat.add_comm pl). rewrite !offset_form by auto. rewrite (mod_back q pr 1), (mod_fwd q pl) by lia.
  split; [apply (group_lt q p pr); auto|]. split; [apply (group_lt q p pl); auto|]. split.
  - rewrite Nat.add_comm. f_equal. unfold pr. destruct (Nat.eqb_spec (p + 1) small); [|replace (1 <=? p + 1) with true by (symmetry; apply Nat.leb_le; lia); lia].
    destruct (Nat.leb_spec 1 0); [lia|]. destruct (Nat.eqb_spec 1 (0 + small)); lia.
  - rewrite Nat.add_comm. f_equal. unfold pl. destruct (Nat.leb_spec 1 p).
    + replace (p - 1 + 1) with p by lia. destruct (Nat.eqb_spec p small); lia.
    + destruct (Nat.eqb_spec 1 (p + small)); [assert (small = 1) by lia; destruct (Nat.eqb_spec (0 + 1) small); lia|].
      destruct (Nat.eqb_spec (p + small - 1 + 1) small); lia.
Qed.
Lemma col_lt r i : r < W -> i <= small -> col_of W small i r < W /\ col_of W small i r / small = r / small.
Proof.
  intros Hr Hi. destruct (split_rank r) as (q & p & E & Hp & Eq). subst r. unfold col_of. rewrite (offset_form q p) by auto.
  rewrite Nat.add_comm. assert (Hm : (q * small + p + W - i) mod small < small) by (apply Nat.mod_upper_bound; lia).
  split; [apply (group_lt q p); auto|]. now rewrite !div_form.
Qed.
Lemma col_0 r : r < W -> col_of W small 0 r = r.
Proof.
  intros Hr. destruct (split_rank r) as (q & p & E & Hp & Eq). subst r. unfold col_of. rewrite (offset_form q p), (mod_back q p 0) by lia.
  cbn. lia.
Qed.
Lemma col_left r i : r < W -> 1 <= i < small -> col_of W small (i - 1) (left_nb W small r) = col_of W small i r.
Proof.
  intros Hr Hi. destruct (split_rank r) as (q & p & E & Hp & Eq). subst r. unfold col_of, left_nb.
  rewrite (offset_form q p), (mod_back q p 1), (mod_back q p i) by lia.
  set (pl := if 1 <=? p then p - 1 else if 1 =? p + small then 0 else p + small - 1).
  assert (Hpl : pl < small) by (unfold pl; destruct (Nat.leb_spec 1 p); [lia|]; destruct (Nat.eqb_spec 1 (p + small)); lia).
  rewrite (Nat.add_comm pl). rewrite (offset_form q pl), (mod_back q pl (i - 1)) by lia. f_equal. unfold pl.
  destruct (Nat.leb_spec 1 p).
  - destruct (Nat.leb_spec (i - 1) (p - 1)); destruct (Nat.leb_spec i p); try lia.
    destruct (Nat.eqb_spec (i - 1) (p - 1 + small)); destruct (Nat.eqb_spec i (p + small)); lia.
  - destruct (Nat.eqb_spec 1 (p + small)); [lia|]. destruct (Nat.leb_spec (i - 1) (p + small - 1)); destruct (Nat.leb_spec i p); try lia.
    destruct (Nat.eqb_spec i (p + small)); lia.
Qed.
(* the columns seen by rank r are its group *)
Lemma cols_perm r : r < W -> Permutation (map (fun i => col_of W small i r) (seq 0 small)) (seq (r / small * small) small).
Proof.
  intros Hr. destruct (split_rank r) as (q & p & E & Hp & Eq). rewrite <- Eq.
  apply NoDup_Permutation_bis.
  - assert (H : forall l, NoDup l -> (forall x, In x l -> x < small) -> NoDup (map (fun i => col_of W small i r) l)).
    { induction l as [|a l IH]; intros Hn Hl; [constructor|]. inversion_clear Hn. cbn. constructor; [|apply IH; auto; intros; apply Hl; now right].
      rewrite in_map_iff. intros (b & Hb & Hin). assert (a = b); [|congruence].
      pose proof (Hl a (or_introl eq_refl)). pose proof (Hl b (or_intror Hin)). subst r. unfold col_of in Hb.
      rewrite (offset_form q p), !(mod_back q p) in Hb by lia.
      destruct (Nat.leb_spec a p); destruct (Nat.leb_spec b p); try lia;
        destruct (Nat.eqb_spec a (p + small)); destruct (Nat.eqb_spec b (p + small)); lia. }
    apply H; [apply seq_NoDup|]. intros x Hx. apply in_seq in Hx. lia.
  - rewrite map_length, !seq_length. lia.
  - intros x Hx. apply in_map_iff in Hx as (i & <- & Hi). apply in_seq in Hi. apply in_seq.
    destruct (col_lt r i Hr ltac:(lia)) as [_ Hc]. rewrite <- Eq in Hc.
    pose proof (Nat.div_mod (col_of W small i r) small ltac:(lia)). pose proof (Nat.mod_upper_bound (col_of W small i r) small ltac:(lia)). rewrite Hc in *. lia.
Qed.
End Arith.

Lemma lsum_perm f l l' : Permutation l l' -> lsum f l = lsum f l'.
Proof. induction 1; cbn; auto; try congruence; ring. Qed.
Lemma lsum_app f l l' : lsum f (l ++ l') = Cplus (lsum f l) (lsum f l').
Proof. induction l as [|a l IH]; cbn; [ring|]. rewrite IH. ring. Qed.
Lemma csum_blocks M f : forall N, csum (N * M) f = csum N (fun c => csum M (fun j => f (c * M + j))).
Proof.
  induction N as [|N IH]; [reflexivity|]. cbn [csum]. rewrite <- IH. replace (S N * M) with (N * M + M) by lia. apply csum_add.
Qed.
(* row block r of a matrix-vector product *)
Lemma mv_slice m g A v r i : slice m r (mv (g + m) A v) i = csum (2 ^ g) (fun c => mv m (block m r c A) (slice m c v) i).
Proof. unfold slice, mv, block. rewrite Nat.pow_add_r. apply csum_blocks. Qed.

Section Ring.
Context (tau : R) {HTol : Tol tau}.
Let Htau : (0 <= tau < 1 / 2)%R := tol_ok.
#[local] Hint Extern 0 NumOps => exact (RNum tau) : typeclass_instances.
Context {CF : Cfg}.
Notation state := (@state (RNum tau)).
Notation edge := (@edge (RNum tau)).
Notation val := (val tau).
Notation wfe := (wfe tau).
Notation Inv := (Inv tau).
Notation rel := (rel tau).
Notation dn := (dn tau).
Notation E := (@E (RNum tau)).
Notation reads_v := (reads_v tau).
Notation matof := (matof tau).
Notation vecof := (vecof tau).
Notation mem := (@mem (RNum tau)).
Notation payload := (@payload (RNum tau)).

Lemma runs_ok c s (Q : post tau) (k : edge -> state -> mem -> Prop) (Post : mem -> Prop) : Inv s -> wpr tau c Q s ->
  (forall e s', rel s s' -> Q e s' -> (exists m', k e s' m') /\ forall m', k e s' m' -> Post m') ->
  (exists m', runs c s k m') /\ forall m', runs c s k m' -> Post m'.
Proof.
  intros HI Hw Hk. split.
  - destruct (wpr_run tau c s Q HI Hw) as (e & s' & Hrun & Hr & HQ). destruct (Hk e s' Hr HQ) as [(m' & Hm) _].
    exists m'. right. exists e, s'. split; auto. pose proof (run_steps c s) as Hst. now rewrite Hrun in Hst.
  - intros m' [[Hx _]|(e & s' & Hx & Hm)]; [now apply (wpr_safe tau c s Q HI Hw) in Hx|].
    destruct (wpr_result tau c s Q e s' HI Hw Hx) as [Hr HQ]. now apply (Hk e s' Hr HQ).
Qed.
Lemma dn_veq m F err e s v : err = 0%R -> dn KV m F err e s -> veq m (vecF F) v -> wfe KV (tb s KV) m e /\ veq m (vecof s m e) v.
Proof.
  intros -> [Hw Hd] Hv. split; auto. intros i Hi. rewrite <- Hv by auto. unfold Obs.vecof, vecF. apply Cmod_le0, Hd.
Qed.
Lemma dn_meq m F err e s v : err = 0%R -> dn KM m F err e s -> meq m (matF F) v -> wfe KM (tb s KM) m e /\ meq m (matof s m e) v.
Proof.
  intros -> [Hw Hd] Hv. split; auto. intros i j Hi Hj. rewrite <- Hv by auto. unfold Obs.matof, matF. apply Cmod_le0, Hd.
Qed.
Lemma keep_v s s' m e v : Inv s -> rel s s' -> wfe KV (tb s KV) m e /\ veq m (vecof s m e) v -> wfe KV (tb s' KV) m e /\ veq m (vecof s' m e) v.
Proof.
  intros HI Hr [Hw Hv]. pose proof (rel_ext _ _ _ KV Hr) as He. split; [eapply (wfe_ext tau); eauto|].
  intros i Hi. rewrite <- Hv by auto. unfold Obs.vecof, vecF. apply (val_ext tau KV (tb s KV)); auto. apply HI.
Qed.
Lemma keep_m s s' m e v : Inv s -> rel s s' -> wfe KM (tb s KM) m e /\ meq m (matof s m e) v -> wfe KM (tb s' KM) m e /\ meq m (matof s' m e) v.
Proof.
  intros HI Hr [Hw Hv]. pose proof (rel_ext _ _ _ KM Hr) as He. split; [eapply (wfe_ext tau); eauto|].
  intros i j Hi Hj. rewrite <- Hv by auto. unfold Obs.matof, matF. apply (val_ext tau KM (tb s KM)); auto. apply HI.
Qed.

Context (H0 : tau = 0%R) (lim : Z) (n g : nat) (Hg : g < n) (Hn : size_ok n).
Let m := n - g.
Let W := 2 ^ g.

(* x is the encoding of slice v by some rank *)
Definition encodes (v : vector) (x : payload) : Prop :=
  exists s0 (e0 : edge) j, Inv s0 /\ wfe KV (tb s0 KV) m e0 /\ veq m (vecof s0 m e0) v /\
    ew e0 = fst x /\ node_to_vec KV s0 (en e0) = Some (j, snd x).
Definition Start (r : nat) (st : mem) : Prop := exists x, st = Some x /\ Inv (rm_s x).
Definition Ready (psi : vector) (r : nat) (st : mem) : Prop :=
  exists x, st = Some x /\ Inv (rm_s x) /\ wfe KV (tb (rm_s x) KV) m (rm_rhs x) /\ veq m (vecof (rm_s x) m (rm_rhs x)) (slice m r psi).
Definition Loaded (A : matrix) (psi : vector) (r : nat) (st : mem) : Prop :=
  exists x, st = Some x /\ Inv (rm_s x) /\
    (wfe KV (tb (rm_s x) KV) m (rm_rhs x) /\ veq m (vecof (rm_s x) m (rm_rhs x)) (slice m r psi)) /\
    (wfe KM (tb (rm_s x) KM) n (rm_lhs x) /\ meq n (matof (rm_s x) n (rm_lhs x)) A).
(* after i rounds *)
Definition Round (small : nat) (A : matrix) (psi : vector) (i r : nat) (st : mem) : Prop :=
  exists x, st = Some x /\ Inv (rm_s x) /\
    (wfe KM (tb (rm_s x) KM) n (rm_lhs x) /\ meq n (matof (rm_s x) n (rm_lhs x)) A) /\
    (wfe KV (tb (rm_s x) KV) m (rm_res x) /\ veq m (vecof (rm_s x) m (rm_res x))
       (fun j => lsum (fun c => mv m (block m r c A) (slice m c psi) j) (map (fun k => col_of W small k r) (seq 0 (S i))))) /\
    encodes (slice m (col_of W small i r) psi) (rm_buf x).

Lemma Hm1 : 1 <= m. Proof. unfold m. lia. Qed.
Lemma HmQ : (Z.of_nat m <= NQUBITS)%Z. Proof. destruct Hn. unfold m. lia. Qed.
#[local] Hint Resolve Hm1 HmQ : core.
Notation AnnM := (@Ann mem payload W).

Lemma ann_zero : AnnM [BLocal (zero_mpi n g)] Start (Ready (basis 0)).
Proof.
  apply ann_local. intros r st Hr (x & -> & HI). cbn [zero_mpi]. destruct (Nat.eqb_spec r 0) as [->|Hne].
  - apply (runs_ok _ _ (isbs tau m (fun _ => 0))); auto; [apply (wpr_makeZeroState tau) with (b := fun _ => 0); auto|].
    intros e s' Hrel (Hone & Hp & Hv). split; [eexists; reflexivity|]. intros m' ->. eexists. split; [reflexivity|]. cbn [rm_s rm_rhs].
    split; [exact (rel_inv _ _ _ Hrel)|]. split; [now left|]. intros i Hi. unfold Obs.vecof, vecF. rewrite Hv, <- bix_0.
    unfold slice. cbn [Nat.mul Nat.add]. apply bsF_basis; auto. pose proof (Nat.pow_nonzero 2 m). lia.
  - split; [eexists; reflexivity|]. intros m' ->. eexists. split; [reflexivity|]. cbn [rm_s rm_rhs]. split; [exact HI|]. split; [apply wfe_zero|].
    intros i Hi. unfold Obs.vecof, vecF. rewrite (val_zeroE tau). unfold slice, basis.
    destruct (Nat.eqb_spec (r * 2 ^ m + i) 0) as [h|h]; auto. pose proof (Nat.pow_nonzero 2 m). exfalso. nia.
Qed.
Lemma ann_build c A psi :
  (forall s, Inv s -> exists F, meq n (matF F) A /\ wpr tau c (dn KM n F 0) s) ->
  AnnM [BLocal (build c)] (Ready psi) (Loaded A psi).
Proof.
  intros Hc. apply ann_local. intros r st Hr (x & -> & HI & Hv). cbn [build]. destruct (Hc _ HI) as (F & HF & Hw).
  apply (runs_ok _ _ (dn KM n F 0)); auto. intros e s' Hrel Hd. split; [eexists; reflexivity|]. intros m' ->. eexists. split; [reflexivity|].
  cbn [rm_s rm_rhs rm_lhs]. split; [exact (rel_inv _ _ _ Hrel)|]. split; [exact (keep_v _ _ _ _ _ HI Hrel Hv)|]. apply (dn_meq n F 0%R); auto.
Qed.
(* the gate block taken by rank r from column c *)
Lemma extract s e A r c : Inv s -> wfe KM (tb s KM) n e /\ meq n (matof s n e) A -> r < W -> c < W -> visible n g r c A ->
  exists e', getMPIGate s e r c W = Some e' /\ wfe KM (tb s KM) m e' /\ meq m (matof s m e') (block m r c A).
Proof.
  intros HI [Hw Hm] Hr Hc Hv. assert (En : m + g = n) by (unfold m; lia).
  destruct (mpi_gate_block tau s m HI g W e r c) as (e' & E1 & E2 & E3); rewrite ?En; auto.
  - apply Nat.lt_le_incl. unfold W. apply Nat.pow_gt_lin_r. lia.
  - eapply visible_ext; [auto|auto|lia|apply meq_sym; exact Hm|exact Hv].
  - exists e'. split; [exact E1|]. split; auto. eapply meq_trans; [exact E3|]. rewrite En.
    assert (Hx : forall x i, x < W -> i < 2 ^ m -> x * 2 ^ m + i < 2 ^ n).
    { intros x i Hx Hi. assert (Hp : 2 ^ n = W * 2 ^ m) by (unfold W; rewrite <- Nat.pow_add_r; f_equal; lia). rewrite Hp. nia. }
    intros i j Hi Hj. unfold block. apply Hm; auto.
Qed.
Lemma mul_block s gt v A psi : Inv s -> wfe KM (tb s KM) m gt -> meq m (matof s m gt) A ->
  wfe KV (tb s KV) m v -> veq m (vecof s m v) psi ->
  exists F, veq m (vecF F) (mv m A psi) /\ wpr tau (mv_multiply gt v) (dn KV m F 0) s.
Proof.
  intros HI Hg' Hm Hv Hp. exists (mvF m (val KM (tb s KM) m gt) (val KV (tb s KV) m v)). split.
  - rewrite mvF_mv. intros i Hi. apply mv_ext; auto.
  - eapply (wpr_mono tau); [exact HI| |apply (wpr_mv_multiply' tau m); auto]. intros e s' _ Hd. rewrite (emv_0 tau) in Hd by exact H0. exact Hd.
Qed.

Lemma m101 : m <= 101. Proof. destruct Hn. unfold m. unfold NQUBITS in *. lia. Qed.
#[local] Hint Resolve m101 : core.
Lemma encode s e v : Inv s -> wfe KV (tb s KV) m e /\ veq m (vecof s m e) v ->
  exists j cs, node_to_vec KV s (en e) = Some (j, cs) /\ encodes v (ew e, cs).
Proof.
  intros HI [Hw Hv]. destruct (node_to_vec_spec tau KV s m (en e) (inv_tb _ _ HI KV) m101 (wfe_okp _ _ _ _ _ Hw)) as (j & cs & ps & mm & E1 & _).
  exists j, cs. split; auto. exists s, e, j. auto.
Qed.
Lemma decode s x v : Inv s -> encodes v x ->
  exists p t, vec_to_node KV 0 false (snd x) (tb s KV) = Some (p, t) /\ rel s (set_tb s KV t) /\
    wfe KV (tb (set_tb s KV t) KV) m (E (fst x) p) /\ veq m (vecof (set_tb s KV t) m (E (fst x) p)) v.
Proof.
  intros HI (s0 & e0 & j & I0 & Hw & Hv & Ew & Ec).
  destruct (roundtrip tau KV 0 false s0 m (en e0) (tb s KV) (inv_tb _ _ I0 KV) (inv_tb _ _ HI KV) m101 (wfe_okp _ _ _ _ _ Hw)) as
    (j' & cs & q & t3 & A1 & A2 & A3 & A4 & A5); [discriminate|].
  rewrite Ec in A1. injection A1 as <- <-. exists q, t3. split; auto. split; [now apply Inv_set_tb|].
  destruct (good_keep tau _ _ _ _ e0 q (dof_pos tau false) A5) as [_ Hk]. rewrite Ew in Hk. destruct (Hk m Hw) as [Hw' Hv'].
  replace (tb (set_tb s KV t3) KV) with t3 by (symmetry; apply set_tb_same). split; auto.
  intros i Hi. rewrite <- Hv by auto. unfold Obs.vecof, vecF. replace (tb (set_tb s KV t3) KV) with t3 by (symmetry; apply set_tb_same).
  apply Cmod_le0. eapply Rle_trans; [apply Hv'|]. rewrite (dof_0 tau) by exact H0. right. ring.
Qed.

Context (small d : nat) (HW : W = d * small) (Hd : 0 < d) (Hs : 0 < small).
Context (A : matrix) (psi : vector).
Context (Hvis : forall r c, r < W -> c < W -> r / small = c / small -> visible n g r c A).

Lemma ann_start : AnnM [BLocal (start W)] (Loaded A psi) (Round small A psi 0).
Proof.
  apply ann_local. intros r st Hr (x & -> & HI & Hv & HA). cbn [start].
  destruct (extract _ _ _ r r HI HA Hr Hr (Hvis r r Hr Hr eq_refl)) as (gt & E1 & E2 & E3). rewrite E1.
  destruct (mul_block _ gt (rm_rhs x) _ _ HI E2 E3 (Logic.proj1 Hv) (Logic.proj2 Hv)) as (F & HF & Hw).
  apply (runs_ok _ _ (dn KV m F 0)); auto. intros e s' Hrel Hdn. pose proof (rel_inv _ _ _ Hrel) as HI'.
  destruct (encode s' (rm_rhs x) _ HI' (keep_v _ _ _ _ _ HI Hrel Hv)) as (j & cs & Ej & He). rewrite Ej.
  split; [eexists; reflexivity|]. intros m' ->. eexists. split; [reflexivity|]. cbn [rm_s rm_lhs rm_res rm_buf].
  split; auto. split; [exact (keep_m _ _ _ _ _ HI Hrel HA)|]. split.
  - apply (dn_veq m F 0%R); auto. eapply veq_trans; [exact HF|]. intros i Hi. cbn [seq map lsum]. rewrite (col_0 W d small) by auto. ring.
  - rewrite (col_0 W d small) by auto. exact He.
Qed.
Lemma ann_round i : 1 <= i < small -> AnnM [round lim W small i] (Round small A psi (i - 1)) (Round small A psi i).
Proof.
  intros Hi. apply (ann_exch W i _ _ _ _ _ _ (fun q x => encodes (slice m (col_of W small (i - 1) q) psi) x)).
  - intros r Hr. destruct (ring_ok W d small HW Hd Hs r Hr) as (a & b & c & e). auto.
  - intros r st Hr (x & -> & _ & _ & _ & He). exact He.
  - intros r st x Hr (y & -> & HI & HA & HR & _) Hx. cbn beta in Hx. rewrite (col_left W d small) in Hx by auto.
    destruct (col_lt W d small HW Hd Hs r i Hr ltac:(lia)) as [Hc Hq]. cbn [use].
    destruct (extract _ _ _ r (col_of W small i r) HI HA Hr Hc (Hvis r _ Hr Hc (eq_sym Hq))) as (gt & E1 & E2 & E3). rewrite E1.
    destruct (decode _ x _ HI Hx) as (p & t & D1 & D2 & D3). rewrite D1. pose proof (rel_inv _ _ _ D2) as HI1.
    destruct (keep_m _ _ _ gt _ HI D2 (conj E2 E3)) as [E2' E3'].
    destruct (mul_block _ gt _ _ _ HI1 E2' E3' (Logic.proj1 D3) (Logic.proj2 D3)) as (F & HF & Hw).
    set (G := fun ix => val KV (tb (rm_s y) KV) m (rm_res y) ix).
    apply (runs_ok _ _ (dn KV m (fun ix => Cplus (G ix) (F ix)) 0)); auto.
    + apply (wpr_bind tau); [exact HI1|]. eapply (wpr_mono tau); [exact HI1| |exact Hw]. intros e1 s1 R1 Hd1.
      pose proof (rel_inv _ _ _ R1) as HI2. pose proof (rel_trans _ _ _ _ D2 R1) as R02.
      destruct (keep_v _ _ _ (rm_res y) _ HI R02 HR) as [K1 K2].
      eapply (wpr_mono tau); [exact HI2| |apply (wpr_vv_add' tau lim m s1 (rm_res y) e1); auto; apply Hd1].
      intros e2 s2 _ [Q1 Q2]. split; auto. intros ix. eapply Rle_trans; [|right; apply (eadd_0 tau); exact H0].
      eapply Rle_trans; [|apply Q2]. right. f_equal. f_equal. f_equal.
      * unfold G. symmetry. apply (val_ext tau KV); auto; [apply HI|apply (rel_ext _ _ _ KV R02)|apply HR].
      * symmetry. apply Cmod_le0, Hd1.
    + intros e s' Hrel Hdn. split; [eexists; reflexivity|]. intros m' ->. eexists. split; [reflexivity|]. cbn [rm_s rm_lhs rm_res rm_buf].
      pose proof (rel_inv _ _ _ Hrel) as HI'. pose proof (rel_trans _ _ _ _ D2 Hrel) as R02.
      split; auto. split; [exact (keep_m _ _ _ _ _ HI R02 HA)|]. split; [|exact Hx].
      eapply dn_veq; [reflexivity|exact Hdn|]. intros k Hk. unfold vecF. rewrite seq_S, map_app, lsum_app. cbn [Nat.add map lsum].
      replace (S (i - 1)) with i in HR by lia. f_equal; [apply (Logic.proj2 HR); auto|]. rewrite <- HF by auto. unfold vecF. ring.
Qed.
Lemma ann_rounds k : k < small -> AnnM (map (round lim W small) (seq 1 k)) (Round small A psi 0) (Round small A psi k).
Proof.
  induction k as [|k IH]; intros Hk; [apply ann_nil|]. rewrite seq_S, map_app. cbn [Nat.add map].
  eapply ann_app; [apply IH; lia|]. replace k with (S k - 1) at 2 by lia. apply ann_round. lia.
Qed.
Context (Hzero : forall r c i j, r < W -> c < W -> r / small <> c / small -> i < 2 ^ m -> j < 2 ^ m -> block m r c A i j = RtoC 0).
Lemma ann_finish : AnnM [BLocal finish] (Round small A psi (small - 1)) (Ready (mv n A psi)).
Proof.
  apply ann_local. intros r st Hr (x & -> & HI & _ & HR & _). cbn [finish]. split; [eexists; reflexivity|]. intros m' ->.
  eexists. split; [reflexivity|]. cbn [rm_s rm_rhs]. split; auto. split; [apply HR|]. eapply veq_trans; [apply HR|].
  intros i Hi. replace (S (small - 1)) with small by lia. rewrite (lsum_perm _ _ _ (cols_perm W d small HW Hd Hs r Hr)).
  replace n with (g + m) by (unfold m; lia). rewrite mv_slice. symmetry. apply csum_list.
  - apply seq_NoDup.
  - intros c Hc. apply in_seq in Hc. fold W. rewrite HW in *. assert (r / small < d) by (apply Nat.div_lt_upper_bound; lia). nia.
  - intros c Hc Hn'. unfold mv. apply csum_zero. intros j Hj. rewrite Hzero; auto; [ring|].
    intros Heq. apply Hn', in_seq. pose proof (Nat.div_mod c small ltac:(lia)). pose proof (Nat.mod_upper_bound c small ltac:(lia)). rewrite <- Heq in *. lia.
Qed.
Lemma ann_ring : AnnM (BLocal (start W) :: map (round lim W small) (seq 1 (small - 1)) ++ [BLocal finish]) (Loaded A psi) (Ready (mv n A psi)).
Proof.
  change (BLocal (start W) :: map (round lim W small) (seq 1 (small - 1)) ++ [BLocal finish]) with
    ([BLocal (start W)] ++ (map (round lim W small) (seq 1 (small - 1)) ++ [BLocal finish])).
  eapply ann_app; [apply ann_start|]. eapply ann_app; [apply ann_rounds; lia|apply ann_finish].
Qed.
End Ring.

(* ---- clients ---- *)
Definition op_targets (o : op) : list nat := match o with U1 _ t _ => [Z.to_nat t] | U2 _ t0 t1 _ => [Z.to_nat t0; Z.to_nat t1] end.
Definition entry_bound (N : nat) (g : nat -> nat -> C) (B : R) : Prop :=
  (1 <= B)%R /\ forall i j, i < N -> j < N -> (Cmod (g i j) <= B)%R.
Lemma entry_bound_ex N g : exists B, entry_bound N g B.
Proof.
  assert (H : forall f : nat -> R, exists B, (1 <= B)%R /\ forall i, i < N -> (f i <= B)%R).
  { intros f. clear. induction N as [|M (B & HB & Hf)]; [exists 1%R; split; [lra|lia]|].
    exists (Rmax B (f M)). split; [eapply Rle_trans; [exact HB|apply Rmax_l]|]. intros i Hi. destruct (Nat.eq_dec i M) as [->|]; [apply Rmax_r|].
    eapply Rle_trans; [apply Hf; lia|apply Rmax_l]. }
  assert (H2 : forall K, exists B, (1 <= B)%R /\ forall i j, i < K -> j < N -> (Cmod (g i j) <= B)%R).
  { induction K as [|K (B & HB & Hb)]; [exists 1%R; split; [lra|lia]|]. destruct (H (fun j => Cmod (g K j))) as (B' & _ & Hb').
    exists (Rmax B B'). split; [eapply Rle_trans; [exact HB|apply Rmax_l]|]. intros i j Hi Hj.
    destruct (Nat.eq_dec i K) as [->|]; [eapply Rle_trans; [apply Hb'; auto|apply Rmax_r]|]. eapply Rle_trans; [apply Hb; lia|apply Rmax_l]. }
  destruct (H2 N) as (B & H1 & H3). exists B. split; auto.
Qed.
Lemma same_high n p I J : I < 2 ^ n -> J < 2 ^ n -> (forall l, p <= l -> l < n -> Nat.testbit I l = Nat.testbit J l) -> I / 2 ^ p = J / 2 ^ p.
Proof.
  intros HI HJ H. apply Nat.bits_inj. intros l. rewrite !Nat.div_pow2_bits. destruct (Nat.lt_ge_cases (l + p) n) as [h|h]; [apply H; lia|].
  assert (Hh : forall x, x < 2 ^ n -> Nat.testbit x (l + p) = false).
  { intros x Hx. destruct (Nat.eq_dec x 0) as [->|Hz]; [apply Nat.bits_0|]. apply Nat.bits_above_log2. apply Nat.log2_lt_pow2; [lia|].
    eapply Nat.lt_le_trans; [exact Hx|]. apply Nat.pow_le_mono_r; lia. }
  now rewrite !Hh.
Qed.
(* a gate whose targets are at most L relates only ranks of the same group *)
Lemma op_group n g o L r c i j : g < n -> L < n -> (forall t, In t (op_targets o) -> t <= L) ->
  r < 2 ^ g -> c < 2 ^ g -> r / small_world n g L <> c / small_world n g L -> i < 2 ^ (n - g) -> j < 2 ^ (n - g) ->
  block (n - g) r c (op_mat n o) i j = RtoC 0.
Proof.
  intros Hg HL Ht Hr Hc Hrc Hi Hj. unfold block. set (m := n - g) in *. set (I := r * 2 ^ m + i). set (J := c * 2 ^ m + j).
  assert (Hp : 2 ^ n = 2 ^ g * 2 ^ m) by (rewrite <- Nat.pow_add_r; f_equal; unfold m; lia).
  assert (HI : I < 2 ^ n) by (rewrite Hp; unfold I; nia). assert (HJ : J < 2 ^ n) by (rewrite Hp; unfold J; nia).
  assert (Hdiv : forall x y p, y < 2 ^ m -> (x * 2 ^ m + y) / 2 ^ (m + p) = x / 2 ^ p).
  { intros x y p Hy. rewrite Nat.pow_add_r, <- Nat.div_div by (apply Nat.pow_nonzero; lia). f_equal.
    rewrite Nat.add_comm, Nat.div_add by (apply Nat.pow_nonzero; lia). rewrite Nat.div_small by auto. lia. }
  assert (Ha : agree_off n (op_targets o) I J = false).
  { apply not_true_is_false. intros Ha. rewrite agree_off_spec in Ha. apply Hrc. unfold small_world. set (p := 1 + L + g - n).
    rewrite <- (Hdiv r i p Hi), <- (Hdiv c j p Hj). apply same_high with (n := n); auto. intros l Hl Hl'. apply Ha; auto.
    intros Hin. specialize (Ht l Hin). unfold p, m in Hl. lia. }
  destruct o; cbn [op_mat op_targets] in *; unfold gate1, gate2; now rewrite Ha.
Qed.
Lemma small_div n g L : g < n -> L < n -> exists d, 0 < d /\ 2 ^ g = d * small_world n g L /\ 0 < small_world n g L.
Proof.
  intros Hg HL. unfold small_world. exists (2 ^ (g - (1 + L + g - n))). pose proof (Nat.pow_nonzero 2 (g - (1 + L + g - n))). pose proof (Nat.pow_nonzero 2 (1 + L + g - n)).
  split; [lia|]. split; [|lia]. rewrite <- Nat.pow_add_r. f_equal. lia.
Qed.

Section C32.
Context (tau : R) {HTol : Tol tau}.
Let Htau : (0 <= tau < 1 / 2)%R := tol_ok.
#[local] Hint Extern 0 NumOps => exact (RNum tau) : typeclass_instances.
Context {CF : Cfg}.
Notation reads_v := (reads_v tau).
Notation Inv := (Inv tau).
Notation dn := (dn tau).
Notation state := (@state (RNum tau)).
Notation edge := (@edge (RNum tau)).
Notation mem := (@mem (RNum tau)).
Notation payload := (@payload (RNum tau)).

(* the handle e of this rank, in this rank's tables, reads as v *)
Definition holds (m : nat) (s : state) (e : edge) (v : vector) : Prop := Inv s /\ wfe tau KV (tb s KV) m e /\ reads_v s m e v.
Lemma reachable_holds s hs m e v : reachable (s, hs) -> In (H KV m e) hs -> reads_v s m e v -> holds m s e v.
Proof. intros Hr Hi Hv. split; [exact (reach_Inv tau _ _ Hr)|]. split; auto. apply (reach_V tau _ _ _ _ Hr Hi). Qed.
(* the call that builds the gate of an operation *)
Definition op_comp (n : nat) (o : op) : @comp (RNum tau) :=
  match o with
  | U1 g t l => makeGate (Z.of_nat n) g t (mkControls l)
  | U2 g t0 t1 l => makeTwoQubitGate (Z.of_nat n) g t0 t1 (mkControls l)
  end.
Lemma op_comp_ok n o s : tau = 0%R -> size_ok n -> op_ok n o -> Inv s ->
  exists F, meq n (matF F) (op_mat n o) /\ wpr tau (op_comp n o) (dn KM n F 0) s.
Proof.
  intros H0 Hn Ho HI. destruct o as [gm t l|gm t0 t1 l]; cbn in Ho |- *.
  - destruct (entry_bound_ex 2 gm) as (B & HB & Hb). destruct (wpr_gate1 tau n gm t l B s) as (F & F1 & _ & F3); try tauto.
    exists F. split; auto. rewrite (egate_0 tau) in F3 by exact H0. exact F3.
  - destruct (entry_bound_ex 4 gm) as (B & HB & Hb). destruct (wpr_gate2 tau n gm t0 t1 l B s) as (F & F1 & _ & F3); try tauto.
    exists F. split; auto. rewrite (egate_0 tau) in F3 by exact H0. exact F3.
Qed.
Definition client (lim : Z) (n g : nat) (gs : list (op * nat)) : list (@Async.block mem payload) :=
  mpi_client lim n g (map (fun ol => (op_comp n (fst ol), snd ol)) gs).
(* what the ring needs of a gate: its targets are at most L, and no block taken
   by getMPIGate within a group has been stripped (C31_refuted) *)
Definition ring_gate (n g : nat) (o : op) (L : nat) : Prop :=
  op_ok n o /\ L < n /\ (forall t, In t (op_targets o) -> t <= L) /\
  forall r c, r < 2 ^ g -> c < 2 ^ g -> r / small_world n g L = c / small_world n g L -> visible n g r c (op_mat n o).

Lemma ann_mul lim n g o L psi : tau = 0%R -> g < n -> size_ok n -> ring_gate n g o L ->
  @Ann mem payload (2 ^ g) (BLocal (build (op_comp n o)) :: mv_multiply_MPI lim n g L) (Ready tau n g psi) (Ready tau n g (mv n (op_mat n o) psi)).
Proof.
  intros H0 Hg Hn (Ho & HL & Ht & Hv). destruct (small_div n g L Hg HL) as (d & Hd & HW & Hs).
  change (BLocal (build (op_comp n o)) :: mv_multiply_MPI lim n g L) with ([BLocal (build (op_comp n o))] ++ mv_multiply_MPI lim n g L).
  eapply ann_app; [apply (ann_build tau n g (op_comp n o) (op_mat n o)); intros; now apply op_comp_ok|].
  assert (Hring := ann_ring tau H0 lim n g Hg Hn (small_world n g L) d HW Hd Hs (op_mat n o) psi Hv).
  unfold mv_multiply_MPI, is_local. destruct (Nat.ltb_spec L (n - g)).
  - unfold small_world in Hring. replace (1 + L + g - n) with 0 in Hring by lia. apply Hring. intros. rewrite <- (op_group n g o L) with (r := r) (c := c) (i := i) (j := j); auto.
    unfold small_world. now replace (1 + L + g - n) with 0 by lia.
  - apply Hring. intros. apply (op_group n g o L); auto.
Qed.
Lemma ann_client lim n g gs : tau = 0%R -> g < n -> size_ok n -> (forall o L, In (o, L) gs -> ring_gate n g o L) ->
  forall psi ops, psi = ideal n ops ->
  @Ann mem payload (2 ^ g) (flat_map (fun cl => BLocal (build (fst cl)) :: mv_multiply_MPI lim n g (snd cl)) (map (fun ol => (op_comp n (fst ol), snd ol)) gs))
    (Ready tau n g psi) (Ready tau n g (ideal n (rev (map fst gs) ++ ops))).
Proof.
  intros H0 Hg Hn. induction gs as [|[o L] gs IH]; intros Hgs psi ops ->; [apply ann_nil|]. cbn [map flat_map fst snd].
  eapply ann_app; [apply (ann_mul lim n g o L); auto; apply Hgs; now left|]. cbn [rev]. rewrite <- app_assoc. apply IH; [|reflexivity].
  intros o' L' Hin. apply Hgs. now right.
Qed.

(* C32.  W = 2^g ranks start the all-zero state of n qubits and apply gates with
   mv_multiply_MPI.  Under every interleaving, with eager (buffered) or rendezvous
   sends: no deadlock, termination, and at the end rank r's handle reads as
   amplitudes r*2^(n-g) .. (r+1)*2^(n-g)-1 of the circuit's state.
   Missing: gates which have a block of the form [[B,0],[0,B]] above the rank
   blocks (false there: C32_refuted) and positive tolerances. *)
Theorem C32_ring_partial lim n g eager gs (mem0 : nat -> mem) c :
  tau = 0%R -> g < n -> size_ok n -> (forall o L, In (o, L) gs -> ring_gate n g o L) ->
  (forall r, r < 2 ^ g -> exists x hs, mem0 r = Some x /\ reachable (rm_s x, hs)) ->
  asteps (2 ^ g) eager (client lim n g gs) (astart mem0) c ->
  (finished (2 ^ g) (client lim n g gs) c \/ exists c', astep (2 ^ g) eager (client lim n g gs) c c') /\
  Acc (fun y x => astep (2 ^ g) eager (client lim n g gs) x y) c /\
  (finished (2 ^ g) (client lim n g gs) c -> forall r, r < 2 ^ g ->
     exists x, r_mem (ranks c r) = Some x /\ holds (n - g) (rm_s x) (rm_rhs x) (slice (n - g) r (ideal n (rev (map fst gs))))).
Proof.
  intros H0 Hg Hn Hgs Hmem Hst.
  assert (HA : @Ann mem payload (2 ^ g) (client lim n g gs) (Start tau) (Ready tau n g (ideal n (rev (map fst gs))))).
  { unfold client, mpi_client. eapply (ann_app _ [BLocal (zero_mpi n g)]); [apply (ann_zero tau n g Hg Hn)|].
    replace (rev (map fst gs)) with (rev (map fst gs) ++ []) by apply app_nil_r. apply ann_client; auto. }
  destruct (ann_sound (2 ^ g) eager _ _ _ mem0 c ltac:(pose proof (Nat.pow_nonzero 2 g); lia) HA) as (P1 & P2 & P3); auto.
  { intros r Hr. destruct (Hmem r Hr) as (x & hs & -> & Hx). exists x. split; auto. exact (reach_Inv tau _ _ Hx). }
  split; auto. split; auto. intros Hf r Hr. destruct (P3 Hf r Hr) as (x & Ex & HI & Hw & Hv). exists x. split; auto. split; auto. split; auto.
  eapply (reads_v_veq tau); [exact Hv|]. apply (reads_vecof tau); auto. lia.
Qed.
(* every rank does get to the end *)
Theorem C32_ring_finishes lim n g eager gs (mem0 : nat -> mem) :
  tau = 0%R -> g < n -> size_ok n -> (forall o L, In (o, L) gs -> ring_gate n g o L) ->
  (forall r, r < 2 ^ g -> exists x hs, mem0 r = Some x /\ reachable (rm_s x, hs)) ->
  exists c, asteps (2 ^ g) eager (client lim n g gs) (astart mem0) c /\ finished (2 ^ g) (client lim n g gs) c.
Proof.
  intros H0 Hg Hn Hgs Hmem. set (prog := client lim n g gs).
  assert (H : forall c, Acc (fun y x => astep (2 ^ g) eager prog x y) c -> asteps (2 ^ g) eager prog (astart mem0) c ->
    exists c', asteps (2 ^ g) eager prog (astart mem0) c' /\ finished (2 ^ g) prog c').
  { induction 1 as [c _ IH]. intros Hc. destruct (C32_ring_partial lim n g eager gs mem0 c H0 Hg Hn Hgs Hmem Hc) as ([Hf|(c' & Hs)] & _); [eauto|].
    apply (IH c' Hs). eapply as_step; eauto. }
  apply (H (astart mem0)); [|constructor]. apply (C32_ring_partial lim n g eager gs mem0 (astart mem0) H0 Hg Hn Hgs Hmem). constructor.
Qed.
(* two ranks: the condition is that the gate acts on the top qubit *)
Theorem C32_two_ranks n o L : 1 < n -> op_ok n o -> L < n -> (forall t, In t (op_targets o) -> t <= L) ->
  ~ repeated n (op_mat n o) -> ring_gate n 1 o L.
Proof.
  intros Hn Ho HL Ht Hr. split; auto. split; auto. split; auto. intros r c Hr' Hc' _ k Hk.
  replace k with 0 by lia. right. cbn in Hr', Hc'. replace (n - 0) with n by lia. cbn [Nat.sub].
  rewrite (Nat.div_small r), (Nat.div_small c) by (cbn; lia). now rewrite block_00.
Qed.

(* X on the top qubit of two, two ranks: meets the hypotheses of C32 *)
Notation Xm := (@Xmat (RNum tau)).
Lemma one_ne0 : RtoC 1 <> RtoC 0.
Proof. intros h; injection h as h; revert h; apply R1_neq_R0. Qed.
Theorem C32_example : ring_gate 2 1 (U1 Xm 1%Z []) 1 /\ slice 1 1 (ideal 2 (rev (map fst [(U1 Xm 1%Z [], 1)]))) 0 = RtoC 1.
Proof.
  split.
  - apply C32_two_ranks; try lia.
    + cbn. split; [unfold qubit; lia|]. split; [constructor|intros x []].
    + cbn. intros t [<-|[]]. cbn. lia.
    + intros (h & _). specialize (h 0 0 ltac:(cbn; lia) ltac:(cbn; lia)). cbn in h. now apply one_ne0.
  - unfold slice. cbn [map fst rev app ideal op_mat]. change (Z.to_nat 1) with 1; rewrite gate1_action by (cbn; lia). cbn. apply injective_projections; cbn; ring.
Qed.

(* the local path (lines 689-694) with X on qubit 0 of two, two ranks *)
Definition Lost (r : nat) (st : mem) : Prop :=
  exists x, st = Some x /\ Inv (rm_s x) /\ (r = 0 -> wfe tau KV (tb (rm_s x) KV) 1 (rm_rhs x) /\ veq 1 (vecof tau (rm_s x) 1 (rm_rhs x)) (fun _ => RtoC 0)).
Lemma ann_lost lim : tau = 0%R -> @Ann mem payload 2 (client lim 2 1 [(U1 Xm 0%Z [], 0)]) (Start tau) Lost.
Proof.
  intros H0. set (prog := client lim 2 1 [(U1 Xm 0%Z [], 0)]). set (o := U1 Xm 0%Z []).
  assert (Hn : size_ok 2) by (unfold size_ok, NQUBITS; lia).
  assert (Ho : op_ok 2 o) by (cbn; split; [unfold qubit; lia|]; split; [constructor|intros x []]).
  set (Mid := fun (r : nat) (st : mem) => exists x, st = Some x /\ Inv (rm_s x) /\ (r = 0 -> wfe tau KV (tb (rm_s x) KV) 1 (rm_res x) /\ veq 1 (vecof tau (rm_s x) 1 (rm_res x)) (fun _ => RtoC 0))).
  change prog with ([@BLocal mem payload (zero_mpi 2 1)] ++ [@BLocal mem payload (build (op_comp 2 o))] ++ [@BLocal mem payload (start 2)] ++ [@BLocal mem payload finish]).
    eapply ann_app; [exact (ann_zero tau 2 1 ltac:(lia) Hn)|].
    eapply ann_app; [apply (ann_build tau 2 1 (op_comp 2 o) (op_mat 2 o)); intros; now apply op_comp_ok|].
    eapply ann_app with (Mid := Mid); apply ann_local; intros r st Hr.
    - intros (x & -> & HI & Hv & Hl & HA). cbn [start].
      assert (Hlow := low_gate tau (rm_s x) 0 (rm_lhs x) (op_mat 2 o) r r H0 HI Hl HA).
      destruct Hlow as (gt & E1 & E2 & E3); auto.
      + intros h. specialize (h 0 1 ltac:(cbn; lia) ltac:(cbn; lia)). now apply one_ne0.
      + split; [|split]; intros i j Hi' Hj'; cbn in Hi', Hj'; destruct i as [|[|]]; destruct j as [|[|]]; try lia; reflexivity.
      + intros (h & _). specialize (h 0 0 ltac:(cbn; lia) ltac:(cbn; lia)). cbn in h. now apply one_ne0.
      + rewrite E1. change (2 - 1) with 1 in Hv.
        assert (Hz : meq 1 (matof tau (rm_s x) 1 gt) (fun _ _ => RtoC 0)).
        { intros i j Hi Hj. rewrite E3 by auto. cbn in Hi, Hj. destruct r as [|[|]]; destruct i as [|[|]]; destruct j as [|[|]]; try lia; reflexivity. }
        destruct (mul_block tau H0 2 1 ltac:(lia) Hn (rm_s x) gt (rm_rhs x) _ _ HI E2 Hz (Logic.proj1 Hv) (Logic.proj2 Hv)) as (F & HF & Hw).
        apply (runs_ok tau _ _ (dn KV 1 F 0)); auto. intros e s' Hrel Hd.
        pose proof (rel_inv _ _ _ Hrel) as HI'. destruct (keep_v tau _ _ _ _ _ HI Hrel Hv) as [K1 K2].
        destruct (encode tau 2 1 ltac:(lia) Hn s' (rm_rhs x) _ HI' (conj K1 K2)) as (j & cs & Ej & _). rewrite Ej.
        split; [eexists; reflexivity|]. intros m' ->. eexists. split; [reflexivity|]. cbn [rm_s rm_res]. split; auto. intros _.
        apply (dn_veq tau 1 F 0%R); auto. eapply veq_trans; [exact HF|]. intros i Hi. unfold mv. apply csum_zero. intros. ring.
    - intros (x & -> & HI & Hv). cbn [finish]. split; [eexists; reflexivity|]. intros m' ->. eexists. split; [reflexivity|]. cbn [rm_s rm_rhs]. auto.
Qed.
(* C32 is false for gates on local qubits: X on qubit 0 of two, two ranks.
   After X the state is |01>, amplitude 1 of rank 0 is 1; the ranks end with the
   zero vector on rank 0. *)
Theorem C32_refuted lim eager (mem0 : nat -> mem) : tau = 0%R ->
  (forall r, r < 2 -> exists x hs, mem0 r = Some x /\ reachable (rm_s x, hs)) ->
  let prog := client lim 2 1 [(U1 Xm 0%Z [], 0)] in
  slice 1 0 (ideal 2 [U1 Xm 0%Z []]) 1 = RtoC 1 /\
  (exists c, asteps 2 eager prog (astart mem0) c /\ finished 2 prog c) /\
  (forall c, asteps 2 eager prog (astart mem0) c -> finished 2 prog c ->
     exists x, r_mem (ranks c 0) = Some x /\ reads_v (rm_s x) 1 (rm_rhs x) (fun _ => RtoC 0)).
Proof.
  intros H0 Hmem prog. split; [unfold slice; cbn [ideal op_mat]; change (Z.to_nat 0) with 0; rewrite gate1_action by (cbn; lia); cbn; apply injective_projections; cbn; ring|].
  pose proof (ann_lost lim H0) as HA.
  assert (Hst : forall r, r < 2 -> Start tau r (mem0 r)).
  { intros r Hr. destruct (Hmem r Hr) as (x & hs & -> & Hx). exists x. split; auto. exact (reach_Inv tau _ _ Hx). }
  split.
  - assert (H : forall c, Acc (fun y x => astep 2 eager prog x y) c -> asteps 2 eager prog (astart mem0) c ->
      exists c', asteps 2 eager prog (astart mem0) c' /\ finished 2 prog c').
    { induction 1 as [c _ IH]. intros Hc. destruct (ann_sound 2 eager prog _ _ mem0 c ltac:(lia) HA Hst Hc) as ([Hf|(c' & Hs)] & _); [eauto|].
      apply (IH c' Hs). eapply as_step; eauto. }
    apply (H (astart mem0)); [|constructor]. apply (ann_sound 2 eager prog _ _ mem0 _ ltac:(lia) HA Hst). constructor.
  - intros c Hc Hf. destruct (ann_sound 2 eager prog _ _ mem0 c ltac:(lia) HA Hst Hc) as (_ & _ & P). destruct (P Hf 0 ltac:(lia)) as (x & Ex & HI & Hv).
    destruct (Hv eq_refl) as [Hw Hv']. exists x. split; auto. eapply (reads_v_veq tau); [exact Hv'|]. apply (reads_vecof tau); auto.
Qed.
End C32.
