(* FpMMP.v -- C71: operations on pairs of matrices (mm_add, mm_multiply, makeSwap) over a
   rounded arithmetic, on the thread that calls them: single operations, and gates
   fused into one matrix. *)
From Coq Require Import Reals Lra Psatz ZArith Bool List Lia Arith FunctionalExtensionality.
From Coquelicot Require Import Complex.
From Verif Require Import Num State DD Gates GC Measure Api RNum Wf Sums Err Inv Wp Make Add MulV GateP StateP Kron Spec SpecP Readout
  MeasAllP ApiP Obs Props1 Circuit FpA FpE FpW FpM FpAdd FpMul FpMM FpMM2 FpGate FpState FpRead FpMeas FpOne FpGC FpKron FpCirc FpProp.
Import ListNotations.
Open Scope Z_scope.

Section FpMMP.
Context {NO : NumOps} {AC : Accur NO} {CF : Cfg}.
Notation dl := (@dl NO AC).
Notation Gr := (@Gr NO AC).
Notation Gp := (@Gp NO AC).
Notation state := (@State.state NO).
Notation edge := (@State.edge NO).
Notation handle := (@Api.handle NO).
Notation comp := (@DD.comp NO).
Notation gmat := (@Gates.gmat NO).
Notation eaddm := (@eaddm NO AC).
Notation emm := (@emm NO AC).
Notation egate := (@egate NO AC).
Notation eswap := (@FpCirc.eswap NO AC).

(* executed on thread i, the call returns, and the result satisfies P *)
Definition runs_to (i : tid) (c : comp) (s : state) (P : edge -> state -> Prop) : Prop :=
  exists e s', run_on i c s = Some (e, s') /\ P e s'.
(* every handle keeps its vector or matrix *)
Definition kept (hs : list handle) (s s' : state) : Prop :=
  (forall n v, In (H KV n v) hs -> amps s' n v = amps s n v) /\
  (forall n g, In (H KM n g) hs -> ents s' n g = ents s n g).

Lemma ents_rel s s' n e : Inv s -> rel s s' -> wfe KM (tb s KM) n e -> ents s' n e = ents s n e.
Proof.
  intros HI Hr Hw. unfold ents, matF. apply functional_extensionality. intros i. apply functional_extensionality. intros j.
  apply (val_ext KM (tb s KM)); auto; [apply HI|apply (rel_ext _ _ KM Hr)].
Qed.
Lemma kept_rel s hs s' : freach (s, hs) -> rel s s' -> kept hs s s'.
Proof.
  intros Hr Hrel. split; intros n x Hin.
  - destruct (reach_V _ _ _ _ Hr Hin) as (HI & _ & _ & Hw). now apply amps_rel.
  - destruct (reach_M _ _ _ _ Hr Hin) as (HI & _ & Hw). now apply ents_rel.
Qed.
Lemma dnt_ents s n F err (e : edge) A : meq n (matF F) A -> dnt KM (tb s KM) n e F err -> mclose n err (ents s n e) A.
Proof. intros HA [_ Hd] i j Hi Hj. rewrite <- (HA i j Hi Hj). apply Hd. Qed.

(* matrix addition *)
Theorem C71_mm_add s hs i n a b A B : freach (s, hs) -> In (H KM n a) hs -> In (H KM n b) hs ->
  (forall x y, (x < 2 ^ n)%nat -> (y < 2 ^ n)%nat -> (Cmod (ents s n a x y) <= A)%R) ->
  (forall x y, (x < 2 ^ n)%nat -> (y < 2 ^ n)%nat -> (Cmod (ents s n b x y) <= B)%R) ->
  runs_to i (mm_add a b) s (fun e s' => freach (s', H KM n e :: hs) /\ kept hs s s' /\
    mclose n (eaddm n (A + B)) (ents s' n e) (fun x y => Cplus (ents s n a x y) (ents s n b x y))).
Proof.
  intros Hr Ha Hb HA HB. destruct (reach_M _ _ _ _ Hr Ha) as (HI & Hn & Hwa). destruct (reach_M _ _ _ _ Hr Hb) as (_ & _ & Hwb).
  destruct (run_mm_add i n s a b HI Hn Hwa Hwb) as (e & s' & X & R & D). exists e, s'. split; [exact X|].
  split; [eapply fr_step; [exact Hr|exact (fs_run s hs n _ i e s' (q_mmadd _ n a b Ha Hb) X)]|]. split; [now apply kept_rel|].
  eapply dnt_ents; [|eapply dnt_weaken; [|exact D]]; [intros x y _ _; reflexivity|].
  apply eaddm_mono. split; [apply wsum_pos|]. unfold wsum.
  pose proof (wbM s n a A HI Hwa HA). pose proof (wbM s n b B HI Hwb HB). lra.
Qed.

(* matrix multiplication *)
Theorem C71_mm_multiply s hs i n a b A B : freach (s, hs) -> In (H KM n a) hs -> In (H KM n b) hs ->
  (forall x y, (x < 2 ^ n)%nat -> (y < 2 ^ n)%nat -> (Cmod (ents s n a x y) <= A)%R) ->
  (forall x y, (x < 2 ^ n)%nat -> (y < 2 ^ n)%nat -> (Cmod (ents s n b x y) <= B)%R) ->
  runs_to i (mm_multiply a b) s (fun e s' => freach (s', H KM n e :: hs) /\ kept hs s s' /\
    mclose n (emm n A B) (ents s' n e) (mm n (ents s n a) (ents s n b))).
Proof.
  intros Hr Ha Hb HA HB. destruct (reach_M _ _ _ _ Hr Ha) as (HI & Hn & Hwa). destruct (reach_M _ _ _ _ Hr Hb) as (_ & _ & Hwb).
  destruct (run_mm_multiply i n s a b HI Hn Hwa Hwb) as (e & s' & X & R & D). exists e, s'. split; [exact X|].
  split; [eapply fr_step; [exact Hr|exact (fs_run s hs n _ i e s' (q_mmmul _ n a b Ha Hb) X)]|]. split; [now apply kept_rel|].
  eapply dnt_ents; [|eapply dnt_weaken; [|exact D]]; [intros x y _ _; unfold FpMM2.mulF; now rewrite mmF_mm|].
  pose proof (wbM s n a A HI Hwa HA). pose proof (wbM s n b B HI Hwb HB). apply emm_mono; auto; split; auto using Cmod_ge_0.
Qed.

(* makeSwap exchanges two qubits *)
Lemma X_gate n t c : qubit n t -> qubit n c -> t <> c ->
  meq n (matF (fg1 n (@Xmat NO) t [(c, true)])) (matF (g1op 0 n (@Xmat (RNum 0)) t [(c, true)])).
Proof.
  intros Ht Hc Hne.
  assert (Hco : controls_ok n [t] [(c, true)]).
  { split; [repeat constructor; auto|]. intros x [<-|[]]. split; auto. cbn. intros [?|[]]; auto. }
  eapply meq_trans; [|apply meq_sym; apply (g1op_spec 0); exact Hco].
  unfold fg1. rewrite opF_gate1 by (eapply ctl_range; eauto). intros i j Hi Hj. unfold gate1.
  rewrite ctl_ok_mk by apply Hco. destruct (agree_off _ _ _ _); auto. destruct (ctl_ok _ i); auto.
  pose proof (bit_lt i (Z.to_nat t)) as B1. pose proof (bit_lt j (Z.to_nat t)) as B2.
  rewrite fclip2_eq by assumption.
  destruct (bit i (Z.to_nat t)) as [|[|?]], (bit j (Z.to_nat t)) as [|[|?]]; try lia; cbn; rewrite ?cv_0, ?cv_1; reflexivity.
Qed.
Theorem C71_makeSwap s hs i n t0 t1 : freach (s, hs) -> size_ok n -> qubit n t0 -> qubit n t1 -> t0 <> t1 ->
  exists p, (forall x, (x < 2 ^ n)%nat -> swaps (Z.to_nat t0) (Z.to_nat t1) x (p x)) /\
  runs_to i (makeSwap (Z.of_nat n) t0 t1) s (fun e s' => freach (s', H KM n e :: hs) /\ kept hs s s' /\
    mclose n (eswap n) (ents s' n e) (perm_matrix p)).
Proof.
  intros Hr Hs Hq0 Hq1 Hne. pose proof (freach_Aok _ Hr) as [HI _]. cbn [fst] in HI.
  exists (swap_map (Z.to_nat t0) (Z.to_nat t1)). split; [intros; apply swap_swaps|].
  destruct (run_makeSwap i n s t0 t1 HI Hs Hq0 Hq1 Hne) as (e & s' & X & R & D). exists e, s'. split; [exact X|].
  split; [eapply fr_step; [exact Hr|exact (fs_run s hs n _ i e s' (q_swap _ n t0 t1 Hs Hq0 Hq1 Hne) X)]|]. split; [now apply kept_rel|].
  eapply dnt_ents; [|exact D]. rewrite !mmF_mm.
  pose proof (X_gate n t1 t0 Hq1 Hq0 (not_eq_sym Hne)) as M1. pose proof (X_gate n t0 t1 Hq0 Hq1 Hne) as M2.
  eapply meq_trans; [apply mm_ext; [exact M1|apply mm_ext; [exact M2|exact M1]]|].
  pose proof (swap_product 0 n t0 t1 Hq0 Hq1 Hne) as HP. cbv zeta in HP. rewrite !mmF_mm in HP. exact HP.
Qed.

(* ---- gc_mat: the first matrix exactly, the others up to the tolerance, the vectors exactly ---- *)
Lemma keeps_nth k t t' es es' j e e' : keeps k t t' true es es' -> nth_error es j = Some e -> nth_error es' j = Some e' ->
  keep k t t' (if Nat.eqb j 0 then 0%R else dl) e e'.
Proof.
  intros G He He'. unfold keeps in G. destruct es as [|x es], es' as [|x' es']; try contradiction; [destruct j; discriminate He|].
  destruct G as [K1 K2]. destruct j as [|j]; cbn [nth_error Nat.eqb] in *.
  - injection He as <-. injection He' as <-. exact K1.
  - clear - K2 He He'. revert j He He'. induction K2 as [|u u' r r' Hu K2 IH]; intros [|j] He He'; try discriminate; cbn in *.
    + injection He as <-. injection He' as <-. exact Hu.
    + eapply IH; eauto.
Qed.
Lemma nth_rehandle k ns es vs j n e : nth_error ns j = Some n -> nth_error es j = Some e -> In (H k n e) (rehandle k ns es ++ vs).
Proof.
  intros Hn He. apply in_or_app. left. unfold rehandle. apply in_map_iff. exists (n, e). split; auto.
  revert es j Hn He. induction ns as [|m ns IH]; intros [|x es] [|j] Hn He; cbn in *; try discriminate.
  - injection Hn as <-. injection He as <-. now left.
  - right. eapply IH; eauto.
Qed.
Theorem C71_gc_mat s ns es vs i force : freach (s, rehandle KM ns es ++ vs) -> length ns = length es -> of_kind KV vs ->
  exists es' s', gc_mat i es force s = Some (es', s') /\ length es' = length es /\ freach (s', rehandle KM ns es' ++ vs) /\
    (forall j n e e' W, nth_error ns j = Some n -> nth_error es j = Some e -> nth_error es' j = Some e' ->
       (forall x y, (x < 2 ^ n)%nat -> (y < 2 ^ n)%nat -> (Cmod (ents s n e x y) <= W)%R) ->
       mclose n (if Nat.eqb j 0 then 0 else W * (INR n * dl * Gp n)) (ents s' n e') (ents s n e)) /\
    (forall n v, In (H KV n v) vs -> amps s' n v = amps s n v).
Proof.
  intros Hr Hl Hk. pose proof (freach_Aok _ Hr) as HA. pose proof HA as [HI Hh]. cbn [fst snd] in *.
  destruct (gc_mat_s i es force s HI (live_of _ _ _ _ _ Hl Hh)) as (es' & s' & Hg & G2 & G3 & G4).
  exists es', s'. split; [exact Hg|]. pose proof (keeps_F2 _ _ _ _ _ _ G4) as HF. split; [symmetry; eapply Forall2_len; eauto|].
  split; [eapply fr_step; [exact Hr|eapply fs_gc_mat; eauto]|]. split.
  - intros j n e e' W Hn He He' HW. destruct (Hh _ (nth_rehandle KM ns es vs j n e Hn He)) as (A1 & A2 & A3). cbn [h_k h_n h_e] in *.
    pose proof (wbM _ _ _ _ HI A3 HW) as Hwb.
    destruct (keeps_nth _ _ _ _ _ _ _ _ G4 He He') as (_ & Hw). destruct (Hw n A3) as (_ & _ & Hd).
    intros x y Hx Hy. unfold ents, matF. eapply Rle_trans; [apply Hd|].
    destruct (Nat.eqb j 0); [rewrite egc_0; lra|]. unfold egc. apply Rmult_le_compat_r; [|exact Hwb].
    apply Rmult_le_pos; [apply Rmult_le_pos; [apply pos_INR|apply dl_pos]|apply Grp].
  - intros n v _. unfold amps. now rewrite G3.
Qed.

(* ---- gates fused into one matrix, and fused matrices applied to a state ----
   qdd/qdd_backend.py:430-503 (merge_circuit: current = mm_multiply(gate, current), the
   collections of current), and a state to which gates or fused matrices are applied.
   Circuits are written last operation first. *)
Fixpoint circ_op (n : nat) (ops : list op) : matrix :=
  match ops with [] => ident | o :: r => mm n (op_mat n o) (circ_op n r) end.
Fixpoint emat (n : nat) (gd : R) (k : nat) : R :=
  match k with
  | O => 0%R
  | S O => eg n gd
  | S j => (emm n (1 + eg n gd) (1 + emat n gd j) + INR (2 ^ n) * ((1 + eg n gd) * emat n gd j + eg n gd))%R
  end.
(* [gmove n v om c v' om' c']: a step of the client that is not about the state v or the
   matrix om being built (if any) *)
Definition has (n : nat) (hs : list handle) (om : option edge) : Prop := match om with None => True | Some m => In (H KM n m) hs end.
Inductive gmove (n : nat) : edge -> option edge -> state * list handle -> edge -> option edge -> state * list handle -> Prop :=
| gm_call v om s hs k p c x s' : fcall hs k p c -> steps (Cfg_ok c s) (Cfg_ok (CRet x) s') -> gmove n v om (s, hs) v om (s', H k p x :: hs)
| gm_run v om s hs p c i x s' : seq_call hs p c -> run_on i c s = Some (x, s') -> gmove n v om (s, hs) v om (s', H KM p x :: hs)
| gm_drop v om s hs hs' : incl hs' hs -> In (H KV n v) hs' -> has n hs' om -> gmove n v om (s, hs) v om (s, hs')
| gm_gc v om s ns es ms i force v' es' s' : length ns = length es -> of_kind KM ms -> gc i (v :: es) force s = Some (v' :: es', s') ->
    gmove n v om (s, rehandle KV (n :: ns) (v :: es) ++ ms) v' om (s', rehandle KV (n :: ns) (v' :: es') ++ ms)
| gm_gc_mat v m s ns es vs i force m' es' s' : length ns = length es -> of_kind KV vs -> gc_mat i (m :: es) force s = Some (m' :: es', s') ->
    gmove n v (Some m) (s, rehandle KM (n :: ns) (m :: es) ++ vs) v (Some m') (s', rehandle KM (n :: ns) (m' :: es') ++ vs)
| gm_gc_mat0 v s ns es vs i force es' s' : length ns = length es -> of_kind KV vs -> gc_mat i es force s = Some (es', s') ->
    gmove n v None (s, rehandle KM ns es ++ vs) v None (s', rehandle KM ns es' ++ vs)
| gm_evict v om s hs s' : evicted s s' -> gmove n v om (s, hs) v om (s', hs)
| gm_thr v om s hs x y : gmove n v om (s, hs) v om (set_gc_thr x y s, hs)
| gm_probs v om s hs p x l s' : In (H KV p x) hs -> is_term (en x) = false -> (p <= 30)%nat -> probabilities x s = Some (l, s') ->
    gmove n v om (s, hs) v om (s', hs)
| gm_all v om s hs p x col ths r x' s' : In (H KV p x) hs -> is_term (en x) = false -> cv (ew x) <> RtoC 0 ->
    (p <= length ths)%nat -> (forall t, In t ths -> unif t) -> measureAll x col ths s = Some (r, x', s') ->
    gmove n v om (s, hs) v om (s', H KV p x' :: hs)
| gm_one v om s hs p x q eps th r s' : In (H KV p x) hs -> is_term (en x) = false -> qubit p q -> measureOneCollapsing x q eps th s = Some (r, s') ->
    gmove n v om (s, hs) v om (s', match r with Ret (_, x') => H KV p x' :: hs | Throw => hs end)
| gm_one' v om s hs p x q eps r s' : In (H KV p x) hs -> is_term (en x) = false -> qubit p q -> measureOne x q eps s = Some (r, s') ->
    gmove n v om (s, hs) v om (s', hs).
(* [fmerge n gs c v p]: v holds the state after the groups gs; p the matrix being built
   and its gates *)
Inductive fmerge (n : nat) : list (list fop) -> state * list handle -> edge -> option (list fop * edge) -> Prop :=
| fg_start s hs e s' : freach (s, hs) -> steps (Cfg_ok (makeZeroState n) s) (Cfg_ok (CRet e) s') -> fmerge n [] (s', H KV n e :: hs) e None
| fg_idle gs c v c' v' : fmerge n gs c v None -> gmove n v None c v' None c' -> fmerge n gs c' v' None
| fg_first gs f s hs v h s' : fmerge n gs (s, hs) v None -> steps (Cfg_ok (fop_comp n f) s) (Cfg_ok (CRet h) s') ->
    fmerge n gs (s', H KM n h :: hs) v (Some ([f], h))
| fg_fuse gs f g fs i s hs v m h s1 m' s2 : fmerge n gs (s, hs) v (Some (f :: fs, m)) -> steps (Cfg_ok (fop_comp n g) s) (Cfg_ok (CRet h) s1) ->
    run_on i (mm_multiply h m) s1 = Some (m', s2) -> fmerge n gs (s2, H KM n m' :: H KM n h :: hs) v (Some (g :: f :: fs, m'))
| fg_move gs fs c v m v' m' c' : fmerge n gs c v (Some (fs, m)) -> gmove n v (Some m) c v' (Some m') c' -> fmerge n gs c' v' (Some (fs, m'))
| fg_apply gs fs s hs v m v' s' : fmerge n gs (s, hs) v (Some (fs, m)) -> steps (Cfg_ok (mv_multiply m v) s) (Cfg_ok (CRet v') s') ->
    fmerge n (fs :: gs) (s', H KV n v' :: hs) v' None.
(* the error after groups of the given lengths *)
Definition eapp (n : nat) (gd : R) (k : nat) (W : R) : R := (emv n (1 + emat n gd k) W + INR (2 ^ n) * (emat n gd k * W))%R.
Fixpoint emerge (n : nat) (gd : R) (ks : list nat) : R :=
  match ks with [] => 0%R | k :: r => (emerge n gd r + sqrt (INR (2 ^ n)) * eapp n gd k (1 + emerge n gd r))%R end.

Lemma emat_S n gd k : emat n gd (S (S k)) = (emm n (1 + eg n gd) (1 + emat n gd (S k)) + INR (2 ^ n) * ((1 + eg n gd) * emat n gd (S k) + eg n gd))%R.
Proof. reflexivity. Qed.
Lemma emat_pos n gd k : (0 <= gd -> 0 <= emat n gd k)%R.
Proof.
  intros Hg. pose proof (eg_pos n gd Hg) as He. induction k as [|[|k] IH]; [cbn; lra|exact He|].
  rewrite emat_S. assert (Hp : (0 <= emm n (1 + eg n gd) (1 + emat n gd (S k)))%R) by (apply emm_pos; lra). pose proof (pos_INR (2 ^ n)).
  apply Rplus_le_le_0_compat; auto. apply Rmult_le_pos; auto. nra.
Qed.
Lemma eapp_pos n gd k W : (0 <= gd -> 0 <= W -> 0 <= eapp n gd k W)%R.
Proof.
  intros Hg HW. unfold eapp. pose proof (emat_pos n gd k Hg) as He. pose proof (emv_pos n (1 + emat n gd k) W ltac:(lra) HW).
  pose proof (pos_INR (2 ^ n)). apply Rplus_le_le_0_compat; auto. apply Rmult_le_pos; auto. apply Rmult_le_pos; auto.
Qed.
Lemma emerge_pos n gd ks : (0 <= gd -> 0 <= emerge n gd ks)%R.
Proof.
  intros Hg. induction ks as [|k r IH]; cbn [emerge]; [lra|]. pose proof (eapp_pos n gd k (1 + emerge n gd r) Hg ltac:(lra)).
  pose proof (sqrt_pos (INR (2 ^ n))). nra.
Qed.
Lemma mm_close n A A' B B' d W e U : (0 <= d)%R -> (0 <= W)%R ->
  mclose n d A' A -> (forall i j, (i < 2 ^ n)%nat -> (j < 2 ^ n)%nat -> (Cmod (B i j) <= U)%R) ->
  (forall i j, (i < 2 ^ n)%nat -> (j < 2 ^ n)%nat -> (Cmod (A' i j) <= W)%R) -> mclose n e B' B ->
  mclose n (INR (2 ^ n) * (W * e + d * U)) (mm n A' B') (mm n A B).
Proof.
  intros Hd HW HA HB HA' HB' i j Hi Hj. unfold mm. rewrite <- csum_minus. apply csum_bound. intros k Hk.
  replace (Cminus (Cmult (A' i k) (B' k j)) (Cmult (A i k) (B k j))) with
    (Cplus (Cmult (A' i k) (Cminus (B' k j) (B k j))) (Cmult (Cminus (A' i k) (A i k)) (B k j))) by ring.
  eapply Rle_trans; [apply Cmod_triangle|]. rewrite !Cmod_mult.
  apply Rplus_le_compat; apply Rmult_le_compat; auto using Cmod_ge_0.
Qed.
Lemma circ_op_unitary n ops : (forall o, In o ops -> op_ok n o /\ op_unitary o) -> unitary n (circ_op n ops).
Proof.
  induction ops as [|o r IH]; intros Hok; cbn [circ_op]; [apply unitary_ident|].
  destruct (Hok o (or_introl eq_refl)) as [H1 H2]. apply unitary_mm; [now apply op_unitary_mat|]. apply IH. intros; apply Hok; now right.
Qed.
Lemma mm_ext_r n A B B' : meq n B B' -> meq n (mm n A B) (mm n A B').
Proof. intros HB. apply mm_ext; auto. apply meq_refl. Qed.
Lemma circ_op_ideal n g ops : veq n (ideal n (g ++ ops)) (mv n (circ_op n g) (ideal n ops)).
Proof.
  induction g as [|o r IH]; cbn [app circ_op ideal].
  - intros i Hi. symmetry. now apply mv_ident.
  - intros i Hi. rewrite mv_mm by exact Hi. apply mv_ext; auto. apply meq_refl.
Qed.

(* ---- a step that is not about v or m keeps both ---- *)
Lemma keep_rel s hs s1 s' n v om : freach (s, hs) -> In (H KV n v) hs -> has n hs om -> Inv s1 -> tb s1 = tb s -> rel s1 s' ->
  amps s' n v = amps s n v /\ (forall m, om = Some m -> ents s' n m = ents s n m).
Proof.
  intros Hr Hv Hm HI1 Htb Hrel. split.
  - destruct (reach_V _ _ _ _ Hr Hv) as (_ & _ & _ & Hw). rewrite <- Htb in Hw. rewrite (amps_rel s1 s' n v HI1 Hrel Hw). unfold amps. now rewrite Htb.
  - intros m ->. destruct (reach_M _ _ _ _ Hr Hm) as (_ & _ & Hw). rewrite <- Htb in Hw. rewrite (ents_rel s1 s' n m HI1 Hrel Hw). unfold ents. now rewrite Htb.
Qed.
Lemma has_app n hs hs' om : has n hs om -> incl hs hs' -> has n hs' om.
Proof. destruct om; cbn; auto. Qed.
Lemma Cmod_le0_eq (x y : C) : (Cmod (Cminus x y) <= 0)%R -> x = y.
Proof.
  intros H. assert (H0 : Cminus x y = RtoC 0) by (apply Cmod_eq_0, Rle_antisym; [exact H|apply Cmod_ge_0]).
  replace x with (Cplus (Cminus x y) y) by ring. rewrite H0. ring.
Qed.
Definition sameM (n : nat) (s s' : state) (om om' : option edge) : Prop :=
  match om, om' with Some m, Some m' => meq n (ents s' n m') (ents s n m) | None, None => True | _, _ => False end.
Lemma gfin n s s' v om : amps s' n v = amps s n v -> (forall m, om = Some m -> ents s' n m = ents s n m) ->
  veq n (amps s' n v) (amps s n v) /\ sameM n s s' om om.
Proof. intros h1 h2; split; [intros z _; now rewrite h1|destruct om; cbn; auto; intros z1 z2 _ _; now rewrite h2]. Qed.
Lemma gmove_ok n v om c v' om' c' : gmove n v om c v' om' c' -> freach c -> In (H KV n v) (snd c) -> has n (snd c) om ->
  freach c' /\ In (H KV n v') (snd c') /\ has n (snd c') om' /\ veq n (amps (fst c') n v') (amps (fst c) n v) /\
  sameM n (fst c) (fst c') om om'.
Proof.
  intros Hg Hr Hv Hm. destruct Hg as [v om s hs k p c x s' Hcall Hst|v om s hs p c i x s' Hcall Hrun|v om s hs hs' Hi Hv' Hm'
    |v om s ns es ms i force v' es' s' Hl Hms Hgc|v m s ns es vs i force m' es' s' Hl Hvs Hgc|v s ns es vs i force es' s' Hl Hvs Hgc
    |v om s hs s' Hev|v om s hs x y|v om s hs p x l s' Hx Hxt Hp Hpr|v om s hs p x col ths r x' s' Hx Hxt Hxz Hl Hu Hp
    |v om s hs p x q eps th r s' Hx Hxt Hq Hp|v om s hs p x q eps r s' Hx Hxt Hq Hp]; cbn [fst snd] in *.
  - destruct (freach_Aok _ Hr) as [HI Hh]. cbn [fst snd] in *. destruct (fcall_s _ _ _ _ _ HI Hh Hcall) as (_ & _ & Hwp).
    destruct (wpr_result _ _ _ _ _ HI Hwp Hst) as [Hrel _].
    split; [eapply fr_step; [exact Hr|eapply fs_call; eauto]|]. split; [now right|]. split; [eapply has_app; [exact Hm|now right]|].
    destruct (keep_rel s hs s s' n v om Hr Hv Hm HI eq_refl Hrel) as [k1 k2]. exact (gfin n _ _ v om k1 k2).
  - destruct (freach_Aok _ Hr) as [HI Hh]. cbn [fst snd] in *. destruct (seq_s i _ _ _ _ HI Hh Hcall) as (_ & x2 & s2 & Hx2 & Hrel & _).
    rewrite Hrun in Hx2. injection Hx2 as <- <-.
    split; [eapply fr_step; [exact Hr|exact (fs_run s hs p c i x s' Hcall Hrun)]|]. split; [now right|]. split; [eapply has_app; [exact Hm|now right]|].
    destruct (keep_rel s hs s s' n v om Hr Hv Hm HI eq_refl Hrel) as [k1 k2]. exact (gfin n _ _ v om k1 k2).
  - split; [eapply fr_step; [exact Hr|now apply fs_drop]|]. split; [exact Hv'|]. split; [exact Hm'|]. apply (gfin n); auto.
  - assert (Hl' : length (n :: ns) = length (v :: es)) by (cbn; now rewrite Hl).
    destruct (C67_gc s (n :: ns) (v :: es) ms i force Hr Hl' Hms) as (es2 & s2 & Hg2 & _ & Hvv & Hmm).
    rewrite Hgc in Hg2. injection Hg2 as <- <-.
    split; [eapply fr_step; [exact Hr|eapply fs_gc; eauto]|]. split; [now left|].
    assert (Hinm : forall m, om = Some m -> In (H KM n m) ms).
    { intros m ->. cbn in Hm. destruct Hm as [Hm|Hm]; [discriminate Hm|]. apply in_app_or in Hm. destruct Hm as [Hm|Hm]; auto.
      apply in_map_iff in Hm. destruct Hm as ((? & ?) & Hab & _). discriminate Hab. }
    split; [destruct om as [m|]; cbn; auto; right; apply in_or_app; right; auto|].
    split; [|destruct om as [m|]; cbn; auto; intros z1 z2 _ _; rewrite (Hmm n m (Hinm m eq_refl)); reflexivity].
    intros z Hz. destruct (reach_V _ _ _ _ Hr Hv) as (HI & _ & _ & Hw).
    assert (Hb : forall y, (y < 2 ^ n)%nat -> (Cmod (amps s n v y) <= Cmod (cv (ew v)) * Gp n)%R) by (intros y _; unfold amps, vecF; apply val_le; auto; apply HI).
    specialize (Hvv 0%nat n v v' _ eq_refl eq_refl eq_refl Hb z Hz). cbn [Nat.eqb] in Hvv.
    now apply Cmod_le0_eq.
  - assert (Hl' : length (n :: ns) = length (m :: es)) by (cbn; now rewrite Hl).
    destruct (C71_gc_mat s (n :: ns) (m :: es) vs i force Hr Hl' Hvs) as (es2 & s2 & Hg2 & _ & Hr2 & Hvv & Hmm).
    rewrite Hgc in Hg2. injection Hg2 as <- <-. split; [exact Hr2|].
    assert (Hin' : In (H KV n v) vs).
    { destruct Hv as [Hv|Hv]; [discriminate Hv|]. apply in_app_or in Hv. destruct Hv as [Hv|Hv]; auto.
      apply in_map_iff in Hv. destruct Hv as ((? & ?) & Hab & _). discriminate Hab. }
    split; [right; apply in_or_app; now right|]. split; [now left|]. split; [intros z _; now rewrite (Hmm n v Hin')|].
    intros z1 z2 Hz1 Hz2. destruct (reach_M _ _ _ _ Hr Hm) as (HI & _ & Hw).
    assert (Hb : forall x y, (x < 2 ^ n)%nat -> (y < 2 ^ n)%nat -> (Cmod (ents s n m x y) <= Cmod (cv (ew m)) * Gp n)%R)
      by (intros x y _ _; unfold ents, matF; apply val_le; auto; apply HI).
    specialize (Hvv 0%nat n m m' _ eq_refl eq_refl eq_refl Hb z1 z2 Hz1 Hz2). cbn [Nat.eqb] in Hvv.
    now apply Cmod_le0_eq.
  - destruct (C71_gc_mat s ns es vs i force Hr Hl Hvs) as (es2 & s2 & Hg2 & _ & Hr2 & _ & Hmm).
    rewrite Hgc in Hg2. injection Hg2 as <- <-. split; [exact Hr2|].
    assert (Hin' : In (H KV n v) vs).
    { apply in_app_or in Hv. destruct Hv as [Hv|Hv]; auto. apply in_rehandle in Hv. destruct Hv as (a & b & Hab & _). discriminate Hab. }
    split; [apply in_or_app; now right|]. split; [exact I|]. split; [intros z _; now rewrite (Hmm n v Hin')|exact I].
  - split; [eapply fr_step; [exact Hr|now apply fs_evict]|]. split; [exact Hv|]. split; [exact Hm|].
    apply (gfin n); intros; unfold amps, ents; now rewrite (Logic.proj1 Hev).
  - split; [eapply fr_step; [exact Hr|apply fs_thr]|]. split; [exact Hv|]. split; [exact Hm|]. apply (gfin n); auto.
  - destruct (reach_V _ _ _ _ Hr Hx) as (HI & Hm1 & _ & Hw).
    destruct (probabilities_tb s p x l s' HI (conj Hm1 Hp) (wfp_nt _ _ _ Hw Hxt) Hpr) as [_ Htb].
    split; [eapply fr_step; [exact Hr|exact (fs_probs s hs p x l s' Hx Hxt Hp Hpr)]|]. split; [exact Hv|]. split; [exact Hm|].
    apply (gfin n); intros; unfold amps, ents; now rewrite Htb.
  - destruct (reach_V _ _ _ _ Hr Hx) as (HI & Hm1 & Hm2 & Hw).
    destruct (measureAll_tb s p x col ths r x' s' HI Hm1 Hm2 (wfp_nt _ _ _ Hw Hxt) Hxz Hl Hu Hp) as (s1 & HI1 & Htb & Hrel & _).
    split; [eapply fr_step; [exact Hr|exact (fs_all s hs p x col ths r x' s' Hx Hxt Hxz Hl Hu Hp)]|]. split; [now right|]. split; [eapply has_app; [exact Hm|now right]|].
    destruct (keep_rel s hs s1 s' n v om Hr Hv Hm HI1 Htb Hrel) as [k1 k2]. exact (gfin n _ _ v om k1 k2).
  - destruct (reach_V _ _ _ _ Hr Hx) as (HI & Hm1 & Hm2 & Hw).
    destruct (measureOneCollapsing_tb s p x q eps th r s' HI Hm1 Hm2 Hq (wfp_nt _ _ _ Hw Hxt) Hp) as (s1 & HI1 & Htb & Hrel & _).
    split; [eapply fr_step; [exact Hr|exact (fs_one s hs p x q eps th r s' Hx Hxt Hq Hp)]|].
    split; [destruct r as [[b e']|]; [now right|exact Hv]|].
    split; [destruct r as [[b e']|]; [eapply has_app; [exact Hm|now right]|exact Hm]|].
    destruct (keep_rel s hs s1 s' n v om Hr Hv Hm HI1 Htb Hrel) as [k1 k2]. exact (gfin n _ _ v om k1 k2).
  - destruct (reach_V _ _ _ _ Hr Hx) as (HI & Hm1 & Hm2 & Hw).
    destruct (measureOne_tb s p x q eps r s' HI Hm2 (wfp_nt _ _ _ Hw Hxt) Hp) as [_ Htb].
    split; [eapply fr_step; [exact Hr|exact (fs_one' s hs p x q eps r s' Hx Hxt Hq Hp)]|]. split; [exact Hv|]. split; [exact Hm|].
    apply (gfin n); intros; unfold amps, ents; now rewrite Htb.
Qed.

(* ---- the error of fused matrices and of states they are applied to ---- *)
Definition oks (n : nat) (ops : list op) : Prop := forall o, In o ops -> op_ok n o /\ op_unitary o.
Definition pfops (p : option (list fop * edge)) : list fop := match p with None => [] | Some (fs, _) => fs end.
Definition built (n : nat) (gd : R) (ops : list op) (c : state * list handle) (p : option (list fop * edge)) : Prop :=
  match p with
  | None => True
  | Some (fs, m) => In (H KM n m) (snd c) /\ mclose n (emat n gd (length ops)) (ents (fst c) n m) (circ_op n ops)
  end.
Lemma dist_veq' n v v' w : veq n v v' -> dist n v w = dist n v' w.
Proof. intros Hv. unfold dist. apply l2_ext. intros i Hi. now rewrite Hv. Qed.
Lemma oks_app n a b : oks n (a ++ b) -> oks n a /\ oks n b.
Proof. intros H. split; intros o Ho; apply H, in_or_app; auto. Qed.
Lemma built_ne n gs c v fs m : fmerge n gs c v (Some (fs, m)) -> fs <> [].
Proof.
  intros Hc. remember (Some (fs, m)) as p eqn:Hp. revert fs m Hp. induction Hc; intros ? ? Hp; inversion Hp; subst; try discriminate. eapply IHHc; eauto.
Qed.
(* makeGate or makeTwoQubitGate from a client *)
Lemma gate_step n gd o f s hs h s1 : size_ok n -> (0 <= gd)%R -> freach (s, hs) -> op_ok n o -> op_unitary o -> rounds gd o f ->
  steps (Cfg_ok (fop_comp n f) s) (Cfg_ok (CRet h) s1) ->
  freach (s1, H KM n h :: hs) /\ rel s s1 /\ mclose n (eg n gd) (ents s1 n h) (op_mat n o).
Proof.
  intros Hn Hgd Hr Ho HU Hrd Hst. destruct (fop_completes n o f gd s hs Hr Hn Hgd Ho HU Hrd) as (Hcall & _ & _ & Hret). specialize (Hret h s1 Hst).
  destruct (freach_Aok _ Hr) as [HI Hh]. cbn [fst snd] in Hh. destruct (fcall_s _ _ _ _ _ HI Hh Hcall) as (_ & _ & Hwp).
  destruct (wpr_result _ _ _ _ _ HI Hwp Hst) as [Hrel _].
  split; [eapply fr_step; [exact Hr|eapply fs_call; eauto]|]. auto.
Qed.
Lemma mclose_bound n e A B W : mclose n e A B -> (forall i j, (i < 2 ^ n)%nat -> (j < 2 ^ n)%nat -> (Cmod (B i j) <= W)%R) ->
  forall i j, (i < 2 ^ n)%nat -> (j < 2 ^ n)%nat -> (Cmod (A i j) <= W + e)%R.
Proof. intros H HB i j Hi Hj. specialize (H i j Hi Hj). specialize (HB i j Hi Hj). apply Cmod_sub_le in H. lra. Qed.
Lemma mclose_tri n a b A B D : mclose n a A B -> mclose n b B D -> mclose n (a + b) A D.
Proof. intros H1 H2 i j Hi Hj. eapply Cmod_tri3; eauto. Qed.
Lemma fmerge_ok n (gd : R) gs c v p : size_ok n -> (0 <= gd)%R -> fmerge n gs c v p ->
  forall groups ops, Forall2 (Forall2 (rounds gd)) groups gs -> Forall2 (rounds gd) ops (pfops p) -> oks n (concat groups) -> oks n ops ->
  freach c /\ In (H KV n v) (snd c) /\ (dist n (amps (fst c) n v) (ideal n (concat groups)) <= emerge n gd (map (@length op) groups))%R /\ built n gd ops c p.
Proof.
  intros Hn Hgd Hc. induction Hc as
    [s hs e s' Hr Hst|gs c v c' v' Hc IH Hmv|gs f s hs v h s' Hc IH Hst|gs f g fs i s hs v m h s1 m' s2 Hc IH Hst Hrun
    |gs fs c v m v' m' c' Hc IH Hmv|gs fs s hs v m v' s' Hc IH Hst]; cbn [fst snd pfops] in *; intros groups ops HF HP Hok Hokp.
  - inversion HF; subst. destruct (C67_zero_state s hs n Hr Hn) as (_ & _ & Hret). specialize (Hret e s' Hst).
    split; [eapply fr_step; [exact Hr|eapply fs_call; [apply f_zero; exact Hn|exact Hst]]|]. split; [now left|]. split; [|exact I].
    cbn [ideal concat map emerge]. unfold dist.
    rewrite (l2_ext _ _ (fun _ => RtoC 0)) by (intros i Hi; rewrite Hret by exact Hi; ring). unfold l2. rewrite (rsum_ext' _ _ (fun _ => 0%R)).
    + rewrite rsum_const, Rmult_0_r, sqrt_0. lra.
    + intros i _. rewrite Cmod_0. ring.
  - destruct (IH groups ops HF HP Hok Hokp) as (Hr & Hin & Hd & _). destruct (gmove_ok _ _ _ _ _ _ _ Hmv Hr Hin I) as (Hr' & Hin' & _ & Hv & _).
    split; [exact Hr'|]. split; [exact Hin'|]. split; [|exact I]. now rewrite (dist_veq' _ _ _ _ Hv).
  - destruct (IH groups [] HF (Forall2_nil _) Hok ltac:(intros ? [])) as (Hr & Hin & Hd & _).
    inversion HP as [|o f' os' fs' Hrd HP' e1 e2]; subst. inversion HP'; subst. destruct (Hokp o (or_introl eq_refl)) as [Ho HU].
    destruct (gate_step n gd o f s hs h s' Hn Hgd Hr Ho HU Hrd Hst) as (Hr1 & Hrel & Hg). split; [exact Hr1|]. split; [now right|].
    destruct (reach_V _ _ _ _ Hr Hin) as (HI & _ & _ & Hw). split; [now rewrite (amps_rel s)|].
    split; [now left|]. cbn [length emat circ_op fst]. intros a b Ha Hb. rewrite mm_ident_r by assumption. now apply Hg.
  - inversion HP as [|o g' os' fs' Hrd HP' e1 e2]; subst. rename os' into ops.
    destruct (Hokp o (or_introl eq_refl)) as [Ho HU]. assert (Hokp' : oks n ops) by (intros o' Ho'; apply Hokp; now right).
    destruct (IH groups ops HF HP' Hok Hokp') as (Hr & Hin & Hd & Hinm & Hm). cbn [fst snd] in *. clear IH.
    destruct (gate_step n gd o g s hs h s1 Hn Hgd Hr Ho HU Hrd Hst) as (Hr1 & Hrel & Hg).
    destruct (reach_V _ _ _ _ Hr Hin) as (HI & _ & _ & Hw). destruct (reach_M _ _ _ _ Hr Hinm) as (_ & _ & Hwm).
    rewrite <- (ents_rel s s1 n m HI Hrel Hwm) in Hm.
    pose proof (op_unitary_mat n o Ho HU) as HUm. pose proof (circ_op_unitary n ops Hokp') as HUc.
    set (em := emat n gd (length ops)) in *. pose proof (emat_pos n gd (length ops) Hgd) as Hem. fold em in Hem. pose proof (eg_pos n gd Hgd) as Heg.
    pose proof (mclose_bound _ _ _ _ 1 Hg (fun i j Hi Hj => unitary_entry n _ i j HUm Hi Hj)) as HBg.
    pose proof (mclose_bound _ _ _ _ 1 Hm (fun i j Hi Hj => unitary_entry n _ i j HUc Hi Hj)) as HBm.
    destruct (C71_mm_multiply s1 (H KM n h :: hs) i n h m _ _ Hr1 (or_introl eq_refl) (or_intror Hinm) HBg HBm) as (m2 & s3 & Hrun2 & Hr2 & [Hk _] & Hmul).
    rewrite Hrun in Hrun2. injection Hrun2 as <- <-. split; [exact Hr2|]. split; [right; now right|]. cbn [fst].
    split; [rewrite Hk by (now right); now rewrite (amps_rel s)|]. split; [now left|]. cbn [fst].
    destruct ops as [|o1 ops']; [inversion HP'|]. cbn [length] in *. rewrite emat_S. change (circ_op n (o :: o1 :: ops')) with (mm n (op_mat n o) (circ_op n (o1 :: ops'))).
    eapply mclose_tri; [exact Hmul|]. fold em. replace ((1 + eg n gd) * em + eg n gd)%R with ((1 + eg n gd) * em + eg n gd * 1)%R by ring.
    apply (mm_close n (op_mat n o) (ents s1 n h) (circ_op n (o1 :: ops')) (ents s1 n m)); auto; [lra|intros; now apply (unitary_entry n)].
  - destruct (IH groups ops HF HP Hok Hokp) as (Hr & Hin & Hd & Hinm & Hm). cbn [fst snd] in *.
    destruct (gmove_ok _ _ _ _ _ _ _ Hmv Hr Hin Hinm) as (Hr' & Hin' & Hinm' & Hv & HM). cbn [sameM has] in *.
    split; [exact Hr'|]. split; [exact Hin'|]. split; [now rewrite (dist_veq' _ _ _ _ Hv)|]. split; [exact Hinm'|].
    intros a b Ha Hb. rewrite HM by assumption. now apply Hm.
  - inversion HF as [|g gs' gr fr HG HF' e1 e2]; subst. rename gr into groups. cbn [built concat] in *. clear HP Hokp ops.
    destruct (oks_app _ _ _ Hok) as [Hokg Hok'].
    destruct (IH groups g HF' HG Hok' Hokg) as (Hr & Hin & Hd & Hinm & Hm). cbn [fst snd] in *. clear IH.
    set (ec := emerge n gd (map (@length op) groups)) in *. pose proof (emerge_pos n gd (map (@length op) groups) Hgd) as Hec. fold ec in Hec.
    pose proof (emat_pos n gd (length g) Hgd) as Hem. pose proof (circ_op_unitary n g Hokg) as HUc.
    set (w := amps s n v) in *.
    assert (HwW : forall i, (i < 2 ^ n)%nat -> (Cmod (w i) <= 1 + ec)%R).
    { intros i Hi. pose proof (close_of_dist _ _ _ _ Hd i Hi) as Hx. pose proof (ideal_le1 n (concat groups) i Hok' Hi) as Hy. apply Cmod_sub_le in Hx. lra. }
    pose proof (mclose_bound _ _ _ _ 1 Hm (fun i j Hi Hj => unitary_entry n _ i j HUc Hi Hj)) as HBm.
    destruct (C67_apply s hs n m v _ _ Hr Hinm Hin HBm HwW) as (_ & _ & Hret). specialize (Hret v' s' Hst).
    assert (Hcall : fcall hs KV n (mv_multiply m v)) by (now apply f_mul).
    split; [eapply fr_step; [exact Hr|eapply fs_call; eauto]|]. split; [now left|]. split; [|exact I].
    cbn [map emerge fst]. fold ec.
    eapply Rle_trans; [apply (dist_tri n _ (mv n (circ_op n g) w))|].
    assert (Hi2 : dist n (mv n (circ_op n g) w) (ideal n (g ++ concat groups)) = dist n w (ideal n (concat groups))).
    { rewrite <- (dist_unitary n (circ_op n g) w (ideal n (concat groups)) HUc). unfold dist. apply l2_ext. intros i Hi. now rewrite (circ_op_ideal n g (concat groups) i Hi). }
    rewrite Hi2.
    assert (Hc2 : vclose n (eapp n gd (length g) (1 + ec)) (amps s' n v') (mv n (circ_op n g) w)).
    { intros i Hi. eapply Rle_trans; [eapply Cmod_tri3; [now apply Hret|]|unfold eapp; apply Rle_refl].
      now apply (mv_close n (circ_op n g) (ents s n m) w _ _ Hem Hm HwW). }
    pose proof (dist_of_close n _ _ _ (eapp_pos n gd (length g) (1 + ec) Hgd ltac:(lra)) Hc2). lra.
Qed.

(* A state to which gates and fused matrices have been applied is near the ideal state of
   all the gates, and the matrix being built is near the product of its gates. *)
Theorem C71_fused n gd groups gs ops fs s hs v m : size_ok n -> (0 <= gd)%R ->
  Forall2 (Forall2 (rounds gd)) groups gs -> Forall2 (rounds gd) ops fs ->
  (forall o, In o (concat groups) -> op_ok n o /\ op_unitary o) -> (forall o, In o ops -> op_ok n o /\ op_unitary o) ->
  fmerge n gs (s, hs) v (Some (fs, m)) -> In (H KM n m) hs /\ mclose n (emat n gd (length ops)) (ents s n m) (circ_op n ops).
Proof. intros Hn Hg HF HP H1 H2 Hc. exact (Logic.proj2 (Logic.proj2 (Logic.proj2 (fmerge_ok n gd gs _ v _ Hn Hg Hc groups ops HF HP H1 H2)))). Qed.
Theorem C71_merged n gd groups gs s hs v : size_ok n -> (0 <= gd)%R ->
  Forall2 (Forall2 (rounds gd)) groups gs -> (forall o, In o (concat groups) -> op_ok n o /\ op_unitary o) ->
  fmerge n gs (s, hs) v None ->
  let ec := emerge n gd (map (@length op) groups) in
  (freach (s, hs) /\ In (H KV n v) hs /\ (dist n (amps s n v) (ideal n (concat groups)) <= ec)%R) /\
  ((n <= 30)%nat -> is_term (en v) = false ->
     exists l, getVector s v = Some l /\ length l = (2 ^ n)%nat /\
       vclose n (ec + erd n (1 + ec)) (fun i => cv (nth i l c0)) (ideal n (concat groups))) /\
  ((ec < 1)%R -> is_term (en v) = false).
Proof.
  intros Hn Hg HF Hok Hc ec. destruct (fmerge_ok n gd gs _ v _ Hn Hg Hc groups [] HF (Forall2_nil _) Hok ltac:(intros ? [])) as (Hr & Hin & Hd & _).
  cbn [fst snd] in *. fold ec in Hd. split; [auto|]. destruct (reach_V _ _ _ _ Hr Hin) as (HI & H1 & H2 & Hw). split.
  - intros Hn30 Ht. assert (HW : forall i, (i < 2 ^ n)%nat -> (Cmod (amps s n v i) <= 1 + ec)%R).
    { intros i Hi. pose proof (close_of_dist _ _ _ _ Hd i Hi) as Hx. pose proof (ideal_le1 n _ i Hok Hi) as Hy. apply Cmod_sub_le in Hx. lra. }
    destruct (C67_getVector s hs n v _ Hr Hin Hn30 Ht HW) as (l & Hv & Hl & Hcl). exists l. split; auto. split; auto.
    intros i Hi. rewrite Rplus_comm. eapply Cmod_tri3; [now apply Hcl|]. now apply close_of_dist with (n := n).
  - intros Hec. destruct (wfe_cases_V _ _ _ Hw H1) as [[_ Ht]| ->]; auto. exfalso.
    rewrite (dist_zero n (amps s n zeroE)) in Hd; [lra| |now apply ideal_norm].
    intros i _. unfold amps, vecF. apply val_zeroE.
Qed.
(* and the next gate, product or application never fails *)
Theorem C71_merged_progress n gd groups gs ops o f s hs v p : size_ok n -> (0 <= gd)%R ->
  Forall2 (Forall2 (rounds gd)) groups gs -> Forall2 (rounds gd) ops (pfops p) ->
  (forall o, In o (concat groups) -> op_ok n o /\ op_unitary o) -> (forall o, In o ops -> op_ok n o /\ op_unitary o) ->
  op_ok n o -> op_unitary o -> rounds gd o f -> fmerge n gs (s, hs) v p ->
  match p with
  | None => completes (fop_comp n f) s (fun h s1 => fmerge n gs (s1, H KM n h :: hs) v (Some ([f], h)))
  | Some (fs, m) =>
      completes (fop_comp n f) s (fun h s1 => forall i, runs_to i (mm_multiply h m) s1 (fun m' s2 =>
        fmerge n gs (s2, H KM n m' :: H KM n h :: hs) v (Some (f :: fs, m')))) /\
      completes (mv_multiply m v) s (fun v' s' => fmerge n (fs :: gs) (s', H KV n v' :: hs) v' None)
  end.
Proof.
  intros Hn Hg HF HP H1 H2 Ho HU Hrd Hc.
  destruct (fmerge_ok n gd gs _ v _ Hn Hg Hc groups ops HF HP H1 H2) as (Hr & Hin & _ & Hb). cbn [fst snd] in *.
  destruct (fop_completes n o f gd s hs Hr Hn Hg Ho HU Hrd) as (_ & f1 & f2 & _).
  destruct p as [[fs m]|].
  - destruct Hb as [Hm _]. cbn [fst snd] in *. pose proof (built_ne _ _ _ _ _ _ Hc) as Hne.
    destruct (reach_V _ _ _ _ Hr Hin) as (HI & _ & _ & Hw). destruct (reach_M _ _ _ _ Hr Hm) as (_ & _ & Hwm). split.
    + split; [exact f1|]. split; [exact f2|]. intros h s1 Hst i.
      destruct (gate_step n gd o f s hs h s1 Hn Hg Hr Ho HU Hrd Hst) as (Hr1 & Hrel & _).
      destruct (reach_M _ _ _ _ Hr1 (or_introl eq_refl)) as (HI1 & _ & Hw1). destruct (reach_M _ _ _ _ Hr1 (or_intror Hm)) as (_ & _ & Hw2).
      destruct (C71_mm_multiply s1 _ i n h m _ _ Hr1 (or_introl eq_refl) (or_intror Hm)
        (fun a b _ _ => val_le KM _ n h _ (inv_tb _ HI1 KM) Hw1) (fun a b _ _ => val_le KM _ n m _ (inv_tb _ HI1 KM) Hw2)) as (m' & s2 & Hrun & _).
      exists m', s2. split; [exact Hrun|]. destruct fs as [|f0 fs]; [contradiction|]. eapply fg_fuse; eauto.
    + destruct (C67_apply s hs n m v _ _ Hr Hm Hin (fun i j _ _ => val_le KM _ n m _ (inv_tb _ HI KM) Hwm) (fun i _ => val_le KV _ n v _ (inv_tb _ HI KV) Hw)) as (g1 & g2 & _).
      split; [exact g1|]. split; [exact g2|]. intros v' s' Hst. eapply fg_apply; eauto.
  - split; [exact f1|]. split; [exact f2|]. intros h s1 Hst. eapply fg_first; eauto.
Qed.
End FpMMP.
