(* FpM.v -- makeVEdge / makeMEdge over a rounded arithmetic (follows Make.v). *)
From Coq Require Import Reals Lra Psatz ZArith Bool List Lia.
From Coquelicot Require Import Complex.
From Verif Require Import Num State DD RNum Wf Sums Inv Wp FpA FpE FpW.
Import ListNotations.
Open Scope Z_scope.

Lemma nth_mapF (ix : nat -> nat) (Fs : list ((nat -> nat) -> C)) i :
  nth i (map (fun F => F ix) Fs) (RtoC 0) = nth i Fs (fun _ => RtoC 0) ix.
Proof. revert i. induction Fs as [|F Fs IH]; intros [|i]; cbn; auto. Qed.
Lemma Cmod_sub_le (x y : C) d : (Cmod (Cminus x y) <= d -> Cmod x <= Cmod y + d)%R.
Proof.
  intros H. replace x with (Cplus y (Cminus x y)) by ring. eapply Rle_trans; [apply Cmod_triangle|]. lra.
Qed.
Lemma Cmod_sub_sym (x y : C) : Cmod (Cminus x y) = Cmod (Cminus y x).
Proof. rewrite <- Cmod_opp. f_equal. ring. Qed.
Lemma Cmod_tri3 (x y z : C) a b : (Cmod (Cminus x y) <= a -> Cmod (Cminus y z) <= b -> Cmod (Cminus x z) <= a + b)%R.
Proof.
  intros. replace (Cminus x z) with (Cplus (Cminus x y) (Cminus y z)) by ring.
  eapply Rle_trans; [apply Cmod_triangle|]. lra.
Qed.

Section FpM.
Context {NO : NumOps} {AC : Accur NO} {CF : Cfg}.
Notation dl := (@dl NO AC).
Notation Gr := (@Gr NO AC).
Notation Gp := (@Gp NO AC).
Notation mkerr := (@mkerr NO AC).
Definition dn (k : kind) (n : nat) (F : (nat -> nat) -> C) (err : R) : post :=
  fun e s => dnt k (tb s k) n e F err.
Lemma dn_stable k n F err : stable (dn k n F err).
Proof.
  intros e s s' HI Hr H. unfold dn in *. eapply dnt_ext; eauto. apply HI. apply (rel_ext _ _ k Hr).
Qed.


(* the maximum in the order the code compares in *)
Definition fmax (ch : list edge) (i : nat) (mw : cx) : Prop :=
  (i < length ch)%nat /\ ew (nth i ch zeroE) = mw /\
  (forall j, (j < length ch)%nat -> nltb (norm2 mw) (norm2 (ew (nth j ch zeroE))) = false).

Lemma max_elt_fold l : forall pre m i, fmax pre i (ew m) -> nth i pre zeroE = m ->
  exists i', fmax (pre ++ l) i' (ew (fold_left (fun m x => if nltb (norm2 (ew m)) (norm2 (ew x)) then x else m) l m)).
Proof.
  induction l as [|x l IH]; intros pre m i Hf Hm; cbn [fold_left].
  - rewrite app_nil_r. eauto.
  - replace (pre ++ x :: l) with ((pre ++ [x]) ++ l) by (rewrite <- app_assoc; reflexivity).
    destruct Hf as (Hi & Hw & Hall).
    destruct (nltb (norm2 (ew m)) (norm2 (ew x))) eqn:Hc.
    + apply (IH (pre ++ [x]) x (length pre)).
      2:{ rewrite app_nth2, Nat.sub_diag by lia. reflexivity. }
      split; [rewrite app_length; cbn; lia|]. split; [rewrite app_nth2, Nat.sub_diag by lia; reflexivity|].
      intros j Hj. rewrite app_length in Hj; cbn in Hj.
      destruct (Nat.eq_dec j (length pre)) as [->|Hne].
      * rewrite app_nth2, Nat.sub_diag by lia. cbn [nth].
        destruct (nltb (norm2 (ew x)) (norm2 (ew x))) eqn:h; auto. pose proof (lt_asym _ _ h). congruence.
      * rewrite app_nth1 by lia. eapply ge_trans; [apply lt_asym; exact Hc|]. apply Hall. lia.
    + apply (IH (pre ++ [x]) m i).
      2:{ rewrite app_nth1 by lia. auto. }
      split; [rewrite app_length; cbn; lia|]. split; [rewrite app_nth1 by lia; auto|].
      intros j Hj. rewrite app_length in Hj; cbn in Hj.
      destruct (Nat.eq_dec j (length pre)) as [->|Hne].
      { rewrite app_nth2, Nat.sub_diag by lia. cbn. exact Hc. }
      { rewrite app_nth1 by lia. apply Hall. lia. }
Qed.
Lemma ge_refl x : nltb x x = false.
Proof. destruct (nltb x x) eqn:h; auto. pose proof (lt_asym _ _ h). congruence. Qed.
Lemma max_elt_spec e l : exists i, fmax (e :: l) i (ew (max_elt e l)).
Proof.
  unfold max_elt. apply (max_elt_fold l [e] e 0%nat); [|reflexivity].
  split; [cbn; lia|]. split; [reflexivity|].
  intros [|j] Hj; cbn in *; [apply ge_refl|lia].
Qed.
Lemma isone_c1 : isone c1 = true.
Proof. apply eq_refl'. Qed.

Section Norm.
Context (k : kind) (q : nat) (t : table) (ch : list edge) (mw : cx) (imax : nat).
Context (HT : TInv k t).
Context (Hq : Z.of_nat q < NQUBITS).
Context (Hlen : length ch = arity k).
Context (Hwf : forall c, In c ch -> wfe k t q c).
Context (Hmax : fmax ch imax mw).
Context (Hnz : iszero mw = false).

Lemma norm_child_w c : nltb (norm2 mw) (norm2 (ew c)) = false ->
  (Cmod (cv (ew (norm_child mw c))) <= Gr)%R /\
  (Cmod (Cminus (cv (ew (norm_child mw c))) (Cdiv (cv (ew c)) (cv mw))) <= 2 * dl)%R.
Proof.
  intros Hle. unfold norm_child. pose proof dl_pos as Hd. pose proof Gr_ge1 as HG.
  destruct (max_div _ _ Hnz Hle) as [H1 H2].
  set (q' := cdiv (ew c) mw) in *.
  destruct (iszero q') eqn:Hz; cbn [ew zeroE].
  - rewrite cv_0, Cmod_0. split; [lra|]. apply z_true in Hz.
    replace (2 * dl)%R with (dl + dl)%R by ring. eapply Cmod_tri3; [|exact H1].
    rewrite Cmod_sub_sym. replace (Cminus (cv q') (RtoC 0)) with (cv q') by ring. exact Hz.
  - destruct (isone q') eqn:Ho; cbn [ew].
    + rewrite cv_1, Cmod_1. split; [lra|]. apply eq_true in Ho. rewrite cv_1 in Ho.
      replace (2 * dl)%R with (dl + dl)%R by ring. eapply Cmod_tri3; [|exact H1]. now rewrite Cmod_sub_sym.
    + split; [exact H2|lra].
Qed.
Lemma norm_child_en c : norm_child mw c = zeroE \/ (en (norm_child mw c) = en c /\ cv (ew c) <> RtoC 0 /\ iszero (ew (norm_child mw c)) = false).
Proof.
  unfold norm_child. destruct (iszero (cdiv (ew c) mw)) eqn:Hz; auto. right. split; auto. split.
  - intros H. apply cv_z in H. rewrite H, div_0 in Hz by auto. rewrite z_0 in Hz by apply cv_0. discriminate.
  - cbn [ew]. destruct (isone _) eqn:Ho; auto. apply z_1.
Qed.
Lemma nth_norm i : (i < length ch)%nat -> nth i (map (norm_child mw) ch) zeroE = norm_child mw (nth i ch zeroE).
Proof.
  intros. rewrite (nth_indep _ zeroE (norm_child mw zeroE)) by (rewrite map_length; auto). apply map_nth.
Qed.
Lemma norm_max : norm_child mw (nth imax ch zeroE) = E c1 (en (nth imax ch zeroE)).
Proof.
  destruct Hmax as (_ & Hw & _). unfold norm_child. rewrite Hw, div_self by auto.
  rewrite z_1, isone_c1. reflexivity.
Qed.
Lemma fmax_In c : In c ch -> nltb (norm2 mw) (norm2 (ew c)) = false.
Proof.
  destruct Hmax as (_ & _ & Hall). intros Hc. apply (In_nth _ _ zeroE) in Hc as (j & Hj & <-). now apply Hall.
Qed.
Lemma norm_nodeok : nodeok k t (Nd (Z.of_nat q) (map (norm_child mw) ch)).
Proof.
  constructor; cbn [nv nch].
  - lia.
  - now rewrite map_length.
  - intros c Hc. apply in_map_iff in Hc as (c' & <- & Hc'). rewrite Nat2Z.id.
    destruct (norm_child_en c') as [->|(He & Hnz' & _)]; [apply wfe_zero|].
    left. rewrite He. eapply wfe_nz; eauto.
  - intros c Hc. apply in_map_iff in Hc as (c' & <- & Hc'). apply norm_child_w. now apply fmax_In.
  - intros c Hc Hz. apply in_map_iff in Hc as (c' & <- & Hc').
    destruct (norm_child_en c') as [->|(He & Hnz' & Hz')]; [reflexivity|congruence].
  - exists imax. destruct Hmax as (Hi & _). split; [lia|]. rewrite nth_norm by auto. rewrite norm_max. reflexivity.
Qed.
End Norm.
Lemma edges_eqb_nth a b : edges_eqb a b = true -> length a = length b /\
  forall i, (i < length a)%nat -> edge_eqb (nth i a zeroE) (nth i b zeroE) = true.
Proof.
  revert b. induction a as [|x a IH]; destruct b as [|y b]; cbn; try discriminate.
  - split; auto. intros; lia.
  - intros H. apply andb_prop in H as [H1 H2]. apply IH in H2 as [H2 H3]. split; [lia|].
    intros [|i] Hi; auto. apply H3. lia.
Qed.


(* value of the node found by the unique table *)
Lemma norm_value k t q ch mw nd' (nw' : cx) W ix i :
  TInv k t -> (forall c, In c ch -> wfe k t q c) -> iszero mw = false ->
  (forall c, In c ch -> nltb (norm2 mw) (norm2 (ew c)) = false) -> (Cmod (cv mw) <= W)%R ->
  edges_eqb (map (norm_child mw) ch) (nch nd') = true ->
  (forall c, In c (nch nd') -> iszero (ew c) = true -> c = zeroE) ->
  (forall c, In c (nch nd') -> (Cmod (cv (ew c)) <= Gr)%R) ->
  (Cmod (Cminus (cv nw') (cv mw)) <= dl)%R ->
  (Cmod (Cminus (Cmult (cv nw') (val k t q (nth i (nch nd') zeroE) ix)) (val k t q (nth i ch zeroE) ix)) <= mkerr q W)%R.
Proof.
  intros HT Hwf Hnz Hle HW Heq Hz' Hle' Hnw. pose proof dl_pos as He. pose proof Gr_ge1 as HG1.
  pose proof (Grp q) as HGp. pose proof (Cmod_ge_0 (cv mw)) as Hm0.
  apply edges_eqb_nth in Heq as [Hl Heq]. rewrite map_length in Hl, Heq.
  assert (HW0 : (0 <= W)%R) by lra.
  destruct (Nat.lt_ge_cases i (length ch)) as [Hi|Hi].
  2:{ rewrite !nth_overflow by lia. rewrite !val_zeroE.
      replace (Cminus (Cmult (cv nw') (RtoC 0)) (RtoC 0)) with (RtoC 0) by ring. rewrite Cmod_0. now apply mkerr_pos. }
  specialize (Heq i Hi). rewrite nth_norm in Heq by auto.
  set (c := nth i ch zeroE) in *.
  assert (Hc : In c ch) by (apply nth_In; auto).
  assert (Hc' : In (nth i (nch nd') zeroE) (nch nd')) by (apply nth_In; lia).
  set (c' := nth i (nch nd') zeroE) in *.
  destruct (norm_child_w mw Hnz c (Hle _ Hc)) as [Hn1 Hn2].
  apply andb_prop in Heq as [Heq1 Heq2].
  pose proof (z_nz _ Hnz) as Hmz.
  assert (Hcw : cv (ew c) = Cmult (cv mw) (Cdiv (cv (ew c)) (cv mw))) by (field; auto).
  set (r := Cdiv (cv (ew c)) (cv mw)) in *.
  assert (Hvc : (Cmod (val k t q c ix) <= Cmod (cv (ew c)) * Gp q)%R) by (apply val_le; auto).
  unfold FpE.mkerr.
  destruct (norm_child_en mw Hnz c) as [Hz|(Hen & _ & _)].
  - assert (Hiz : iszero (ew c') = true).
    { rewrite Hz in Heq1. cbn [ew zeroE] in Heq1. now apply eq_c0. }
    rewrite (Hz' _ Hc' Hiz). rewrite val_zeroE. rewrite Cmod_sub_sym.
    replace (Cminus (val k t q c ix) (Cmult (cv nw') (RtoC 0))) with (val k t q c ix) by ring.
    eapply Rle_trans; [exact Hvc|]. rewrite Rmult_comm. apply Rmult_le_compat_l; auto.
    assert (Hr : (Cmod r <= 2 * dl)%R).
    { rewrite Hz in Hn2. cbn [ew zeroE] in Hn2. rewrite cv_0, Cmod_sub_sym in Hn2.
      replace (Cminus r (RtoC 0)) with r in Hn2 by ring. exact Hn2. }
    rewrite Hcw, Cmod_mult. pose proof (Cmod_ge_0 r).
    assert (Cmod (cv mw) * Cmod r <= W * (2 * dl))%R by (apply Rmult_le_compat; auto). nra.
  - apply ptr_eqb_eq in Heq2. apply eq_true in Heq1.
    assert (Hv : val k t q c ix = Cmult (cv (ew c)) (valp k t q (en c') ix)) by (unfold FpA.val; congruence).
    assert (Hv1 : (Cmod (valp k t q (en c') ix) <= Gp q)%R).
    { rewrite <- Heq2, Hen. apply valp_le1; auto. destruct (Hwf _ Hc) as [|[_ ?]]; auto. }
    rewrite Hv. unfold FpA.val. rewrite Hcw. specialize (Hle' _ Hc').
    set (v := valp k t q (en c') ix) in *. set (w' := cv (ew c')) in *.
    set (w := cv (ew (norm_child mw c))) in *. set (m := cv mw) in *. set (n' := cv nw') in *.
    assert (Hd : (Cmod (Cminus w' r) <= 3 * dl)%R).
    { replace (3 * dl)%R with (dl + 2 * dl)%R by ring. eapply Cmod_tri3; [|exact Hn2].
      rewrite Cmod_sub_sym. exact Heq1. }
    replace (Cminus (Cmult n' (Cmult w' v)) (Cmult (Cmult m r) v))
      with (Cmult v (Cplus (Cmult m (Cminus w' r)) (Cmult w' (Cminus n' m)))) by ring.
    rewrite Cmod_mult. apply Rmult_le_compat; auto using Cmod_ge_0.
    eapply Rle_trans; [apply Cmod_triangle|]. rewrite !Cmod_mult.
    pose proof (Cmod_ge_0 (Cminus w' r)). pose proof (Cmod_ge_0 w'). pose proof (Cmod_ge_0 (Cminus n' m)).
    assert (Cmod m * Cmod (Cminus w' r) <= W * (3 * dl))%R by (apply Rmult_le_compat; auto).
    assert (Cmod w' * Cmod (Cminus n' m) <= Gr * dl)%R by (apply Rmult_le_compat; auto).
    lra.
Qed.

(* the value of the edge {nw', registered node at level q} *)
Lemma val_node k t q a nd (w : cx) ix : reg k t a nd -> nv nd = Z.of_nat q ->
  val k t (S q) (E w (Node a)) ix = Cmult (cv w) (val k t q (nth (ix q) (nch nd) zeroE) ix).
Proof. intros Hr Hv. unfold FpA.val at 1. cbn [ew en]. rewrite (valp_S_node k t q a nd) by auto. reflexivity. Qed.

Lemma round_one (x : cx) : (Cmod (Cminus (cv (if isone x then c1 else x)) (cv x)) <= dl)%R.
Proof.
  pose proof dl_pos. destruct (isone x) eqn:Ho.
  - apply eq_true in Ho. now rewrite Cmod_sub_sym.
  - replace (Cminus (cv x) (cv x)) with (RtoC 0) by ring. rewrite Cmod_0. lra.
Qed.

Definition ch_F (Fs : list ((nat -> nat) -> C)) (q : nat) (ix : nat -> nat) : C :=
  nth (ix q) (map (fun F => F ix) Fs) (RtoC 0).

Lemma wpr_tail k q s (ch : list edge) mw imax W (Fs : list ((nat -> nat) -> C)) (test : node -> bool) :
  Inv s -> Z.of_nat q < NQUBITS -> length ch = arity k -> length Fs = length ch ->
  (forall c, In c ch -> wfe k (tb s k) q c) ->
  (forall i ix, (i < length ch)%nat -> val k (tb s k) q (nth i ch zeroE) ix = nth i Fs (fun _ => RtoC 0) ix) ->
  fmax ch imax mw -> iszero mw = false -> (Cmod (cv mw) <= W)%R ->
  (forall nd, nv nd = Z.of_nat q -> test nd = true) ->
  wpr (CIntern k (Nd (Z.of_nat q) (map (norm_child mw) ch)) (fun p =>
             CRead k p (fun nd => if test nd then CRet (E (if isone mw then c1 else mw) p) else CFail)))
      (dn k (S q) (ch_F Fs q) (mkerr q W)) s.
Proof.
  intros HI Hq Hlen HlF Hwf HF Hmax Hnz HW Htest.
  apply wpr_intern; auto.
  { apply (norm_nodeok k q (tb s k) ch mw imax); auto. }
  intros b nd' s2 Hr Hreg Heq. pose proof (rel_inv _ _ Hr) as HI2.
  apply andb_prop in Heq as [Hv Heq]. cbn [nv nch] in Hv, Heq. apply Z.eqb_eq in Hv. symmetry in Hv.
  apply wpr_read with (nd := nd'); auto. rewrite Htest by auto.
  assert (Hdn : dn k (S q) (ch_F Fs q) (mkerr q W) (E (if isone mw then c1 else mw) (Node b)) s2).
  2:{ apply wpr_ret. intros s' Hr'. eapply dn_stable; eauto. }
  assert (He : ext k (tb s k) (tb s2 k)) by apply (rel_ext _ _ k Hr).
  assert (Hwf2 : forall c, In c ch -> wfe k (tb s2 k) q c) by (intros; eapply wfe_ext; eauto).
  split.
  - left. cbn [en]. destruct k; cbn; [|right]; exists b, nd'; (split; [auto|split; [auto|lia]]).
  - intros ix. rewrite (val_node k (tb s2 k) q b nd') by auto.
    replace (ch_F Fs q ix) with (val k (tb s2 k) q (nth (ix q) ch zeroE) ix).
    2:{ unfold ch_F. destruct (Nat.lt_ge_cases (ix q) (length ch)) as [Hi|Hi].
        - rewrite (val_ext k (tb s k)); auto; [|apply HI|apply Hwf; now apply nth_In].
          rewrite HF by auto.
          now rewrite nth_mapF.
        - rewrite !nth_overflow by (rewrite ?map_length; lia). apply val_zeroE. }
    destruct Hmax as (Hi & Hw & Hall).
    apply norm_value with (mw := mw); auto.
    + apply HI2.
    + intros c Hc. apply (In_nth _ _ zeroE) in Hc as (j & Hj & <-). now apply Hall.
    + apply (no_zero k (tb s2 k)). eapply reg_ok; eauto. apply HI2.
    + apply (no_le1 k (tb s2 k)). eapply reg_ok; eauto. apply HI2.
    + apply round_one.
Qed.


Lemma dn_zero k q s (ch : list edge) (Fs : list ((nat -> nat) -> C)) W :
  Inv s -> length Fs = length ch -> (0 <= W)%R ->
  (forall c, In c ch -> wfe k (tb s k) q c) ->
  (forall i ix, (i < length ch)%nat -> val k (tb s k) q (nth i ch zeroE) ix = nth i Fs (fun _ => RtoC 0) ix) ->
  (forall c, In c ch -> (Cmod (cv (ew c)) <= dl)%R) ->
  dn k (S q) (ch_F Fs q) (mkerr q W) zeroE s.
Proof.
  intros HI HlF HW Hwf HF Hs. split; [apply wfe_zero|].
  intros ix. rewrite val_zeroE, Cmod_sub_sym.
  replace (Cminus (ch_F Fs q ix) (RtoC 0)) with (ch_F Fs q ix) by ring.
  unfold ch_F. destruct (Nat.lt_ge_cases (ix q) (length ch)) as [Hi|Hi].
  - rewrite nth_mapF. rewrite <- HF by auto. assert (Hin : In (nth (ix q) ch zeroE) ch) by (now apply nth_In).
    eapply Rle_trans; [apply val_le; [apply HI|auto]|]. specialize (Hs _ Hin).
    unfold FpE.mkerr. rewrite Rmult_comm. apply Rmult_le_compat_l; [apply Grp|].
    pose proof Gr_ge1. pose proof dl_pos. nra.
  - rewrite nth_overflow by (rewrite map_length; lia). rewrite Cmod_0. now apply mkerr_pos.
Qed.
Lemma dl_mkerr q W : (0 <= W)%R -> (dl * Gp q <= mkerr q W)%R.
Proof.
  intros. unfold FpE.mkerr. rewrite Rmult_comm. apply Rmult_le_compat_l; [apply Grp|].
  pose proof Gr_ge1. pose proof dl_pos. nra.
Qed.

Theorem wpr_makeVEdge q s e0 e1 F0 F1 W :
  Inv s -> Z.of_nat q < NQUBITS ->
  wfe KV (tb s KV) q e0 -> wfe KV (tb s KV) q e1 ->
  (forall ix, val KV (tb s KV) q e0 ix = F0 ix) -> (forall ix, val KV (tb s KV) q e1 ix = F1 ix) ->
  (Cmod (cv (ew e0)) <= W)%R -> (Cmod (cv (ew e1)) <= W)%R ->
  wpr (makeVEdge (Z.of_nat q) e0 e1) (dn KV (S q) (ch_F [F0; F1] q) (mkerr q W)) s.
Proof.
  intros HI Hq Hw0 Hw1 HF0 HF1 HW0 HW1. unfold makeVEdge.
  assert (HWp : (0 <= W)%R) by (pose proof (Cmod_ge_0 (cv (ew e0))); lra).
  set (ch := [e0; e1]).
  assert (Hwf : forall c, In c ch -> wfe KV (tb s KV) q c) by (intros c [<-|[<-|[]]]; auto).
  assert (HF : forall i ix, (i < length ch)%nat -> val KV (tb s KV) q (nth i ch zeroE) ix = nth i [F0; F1] (fun _ => RtoC 0) ix).
  { intros [|[|i]] ix Hi; cbn in *; auto. lia. }
  assert (Hzero : (forall c, In c ch -> (Cmod (cv (ew c)) <= dl)%R) ->
     wpr (CScratch KV (Nd (Z.of_nat q) ch) (CRet zeroE)) (dn KV (S q) (ch_F [F0; F1] q) (mkerr q W)) s).
  { intros Hs. apply wpr_scratch; auto. apply wpr_ret. intros s' Hr. eapply dn_stable; eauto.
    apply (dn_zero KV q s ch); auto. }
  destruct (iszero (ew e0) && iszero (ew e1)) eqn:Hz.
  { apply andb_prop in Hz as [Hz0 Hz1]. apply Hzero. intros c [<-|[<-|[]]]; now apply z_true. }
  set (mx1 := nltb (norm2 (ew e0)) (norm2 (ew e1))).
  set (emax := if mx1 then e1 else e0). set (emin := if mx1 then e0 else e1).
  assert (Hmax : fmax ch (if mx1 then 1%nat else 0%nat) (ew emax)).
  { unfold emax. destruct mx1 eqn:Hc; unfold mx1 in Hc.
    - split; [cbn; lia|]. split; [reflexivity|].
      intros [|[|j]] Hj; cbn in *; [now apply lt_asym|apply ge_refl|lia].
    - split; [cbn; lia|]. split; [reflexivity|].
      intros [|[|j]] Hj; cbn in *; [apply ge_refl|exact Hc|lia]. }
  assert (Hcm : cmul (ew emax) c1 = ew emax) by apply cmul_1.
  rewrite Hcm.
  destruct (iszero (ew emax)) eqn:Hz2.
  { apply Hzero. intros c Hc. eapply max_z; [exact Hz2|]. eapply fmax_In; eauto. }
  (* the children written are exactly norm_child of the originals *)
  match goal with |- wpr (CIntern _ (Nd _ ?x) _) _ _ => set (ch' := x) end.
  assert (Hch : ch' = map (norm_child (ew emax)) ch).
  { assert (Hmx : norm_child (ew emax) emax = E c1 (en emax)).
    { pose proof (norm_max ch (ew emax) _ Hmax Hz2) as H. 
      replace (nth (if mx1 then 1%nat else 0%nat) ch zeroE) with emax in H; auto.
      unfold emax, ch. destruct mx1; reflexivity. }
    assert (Hmn : (let sw := cdiv (ew emin) (ew emax) in
                   if isone sw then E c1 (en emin) else if iszero sw then zeroE else E sw (en emin))
                  = norm_child (ew emax) emin).
    { unfold norm_child. cbn zeta. destruct (isone (cdiv (ew emin) (ew emax))) eqn:Ho; auto.
      destruct (iszero (cdiv (ew emin) (ew emax))) eqn:Hz3; auto.
      exfalso. eapply z_one; eauto. }
    cbn zeta in Hmn. subst ch'. rewrite Hmn, <- Hmx. unfold ch, emax, emin. destruct mx1; reflexivity. }
  rewrite Hch.
  apply (wpr_tail KV q s ch (ew emax) (if mx1 then 1%nat else 0%nat) W [F0; F1] (fun nd => nv nd =? Z.of_nat q)); auto.
  - unfold emax. destruct mx1; auto.
  - intros nd ->. apply Z.eqb_refl.
Qed.

Theorem wpr_makeMEdge q s a b c d Fa Fb Fc Fd W :
  Inv s -> Z.of_nat q < NQUBITS ->
  wfe KM (tb s KM) q a -> wfe KM (tb s KM) q b -> wfe KM (tb s KM) q c -> wfe KM (tb s KM) q d ->
  (forall ix, val KM (tb s KM) q a ix = Fa ix) -> (forall ix, val KM (tb s KM) q b ix = Fb ix) ->
  (forall ix, val KM (tb s KM) q c ix = Fc ix) -> (forall ix, val KM (tb s KM) q d ix = Fd ix) ->
  (Cmod (cv (ew a)) <= W)%R -> (Cmod (cv (ew b)) <= W)%R -> (Cmod (cv (ew c)) <= W)%R -> (Cmod (cv (ew d)) <= W)%R ->
  wpr (makeMEdge (Z.of_nat q) a b c d) (dn KM (S q) (ch_F [Fa; Fb; Fc; Fd] q) (mkerr q W)) s.
Proof.
  intros HI Hq Ha Hb Hc Hd HFa HFb HFc HFd HWa HWb HWc HWd.
  assert (HWp : (0 <= W)%R) by (pose proof (Cmod_ge_0 (cv (ew a))); lra).
  pose proof dl_pos as Heps.
  pose proof (dl_mkerr q W HWp) as Hmk. pose proof (mkerr_pos q W HWp) as Hmkp.
  assert (HT : TInv KM (tb s KM)) by apply HI.
  unfold makeMEdge. destruct (_ && _ && _ && _) eqn:Hstrip.
  { (* the level is an identity: return the common diagonal block *)
    apply andb_prop in Hstrip as [H H4]. apply andb_prop in H as [H H3]. apply andb_prop in H as [H1 H2].
    apply ptr_eqb_eq in H1. apply z_true in H2, H3. apply eq_true in H4.
    apply wpr_ret. intros s' Hr. eapply dn_stable; eauto. split.
    { eapply wfe_KM_up; [|exact Ha]. lia. }
    intros ix. rewrite val_KM_up by auto. unfold ch_F. cbn [map].
    assert (Hoff : forall e F, wfe KM (tb s KM) q e -> (forall ix, val KM (tb s KM) q e ix = F ix) ->
              (Cmod (cv (ew e)) <= dl)%R -> (Cmod (Cminus (Cmult (RtoC 0) (val KM (tb s KM) q a ix)) (F ix)) <= mkerr q W)%R).
    { intros e F He HFe Hle. rewrite <- HFe. rewrite <- Cmod_opp.
      replace (Copp (Cminus (Cmult (RtoC 0) (val KM (tb s KM) q a ix)) (val KM (tb s KM) q e ix)))
        with (val KM (tb s KM) q e ix) by ring.
      eapply Rle_trans; [apply val_le; auto|]. eapply Rle_trans; [|exact Hmk].
      apply Rmult_le_compat_r; [apply Grp|exact Hle]. }
    destruct (ix q) as [|[|[|[|i]]]]; cbn [nth diag4].
    - rewrite HFa. replace (Cminus (Cmult (RtoC 1) (Fa ix)) (Fa ix)) with (RtoC 0) by ring. rewrite Cmod_0. lra.
    - now apply (Hoff b).
    - now apply (Hoff c).
    - rewrite <- HFd. unfold FpA.val. rewrite <- H1.
      replace (Cminus (Cmult (RtoC 1) (Cmult (cv (ew a)) (valp KM (tb s KM) q (en a) ix))) (Cmult (cv (ew d)) (valp KM (tb s KM) q (en a) ix)))
        with (Cmult (Cminus (cv (ew a)) (cv (ew d))) (valp KM (tb s KM) q (en a) ix)) by ring.
      rewrite Cmod_mult.
      eapply Rle_trans; [|exact Hmk]. apply Rmult_le_compat; auto using Cmod_ge_0.
      apply valp_le1; auto. destruct Ha as [|[_ ?]]; auto.
    - destruct i; cbn [nth]; replace (Cminus (Cmult (RtoC 0) (val KM (tb s KM) q a ix)) (RtoC 0)) with (RtoC 0) by ring;
        rewrite Cmod_0; lra. }
  unfold normalizeM. set (ch := [a; b; c; d]).
  assert (Hwf : forall x, In x ch -> wfe KM (tb s KM) q x) by (intros x [<-|[<-|[<-|[<-|[]]]]]; auto).
  assert (HWc' : forall x, In x ch -> (Cmod (cv (ew x)) <= W)%R) by (intros x [<-|[<-|[<-|[<-|[]]]]]; auto).
  assert (HF : forall i ix, (i < length ch)%nat -> val KM (tb s KM) q (nth i ch zeroE) ix = nth i [Fa; Fb; Fc; Fd] (fun _ => RtoC 0) ix).
  { intros [|[|[|[|i]]]] ix Hi; cbn in *; auto. lia. }
  assert (Hzero : (forall x, In x ch -> (Cmod (cv (ew x)) <= dl)%R) ->
     wpr (CScratch KM (Nd (Z.of_nat q) ch) (CRet zeroE)) (dn KM (S q) (ch_F [Fa; Fb; Fc; Fd] q) (mkerr q W)) s).
  { intros Hs. apply wpr_scratch; auto. apply wpr_ret. intros s' Hr. eapply dn_stable; eauto.
    apply (dn_zero KM q s ch); auto. }
  destruct (forallb (fun e => isnull (ew e)) ch) eqn:Hnull.
  { apply Hzero. intros x Hx. rewrite forallb_forall in Hnull. now apply null_true, Hnull. }
  destruct (max_elt_spec a [b; c; d]) as (i & Hmax). change (a :: [b; c; d]) with ch in Hmax.
  set (mw := ew (max_elt a [b; c; d])) in *.
  assert (Hcm : cmul mw c1 = mw) by apply cmul_1.
  rewrite Hcm.
  destruct (iszero mw) eqn:Hz2.
  { apply Hzero. intros c' Hc'. eapply max_z; [exact Hz2|]. eapply fmax_In; eauto. }
  apply (wpr_tail KM q s ch mw i W [Fa; Fb; Fc; Fd] (fun nd => -1 <=? nv nd)); auto.
  - destruct Hmax as (Hi & <- & _). apply HWc'. now apply nth_In.
  - intros nd ->. apply Z.leb_le. lia.
Qed.
End FpM.
