(* Make.v -- correctness of makeVEdge / makeMEdge (normalisation, interning,
   identity stripping) and of the basis-state constructors. *)
From Coq Require Import Reals Lra Psatz ZArith Bool List Lia.
From Coquelicot Require Import Complex.
From Verif Require Import Num State DD RNum Wf Sums Err Inv Wp.
Import ListNotations.
Open Scope Z_scope.

Lemma Rabs_0sub (a : R) : Rabs (0 - a) = Rabs a.
Proof. rewrite <- Rabs_Ropp. f_equal. ring. Qed.

Lemma nth_mapF (ix : nat -> nat) (Fs : list ((nat -> nat) -> C)) i :
  nth i (map (fun F => F ix) Fs) (RtoC 0) = nth i Fs (fun _ => RtoC 0) ix.
Proof. revert i. induction Fs as [|F Fs IH]; intros [|i]; cbn; auto. Qed.

Section Make.
Context (tau : R) {HTol : Tol tau}.
Let Htau : (0 <= tau < 1 / 2)%R := tol_ok.
#[local] Hint Extern 0 NumOps => exact (RNum tau) : typeclass_instances.
Context {CF : Cfg}.
Notation table := (@table (RNum tau)).
Notation state := (@state (RNum tau)).
Notation edge := (@edge (RNum tau)).
Notation node := (@node (RNum tau)).
Notation val := (val tau).
Notation valp := (valp tau).
Notation wfe := (wfe tau).
Notation wfp := (wfp tau).
Notation reg := (reg tau).
Notation TInv := (TInv tau).
Notation Inv := (Inv tau).
Notation rel := (rel tau).
Notation eps := (eps tau).
Notation iszero := (@iszero (RNum tau)).
Notation isone := (@isone (RNum tau)).
Notation isequal := (@isequal (RNum tau)).
Notation norm_child := (@norm_child (RNum tau)).
Notation E := (@E (RNum tau)).

Definition dn (k : kind) (n : nat) (F : (nat -> nat) -> C) (err : R) : post tau :=
  fun e s => dnt tau k (tb s k) n e F err.
Lemma dn_stable k n F err : stable tau (dn k n F err).
Proof.
  intros e s s' HI Hr H. unfold dn in *. eapply dnt_ext; eauto. apply HI. apply (rel_ext _ _ _ k Hr).
Qed.

Lemma Cdiv_0 (y : C) : Cdiv (RtoC 0) y = RtoC 0.
Proof. unfold Cdiv. ring. Qed.
Lemma Cmod_div' (x y : C) : y <> RtoC 0 -> Cmod (Cdiv x y) = (Cmod x / Cmod y)%R.
Proof. intros. now apply Cmod_div. Qed.
Lemma Cdiv_mul (x y : C) : y <> RtoC 0 -> Cmult y (Cdiv x y) = x.
Proof. intros. field. auto. Qed.

(* the first maximum *)
Definition fmax (ch : list edge) (i : nat) (mw : C) : Prop :=
  (i < length ch)%nat /\ ew (nth i ch zeroE) = mw /\
  (forall j, (j < length ch)%nat -> (Cmod (ew (nth j ch zeroE)) <= Cmod mw)%R) /\
  (forall j, (j < i)%nat -> (Cmod (ew (nth j ch zeroE)) < Cmod mw)%R).

Lemma max_elt_fold l : forall pre m i, fmax pre i (ew m) -> nth i pre zeroE = m ->
  exists i', fmax (pre ++ l) i' (ew (fold_left (fun m x => if nltb (norm2 (ew m)) (norm2 (ew x)) then x else m) l m)).
Proof.
  induction l as [|x l IH]; intros pre m i Hf Hm; cbn [fold_left].
  - rewrite app_nil_r. eauto.
  - replace (pre ++ x :: l) with ((pre ++ [x]) ++ l) by (rewrite <- app_assoc; reflexivity).
    destruct Hf as (Hi & Hw & Hall & Hlt).
    destruct (nltb (norm2 (ew m)) (norm2 (ew x))) eqn:Hc.
    + apply nltb_norm2 in Hc. apply (IH (pre ++ [x]) x (length pre)).
      2:{ rewrite app_nth2, Nat.sub_diag by lia. reflexivity. }
      split; [rewrite app_length; cbn; lia|]. split; [rewrite app_nth2, Nat.sub_diag by lia; reflexivity|].
      assert (Hs : forall j, (j < length pre)%nat -> (Cmod (ew (nth j (pre ++ [x]) zeroE)) < Cmod (ew x))%R).
      { intros j Hj. rewrite app_nth1 by lia. eapply Rle_lt_trans; [apply Hall; auto|exact Hc]. }
      split; auto. intros j Hj. rewrite app_length in Hj; cbn in Hj.
      destruct (Nat.eq_dec j (length pre)) as [->|Hne].
      * rewrite app_nth2, Nat.sub_diag by lia. apply Rle_refl.
      * left. apply Hs. lia.
    + assert (Hc' : (Cmod (ew x) <= Cmod (ew m))%R).
      { destruct (Rle_lt_dec (Cmod (ew x)) (Cmod (ew m))) as [h|h]; auto.
        apply nltb_norm2 in h. congruence. }
      apply (IH (pre ++ [x]) m i).
      2:{ rewrite app_nth1 by lia. auto. }
      split; [rewrite app_length; cbn; lia|]. split; [rewrite app_nth1 by lia; auto|]. split.
      * intros j Hj. rewrite app_length in Hj; cbn in Hj.
        destruct (Nat.eq_dec j (length pre)) as [->|Hne].
        { rewrite app_nth2, Nat.sub_diag by lia. cbn. exact Hc'. }
        { rewrite app_nth1 by lia. apply Hall. lia. }
      * intros j Hj. rewrite app_nth1 by lia. apply Hlt. lia.
Qed.
Lemma max_elt_spec e l : exists i, fmax (e :: l) i (ew (max_elt e l)).
Proof.
  unfold max_elt. apply (max_elt_fold l [e] e 0%nat); [|reflexivity].
  split; [cbn; lia|]. split; [reflexivity|]. split.
  - intros [|j] Hj; cbn in *; [apply Rle_refl|lia].
  - intros j Hj; lia.
Qed.

Lemma iszero_isone x : iszero x = true -> isone x = true -> False.
Proof.
  destruct x as [a b]. unfold iszero, isone, isequal; cbn. intros H1 H2.
  apply andb_prop in H1 as [H1 _]. apply Rleb_true in H1.
  apply orb_prop in H2 as [H2|H2]; apply andb_prop in H2 as [H2 _].
  - apply Reqb_true in H2. subst. rewrite Rabs_R1 in H1. lra.
  - apply Rleb_true in H2. unfold Rabs in *. destruct (Rcase_abs a), (Rcase_abs (a - 1)); lra.
Qed.
Lemma isone_c1 : isone c1 = true.
Proof. apply isequal_refl. Qed.

Section Norm.
Context (k : kind) (q : nat) (t : table) (ch : list edge) (mw : C) (imax : nat).
Context (HT : TInv k t).
Context (Hq : Z.of_nat q < NQUBITS).
Context (Hlen : length ch = arity k).
Context (Hwf : forall c, In c ch -> wfe k t q c).
Context (Hmax : fmax ch imax mw).
Context (Hnz : mw <> RtoC 0).

Lemma mw_pos : (0 < Cmod mw)%R.
Proof. now apply Cmod_gt_0. Qed.

Lemma norm_child_w c : In c ch ->
  (Cmod (ew c) <= Cmod mw)%R ->
  (Cmod (ew (norm_child mw c)) <= 1)%R /\
  (Cmod (Cminus (ew (norm_child mw c)) (Cdiv (ew c) mw)) <= eps)%R.
Proof.
  intros _ Hle. unfold norm_child. pose proof mw_pos as Hp.
  assert (He : (0 <= eps)%R) by apply (eps_pos tau).
  assert (Hd : (Cmod (Cdiv (ew c) mw) <= 1)%R).
  { rewrite Cmod_div' by auto. apply (Rmult_le_reg_r (Cmod mw)); auto. unfold Rdiv.
    rewrite Rmult_assoc, Rinv_l by lra. lra. }
  rewrite (cdiv_C tau (ew c) mw).
  destruct (iszero (Cdiv (ew c) mw)) eqn:Hz; cbn [ew zeroE].
  - change (@c0 (RNum tau)) with (RtoC 0). rewrite Cmod_0. split; [lra|].
    apply iszero_true in Hz. rewrite <- Cmod_opp. unfold Err.eps.
    replace (Copp (Cminus (RtoC 0) (Cdiv (ew c) mw))) with (Cdiv (ew c) mw) by ring. exact Hz.
  - destruct (isone (Cdiv (ew c) mw)) eqn:Ho; cbn [ew].
    + change (@c1 (RNum tau)) with (RtoC 1). rewrite Cmod_1. split; [lra|].
      apply isone_true in Ho; [|lra]. rewrite <- Cmod_opp. unfold Err.eps.
      replace (Copp (Cminus (RtoC 1) (Cdiv (ew c) mw))) with (Cminus (Cdiv (ew c) mw) (RtoC 1)) by ring. exact Ho.
    + split; auto. replace (Cminus (Cdiv (ew c) mw) (Cdiv (ew c) mw)) with (RtoC 0) by ring. rewrite Cmod_0. lra.
Qed.
Lemma norm_child_en c : norm_child mw c = zeroE \/ (en (norm_child mw c) = en c /\ ew c <> RtoC 0 /\ iszero (ew (norm_child mw c)) = false).
Proof.
  unfold norm_child. rewrite (cdiv_C tau (ew c) mw).
  destruct (iszero (Cdiv (ew c) mw)) eqn:Hz; auto. right. split; auto. split.
  - intros H. rewrite H, Cdiv_0 in Hz. change (RtoC 0) with (@c0 (RNum tau)) in Hz.
    rewrite iszero_c0 in Hz by lra. discriminate.
  - cbn [ew]. destruct (isone _) eqn:Ho; auto. apply iszero_c1. lra.
Qed.
Lemma nth_norm i : (i < length ch)%nat -> nth i (map (norm_child mw) ch) zeroE = norm_child mw (nth i ch zeroE).
Proof.
  intros. rewrite (nth_indep _ zeroE (norm_child mw zeroE)) by (rewrite map_length; auto). apply map_nth.
Qed.
Lemma norm_max : norm_child mw (nth imax ch zeroE) = E c1 (en (nth imax ch zeroE)).
Proof.
  destruct Hmax as (_ & Hw & _). unfold norm_child. rewrite Hw.
  rewrite (cdiv_C tau mw mw).
  replace (Cdiv mw mw) with (@c1 (RNum tau)).
  - rewrite iszero_c1 by lra. rewrite isone_c1. reflexivity.
  - change (@eq C (RtoC 1) (Cdiv mw mw)). field. auto.
Qed.

Lemma norm_nodeok :
  (k = KM -> tau = 0%R -> strippable tau (norm_child mw (nth 0 ch zeroE)) (norm_child mw (nth 1 ch zeroE))
     (norm_child mw (nth 2 ch zeroE)) (norm_child mw (nth 3 ch zeroE)) = false) ->
  nodeok tau k t (Nd (Z.of_nat q) (map (norm_child mw) ch)).
Proof.
  intros Hstrip. destruct Hmax as (Hi & Hw & Hall & Hlt).
  assert (Hle : forall c, In c ch -> (Cmod (ew c) <= Cmod mw)%R).
  { intros c Hc. apply (In_nth _ _ zeroE) in Hc as (j & Hj & <-). now apply Hall. }
  constructor; cbn [nv nch].
  - lia.
  - now rewrite map_length.
  - intros c Hc. apply in_map_iff in Hc as (c' & <- & Hc'). rewrite Nat2Z.id.
    destruct (norm_child_en c') as [->|(He & Hnz' & _)]; [apply wfe_zero|].
    left. rewrite He. eapply wfe_nz; eauto.
  - intros c Hc. apply in_map_iff in Hc as (c' & <- & Hc'). apply norm_child_w; auto.
  - intros c Hc Hz. apply in_map_iff in Hc as (c' & <- & Hc').
    destruct (norm_child_en c') as [->|(He & Hnz' & Hz')]; [reflexivity|congruence].
  - (* least index whose weight is 1 *)
    assert (Hex : exists i, (i <= imax)%nat /\ ew (norm_child mw (nth i ch zeroE)) = c1 /\
              forall j, (j < i)%nat -> ew (norm_child mw (nth j ch zeroE)) <> c1).
    { assert (G : forall n, (n <= imax)%nat ->
         (exists i, (i < n)%nat /\ ew (norm_child mw (nth i ch zeroE)) = c1 /\
              forall j, (j < i)%nat -> ew (norm_child mw (nth j ch zeroE)) <> c1) \/
         (forall j, (j < n)%nat -> ew (norm_child mw (nth j ch zeroE)) <> c1)).
      { induction n as [|n IH]; intros Hn; [right; intros; lia|].
        destruct IH as [(i & ? & ? & ?)|Hno]; [lia|left; exists i; auto|].
        destruct (isequal (ew (norm_child mw (nth n ch zeroE))) c1) eqn:Hc.
        - unfold norm_child in Hc |- *.
          (* a weight within tolerance of 1 is exactly 1 after norm_child *)
          destruct (iszero (cdiv (ew (nth n ch zeroE)) mw)) eqn:Hz.
          + exfalso. cbn [ew zeroE] in Hc. apply (iszero_isone c0); auto. apply iszero_c0; lra.
          + destruct (isone (cdiv (ew (nth n ch zeroE)) mw)) eqn:Ho.
            * left. exists n. split; [lia|]. split; [rewrite Hz, Ho; reflexivity|].
              intros j Hj. specialize (Hno j Hj). exact Hno.
            * cbn [ew] in Hc. exfalso. unfold isone in Ho. congruence.
        - right. intros j Hj. destruct (Nat.eq_dec j n) as [->|]; [|apply Hno; lia].
          intros Heq. rewrite Heq in Hc. rewrite isequal_refl in Hc. discriminate. }
      destruct (G imax (le_n _)) as [(i & H1 & H2 & H3)|Hno].
      - exists i. split; [lia|]. auto.
      - exists imax. split; [lia|]. rewrite norm_max. auto. }
    destruct Hex as (i & Hii & Hone & Hbef).
    exists i. split; [lia|]. split; [rewrite nth_norm by lia; exact Hone|].
    intros j Hj. rewrite nth_norm by lia. specialize (Hbef j Hj).
    assert (Hlj : (Cmod (ew (nth j ch zeroE)) < Cmod mw)%R) by (apply Hlt; lia).
    revert Hbef. unfold norm_child.
    destruct (iszero (cdiv (ew (nth j ch zeroE)) mw)) eqn:Hz; cbn [ew zeroE].
    + intros _. change (@c0 (RNum tau)) with (RtoC 0). rewrite Cmod_0. lra.
    + destruct (isone (cdiv (ew (nth j ch zeroE)) mw)) eqn:Ho; [congruence|]. intros _.
      rewrite (cdiv_C tau (ew (nth j ch zeroE)) mw).
      rewrite Cmod_div' by auto. pose proof mw_pos.
      apply (Rmult_lt_reg_r (Cmod mw)); auto. unfold Rdiv. rewrite Rmult_assoc, Rinv_l by lra. lra.
  - intros Hk Ht. rewrite !nth_norm by (rewrite Hlen, Hk; cbn; lia). auto.
Qed.
End Norm.

Lemma edges_eqb_nth a b : edges_eqb a b = true -> length a = length b /\
  forall i, (i < length a)%nat -> edge_eqb (nth i a zeroE) (nth i b zeroE) = true.
Proof.
  revert b. induction a as [|x a IH]; destruct b as [|y b]; cbn; try discriminate.
  - split; auto. intros; lia.
  - intros H. apply andb_prop in H as [H1 H2]. apply IH in H2 as [H2 H3]. split; [lia|].
    intros [|i] Hi; auto. apply H3. lia.
Qed.

(* value of the node found by the unique table *)
Lemma norm_value k t q ch mw nd' (nw' : C) W ix i :
  TInv k t -> (forall c, In c ch -> wfe k t q c) -> mw <> RtoC 0 ->
  (forall c, In c ch -> (Cmod (ew c) <= Cmod mw)%R) -> (Cmod mw <= W)%R ->
  edges_eqb (map (norm_child mw) ch) (nch nd') = true ->
  (forall c, In c (nch nd') -> iszero (ew c) = true -> c = zeroE) ->
  (Cmod (Cminus nw' mw) <= eps)%R ->
  (Cmod (Cminus (Cmult nw' (val k t q (nth i (nch nd') zeroE) ix)) (val k t q (nth i ch zeroE) ix)) <= mkerr tau W)%R.
Proof.
  intros HT Hwf Hnz Hle HW Heq Hz' Hnw. pose proof (eps_pos tau) as He.
  apply edges_eqb_nth in Heq as [Hl Heq]. rewrite map_length in Hl, Heq.
  assert (HW0 : (0 <= W)%R) by (pose proof (Cmod_ge_0 mw); lra).
  destruct (Nat.lt_ge_cases i (length ch)) as [Hi|Hi].
  2:{ rewrite !nth_overflow by lia. rewrite !val_zeroE.
      replace (Cminus (Cmult nw' (RtoC 0)) (RtoC 0)) with (RtoC 0) by ring. rewrite Cmod_0. now apply mkerr_pos. }
  specialize (Heq i Hi). rewrite nth_norm in Heq by auto.
  set (c := nth i ch zeroE) in *.
  assert (Hc : In c ch) by (apply nth_In; auto).
  assert (Hc' : In (nth i (nch nd') zeroE) (nch nd')) by (apply nth_In; lia).
  set (c' := nth i (nch nd') zeroE) in *.
  destruct (norm_child_w ch mw Hnz c Hc (Hle _ Hc)) as [Hn1 Hn2].
  apply andb_prop in Heq as [Heq1 Heq2].
  assert (Hcw : ew c = Cmult mw (Cdiv (ew c) mw)) by (now rewrite Cdiv_mul).
  set (r := Cdiv (ew c) mw) in *.
  assert (Hvc : (Cmod (val k t q c ix) <= Cmod (ew c))%R) by (apply (val_le tau); auto).
  destruct (norm_child_en mw c) as [Hz|(Hen & _ & _)].
  - assert (Hiz : iszero (ew c') = true).
    { rewrite Hz in Heq1. cbn [ew zeroE] in Heq1. revert Heq1. unfold isequal, iszero.
      destruct (ew c') as [a b]. cbn. intros H.
      apply orb_prop in H as [H|H]; apply andb_prop in H as [H1 H2].
      - apply Reqb_true in H1, H2. subst. rewrite Rabs_R0.
        apply andb_true_intro; split; apply Rleb_true; lra.
      - apply Rleb_true in H1, H2. rewrite Rabs_0sub in H1, H2.
        apply andb_true_intro; split; apply Rleb_true; auto. }
    rewrite (Hz' _ Hc' Hiz). rewrite val_zeroE.
    rewrite <- Cmod_opp. replace (Copp (Cminus (Cmult nw' (RtoC 0)) (val k t q c ix))) with (val k t q c ix) by ring.
    eapply Rle_trans; [exact Hvc|]. rewrite Hcw, Cmod_mult.
    assert (Hr : (Cmod r <= eps)%R).
    { rewrite Hz in Hn2. cbn [ew zeroE] in Hn2. change (@c0 (RNum tau)) with (RtoC 0) in Hn2.
      rewrite <- Cmod_opp in Hn2. replace (Copp (Cminus (RtoC 0) r)) with r in Hn2 by ring. exact Hn2. }
    unfold mkerr. pose proof (Cmod_ge_0 mw). pose proof (Cmod_ge_0 r).
    assert (Cmod mw * Cmod r <= W * eps)%R by (apply Rmult_le_compat; auto).
    assert (0 <= eps * eps)%R by nra. nra.
  - apply ptr_eqb_eq in Heq2. apply isequal_true in Heq1; [|lra].
    change (2 * tau)%R with eps in Heq1.
    assert (Hv : val k t q c ix = Cmult (ew c) (valp k t q (en c') ix)) by (unfold Wf.val; congruence).
    assert (Hv1 : (Cmod (valp k t q (en c') ix) <= 1)%R).
    { rewrite <- Heq2, Hen. apply (valp_le1 tau); auto. destruct (Hwf _ Hc) as [|[_ ?]]; auto. }
    rewrite Hv. unfold Wf.val. rewrite Hcw.
    set (v := valp k t q (en c') ix) in *. set (w' := ew c') in *. set (w := ew (norm_child mw c)) in *.
    assert (Hr1 : (Cmod r <= 1)%R).
    { unfold r. rewrite Cmod_div' by auto. specialize (Hle _ Hc).
      assert (0 < Cmod mw)%R by (now apply Cmod_gt_0).
      apply (Rmult_le_reg_r (Cmod mw)); auto. unfold Rdiv.
      rewrite Rmult_assoc, Rinv_l by lra. lra. }
    assert (Hd : (Cmod (Cminus w' r) <= 2 * eps)%R).
    { replace (Cminus w' r) with (Cplus (Copp (Cminus w w')) (Cminus w r)) by ring.
      eapply Rle_trans; [apply Cmod_triangle|]. rewrite Cmod_opp. lra. }
    assert (Hnw1 : (Cmod nw' <= W + eps)%R).
    { replace nw' with (Cplus (Cminus nw' mw) mw) by ring. eapply Rle_trans; [apply Cmod_triangle|]. lra. }
    replace (Cminus (Cmult nw' (Cmult w' v)) (Cmult (Cmult mw r) v))
      with (Cmult v (Cplus (Cmult nw' (Cminus w' r)) (Cmult r (Cminus nw' mw)))) by ring.
    rewrite Cmod_mult.
    assert (Hsum : (Cmod (Cplus (Cmult nw' (Cminus w' r)) (Cmult r (Cminus nw' mw))) <= mkerr tau W)%R).
    { eapply Rle_trans; [apply Cmod_triangle|]. rewrite !Cmod_mult. unfold mkerr.
      pose proof (Cmod_ge_0 nw'). pose proof (Cmod_ge_0 (Cminus w' r)).
      pose proof (Cmod_ge_0 r). pose proof (Cmod_ge_0 (Cminus nw' mw)).
      assert (Cmod nw' * Cmod (Cminus w' r) <= (W + eps) * (2 * eps))%R by (apply Rmult_le_compat; auto).
      assert (Cmod r * Cmod (Cminus nw' mw) <= 1 * eps)%R by (apply Rmult_le_compat; auto).
      lra. }
    pose proof (Cmod_ge_0 v).
    pose proof (Cmod_ge_0 (Cplus (Cmult nw' (Cminus w' r)) (Cmult r (Cminus nw' mw)))). nra.
Qed.

(* the value of the edge {nw', registered node at level q} *)
Lemma val_node k t q a nd (w : C) ix : reg k t a nd -> nv nd = Z.of_nat q ->
  val k t (S q) (E w (Node a)) ix = Cmult w (val k t q (nth (ix q) (nch nd) zeroE) ix).
Proof. intros Hr Hv. unfold Wf.val at 1. cbn [ew en]. rewrite (valp_S_node tau k t q a nd) by auto. reflexivity. Qed.

(* the common tail of makeVEdge and normalizeM *)
Lemma round_one (x : C) : (Cmod (Cminus (if isone x then c1 else x : C) x) <= eps)%R.
Proof.
  pose proof (eps_pos tau). destruct (isone x) eqn:Ho.
  - apply isone_true in Ho; [|lra]. rewrite <- Cmod_opp.
    change (@c1 (RNum tau)) with (RtoC 1).
    replace (Copp (Cminus (RtoC 1) x)) with (Cminus x (RtoC 1)) by ring. exact Ho.
  - replace (Cminus x x) with (RtoC 0) by ring. rewrite Cmod_0. lra.
Qed.

Definition ch_F (Fs : list ((nat -> nat) -> C)) (q : nat) (ix : nat -> nat) : C :=
  nth (ix q) (map (fun F => F ix) Fs) (RtoC 0).

Lemma wpr_tail k q s (ch : list edge) mw imax W (Fs : list ((nat -> nat) -> C)) (test : node -> bool) :
  Inv s -> Z.of_nat q < NQUBITS -> length ch = arity k -> length Fs = length ch ->
  (forall c, In c ch -> wfe k (tb s k) q c) ->
  (forall i ix, (i < length ch)%nat -> val k (tb s k) q (nth i ch zeroE) ix = nth i Fs (fun _ => RtoC 0) ix) ->
  fmax ch imax mw -> mw <> RtoC 0 -> (Cmod mw <= W)%R ->
  (forall nd, nv nd = Z.of_nat q -> test nd = true) ->
  (k = KM -> tau = 0%R -> strippable tau (norm_child mw (nth 0 ch zeroE)) (norm_child mw (nth 1 ch zeroE))
     (norm_child mw (nth 2 ch zeroE)) (norm_child mw (nth 3 ch zeroE)) = false) ->
  wpr tau (CIntern k (Nd (Z.of_nat q) (map (norm_child mw) ch)) (fun p =>
             CRead k p (fun nd => if test nd then CRet (E (if isone mw then c1 else mw) p) else CFail)))
      (dn k (S q) (ch_F Fs q) (mkerr tau W)) s.
Proof.
  intros HI Hq Hlen HlF Hwf HF Hmax Hnz HW Htest Hstrip.
  apply wpr_intern; auto.
  { apply (norm_nodeok k q (tb s k) ch mw imax); auto. }
  intros b nd' s2 Hr Hreg Heq. pose proof (rel_inv _ _ _ Hr) as HI2.
  apply andb_prop in Heq as [Hv Heq]. cbn [nv nch] in Hv, Heq. apply Z.eqb_eq in Hv. symmetry in Hv.
  apply wpr_read with (nd := nd'); auto. rewrite Htest by auto.
  assert (Hdn : dn k (S q) (ch_F Fs q) (mkerr tau W) (E (if isone mw then c1 else mw) (Node b)) s2).
  2:{ apply wpr_ret. intros s' Hr'. eapply dn_stable; eauto. }
  assert (He : ext tau k (tb s k) (tb s2 k)) by apply (rel_ext _ _ _ k Hr).
  assert (Hwf2 : forall c, In c ch -> wfe k (tb s2 k) q c) by (intros; eapply wfe_ext; eauto).
  split.
  - left. cbn [en]. destruct k; cbn; [|right]; exists b, nd'; (split; [auto|split; [auto|lia]]).
  - intros ix. rewrite (val_node k (tb s2 k) q b nd') by auto.
    replace (ch_F Fs q ix) with (val k (tb s2 k) q (nth (ix q) ch zeroE) ix).
    2:{ unfold ch_F. destruct (Nat.lt_ge_cases (ix q) (length ch)) as [Hi|Hi].
        - rewrite (val_ext tau k (tb s k)); auto; [|apply HI|apply Hwf; now apply nth_In].
          rewrite HF by auto.
          now rewrite nth_mapF.
        - rewrite !nth_overflow by (rewrite ?map_length; lia). apply val_zeroE. }
    destruct Hmax as (Hi & Hw & Hall & Hlt).
    apply norm_value with (mw := mw); auto.
    + apply HI2.
    + intros c Hc. apply (In_nth _ _ zeroE) in Hc as (j & Hj & <-). now apply Hall.
    + apply (no_zero tau k (tb s2 k)). eapply reg_ok; eauto. apply HI2.
    + apply round_one.
Qed.

Lemma dn_zero k q s (ch : list edge) (Fs : list ((nat -> nat) -> C)) W :
  Inv s -> length Fs = length ch -> (0 <= W)%R ->
  (forall c, In c ch -> wfe k (tb s k) q c) ->
  (forall i ix, (i < length ch)%nat -> val k (tb s k) q (nth i ch zeroE) ix = nth i Fs (fun _ => RtoC 0) ix) ->
  (forall c, In c ch -> (Cmod (ew c) <= eps)%R) ->
  dn k (S q) (ch_F Fs q) (mkerr tau W) zeroE s.
Proof.
  intros HI HlF HW Hwf HF Hs. pose proof (eps_pos tau) as He. split; [apply wfe_zero|].
  intros ix. rewrite val_zeroE. rewrite <- Cmod_opp.
  replace (Copp (Cminus (RtoC 0) (ch_F Fs q ix))) with (ch_F Fs q ix) by ring.
  assert (Hm : (eps <= mkerr tau W)%R).
  { unfold mkerr. assert (0 <= eps * (W + eps))%R by (apply Rmult_le_pos; lra). lra. }
  unfold ch_F. destruct (Nat.lt_ge_cases (ix q) (length ch)) as [Hi|Hi].
  - rewrite nth_mapF. rewrite <- HF by auto. assert (Hin : In (nth (ix q) ch zeroE) ch) by (now apply nth_In).
    eapply Rle_trans; [apply (val_le tau); [apply HI|auto]|]. specialize (Hs _ Hin). lra.
  - rewrite nth_overflow by (rewrite map_length; lia). rewrite Cmod_0. lra.
Qed.

Theorem wpr_makeVEdge q s e0 e1 F0 F1 W :
  Inv s -> Z.of_nat q < NQUBITS ->
  wfe KV (tb s KV) q e0 -> wfe KV (tb s KV) q e1 ->
  (forall ix, val KV (tb s KV) q e0 ix = F0 ix) -> (forall ix, val KV (tb s KV) q e1 ix = F1 ix) ->
  (Cmod (ew e0) <= W)%R -> (Cmod (ew e1) <= W)%R ->
  wpr tau (makeVEdge (Z.of_nat q) e0 e1) (dn KV (S q) (ch_F [F0; F1] q) (mkerr tau W)) s.
Proof.
  intros HI Hq Hw0 Hw1 HF0 HF1 HW0 HW1. unfold makeVEdge.
  assert (HWp : (0 <= W)%R) by (pose proof (Cmod_ge_0 (ew e0)); lra).
  set (ch := [e0; e1]).
  assert (Hwf : forall c, In c ch -> wfe KV (tb s KV) q c) by (intros c [<-|[<-|[]]]; auto).
  assert (HF : forall i ix, (i < length ch)%nat -> val KV (tb s KV) q (nth i ch zeroE) ix = nth i [F0; F1] (fun _ => RtoC 0) ix).
  { intros [|[|i]] ix Hi; cbn in *; auto. lia. }
  assert (Hzero : (forall c, In c ch -> (Cmod (ew c) <= eps)%R) ->
     wpr tau (CScratch KV (Nd (Z.of_nat q) ch) (CRet zeroE)) (dn KV (S q) (ch_F [F0; F1] q) (mkerr tau W)) s).
  { intros Hs. apply wpr_scratch; auto. apply wpr_ret. intros s' Hr. eapply dn_stable; eauto.
    apply (dn_zero KV q s ch); auto. }
  destruct (iszero (ew e0) && iszero (ew e1)) eqn:Hz.
  { apply andb_prop in Hz as [Hz0 Hz1]. apply Hzero. intros c [<-|[<-|[]]]; now apply iszero_true. }
  set (mx1 := nltb (norm2 (ew e0)) (norm2 (ew e1))).
  set (emax := if mx1 then e1 else e0). set (emin := if mx1 then e0 else e1).
  assert (Hmax : fmax ch (if mx1 then 1%nat else 0%nat) (ew emax)).
  { unfold emax. destruct mx1 eqn:Hc; unfold mx1 in Hc.
    - apply nltb_norm2 in Hc. split; [cbn; lia|]. split; [reflexivity|]. split.
      + intros [|[|j]] Hj; cbn in *; try lra; lia.
      + intros [|j] Hj; cbn in *; [lra|lia].
    - assert (Hc' : (Cmod (ew e1) <= Cmod (ew e0))%R).
      { destruct (Rle_lt_dec (Cmod (ew e1)) (Cmod (ew e0))) as [h|h]; auto.
        apply nltb_norm2 in h. congruence. }
      split; [cbn; lia|]. split; [reflexivity|]. split.
      + intros [|[|j]] Hj; cbn in *; try lra; lia.
      + intros j Hj; lia. }
  assert (Hcm : cmul (ew emax) c1 = ew emax).
  { change (@eq C (Cmult (ew emax) (RtoC 1)) (ew emax)). ring. }
  rewrite Hcm.
  destruct (iszero (ew emax)) eqn:Hz2.
  { apply Hzero. apply iszero_true in Hz2. intros c Hc. destruct Hmax as (_ & _ & Hall & _).
    apply (In_nth _ _ zeroE) in Hc as (j & Hj & <-). eapply Rle_trans; [now apply Hall|exact Hz2]. }
  assert (Hnz : ew emax <> RtoC 0).
  { intros H. rewrite (iszero_0 tau _ (proj1 Htau) H) in Hz2. discriminate. }
  (* the children written are exactly norm_child of the originals *)
  match goal with |- wpr _ (CIntern _ (Nd _ ?x) _) _ _ => set (ch' := x) end.
  assert (Hch : ch' = map (norm_child (ew emax)) ch).
  { assert (Hmx : norm_child (ew emax) emax = E c1 (en emax)).
    { pose proof (norm_max ch (ew emax) _ Hmax Hnz) as H. 
      replace (nth (if mx1 then 1%nat else 0%nat) ch zeroE) with emax in H; auto.
      unfold emax, ch. destruct mx1; reflexivity. }
    assert (Hmn : (let sw := cdiv (ew emin) (ew emax) in
                   if isone sw then E c1 (en emin) else if iszero sw then zeroE else E sw (en emin))
                  = norm_child (ew emax) emin).
    { unfold norm_child. cbn zeta. destruct (isone (cdiv (ew emin) (ew emax))) eqn:Ho; auto.
      destruct (iszero (cdiv (ew emin) (ew emax))) eqn:Hz3; auto.
      exfalso. eapply iszero_isone; eauto. }
    cbn zeta in Hmn. subst ch'. rewrite Hmn, <- Hmx. unfold ch, emax, emin. destruct mx1; reflexivity. }
  rewrite Hch.
  apply (wpr_tail KV q s ch (ew emax) (if mx1 then 1%nat else 0%nat) W [F0; F1] (fun nd => nv nd =? Z.of_nat q)); auto.
  - unfold emax. destruct mx1; auto.
  - intros nd ->. apply Z.eqb_refl.
  - discriminate.
Qed.

Theorem wpr_makeMEdge q s a b c d Fa Fb Fc Fd W :
  Inv s -> Z.of_nat q < NQUBITS ->
  wfe KM (tb s KM) q a -> wfe KM (tb s KM) q b -> wfe KM (tb s KM) q c -> wfe KM (tb s KM) q d ->
  (forall ix, val KM (tb s KM) q a ix = Fa ix) -> (forall ix, val KM (tb s KM) q b ix = Fb ix) ->
  (forall ix, val KM (tb s KM) q c ix = Fc ix) -> (forall ix, val KM (tb s KM) q d ix = Fd ix) ->
  (Cmod (ew a) <= W)%R -> (Cmod (ew b) <= W)%R -> (Cmod (ew c) <= W)%R -> (Cmod (ew d) <= W)%R ->
  wpr tau (makeMEdge (Z.of_nat q) a b c d) (dn KM (S q) (ch_F [Fa; Fb; Fc; Fd] q) (mkerr tau W)) s.
Proof.
  intros HI Hq Ha Hb Hc Hd HFa HFb HFc HFd HWa HWb HWc HWd.
  assert (HWp : (0 <= W)%R) by (pose proof (Cmod_ge_0 (ew a)); lra).
  pose proof (eps_pos tau) as Heps.
  assert (Hmk : (eps <= mkerr tau W)%R).
  { unfold mkerr. assert (0 <= eps * (W + eps))%R by (apply Rmult_le_pos; lra). lra. }
  assert (HT : TInv KM (tb s KM)) by apply HI.
  unfold makeMEdge. destruct (_ && _ && _ && _) eqn:Hstrip.
  { (* the level is an identity: return the common diagonal block *)
    apply andb_prop in Hstrip as [H H4]. apply andb_prop in H as [H H3]. apply andb_prop in H as [H1 H2].
    apply ptr_eqb_eq in H1. apply iszero_true in H2, H3. apply isequal_true in H4; [|lra].
    apply wpr_ret. intros s' Hr. eapply dn_stable; eauto. split.
    { eapply wfe_KM_up; [|exact Ha]. lia. }
    intros ix. rewrite (val_KM_up tau) by auto. unfold ch_F. cbn [map].
    assert (Hoff : forall e F, wfe KM (tb s KM) q e -> (forall ix, val KM (tb s KM) q e ix = F ix) ->
              (Cmod (ew e) <= 2 * tau)%R -> (Cmod (Cminus (Cmult (RtoC 0) (val KM (tb s KM) q a ix)) (F ix)) <= mkerr tau W)%R).
    { intros e F He HFe Hle. rewrite <- HFe. rewrite <- Cmod_opp.
      replace (Copp (Cminus (Cmult (RtoC 0) (val KM (tb s KM) q a ix)) (val KM (tb s KM) q e ix)))
        with (val KM (tb s KM) q e ix) by ring.
      eapply Rle_trans; [apply (val_le tau); auto|]. unfold Err.eps in *. lra. }
    destruct (ix q) as [|[|[|[|i]]]]; cbn [nth diag4].
    - rewrite HFa. replace (Cminus (Cmult (RtoC 1) (Fa ix)) (Fa ix)) with (RtoC 0) by ring. rewrite Cmod_0. lra.
    - now apply (Hoff b).
    - now apply (Hoff c).
    - rewrite <- HFd. unfold Wf.val. rewrite <- H1.
      replace (Cminus (Cmult (RtoC 1) (Cmult (ew a) (valp KM (tb s KM) q (en a) ix))) (Cmult (ew d) (valp KM (tb s KM) q (en a) ix)))
        with (Cmult (Cminus (ew a) (ew d)) (valp KM (tb s KM) q (en a) ix)) by ring.
      rewrite Cmod_mult.
      assert (Hv1 : (Cmod (valp KM (tb s KM) q (en a) ix) <= 1)%R).
      { apply (valp_le1 tau); auto. destruct Ha as [|[_ ?]]; auto. }
      pose proof (Cmod_ge_0 (Cminus (ew a) (ew d))). pose proof (Cmod_ge_0 (valp KM (tb s KM) q (en a) ix)).
      unfold Err.eps in *. nra.
    - destruct i; cbn [nth]; replace (Cminus (Cmult (RtoC 0) (val KM (tb s KM) q a ix)) (RtoC 0)) with (RtoC 0) by ring;
        rewrite Cmod_0; lra. }
  unfold normalizeM. set (ch := [a; b; c; d]).
  assert (Hwf : forall x, In x ch -> wfe KM (tb s KM) q x) by (intros x [<-|[<-|[<-|[<-|[]]]]]; auto).
  assert (HWc' : forall x, In x ch -> (Cmod (ew x) <= W)%R) by (intros x [<-|[<-|[<-|[<-|[]]]]]; auto).
  assert (HF : forall i ix, (i < length ch)%nat -> val KM (tb s KM) q (nth i ch zeroE) ix = nth i [Fa; Fb; Fc; Fd] (fun _ => RtoC 0) ix).
  { intros [|[|[|[|i]]]] ix Hi; cbn in *; auto. lia. }
  assert (Hzero : (forall x, In x ch -> (Cmod (ew x) <= eps)%R) ->
     wpr tau (CScratch KM (Nd (Z.of_nat q) ch) (CRet zeroE)) (dn KM (S q) (ch_F [Fa; Fb; Fc; Fd] q) (mkerr tau W)) s).
  { intros Hs. apply wpr_scratch; auto. apply wpr_ret. intros s' Hr. eapply dn_stable; eauto.
    apply (dn_zero KM q s ch); auto. }
  destruct (forallb (fun e => isnull (ew e)) ch) eqn:Hnull.
  { apply Hzero. intros x Hx. rewrite forallb_forall in Hnull. apply Hnull, isnull_spec in Hx.
    rewrite Hx. change (@c0 (RNum tau)) with (RtoC 0). rewrite Cmod_0. lra. }
  destruct (max_elt_spec a [b; c; d]) as (i & Hmax). change (a :: [b; c; d]) with ch in Hmax.
  set (mw := ew (max_elt a [b; c; d])) in *.
  assert (Hcm : cmul mw c1 = mw).
  { change (@eq C (Cmult mw (RtoC 1)) mw). ring. }
  rewrite Hcm.
  destruct (iszero mw) eqn:Hz2.
  { apply Hzero. apply iszero_true in Hz2. intros x Hx. destruct Hmax as (_ & _ & Hall & _).
    apply (In_nth _ _ zeroE) in Hx as (j & Hj & <-). eapply Rle_trans; [now apply Hall|exact Hz2]. }
  assert (Hnz : mw <> RtoC 0).
  { intros H. rewrite (iszero_0 tau _ (proj1 Htau) H) in Hz2. discriminate. }
  apply (wpr_tail KM q s ch mw i W [Fa; Fb; Fc; Fd] (fun nd => -1 <=? nv nd)); auto.
  - destruct Hmax as (Hi & <- & _). apply HWc'. now apply nth_In.
  - intros nd ->. apply Z.leb_le. lia.
  - intros _ Ht. cbn [nth ch]. apply not_true_is_false. intros H. unfold strippable in H.
    apply andb_prop in H as [H h4]. apply andb_prop in H as [H h3]. apply andb_prop in H as [h1 h2].
    apply ptr_eqb_eq in h1. apply (iszero_ex tau _ Ht) in h2. apply (iszero_ex tau _ Ht) in h3.
    apply (isequal_ex tau _ _ Ht) in h4.
    (* at tolerance 0 norm_child only rescales *)
    assert (Hw : forall x, ew (norm_child mw x) = Cdiv (ew x) mw).
    { intros x. unfold norm_child.
      rewrite (cdiv_C tau (ew x) mw).
      destruct (iszero (Cdiv (ew x) mw)) eqn:E1; [now apply (iszero_ex tau) in E1|].
      destruct (isone (Cdiv (ew x) mw)) eqn:E2; [now apply (isone_ex tau) in E2|reflexivity]. }
    assert (Hz0 : forall x, ew (norm_child mw x) = c0 -> ew x = c0).
    { intros x H. rewrite Hw in H. change (@eq C (ew x) (RtoC 0)).
      rewrite <- (Cdiv_mul (ew x) mw) by auto. rewrite H. change (@c0 (RNum tau)) with (RtoC 0). ring. }
    apply Hz0 in h2. apply Hz0 in h3. rewrite !Hw in h4.
    assert (Had : ew a = ew d).
    { change (@eq C (ew a) (ew d)). rewrite <- (Cdiv_mul (ew a) mw), <- (Cdiv_mul (ew d) mw) by auto. congruence. }
    destruct (norm_child_en mw a) as [Hza|(Hea & Hna & _)].
    + (* everything is zero: contradiction with Hnull *)
      assert (Ha0 : ew a = c0) by (apply Hz0; rewrite Hza; reflexivity).
      assert (Hall : forallb (fun e => isnull (ew e)) ch = true).
      { unfold ch. cbn [forallb]. rewrite <- Had, Ha0, h2, h3.
        assert (isnull c0 = true) as -> by (now apply isnull_spec). reflexivity. }
      congruence.
    + destruct (norm_child_en mw d) as [Hzd|(Hed & Hnd & _)].
      * apply Hna. rewrite Had. apply Hz0. rewrite Hzd. reflexivity.
      * rewrite Hea, Hed in h1.
        assert (ptr_eqb (en a) (en d) && iszero (ew b) && iszero (ew c) && isequal (ew a) (ew d) = true).
        { rewrite h1, ptr_eqb_refl, h2, h3, Had, isequal_refl, iszero_c0 by lra. reflexivity. }
        congruence.
Qed.
End Make.
