(* FpRead.v -- getVector over a rounded arithmetic (follows Readout.v). *)
From Coq Require Import Reals Lra Psatz ZArith NArith Bool List Lia.
From Coquelicot Require Import Complex.
From Verif Require Import Num State DD Gates RNum Wf Sums Err Inv Wp Make Add MulV GateP Spec Readout FpA FpE FpW FpM FpAdd FpMul FpGate.
Import ListNotations.
Open Scope nat_scope.

(* error of reading n levels: P bounds the product of the weights met so far *)
Section FpRead.
Context {NO : NumOps} {AC : Accur NO} {CF : Cfg}.
Notation dl := (@dl NO AC).
Notation Gr := (@Gr NO AC).
Notation Gp := (@Gp NO AC).

Fixpoint erd (n : nat) (P : R) : R :=
  match n with
  | O => (dl * (P + 1))%R
  | S m => (dl * (P + 1) * (Gr * Gp m) + erd m (Gr * (Gr * P + dl)))%R
  end.
Lemma erd_pos n : forall P, (0 <= P -> 0 <= erd n P)%R.
Proof.
  induction n as [|n IH]; intros P HP; cbn [erd]; pose proof dl_pos as Hd; pose proof Gr_ge1 as Hg.
  - apply Rmult_le_pos; [exact Hd|lra].
  - pose proof (Grp n) as Hp. apply Rplus_le_le_0_compat.
    + apply Rmult_le_pos; [apply Rmult_le_pos; [exact Hd|lra]|apply Rmult_le_pos; [lra|exact Hp]].
    + apply IH. apply Rmult_le_pos; [lra|]. apply Rplus_le_le_0_compat; [apply Rmult_le_pos; lra|exact Hd].
Qed.
Lemma erd_mono n : forall P P', (0 <= P <= P' -> erd n P <= erd n P')%R.
Proof.
  induction n as [|n IH]; intros P P' HP; cbn [erd]; pose proof dl_pos as Hd; pose proof Gr_ge1 as Hg.
  - apply Rmult_le_compat_l; [exact Hd|lra].
  - pose proof (Grp n) as Hp. apply Rplus_le_compat.
    + apply Rmult_le_compat_r; [apply Rmult_le_pos; [lra|exact Hp]|]. apply Rmult_le_compat_l; [exact Hd|lra].
    + apply IH. split.
      * apply Rmult_le_pos; [lra|]. apply Rplus_le_le_0_compat; [apply Rmult_le_pos; lra|exact Hd].
      * apply Rmult_le_compat_l; [lra|]. apply Rplus_le_compat_r. apply Rmult_le_compat_l; lra.
Qed.
Lemma erd_exact n : dl = 0%R -> forall P, erd n P = 0%R.
Proof. intros H. induction n as [|n IH]; intros P; cbn [erd]; rewrite ?IH; rewrite H; ring. Qed.

Lemma vfill_spec (m : vec) row cnt x j :
  vfill m row cnt x j = if ((row <=? j) && (j <? row + N.of_nat cnt))%N then x else m j.
Proof.
  induction cnt as [|c IH]; cbn [vfill].
  - replace ((row <=? j) && (j <? row + N.of_nat 0))%N with false; auto. symmetry. apply andb_false_iff.
    destruct (N.leb_spec row j); auto. right. apply N.ltb_ge. lia.
  - unfold vupd. rewrite IH. destruct (N.eqb_spec (row + N.of_nat c) j) as [<-|Hne].
    + replace (row <=? row + N.of_nat c)%N with true by (symmetry; apply N.leb_le; lia).
      replace (row + N.of_nat c <? row + N.of_nat (S c))%N with true by (symmetry; apply N.ltb_lt; lia). reflexivity.
    + destruct (N.leb_spec row j); cbn [andb]; auto.
      destruct (N.ltb_spec j (row + N.of_nat c)), (N.ltb_spec j (row + N.of_nat (S c))); auto; lia.
Qed.

Lemma readn_node (s : state) k a nd : reg k (tb s k) a nd -> readn k (Node a) s = Some nd.
Proof. intros [H _]. exact H. Qed.


Lemma fillVector_spec s : TInv KV (tb s KV) -> forall n e row w m P, wfe KV (tb s KV) n e ->
  (0 <= P)%R -> (Cmod (cv (ew e)) * Cmod (cv w) <= P)%R ->
  exists m', fillVector s n e row w m = Some m' /\
    forall j, if inblk n row j
      then (Cmod (Cminus (cv (m' j)) (Cmult (cv w) (val KV (tb s KV) n e (nbix j)))) <= erd n P)%R
      else m' j = m j.
Proof.
  intros HT. induction n as [|n IH]; intros e row w m P He HP HB; cbn [fillVector].
  - assert (Hp : en e = Term) by (destruct He as [h|[_ h]]; auto). rewrite Hp. cbn [is_term].
    eexists. split; [reflexivity|]. intros j. unfold vupd. rewrite inblk_0. destruct (row =? j)%N; auto.
    unfold FpA.val. change (FpA.valp KV (tb s KV) 0 (en e) (nbix j)) with (RtoC 1).
    replace (Cmult (cv w) (Cmult (cv (ew e)) (RtoC 1))) with (Cmult (cv w) (cv (ew e))) by ring.
    eapply Rle_trans; [|cbn [erd]; apply Rmult_le_compat_l; [apply dl_pos|apply Rplus_le_compat_r; exact HB]].
    first [ eapply Rle_trans; [apply cmul_err|]; apply Req_le; ring
          | replace (Cmult (cv w) (cv (ew e))) with (Cmult (cv (ew e)) (cv w)) by ring; apply cmul_err ].
  - destruct (is_term (en e)) eqn:Ht.
    + assert (Hp : en e = Term) by (destruct (en e); (discriminate Ht || auto)).
      assert (Hw : cv (ew e) = RtoC 0).
      { destruct He as [(a & nd & h & _)|[h _]]; auto. rewrite Hp in h. discriminate. }
      eexists. split; [reflexivity|]. intros j. rewrite vfill_spec, N.shiftl_mul_pow2, <- inblk_range.
      destruct (inblk (S n) row j); auto. unfold FpA.val. rewrite Hw.
      first [rewrite cmul_zl by exact Hw | rewrite cmul_zr by exact Hw].
      replace (Cminus (RtoC 0) (Cmult (cv w) (Cmult (RtoC 0) (FpA.valp KV (tb s KV) (S n) (en e) (nbix j))))) with (RtoC 0) by ring.
      rewrite Cmod_0. now apply erd_pos.
    + destruct He as [(a & nd & Hp & Hr & Hv)|[_ h]]; [|rewrite h in Ht; discriminate].
      rewrite Hp, (readn_node s KV a nd Hr). pose proof (reg_ok _ _ _ _ HT Hr) as Hok.
      destruct (nch nd) as [|c0' [|c1' [|]]] eqn:Hch; try (pose proof (no_len _ _ _ Hok) as Hl; rewrite Hch in Hl; discriminate).
      assert (Hw : forall c, In c (nch nd) -> wfe KV (tb s KV) n c).
      { intros c Hc. pose proof (no_wf _ _ _ Hok c Hc) as h. now rewrite Hv, Nat2Z.id in h. }
      assert (Hle : forall c, In c (nch nd) -> (Cmod (cv (ew c)) <= Gr)%R) by (exact (no_le1 _ _ _ Hok)).
      rewrite Hch in Hw, Hle. cbn [nth].
      replace (N.shiftl row 1) with (2 * row)%N by (rewrite N.shiftl_mul_pow2; change (2 ^ 1)%N with 2%N; lia).
      set (w' := cmul (ew e) w).
      pose proof (cmul_err (ew e) w) as Hm. fold w' in Hm.
      pose proof dl_pos as Hd. pose proof Gr_ge1 as Hg. pose proof (Grp n) as Hpn.
      assert (Hm' : (Cmod (Cminus (cv w') (Cmult (cv (ew e)) (cv w))) <= dl * (P + 1))%R).
      { eapply Rle_trans; [exact Hm|]. apply Rmult_le_compat_l; [exact Hd|lra]. }
      assert (Hw' : (Cmod (cv w') <= Gr * P + dl)%R).
      { apply Cmod_sub_le in Hm'. rewrite Cmod_mult in Hm'. unfold FpA.Gr.
        replace ((1 + dl) * P + dl)%R with (P + dl * (P + 1))%R by ring. lra. }
      set (P' := (Gr * (Gr * P + dl))%R).
      assert (HP' : (0 <= P')%R).
      { unfold P'. apply Rmult_le_pos; [lra|]. apply Rplus_le_le_0_compat; [apply Rmult_le_pos; lra|exact Hd]. }
      assert (Hc : forall c, (Cmod (cv (ew c)) <= Gr)%R -> (Cmod (cv (ew c)) * Cmod (cv w') <= P')%R).
      { intros c h. unfold P'. apply Rmult_le_compat; auto using Cmod_ge_0. }
      destruct (IH c0' (2 * row)%N w' m P') as (m1 & -> & H1); [apply Hw; cbn; auto|exact HP'|apply Hc, Hle; cbn; auto|].
      destruct (IH c1' (2 * row + 1)%N w' m1 P') as (m2 & -> & H2); [apply Hw; cbn; auto|exact HP'|apply Hc, Hle; cbn; auto|].
      eexists. split; [reflexivity|]. intros j. specialize (H1 j). specialize (H2 j). rewrite inblk_S.
      assert (Hval : val KV (tb s KV) (S n) e (nbix j) =
        Cmult (cv (ew e)) (val KV (tb s KV) n (nth (nbix j n) (nch nd) zeroE) (nbix j))).
      { unfold FpA.val at 1. rewrite Hp. now rewrite (valp_S_node _ _ n a nd) by auto. }
      assert (Hstep : forall c, In c [c0'; c1'] -> forall x,
        (Cmod (Cminus x (Cmult (cv w') (val KV (tb s KV) n c (nbix j)))) <= erd n P')%R ->
        (Cmod (Cminus x (Cmult (cv w) (Cmult (cv (ew e)) (val KV (tb s KV) n c (nbix j))))) <= erd (S n) P)%R).
      { intros c Hin x Hx. cbn [erd]. fold P'. rewrite Rplus_comm. eapply Cmod_tri3; [exact Hx|].
        replace (Cminus (Cmult (cv w') (val KV (tb s KV) n c (nbix j))) (Cmult (cv w) (Cmult (cv (ew e)) (val KV (tb s KV) n c (nbix j)))))
          with (Cmult (Cminus (cv w') (Cmult (cv (ew e)) (cv w))) (val KV (tb s KV) n c (nbix j))) by ring.
        rewrite Cmod_mult. apply Rmult_le_compat; auto using Cmod_ge_0.
        eapply Rle_trans; [apply val_le; auto|]. apply Rmult_le_compat_r; auto. }
      rewrite Hval, Hch. rewrite (nbix_bit j n).
      destruct (N.testbit j (N.of_nat n)) eqn:Hb; cbn [nth].
      * destruct (inblk n (2 * row + 1) j); [apply Hstep; cbn; auto|].
        destruct (inblk n (2 * row) j) eqn:Hi; [apply inblk_not in Hi; congruence|congruence].
      * destruct (inblk n (2 * row + 1) j) eqn:Hi; [apply inblk_not1 in Hi; congruence|].
        rewrite H2. destruct (inblk n (2 * row) j); [apply Hstep; cbn; auto|auto].
Qed.

Theorem getVector_spec s n e : TInv KV (tb s KV) -> wfp KV (tb s KV) n (en e) -> 1 <= n <= 30 ->
  exists v, getVector s e = Some v /\ length v = 2 ^ n /\
    forall i, i < 2 ^ n ->
      (Cmod (Cminus (cv (nth i v c0)) (val KV (tb s KV) n e (bix i))) <= erd n (Cmod (cv (ew e))))%R.
Proof.
  intros HT Hw Hn. destruct n as [|n]; [lia|]. destruct Hw as (a & nd & Hp & Hr & Hv) eqn:Hw'.
  unfold getVector. rewrite Hp. cbn [is_term]. unfold getVar. rewrite (readn_node s KV a nd Hr), Hv.
  replace (shift_ok (Z.of_nat n + 1)) with true.
  2:{ symmetry. unfold shift_ok. apply andb_true_iff. split; [apply Z.leb_le|apply Z.ltb_lt]; lia. }
  replace (Z.to_nat (Z.of_nat n + 1)) with (S n) by lia.
  destruct (fillVector_spec s HT (S n) e 0%N c1 (fun _ => c0) (Cmod (cv (ew e)))) as (m' & -> & Hm);
    [left; exact Hw|apply Cmod_ge_0|rewrite cv_1, Cmod_1; lra|].
  eexists. split; [reflexivity|]. split; [now rewrite map_length, seq_length|]. intros i Hi.
  rewrite (nth_indep _ c0 (m' (N.of_nat 0))) by (now rewrite map_length, seq_length).
  rewrite (map_nth (fun i => m' (N.of_nat i)) (seq 0 (2 ^ S n)) 0 i), seq_nth by auto. cbn [Nat.add].
  specialize (Hm (N.of_nat i)).
  replace (inblk (S n) 0 (N.of_nat i)) with true in Hm.
  2:{ symmetry. rewrite inblk_range. rewrite N.mul_0_l. apply andb_true_iff. split; [apply N.leb_le; lia|].
      apply N.ltb_lt. lia. }
  unfold nbix in Hm. rewrite Nat2N.id, cv_1, Cmult_1_l in Hm. exact Hm.
Qed.
End FpRead.
