(* MeasOneP.v -- determineMeasurementProbabilities: the breadth-first sum gives
   the marginal distribution of one qubit. *)
From Coq Require Import Reals Lra Psatz ZArith Bool List Lia Arith.
From Coquelicot Require Import Complex.
From Verif Require Import Num State DD Gates Measure RNum Wf Sums Err Inv Wp Make Add MulV Canon GateP StateP Spec Readout MeasureP.
Import ListNotations.
Open Scope Z_scope.

Section MeasOneP.
Context (tau : R) {HTol : Tol tau}.
Let Htau : (0 <= tau < 1 / 2)%R := tol_ok.
#[local] Hint Extern 0 NumOps => exact (RNum tau) : typeclass_instances.
Context {CF : Cfg}.
Notation table := (@table (RNum tau)).
Notation state := (@state (RNum tau)).
Notation edge := (@edge (RNum tau)).
Notation node := (@node (RNum tau)).
Notation val := (val tau).
Notation valp := (valp tau).
Notation wfe := (wfe tau).
Notation wfp := (wfp tau).
Notation reg := (reg tau).
Notation TInv := (TInv tau).
Notation Inv := (Inv tau).
Notation rel := (rel tau).
Notation psum := (psum tau).
Notation chd := (chd tau).
Notation pext := (pext tau).
Notation E := (@E (RNum tau)).
Ltac toR := change (@num (RNum tau)) with R in *.

(* weight of the assignments below p in which level ii has value b *)
Definition hb (t : table) (ii l : nat) (p : ptr) (b : nat) : R :=
  rbsum l (fun ix => if Nat.eqb (ix ii) b then (Cmod (valp KV t l p ix) ^ 2)%R else 0%R).

Lemma hb_step t ii m a nd b : reg KV t a nd -> nv nd = Z.of_nat m -> (ii < m)%nat ->
  hb t ii (S m) (Node a) b = (Cmod (ew (chd nd 0)) ^ 2 * hb t ii m (en (chd nd 0)) b +
                              Cmod (ew (chd nd 1)) ^ 2 * hb t ii m (en (chd nd 1)) b)%R.
Proof.
  intros Hr Hv Hi. unfold hb. cbn [rbsum].
  assert (H : forall c, rbsum m (fun ix => if Nat.eqb (ixset ix m c ii) b then (Cmod (valp KV t (S m) (Node a) (ixset ix m c)) ^ 2)%R else 0%R)
     = (Cmod (ew (chd nd c)) ^ 2 * rbsum m (fun ix => if Nat.eqb (ix ii) b then (Cmod (valp KV t m (en (chd nd c)) ix) ^ 2)%R else 0%R))%R).
  { intros c. rewrite <- rbsum_scal. apply rbsum_ext. intros ix. rewrite (ixset_other ix m c ii) by lia.
    destruct (Nat.eqb (ix ii) b); [|ring]. rewrite (valp_S_node tau KV t m a nd _ Hr Hv), ixset_same.
    rewrite (val_local tau KV t m _ (ixset ix m c) ix) by (intros l Hl; apply ixset_other; lia). apply val_sq. }
  rewrite (H 0%nat), (H 1%nat). reflexivity.
Qed.
Lemma hb_base t ii a nd b : reg KV t a nd -> nv nd = Z.of_nat ii -> (b < 2)%nat ->
  hb t ii (S ii) (Node a) b = (Cmod (ew (chd nd b)) ^ 2 * psum t ii (en (chd nd b)))%R.
Proof.
  intros Hr Hv Hb. unfold hb. cbn [rbsum].
  assert (H : forall c, rbsum ii (fun ix => if Nat.eqb (ixset ix ii c ii) b then (Cmod (valp KV t (S ii) (Node a) (ixset ix ii c)) ^ 2)%R else 0%R)
     = if Nat.eqb c b then (Cmod (ew (chd nd b)) ^ 2 * psum t ii (en (chd nd b)))%R else 0%R).
  { intros c. destruct (Nat.eqb_spec c b) as [->|Hc].
    - rewrite <- (psum_half tau t ii a nd b Hr Hv). apply rbsum_ext. intros ix. rewrite ixset_same, Nat.eqb_refl. reflexivity.
    - transitivity (rbsum ii (fun _ => 0 * 0)%R); [|rewrite rbsum_scal; ring].
      apply rbsum_ext. intros ix. rewrite ixset_same. destruct (Nat.eqb_spec c b); [contradiction|ring]. }
  rewrite (H 0%nat), (H 1%nat). destruct b as [|[|b]]; cbn [Nat.eqb]; [ring|ring|lia].
Qed.

Fixpoint qsum (f : ptr -> R) (q : list ptr) : R :=
  match q with [] => 0%R | p :: r => (f p + qsum f r)%R end.
Lemma qsum_app f a b : qsum f (a ++ b) = (qsum f a + qsum f b)%R.
Proof. induction a; cbn; [ring|]. rewrite IHa. ring. Qed.
Lemma qsum_ext f g q : (forall p, In p q -> f p = g p) -> qsum f q = qsum g q.
Proof. induction q as [|p r IH]; intros H; [reflexivity|]. cbn. rewrite (H p), IH; auto; [intros; apply H; right; auto|left; auto]. Qed.
Lemma qsum_upd f g x d q : NoDup q -> In x q -> g x = (f x + d)%R -> (forall p, p <> x -> g p = f p) ->
  qsum g q = (qsum f q + d)%R.
Proof.
  induction q as [|p r IH]; intros Hnd Hin Hx Ho; [destruct Hin|]. inversion Hnd; subst. cbn. destruct Hin as [->|Hin].
  - rewrite Hx. rewrite (qsum_ext g f r); [ring|]. intros y Hy. apply Ho. intros ->. contradiction.
  - rewrite IH by auto. rewrite (Ho p); [ring|]. intros ->. contradiction.
Qed.

Lemma wfp_lev t l l' p : wfp KV t l p -> wfp KV t l' p -> l = l'.
Proof.
  destruct l as [|l], l' as [|l']; intros H H'; auto.
  - cbn in H. destruct H' as (a & nd & E1 & _). congruence.
  - cbn in H'. destruct H as (a & nd & E1 & _). congruence.
  - destruct H as (a & nd & E1 & R1 & V1). destruct H' as (a' & nd' & E2 & R2 & V2).
    rewrite E1 in E2. inversion E2; subst a'. pose proof (reg_fun tau _ _ _ _ _ R1 R2). subst. lia.
Qed.

Section Bfs.
Context (s : state) (ii : nat) (HI : Inv s).
Let t := tb s KV.
Context (P : ptr -> Prop)
  (HP : forall a nd c, P (Node a) -> reg KV t a nd -> In c (nch nd) -> P (en c)).
Let HT : TInv KV t := inv_tb _ _ HI KV.

Record binv (L : nat) (pm : ptr -> option num) (vis B : list ptr) (acc : nat -> R) : Prop := {
  bi_nd : NoDup B;
  bi_wf : forall p, In p B -> wfp KV t L p /\ In p vis /\ P p;
  bi_vis : forall p, In p vis -> wfp KV t L p -> In p B;
  bi_vnd : NoDup vis;
  bi_vl : forall p, In p vis -> exists l, (L <= l)%nat /\ (1 <= l)%nat /\ wfp KV t l p;
  bi_sum : forall b, (b < 2)%nat -> qsum (fun p => (pmget pm p * hb t ii L p b)%R) B = acc b
}.

Lemma visit_spec L pm vis A B acc c (prob : R) : binv L pm vis B acc -> (1 <= L)%nat -> wfe KV t L c -> P (en c) ->
  (iszero (ew c) = true -> c = zeroE) ->
  exists pm' vis' B', visit prob c (pm, vis, A ++ B) = (pm', vis', A ++ B') /\
    binv L pm' vis' B' (fun b => (acc b + prob * (Cmod (ew c) ^ 2 * hb t ii L (en c) b))%R) /\
    (length vis' + length B = length vis + length B')%nat /\
    (forall p, ~ wfp KV t L p -> pm' p = pm p) /\
    (iszero (ew c) = false \/ B <> [] -> B' <> []).
Proof.
  intros HB HL Hc HPc Hz. unfold visit. destruct (iszero (ew c)) eqn:Hzc.
  - exists pm, vis, B. split; [reflexivity|]. split; [|split; [lia|split; [reflexivity|intros [X|X]; [discriminate|exact X]]]].
    destruct HB as [b1 b2 b3 b4 b5 b6]. constructor; auto. intros b Hb. rewrite (b6 b Hb). rewrite (Hz eq_refl). cbn [ew zeroE].
    change (@c0 (RNum tau)) with (RtoC 0). rewrite Cmod_0. ring.
  - assert (Hw : wfp KV t L (en c)).
    { apply (wfe_nz tau KV t L c Hc). intros X. rewrite X in Hzc. rewrite (iszero_c0' tau) in Hzc. discriminate. }
    set (tmp := @nmul (RNum tau) prob (norm2 (ew c))). assert (Htmp : tmp = (prob * Cmod (ew c) ^ 2)%R) by (unfold tmp; rewrite norm2_Cmod; reflexivity).
    destruct (existsb (ptr_eqb (en c)) vis) eqn:Hex.
    + apply existsb_exists in Hex. destruct Hex as (p & Hin & Hp). apply ptr_eqb_eq in Hp. subst p.
      exists (pmset pm (en c) (nadd (pmget pm (en c)) tmp)), vis, B. split; [reflexivity|].
      destruct HB as [b1 b2 b3 b4 b5 b6]. pose proof (b3 _ Hin Hw) as HinB.
      split; [constructor; auto|].
      { intros b Hb. rewrite <- (b6 b Hb).
        rewrite (qsum_upd (fun p => (pmget pm p * hb t ii L p b)%R) _ (en c) (tmp * hb t ii L (en c) b)%R B b1 HinB).
        - rewrite Htmp. ring.
        - unfold pmget at 1, pmset. rewrite ptr_eqb_refl. cbn [nadd RNum]. toR. ring.
        - intros p Hp. unfold pmget, pmset. destruct (ptr_eqb (en c) p) eqn:Hq; [|reflexivity]. apply ptr_eqb_eq in Hq. congruence. }
      split; [lia|]. split.
      { intros p Hp. unfold pmset. destruct (ptr_eqb (en c) p) eqn:Hq; [|reflexivity]. apply ptr_eqb_eq in Hq. subst p. contradiction. }
      intros _ ->. destruct HinB.
    + assert (Hnin : ~ In (en c) vis).
      { intros X. assert (existsb (ptr_eqb (en c)) vis = true); [|congruence]. apply existsb_exists. exists (en c). split; [exact X|apply ptr_eqb_refl]. }
      exists (pmset pm (en c) tmp), (en c :: vis), (B ++ [en c]). rewrite app_assoc. split; [reflexivity|].
      destruct HB as [b1 b2 b3 b4 b5 b6].
      assert (HninB : ~ In (en c) B). { intros X. apply Hnin. apply b2. exact X. }
      split; [constructor|].
      * apply NoDup_rev in b1; rewrite <- (rev_involutive (B ++ [en c])); apply NoDup_rev; rewrite rev_app_distr; cbn; constructor; [rewrite <- in_rev; exact HninB|exact b1].
      * intros p Hp. apply in_app_iff in Hp. destruct Hp as [Hp|[<-|[]]].
        -- destruct (b2 p Hp) as (X & Y & Z'). split; [exact X|]. split; [right; exact Y|exact Z'].
        -- split; [exact Hw|]. split; [left; reflexivity|exact HPc].
      * intros p [<-|Hp] Hwp; apply in_app_iff; [right; left; reflexivity|left; auto].
      * constructor; auto.
      * intros p [<-|Hp]; [exists L; auto|auto].
      * intros b Hb. rewrite qsum_app. cbn [qsum]. rewrite <- (b6 b Hb).
        rewrite (qsum_ext (fun p => (pmget (pmset pm (en c) tmp) p * hb t ii L p b)%R) (fun p => (pmget pm p * hb t ii L p b)%R) B).
        2:{ intros p Hp. unfold pmget, pmset. destruct (ptr_eqb (en c) p) eqn:Hq; [|reflexivity]. apply ptr_eqb_eq in Hq. subst p. contradiction. }
        unfold pmget at 2, pmset. rewrite ptr_eqb_refl, Htmp. ring.
      * split; [rewrite app_length; cbn; lia|]. split.
        { intros p Hp. unfold pmset. destruct (ptr_eqb (en c) p) eqn:Hq; [|reflexivity]. apply ptr_eqb_eq in Hq. subst p. contradiction. }
        intros _ X. destruct B; discriminate.
Qed.

Lemma vis_bound (vis : list ptr) : NoDup vis -> (forall p, In p vis -> exists l, (1 <= l)%nat /\ wfp KV t l p) ->
  (length vis < Pos.to_nat (nexta t))%nat.
Proof.
  intros Hnd Hw.
  assert (Hinc : incl vis (map (fun i => Node (Pos.of_nat i)) (seq 1 (Pos.to_nat (nexta t) - 1)))).
  { intros p Hp. destruct (Hw p Hp) as (l & Hl & Hwp). destruct l as [|l]; [lia|]. destruct Hwp as (a & nd & -> & [Hr _] & _).
    pose proof (ti_next _ _ _ HT a nd Hr) as Hlt. apply in_map_iff. exists (Pos.to_nat a). split; [rewrite Pos2Nat.id; reflexivity|].
    apply in_seq. pose proof (Pos2Nat.is_pos a). lia. }
  pose proof (NoDup_incl_length Hnd Hinc) as H. rewrite map_length, seq_length in H. pose proof (Pos2Nat.is_pos (nexta t)). lia.
Qed.

Lemma bfs_spec (T : nat -> R) : forall fuel L pm vis A B acc k,
  binv L pm vis B acc -> NoDup A -> (forall p, In p A -> wfp KV t (S L) p /\ P p) -> A <> [] ->
  (ii <= L)%nat -> (L = ii -> B = []) ->
  (forall b, (b < 2)%nat -> (qsum (fun p => pmget pm p * hb t ii (S L) p b) A + acc b = T b)%R) ->
  (length vis = k + length A + length B)%nat -> (Pos.to_nat (nexta t) <= fuel + k)%nat ->
  exists pm' q, bfs s fuel (Z.of_nat ii) (pm, vis, A ++ B) = Some (pm', q) /\
    (forall p, In p q -> wfp KV t (S ii) p /\ P p) /\
    (forall b, (b < 2)%nat -> qsum (fun p => (pmget pm' p * hb t ii (S ii) p b)%R) q = T b).
Proof.
  induction fuel as [|f IH]; intros L pm vis A B acc k HB HA HAw HAne HL HLB HT' Hlen Hfuel.
  all: destruct A as [|p A]; [congruence|]; clear HAne; cbn [app bfs]; fold bfs.
  all: destruct (HAw p (or_introl eq_refl)) as [(a & nd & -> & Hr & Hv) HPa].
  all: rewrite (readn_reg tau KV s a nd Hr), Hv.
  all: destruct (Z.eqb_spec (Z.of_nat L) (Z.of_nat ii)) as [HLi|HLi].
  1,3: apply Nat2Z.inj in HLi; subst L; rewrite (HLB eq_refl) in *; exists pm, ((Node a :: A) ++ []);
       (split; [reflexivity|]); (split; [intros q Hq; rewrite app_nil_r in Hq; exact (HAw q Hq)|]);
       intros b Hb; rewrite app_nil_r; rewrite <- (HT' b Hb); rewrite <- (bi_sum _ _ _ _ _ HB b Hb); cbn [qsum]; ring.
  - exfalso. pose proof (vis_bound vis (bi_vnd _ _ _ _ _ HB)) as Hvb.
    assert ((length vis < Pos.to_nat (nexta t))%nat); [|lia].
    apply Hvb. intros q Hq. destruct (bi_vl _ _ _ _ _ HB q Hq) as (l & _ & X & Y). exists l. auto.
  - assert (HL' : (ii < L)%nat) by lia.
    pose proof (reg_ok tau KV _ a nd HT Hr) as Hok.
    rewrite (chd_null tau KV _ nd 0 Hok), (chd_null tau KV _ nd 1 Hok) by (cbn; lia).
    assert (Hin : forall b, (b < 2)%nat -> In (chd nd b) (nch nd)).
    { intros b Hb. apply nth_In. rewrite (no_len _ _ _ _ Hok). exact Hb. }
    assert (Hwc : forall b, wfe KV t L (chd nd b)).
    { intros b. pose proof (reg_child tau KV _ a nd b HT Hr) as X. rewrite Hv, Nat2Z.id in X. exact X. }
    set (prob := pmget pm (Node a)).
    destruct (visit_spec L pm vis A B acc (chd nd 0) prob HB ltac:(lia) (Hwc 0%nat) (HP a nd _ HPa Hr (Hin 0%nat ltac:(lia)))
       (no_zero _ _ _ _ Hok _ (Hin 0%nat ltac:(lia)))) as (pm1 & vis1 & B1 & V1 & I1 & L1 & O1 & N1).
    rewrite V1.
    destruct (visit_spec L pm1 vis1 A B1 _ (chd nd 1) prob I1 ltac:(lia) (Hwc 1%nat) (HP a nd _ HPa Hr (Hin 1%nat ltac:(lia)))
       (no_zero _ _ _ _ Hok _ (Hin 1%nat ltac:(lia)))) as (pm2 & vis2 & B2 & V2 & I2 & L2 & O2 & N2).
    rewrite V2.
    assert (HB2 : B2 <> []).
    { destruct (no_max _ _ _ _ Hok) as (i & Hi & Hone & _). fold (chd nd i) in Hone. cbn in Hi.
      apply N2. destruct i as [|[|i]]; [right; apply N1; left|left|lia]; rewrite Hone; apply (iszero_c1' tau). }
    inversion HA as [|x y HnA HAnd]; subst x y.
    assert (Hpm : forall q, In q A -> pm2 q = pm q).
    { intros q Hq. destruct (HAw q (or_intror Hq)) as [Hwq _].
      assert (Hn : ~ wfp KV t L q) by (intros X; pose proof (wfp_lev _ _ _ _ X Hwq); lia).
      rewrite (O2 q Hn). apply O1. exact Hn. }
    assert (HT2 : forall b, (b < 2)%nat ->
       (qsum (fun p => pmget pm2 p * hb t ii (S L) p b) A + qsum (fun p => pmget pm2 p * hb t ii L p b) B2 = T b)%R).
    { intros b Hb. rewrite (bi_sum _ _ _ _ _ I2 b Hb). rewrite <- (HT' b Hb). cbn [qsum].
      rewrite (qsum_ext (fun p => (pmget pm2 p * hb t ii (S L) p b)%R) (fun p => (pmget pm p * hb t ii (S L) p b)%R) A).
      2:{ intros q Hq. unfold pmget. rewrite (Hpm q Hq). reflexivity. }
      rewrite (hb_step t ii L a nd b Hr Hv HL'). fold prob. ring. }
    destruct A as [|q0 A'] eqn:EA.
    + (* the level is exhausted: the next one is B2 *)
      destruct L as [|L']; [lia|].
      rewrite (app_nil_l B2). rewrite <- (app_nil_r B2).
      apply (IH L' pm2 vis2 B2 [] (fun _ => 0%R) (S k)).
      * constructor.
        -- constructor.
        -- intros q [].
        -- intros q Hq Hwq. destruct (bi_vl _ _ _ _ _ I2 q Hq) as (l & Hl & _ & Y). pose proof (wfp_lev _ _ _ _ Y Hwq). lia.
        -- exact (bi_vnd _ _ _ _ _ I2).
        -- intros q Hq. destruct (bi_vl _ _ _ _ _ I2 q Hq) as (l & Hl & X & Y). exists l. split; [lia|auto].
        -- intros b Hb. reflexivity.
      * exact (bi_nd _ _ _ _ _ I2).
      * intros q Hq. destruct (bi_wf _ _ _ _ _ I2 q Hq) as (X & _ & Y). auto.
      * exact HB2.
      * lia.
      * reflexivity.
      * intros b Hb. rewrite <- (HT2 b Hb). cbn [qsum]. ring.
      * cbn [length] in *. lia.
      * lia.
    + rewrite <- EA in *.
      apply (IH L pm2 vis2 A B2 (fun b => qsum (fun p => (pmget pm2 p * hb t ii L p b)%R) B2) (S k)).
      * destruct I2 as [b1 b2 b3 b4 b5 b6]. constructor; auto.
      * exact HAnd.
      * intros q Hq. apply HAw. right. exact Hq.
      * rewrite EA. discriminate.
      * lia.
      * lia.
      * exact HT2.
      * cbn [length] in *. lia.
      * lia.
Qed.
End Bfs.

Lemma side_spec s (w : R) ii a nd b : Inv s -> reg KV (tb s KV) a nd -> nv nd = Z.of_nat ii -> (b < 2)%nat ->
  probs s (Node a) <> None ->
  side s w (chd nd b) = Some (w * hb (tb s KV) ii (S ii) (Node a) b)%R.
Proof.
  intros HI Hr Hv Hb Hp. pose proof (inv_tb _ _ HI KV) as HT. pose proof (reg_ok tau KV _ a nd HT Hr) as Hok.
  assert (Hin : In (chd nd b) (nch nd)). { apply nth_In. rewrite (no_len _ _ _ _ Hok). exact Hb. }
  rewrite (hb_base _ ii a nd b Hr Hv Hb). unfold side. destruct (iszero (ew (chd nd b))) eqn:Hz.
  - f_equal. rewrite (no_zero _ _ _ _ Hok _ Hin Hz). cbn [ew zeroE]. change (@c0 (RNum tau)) with (RtoC 0). rewrite Cmod_0. cbn. ring.
  - destruct (probs s (Node a)) as [x|] eqn:Hx; [|congruence].
    destruct (inv_pr _ _ HI _ _ Hx) as [[X _]|(m' & a' & nd' & H1 & H2 & H3 & H4 & H5)]; [discriminate|].
    inversion H1; subst a'. pose proof (reg_fun tau _ _ _ _ _ Hr H2). subst nd'.
    pose proof (H5 _ Hin) as Hc. destruct (probs s (en (chd nd b))) as [y|] eqn:Hy; [|exfalso; apply Hc; (reflexivity || exact Hy)].
    pose proof (reg_child tau KV _ a nd b HT Hr) as W. rewrite Hv, Nat2Z.id in W. fold (chd nd b) in W.
    assert (Wp : wfp KV (tb s KV) ii (en (chd nd b))).
    { apply (wfe_nz tau KV _ _ _ W). intros X. rewrite X in Hz. rewrite (iszero_c0' tau) in Hz. discriminate. }
    rewrite (prob_ok_val tau _ _ ii _ _ (inv_pr _ _ HI _ _ Hy) Wp), norm2_Cmod. toR. apply (f_equal Some). cbn [nmul RNum]. ring.
Qed.

Lemma sumq_spec s pm ii : Inv s -> forall q (z o : R),
  (forall p, In p q -> wfp KV (tb s KV) (S ii) p /\ probs s p <> None) ->
  sumq s pm q z o = Some ((z + qsum (fun p => (pmget pm p * hb (tb s KV) ii (S ii) p 0)%R) q)%R,
                          (o + qsum (fun p => (pmget pm p * hb (tb s KV) ii (S ii) p 1)%R) q)%R).
Proof.
  intros HI. induction q as [|p r IH]; intros z o H.
  - cbn. rewrite !Rplus_0_r. reflexivity.
  - destruct (H p (or_introl eq_refl)) as [(a & nd & -> & Hr & Hv) Hp]. cbn [sumq].
    rewrite (readn_reg tau KV s a nd Hr).
    pose proof (reg_ok tau KV _ a nd (inv_tb _ _ HI KV) Hr) as Hok.
    rewrite (chd_null tau KV _ nd 0 Hok), (chd_null tau KV _ nd 1 Hok) by (cbn; lia).
    rewrite (side_spec s _ ii a nd 0 HI Hr Hv ltac:(lia) Hp), (side_spec s _ ii a nd 1 HI Hr Hv ltac:(lia) Hp).
    etransitivity; [apply IH; intros x Hx; apply H; right; exact Hx|]. cbn [qsum nadd RNum]. f_equal. f_equal; toR; ring.
Qed.

Lemma probs_closed s a nd c : Inv s -> probs s (Node a) <> None -> reg KV (tb s KV) a nd -> In c (nch nd) -> probs s (en c) <> None.
Proof.
  intros HI Hp Hr Hc. destruct (probs s (Node a)) as [x|] eqn:Hx; [|congruence].
  destruct (inv_pr _ _ HI _ _ Hx) as [[X _]|(m' & a' & nd' & H1 & H2 & H3 & H4 & H5)]; [discriminate|].
  inversion H1; subst a'. pose proof (reg_fun tau _ _ _ _ _ Hr H2). subst nd'. auto.
Qed.

Lemma readn_tb s s' k p : tb s' = tb s -> readn k p s' = readn k p s.
Proof. intros H. unfold readn. rewrite H. reflexivity. Qed.
Lemma bfs_tb s s' : tb s' = tb s -> forall fuel i st, bfs s' fuel i st = bfs s fuel i st.
Proof.
  intros H. induction fuel as [|f IH]; intros i [[pm vis] q]; cbn [bfs]; destruct q as [|p r]; auto;
    rewrite (readn_tb s s' KV p H); destruct (readn KV p s); auto. destruct (nv n =? i); auto.
Qed.

Theorem detProbs_spec s n e ii : Inv s -> (ii < n)%nat -> Z.of_nat n <= NQUBITS -> wfp KV (tb s KV) n (en e) ->
  exists s', detProbs e (Z.of_nat ii) s =
      Some ((Cmod (ew e) ^ 2 * hb (tb s KV) ii n (en e) 0)%R, (Cmod (ew e) ^ 2 * hb (tb s KV) ii n (en e) 1)%R, s') /\
    pext s s' /\ Inv s' /\ probs s' (en e) <> None.
Proof.
  intros HI Hii Hn Hw. destruct n as [|m]; [lia|].
  assert (Hs1 : exists s1, (match probs s (en e) with
             | Some _ => Some s
             | None => match assignProbabilities e s with Some (_, s1) => Some s1 | None => None end
             end) = Some s1 /\ pext s s1 /\ Inv s1 /\ probs s1 (en e) <> None).
  { destruct (probs s (en e)) as [x|] eqn:Hx.
    - exists s. split; [reflexivity|]. split; [apply pext_refl|]. split; [exact HI|congruence].
    - destruct (assignP_spec tau PFUEL (S m) e s HI (or_introl Hw)) as (s1 & A1 & A2 & A3 & A4).
      { unfold PFUEL. unfold NQUBITS in Hn. lia. }
      unfold assignProbabilities. rewrite A1. exists s1. auto. }
  destruct Hs1 as (s1 & Hs1 & Hpe & HI1 & Hpr). pose proof (pe_tb _ _ _ Hpe) as Htb.
  unfold detProbs. rewrite <- (bfs_tb s s1 Htb). rewrite <- Htb.
  set (pm0 := pmset (fun _ => None) (en e) (norm2 (ew e))).
  rewrite <- Htb in Hw.
  destruct (bfs_spec s1 ii HI1 (fun p => probs s1 p <> None) (fun a nd c Hp Hr Hc => probs_closed s1 a nd c HI1 Hp Hr Hc)
     (fun b => (Cmod (ew e) ^ 2 * hb (tb s1 KV) ii (S m) (en e) b)%R)
     (Pos.to_nat (nexta (tb s1 KV))) m pm0 [en e] [en e] [] (fun _ => 0%R) 0) as (pm & q & Hb & Hq & Hsum).
  - constructor.
    + constructor.
    + intros p [].
    + intros p [<-|[]] Hp. pose proof (wfp_lev _ _ _ _ Hp Hw). lia.
    + constructor; [intros []|constructor].
    + intros p [<-|[]]. exists (S m). split; [lia|]. split; [lia|exact Hw].
    + reflexivity.
  - constructor; [intros []|constructor].
  - intros p [<-|[]]. auto.
  - discriminate.
  - lia.
  - reflexivity.
  - intros b Hb. cbn [qsum]. unfold pm0, pmget, pmset. rewrite ptr_eqb_refl, norm2_Cmod. toR. ring.
  - reflexivity.
  - lia.
  - cbn [app] in Hb. rewrite Hb, Hs1.
    assert (Hsq : sumq s1 pm q (@n0 (RNum tau)) (@n0 (RNum tau)) = Some ((Cmod (ew e) ^ 2 * hb (tb s1 KV) ii (S m) (en e) 0)%R, (Cmod (ew e) ^ 2 * hb (tb s1 KV) ii (S m) (en e) 1)%R)).
    { etransitivity; [apply (sumq_spec s1 pm ii HI1 q 0%R 0%R Hq)|]. rewrite (Hsum 0%nat), (Hsum 1%nat) by lia. rewrite !Rplus_0_l. reflexivity. }
    rewrite Hsq. exists s1. auto.
Qed.
End MeasOneP.
