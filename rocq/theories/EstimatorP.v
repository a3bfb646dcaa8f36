(* EstimatorP.v -- property C43, first part: one experiment of the Estimator. *)
From Coq Require Import Reals Lra Psatz ZArith Bool List Lia Arith Permutation FunctionalExtensionality.
From Coquelicot Require Import Complex.
From Verif Require Import Num Gates RNum Spec SpecP GateMat LargeP Backend BackSpec BackendP BackendQ BackendX Estimator PauliP.
Import ListNotations.
Open Scope nat_scope.

(* ---- computations that never raise ---- *)
Fixpoint always {A} (P : A -> Prop) (t : tree A) : Prop :=
  match t with Leaf a => P a | Raise => False | Flip _ k => forall b, always P (k b) end.
Lemma always_impl {A} (P P' : A -> Prop) t : (forall a, P a -> P' a) -> always P t -> always P' t.
Proof. intros H. induction t as [a| |p k IH]; cbn; auto. Qed.
Lemma always_bind {A B} (P : A -> Prop) (P' : B -> Prop) t (f : A -> tree B) : always P t -> (forall a, P a -> always P' (f a)) -> always P' (bind t f).
Proof. intros H Hf. induction t as [a| |p k IH]; cbn in *; auto. Qed.
Lemma always_run {A} (P : A -> Prop) t : always P t -> forall ths o rest, run t ths = Some (o, rest) -> exists a, o = Some a /\ P a.
Proof.
  induction t as [a| |p k IH]; cbn; intros H ths o rest E; [|contradiction|].
  - injection E as <- <-. eauto.
  - destruct ths as [|th r]; [discriminate|]. eapply IH; [|eassumption]. apply H.
Qed.
Lemma Ex_always {A} (P : A -> Prop) (t : tree A) f g : always P t -> (forall a, P a -> f a = g a) -> Ex t f = Ex t g.
Proof. intros H E. induction t as [a| |p k IH]; cbn in *; auto. now rewrite !IH by auto. Qed.
Lemma Ex_const {A} (P : A -> Prop) (t : tree A) c : always P t -> Ex t (fun _ => c) = c.
Proof. intros H. induction t as [a| |p k IH]; cbn in *; auto; [contradiction|]. rewrite !IH by auto. ring. Qed.
Lemma Ex_plus {A} (t : tree A) f g : Ex t (fun a => f a + g a)%R = (Ex t f + Ex t g)%R.
Proof. induction t as [a| |p k IH]; cbn; [reflexivity|ring|]. rewrite !IH. ring. Qed.
Lemma catch_always {A} (P : A -> Prop) t h : always P t -> catch t h = t.
Proof.
  induction t as [a| |p k IH]; cbn; intros H; auto; [contradiction|]. f_equal. apply functional_extensionality. auto.
Qed.
Lemma always_replicate {A} (P : A -> Prop) t m : always P t -> always (fun l => length l = m /\ Forall P l) (replicate m t).
Proof.
  intros H. induction m as [|m IH]; cbn; [auto|]. eapply always_bind; [exact H|]. intros a Ha.
  eapply always_bind; [exact IH|]. intros l [Hl Hf]. cbn. auto.
Qed.
Definition sumR {A} (g : A -> R) (l : list A) : R := fold_right (fun a acc => (g a + acc)%R) 0%R l.
Lemma Ex_replicate {A} (P : A -> Prop) (t : tree A) g m : always P t -> Ex (replicate m t) (sumR g) = (INR m * Ex t g)%R.
Proof.
  intros H. induction m as [|m IH]; [cbn; ring|]. cbn [replicate]. rewrite Ex_bind.
  rewrite (Ex_ext _ _ (fun a => (g a + INR m * Ex t g)%R)).
  - rewrite Ex_plus, (Ex_const P) by auto. rewrite S_INR. ring.
  - intros a. rewrite Ex_bind. cbn [Ex]. rewrite (Ex_ext _ _ (fun l => (g a + sumR g l)%R)) by reflexivity.
    rewrite Ex_plus, (Ex_const _ _ _ (always_replicate P t m H)), IH. reflexivity.
Qed.
Lemma always_traverse {A B} (P : A -> B -> Prop) (f : A -> tree B) l : (forall a, In a l -> always (P a) (f a)) ->
  always (Forall2 P l) (traverse f l).
Proof.
  induction l as [|a l IH]; intros H; cbn; [constructor|]. eapply always_bind; [apply H; now left|]. intros b Hb.
  eapply always_bind; [apply IH; intros; apply H; now right|]. intros bs Hbs. cbn. constructor; auto.
Qed.
Lemma Ex_traverse {A B} (P : A -> B -> Prop) (f : A -> tree B) h l : forall r a, (forall a, In a l -> always (P a) (f a)) -> nth_error l r = Some a ->
  Ex (traverse f l) (fun bs => match nth_error bs r with Some b => h b | None => 0%R end) = Ex (f a) h.
Proof.
  induction l as [|x l IH]; intros r a H Hr; [destruct r; discriminate|]. cbn [traverse]. rewrite Ex_bind. destruct r as [|r]; cbn in Hr.
  - injection Hr as ->. apply Ex_ext. intros b. rewrite Ex_bind. cbn [Ex nth_error].
    apply (Ex_const (Forall2 P l)). apply always_traverse. intros; apply H; now right.
  - rewrite (Ex_ext _ _ (fun _ => Ex (f a) h)).
    + apply (Ex_const (P x)). apply H. now left.
    + intros b. rewrite Ex_bind. cbn [Ex nth_error]. apply IH; auto. intros; apply H; now right.
Qed.

(* ---- the signs ---- *)
Lemma parity_double (b : bool) a : parity ((if b then 1 else 0) + 2 * a) = ((if b then 1 else 0) + parity a) mod 2.
Proof.
  unfold parity.
  assert (Ht : forall l, Nat.testbit ((if b then 1 else 0) + 2 * a) (S l) = Nat.testbit a l).
  { intros l. rewrite Nat.add_comm. destruct b; [apply Nat.testbit_odd_succ|rewrite Nat.add_0_r; apply Nat.testbit_even_succ]; lia. }
  assert (H0 : Nat.testbit ((if b then 1 else 0) + 2 * a) 0 = b).
  { rewrite Nat.add_comm. destruct b; [apply Nat.testbit_odd_0|rewrite Nat.add_0_r; apply Nat.testbit_even_0]. }
  assert (Hm : forall l, length (filter (Nat.testbit ((if b then 1 else 0) + 2 * a)) (map S l)) = length (filter (Nat.testbit a) l)).
  { induction l as [|x l IH]; [reflexivity|]. cbn [map filter]. rewrite Ht. destruct (Nat.testbit a x); cbn [length]; now rewrite IH. }
  destruct (Nat.eq_dec a 0) as [->|Ha].
  - destruct b; reflexivity.
  - replace (Nat.log2 ((if b then 1 else 0) + 2 * a)) with (S (Nat.log2 a)).
    + rewrite (Nat.add_mod_idemp_r _ (length (filter (Nat.testbit a) (seq 0 (S (Nat.log2 a)))))) by lia. f_equal.
      change (seq 0 (S (S (Nat.log2 a)))) with (0 :: seq 1 (S (Nat.log2 a))). rewrite <- seq_shift. cbn [filter]. rewrite H0.
      destruct b; cbn [length]; rewrite Hm; reflexivity.
    + rewrite Nat.add_comm. destruct b; [symmetry; apply Nat.log2_succ_double|rewrite Nat.add_0_r; symmetry; apply Nat.log2_double]; lia.
Qed.
Lemma parity_lt2 x : parity x < 2. Proof. unfold parity. apply Nat.mod_upper_bound. lia. Qed.
Lemma split_bit x : x = (if Nat.testbit x 0 then 1%nat else 0%nat) + 2 * (x / 2).
Proof. pose proof (Nat.div_mod x 2 ltac:(lia)) as H. pose proof (Nat.bit0_mod x) as Hb. unfold Nat.b2n in Hb. lia. Qed.
Lemma tb_0 (b : bool) a : Nat.testbit ((if b then 1%nat else 0%nat) + 2 * a) 0 = b.
Proof. rewrite Nat.add_comm. destruct b; [apply Nat.testbit_odd_0|rewrite Nat.add_0_r; apply Nat.testbit_even_0]. Qed.
Lemma tb_S (b : bool) a l : Nat.testbit ((if b then 1%nat else 0%nat) + 2 * a) (S l) = Nat.testbit a l.
Proof. rewrite Nat.add_comm. destruct b; [apply Nat.testbit_odd_succ|rewrite Nat.add_0_r; apply Nat.testbit_even_succ]; lia. Qed.
Lemma land_double (b c : bool) a d : Nat.land ((if b then 1%nat else 0%nat) + 2 * a) ((if c then 1%nat else 0%nat) + 2 * d) = (if b && c then 1%nat else 0%nat) + 2 * Nat.land a d.
Proof.
  apply Nat.bits_inj. intros [|l]; rewrite Nat.land_spec; [now rewrite !tb_0|]. now rewrite !tb_S, Nat.land_spec.
Qed.
Lemma psign_cons p q qs o : psign p (q :: qs) o = ((if pnon p q && Nat.testbit o 0 then -1 else 1) * psign p qs (o / 2))%R.
Proof.
  unfold psign. cbn [diag_ind]. rewrite (split_bit o) at 1. rewrite land_double, parity_double.
  pose proof (parity_lt2 (Nat.land (diag_ind p qs) (o / 2))) as B.
  assert (parity (Nat.land (diag_ind p qs) (o / 2)) = 0 \/ parity (Nat.land (diag_ind p qs) (o / 2)) = 1) as [->| ->] by lia;
    destruct (pnon p q && Nat.testbit o 0); cbn; ring.
Qed.
Lemma psign_zsign p qs : forall o i, (forall j, j < length qs -> Nat.testbit o j = Nat.testbit i (nth j qs 0)) -> psign p qs o = zsign p qs i.
Proof.
  induction qs as [|q r IH]; intros o i H.
  - unfold psign. cbn. reflexivity.
  - rewrite psign_cons. cbn [zsign fold_right]. fold (zsign p r i). unfold sgn1. rewrite (H 0) by (cbn; lia). cbn [nth]. f_equal.
    apply IH. intros j Hj. rewrite Nat.div2_bits by lia. apply (H (S j)). cbn. lia.
Qed.
Lemma int2_testbit s : forall j, Nat.testbit (int2 s) j = nth j (rev s) false.
Proof.
  induction s as [|b s IH] using rev_ind; intros j; [cbn; rewrite Nat.bits_0; now destruct j|].
  unfold int2. rewrite fold_left_app. cbn [fold_left]. fold (int2 s). rewrite rev_app_distr. cbn [rev app].
  rewrite (Nat.mul_comm 2), (Nat.mul_comm _ 2). destruct j as [|j]; cbn [nth].
  - destruct b; [apply Nat.testbit_odd_0|rewrite Nat.add_0_r; apply Nat.testbit_even_0].
  - rewrite <- IH. destruct b; [apply Nat.testbit_odd_succ|rewrite Nat.add_0_r; apply Nat.testbit_even_succ]; lia.
Qed.
(* the mean over the shots *)
Lemma wsum_add (g : list bool -> R) s d : fold_right (fun (x : list bool * nat) acc => (INR (snd x) * g (fst x) + acc)%R) 0%R (counter_add d s) =
  (g s + fold_right (fun (x : list bool * nat) acc => (INR (snd x) * g (fst x) + acc)%R) 0%R d)%R.
Proof.
  induction d as [|[s' k] d IH]; cbn -[INR].
  - cbn. ring.
  - destruct (list_eq_dec Bool.bool_dec s s') as [->|]; cbn -[INR]; [rewrite S_INR; ring|]. rewrite IH. ring.
Qed.
Lemma wsum_counter (g : list bool -> R) l : forall d, fold_right (fun (x : list bool * nat) acc => (INR (snd x) * g (fst x) + acc)%R) 0%R (fold_left counter_add l d) =
  (sumR g l + fold_right (fun (x : list bool * nat) acc => (INR (snd x) * g (fst x) + acc)%R) 0%R d)%R.
Proof.
  induction l as [|s l IH]; intros d; cbn [fold_left sumR fold_right]; [ring|]. rewrite IH, wsum_add. fold (sumR g l). ring.
Qed.
Lemma expval_mean p qs l : expval_counts p qs (counter l) = (sumR (fun s => psign p qs (int2 s)) l / INR (length l))%R.
Proof.
  unfold expval_counts. f_equal.
  - unfold counter. rewrite (wsum_counter (fun s => psign p qs (int2 s))). cbn [fold_right]. ring.
  - do 2 f_equal. destruct (counter_spec l []) as (_ & _ & H & _); [constructor|intros x []|].
    unfold total_count in H. cbn [fold_right] in H. rewrite Nat.add_0_r in H. exact H.
Qed.

(* ---- the circuits ---- *)
(* gates and barriers only, without conditions *)
Definition pure (n : nat) (l : list inst) : Prop := forall x, In x l -> cnd x = None /\
  match op x with BGate g => unitary n (gate_mat n (fun q => q) g) | BBarrier _ => True | _ => False end.
Lemma finalv_app n a : forall b v, finalv n (a ++ b) v = finalv n b (finalv n a v).
Proof. induction a as [|x a IH]; intros b v; cbn; auto. destruct (op x); auto. Qed.
Lemma finalv_meas n b qs : (forall q, In q qs -> q < n) -> forall j v, veq n (finalv n (meas_data b j qs) v) (each1 n (fun q => rot1 (at_q b q)) qs v).
Proof.
  induction qs as [|q r IH]; intros Hb j v; cbn [meas_data each1]; [apply veq_refl|].
  assert (Hr : forall q, In q r -> q < n) by (intros; apply Hb; now right). assert (Hq : q < n) by (apply Hb; now left).
  rewrite finalv_app. cbn [finalv op]. eapply veq_trans; [apply IH; exact Hr|]. apply each1_veq.
  unfold px, pz. fold (at_q b q). destruct (at_q b q) as [[] []]; cbn [fst snd app finalv op rot1 gate_mat last removelast ctl_of map].
  - apply gate1_mv_mm; auto.
  - apply veq_refl.
  - apply veq_sym. eapply veq_trans; [|apply mv_ident]. intros i Hi. apply mv_ext; auto; [now apply gate1_ident|apply veq_refl].
  - apply veq_sym. eapply veq_trans; [|apply mv_ident]. intros i Hi. apply mv_ext; auto; [now apply gate1_ident|apply veq_refl].
Qed.
Lemma support_In b q : In q (support b) <-> q < length b /\ pnon b q = true.
Proof. unfold support. rewrite filter_In, in_seq. intuition lia. Qed.
Lemma support_NoDup b : NoDup (support b).
Proof. apply NoDup_filter, seq_NoDup. Qed.
Lemma rot1_id b q : pnon b q = false -> meq 1 (rot1 (at_q b q)) ident.
Proof.
  unfold pnon, px, pz. fold (at_q b q). destruct (at_q b q) as [[] []]; cbn; try discriminate. intros _. apply meq_refl.
Qed.
Lemma finalv_rotated n b j v : length b = n -> veq n (finalv n (meas_data b j (support b)) v) (rotated n b v).
Proof.
  intros Hn. eapply veq_trans; [apply finalv_meas; intros q Hq; apply support_In in Hq; lia|].
  unfold support, rotated. rewrite Hn. apply each1_filter; [intros q Hq; apply in_seq in Hq; lia|]. intros q _ Hf. now apply rot1_id.
Qed.
(* classification *)
Definition no_init (l : list inst) : Prop := forall x qs, In x l -> op x <> BInit qs.
Lemma classify_forward n l : forall i measured m, Stable measured l -> no_init l ->
  exists me, classify n i l true measured m = (true, me, mdict l m) /\ length measured <= length me /\
    ((exists x q c, In x l /\ op x = BMeasure q c) -> 0 < length me).
Proof.
  induction l as [|x l IH]; intros i measured m Hs Hn; cbn [classify mdict].
  - eexists. split; [reflexivity|]. split; [lia|]. intros (x & q & c & [] & _).
  - assert (Hn' : no_init l) by (intros y qs Hy; apply Hn; now right).
    cbn [Stable] in Hs. unfold classify_step. destruct (op x) as [g|q c|q|qs|qs|qs|qs] eqn:E;
    try (destruct Hs as (S1 & S2 & S3 & S4 & S5); cbn [is_reset is_kraus] in *;
         assert (Hex : existsb (fun q => existsb (Nat.eqb q) measured) (qargs (op x)) = false)
          by (apply Bool.not_true_iff_false; intros h; apply existsb_exists in h as (y & Hy & Hm); apply existsb_exists in Hm as (w & Hw & Ew);
              apply Nat.eqb_eq in Ew as ->; rewrite E in Hy; exact (S2 w Hy Hw));
         rewrite E in Hex); try discriminate.
    + rewrite S1, Hex. cbn [orb is_reset is_kraus negb andb]. destruct (IH (S i) measured m S5 Hn') as (me & H1 & H2 & H3).
      exists me. split; [exact H1|]. split; [exact H2|]. intros (y & q & c & [<-|Hy] & Ey); [congruence|]. apply H3. eauto.
    + cbn [negb andb]. destruct (IH (S i) (q :: measured) (dset m c q) Hs Hn') as (me & H1 & H2 & H3).
      exists me. split; [exact H1|]. cbn [length] in H2. split; [lia|]. intros _. lia.
    + rewrite S1, Hex. cbn [orb is_reset is_kraus negb andb]. destruct (IH (S i) measured m S5 Hn') as (me & H1 & H2 & H3).
      exists me. split; [exact H1|]. split; [exact H2|]. intros (y & q & c & [<-|Hy] & Ey); [congruence|]. apply H3. eauto.
    + exfalso. apply (Hn x qs); [now left|exact E].
    + rewrite S1, Hex. cbn [orb is_reset is_kraus negb andb]. destruct (IH (S i) measured m S5 Hn') as (me & H1 & H2 & H3).
      exists me. split; [exact H1|]. split; [exact H2|]. intros (y & q & c & [<-|Hy] & Ey); [congruence|]. apply H3. eauto.
Qed.
Lemma stable_pure n l r : pure n l -> Stable [] r -> Stable [] (l ++ r).
Proof.
  intros Hp Hr. induction l as [|x l IH]; auto. cbn [app Stable]. specialize (IH (fun y Hy => Hp y (or_intror Hy))).
  destruct (Hp x (or_introl eq_refl)) as [Hc Ho]. unfold has_cond. rewrite Hc. destruct (op x); try contradiction; repeat split; auto.
Qed.
Lemma stable_meas b qs : forall j measured, NoDup qs -> (forall q, In q qs -> ~ In q measured) -> Stable measured (meas_data b j qs).
Proof.
  induction qs as [|q r IH]; intros j measured Hnd Hd; [exact Logic.I|]. inversion Hnd as [|? ? Hq Hr]; subst. cbn [meas_data].
  assert (Hm : ~ In q measured) by (apply Hd; now left).
  assert (H1 : Stable (q :: measured) (meas_data b (S j) r)).
  { apply IH; auto. intros x Hx [<-|Hy]; [contradiction|]. eapply Hd; [right; eassumption|assumption]. }
  assert (Hg : forall x, In x [q] -> ~ In x measured) by (intros x [<-|[]]; exact Hm).
  destruct (px b q), (pz b q); cbn; repeat split; auto.
Qed.
Lemma mdict_app a : forall b m, mdict (a ++ b) m = mdict b (mdict a m).
Proof. induction a as [|x a IH]; intros b m; cbn; auto. destruct (op x); auto. Qed.
Lemma mdict_pure n l m : pure n l -> mdict l m = m.
Proof.
  intros H. induction l as [|x l IH]; auto. cbn. specialize (IH (fun y Hy => H y (or_intror Hy))).
  destruct (H x (or_introl eq_refl)) as [_ Ho]. destruct (op x); auto; contradiction.
Qed.
Lemma dset_fresh d k v : (forall x, In x (map fst d) -> x <> k) -> dset d k v = d ++ [(k, v)].
Proof.
  induction d as [|[k' v'] d IH]; intros H; cbn; auto. destruct (Nat.eqb_spec k k') as [->|]; [exfalso; apply (H k'); cbn; auto|].
  rewrite IH; auto. intros x Hx. apply H. now right.
Qed.
Lemma mdict_meas b qs : forall j m, (forall x, In x (map fst m) -> x < j) -> mdict (meas_data b j qs) m = m ++ combine (seq j (length qs)) qs.
Proof.
  induction qs as [|q r IH]; intros j m Hm; cbn [meas_data]; [cbn; now rewrite app_nil_r|].
  assert (E : mdict (meas_data b (S j) r) (dset m j q) = m ++ combine (seq j (S (length r))) (q :: r)).
  { rewrite dset_fresh by (intros x Hx; specialize (Hm x Hx); lia). rewrite IH.
    - cbn [seq combine]. now rewrite <- app_assoc.
    - intros x Hx. rewrite map_app, in_app_iff in Hx. destruct Hx as [Hx|[<-|[]]]; [specialize (Hm x Hx)|cbn]; lia. }
  destruct (px b q), (pz b q); cbn; exact E.
Qed.
Lemma dget_combine qs : forall j a, j < length qs -> dget (combine (seq a (length qs)) qs) (a + j) = Some (nth j qs 0).
Proof.
  induction qs as [|q r IH]; intros j a Hj; [cbn in Hj; lia|]. cbn [length seq combine dget]. destruct j as [|j].
  - rewrite Nat.add_0_r, Nat.eqb_refl. reflexivity.
  - destruct (Nat.eqb_spec (a + S j) a); [lia|]. replace (a + S j) with (S a + j) by lia. cbn [nth]. apply IH. cbn in Hj. lia.
Qed.
Lemma combine_fst_nodup (qs : list nat) a : NoDup (map fst (combine (seq a (length qs)) qs)).
Proof.
  assert (E : map fst (combine (seq a (length qs)) qs) = seq a (length qs)).
  { revert a. induction qs as [|q r IH]; intros a; cbn; auto. now rewrite IH. }
  rewrite E. apply seq_NoDup.
Qed.
(* the sampled string has the measured bits first *)
Lemma string_bits n ncl qs i j : (forall q, In q qs -> q < n) -> length qs <= ncl -> j < length qs ->
  Nat.testbit (int2 (assemble ncl (combine (seq 0 (length qs)) qs) (bitstring n i))) j = Nat.testbit i (nth j qs 0).
Proof.
  intros Hb Hl Hj. rewrite int2_testbit, assemble_fillin.
  - rewrite rev_involutive, fillin_nth.
    + pose proof (dget_combine qs j 0 Hj) as E. cbn [Nat.add] in E. rewrite E. reflexivity.
    + apply combine_fst_nodup.
    + rewrite repeat_length. lia.
  - intros k q Hk. apply in_combine_r in Hk. auto.
Qed.
Lemma measall_always k v : forall b, always (fun _ => True) (measall k v b).
Proof. induction k as [|k IH]; intros b; cbn; auto. Qed.
Lemma meas_data_supported n ncl b qs : forall j, (forall q, In q qs -> q < n) -> j + length qs <= ncl -> insts_ok n ncl (meas_data b j qs).
Proof.
  induction qs as [|q r IH]; intros j Hb Hl x Hx; [destruct Hx|]. cbn [meas_data] in Hx. cbn [length] in Hl.
  assert (Hq : q < n) by (apply Hb; now left).
  assert (UH : unitary n (gate1 n gH q [])) by (apply gate1_unitary; auto; [intros ? []|exact (Logic.proj1 (Logic.proj2 (C23_constant_gates_unitary 0)))]).
  assert (US : unitary n (gate1 n gSdg q [])) by (apply gate1_unitary; auto; [intros ? []|unfold gSdg; apply (C23_constant_gates_unitary 0)]).
  rewrite in_app_iff in Hx. destruct Hx as [Hx|[<-|Hx]].
  - destruct (px b q), (pz b q); cbn in Hx; repeat (destruct Hx as [<-|Hx]; [split; [cbn; assumption|exact Logic.I]|]); contradiction.
  - split; [cbn; lia|exact Logic.I].
  - eapply (IH (S j)); eauto. + intros; apply Hb; now right. + lia.
Qed.
Lemma no_init_meas b qs : forall j, no_init (meas_data b j qs).
Proof.
  induction qs as [|q r IH]; intros j x l Hx; [destruct Hx|]. cbn [meas_data] in Hx. rewrite in_app_iff in Hx. destruct Hx as [Hx|[<-|Hx]].
  - destruct (px b q), (pz b q); cbn in Hx; repeat (destruct Hx as [<-|Hx]; [discriminate|]); contradiction.
  - discriminate.
  - eapply IH; eauto.
Qed.
Lemma has_measure b j q qs : exists x a c, In x (meas_data b j (q :: qs)) /\ op x = BMeasure a c.
Proof.
  cbn [meas_data]. exists (I (BMeasure q j) None), q, j. split; [|reflexivity]. apply in_or_app. right. now left.
Qed.

Lemma meas_data_cnd b qs : forall j x, In x (meas_data b j qs) -> cnd x = None.
Proof.
  induction qs as [|q r IH]; intros j x Hx; [destruct Hx|]. cbn [meas_data] in Hx. apply in_app_or in Hx as [Hx|[<-|Hx]]; [|reflexivity|eapply IH; eauto].
  destruct (px b q), (pz b q); cbn in Hx; repeat destruct Hx as [<-|Hx]; try reflexivity; contradiction.
Qed.
(* ---- one experiment ---- *)
Definition expval_of (b p : pauli) (d : rdata) : R :=
  match d with Counts l => expval_counts p (support b) (counter l) | Probs l => expval_probs p (support b) l end.
(* the results: probabilities in approximation mode, counts otherwise *)
Definition kind (approx : bool) (d : rdata) : Prop := match approx, d with false, Counts _ => True | true, Probs _ => True | _, _ => False end.
(* the qubits measured are the first ones *)
Definition prefix (b : pauli) : Prop := support b = seq 0 (length (support b)).
Lemma combine_app {A B} (l1 : list A) : forall l2 (m1 m2 : list B), length l1 = length m1 -> combine (l1 ++ l2) (m1 ++ m2) = combine l1 m1 ++ combine l2 m2.
Proof. induction l1 as [|a l1 IH]; intros l2 [|b m1] m2 H; try discriminate; cbn; auto. f_equal. apply IH. cbn in H; lia. Qed.
Lemma expval_probs_sum p qs (f : nat -> R) m : expval_probs p qs (map f (seq 0 m)) = rsum m (fun i => (f i * psign p qs i)%R).
Proof.
  unfold expval_probs. rewrite map_length, seq_length.
  assert (G : forall m k acc, fold_right (fun (x : nat * R) acc => (snd x * psign p qs (fst x) + acc)%R) acc (combine (seq k m) (map f (seq k m))) = (rsum m (fun i => (f (k + i)%nat * psign p qs (k + i)%nat)%R) + acc)%R).
  { clear m. induction m as [|m IH]; intros k acc; [cbn; ring|]. rewrite seq_S, map_app. cbn [map].
    rewrite combine_app by (now rewrite map_length). rewrite fold_right_app, IH. cbn [rsum combine fold_right fst snd]. ring. }
  rewrite G. rewrite Rplus_0_r. apply rsum_ext'. intros i _. reflexivity.
Qed.
Theorem experiment (approx : bool) eps c b sh : pure (nq c) (data c) -> length b = nq c -> nq c <= 100 -> support b <> [] ->
  (if approx then sh = None else exists z, sh = Some z /\ (0 < z)%Z) ->
  exists pr, validate_circuit true (add_meas b c) = Some pr /\
    always (kind approx) (evaluate eps (add_meas b c) pr sh) /\ 
    (approx = true -> evaluate eps (add_meas b c) pr sh =
      Leaf (Probs (probs (nq c) (phase (gphase c) (finalv (nq c) (data c ++ meas_data b 0 (support b)) (basis 0)))))) /\
    forall p, measured_by (nq c) b p -> (approx = true -> prefix b) ->
      RtoC (Ex (evaluate eps (add_meas b c) pr sh) (expval_of b p)) = pauli_expect (nq c) (finalv (nq c) (data c) (basis 0)) p.
Proof.
  intros Hp Hb Hn Hs Hz. set (n := nq c) in *. set (qs := support b) in *.
  assert (Hqs : forall q, In q qs -> q < n) by (intros q Hq; apply support_In in Hq; lia).
  assert (Hst : Stable [] (data c ++ meas_data b 0 qs)).
  { apply (stable_pure n); auto. apply stable_meas; [apply support_NoDup|]. intros q _ []. }
  assert (Hni : no_init (data c ++ meas_data b 0 qs)).
  { intros x l Hx. apply in_app_or in Hx as [Hx|Hx]; [|eapply no_init_meas; eauto]. destruct (Hp x Hx) as [_ Ho]. intros E. rewrite E in Ho. contradiction. }
  destruct (classify_forward n (data c ++ meas_data b 0 qs) 0 [] [] Hst Hni) as (me & Hcl & _ & Hme).
  assert (Hlen : 0 < length me).
  { apply Hme. destruct qs as [|q r] eqn:E; [contradiction|]. destruct (has_measure b 0 q r) as (x & a & k & Hx & Ex_). exists x, a, k. split; auto. apply in_or_app. now right. }
  assert (Hd : mdict (data c ++ meas_data b 0 qs) [] = combine (seq 0 (length qs)) qs).
  { rewrite mdict_app, (mdict_pure n (data c)) by auto. rewrite mdict_meas; [reflexivity|]. intros x []. }
  exists (Prop_ true (combine (seq 0 (length qs)) qs)).
  assert (Hval : validate_circuit true (add_meas b c) = Some (Prop_ true (combine (seq 0 (length qs)) qs))).
  { unfold validate_circuit. cbn [nq add_meas data]. fold qs n. unfold max_qubits. destruct (Nat.ltb_spec 100 n) as [h|_]; [lia|]. rewrite Hcl.
    rewrite (proj2 (Nat.eqb_neq (length me) 0)) by lia. cbn [andb]. now rewrite Hd. }
  split; [exact Hval|].
  set (psi := finalv n (data c) (basis 0)).
  set (w := phase (gphase c) (finalv n (data c ++ meas_data b 0 qs) (basis 0))).
  assert (Hok : insts_ok n (nc c + length qs) (data c ++ meas_data b 0 qs)).
  { intros x Hx. apply in_app_or in Hx as [Hx|Hx].
    - destruct (Hp x Hx) as [E Ho]. rewrite E. split; [|exact Logic.I]. unfold supported. destruct (op x); auto; contradiction.
    - apply (meas_data_supported n (nc c + length qs) b qs 0); [exact Hqs|clearbody qs; lia|exact Hx]. }
  assert (Hw : forall i, i < 2 ^ n -> Cmod (w i) = Cmod (rotated n b psi i)).
  { intros i Hi. unfold w, phase, scaled. rewrite Cmod_mult, Cmod_phase, Rmult_1_l. f_equal. rewrite finalv_app. now apply finalv_rotated. }
  assert (Hnw : norm2v n w = 1%R).
  { unfold w, phase. rewrite norm2v_scaled, Cmod_phase. rewrite (finalv_norm n (nc c + length qs)) by auto. rewrite BackendP.norm_basis0. ring. }
  assert (Hsgn : forall p i, measured_by n b p -> zsign p qs i = zsign p (seq 0 n) i).
  { intros p i Hm. unfold qs, support. rewrite Hb. apply zsign_filter. intros q Hq Hf. apply in_seq in Hq. unfold pnon, px, pz in *. fold (at_q p q). fold (at_q b q) in Hf.
    destruct (Hm q ltac:(lia)) as [E|E]; rewrite E; auto. }
  destruct approx.
  { subst sh.
    assert (Hev : evaluate eps (add_meas b c) (Prop_ true (combine (seq 0 (length qs)) qs)) None = Leaf (Probs (probs n w))).
    { unfold evaluate. cbn [add_meas data nq nc gphase stable_final_state]. fold qs n.
      replace (existsb has_cond (data c ++ meas_data b 0 qs)) with false.
      2:{ symmetry. apply not_true_iff_false. intros Hx. apply existsb_exists in Hx as (x & Hx & Hc). unfold has_cond in Hc.
          assert (cnd x = None) as E; [|rewrite E in Hc; discriminate]. apply in_app_or in Hx as [Hx|Hx]; [now apply Hp|eapply meas_data_cnd; eauto]. }
      rewrite (exec_none_stable eps n (nc c + length qs) _ [] _ _ Hst Hok). reflexivity. }
    rewrite Hev. cbn [always kind Ex expval_of]. split; [exact Logic.I|]. split; [reflexivity|]. intros p Hm Hpre. unfold probs. rewrite expval_probs_sum, (measured_expect n b p psi Hm). f_equal.
    apply rsum_ext'. intros i Hi. rewrite Hnw, Hw by auto. unfold Rdiv. rewrite Rinv_1, Rmult_1_r. f_equal. fold qs. rewrite (psign_zsign p qs i i); [auto|].
    intros j Hj. specialize (Hpre eq_refl). unfold prefix in Hpre. fold qs in Hpre. rewrite Hpre at 1. rewrite seq_nth by auto. reflexivity. }
  destruct Hz as (z & -> & Hz).
  assert (Hev : evaluate eps (add_meas b c) (Prop_ true (combine (seq 0 (length qs)) qs)) (Some z) =
    bind (replicate (Z.to_nat z) (bind (measall n w 0) (fun i => Leaf (assemble (nc c + length qs) (combine (seq 0 (length qs)) qs) (bitstring n i)))))
      (fun l => Leaf (Counts l))).
  { unfold evaluate. cbn [stable_final_state add_meas nq nc data gphase]. fold qs n.
    rewrite (exec_stable eps n (nc c + length qs) _ [] _ _ _ Hst Hok). cbn [bind]. fold w.
    destruct (Z.eqb_spec z 0) as [->|_]; [lia|]. reflexivity. }
  rewrite Hev. set (shot := bind (measall n w 0) _).
  assert (Hal : always (fun _ => True) shot).
  { eapply always_bind; [apply measall_always|]. intros i _. exact Logic.I. }
  split.
  - eapply always_bind; [apply (always_replicate _ _ (Z.to_nat z) Hal)|]. intros l _. exact Logic.I.
  - split; [discriminate|]. intros p Hm _. rewrite Ex_bind. cbn [Ex expval_of].
    rewrite (Ex_always (fun l => length l = Z.to_nat z /\ Forall (fun _ => True) l) _ _
      (fun l => (/ INR (Z.to_nat z) * sumR (fun s => psign p qs (int2 s)) l)%R)).
    2:{ apply always_replicate. exact Hal. }
    2:{ intros l [Hl _]. rewrite expval_mean, Hl. unfold Rdiv. apply Rmult_comm. }
    rewrite Ex_scal, (Ex_replicate (fun _ => True)) by exact Hal.
    rewrite <- Rmult_assoc, Rinv_l, Rmult_1_l by (apply not_0_INR; lia).
    unfold shot. rewrite Ex_bind. cbn [Ex].
    rewrite measall_dist by exact Hnw. rewrite (measured_expect n b p psi Hm). f_equal. apply rsum_ext'. intros i Hi. rewrite Hw by auto. f_equal.
    rewrite (psign_zsign p qs _ i); [auto|]. intros j Hj. apply string_bits; auto. clearbody qs. lia.
Qed.
