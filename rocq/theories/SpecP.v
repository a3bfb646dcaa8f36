(* SpecP.v -- linear algebra of Spec.v: sums, products, the action of controlled
   gates, unitarity, norm preservation.  Nothing here refers to the model. *)
From Coq Require Import Reals Lra Psatz ZArith Bool List Lia Arith.
From Coquelicot Require Import Complex.
From Verif Require Import Spec.
Import ListNotations.
Open Scope nat_scope.

Section Sums.
Local Open Scope C_scope.
Lemma csum_ext' N f g : (forall i, (i < N)%nat -> f i = g i) -> csum N f = csum N g.
Proof. induction N; cbn; intros H; [reflexivity|]. rewrite IHN, H by auto. reflexivity. Qed.
Lemma csum_zero N f : (forall i, (i < N)%nat -> f i = RtoC 0) -> csum N f = RtoC 0.
Proof. induction N; cbn; intros H; [reflexivity|]. rewrite IHN, H by auto. ring. Qed.
Lemma csum_plus N f g : csum N (fun i => f i + g i) = csum N f + csum N g.
Proof. induction N; cbn; [ring|]. rewrite IHN. ring. Qed.
Lemma csum_scal N a f : csum N (fun i => a * f i) = a * csum N f.
Proof. induction N; cbn; [ring|]. rewrite IHN. ring. Qed.
Lemma csum_scal_r N a f : csum N (fun i => f i * a) = csum N f * a.
Proof. induction N; cbn; [ring|]. rewrite IHN. ring. Qed.
Lemma csum_swap N M f : csum N (fun i => csum M (fun j => f i j)) = csum M (fun j => csum N (fun i => f i j)).
Proof.
  induction N; cbn.
  - symmetry. apply csum_zero. reflexivity.
  - rewrite IHN. rewrite <- csum_plus. reflexivity.
Qed.
Lemma csum_one N f x : (x < N)%nat -> (forall i, (i < N)%nat -> i <> x -> f i = RtoC 0) -> csum N f = f x.
Proof.
  induction N; intros Hx H; [lia|]. cbn. destruct (Nat.eq_dec x N) as [->|Hn].
  - rewrite csum_zero; [ring|]. intros i Hi. apply H; lia.
  - rewrite IHN by (try lia; intros; apply H; lia). rewrite (H N) by lia. ring.
Qed.
Fixpoint lsum (f : nat -> C) (l : list nat) : C := match l with [] => RtoC 0 | x :: r => f x + lsum f r end.
Lemma lsum_ext f g l : (forall x, In x l -> f x = g x) -> lsum f l = lsum g l.
Proof. induction l as [|x l IH]; intros H; [reflexivity|]. cbn. rewrite (H x (or_introl eq_refl)), IH by (intros; apply H; right; auto). reflexivity. Qed.
Lemma csum_list l : forall N f, NoDup l -> (forall x, In x l -> (x < N)%nat) ->
  (forall i, (i < N)%nat -> ~ In i l -> f i = RtoC 0) -> csum N f = lsum f l.
Proof.
  induction l as [|x l IH]; intros N f Hnd Hb Hz.
  - apply csum_zero. intros i Hi. apply Hz; auto.
  - inversion Hnd as [|? ? Hn Hnd']; subst. cbn.
    transitivity (csum N (fun i => (if Nat.eqb i x then f x else RtoC 0) + (if Nat.eqb i x then RtoC 0 else f i))).
    { apply csum_ext'. intros i Hi. destruct (Nat.eqb_spec i x); [subst; ring|ring]. }
    rewrite csum_plus. f_equal.
    + rewrite (csum_one N _ x); [rewrite Nat.eqb_refl; reflexivity|apply Hb; left; auto|].
      intros i _ Hi. destruct (Nat.eqb_spec i x); [contradiction|reflexivity].
    + rewrite (IH N _ Hnd').
      * apply lsum_ext. intros y Hy. destruct (Nat.eqb_spec y x); [subst; contradiction|reflexivity].
      * intros y Hy. apply Hb. right. exact Hy.
      * intros i Hi Hin. destruct (Nat.eqb_spec i x); [reflexivity|]. apply Hz; auto. intros [X|X]; [congruence|contradiction].
Qed.
Lemma rsum_ext' N f g : (forall i, (i < N)%nat -> f i = g i) -> rsum N f = rsum N g.
Proof. induction N; cbn; intros H; [reflexivity|]. rewrite IHN, H by auto. reflexivity. Qed.
Lemma csum_RtoC N (f : nat -> R) : csum N (fun i => RtoC (f i)) = RtoC (rsum N f).
Proof. induction N; cbn; [reflexivity|]. rewrite IHN. rewrite RtoC_plus. reflexivity. Qed.
Lemma Cconj_mult a b : Cconj (a * b) = Cconj a * Cconj b.
Proof. destruct a, b. unfold Cconj, Cmult. cbn. f_equal; ring. Qed.
Lemma Cconj_plus a b : Cconj (a + b) = Cconj a + Cconj b.
Proof. destruct a, b. unfold Cconj, Cplus. cbn. f_equal; ring. Qed.
Lemma Cconj_0 : Cconj (RtoC 0) = RtoC 0.
Proof. unfold Cconj, RtoC. cbn. f_equal. ring. Qed.
Lemma Cconj_1 : Cconj (RtoC 1) = RtoC 1.
Proof. unfold Cconj, RtoC. cbn. f_equal. ring. Qed.
Lemma Cconj_conj a : Cconj (Cconj a) = a.
Proof. destruct a. unfold Cconj. cbn. f_equal. ring. Qed.
Lemma csum_conj N f : Cconj (csum N f) = csum N (fun i => Cconj (f i)).
Proof. induction N; cbn; [apply Cconj_0|]. rewrite Cconj_plus, IHN. reflexivity. Qed.
Lemma Cmod2_conj a : RtoC (Cmod a ^ 2) = Cconj a * a.
Proof.
  destruct a as [x y]. unfold Cmod, Cconj, Cmult, RtoC. cbn [fst snd]. rewrite pow2_sqrt by nra. f_equal; ring.
Qed.
End Sums.

(* ---- products ---- *)
Lemma mv_ext n A B v w i : (i < 2 ^ n)%nat -> meq n A B -> veq n v w -> mv n A v i = mv n B w i.
Proof. intros Hi HA Hv. apply csum_ext'. intros j Hj. rewrite (HA i j), (Hv j) by auto. reflexivity. Qed.
Lemma mm_ext n A B A' B' : meq n A A' -> meq n B B' -> meq n (mm n A B) (mm n A' B').
Proof. intros HA HB i j Hi Hj. apply csum_ext'. intros k Hk. rewrite (HA i k), (HB k j) by auto. reflexivity. Qed.
Lemma meq_sym n A B : meq n A B -> meq n B A. Proof. intros H i j Hi Hj. symmetry. auto. Qed.
Lemma meq_trans n A B D : meq n A B -> meq n B D -> meq n A D.
Proof. intros H H' i j Hi Hj. rewrite H, H' by auto. reflexivity. Qed.
Lemma meq_refl n A : meq n A A. Proof. intros i j _ _. reflexivity. Qed.
Lemma veq_sym n v w : veq n v w -> veq n w v. Proof. intros H i Hi. symmetry. auto. Qed.
Lemma veq_trans n u v w : veq n u v -> veq n v w -> veq n u w.
Proof. intros H H' i Hi. rewrite H, H' by auto. reflexivity. Qed.
Lemma veq_refl n v : veq n v v. Proof. intros i _. reflexivity. Qed.
Lemma mv_mm n A B v : veq n (mv n (mm n A B) v) (mv n A (mv n B v)).
Proof.
  intros i Hi. unfold mv, mm.
  transitivity (csum (2 ^ n) (fun j => csum (2 ^ n) (fun k => A i k * (B k j * v j))%C)).
  { apply csum_ext'. intros j _. rewrite <- csum_scal_r. apply csum_ext'. intros k _. ring. }
  rewrite csum_swap. apply csum_ext'. intros k _. apply csum_scal.
Qed.
Lemma mm_assoc n A B D : meq n (mm n (mm n A B) D) (mm n A (mm n B D)).
Proof. intros i j Hi Hj. exact (mv_mm n A B (fun k => D k j) i Hi). Qed.
Lemma mv_ident n v : veq n (mv n ident v) v.
Proof.
  intros i Hi. unfold mv, ident. rewrite (csum_one _ _ i Hi).
  - rewrite Nat.eqb_refl. ring.
  - intros j _ Hj. destruct (Nat.eqb_spec i j); [congruence|ring].
Qed.
Lemma mm_ident_l n A : meq n (mm n ident A) A.
Proof. intros i j Hi Hj. exact (mv_ident n (fun k => A k j) i Hi). Qed.
Lemma mm_ident_r n A : meq n (mm n A ident) A.
Proof.
  intros i j Hi Hj. unfold mm, ident. rewrite (csum_one _ _ j Hj).
  - rewrite Nat.eqb_refl. ring.
  - intros k _ Hk. destruct (Nat.eqb_spec k j); [congruence|ring].
Qed.
Lemma adjoint_mm n A B : meq n (adjoint (mm n A B)) (mm n (adjoint B) (adjoint A)).
Proof.
  intros i j _ _. unfold adjoint, mm. rewrite csum_conj. apply csum_ext'. intros k _. rewrite Cconj_mult. apply Cmult_comm.
Qed.
Lemma adjoint_inv A i j : adjoint (adjoint A) i j = A i j.
Proof. unfold adjoint. apply Cconj_conj. Qed.

(* inner product, and unitary maps preserve it *)
Definition inner (n : nat) (v w : vector) : C := csum (2 ^ n) (fun i => Cmult (Cconj (v i)) (w i)).
Lemma inner_norm n v : inner n v v = RtoC (norm2v n v).
Proof. unfold inner, norm2v. rewrite <- csum_RtoC. apply csum_ext'. intros i _. symmetry. apply Cmod2_conj. Qed.
Lemma inner_adj n A v w : inner n v (mv n A w) = inner n (mv n (adjoint A) v) w.
Proof.
  unfold inner, mv, adjoint.
  transitivity (csum (2 ^ n) (fun i => csum (2 ^ n) (fun j => (Cconj (v i) * (A i j * w j))%C))).
  { apply csum_ext'. intros i _. symmetry. apply csum_scal. }
  rewrite csum_swap. apply csum_ext'. intros j _. rewrite csum_conj, <- csum_scal_r. apply csum_ext'. intros i _.
  rewrite Cconj_mult, Cconj_conj. ring.
Qed.
Lemma inner_ext n v w v' w' : veq n v v' -> veq n w w' -> inner n v w = inner n v' w'.
Proof. intros H H'. apply csum_ext'. intros i Hi. rewrite (H i), (H' i) by auto. reflexivity. Qed.
Theorem unitary_inner n A v w : unitary n A -> inner n (mv n A v) (mv n A w) = inner n v w.
Proof.
  intros [H _]. rewrite inner_adj. apply inner_ext; [|apply veq_refl].
  eapply veq_trans; [apply veq_sym, mv_mm|]. eapply veq_trans; [|apply mv_ident].
  intros i Hi. apply mv_ext; auto using veq_refl.
Qed.
Theorem unitary_norm n A v : unitary n A -> norm2v n (mv n A v) = norm2v n v.
Proof. intros H. apply RtoC_inj. rewrite <- !inner_norm. apply unitary_inner. exact H. Qed.
Lemma unitary_meq n A B : meq n A B -> unitary n A -> unitary n B.
Proof.
  intros H [H1 H2].
  assert (Ha : meq n (adjoint B) (adjoint A)). { intros i j Hi Hj. unfold adjoint. rewrite (H j i) by auto. reflexivity. }
  split; eapply meq_trans; [apply mm_ext; [exact Ha|apply meq_sym, H]|exact H1|apply mm_ext; [apply meq_sym, H|exact Ha]|exact H2].
Qed.
Lemma unitary_mm n A B : unitary n A -> unitary n B -> unitary n (mm n A B).
Proof.
  intros [A1 A2] [B1 B2]. split.
  - eapply meq_trans; [apply mm_ext; [apply adjoint_mm|apply meq_refl]|].
    eapply meq_trans; [apply mm_assoc|]. eapply meq_trans; [apply mm_ext; [apply meq_refl|apply meq_sym, mm_assoc]|].
    eapply meq_trans; [apply mm_ext; [apply meq_refl|apply mm_ext; [exact A1|apply meq_refl]]|].
    eapply meq_trans; [apply mm_ext; [apply meq_refl|apply mm_ident_l]|]. exact B1.
  - eapply meq_trans; [apply mm_ext; [apply meq_refl|apply adjoint_mm]|].
    eapply meq_trans; [apply mm_assoc|]. eapply meq_trans; [apply mm_ext; [apply meq_refl|apply meq_sym, mm_assoc]|].
    eapply meq_trans; [apply mm_ext; [apply meq_refl|apply mm_ext; [exact B2|apply meq_refl]]|].
    eapply meq_trans; [apply mm_ext; [apply meq_refl|apply mm_ident_l]|]. exact A2.
Qed.
Lemma unitary_ident n : unitary n ident.
Proof.
  assert (Ha : meq n (adjoint ident) ident).
  { intros i j _ _. unfold adjoint, ident. rewrite Nat.eqb_sym. destruct (Nat.eqb i j); [apply Cconj_1|apply Cconj_0]. }
  split; eapply meq_trans; [apply mm_ext; [exact Ha|apply meq_refl]|apply mm_ident_l|apply mm_ext; [apply meq_refl|exact Ha]|apply mm_ident_l].
Qed.

(* ---- setting bits ---- *)
Definition setb (i t b : nat) : nat := if Nat.eqb b 1 then Nat.setbit i t else Nat.clearbit i t.
Lemma setb_testbit i t b l : Nat.testbit (setb i t b) l = if Nat.eqb l t then Nat.eqb b 1 else Nat.testbit i l.
Proof.
  unfold setb. destruct (Nat.eqb_spec b 1) as [->|Hb].
  - rewrite Nat.setbit_eqb, (Nat.eqb_sym t l). destruct (Nat.eqb l t); reflexivity.
  - rewrite Nat.clearbit_eqb, (Nat.eqb_sym t l). destruct (Nat.eqb l t); cbn; [apply andb_false_r|apply andb_true_r].
Qed.
Lemma bit_setb i t b l : (b < 2)%nat -> bit (setb i t b) l = if Nat.eqb l t then b else bit i l.
Proof.
  intros Hb. unfold bit. rewrite setb_testbit. destruct (Nat.eqb l t); [|reflexivity].
  destruct b as [|[|b]]; cbn; auto; lia.
Qed.
Lemma lt_pow2_bits n i : (forall l, (n <= l)%nat -> Nat.testbit i l = false) -> (i < 2 ^ n)%nat.
Proof.
  intros H. destruct (Nat.eq_dec i 0) as [->|Hi]; [apply Nat.neq_0_lt_0, Nat.pow_nonzero; lia|].
  apply Nat.log2_lt_pow2; [lia|]. apply Nat.nle_gt. intros X. specialize (H _ X). rewrite Nat.bit_log2 in H by auto. discriminate.
Qed.
Lemma pow2_bits_high n i l : (i < 2 ^ n)%nat -> (n <= l)%nat -> Nat.testbit i l = false.
Proof.
  intros Hi Hl. destruct (Nat.eq_dec i 0) as [->|Hz]; [apply Nat.bits_0|].
  apply Nat.bits_above_log2. apply Nat.log2_lt_pow2 in Hi; lia.
Qed.
Lemma setb_lt n i t b : (i < 2 ^ n)%nat -> (t < n)%nat -> (setb i t b < 2 ^ n)%nat.
Proof.
  intros Hi Ht. apply lt_pow2_bits. intros l Hl. rewrite setb_testbit. destruct (Nat.eqb_spec l t); [lia|].
  exact (pow2_bits_high n i l Hi Hl).
Qed.
Lemma bits_inj_n n i j : (i < 2 ^ n)%nat -> (j < 2 ^ n)%nat -> (forall l, (l < n)%nat -> Nat.testbit i l = Nat.testbit j l) -> i = j.
Proof.
  intros Hi Hj H. apply Nat.bits_inj. intros l. destruct (Nat.lt_ge_cases l n) as [Hl|Hl]; [auto|].
  rewrite (pow2_bits_high n i l), (pow2_bits_high n j l); auto.
Qed.
Lemma testbit_bit i l : Nat.testbit i l = Nat.eqb (bit i l) 1.
Proof. unfold bit. destruct (Nat.testbit i l); reflexivity. Qed.
Lemma bit_lt2 i l : (bit i l < 2)%nat. Proof. unfold bit. destruct (Nat.testbit i l); lia. Qed.
Lemma setb_self i t : setb i t (bit i t) = i.
Proof. apply Nat.bits_inj. intros l. rewrite setb_testbit. destruct (Nat.eqb_spec l t); [subst; symmetry; apply testbit_bit|reflexivity]. Qed.
Lemma setb_setb i t b c : setb (setb i t b) t c = setb i t c.
Proof. apply Nat.bits_inj. intros l. rewrite !setb_testbit. destruct (Nat.eqb l t); reflexivity. Qed.

Lemma agree_off_spec n T i j : agree_off n T i j = true <->
  forall l, (l < n)%nat -> ~ In l T -> Nat.testbit i l = Nat.testbit j l.
Proof.
  unfold agree_off. rewrite forallb_forall. split.
  - intros H l Hl HT. specialize (H l). rewrite in_seq in H. specialize (H ltac:(lia)). apply orb_true_iff in H. destruct H as [H|H].
    + exfalso. apply HT. apply existsb_exists in H. destruct H as (x & Hx & E). apply Nat.eqb_eq in E. subst. exact Hx.
    + apply eqb_prop in H. exact H.
  - intros H l Hl. apply in_seq in Hl. apply orb_true_iff.
    destruct (existsb (Nat.eqb l) T) eqn:E; [left; reflexivity|right]. rewrite (H l) by (try lia; intros X; assert (existsb (Nat.eqb l) T = true) by (apply existsb_exists; exists l; split; [exact X|apply Nat.eqb_refl]); congruence).
    apply eqb_reflx.
Qed.
Lemma agree_off_setb_l n T i j t b : In t T -> agree_off n T (setb i t b) j = agree_off n T i j.
Proof.
  intros HT. apply Bool.eq_true_iff_eq. rewrite !agree_off_spec. split; intros H l Hl Hn; specialize (H l Hl Hn).
  - rewrite setb_testbit in H. destruct (Nat.eqb_spec l t); [subst; contradiction|exact H].
  - rewrite setb_testbit. destruct (Nat.eqb_spec l t); [subst; contradiction|exact H].
Qed.
Lemma agree_off_sym n T i j : agree_off n T i j = agree_off n T j i.
Proof. apply Bool.eq_true_iff_eq. rewrite !agree_off_spec. split; intros H l Hl Hn; symmetry; auto. Qed.
Lemma agree_off_refl n T i : agree_off n T i i = true.
Proof. apply agree_off_spec. reflexivity. Qed.
Lemma ctl_ok_setb c i t b : (forall x, In x c -> Z.to_nat (fst x) <> t) -> ctl_ok c (setb i t b) = ctl_ok c i.
Proof.
  intros H. unfold ctl_ok. apply Bool.eq_true_iff_eq. rewrite !forallb_forall. split; intros H' x Hx; specialize (H' x Hx); specialize (H x Hx);
    rewrite setb_testbit in *; destruct (Nat.eqb_spec (Z.to_nat (fst x)) t); try contradiction; exact H'.
Qed.

(* controls on other qubits *)
Definition ctl_off (c : ctls) (n : nat) (T : list nat) : Prop :=
  forall x, In x c -> (0 <= fst x < Z.of_nat n)%Z /\ ~ In (Z.to_nat (fst x)) T.
Lemma ctl_ok_agree c n T i j : ctl_off c n T -> agree_off n T i j = true -> ctl_ok c i = ctl_ok c j.
Proof.
  intros H Ha. rewrite agree_off_spec in Ha. unfold ctl_ok. apply Bool.eq_true_iff_eq. rewrite !forallb_forall.
  split; intros H' x Hx; specialize (H' x Hx); destruct (H x Hx) as [H1 H2].
  - rewrite <- Ha; auto. lia.
  - rewrite Ha; auto. lia.
Qed.

(* ---- one-qubit gates ---- *)
Section G1.
Local Open Scope C_scope.
Context (n t : nat) (Ht : (t < n)%nat).

Lemma agree1 i j : (i < 2 ^ n)%nat -> (j < 2 ^ n)%nat -> agree_off n [t] i j = true -> j = setb i t (bit j t).
Proof.
  intros Hi Hj H. rewrite agree_off_spec in H. apply (bits_inj_n n); auto using setb_lt.
  intros l Hl. rewrite setb_testbit. destruct (Nat.eqb_spec l t); [subst; apply testbit_bit|]. symmetry. apply H; auto.
  intros [X|[]]. congruence.
Qed.
Theorem gate1_action g c v i : (i < 2 ^ n)%nat ->
  mv n (gate1 n g t c) v i =
   (if ctl_ok c i then g (bit i t) 0%nat * v (setb i t 0) + g (bit i t) 1%nat * v (setb i t 1) else v i).
Proof.
  intros Hi. unfold mv.
  rewrite (csum_list [setb i t 0; setb i t 1]).
  - cbn [lsum]. unfold gate1. rewrite !(agree_off_sym n [t] i), !agree_off_setb_l by (left; reflexivity). rewrite agree_off_refl.
    rewrite !bit_setb by lia. rewrite Nat.eqb_refl. destruct (ctl_ok c i); [ring|].
    pose proof (bit_lt2 i t). pose proof (setb_self i t) as Hs. destruct (bit i t) as [|[|x]]; cbn [Nat.eqb]; [| |lia]; rewrite Hs; ring.
  - constructor; [|constructor; [intros []|constructor]]. intros [X|[]].
    assert (Hb : bit (setb i t 0) t = bit (setb i t 1) t) by congruence. rewrite !bit_setb, Nat.eqb_refl in Hb by lia. discriminate.
  - intros x [<-|[<-|[]]]; apply setb_lt; auto.
  - intros j Hj Hn. unfold gate1. destruct (agree_off n [t] i j) eqn:Ha; [|ring].
    exfalso. apply Hn. pose proof (agree1 i j Hi Hj Ha) as E. pose proof (bit_lt2 j t).
    destruct (bit j t) as [|[|x]]; [left; auto|right; left; auto|lia].
Qed.
Lemma gate1_adjoint g c : ctl_off c n [t] -> meq n (adjoint (gate1 n g t c)) (gate1 n (adjoint g) t c).
Proof.
  intros Hc i j _ _. unfold adjoint, gate1. rewrite (agree_off_sym n [t] j i). destruct (agree_off n [t] i j) eqn:Ha; [|apply Cconj_0].
  rewrite (ctl_ok_agree c n [t] i j Hc Ha). destruct (ctl_ok c j); [reflexivity|]. rewrite Nat.eqb_sym.
  destruct (Nat.eqb (bit i t) (bit j t)); [apply Cconj_1|apply Cconj_0].
Qed.
Lemma gate1_mm g h c : ctl_off c n [t] -> meq n (mm n (gate1 n g t c) (gate1 n h t c)) (gate1 n (mm 1 g h) t c).
Proof.
  intros Hc i j Hi Hj. transitivity (mv n (gate1 n g t c) (fun k => gate1 n h t c k j) i); [reflexivity|].
  rewrite gate1_action by auto. unfold gate1. rewrite !agree_off_setb_l by (left; reflexivity).
  rewrite !(ctl_ok_setb c i t) by (intros x Hx X; apply (proj2 (Hc x Hx)); left; auto).
  rewrite !bit_setb, Nat.eqb_refl by lia. destruct (agree_off n [t] i j); destruct (ctl_ok c i); try ring.
  unfold mm. cbn [Nat.pow Nat.mul Nat.add csum]. ring.
Qed.
Lemma gate1_ident c : meq n (gate1 n ident t c) ident.
Proof.
  intros i j Hi Hj. unfold gate1, ident. destruct (agree_off n [t] i j) eqn:Ha.
  - replace (Nat.eqb i j) with (Nat.eqb (bit i t) (bit j t)); [destruct (ctl_ok c i); reflexivity|].
    pose proof (agree1 i j Hi Hj Ha) as E. apply Bool.eq_true_iff_eq. rewrite !Nat.eqb_eq. split; [|intros ->; reflexivity].
    intros Hb. rewrite E, <- Hb. symmetry. apply setb_self.
  - destruct (Nat.eqb_spec i j); [|reflexivity]. subst. rewrite agree_off_refl in Ha. discriminate.
Qed.
Lemma gate1_meq g h c : meq 1 g h -> meq n (gate1 n g t c) (gate1 n h t c).
Proof.
  intros H i j _ _. unfold gate1. rewrite (H (bit i t) (bit j t)); [reflexivity| |]; cbn; apply bit_lt2.
Qed.
Theorem gate1_unitary g c : ctl_off c n [t] -> unitary 1 g -> unitary n (gate1 n g t c).
Proof.
  intros Hc [H1 H2]. split.
  - eapply meq_trans; [apply mm_ext; [apply gate1_adjoint, Hc|apply meq_refl]|].
    eapply meq_trans; [apply gate1_mm, Hc|]. eapply meq_trans; [apply gate1_meq, H1|apply gate1_ident].
  - eapply meq_trans; [apply mm_ext; [apply meq_refl|apply gate1_adjoint, Hc]|].
    eapply meq_trans; [apply gate1_mm, Hc|]. eapply meq_trans; [apply gate1_meq, H2|apply gate1_ident].
Qed.
End G1.

(* ---- two-qubit gates ---- *)
Section G2.
Local Open Scope C_scope.
Context (n hi lo : nat) (Hh : (hi < n)%nat) (Hl : (lo < n)%nat) (Hne : hi <> lo).
Definition set2 (i a b : nat) : nat := setb (setb i hi a) lo b.
Lemma set2_testbit i a b l : Nat.testbit (set2 i a b) l =
  if Nat.eqb l lo then Nat.eqb b 1 else if Nat.eqb l hi then Nat.eqb a 1 else Nat.testbit i l.
Proof. unfold set2. rewrite setb_testbit. destruct (Nat.eqb l lo); [reflexivity|]. apply setb_testbit. Qed.
Lemma set2_lt i a b : (i < 2 ^ n)%nat -> (set2 i a b < 2 ^ n)%nat.
Proof. intros H. unfold set2. auto using setb_lt. Qed.
Lemma bit_set2_hi i a b : (a < 2)%nat -> bit (set2 i a b) hi = a.
Proof.
  intros Ha. unfold bit. rewrite set2_testbit. destruct (Nat.eqb_spec hi lo); [contradiction|]. rewrite Nat.eqb_refl.
  destruct a as [|[|a]]; cbn; auto; lia.
Qed.
Lemma bit_set2_lo i a b : (b < 2)%nat -> bit (set2 i a b) lo = b.
Proof. intros Hb. unfold bit. rewrite set2_testbit, Nat.eqb_refl. destruct b as [|[|b]]; cbn; auto; lia. Qed.
Lemma agree2 i j : (i < 2 ^ n)%nat -> (j < 2 ^ n)%nat -> agree_off n [hi; lo] i j = true -> j = set2 i (bit j hi) (bit j lo).
Proof.
  intros Hi Hj H. rewrite agree_off_spec in H. apply (bits_inj_n n); auto using set2_lt.
  intros l Hl'. rewrite set2_testbit. destruct (Nat.eqb_spec l lo); [subst; apply testbit_bit|]. destruct (Nat.eqb_spec l hi); [subst; apply testbit_bit|].
  symmetry. apply H; auto. intros [X|[X|[]]]; congruence.
Qed.
Lemma agree2_set i j a b : agree_off n [hi; lo] (set2 i a b) j = agree_off n [hi; lo] i j.
Proof. unfold set2. rewrite !agree_off_setb_l; auto; [left; auto|right; left; auto]. Qed.
Lemma set2_self i : set2 i (bit i hi) (bit i lo) = i.
Proof. unfold set2. rewrite setb_self, setb_self. reflexivity. Qed.
Definition idx2 (i : nat) : nat := (2 * bit i hi + bit i lo)%nat.
Lemma idx2_lt i : (idx2 i < 4)%nat.
Proof. unfold idx2. pose proof (bit_lt2 i hi). pose proof (bit_lt2 i lo). lia. Qed.
Theorem gate2_action g c v i : (i < 2 ^ n)%nat ->
  mv n (gate2 n g hi lo c) v i =
   (if ctl_ok c i then g (idx2 i) 0%nat * v (set2 i 0 0) + g (idx2 i) 1%nat * v (set2 i 0 1) +
                       g (idx2 i) 2%nat * v (set2 i 1 0) + g (idx2 i) 3%nat * v (set2 i 1 1)
    else v i).
Proof.
  intros Hi. unfold mv.
  rewrite (csum_list [set2 i 0 0; set2 i 0 1; set2 i 1 0; set2 i 1 1]).
  - cbn [lsum]. unfold gate2. rewrite !(agree_off_sym n [hi; lo] i), !agree2_set. rewrite agree_off_refl.
    rewrite !bit_set2_hi, !bit_set2_lo by lia. fold (idx2 i). cbn [Nat.mul Nat.add]. destruct (ctl_ok c i); [ring|].
    pose proof (bit_lt2 i hi). pose proof (bit_lt2 i lo). pose proof (set2_self i) as Hs.
    destruct (bit i hi) as [|[|x]]; [| |lia]; destruct (bit i lo) as [|[|y]]; try lia; cbn [Nat.eqb andb]; rewrite Hs; ring.
  - assert (D : forall a b a' b', (a < 2)%nat -> (b < 2)%nat -> (a' < 2)%nat -> (b' < 2)%nat -> set2 i a b = set2 i a' b' -> a = a' /\ b = b').
    { intros a b a' b' A B A' B' X. split.
      - rewrite <- (bit_set2_hi i a b A), X. apply bit_set2_hi. exact A'.
      - rewrite <- (bit_set2_lo i a b B), X. apply bit_set2_lo. exact B'. }
    assert (D' : forall a b a' b', (a < 2)%nat -> (b < 2)%nat -> (a' < 2)%nat -> (b' < 2)%nat -> (a <> a' \/ b <> b') -> set2 i a b <> set2 i a' b').
    { intros a b a' b' A B A' B' X Y. apply D in Y; auto. lia. }
    constructor; [|constructor; [|constructor; [|constructor; [intros []|constructor]]]].
    + intros [X|[X|[X|[]]]]; revert X; apply D'; lia.
    + intros [X|[X|[]]]; revert X; apply D'; lia.
    + intros [X|[]]; revert X; apply D'; lia.
  - intros x [<-|[<-|[<-|[<-|[]]]]]; apply set2_lt; auto.
  - intros j Hj Hn. unfold gate2. destruct (agree_off n [hi; lo] i j) eqn:Ha; [|ring].
    exfalso. apply Hn. pose proof (agree2 i j Hi Hj Ha) as E. pose proof (bit_lt2 j hi). pose proof (bit_lt2 j lo).
    destruct (bit j hi) as [|[|x]]; [| |lia]; destruct (bit j lo) as [|[|y]]; try lia; rewrite E; cbn; auto.
Qed.
Lemma gate2_adjoint g c : ctl_off c n [hi; lo] -> meq n (adjoint (gate2 n g hi lo c)) (gate2 n (adjoint g) hi lo c).
Proof.
  intros Hc i j _ _. unfold adjoint, gate2. rewrite (agree_off_sym n [hi; lo] j i). destruct (agree_off n [hi; lo] i j) eqn:Ha; [|apply Cconj_0].
  rewrite (ctl_ok_agree c n [hi; lo] i j Hc Ha). destruct (ctl_ok c j); [reflexivity|].
  rewrite (Nat.eqb_sym (bit j hi)), (Nat.eqb_sym (bit j lo)).
  destruct (Nat.eqb (bit i hi) (bit j hi) && Nat.eqb (bit i lo) (bit j lo)); [apply Cconj_1|apply Cconj_0].
Qed.
Lemma ctl_ok_set2 c i a b : ctl_off c n [hi; lo] -> ctl_ok c (set2 i a b) = ctl_ok c i.
Proof.
  intros Hc. unfold set2. rewrite !ctl_ok_setb; auto; intros x Hx X; apply (proj2 (Hc x Hx)); [left|right; left]; auto.
Qed.
Lemma gate2_mm g h c : ctl_off c n [hi; lo] -> meq n (mm n (gate2 n g hi lo c) (gate2 n h hi lo c)) (gate2 n (mm 2 g h) hi lo c).
Proof.
  intros Hc i j Hi Hj. transitivity (mv n (gate2 n g hi lo c) (fun k => gate2 n h hi lo c k j) i); [reflexivity|].
  rewrite gate2_action by auto. unfold gate2. rewrite !agree2_set. rewrite !(ctl_ok_set2 c i) by exact Hc.
  rewrite !bit_set2_hi, !bit_set2_lo by lia. destruct (agree_off n [hi; lo] i j); destruct (ctl_ok c i); try ring.
  unfold mm. cbn [Nat.pow Nat.mul Nat.add csum]. unfold idx2. cbn [Nat.mul]. rewrite !Nat.add_0_r. ring.
Qed.
Lemma gate2_ident c : meq n (gate2 n ident hi lo c) ident.
Proof.
  intros i j Hi Hj. unfold gate2, ident. destruct (agree_off n [hi; lo] i j) eqn:Ha.
  - pose proof (agree2 i j Hi Hj Ha) as E.
    assert (E1 : Nat.eqb i j = Nat.eqb (bit i hi) (bit j hi) && Nat.eqb (bit i lo) (bit j lo)).
    { apply Bool.eq_true_iff_eq. rewrite andb_true_iff, !Nat.eqb_eq. split; [intros ->; auto|].
      intros [Ha' Hb']. rewrite E, <- Ha', <- Hb'. symmetry. apply set2_self. }
    assert (E2 : Nat.eqb (2 * bit i hi + bit i lo) (2 * bit j hi + bit j lo) = Nat.eqb (bit i hi) (bit j hi) && Nat.eqb (bit i lo) (bit j lo)).
    { pose proof (bit_lt2 i hi). pose proof (bit_lt2 i lo). pose proof (bit_lt2 j hi). pose proof (bit_lt2 j lo).
      apply Bool.eq_true_iff_eq. rewrite andb_true_iff, !Nat.eqb_eq. lia. }
    rewrite E1, E2. destruct (ctl_ok c i); reflexivity.
  - destruct (Nat.eqb_spec i j); [|reflexivity]. subst. rewrite agree_off_refl in Ha. discriminate.
Qed.
Lemma gate2_meq g h c : meq 2 g h -> meq n (gate2 n g hi lo c) (gate2 n h hi lo c).
Proof.
  intros H i j _ _. unfold gate2. rewrite (H (2 * bit i hi + bit i lo)%nat (2 * bit j hi + bit j lo)%nat); [reflexivity| |]; apply idx2_lt.
Qed.
Theorem gate2_unitary g c : ctl_off c n [hi; lo] -> unitary 2 g -> unitary n (gate2 n g hi lo c).
Proof.
  intros Hc [H1 H2]. split.
  - eapply meq_trans; [apply mm_ext; [apply gate2_adjoint, Hc|apply meq_refl]|].
    eapply meq_trans; [apply gate2_mm, Hc|]. eapply meq_trans; [apply gate2_meq, H1|apply gate2_ident].
  - eapply meq_trans; [apply mm_ext; [apply meq_refl|apply gate2_adjoint, Hc]|].
    eapply meq_trans; [apply gate2_mm, Hc|]. eapply meq_trans; [apply gate2_meq, H2|apply gate2_ident].
Qed.
End G2.
