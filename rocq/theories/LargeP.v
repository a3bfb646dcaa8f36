(* LargeP.v -- C25: makeLargeGate. *)
From Coq Require Import Reals Lra Psatz ZArith Bool List Lia Arith Sorted Permutation.
From Coquelicot Require Import Complex.
From Verif Require Import Num State DD Gates GC Measure Api Large RNum Wf Sums Err Inv Wp Make Add MulV Canon MM MM2
  GateP StateP Kron Spec SpecP Readout MeasureP MeasAllP GCP MeasOneP ApplyP ApiP Obs Props1.
Import ListNotations.
Open Scope nat_scope.

(* ---- specification -------------------------------------------------------- *)
(* the matrix index of basis state i: bit k is qubit T_k *)
Fixpoint gather_from (k : nat) (T : list nat) (i : nat) : nat :=
  match T with [] => 0 | t :: r => bit i t * 2 ^ k + gather_from (S k) r i end.
Definition gather := gather_from 0.
(* apply the 2^|T| x 2^|T| matrix g to the qubits T *)
Definition gate_on (n : nat) (g : matrix) (T : list nat) : matrix :=
  fun i j => if agree_off n T i j then g (gather T i) (gather T j) else RtoC 0.

(* ---- lists ------------------------------------------------------------------- *)
Definition pack (ls : list nat) (i : nat) : nat := gather_from 0 ls i.
Lemma gather_from_app k a b i : gather_from k (a ++ b) i = gather_from k a i + gather_from (k + length a) b i.
Proof.
  revert k. induction a as [|t a IH]; intros k; cbn [app gather_from length]; [now rewrite Nat.add_0_r|].
  rewrite IH. replace (S k + length a) with (k + S (length a)) by lia. lia.
Qed.
Lemma bit_le i l : bit i l <= 1.
Proof. unfold bit. destruct (Nat.testbit i l); lia. Qed.
Lemma gather_from_scale k ls i : gather_from k ls i = gather_from 0 ls i * 2 ^ k.
Proof.
  revert k. induction ls as [|t r IH]; intros k; cbn [gather_from]; [lia|].
  rewrite (IH (S k)), (IH 1). cbn [Nat.pow]. nia.
Qed.
Lemma pack_lt ls i : pack ls i < 2 ^ length ls.
Proof.
  unfold pack. induction ls as [|t r IH]; cbn [gather_from length]; [cbn; lia|].
  rewrite gather_from_scale. cbn [Nat.pow]. pose proof (bit_le i t). lia.
Qed.
Lemma pack_snoc ls l i : pack (ls ++ [l]) i = pack ls i + bit i l * 2 ^ length ls.
Proof. unfold pack. rewrite gather_from_app. cbn [gather_from]. rewrite Nat.add_0_l. lia. Qed.

(* conversion map *)
Fixpoint wsum (es : list nat) (x : nat) : nat :=
  match es with [] => 0 | e :: r => (x mod 2) * 2 ^ e + wsum r (x / 2) end.
Definition cstep (cm : list nat) (e : nat) : list nat := cm ++ map (fun x => x + 2 ^ e) cm.
Lemma wsum_snoc es e x : wsum (es ++ [e]) x = wsum es x + ((x / 2 ^ length es) mod 2) * 2 ^ e.
Proof.
  revert x. induction es as [|a es IH]; intros x; cbn [app wsum length].
  - cbn [Nat.pow]. rewrite Nat.div_1_r. lia.
  - rewrite IH. rewrite Nat.div_div by (try apply Nat.pow_nonzero; lia). cbn [Nat.pow]. lia.
Qed.
Lemma wsum_mod es x m : length es <= m -> wsum es (x mod 2 ^ m) = wsum es x.
Proof.
  revert x m. induction es as [|a es IH]; intros x m Hm; cbn [wsum length] in *; auto.
  destruct m as [|m]; [lia|].
  assert (Hp : 2 ^ m <> 0) by (apply Nat.pow_nonzero; lia).
  f_equal.
  - f_equal. cbn [Nat.pow]. replace (2 * 2 ^ m) with (2 ^ m * 2) by lia.
    rewrite (Nat.mul_comm (2 ^ m) 2), Nat.mod_mul_r by lia.
    rewrite Nat.add_mod, Nat.mod_mod, (Nat.mul_comm 2), Nat.mod_mul, Nat.add_0_r, Nat.mod_mod by lia. reflexivity.
  - rewrite <- (IH (x / 2) m) by lia. f_equal. cbn [Nat.pow].
    rewrite Nat.mod_mul_r by lia.
    rewrite (Nat.mul_comm 2 ((x / 2) mod 2 ^ m)), Nat.div_add by lia.
    rewrite Nat.div_small by (apply Nat.mod_upper_bound; lia). lia.
Qed.
Lemma cstep_len cm e : length (cstep cm e) = 2 * length cm.
Proof. unfold cstep. rewrite app_length, map_length. lia. Qed.
Lemma cfold_len es cm : length (fold_left cstep es cm) = 2 ^ length es * length cm.
Proof.
  revert cm. induction es as [|e es IH]; intros cm; cbn [fold_left length Nat.pow]; [lia|]. rewrite IH, cstep_len. lia.
Qed.
Lemma cfold_nth es x : x < 2 ^ length es -> nth x (fold_left cstep es [0]) 0 = wsum es x.
Proof.
  revert x. induction es as [|e es IH] using rev_ind; intros x Hx.
  - cbn in Hx. assert (x = 0) by lia. now subst.
  - rewrite fold_left_app. cbn [fold_left]. rewrite app_length in Hx. cbn [length] in Hx. rewrite Nat.add_1_r in Hx. cbn [Nat.pow] in Hx.
    pose proof (cfold_len es [0]) as Hl. cbn [length] in Hl. rewrite Nat.mul_1_r in Hl.
    assert (Hp : 2 ^ length es <> 0) by (apply Nat.pow_nonzero; lia).
    rewrite wsum_snoc. set (F := fold_left cstep es [0]) in *. unfold cstep. destruct (Nat.lt_ge_cases x (2 ^ length es)) as [h|h].
    + rewrite app_nth1 by lia. rewrite IH by auto. rewrite (Nat.div_small x) by auto. change (0 mod 2) with 0. lia.
    + rewrite app_nth2 by lia. rewrite Hl. rewrite (nth_indep _ 0 (0 + 2 ^ e)) by (rewrite map_length; lia).
      rewrite (map_nth (fun x => x + 2 ^ e)). rewrite IH by lia.
      rewrite <- (wsum_mod es x (length es)) by lia.
      assert (Hq : x / 2 ^ length es = 1) by (symmetry; apply Nat.div_unique with (r := x - 2 ^ length es); lia).
      assert (Hm : x mod 2 ^ length es = x - 2 ^ length es) by (symmetry; apply Nat.mod_unique with (q := 1); lia).
      rewrite Hq, Hm. cbn [Nat.modulo Nat.divmod fst snd Nat.sub]. lia.
Qed.
Lemma cfold_prefix es cm x : x < length cm -> nth x (fold_left cstep es cm) 0 = nth x cm 0.
Proof.
  revert cm. induction es as [|e es IH]; intros cm Hx; cbn [fold_left]; auto.
  rewrite IH by (rewrite cstep_len; lia). unfold cstep at 1. now rewrite app_nth1.
Qed.
Lemma conv_loop_fold mem tc is cm : (forall i, In i is -> read_tc mem tc i <> None) ->
  conv_loop mem tc is cm = Some (fold_left cstep (map (fun i => match read_tc mem tc i with Some e => e | None => 0 end) is) cm).
Proof.
  revert cm. induction is as [|i is IH]; intros cm H; cbn [conv_loop map fold_left]; auto.
  destruct (read_tc mem tc i) as [e|] eqn:He; [|exfalso; apply (H i); [now left|auto]].
  rewrite IH by (intros; apply H; now right). reflexivity.
Qed.
(* whatever lies behind the vector, the first 2^k entries are those of the k targets *)
Lemma conversion_spec mem tc rows : (forall i, mem i <> None) -> length tc <= rows ->
  exists cm, conversion_map mem tc rows = Some cm /\ forall x, x < 2 ^ length tc -> nth x cm 0 = wsum tc x.
Proof.
  intros Hm Hr. unfold conversion_map. rewrite conv_loop_fold.
  2: { intros i _. unfold read_tc. destruct (nth_error tc i); [discriminate|apply Hm]. }
  eexists. split; [reflexivity|]. intros x Hx.
  replace rows with (length tc + (rows - length tc)) by lia. rewrite seq_app, map_app, fold_left_app.
  assert (Hmap : map (fun i => match read_tc mem tc i with Some e => e | None => 0 end) (seq 0 (length tc)) = tc).
  { apply nth_ext with (d := 0) (d' := 0); [now rewrite map_length, seq_length|]. intros n Hn. rewrite map_length, seq_length in Hn.
    set (f := fun i => match read_tc mem tc i with Some e => e | None => 0 end).
    rewrite (nth_indep _ 0 (f 0)) by (rewrite map_length, seq_length; auto). rewrite map_nth, seq_nth by auto. cbn [Nat.add].
    unfold f, read_tc. now rewrite (nth_error_nth' tc 0 Hn). }
  rewrite Hmap. pose proof (cfold_len tc [0]) as Hl. cbn [length] in Hl.
  rewrite cfold_prefix by lia. now apply cfold_nth.
Qed.

(* wsum of a packed index *)
Lemma wsum_pack tc ls i : length tc = length ls ->
  wsum tc (pack ls i) = fold_right (fun p a => bit i (snd p) * 2 ^ fst p + a) 0 (combine tc ls).
Proof.
  revert ls. induction tc as [|e tc IH]; intros [|l ls] H; cbn [length] in H; try discriminate; auto.
  cbn [combine fold_right wsum fst snd]. unfold pack. cbn [gather_from]. rewrite gather_from_scale. cbn [Nat.pow].
  pose proof (bit_le i l). rewrite Nat.mul_1_r, (Nat.mul_comm _ 2).
  replace (bit i l + 2 * gather_from 0 ls i) with (bit i l + gather_from 0 ls i * 2) by lia.
  rewrite Nat.mod_add, Nat.div_add by lia. rewrite Nat.mod_small, Nat.div_small by lia. cbn [Nat.add].
  f_equal. apply IH. lia.
Qed.
Lemma fold_perm i a b : Permutation a b ->
  fold_right (fun (p : nat * nat) x => bit i (snd p) * 2 ^ fst p + x) 0 a = fold_right (fun p x => bit i (snd p) * 2 ^ fst p + x) 0 b.
Proof. induction 1; cbn [fold_right]; lia. Qed.
Lemma gather_fold T i k : gather_from k T i =
  fold_right (fun (p : nat * nat) x => bit i (snd p) * 2 ^ fst p + x) 0 (map (fun m => (k + m, nth m T 0)) (seq 0 (length T))).
Proof.
  revert k. induction T as [|t T IH]; intros k; cbn [gather_from length seq map fold_right fst snd nth]; auto.
  rewrite Nat.add_0_r. f_equal. rewrite IH. f_equal. rewrite <- seq_shift, map_map. apply map_ext. intros m. f_equal. lia.
Qed.

(* sorting *)
Lemma ins_by_perm f x l : Permutation (x :: l) (ins_by f x l).
Proof.
  induction l as [|y r IH]; cbn [ins_by]; auto. destruct (f x <? f y); auto.
  rewrite perm_swap. now constructor.
Qed.
Lemma sort_by_perm f l : Permutation l (sort_by f l).
Proof. induction l as [|x l IH]; cbn; auto. rewrite <- ins_by_perm. now constructor. Qed.
Lemma ins_by_sorted f x l : ~ In (f x) (map f l) -> StronglySorted lt (map f l) -> StronglySorted lt (map f (ins_by f x l)).
Proof.
  induction l as [|y r IH]; intros Hn Hs; cbn [ins_by map].
  - repeat constructor.
  - cbn [map] in Hs, Hn. inversion Hs as [|? ? Hs' Hf]; subst. destruct (Nat.ltb_spec (f x) (f y)).
    + cbn [map]. constructor; auto. constructor; auto. eapply Forall_impl; [|exact Hf]. cbn. intros; lia.
    + assert (f x <> f y) by (intros h; apply Hn; left; auto).
      cbn [map]. constructor; [apply IH; auto; intros h; apply Hn; now right|].
      rewrite Forall_forall in *. intros z Hz. apply in_map_iff in Hz as (w & <- & Hw).
      apply (Permutation_in _ (Permutation_sym (ins_by_perm f x r))) in Hw. destruct Hw as [<-|Hw]; [lia|]. apply Hf. now apply in_map.
Qed.
Lemma sort_by_sorted f l : NoDup (map f l) -> StronglySorted lt (map f (sort_by f l)).
Proof.
  induction l as [|x l IH]; cbn; intros H; [constructor|]. inversion H as [|? ? H1 H2]; subst.
  apply ins_by_sorted; auto. intros h. apply H1. eapply Permutation_in; [|exact h]. apply Permutation_map, Permutation_sym, sort_by_perm.
Qed.
Lemma ssorted_unique (a b : list nat) : StronglySorted lt a -> StronglySorted lt b -> (forall x, In x a <-> In x b) -> a = b.
Proof.
  intros Ha. revert b. induction Ha as [|x a Ha IH Hx]; intros b Hb Hi.
  - destruct b as [|y b]; auto. exfalso. apply (Logic.proj2 (Hi y)). now left.
  - destruct Hb as [|y b Hb Hy]; [exfalso; apply (Logic.proj1 (Hi x)); now left|].
    rewrite Forall_forall in Hx, Hy.
    assert (x = y).
    { destruct (Logic.proj1 (Hi x) (or_introl eq_refl)) as [e|h]; auto. destruct (Logic.proj2 (Hi y) (or_introl eq_refl)) as [e|h']; auto.
      specialize (Hx _ h'). specialize (Hy _ h). lia. }
    subst y. f_equal. apply IH; auto. intros z. split; intros Hz.
    + destruct (Logic.proj1 (Hi z) (or_intror Hz)) as [e|h]; auto. subst z. specialize (Hx _ Hz). lia.
    + destruct (Logic.proj2 (Hi z) (or_intror Hz)) as [e|h]; auto. subst z. specialize (Hy _ Hz). lia.
Qed.
Lemma seq_ssorted a n : StronglySorted lt (seq a n).
Proof.
  revert a. induction n as [|n IH]; intros a; cbn; constructor; auto. rewrite Forall_forall. intros x Hx. apply in_seq in Hx. lia.
Qed.
Lemma filter_ssorted f l : StronglySorted lt l -> StronglySorted lt (filter f l).
Proof.
  induction 1 as [|x l Hl IH Hf]; cbn; [constructor|]. destruct (f x); auto. constructor; auto.
  rewrite Forall_forall in *. intros y Hy. apply filter_In in Hy. now apply Hf.
Qed.
Lemma map_nth_seq (T : list nat) : map (fun i => nth i T 0) (seq 0 (length T)) = T.
Proof.
  apply nth_ext with (d := 0) (d' := 0); [now rewrite map_length, seq_length|]. intros n Hn. rewrite map_length, seq_length in Hn.
  set (f := fun i => nth i T 0). rewrite (nth_indep _ 0 (f 0)) by (rewrite map_length, seq_length; auto).
  rewrite map_nth, seq_nth by auto. reflexivity.
Qed.
Definition unskipped (T : list nat) (n : nat) : list nat := filter (fun l => existsb (Nat.eqb l) T) (seq 0 n).
Lemma existsb_In l T : existsb (Nat.eqb l) T = true <-> In l T.
Proof.
  rewrite existsb_exists. split; [intros (x & Hx & He); apply Nat.eqb_eq in He; now subst|].
  intros h. exists l. split; auto. apply Nat.eqb_refl.
Qed.
Lemma tcomp_levels T n : NoDup T -> (forall t, In t T -> t < n) ->
  map (fun i => nth i T 0) (tcomp T) = unskipped T n.
Proof.
  intros HN Hn. apply ssorted_unique.
  - apply sort_by_sorted. now rewrite map_nth_seq.
  - apply filter_ssorted, seq_ssorted.
  - intros x. unfold unskipped. rewrite filter_In, in_seq, existsb_In.
    assert (Hp : Permutation T (map (fun i => nth i T 0) (tcomp T))).
    { rewrite <- (map_nth_seq T) at 1. apply Permutation_map, sort_by_perm. }
    split.
    + intros h. apply (Permutation_in _ (Permutation_sym Hp)) in h. split; auto. specialize (Hn _ h). lia.
    + intros [_ h]. now apply (Permutation_in _ Hp).
Qed.
Lemma tcomp_len T : length (tcomp T) = length T.
Proof. unfold tcomp. rewrite <- (Permutation_length (sort_by_perm _ _)). apply seq_length. Qed.
(* the converted packed index is the gathered one *)
Lemma conv_gather T n i : NoDup T -> (forall t, In t T -> t < n) ->
  wsum (tcomp T) (pack (unskipped T n) i) = gather T i.
Proof.
  intros HN Hn. rewrite <- (tcomp_levels T n) by auto. rewrite wsum_pack by now rewrite map_length.
  unfold gather. rewrite gather_fold.
  assert (Hc : combine (tcomp T) (map (fun i => nth i T 0) (tcomp T)) = map (fun m => (0 + m, nth m T 0)) (tcomp T)).
  { generalize (tcomp T) as l. induction l as [|x l IH]; cbn [map combine]; auto. now rewrite IH. }
  rewrite Hc. apply fold_perm. apply Permutation_map, Permutation_sym, sort_by_perm.
Qed.
Lemma unskipped_len T n : NoDup T -> (forall t, In t T -> t < n) -> length (unskipped T n) = length T.
Proof. intros. rewrite <- (tcomp_levels T n) by auto. now rewrite map_length, tcomp_len. Qed.

Lemma min_list_spec l : l <> [] -> In (min_list l) l /\ forall x, In x l -> min_list l <= x.
Proof.
  unfold min_list. destruct l as [|a l]; [congruence|]. intros _. cbn [nth fold_right].
  assert (H : forall l, (In (fold_right Nat.min a l) (a :: l)) /\ forall x, In x (a :: l) -> fold_right Nat.min a l <= x).
  { clear. induction l as [|b l [IH1 IH2]]; cbn [fold_right].
    - split; [now left|]. intros x [<-|[]]. auto.
    - split.
      + destruct (Nat.min_spec b (fold_right Nat.min a l)) as [[_ ->]|[_ ->]]; [right; now left|].
        destruct IH1 as [h|h]; [left; auto|right; now right].
      + intros x [<-|[<-|Hx]]; [specialize (IH2 a (or_introl eq_refl)); lia|lia|specialize (IH2 x (or_intror Hx)); lia]. }
  destruct (H l) as [H1 H2]. split.
  - destruct (Nat.min_spec a (fold_right Nat.min a l)) as [[_ ->]|[_ ->]]; [now left|exact H1].
  - intros x Hx. specialize (H2 x Hx). lia.
Qed.

Section LargeP.
Context (tau : R) {HTol : Tol tau}.
Let Htau : (0 <= tau < 1 / 2)%R := tol_ok.
#[local] Hint Extern 0 NumOps => exact (RNum tau) : typeclass_instances.
Context {CF : Cfg}.
Notation state := (@state (RNum tau)).
Notation edge := (@edge (RNum tau)).
Notation Inv := (Inv tau).
Notation rel := (rel tau).
Notation dn := (dn tau).
Notation returns := (returns tau).
Notation reads_m := (reads_m tau).
Notation reads_m_upto := (reads_m_upto tau).
Ltac toR := change (@num (RNum tau)) with R in *.

Notation Z0 := (fun _ : nat -> nat => RtoC 0).
(* what the recursion denotes *)
Fixpoint largeF (g : matrix) (skip : nat -> bool) (tmin d r0 w k0 : nat) : (nat -> nat) -> C :=
  match d with
  | O => ch_F [fun ix => Cmult (g r0 k0) (idF tmin ix); fun ix => Cmult (g r0 (k0 + 1)) (idF tmin ix);
               fun ix => Cmult (g (r0 + 1) k0) (idF tmin ix); fun ix => Cmult (g (r0 + 1) (k0 + 1)) (idF tmin ix)] tmin
  | S d' =>
      if skip (tmin + d) then ch_F [largeF g skip tmin d' r0 w k0; Z0; Z0; largeF g skip tmin d' r0 w k0] (tmin + d)
      else ch_F [largeF g skip tmin d' r0 (w / 2) k0; largeF g skip tmin d' r0 (w / 2) (k0 + w / 2);
                 largeF g skip tmin d' (r0 + w / 2) (w / 2) k0; largeF g skip tmin d' (r0 + w / 2) (w / 2) (k0 + w / 2)] (tmin + d)
  end.
Fixpoint cnt (skip : nat -> bool) (tmin d : nat) : nat :=
  match d with O => 1 | S d' => (if skip (tmin + d) then 0 else 1) + cnt skip tmin d' end.

Lemma ch_F_bound (fs : list ((nat -> nat) -> C)) z ix B : (0 <= B)%R -> (forall f, In f fs -> Cmod (f ix) <= B)%R -> (Cmod (ch_F fs z ix) <= B)%R.
Proof.
  intros HB H. unfold ch_F. rewrite <- (map_nth (fun f : (nat -> nat) -> C => f ix)) with (d := Z0) || idtac.
  destruct (nth_in_or_default (ix z) (map (fun f : (nat -> nat) -> C => f ix) fs) (RtoC 0)) as [h|h].
  - apply in_map_iff in h as (f & <- & Hf). auto.
  - rewrite h, Cmod_0. auto.
Qed.
Lemma largeF_bound g skip tmin rows B : (0 <= B)%R -> (forall i j, i < rows -> j < rows -> (Cmod (g i j) <= B)%R) ->
  forall d r0 k0 ix, r0 + 2 ^ cnt skip tmin d <= rows -> k0 + 2 ^ cnt skip tmin d <= rows ->
  (Cmod (largeF g skip tmin d r0 (2 ^ cnt skip tmin d) k0 ix) <= B)%R.
Proof.
  intros HB Hg. induction d as [|d IH]; intros r0 k0 ix Hr Hk; cbn [largeF cnt] in *.
  - cbn in Hr, Hk. apply ch_F_bound; auto.
    assert (H : forall a b, a < rows -> b < rows -> (Cmod (Cmult (g a b) (idF tmin ix)) <= B)%R).
    { intros a b Ha Hb. rewrite Cmod_mult. pose proof (idF_le1 tmin ix). pose proof (Cmod_ge_0 (idF tmin ix)).
      pose proof (Hg a b Ha Hb). pose proof (Cmod_ge_0 (g a b)). nra. }
    intros f [<-|[<-|[<-|[<-|[]]]]]; apply H; lia.
  - destruct (skip (tmin + S d)); cbn [Nat.add] in *.
    + apply ch_F_bound; auto. intros f [<-|[<-|[<-|[<-|[]]]]]; try (rewrite Cmod_0; auto); apply IH; auto.
    + cbn [Nat.pow] in *. replace (2 * 2 ^ cnt skip tmin d / 2) with (2 ^ cnt skip tmin d) by (rewrite Nat.mul_comm, Nat.div_mul; lia).
      apply ch_F_bound; auto. intros f [<-|[<-|[<-|[<-|[]]]]]; apply IH; lia.
Qed.

Lemma wpr_large g skip tmin rows B : (0 <= B)%R -> (forall i j, i < rows -> j < rows -> (Cmod (g i j) <= B)%R) ->
  forall d r0 k0 s (Q : post tau), Inv s -> (Z.of_nat (tmin + d) < NQUBITS)%Z ->
  r0 + 2 ^ cnt skip tmin d <= rows -> k0 + 2 ^ cnt skip tmin d <= rows ->
  (forall e s', rel s s' -> dn KM (S (tmin + d)) (largeF g skip tmin d r0 (2 ^ cnt skip tmin d) k0) (egate tau (S (tmin + d)) B) e s' -> Q e s') ->
  wpr tau (large_rec g skip tmin d r0 (r0 + 2 ^ cnt skip tmin d) k0 (k0 + 2 ^ cnt skip tmin d)) Q s.
Proof.
  intros HB Hg. induction d as [|d IH]; intros r0 k0 s Q HI Hn Hr Hk HQ; cbn [large_rec].
  - cbn [cnt] in *. replace (r0 + 2 ^ 1 - r0) with 2 by (cbn; lia). replace (k0 + 2 ^ 1 - k0) with 2 by (cbn; lia). cbn [Nat.eqb andb].
    rewrite Nat.add_0_r in *. cbn [Nat.pow Nat.mul Nat.add] in Hr, Hk.
    pose proof (egate_pos tau tmin B HB) as He.
    assert (Hb : forall a b, a < rows -> b < rows -> forall ix, (Cmod (Cmult (g a b) (idF tmin ix)) <= B)%R).
    { intros a b Ha Hb ix. rewrite Cmod_mult. pose proof (idF_le1 tmin ix). pose proof (Cmod_ge_0 (idF tmin ix)).
      pose proof (Hg a b Ha Hb). pose proof (Cmod_ge_0 (g a b)). nra. }
    apply (wpr_mk4 tau B tmin s _ _ _ _ (fun ix => Cmult (g r0 k0) (idF tmin ix)) (fun ix => Cmult (g r0 (k0 + 1)) (idF tmin ix))
      (fun ix => Cmult (g (r0 + 1) k0) (idF tmin ix)) (fun ix => Cmult (g (r0 + 1) (k0 + 1)) (idF tmin ix)) Q); auto;
      try (apply (dn_term tau); auto); try (apply Hb; lia).
  - cbn [cnt] in *. destruct (skip (tmin + S d)) eqn:Hs; cbn [Nat.add] in Hr, Hk |- *.
    + apply (wpr_bind tau); auto. apply IH; auto; try lia. intros e s1 R1 D1. pose proof (rel_inv _ _ _ R1) as I1.
      replace (S (tmin + d)) with (tmin + S d) in D1 by lia.
      pose proof (egate_pos tau (tmin + S d) B HB) as He.
      assert (H0 : dn KM (tmin + S d) Z0 (egate tau (tmin + S d) B) zeroE s1) by (now apply (dn_zeroE tau)).
      assert (B0 : forall ix : nat -> nat, (Cmod (RtoC 0) <= B)%R) by (intros; rewrite Cmod_0; lra).
      assert (BF : forall ix, (Cmod (largeF g skip tmin d r0 (2 ^ cnt skip tmin d) k0 ix) <= B)%R) by (intros; eapply largeF_bound; eauto).
      apply (wpr_mk4 tau B (tmin + S d) s1 _ _ _ _ _ _ _ _ Q I1 Hn HB D1 H0 H0 D1); auto.
      intros e' s' R' D'. apply HQ; [eapply rel_trans; eauto|]. cbn [largeF]. rewrite Hs. exact D'.
    + change (2 ^ (1 + cnt skip tmin d)) with (2 * 2 ^ cnt skip tmin d) in HQ. cbn [Nat.pow] in *. set (w := 2 ^ cnt skip tmin d) in *.
      replace ((r0 + (r0 + 2 * w)) / 2) with (r0 + w) by (replace (r0 + (r0 + 2 * w)) with ((r0 + w) * 2) by lia; now rewrite Nat.div_mul).
      replace ((k0 + (k0 + 2 * w)) / 2) with (k0 + w) by (replace (k0 + (k0 + 2 * w)) with ((k0 + w) * 2) by lia; now rewrite Nat.div_mul).
      replace (r0 + 2 * w) with (r0 + w + w) by lia. replace (k0 + 2 * w) with (k0 + w + w) by lia.
      replace (S (tmin + S d)) with (S (S (tmin + d))) in HQ by lia.
      assert (Hn' : (Z.of_nat (tmin + d) < NQUBITS)%Z) by lia.
      apply (wpr_bind tau); auto. apply IH; auto; try lia. intros e0 s1 R1 D0. pose proof (rel_inv _ _ _ R1) as I1.
      apply (wpr_bind tau); auto. apply IH; auto; try lia. intros e1 s2 R2 D1. pose proof (rel_inv _ _ _ R2) as I2.
      apply (wpr_bind tau); auto. apply IH; auto; try lia. intros e2 s3 R3 D2. pose proof (rel_inv _ _ _ R3) as I3.
      apply (wpr_bind tau); auto. apply IH; auto; try lia. intros e3 s4 R4 D3. pose proof (rel_inv _ _ _ R4) as I4.
      assert (D0' := dn_stable tau _ _ _ _ _ _ _ I1 (rel_trans _ _ _ _ R2 (rel_trans _ _ _ _ R3 R4)) D0).
      assert (D1' := dn_stable tau _ _ _ _ _ _ _ I2 (rel_trans _ _ _ _ R3 R4) D1).
      assert (D2' := dn_stable tau _ _ _ _ _ _ _ I3 R4 D2).
      replace (tmin + S d) with (S (tmin + d)) in * by lia.
      assert (BF : forall a b, a + w <= rows -> b + w <= rows -> forall ix, (Cmod (largeF g skip tmin d a w b ix) <= B)%R)
        by (intros; unfold w; eapply largeF_bound; eauto).
      apply (wpr_mk4 tau B (S (tmin + d)) s4 _ _ _ _ _ _ _ _ Q I4 Hn HB D0' D1' D2' D3); try (apply BF; lia).
      intros e' s' R' D'. apply HQ.
      * eapply rel_trans; [exact R1|]. eapply rel_trans; [exact R2|]. eapply rel_trans; [exact R3|]. eapply rel_trans; eauto.
      * cbn [largeF]. replace (tmin + S d) with (S (tmin + d)) by lia. rewrite Hs.
        replace (2 * w / 2) with w by (rewrite Nat.mul_comm, Nat.div_mul; lia). exact D'.
Qed.

Lemma mix4 i j l : mix i j l < 4.
Proof. unfold mix, bit. destruct (Nat.testbit i l), (Nat.testbit j l); cbn; lia. Qed.
Lemma ch_mix (fa fb fc fd : (nat -> nat) -> C) z i j :
  ch_F [fa; fb; fc; fd] z (mix i j) =
  (if Nat.testbit i z then if Nat.testbit j z then fd else fc else if Nat.testbit j z then fb else fa) (mix i j).
Proof.
  unfold ch_F. cbn [map]. assert (H : mix i j z = 2 * bit i z + bit j z) by reflexivity. rewrite H. unfold bit.
  destruct (Nat.testbit i z), (Nat.testbit j z); reflexivity.
Qed.
Lemma agree_off_S n T i j : agree_off (S n) T i j = agree_off n T i j && (existsb (Nat.eqb n) T || Bool.eqb (Nat.testbit i n) (Nat.testbit j n)).
Proof. unfold agree_off. rewrite seq_snoc, forallb_app. cbn. now rewrite andb_true_r. Qed.
Lemma idF_mix z i j T : (forall t, In t T -> z <= t) -> idF z (mix i j) = if agree_off z T i j then RtoC 1 else RtoC 0.
Proof.
  intros HT. induction z as [|z IH]; [reflexivity|]. cbn [idF]. rewrite agree_off_S, IH by (intros t h; specialize (HT t h); lia).
  assert (He : existsb (Nat.eqb z) T = false).
  { apply not_true_is_false. intros h. apply existsb_In in h. specialize (HT z h). lia. }
  rewrite He. cbn [orb]. unfold mix, bit. destruct (agree_off z T i j), (Nat.testbit i z), (Nat.testbit j z); cbn; ring.
Qed.
(* the unskipped levels in [0, n) *)
Lemma unskipped_S T n : unskipped T (S n) = unskipped T n ++ (if existsb (Nat.eqb n) T then [n] else []).
Proof. unfold unskipped. rewrite seq_snoc, filter_app. cbn [filter]. now destruct (existsb (Nat.eqb n) T). Qed.
Lemma unskipped_below T n : (forall t, In t T -> n <= t) -> unskipped T n = [].
Proof.
  induction n as [|n IH]; intros H; [reflexivity|]. rewrite unskipped_S, IH by (intros t h; specialize (H t h); lia).
  destruct (existsb (Nat.eqb n) T) eqn:He; auto. apply existsb_In in He. specialize (H n He). lia.
Qed.
Lemma largeF_spec g T tmin (skip := fun l => negb (existsb (Nat.eqb l) T)) : In tmin T -> (forall t, In t T -> tmin <= t) ->
  forall d r0 k0 i j, length (unskipped T (S (tmin + d))) = cnt skip tmin d /\
  largeF g skip tmin d r0 (2 ^ cnt skip tmin d) k0 (mix i j) =
   if agree_off (S (tmin + d)) T i j then g (r0 + pack (unskipped T (S (tmin + d))) i) (k0 + pack (unskipped T (S (tmin + d))) j) else RtoC 0.
Proof.
  intros Hin Hmin. pose proof (Logic.proj2 (existsb_In tmin T) Hin) as He.
  induction d as [|d IH]; intros r0 k0 i j.
  - rewrite Nat.add_0_r. rewrite unskipped_S, unskipped_below, He by auto. cbn [app]. split; [reflexivity|].
    cbn [largeF].
    replace (ch_F _ tmin (mix i j)) with (Cmult (g (r0 + bit i tmin) (k0 + bit j tmin)) (idF tmin (mix i j))).
    + rewrite (idF_mix _ _ _ T), agree_off_S, He, orb_true_l, andb_true_r by auto.
      unfold pack. cbn [gather_from Nat.pow]. rewrite !Nat.mul_1_r, !Nat.add_0_r.
      destruct (agree_off tmin T i j); ring.
    + rewrite ch_mix. unfold bit. destruct (Nat.testbit i tmin), (Nat.testbit j tmin); cbn [Nat.mul Nat.add nth]; rewrite ?Nat.add_0_r; reflexivity.
  - replace (tmin + S d) with (S (tmin + d)) by lia. set (L := S (tmin + d)) in *. rewrite unskipped_S.
    destruct (IH r0 k0 i j) as [IHl _]. cbn [cnt largeF]. replace (tmin + S d) with L by (unfold L; lia).
    rewrite agree_off_S. assert (Hsk : skip L = negb (existsb (Nat.eqb L) T)) by reflexivity. rewrite Hsk. clear Hsk.
    destruct (existsb (Nat.eqb L) T) eqn:HL; cbn [negb].
    + split; [rewrite app_length, IHl; cbn; lia|]. cbn [Nat.add Nat.pow]. rewrite orb_true_l, andb_true_r.
      set (w := 2 ^ cnt skip tmin d) in *.
      replace (2 * w / 2) with w by (rewrite Nat.mul_comm, Nat.div_mul; lia).
      rewrite !pack_snoc, IHl. fold w.
      transitivity (largeF g skip tmin d (r0 + bit i L * w) w (k0 + bit j L * w) (mix i j)).
      * rewrite ch_mix. unfold bit. destruct (Nat.testbit i L), (Nat.testbit j L); cbn [Nat.mul Nat.add nth]; rewrite ?Nat.add_0_r; reflexivity.
      * unfold w. rewrite (Logic.proj2 (IH _ _ i j)). fold w. rewrite <- !Nat.add_assoc. rewrite (Nat.add_comm (bit i L * w)), (Nat.add_comm (bit j L * w)). reflexivity.
    + split; [now rewrite app_nil_r|]. cbn [Nat.add orb]. rewrite app_nil_r.
      rewrite ch_mix.
      destruct (Nat.testbit i L), (Nat.testbit j L); cbn [Nat.mul Nat.add nth Bool.eqb]; rewrite ?andb_true_r, ?andb_false_r; auto; apply IH.
Qed.

Lemma pow2_land k : Nat.land (2 ^ k) (2 ^ k - 1) = 0.
Proof.
  replace (2 ^ k - 1) with (Nat.ones k) by (rewrite Nat.ones_equiv; lia). rewrite Nat.land_ones. apply Nat.mod_same, Nat.pow_nonzero. lia.
Qed.
Lemma land_pow2 m : m <> 0 -> Nat.land m (m - 1) = 0 -> exists k, m = 2 ^ k.
Proof.
  intros Hm Hl. exists (Nat.log2 m). destruct (Nat.log2_spec m ltac:(lia)) as [H1 H2].
  destruct (Nat.eq_dec m (2 ^ Nat.log2 m)) as [e|e]; [exact e|]. exfalso. assert (Hm1 : m <> 1) by (intros ->; apply e; reflexivity).
  assert (Hb : Nat.testbit (Nat.land m (m - 1)) (Nat.log2 m) = true).
  { rewrite Nat.land_spec, Nat.bit_log2 by lia. cbn [andb].
    replace (Nat.log2 m) with (Nat.log2 (m - 1)); [apply Nat.bit_log2; lia|].
    apply Nat.log2_unique; [lia|]. cbn [Nat.pow] in *. lia. }
  rewrite Hl, Nat.bits_0 in Hb. discriminate.
Qed.

(* the checks all pass *)
Lemma largeGate_accepts mem n (g : gmat) T : T <> [] -> (forall t, In t T -> t < n) ->
  makeLargeGate mem n g (2 ^ length T) (2 ^ length T) T =
  match conversion_map mem (tcomp T) (2 ^ length T) with
  | None => None
  | Some cm =>
      let g' := fun i j => if (i <? 2 ^ length T) && (j <? 2 ^ length T) then g (nth i cm 0) (nth j cm 0) else g i j in
      Some (Ret (g', large_rec g' (fun l => negb (existsb (Nat.eqb l) T)) (min_list T) (n - 1 - min_list T) 0 (2 ^ length T) 0 (2 ^ length T)))
  end.
Proof.
  intros HT Hn. unfold makeLargeGate.
  assert (Hp : 2 ^ length T <> 0) by (apply Nat.pow_nonzero; lia).
  assert (H1 : 2 ^ length T <> 1).
  { destruct T as [|t T]; [congruence|]. cbn [length Nat.pow]. pose proof (Nat.pow_nonzero 2 (length T) ltac:(lia)). lia. }
  rewrite (Logic.proj2 (Nat.eqb_neq _ _) Hp), (Logic.proj2 (Nat.eqb_neq _ _) H1), pow2_land, Nat.eqb_refl, Nat.log2_pow2, !Nat.eqb_refl by lia. cbn [negb Nat.eqb].
  destruct (conversion_map mem (tcomp T) (2 ^ length T)); auto.
  replace (forallb (fun t => t <? n) T) with true; auto. symmetry. apply forallb_forall. intros t Ht. apply Nat.ltb_lt. auto.
Qed.

(* C25 for every content of the memory behind target_compresed: whatever the
   out-of-bounds reads return, the gate built is the right one.  Missing: the
   reads themselves are undefined behaviour, see C25_refuted. *)
Theorem C25_makeLargeGate_partial s hs mem n (g : gmat) T B : reachable (s, hs) -> size_ok n ->
  T <> [] -> NoDup T -> (forall t, In t T -> t < n) -> (forall i, mem i <> None) -> (0 <= B)%R ->
  (forall i j, i < 2 ^ length T -> j < 2 ^ length T -> (Cmod (g i j) <= B)%R) ->
  exists g' c, makeLargeGate mem n g (2 ^ length T) (2 ^ length T) T = Some (Ret (g', c)) /\
  returns c s (fun e s' => reads_m_upto (egate tau n B) s' n e (gate_on n g T) /\
    (tau = 0%R -> reads_m s' n e (gate_on n g T))).
Proof.
  intros Hr Hs HT HN Hn Hm HB Hg. pose proof (reach_Inv tau _ _ Hr) as HI.
  rewrite largeGate_accepts by auto. set (rows := 2 ^ length T) in *.
  destruct (conversion_spec mem (tcomp T) rows Hm) as (cm & -> & Hcm).
  { rewrite tcomp_len. unfold rows. apply Nat.lt_le_incl, Nat.pow_gt_lin_r. lia. }
  rewrite tcomp_len in Hcm. fold rows in Hcm.
  cbv zeta. eexists _, _. split; [reflexivity|].
  set (g' := fun i j => if (i <? rows) && (j <? rows) then g (nth i cm 0) (nth j cm 0) else g i j).
  destruct (min_list_spec T HT) as [M1 M2]. set (tmin := min_list T) in *. specialize (Hn tmin M1) as Hmn.
  set (skip := fun l => negb (existsb (Nat.eqb l) T)). set (d := n - 1 - tmin).
  assert (Hd : S (tmin + d) = n) by (unfold d; lia).
  assert (Hun := unskipped_len T n HN Hn).
  assert (Hcnt : cnt skip tmin d = length T).
  { rewrite <- Hun, <- Hd. symmetry. apply (largeF_spec g T tmin M1 M2 d 0 0 0 0). }
  assert (Hr2 : 2 ^ cnt skip tmin d = rows) by (now rewrite Hcnt).
  assert (Hcv : forall i, nth (pack (unskipped T n) i) cm 0 = gather T i).
  { intros i. rewrite Hcm; [now apply conv_gather|]. unfold rows. rewrite <- Hun. apply pack_lt. }
  assert (Hgl : forall i, gather T i < rows) by (intros; apply pack_lt).
  assert (Hsurj : forall i, i < rows -> exists k, k < rows /\ nth i cm 0 = k).
  { intros i Hi. exists (nth i cm 0). split; auto. rewrite Hcm by auto. clear - Hi HN Hn Hun Htau Hcm.
    (* every index below rows is a packed one *)
    set (b := fold_right (fun (p : nat * nat) a => (if Nat.testbit i (fst p) then 2 ^ snd p else 0) + a) 0
                (combine (seq 0 (length T)) (unskipped T n))).
    assert (Hpk : exists b, pack (unskipped T n) b = i).
    { clear b. unfold rows in Hi. rewrite <- Hun in Hi. assert (HU : NoDup (unskipped T n)).
      { apply NoDup_filter, seq_NoDup. }
      revert i Hi HU. generalize (unskipped T n) as U. clear. induction U as [|u U IH] using rev_ind; intros i Hi HU.
      - exists 0. cbn in *. lia.
      - rewrite app_length in Hi. cbn [length] in Hi. rewrite Nat.add_1_r in Hi. cbn [Nat.pow] in Hi.
        apply NoDup_remove in HU as [HU Hnin]. rewrite app_nil_r in *.
        assert (Hp : 2 ^ length U <> 0) by (apply Nat.pow_nonzero; lia).
        destruct (IH (i mod 2 ^ length U)) as (b & Hb); auto; [now apply Nat.mod_upper_bound|].
        exists (if i <? 2 ^ length U then Nat.clearbit b u else Nat.setbit b u). rewrite pack_snoc.
        assert (Hsame : forall b', (forall l, l <> u -> Nat.testbit b' l = Nat.testbit b l) -> pack U b' = pack U b).
        { intros b' Hb'. unfold pack. clear - Hb' Hnin. generalize 0. induction U as [|v U IH]; intros k; cbn [gather_from]; auto.
          f_equal; [|apply IH; intros h; apply Hnin; now right]. unfold bit. rewrite Hb'; auto. intros ->. apply Hnin. now left. }
        rewrite Hsame.
        2: { intros l Hl. destruct (i <? 2 ^ length U); [apply Nat.clearbit_neq|apply Nat.setbit_neq]; auto. }
        rewrite Hb. destruct (Nat.ltb_spec i (2 ^ length U)).
        + unfold bit. rewrite Nat.clearbit_eq. rewrite Nat.mod_small; lia.
        + unfold bit. rewrite Nat.setbit_eq.
          rewrite <- (Nat.mod_unique i (2 ^ length U) 1 (i - 2 ^ length U)); lia. }
    destruct Hpk as (c & Hc). rewrite <- Hc, conv_gather by auto. apply pack_lt. }
  assert (Hg' : forall i j, i < rows -> j < rows -> (Cmod (g' i j) <= B)%R).
  { intros i j Hi Hj. unfold g'. rewrite (Logic.proj2 (Nat.ltb_lt _ _) Hi), (Logic.proj2 (Nat.ltb_lt _ _) Hj). cbn [andb].
    destruct (Hsurj i Hi) as (k & Hk & ->). destruct (Hsurj j Hj) as (k' & Hk' & ->). auto. }
  destruct Hs as [Hs1 Hs2].
  eapply (wpr_returns tau) with (Q := dn KM n (largeF g' skip tmin d 0 rows 0) (egate tau n B)); [exact HI| |].
  - rewrite <- Hr2 at 1 2. rewrite <- Hr2.
    apply (wpr_large g' skip tmin rows B HB Hg' d 0 0 s); auto; try lia.
    rewrite Hd. auto.
  - intros e s' R' D. pose proof (rel_inv _ _ _ R') as I'.
    assert (HF : meq n (matF (largeF g' skip tmin d 0 rows 0)) (gate_on n g T)).
    { intros i j Hi Hj. unfold matF. rewrite <- Hr2. unfold skip. rewrite (Logic.proj2 (largeF_spec g' T tmin M1 M2 d 0 0 i j)).
      rewrite Hd. unfold gate_on. destruct (agree_off n T i j); auto. cbn [Nat.add].
      unfold g'. pose proof (pack_lt (unskipped T n) i) as P1. pose proof (pack_lt (unskipped T n) j) as P2. rewrite Hun in P1, P2. fold rows in P1, P2.
      rewrite (Logic.proj2 (Nat.ltb_lt _ _) P1), (Logic.proj2 (Nat.ltb_lt _ _) P2). cbn [andb]. now rewrite !Hcv. }
    assert (Hu : reads_m_upto (egate tau n B) s' n e (gate_on n g T)) by (eapply (dn_reads_m tau); eauto).
    split; auto. intros H0. eapply (upto_0_m tau); [|exact Hu]. apply (egate_0 tau); exact H0.
Qed.

(* The full property ("never reads out of bounds") is false: every accepted call
   on at least one qubit reads target_compresed[i] for all |T| <= i < 2^|T|. *)
Theorem C25_refuted mem n (g : gmat) T i : T <> [] -> (forall t, In t T -> t < n) ->
  length T <= i < 2 ^ length T -> mem i = None ->
  makeLargeGate mem n g (2 ^ length T) (2 ^ length T) T = None.
Proof.
  intros HT Hn Hi Hm. rewrite largeGate_accepts by auto.
  assert (Hc : forall is cm, In i is -> conv_loop mem (tcomp T) is cm = None).
  { induction is as [|x is IH]; intros cm h; [destruct h|]. cbn [conv_loop]. destruct (Nat.eq_dec x i) as [->|hne].
    - unfold read_tc. rewrite (Logic.proj2 (nth_error_None (tcomp T) i)) by (rewrite tcomp_len; lia). now rewrite Hm.
    - destruct h as [h|h]; [congruence|]. destruct (read_tc mem (tcomp T) x); auto. }
  unfold conversion_map. rewrite Hc; auto. apply in_seq. lia.
Qed.

(* rejections and degenerate sizes *)
Theorem C25_checks mem n (g : gmat) rows cols T :
  (rows = 0 -> makeLargeGate mem n g rows cols T = Some (Ret (g, CRet oneE))) /\
  (0 < rows -> (forall k, rows <> 2 ^ k) -> makeLargeGate mem n g rows cols T = Some Throw) /\
  (0 < rows -> rows <> cols -> makeLargeGate mem n g rows cols T = Some Throw) /\
  (rows = 1 -> cols = 1 -> makeLargeGate mem n g rows cols T = Some (Ret (g, CRet (termE (g 0 0))))) /\
  (forall k, 0 < k -> k <> length T -> makeLargeGate mem n g (2 ^ k) (2 ^ k) T = Some Throw).
Proof.
  unfold makeLargeGate. split; [|split; [|split; [|split]]].
  - intros ->. reflexivity.
  - intros H0 H. rewrite (Logic.proj2 (Nat.eqb_neq rows 0)) by lia. destruct (Nat.eqb_spec (Nat.land rows (rows - 1)) 0) as [h|h]; auto.
    exfalso. destruct (land_pow2 rows ltac:(lia) h) as (k & Hk). exact (H k Hk).
  - intros H0 H. rewrite (Logic.proj2 (Nat.eqb_neq rows 0)) by lia. destruct (Nat.eqb_spec (Nat.land rows (rows - 1)) 0); auto. cbn [negb].
    destruct (Nat.eqb_spec rows cols); [contradiction|auto].
  - intros -> ->. reflexivity.
  - intros k H0 H. pose proof (Nat.pow_nonzero 2 k ltac:(lia)). rewrite (Logic.proj2 (Nat.eqb_neq (2 ^ k) 0)) by lia.
    rewrite pow2_land. cbn [Nat.eqb negb]. rewrite Nat.eqb_refl. cbn [negb].
    rewrite (Logic.proj2 (Nat.eqb_neq (2 ^ k) 1)) by (destruct k; [lia|]; cbn [Nat.pow] in *; lia).
    rewrite Nat.log2_pow2 by lia. rewrite (Logic.proj2 (Nat.eqb_neq k (length T))) by auto. reflexivity.
Qed.

(* the call overwrites the caller's matrix; for ascending targets (and so for
   the overload without targets) with itself *)
Lemma sort_by_id f l : StronglySorted lt (map f l) -> sort_by f l = l.
Proof.
  induction l as [|x l IH]; cbn [sort_by fold_right map]; intros H; auto. inversion H as [|? ? H1 H2]; subst. fold (sort_by f l). rewrite IH by auto.
  destruct l as [|y l]; auto. cbn [ins_by]. inversion H2; subst. cbn [map] in *. now rewrite (Logic.proj2 (Nat.ltb_lt _ _)).
Qed.
Lemma wsum_seq k : forall a x, x < 2 ^ k -> wsum (seq a k) x = x * 2 ^ a.
Proof.
  induction k as [|k IH]; intros a x Hx; cbn [seq wsum Nat.pow] in *; [lia|].
  rewrite IH by (apply Nat.div_lt_upper_bound; lia). cbn [Nat.pow]. pose proof (Nat.div_mod x 2 ltac:(lia)). nia.
Qed.
Theorem C25_argument_preserved mem n (g : gmat) T g' c : T <> [] -> StronglySorted lt T -> (forall t, In t T -> t < n) -> (forall i, mem i <> None) ->
  makeLargeGate mem n g (2 ^ length T) (2 ^ length T) T = Some (Ret (g', c)) -> forall i j, g' i j = g i j.
Proof.
  intros HT Hs Hn Hm. rewrite largeGate_accepts by auto.
  destruct (conversion_spec mem (tcomp T) (2 ^ length T) Hm) as (cm & -> & Hcm).
  { rewrite tcomp_len. apply Nat.lt_le_incl, Nat.pow_gt_lin_r. lia. }
  cbv zeta. intros He i j. injection He as <- _. rewrite tcomp_len in Hcm.
  assert (Hid : forall x, x < 2 ^ length T -> nth x cm 0 = x).
  { intros x Hx. rewrite Hcm by auto. unfold tcomp. rewrite sort_by_id by now rewrite map_nth_seq. rewrite wsum_seq by auto. cbn. lia. }
  destruct (Nat.ltb_spec i (2 ^ length T)), (Nat.ltb_spec j (2 ^ length T)); cbn [andb]; rewrite ?Hid by auto; auto.
Qed.
(* a concrete call: 4x4 matrix, targets 1 and 0 in descending order *)
Theorem C25_argument_overwritten (g : gmat) (mem : nat -> option nat) : (forall i, mem i <> None) ->
  exists g' c, makeLargeGate mem 2 g 4 4 [1; 0] = Some (Ret (g', c)) /\ g' 1 3 = g 2 3 /\ g' 3 1 = g 3 2.
Proof.
  intros Hm. unfold makeLargeGate. cbn [Nat.eqb negb Nat.land Nat.sub Nat.log2 length]. 
  unfold conversion_map. cbn [seq conv_loop read_tc nth_error tcomp sort_by].
  change (tcomp [1; 0]) with [1; 0]. cbn [read_tc nth_error app map Nat.pow Nat.add Nat.mul].
  destruct (mem 2) as [a|] eqn:Ha; [|now apply Hm in Ha]. destruct (mem 3) as [b|] eqn:Hb; [|now apply Hm in Hb].
  cbn. eexists _, _. split; [reflexivity|]. split; reflexivity.
Qed.
End LargeP.
