(* EstimatorQ.v -- property C43, second part: which experiment the Estimator reads
   for each term. *)
From Coq Require Import Reals ZArith Bool List Lia Arith Permutation Sorted.
From Coquelicot Require Import Complex.
From Verif Require Import Spec Backend Estimator.
Import ListNotations.
Open Scope nat_scope.

(* ---- first occurrences, in order ---- *)
Section Firsts.
Context {A : Type} (dec : forall x y : A, {x = y} + {x <> y}).
Definition addf (l : list A) (x : A) : list A := if in_dec dec x l then l else l ++ [x].
Definition firsts (l : list A) : list A := fold_left addf l [].
Lemma addf_In l x y : In y (addf l x) <-> In y l \/ y = x.
Proof.
  unfold addf. destruct (in_dec dec x l); [|rewrite in_app_iff; cbn]; intuition (subst; auto).
Qed.
Lemma addf_all_In l : forall acc y, In y (fold_left addf l acc) <-> In y acc \/ In y l.
Proof.
  induction l as [|x l IH]; intros acc y; cbn [fold_left]; [cbn; tauto|]. rewrite IH, addf_In. cbn. intuition (subst; auto).
Qed.
Lemma firsts_In l y : In y (firsts l) <-> In y l.
Proof. unfold firsts. rewrite addf_all_In. cbn. tauto. Qed.
Lemma NoDup_snoc (l : list A) x : NoDup l -> ~ In x l -> NoDup (l ++ [x]).
Proof.
  intros H Hx. apply (Permutation_NoDup (l := x :: l)); [apply Permutation_cons_append|]. now constructor.
Qed.
Lemma firsts_NoDup l : NoDup (firsts l).
Proof.
  unfold firsts. assert (H : NoDup (@nil A)) by constructor. revert H. generalize (@nil A) as acc.
  induction l as [|x l IH]; intros acc H; cbn [fold_left]; auto. apply IH. unfold addf. destruct (in_dec dec x acc); auto. now apply NoDup_snoc.
Qed.
Lemma firsts_snoc l x : firsts (l ++ [x]) = addf (firsts l) x.
Proof. unfold firsts. now rewrite fold_left_app. Qed.
Lemma addf_absorb l : forall acc, (forall x, In x l -> In x acc) -> fold_left addf l acc = acc.
Proof.
  induction l as [|x l IH]; intros acc H; cbn [fold_left]; auto. unfold addf at 2. destruct (in_dec dec x acc) as [_|n]; [|exfalso; apply n, H; now left].
  apply IH. intros y Hy. apply H. now right.
Qed.
Lemma firsts_id l : NoDup l -> firsts l = l.
Proof.
  unfold firsts. assert (G : forall l acc, NoDup (acc ++ l) -> fold_left addf l acc = acc ++ l).
  { clear. induction l as [|x l IH]; intros acc H; cbn [fold_left]; [now rewrite app_nil_r|]. unfold addf at 2. destruct (in_dec dec x acc) as [h|h].
    - exfalso. apply NoDup_remove_2 in H. apply H. apply in_or_app. now left.
    - rewrite IH; rewrite <- app_assoc; auto. }
  intros H. now rewrite G.
Qed.
Lemma fold_addf_flat {B} (k : B -> A) (h : B -> nat) l : (forall x, In x l -> h x <> 0) -> forall acc,
  fold_left addf (flat_map (fun x => repeat (k x) (h x)) l) acc = fold_left addf (map k l) acc.
Proof.
  induction l as [|x l IH]; intros H acc; cbn [flat_map map fold_left]; auto.
  rewrite fold_left_app, IH by (intros y Hy; apply H; now right). f_equal.
  assert (Hx : h x <> 0) by (apply H; now left). destruct (h x) as [|m]; [congruence|]. cbn [repeat fold_left].
  apply addf_absorb. intros y Hy. apply repeat_spec in Hy as ->. apply addf_In. now right.
Qed.
End Firsts.

(* ---- dictionaries ---- *)
Lemma aget_aset {A} (d : list (nat * A)) k x j : aget (aset d k x) j = if j =? k then Some x else aget d j.
Proof.
  induction d as [|[k' y] d IH]; cbn; [reflexivity|]. destruct (Nat.eqb_spec k k') as [->|Hn]; cbn; [now destruct (j =? k')|].
  rewrite IH. destruct (Nat.eqb_spec j k'), (Nat.eqb_spec j k); subst; congruence.
Qed.
Lemma aget_None {A} (d : list (nat * A)) k : aget d k = None <-> ~ In k (map fst d).
Proof.
  induction d as [|[k' y] d IH]; cbn; [tauto|]. destruct (Nat.eqb_spec k k') as [->|Hn]; [|rewrite IH; intuition congruence].
  split; [discriminate|]. intros h. exfalso. auto.
Qed.
Lemma aset_keys {A} (d : list (nat * A)) k x : map fst (aset d k x) = addf Nat.eq_dec (map fst d) k.
Proof.
  induction d as [|[k' y] d IH]; [reflexivity|]. cbn [aset]. destruct (Nat.eqb_spec k k') as [->|Hn]; cbn [map fst]; unfold addf.
  - destruct (in_dec _ _ _) as [|n]; [reflexivity|]. exfalso. apply n. now left.
  - rewrite IH. unfold addf. destruct (in_dec Nat.eq_dec k (map fst d)) as [h|h], (in_dec Nat.eq_dec k (k' :: map fst d)) as [h'|h']; auto.
    + exfalso. apply h'. now right.
    + exfalso. destruct h' as [h'|h']; [congruence|contradiction].
Qed.
Lemma aset_same {A} (d : list (nat * A)) k x : aget d k = Some x -> aset d k x = d.
Proof.
  induction d as [|[k' y] d IH]; cbn; [discriminate|]. destruct (Nat.eqb_spec k k') as [->|]; [congruence|]. intros H. now rewrite IH.
Qed.
Lemma aget_In {A} (d : list (nat * A)) k x : NoDup (map fst d) -> (In (k, x) d <-> aget d k = Some x).
Proof.
  induction d as [|[k' y] d IH]; cbn; intros H; [split; [tauto|discriminate]|]. inversion H as [|? ? H1 H2]; subst. specialize (IH H2).
  destruct (Nat.eqb_spec k k') as [->|Hn]; [|rewrite <- IH; intuition congruence]. split.
  - intros [E|E]; [congruence|]. exfalso. apply H1. apply (in_map fst) in E. exact E.
  - intros E. left. congruence.
Qed.
(* a dictionary built by updating one key after another *)
Definition kfilter {X} (k : nat) (l : list (nat * X)) : list X := map snd (filter (fun kx => fst kx =? k) l).
Lemma upd_fold {A X} (f : option A -> X -> A) (l : list (nat * X)) :
  let d := fold_left (fun d kx => aset d (fst kx) (f (aget d (fst kx)) (snd kx))) l [] in
  map fst d = firsts Nat.eq_dec (map fst l) /\
  forall k, aget d k = fold_left (fun acc x => Some (f acc x)) (kfilter k l) None.
Proof.
  induction l as [|[k x] l IH] using rev_ind; cbn zeta in *; [split; reflexivity|]. destruct IH as [H1 H2].
  rewrite fold_left_app. cbn [fold_left fst snd]. split.
  - rewrite aset_keys, H1, map_app. cbn [map fst]. now rewrite firsts_snoc.
  - intros j. rewrite aget_aset, !H2. unfold kfilter at 3. rewrite filter_app. cbn [filter fst]. rewrite (Nat.eqb_sym k j).
    destruct (Nat.eqb_spec j k) as [->|]; cbn [map].
    + rewrite map_app. cbn [map snd]. fold (kfilter k l). rewrite fold_left_app. reflexivity.
    + rewrite app_nil_r. reflexivity.
Qed.

(* ---- sorted ---- *)
Lemma ins_perm x l : Permutation (ins x l) (x :: l).
Proof. induction l as [|y l IH]; cbn; auto. destruct (x <=? y); auto. rewrite IH. constructor. Qed.
Lemma ins_comm x y l : ins x (ins y l) = ins y (ins x l).
Proof.
  induction l as [|z l IH]; cbn [ins].
  - destruct (Nat.leb_spec x y), (Nat.leb_spec y x); try reflexivity; try lia. assert (x = y) as -> by lia. reflexivity.
  - destruct (Nat.leb_spec x z), (Nat.leb_spec y z); cbn [ins]; repeat match goal with |- context [?a <=? ?b] => destruct (Nat.leb_spec a b) end; try reflexivity; try lia.
    + assert (x = y) as -> by lia. reflexivity.
    + now rewrite IH.
Qed.
Lemma sorted_perm l l' : Permutation l l' -> sorted l = sorted l'.
Proof.
  unfold sorted. intros H. induction H; cbn; auto.
  - now rewrite IHPermutation.
  - apply ins_comm.
  - congruence.
Qed.
Lemma sorted_incr l : (forall a b, a < b < length l -> nth a l 0 <= nth b l 0) -> sorted l = l.
Proof.
  unfold sorted. induction l as [|x l IH]; intros H; [reflexivity|]. cbn [fold_right]. rewrite IH.
  - destruct l as [|y l]; [reflexivity|]. cbn [ins]. specialize (H 0 1). cbn in H. rewrite (proj2 (Nat.leb_le x y)) by lia. reflexivity.
  - intros a b Hab. apply (H (S a) (S b)). cbn. lia.
Qed.
Lemma sorted_app_le l1 l2 : sorted l1 = l1 -> sorted l2 = l2 -> (forall a b, In a l1 -> In b l2 -> a <= b) -> sorted (l1 ++ l2) = l1 ++ l2.
Proof.
  unfold sorted. intros H1 H2 H. rewrite fold_right_app, H2. clear H2. revert H1. induction l1 as [|x l1 IH]; intros H1; [reflexivity|].
  cbn [fold_right app] in *.
  assert (E1 : fold_right ins [] l1 = l1).
  { clear -H1. revert H1.
    destruct (fold_right ins [] l1) as [|y m] eqn:E; cbn [ins]; intros H1.
    - injection H1 as <-. reflexivity.
    - destruct (x <=? y) eqn:Ey; [injection H1 as <-; reflexivity|]. injection H1 as -> H1. rewrite Nat.leb_refl in Ey. discriminate. }
  rewrite IH; auto.
  - destruct l1 as [|y l1]; cbn [app ins].
    + destruct l2 as [|y l2]; [reflexivity|]. cbn [ins]. rewrite (proj2 (Nat.leb_le x y)) by (apply H; left; reflexivity). reflexivity.
    + destruct (Nat.leb_spec x y) as [_|h]; [reflexivity|]. exfalso. rewrite E1 in H1. cbn [ins] in H1. destruct (Nat.leb_spec x y); [lia|]. injection H1 as -> _. lia.
  - intros a b Ha Hb. apply H; auto. now right.
Qed.
Lemma sorted_repeat b n : sorted (repeat b n) = repeat b n.
Proof.
  apply sorted_incr. intros x y Hxy. rewrite repeat_length in Hxy.
  assert (E : forall x, x < n -> nth x (repeat b n) 0 = b) by (intros u Hu; apply (repeat_spec n b), nth_In; now rewrite repeat_length).
  rewrite !E by lia. lia.
Qed.
Lemma flat_map_seq_snoc {B} (f : nat -> list B) g : flat_map f (seq 0 (S g)) = flat_map f (seq 0 g) ++ f g.
Proof. rewrite seq_S, flat_map_app. cbn. now rewrite app_nil_r. Qed.
Lemma sorted_groups (L : nat -> nat) g : sorted (flat_map (fun b => repeat b (L b)) (seq 0 g)) = flat_map (fun b => repeat b (L b)) (seq 0 g).
Proof.
  induction g as [|g IH]; [reflexivity|]. rewrite flat_map_seq_snoc. apply sorted_app_le; auto; [apply sorted_repeat|].
  intros a b Ha Hb. apply repeat_spec in Hb as ->. apply in_flat_map in Ha as (y & Hy & Ha). apply repeat_spec in Ha as ->. apply in_seq in Hy. lia.
Qed.

(* ---- positions in concatenations ---- *)
Lemma flat_nth {A B} (f : A -> list B) l : forall k x i y, nth_error l k = Some x -> nth_error (f x) i = Some y ->
  nth_error (flat_map f l) (length (flat_map f (firstn k l)) + i) = Some y.
Proof.
  induction l as [|a l IH]; intros k x i y Hk Hi; [destruct k; discriminate|]. destruct k as [|k]; cbn in Hk.
  - injection Hk as ->. cbn [firstn flat_map length Nat.add]. rewrite nth_error_app1; auto. apply nth_error_Some. congruence.
  - cbn [firstn flat_map]. rewrite app_length, nth_error_app2 by lia.
    replace (length (f a) + length (flat_map f (firstn k l)) + i - length (f a)) with (length (flat_map f (firstn k l)) + i) by lia. eauto.
Qed.
Lemma flat_length {A B} (f : A -> list B) (h : A -> nat) l : (forall x, In x l -> length (f x) = h x) -> length (flat_map f l) = list_sum (map h l).
Proof.
  induction l as [|a l IH]; intros H; [reflexivity|]. cbn [flat_map map list_sum fold_right]. rewrite app_length. rewrite H by (now left). rewrite IH by (intros; apply H; now right). reflexivity.
Qed.
Lemma flat_map_single {A B} (f : A -> list B) (g : A -> B) l : (forall x, In x l -> f x = [g x]) -> flat_map f l = map g l.
Proof. induction l as [|a l IH]; intros H; [reflexivity|]. cbn. rewrite H by (now left). rewrite IH by (intros; apply H; now right). reflexivity. Qed.
Lemma flat_map_perm {A B} (f : A -> list B) l l' : Permutation l l' -> Permutation (flat_map f l) (flat_map f l').
Proof. apply Permutation_flat_map. Qed.
Lemma nth_error_seq a n i : i < n -> nth_error (seq a n) i = Some (a + i).
Proof. revert a i. induction n as [|n IH]; intros a i H; [lia|]. destruct i; cbn; [now rewrite Nat.add_0_r|]. rewrite IH by lia. f_equal. lia. Qed.
Lemma firstn_seq a n k : k <= n -> firstn k (seq a n) = seq a k.
Proof. revert a k. induction n as [|n IH]; intros a k H; [now replace k with 0 by lia|]. destruct k; cbn; [reflexivity|]. rewrite IH by lia. reflexivity. Qed.
Lemma dict_as_map {A} (d : list (nat * list A)) : NoDup (map fst d) -> d = map (fun k => (k, agetl d k)) (map fst d).
Proof.
  intros H. rewrite map_map. rewrite <- (map_id d) at 1. apply map_ext_in. intros [k x] Hi. cbn [fst]. f_equal.
  unfold agetl. apply aget_In in Hi; auto. now rewrite Hi.
Qed.
Lemma Forall2_split {A B} (P : A -> Prop) (Q : B -> Prop) l : forall l', length l = length l' -> Forall P l -> Forall Q l' -> Forall2 (fun a b => P a /\ Q b) l l'.
Proof.
  induction l as [|a l IH]; intros [|b l'] E H1 H2; try discriminate; constructor; inversion H1; inversion H2; subst; auto.
Qed.
Lemma Forall2_concat {A B C} (P : B -> C -> Prop) (f : A -> list B) (g : A -> list C) l : (forall x, In x l -> Forall2 P (f x) (g x)) ->
  Forall2 P (flat_map f l) (flat_map g l).
Proof.
  induction l as [|a l IH]; intros H; cbn; [constructor|]. apply Forall2_app; [apply H; now left|]. apply IH. intros; apply H; now right.
Qed.

Section Index.
Context {Q N V : Type} (V_dec : forall x y : V, {x = y} + {x <> y}).
Notation mcirc := (@mcirc Q).
Notation bmap := (list (nat * list (list V))).
Notation scan_bases := (scan_bases V_dec).
Notation scan_circs := (scan_circs V_dec).
Notation index_v := (index_v V_dec).
Notation flat_circ := (@flat_circ Q N V).
Lemma index_v_In v l : In v l -> exists i, index_v v l = Some i.
Proof.
  induction l as [|x l IH]; intros H; [destruct H|]. cbn. destruct (vals_dec V_dec v x) as [|n]; [eauto|].
  destruct H as [->|H]; [congruence|]. destruct (IH H) as (i & ->). cbn. eauto.
Qed.
Lemma index_v_nth v l : forall i, index_v v l = Some i -> nth_error l i = Some v.
Proof.
  induction l as [|x l IH]; intros i H; [discriminate|]. cbn in H. destruct (vals_dec V_dec v x) as [->|n]; [injection H as <-; reflexivity|].
  destruct (index_v v l) as [j|]; [|discriminate]. injection H as <-. cbn. auto.
Qed.
Lemma total_sum (bm : bmap) : total_vals bm = list_sum (map (fun bv => length (snd bv)) bm).
Proof. induction bm as [|bv bm IH]; cbn; auto. Qed.
Lemma scan_bases_found (bm : bmap) : forall pos k v acc b' vals i, nth_error bm k = Some (b', vals) -> index_v v vals = Some i ->
  scan_bases bm pos (pos + k) v acc = Found (acc + total_vals (firstn k bm) + i).
Proof.
  induction bm as [|[b0 vs] bm IH]; intros pos k v acc b' vals i Hk Hi; [destruct k; discriminate|]. destruct k as [|k]; cbn in Hk; cbn [Estimator.scan_bases].
  - injection Hk as -> ->. rewrite Nat.add_0_r, Nat.eqb_refl, Hi. cbn. f_equal. lia.
  - destruct (Nat.eqb_spec pos (pos + S k)); [lia|]. replace (pos + S k) with (S pos + k) by lia.
    rewrite (IH (S pos) k v (acc + length vs) b' vals i Hk Hi). cbn [firstn total_vals fold_right snd]. f_equal.
    change (fold_right (fun bv acc0 => length (snd bv) + acc0) 0 (firstn k bm)) with (total_vals (firstn k bm)). lia.
Qed.
Definition Lb (bm : bmap) (b : nat) : nat := length (agetl bm b).
Lemma flat_circs_eq ps (combos : list mcirc) (bm : bmap) d : Permutation (map fst bm) (seq 0 (length combos)) ->
  fst (flat_circ ps combos bm) = map (fun b => nth b combos d) (flat_map (fun b => repeat b (Lb bm b)) (seq 0 (length combos))).
Proof.
  intros HP. assert (Hn : NoDup (map fst bm)) by (eapply Permutation_NoDup; [symmetry; exact HP|apply seq_NoDup]).
  unfold Estimator.flat_circ. cbn [fst].
  assert (E : sorted (flat_map (fun bv => repeat (fst bv) (length (snd bv))) bm) = flat_map (fun b => repeat b (Lb bm b)) (seq 0 (length combos))).
  { rewrite <- sorted_groups. apply sorted_perm. rewrite (flat_map_perm _ _ _ (Permutation_sym HP)).
    rewrite (dict_as_map bm Hn) at 1. rewrite flat_map_concat_map, map_map, <- flat_map_concat_map. cbn [fst snd]. apply Permutation_refl. }
  rewrite E. apply flat_map_single. intros b Hb. apply in_flat_map in Hb as (y & Hy & Hb). apply repeat_spec in Hb as ->. apply in_seq in Hy.
  rewrite (nth_error_nth' combos d) by lia. reflexivity.
Qed.
Lemma total_perm (bm : bmap) G : Permutation (map fst bm) (seq 0 G) -> total_vals bm = list_sum (map (Lb bm) (seq 0 G)).
Proof.
  intros HP. assert (Hn : NoDup (map fst bm)) by (eapply Permutation_NoDup; [symmetry; exact HP|apply seq_NoDup]).
  rewrite total_sum. assert (E : map (fun bv => length (snd bv)) bm = map (Lb bm) (map fst bm)).
  { rewrite (dict_as_map bm Hn) at 1. rewrite !map_map. reflexivity. }
  rewrite E.
  assert (S : forall l l', Permutation l l' -> list_sum l = list_sum l') by (unfold list_sum; induction 1; cbn; lia). apply S. now apply Permutation_map.
Qed.
Lemma flat_circ_lengths ps (combos : list mcirc) (bm : bmap) : Permutation (map fst bm) (seq 0 (length combos)) ->
  length (fst (flat_circ ps combos bm)) = total_vals bm /\ length (snd (flat_circ ps combos bm)) = total_vals bm.
Proof.
  intros HP. split.
  - destruct combos as [|d combos].
    { cbn in HP. apply Permutation_sym, Permutation_nil in HP. destruct bm; [reflexivity|discriminate]. }
    rewrite (flat_circs_eq ps _ bm d HP), map_length, (total_perm bm _ HP).
    apply flat_length. intros b _. apply repeat_length.
  - unfold Estimator.flat_circ. cbn [snd]. rewrite total_sum. apply flat_length. intros [b vs] _. cbn. apply map_length.
Qed.
(* the experiment found for the basis b and the values v, within the circuit *)
Lemma circ_found ps (combos : list mcirc) (bm : bmap) b v vals' b' i m : Permutation (map fst bm) (seq 0 (length combos)) ->
  nth_error bm b = Some (b', vals') -> index_v v vals' = Some i -> length vals' = Lb bm b ->
  (forall j, j < b -> length (snd (nth j bm (0, []))) = Lb bm j) -> nth_error combos b = Some m ->
  exists r, (forall acc, scan_bases bm 0 b v acc = Found (acc + r)) /\
    nth_error (fst (flat_circ ps combos bm)) r = Some m /\ nth_error (snd (flat_circ ps combos bm)) r = Some (combine ps v).
Proof.
  intros HP Hb Hi Hl Hj Hm. exists (total_vals (firstn b bm) + i). split; [|split].
  - intros acc. pose proof (scan_bases_found bm 0 b v acc b' vals' i Hb Hi) as E. cbn [Nat.add] in E. rewrite E. f_equal. lia.
  - rewrite (flat_circs_eq ps combos bm m HP).
    assert (Hlt : b < length combos) by (apply nth_error_Some; congruence).
    assert (E : total_vals (firstn b bm) = length (flat_map (fun b => repeat b (Lb bm b)) (firstn b (seq 0 (length combos))))).
    { rewrite (flat_length _ (Lb bm)) by (intros; apply repeat_length). rewrite firstn_seq by lia. rewrite total_sum. f_equal.
      assert (Hlen : b < length bm) by (apply nth_error_Some; congruence).
      apply (nth_ext _ _ 0 0); [rewrite !map_length, firstn_length, seq_length; lia|].
      rewrite map_length, firstn_length, Nat.min_l by lia. intros j Hjb.
      rewrite (nth_indep _ 0 (length (snd (0, @nil (list V))))) by (rewrite map_length, firstn_length; lia).
      rewrite (map_nth (fun bv : nat * list (list V) => length (snd bv))).
      rewrite (nth_indep _ 0 (Lb bm 0)) by (rewrite map_length, seq_length; lia). rewrite (map_nth (Lb bm)), seq_nth by lia.
      assert (En : nth j (firstn b bm) (0, []) = nth j bm (0, [])).
      { rewrite <- (firstn_skipn b bm) at 2. rewrite app_nth1 by (rewrite firstn_length; lia). reflexivity. }
      rewrite En. now apply Hj. }
    rewrite E.
    assert (Hn : nth_error (flat_map (fun b => repeat b (Lb bm b)) (seq 0 (length combos))) (length (flat_map (fun b => repeat b (Lb bm b)) (firstn b (seq 0 (length combos)))) + i) = Some b).
    { apply (flat_nth _ _ _ b); [now rewrite nth_error_seq|]. apply index_v_nth in Hi. assert (i < length vals') by (apply nth_error_Some; congruence).
      rewrite (nth_error_nth' _ b) by (rewrite repeat_length; lia). f_equal. apply (repeat_spec (Lb bm b) b), nth_In. rewrite repeat_length. lia. }
    rewrite (map_nth_error (fun b => nth b combos m) _ _ Hn). f_equal. now apply nth_error_nth.
  - unfold Estimator.flat_circ. cbn [snd].
    assert (E : total_vals (firstn b bm) = length (flat_map (fun bv => map (fun v => combine ps v) (snd bv)) (firstn b bm))).
    { rewrite (flat_length _ (fun bv => length (snd bv))) by (intros; apply map_length). apply total_sum. }
    rewrite E. apply (flat_nth _ _ _ (b', vals')); auto. cbn [snd]. apply (map_nth_error (fun v => combine ps v)). now apply index_v_nth.
Qed.
(* all circuits *)
Lemma scan_circs_found (B : nat -> bmap) cs1 ci cs2 b v r : ~ In ci cs1 -> (forall acc, scan_bases (B ci) 0 b v acc = Found (acc + r)) ->
  forall acc, scan_circs (map (fun c => (c, B c)) (cs1 ++ ci :: cs2)) ci b v acc = Found (acc + list_sum (map (fun c => total_vals (B c)) cs1) + r).
Proof.
  intros Hc Hb. induction cs1 as [|c cs1 IH]; intros acc; cbn [map app Estimator.scan_circs].
  - rewrite Nat.eqb_refl, Hb. f_equal. cbn. lia.
  - destruct (Nat.eqb_spec c ci) as [->|]; [exfalso; apply Hc; now left|]. rewrite IH by (intros h; apply Hc; now right). f_equal. unfold list_sum. cbn [map fold_right]. lia.
Qed.
Lemma flat_at {A} (f : nat -> list A) (h : nat -> nat) cs1 ci cs2 r y : (forall c, In c cs1 -> length (f c) = h c) ->
  nth_error (f ci) r = Some y -> nth_error (flat_map f (cs1 ++ ci :: cs2)) (list_sum (map h cs1) + r) = Some y.
Proof.
  intros H Hy. rewrite flat_map_app, nth_error_app2; rewrite (flat_length f h cs1 H); [|lia].
  replace (list_sum (map h cs1) + r - list_sum (map h cs1)) with r by lia. cbn. rewrite nth_error_app1; auto. apply nth_error_Some. congruence.
Qed.
End Index.
