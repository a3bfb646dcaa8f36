(* SwapP.v -- property C35: automatic swap insertion.  Whatever swaps are inserted,
   the distributed vector is the logical vector with its qubits relabelled by
   map_after_swap, which is always a permutation; the results are those of the
   plain evaluation. *)
From Coq Require Import Reals Lra ZArith Bool List Lia Arith FunctionalExtensionality Permutation FinFun.
From Coquelicot Require Import Complex.
From Verif Require Import Spec SpecP LargeP Backend BackSpec BackendP Swap.
Import ListNotations.
Open Scope nat_scope.

(* ---- specification ---- *)
(* the vector w is v with qubit q stored at position m_q: reading the bits of j at
   the positions m gives the logical basis state *)
Definition relabelled (n : nat) (m : list nat) (v w : vector) : Prop :=
  forall i j, i < 2 ^ n -> j < 2 ^ n -> (forall q, q < n -> Nat.testbit j (nth q m 0) = Nat.testbit i q) -> w j = v i.
Definition is_perm (n : nat) (m : list nat) : Prop := Permutation m (seq 0 n).
(* two computations with the same draws, the same exceptions and related results *)
Inductive trel {A B} (R : A -> B -> Prop) : tree A -> tree B -> Prop :=
| tr_leaf a b : R a b -> trel R (Leaf a) (Leaf b)
| tr_raise : trel R Raise Raise
| tr_flip p k k' : (forall b, trel R (k b) (k' b)) -> trel R (Flip p k) (Flip p k').

(* ---- trees ---- *)
Lemma trel_bind {A B A' B'} (R : A -> B -> Prop) (R' : A' -> B' -> Prop) t t' f f' :
  trel R t t' -> (forall a b, R a b -> trel R' (f a) (f' b)) -> trel R' (bind t f) (bind t' f').
Proof. intros Ht Hf. induction Ht; cbn; auto; constructor; auto. Qed.
Lemma trel_eq {A} (t t' : tree A) : trel eq t t' -> t = t'.
Proof. induction 1 as [a b ->| |p k k' _ IH]; auto. f_equal. apply functional_extensionality. exact IH. Qed.
Lemma trel_refl {A} (t : tree A) : trel eq t t.
Proof. induction t; constructor; auto. Qed.

(* ---- lists ---- *)
Lemma mem_In q l : mem q l = true <-> In q l.
Proof. apply existsb_In. Qed.
Lemma nth_upd {A} (l : list A) k x i d : nth i (upd l k x) d = if (i =? k) && (k <? length l) then x else nth i l d.
Proof.
  revert k i. induction l as [|y l IH]; intros k i; cbn [upd length].
  - now rewrite andb_comm; destruct i, k.
  - destruct k as [|k]; destruct i as [|i]; cbn [nth]; auto. rewrite IH. cbn. reflexivity.
Qed.
Lemma upd_len {A} (l : list A) k x : length (upd l k x) = length l.
Proof. revert k; induction l as [|y l IH]; intros [|k]; cbn; auto. Qed.
Lemma perm_len n m : is_perm n m -> length m = n.
Proof. intros H. rewrite (Permutation_length H), seq_length. reflexivity. Qed.
Lemma perm_lt n m q : is_perm n m -> q < n -> nth q m 0 < n.
Proof.
  intros H Hq. assert (Hi : In (nth q m 0) m) by (apply nth_In; rewrite (perm_len n m H); exact Hq).
  apply (Permutation_in _ H) in Hi. apply in_seq in Hi. lia.
Qed.
Lemma perm_inj n m a b : is_perm n m -> a < n -> b < n -> nth a m 0 = nth b m 0 -> a = b.
Proof.
  intros H Ha Hb E. apply (proj1 (NoDup_nth m 0)); auto; try (rewrite (perm_len n m H); auto).
  eapply Permutation_NoDup; [apply Permutation_sym; exact H|apply seq_NoDup].
Qed.
Lemma perm_surj n m p : is_perm n m -> p < n -> exists q, q < n /\ nth q m 0 = p.
Proof.
  intros H Hp. assert (Hi : In p m) by (apply (Permutation_in _ (Permutation_sym H)), in_seq; lia).
  apply (In_nth m p 0) in Hi as (q & Hq & E). rewrite (perm_len n m H) in Hq. eauto.
Qed.
Lemma perm_of n m : length m = n -> (forall q, q < n -> nth q m 0 < n) -> (forall a b, a < n -> b < n -> nth a m 0 = nth b m 0 -> a = b) -> is_perm n m.
Proof.
  intros Hl Hlt Hin. apply NoDup_Permutation_bis.
  - apply (proj2 (NoDup_nth m 0)). rewrite Hl. exact Hin.
  - rewrite seq_length. lia.
  - intros x Hx. apply (In_nth m x 0) in Hx as (q & Hq & <-). apply in_seq. rewrite Hl in Hq. specialize (Hlt q Hq). lia.
Qed.
Lemma perm_id n : is_perm n (seq 0 n).
Proof. apply Permutation_refl. Qed.

(* ---- gather ---- *)
Lemma gather_S t T i : gather (t :: T) i = bit i t + 2 * gather T i.
Proof. unfold gather. cbn [gather_from]. rewrite gather_from_scale. cbn. lia. Qed.
Lemma gather_testbit m j q : Nat.testbit (gather m j) q = if q <? length m then Nat.testbit j (nth q m 0) else false.
Proof.
  revert q. induction m as [|t m IH]; intros q; [cbn; now rewrite Nat.bits_0|].
  rewrite gather_S. unfold bit. destruct q as [|q].
  - cbn [length Nat.ltb Nat.leb nth]. destruct (Nat.testbit j t).
    + rewrite Nat.add_comm. apply Nat.testbit_odd_0.
    + apply Nat.testbit_even_0.
  - assert (E : Nat.testbit ((if Nat.testbit j t then 1 else 0) + 2 * gather m j) (S q) = Nat.testbit (gather m j) q).
    { destruct (Nat.testbit j t); [rewrite Nat.add_comm; apply Nat.testbit_odd_succ; lia|apply Nat.testbit_even_succ; lia]. }
    rewrite E, IH. cbn [length nth]. reflexivity.
Qed.
Lemma gather_lt m j : gather m j < 2 ^ length m.
Proof. apply pack_lt. Qed.
Section Perm.
Context (n : nat) (m : list nat) (Hm : is_perm n m).
Lemma gather_bit j q : q < n -> Nat.testbit (gather m j) q = Nat.testbit j (nth q m 0).
Proof. intros Hq. rewrite gather_testbit, (perm_len n m Hm). apply Nat.ltb_lt in Hq. now rewrite Hq. Qed.
Lemma gather_bitn j q : q < n -> bit (gather m j) q = bit j (nth q m 0).
Proof. intros Hq. unfold bit. now rewrite gather_bit. Qed.
Lemma gather_ltn j : gather m j < 2 ^ n.
Proof. pose proof (gather_lt m j) as H. now rewrite (perm_len n m Hm) in H. Qed.
Lemma gather_inj i j : i < 2 ^ n -> j < 2 ^ n -> gather m i = gather m j -> i = j.
Proof.
  intros Hi Hj E. apply (bits_inj_n n); auto. intros p Hp. destruct (perm_surj n m p Hm Hp) as (q & Hq & <-).
  rewrite <- !gather_bit by exact Hq. now rewrite E.
Qed.
Lemma NoDup_map_on {A B} (f : A -> B) (l : list A) : (forall a b, In a l -> In b l -> f a = f b -> a = b) -> NoDup l -> NoDup (map f l).
Proof.
  intros Hf H. induction H as [|x l Hx Hn IH]; cbn; constructor.
  - intros Hi. apply in_map_iff in Hi as (y & E & Hy). apply Hf in E; [|now right|now left]. now subst.
  - apply IH. intros a b Ha Hb. apply Hf; now right.
Qed.
Lemma gather_perm : Permutation (map (gather m) (seq 0 (2 ^ n))) (seq 0 (2 ^ n)).
Proof.
  apply NoDup_Permutation_bis.
  - apply NoDup_map_on; [|apply seq_NoDup]. intros a b Ha Hb E. apply in_seq in Ha, Hb. apply gather_inj; auto; lia.
  - rewrite map_length. lia.
  - intros x Hx. apply in_map_iff in Hx as (j & <- & _). apply in_seq. pose proof (gather_ltn j). lia.
Qed.
Lemma gather_surj i : i < 2 ^ n -> exists j, j < 2 ^ n /\ gather m j = i.
Proof.
  intros Hi. assert (H : In i (map (gather m) (seq 0 (2 ^ n)))).
  { apply (Permutation_in _ (Permutation_sym gather_perm)), in_seq. lia. }
  apply in_map_iff in H as (j & E & Hj). apply in_seq in Hj. exists j. split; [lia|exact E].
Qed.
End Perm.
(* sums *)
Lemma csum_lsum N f : csum N f = lsum f (seq 0 N).
Proof. apply csum_list; [apply seq_NoDup| |]; intros x Hx; [apply in_seq in Hx; lia|]. intros H. exfalso. apply H. apply in_seq. lia. Qed.
Lemma lsum_perm f a b : Permutation a b -> lsum f a = lsum f b.
Proof. induction 1; cbn; auto; [now rewrite IHPermutation|ring|congruence]. Qed.
Lemma lsum_map f g l : lsum f (map g l) = lsum (fun x => f (g x)) l.
Proof. induction l; cbn; auto. now rewrite IHl. Qed.
Lemma csum_gather n m f : is_perm n m -> csum (2 ^ n) (fun j => f (gather m j)) = csum (2 ^ n) f.
Proof. intros Hm. rewrite !csum_lsum, <- lsum_map. apply lsum_perm, gather_perm, Hm. Qed.
Lemma rsum_gather n m f : is_perm n m -> rsum (2 ^ n) (fun j => f (gather m j)) = rsum (2 ^ n) f.
Proof.
  intros Hm. apply RtoC_inj. rewrite <- !csum_RtoC. exact (csum_gather n m (fun i => RtoC (f i)) Hm).
Qed.

(* ---- the relation, by function ---- *)
Definition lab (n : nat) (m : list nat) (v w : vector) : Prop := forall j, j < 2 ^ n -> w j = v (gather m j).
Lemma lab_relabelled n m v w : is_perm n m -> (lab n m v w <-> relabelled n m v w).
Proof.
  intros Hm. split.
  - intros H i j Hi Hj Hb. rewrite H by exact Hj. f_equal. apply (bits_inj_n n); auto; [now apply gather_ltn|].
    intros q Hq. rewrite (gather_bit n m Hm) by exact Hq. now apply Hb.
  - intros H j Hj. apply H; auto; [now apply gather_ltn|]. intros q Hq. now rewrite (gather_bit n m Hm).
Qed.
Lemma gather_id n j : j < 2 ^ n -> gather (seq 0 n) j = j.
Proof.
  intros Hj. apply (bits_inj_n n); auto; [apply (gather_ltn n), perm_id|]. intros q Hq.
  rewrite (gather_bit n _ (perm_id n)) by exact Hq. now rewrite seq_nth.
Qed.
Lemma lab_id n v w : lab n (seq 0 n) v w <-> veq n w v.
Proof. split; intros H j Hj; [rewrite H by exact Hj|rewrite (H j Hj)]; now rewrite gather_id. Qed.
Lemma lab_veq n m v v' w w' : is_perm n m -> veq n v v' -> veq n w w' -> lab n m v w -> lab n m v' w'.
Proof. intros Hm Hv Hw H j Hj. rewrite <- (Hw j Hj), (H j Hj). apply Hv. now apply gather_ltn. Qed.
Lemma lab_basis0 n m : is_perm n m -> lab n m (basis 0) (basis 0).
Proof.
  intros Hm j Hj. unfold basis. assert (E : (j =? 0) = (gather m j =? 0)); [|now rewrite E].
  assert (H0 : gather m 0 = 0).
  { apply (bits_inj_n n); [now apply gather_ltn|apply Nat.neq_0_lt_0, Nat.pow_nonzero; lia|].
    intros q Hq. rewrite (gather_bit n m Hm) by exact Hq. now rewrite !Nat.bits_0. }
  destruct (Nat.eqb_spec j 0) as [->|Hne]; [now rewrite H0|]. symmetry. apply Nat.eqb_neq. intros E. apply Hne.
  apply (gather_inj n m Hm); auto; [apply Nat.neq_0_lt_0, Nat.pow_nonzero; lia|congruence].
Qed.
Lemma lab_norm n m v w : is_perm n m -> lab n m v w -> norm2v n w = norm2v n v.
Proof.
  intros Hm H. unfold norm2v. rewrite <- (rsum_gather n m (fun i => (Cmod (v i) ^ 2)%R) Hm). apply rsum_ext'.
  intros j Hj. now rewrite (H j Hj).
Qed.
Lemma lab_probq n m v w q b : is_perm n m -> q < n -> lab n m v w -> probq n w (nth q m 0) b = probq n v q b.
Proof.
  intros Hm Hq H. unfold probq. rewrite <- (rsum_gather n m (fun i => if bit i q =? b then (Cmod (v i) ^ 2)%R else 0%R) Hm). apply rsum_ext'.
  intros j Hj. rewrite (H j Hj), (gather_bitn n m Hm) by exact Hq. reflexivity.
Qed.
Lemma lab_project n m v w q b : is_perm n m -> q < n -> lab n m v w -> lab n m (project q b v) (project (nth q m 0) b w).
Proof. intros Hm Hq H j Hj. unfold project. rewrite (gather_bitn n m Hm) by exact Hq. now rewrite (H j Hj). Qed.

(* ---- gates ---- *)
Lemma lab_mv n m A A' v w : is_perm n m -> (forall i j, i < 2 ^ n -> j < 2 ^ n -> A' i j = A (gather m i) (gather m j)) ->
  lab n m v w -> lab n m (mv n A v) (mv n A' w).
Proof.
  intros Hm HA H i Hi. unfold mv. rewrite <- (csum_gather n m (fun k => Cmult (A (gather m i) k) (v k)) Hm).
  apply csum_ext'. intros j Hj. now rewrite HA, (H j Hj).
Qed.
Lemma agree_gather n m T i j : is_perm n m -> (forall t, In t T -> t < n) ->
  agree_off n (map (at_ m) T) i j = agree_off n T (gather m i) (gather m j).
Proof.
  intros Hm HT. apply eq_true_iff_eq. rewrite !agree_off_spec. split; intros H.
  - intros q Hq Hn. rewrite !(gather_bit n m Hm) by exact Hq. apply H; [now apply perm_lt|].
    intros Hi. apply Hn. apply in_map_iff in Hi as (t & E & Ht). apply (perm_inj n m t q Hm) in E; auto. now subst.
  - intros p Hp Hn. destruct (perm_surj n m p Hm Hp) as (q & Hq & <-). rewrite <- !(gather_bit n m Hm) by exact Hq.
    apply H; auto. intros Hi. apply Hn. apply in_map_iff. now exists q.
Qed.
Lemma ctl_gather n m qs i : is_perm n m -> (forall q, In q qs -> q < n) ->
  ctl_ok (ctl_of (at_ m) qs) i = ctl_ok (ctl_of (fun q => q) qs) (gather m i).
Proof.
  intros Hm Hq. unfold ctl_ok, ctl_of. induction qs as [|q qs IH]; cbn [map forallb fst snd]; auto.
  rewrite IH by (intros; apply Hq; now right). rewrite !Nat2Z.id. f_equal. f_equal. symmetry. apply (gather_bit n m Hm). apply Hq. now left.
Qed.
Lemma gather_map n m qs i : is_perm n m -> (forall q, In q qs -> q < n) -> gather (map (at_ m) qs) i = gather qs (gather m i).
Proof.
  intros Hm Hq. induction qs as [|q qs IH]; cbn [map]; auto. rewrite !gather_S, IH by (intros; apply Hq; now right).
  f_equal. symmetry. apply (gather_bitn n m Hm). apply Hq. now left.
Qed.
Lemma In_removelast {A} (l : list A) x : In x (removelast l) -> In x l.
Proof. induction l as [|y [|z l] IH]; cbn; [tauto|tauto|]. intros [->|H]; [now left|right; apply IH, H]. Qed.
Lemma last_lt n qs : 0 < n -> (forall q, In q qs -> q < n) -> last qs 0 < n.
Proof.
  intros Hn H. destruct qs as [|q qs]; [exact Hn|]. apply H. destruct (@exists_last _ (q :: qs)) as (l & a & E); [discriminate|].
  rewrite E, last_last. apply in_or_app. right. now left.
Qed.
Lemma nth_lt n qs k : 0 < n -> (forall q, In q qs -> q < n) -> nth k qs 0 < n.
Proof. intros Hn H. destruct (nth_in_or_default k qs 0) as [Hi| ->]; auto. Qed.
Lemma In_firstn {A} (l : list A) k x : In x (firstn k l) -> In x l.
Proof. intros H. rewrite <- (firstn_skipn k l). apply in_or_app. now left. Qed.
Lemma gate_entry n m g i j : is_perm n m -> 0 < n -> (forall q, In q (gqs g) -> q < n) -> (forall A qs, g <> GQ A qs) ->
  gate_mat n (at_ m) g i j = gate_mat n (fun q => q) g (gather m i) (gather m j).
Proof.
  intros Hm Hn Hq Hg. destruct g as [g qs|g qs|g qs|A qs]; cbn [gate_mat gqs] in *.
  - set (t := last qs 0). assert (Ht : t < n) by now apply last_lt. unfold gate1.
    change [at_ m t] with (map (at_ m) [t]). rewrite (agree_gather n m [t]) by (auto; intros ? [<-|[]]; auto).
    rewrite (ctl_gather n m) by (auto; intros q Hi; apply Hq, In_removelast, Hi).
    unfold at_. rewrite <- !(gather_bitn n m Hm) by exact Ht. reflexivity.
  - set (a := nth (length qs - 1) qs 0). set (b := nth (length qs - 2) qs 0).
    assert (Ha : a < n) by now apply nth_lt. assert (Hb : b < n) by now apply nth_lt. unfold gate2.
    change [at_ m a; at_ m b] with (map (at_ m) [a; b]). rewrite (agree_gather n m [a; b]) by (auto; intros ? [<-|[<-|[]]]; auto).
    rewrite (ctl_gather n m) by (auto; intros q Hi; apply Hq; eapply In_firstn, Hi).
    unfold at_. rewrite <- !(gather_bitn n m Hm) by auto. reflexivity.
  - unfold gate_on. rewrite map_id, (agree_gather n m qs), !(gather_map n m qs) by auto. reflexivity.
  - exfalso. now apply (Hg A qs).
Qed.
Lemma x_entry n m q i j : is_perm n m -> q < n -> gate1 n X (at_ m q) [] i j = gate1 n X q [] (gather m i) (gather m j).
Proof.
  intros Hm Hq. unfold gate1. change [at_ m q] with (map (at_ m) [q]). rewrite (agree_gather n m [q]) by (auto; intros ? [<-|[]]; auto).
  unfold at_. rewrite <- !(gather_bitn n m Hm) by exact Hq. reflexivity.
Qed.

(* ---- swaps ---- *)
Lemma swapbits_testbit a b i l : Nat.testbit (swapbits a b i) l =
  if l =? b then Nat.testbit i a else if l =? a then Nat.testbit i b else Nat.testbit i l.
Proof. unfold swapbits. rewrite !setb_testbit, <- !testbit_bit. reflexivity. Qed.
Lemma swapbits_lt n a b i : a < n -> b < n -> i < 2 ^ n -> swapbits a b i < 2 ^ n.
Proof. intros. unfold swapbits. apply setb_lt; auto. apply setb_lt; auto. Qed.
Lemma swapbits_inv a b i : swapbits a b (swapbits a b i) = i.
Proof.
  apply Nat.bits_inj. intros l. rewrite !swapbits_testbit, !Nat.eqb_refl.
  destruct (Nat.eqb_spec l b) as [E|E]; destruct (Nat.eqb_spec l a) as [E'|E'];
    destruct (Nat.eqb_spec a b) as [E''|E'']; destruct (Nat.eqb_spec b a); try congruence.
Qed.
Lemma swapm_mv n a b w j : a < n -> b < n -> j < 2 ^ n -> mv n (swapm a b) w j = w (swapbits a b j).
Proof.
  intros Ha Hb Hj. unfold mv. pose proof (swapbits_lt n a b j Ha Hb Hj) as Hs.
  rewrite (csum_one _ _ (swapbits a b j) Hs).
  - unfold swapm. rewrite swapbits_inv, Nat.eqb_refl. apply Cmult_1_l.
  - intros i Hi Hne. unfold swapm. destruct (Nat.eqb_spec j (swapbits a b i)) as [E|E]; [|apply Cmult_0_l].
    exfalso. apply Hne. now rewrite E, swapbits_inv.
Qed.
Definition sw (m : list nat) (a b : nat) : list nat := upd (upd m a (nth b m 0)) b (nth a m 0).
Lemma sw_nth n m a b q : length m = n -> a < n -> b < n ->
  nth q (sw m a b) 0 = if q =? b then nth a m 0 else if q =? a then nth b m 0 else nth q m 0.
Proof.
  intros Hl Ha Hb. unfold sw. rewrite !nth_upd, upd_len, Hl.
  apply Nat.ltb_lt in Ha, Hb. now rewrite Ha, Hb, !andb_true_r.
Qed.
Lemma sw_perm n m a b : is_perm n m -> a < n -> b < n -> is_perm n (sw m a b).
Proof.
  intros Hm Ha Hb. pose proof (perm_len n m Hm) as Hl. apply perm_of.
  - unfold sw. now rewrite !upd_len.
  - intros q Hq. rewrite (sw_nth n) by auto. destruct (q =? b), (q =? a); now apply perm_lt.
  - intros x y Hx Hy. rewrite !(sw_nth n) by auto.
    destruct (Nat.eqb_spec x b), (Nat.eqb_spec y b), (Nat.eqb_spec x a), (Nat.eqb_spec y a); intros E;
      apply (perm_inj n m _ _ Hm) in E; auto; try congruence.
Qed.
Lemma lab_swap n m v w a b : is_perm n m -> a < n -> b < n ->
  lab n m v w -> lab n (sw m a b) v (mv n (swapm (nth a m 0) (nth b m 0)) w).
Proof.
  intros Hm Ha Hb H j Hj. pose proof (perm_lt n m a Hm Ha) as Hpa. pose proof (perm_lt n m b Hm Hb) as Hpb.
  pose proof (perm_len n m Hm) as Hl. rewrite swapm_mv by auto. rewrite H by now apply swapbits_lt.
  f_equal. apply (bits_inj_n n); [now apply gather_ltn|apply gather_ltn; now apply sw_perm|].
  intros q Hq. rewrite (gather_bit n m Hm), (gather_bit n _ (sw_perm n m a b Hm Ha Hb)), (sw_nth n) by auto.
  rewrite swapbits_testbit.
  destruct (Nat.eqb_spec (nth q m 0) (nth b m 0)) as [E|E].
  - apply (perm_inj n m q b Hm) in E; auto. subst q. now rewrite Nat.eqb_refl.
  - destruct (Nat.eqb_spec q b) as [->|Hqb]; [congruence|].
    destruct (Nat.eqb_spec (nth q m 0) (nth a m 0)) as [E'|E'].
    + apply (perm_inj n m q a Hm) in E'; auto. subst q. now rewrite Nat.eqb_refl.
    + destruct (Nat.eqb_spec q a) as [->|Hqa]; [congruence|reflexivity].
Qed.

(* ---- sets ---- *)
Definition sset (n : nat) (l : list nat) : Prop := NoDup l /\ forall q, In q l -> q < n.
Lemma union_In n a b q : In q (union n a b) <-> q < n /\ (In q a \/ In q b).
Proof.
  unfold union. rewrite filter_In, in_seq, orb_true_iff, !mem_In. intuition lia.
Qed.
Lemma diff_In n a b q : In q (diff n a b) <-> q < n /\ In q a /\ ~ In q b.
Proof.
  unfold diff. rewrite filter_In, in_seq, andb_true_iff, negb_true_iff, mem_In. rewrite <- not_true_iff_false, mem_In. intuition lia.
Qed.
Lemma union_sset n a b : sset n (union n a b).
Proof. split; [apply NoDup_filter, seq_NoDup|]. intros q Hq. now apply union_In in Hq. Qed.
Lemma diff_sset n a b : sset n (diff n a b).
Proof. split; [apply NoDup_filter, seq_NoDup|]. intros q Hq. now apply diff_In in Hq. Qed.
Lemma nil_sset n : sset n [].
Proof. split; [constructor|intros q []]. Qed.
Lemma seq_sset n k : k <= n -> sset n (seq 0 k).
Proof. intros H. split; [apply seq_NoDup|]. intros q Hq. apply in_seq in Hq. lia. Qed.
Lemma same_len (a b : list nat) : NoDup a -> NoDup b -> (forall q, In q a <-> In q b) -> length a = length b.
Proof. intros Ha Hb H. apply Permutation_length. now apply NoDup_Permutation. Qed.
Lemma NoDup_app_disj {A} (b c : list A) : NoDup b -> NoDup c -> (forall x, In x b -> ~ In x c) -> NoDup (b ++ c).
Proof.
  intros Hb Hc H. induction Hb as [|x b Hx Hb IH]; cbn; auto. constructor.
  - rewrite in_app_iff. intros [Hi|Hi]; [auto|]. apply (H x); [now left|exact Hi].
  - apply IH. intros y Hy. apply H. now right.
Qed.
(* a set splits by membership in another *)
Lemma split_len n a b : sset n a -> length a = length (diff n a b) + length (filter (fun q => mem q b) a).
Proof.
  intros [Ha Hlt]. rewrite <- app_length. apply same_len; auto.
  - apply NoDup_app_disj; [apply diff_sset|apply NoDup_filter, Ha|].
    intros q H1 H2. apply diff_In in H1. apply filter_In in H2. rewrite mem_In in H2. tauto.
  - intros q. rewrite in_app_iff, diff_In, filter_In, mem_In. specialize (Hlt q). destruct (in_dec Nat.eq_dec q b); tauto.
Qed.

Lemma inter_len n a b : sset n a -> sset n b -> length (filter (fun q => mem q b) a) = length (filter (fun q => mem q a) b).
Proof.
  intros [Ha _] [Hb _]. apply same_len; [now apply NoDup_filter|now apply NoDup_filter|].
  intros q. rewrite !filter_In, !mem_In. tauto.
Qed.
Lemma compl_len n a : sset n a -> length (diff n (seq 0 n) a) = n - length a.
Proof.
  intros Ha. pose proof (split_len n (seq 0 n) a (seq_sset n n (le_n n))) as H. rewrite seq_length in H.
  pose proof (inter_len n (seq 0 n) a (seq_sset n n (le_n n)) Ha) as H2. rewrite H2 in H.
  assert (E : length (filter (fun q => mem q (seq 0 n)) a) = length a).
  { f_equal. destruct Ha as [_ Hlt]. clear -Hlt. induction a as [|x a IH]; cbn; auto.
    replace (mem x (seq 0 n)) with true; [rewrite IH; auto; intros; apply Hlt; now right|].
    symmetry. apply mem_In, in_seq. specialize (Hlt x (or_introl eq_refl)). lia. }
  lia.
Qed.
Lemma sset_le n a : sset n a -> length a <= n.
Proof.
  intros [Ha Hlt]. rewrite <- (seq_length n 0). apply NoDup_incl_length; auto. intros q Hq. apply in_seq. specialize (Hlt q Hq). lia.
Qed.
Lemma lookahead_spec n k l : forall acc, sset n acc -> length acc <= k ->
  sset n (lookahead n k l acc) /\ length (lookahead n k l acc) <= k /\ incl acc (lookahead n k l acc).
Proof.
  induction l as [|x r IH]; intros acc Ha Hk; cbn [lookahead]; [split; [auto|split; [auto|intros q Hq; exact Hq]]|].
  destruct (Nat.leb_spec (length (union n acc (qargs (op x)))) k) as [H|H]; [|split; [auto|split; [auto|intros q Hq; exact Hq]]].
  destruct (IH (union n acc (qargs (op x))) (union_sset _ _ _) H) as (A & B & C). split; [exact A|]. split; [exact B|].
  intros q Hq. apply C. apply union_In. destruct Ha as [_ Ha]. auto.
Qed.
(* the next instruction's qubits are taken when they fit *)
Lemma lookahead_first n k x r : (forall q, In q (qargs (op x)) -> q < n) -> NoDup (qargs (op x)) -> length (qargs (op x)) <= k ->
  incl (qargs (op x)) (lookahead n k (x :: r) []).
Proof.
  intros Hlt Hnd Hk. cbn [lookahead].
  assert (E : length (union n [] (qargs (op x))) = length (qargs (op x))).
  { apply same_len; auto; [apply union_sset|]. intros q. rewrite union_In. cbn. specialize (Hlt q). tauto. }
  destruct (Nat.leb_spec (length (union n [] (qargs (op x)))) k) as [H|H]; [|lia].
  destruct (lookahead_spec n k r _ (union_sset n [] (qargs (op x))) H) as (_ & _ & C).
  intros q Hq. apply C. apply union_In. auto.
Qed.
Section Pick.
Context (pick : list nat -> nat) (Hpick : forall l, l <> [] -> In (pick l) l).
Lemma fill_spec n d : forall nl, sset n nl -> d <= n - length nl ->
  exists nl', fill pick n d nl (diff n (seq 0 n) nl) = Some (nl', diff n (seq 0 n) nl') /\ sset n nl' /\ length nl' = length nl + d /\ incl nl nl'.
Proof.
  induction d as [|d IH]; intros nl Hs Hd.
  - exists nl. cbn. split; [reflexivity|]. split; [exact Hs|]. split; [lia|intros q Hq; exact Hq].
  - cbn [fill]. set (ng := diff n (seq 0 n) nl). assert (Hng : length ng = n - length nl) by now apply compl_len.
    destruct ng as [|y ng'] eqn:E; [cbn in Hng; lia|]. rewrite <- E in *. clear y ng' E.
    assert (Hp : In (pick ng) ng) by (apply Hpick; intros E; rewrite E in Hng; cbn in Hng; lia).
    set (x := pick ng) in *. assert (Hx : x < n /\ ~ In x nl) by (apply diff_In in Hp; tauto).
    assert (En : diff n ng [x] = diff n (seq 0 n) (union n nl [x])).
    { unfold diff. apply filter_ext_in. intros q Hq. apply eq_true_iff_eq.
      rewrite !andb_true_iff, !negb_true_iff, <- !not_true_iff_false, !mem_In. unfold ng. rewrite diff_In, union_In. cbn.
      apply in_seq in Hq. tauto. }
    rewrite En.
    assert (El : length (union n nl [x]) = S (length nl)).
    { change (S (length nl)) with (length (x :: nl)). apply same_len; [apply union_sset|constructor; [tauto|apply Hs]|].
      intros q. rewrite union_In. cbn. destruct Hs as [_ Hs]. specialize (Hs q). intuition (subst; auto). }
    destruct (IH (union n nl [x]) (union_sset _ _ _)) as (nl' & A & B & C & D); [lia|].
    exists nl'. split; [exact A|]. split; [exact B|]. split; [lia|].
    intros q Hq. apply D, union_In. destruct Hs as [_ Hs]. auto.
Qed.
(* fused swaps *)
Lemma fuse_spec n v w ab : forall F m, is_perm n m -> (forall a b, In (a, b) ab -> a < n /\ b < n) -> lab n m v (mv n F w) ->
  is_perm n (snd (fuse n ab F m)) /\ lab n (snd (fuse n ab F m)) v (mv n (fst (fuse n ab F m)) w).
Proof.
  induction ab as [|[a b] r IH]; intros F m Hm Hab H; cbn [fuse fst snd]; auto.
  destruct (Hab a b (or_introl eq_refl)) as [Ha Hb].
  apply IH; [now apply sw_perm|intros; apply Hab; now right|].
  apply (lab_veq n _ v v (mv n (swapm (nth a m 0) (nth b m 0)) (mv n F w))); [now apply sw_perm|apply veq_refl| |now apply lab_swap].
  apply veq_sym, mv_mm.
Qed.
Theorem do_swap_v2_spec n w data count lset m v : is_perm n m -> sset n lset -> lab n m v w ->
  exists w' nl m', do_swap_v2 pick n w data count lset m = Some (w', nl, m') /\ is_perm n m' /\ sset n nl /\ lab n m' v w'.
Proof.
  intros Hm Hs H. unfold do_swap_v2.
  destruct (lookahead_spec n (length lset) (skipn count data) [] (nil_sset n) (Nat.le_0_l _)) as (A & B & _).
  set (nl0 := lookahead n (length lset) (skipn count data) []) in *. pose proof (sset_le n lset Hs).
  destruct (fill_spec n (length lset - length nl0) nl0 A) as (nl & E & Hnl & Hlen & _); [lia|]. rewrite E.
  assert (Hl : length (diff n (diff n (seq 0 n) lset) (diff n (seq 0 n) nl)) = length (diff n lset nl)).
  { assert (E1 : length (diff n (diff n (seq 0 n) lset) (diff n (seq 0 n) nl)) = length (diff n nl lset)).
    { apply same_len; [apply diff_sset|apply diff_sset|]. intros q. rewrite !diff_In, in_seq.
      destruct (in_dec Nat.eq_dec q nl); intuition lia. }
    rewrite E1. pose proof (split_len n lset nl Hs). pose proof (split_len n nl lset Hnl). pose proof (inter_len n lset nl Hs Hnl). lia. }
  rewrite Hl, Nat.eqb_refl.
  destruct (fuse_spec n v w (combine (diff n lset nl) (diff n (diff n (seq 0 n) lset) (diff n (seq 0 n) nl))) ident m Hm) as [P1 P2].
  - intros a b Hab. split; [apply in_combine_l in Hab|apply in_combine_r in Hab]; apply diff_In in Hab; tauto.
  - apply (lab_veq n m v v w); auto; [apply veq_refl|]. apply veq_sym, mv_ident.
  - destruct (fuse n _ ident m) as [F m'] eqn:EF. cbn in P1, P2. eauto 10.
Qed.
(* placing qubits one after the other *)
Lemma index_of_spec q l : In q l -> exists k, index_of q l = Some k /\ k < length l /\ nth k l 0 = q.
Proof.
  induction l as [|x l IH]; intros H; [destruct H|]. cbn [index_of]. destruct (Nat.eqb_spec q x) as [->|Hne].
  - exists 0. cbn. split; [reflexivity|split; [lia|reflexivity]].
  - destruct IH as (k & E & Hk & Hn); [destruct H; [congruence|auto]|]. exists (S k). rewrite E. cbn. split; [reflexivity|split; [lia|exact Hn]].
Qed.
Lemma place_spec n nm v : (forall i, i < n -> exists q, nm i = Some q /\ q < n) ->
  (forall i j, i < n -> j < n -> nm i = nm j -> i = j) ->
  forall d k w m, k + d = n -> is_perm n m -> lab n m v w -> (forall i, i < k -> nm i = Some (nth i m 0)) ->
  exists w' m', place n nm (seq k d) w m = Some (w', m') /\ is_perm n m' /\ lab n m' v w' /\ (forall i, i < n -> nm i = Some (nth i m' 0)).
Proof.
  intros Htot Hinj. induction d as [|d IH]; intros k w m Hk Hm H Hdone; cbn [seq place].
  - exists w, m. split; [reflexivity|]. split; [exact Hm|]. split; [exact H|]. intros i Hi. apply Hdone. lia.
  - destruct (Htot k ltac:(lia)) as (q1 & E & Hq1). rewrite E. destruct (Nat.eqb_spec q1 (nth k m 0)) as [Eq|Ne].
    + apply IH; auto; try lia. intros i Hi. assert (i = k \/ i < k) as [->|Hl] by lia; [now rewrite E, Eq|auto].
    + destruct (index_of_spec q1 m) as (pos & Ep & Hp & Hn).
      { apply (Permutation_in _ (Permutation_sym Hm)), in_seq. lia. }
      rewrite Ep. rewrite (perm_len n m Hm) in Hp.
      assert (Em : upd (upd m pos (nth k m 0)) k q1 = sw m pos k) by (unfold sw; now rewrite Hn). rewrite Em.
      assert (Hlm := perm_len n m Hm).
      rewrite (sw_nth n m pos k k) by (auto; lia). rewrite Nat.eqb_refl, Hn, Nat.eqb_refl.
      replace (swapm q1 (nth k m 0)) with (swapm (nth pos m 0) (nth k m 0)) by now rewrite Hn.
      apply IH; [lia|apply sw_perm; auto; lia|apply lab_swap; auto; lia|].
      intros i Hi. rewrite (sw_nth n m pos k i) by (auto; lia). assert (i = k \/ i < k) as [->|Hl] by lia.
      * now rewrite Nat.eqb_refl, Hn.
      * destruct (Nat.eqb_spec i k) as [->|_]; [lia|]. destruct (Nat.eqb_spec i pos) as [->|_]; [|auto].
        exfalso. assert (pos = k); [|lia]. apply Hinj; try lia. rewrite (Hdone pos Hl), Hn. now symmetry.
Qed.
Lemma index_inj (l : list nat) i j : In i l -> index_of i l = index_of j l -> i = j.
Proof.
  intros Hi E. destruct (index_of_spec i l Hi) as (k & Ek & _ & Hk). rewrite Ek in E. symmetry in E.
  assert (Hj : In j l).
  { clear -E. revert k E. induction l as [|x l IH]; intros k E; [discriminate|]. cbn in E. destruct (Nat.eqb_spec j x) as [->|_]; [now left|].
    right. destruct (index_of j l) as [k'|]; [eapply IH; reflexivity|discriminate]. }
  destruct (index_of_spec j l Hj) as (k' & Ek' & _ & Hk'). rewrite E in Ek'. injection Ek' as <-. congruence.
Qed.
Lemma restore_spec n m v w : is_perm n m -> lab n m v w ->
  exists w', restore_swap n w m = Some (w', seq 0 n) /\ veq n w' v.
Proof.
  intros Hm H. destruct (place_spec n Some v) with (d := n) (k := 0) (w := w) (m := m) as (w' & m' & E & Hm' & H' & Hf); auto.
  - intros i Hi. eauto.
  - intros i j _ _ E. now injection E.
  - intros i Hi. lia.
  - assert (m' = seq 0 n); [|subst m'; exists w'; split; [exact E|now apply lab_id]].
    apply (nth_ext _ _ 0 0); rewrite (perm_len n m' Hm'); [now rewrite seq_length|].
    intros i Hi. specialize (Hf i Hi). injection Hf as Hf. rewrite seq_nth by exact Hi. now rewrite <- Hf.
Qed.
Theorem do_swap_v1_spec n w data count llist m v : is_perm n m -> length llist <= n -> lab n m v w ->
  exists w' nl m', do_swap_v1 n w data count llist m = Some (w', nl, m') /\ is_perm n m' /\ length nl = length llist /\ lab n m' v w' /\
  sset n nl /\ incl (lookahead n (length llist) (skipn count data) []) nl /\
  (forall q, In q nl -> nth q m' 0 < length nl).
Proof.
  intros Hm Hs H. unfold do_swap_v1.
  destruct (lookahead_spec n (length llist) (skipn count data) [] (nil_sset n) (Nat.le_0_l _)) as (A & B & _).
  set (nl0 := lookahead n (length llist) (skipn count data) []) in *. set (ng0 := diff n (seq 0 n) nl0). set (d := length llist - length nl0).
  assert (Hng : length ng0 = n - length nl0) by now apply compl_len.
  destruct (Nat.ltb_spec (length ng0) d) as [Hbad|_]; [lia|]. set (nl := union n nl0 (firstn d ng0)). set (ng := skipn d ng0).
  assert (Hsp : forall q, In q ng0 <-> In q (firstn d ng0) \/ In q ng) by (intros q; unfold ng; rewrite <- in_app_iff, firstn_skipn; tauto).
  assert (Hnd0 : NoDup (firstn d ng0 ++ ng)) by (unfold ng; rewrite firstn_skipn; apply diff_sset).
  assert (Hnl : length nl = length llist).
  { transitivity (length (nl0 ++ firstn d ng0)).
    - apply same_len; [apply union_sset| |].
      + apply NoDup_app_disj; [apply A| |].
        * clear -Hnd0. induction (firstn d ng0) as [|x l IH]; [constructor|]. cbn in Hnd0. inversion Hnd0 as [|y l' Hx Hn]; subst. constructor; auto.
          intros Hi. apply Hx, in_or_app. now left.
        * intros q H1 H2. apply In_firstn in H2. apply diff_In in H2. tauto.
      + intros q. unfold nl. rewrite union_In, in_app_iff. destruct A as [_ A]. specialize (A q).
        assert (In q (firstn d ng0) -> q < n) by (intros Hi; apply In_firstn, diff_In in Hi; tauto). tauto.
    - rewrite app_length, firstn_length. lia. }
  assert (Hp : is_perm n (nl ++ ng)).
  { apply NoDup_Permutation.
    - apply NoDup_app_disj; [apply union_sset| |].
      + clear -Hnd0. induction (firstn d ng0) as [|x l IH]; auto. apply IH. cbn in Hnd0. now inversion Hnd0.
      + intros q H1 H2. apply union_In in H1 as [_ [H1|H1]].
        * assert (In q ng0) by (apply Hsp; auto). apply diff_In in H0. tauto.
        * clear -Hnd0 H1 H2. induction (firstn d ng0) as [|x l IH]; [destruct H1|]. cbn in Hnd0. inversion Hnd0 as [|y l' Hx Hn]; subst.
          destruct H1 as [->|H1]; [apply Hx, in_or_app; now right|auto].
    - apply seq_NoDup.
    - intros q. rewrite in_app_iff, in_seq. unfold nl. rewrite union_In. split.
      + intros [[Hq _]|Hq]; [lia|]. assert (In q ng0) by (apply Hsp; auto). apply diff_In in H0. lia.
      + intros [_ Hq]. destruct (in_dec Nat.eq_dec q nl0) as [Hi|Hi]; [left; split; [lia|auto]|].
        assert (Hq0 : In q ng0) by (apply diff_In; split; [lia|split; [apply in_seq; lia|exact Hi]]).
        apply Hsp in Hq0 as [Hq0|Hq0]; [left; split; [lia|auto]|now right]. }
  assert (Hin : forall i, i < n -> In i (nl ++ ng)) by (intros i Hi; apply (Permutation_in _ (Permutation_sym Hp)), in_seq; lia).
  destruct (place_spec n (fun q => index_of q (nl ++ ng)) v) with (d := n) (k := 0) (w := w) (m := m) as (w' & m' & E & Hm' & H' & Hf); auto.
  - intros i Hi. destruct (index_of_spec i _ (Hin i Hi)) as (k & E & Hk & _). exists k. rewrite (perm_len n _ Hp) in Hk. auto.
  - intros i j Hi _ E. apply (index_inj (nl ++ ng)); auto.
  - intros i Hi. lia.
  - rewrite E. exists w', nl, m'. split; [reflexivity|]. split; [exact Hm'|]. split; [exact Hnl|]. split; [exact H'|].
    split; [apply union_sset|]. split.
    + intros q Hq. unfold nl. apply union_In. destruct A as [_ A]. auto.
    + intros q Hq. assert (Hqn : q < n) by (apply union_In in Hq; tauto). specialize (Hf q Hqn). cbn in Hf.
      assert (Hx : exists k, index_of q (nl ++ ng) = Some k /\ k < length nl).
      { clear -Hq. induction nl as [|x l IH]; [destruct Hq|]. cbn. destruct (Nat.eqb_spec q x); [exists 0; split; [auto|lia]|].
        destruct IH as (k & Ek & Hk); [destruct Hq; [congruence|auto]|]. rewrite Ek. exists (S k). split; [reflexivity|lia]. }
      destruct Hx as (k & Ek & Hk). rewrite Ek in Hf. injection Hf as <-. exact Hk.
Qed.
End Pick.

(* ---- the evaluation ---- *)
Definition inst_ok (n : nat) (x : inst) : Prop := forall q, In q (qargs (op x)) -> q < n.
Section Exec.
Context (eps : R) (pick : list nat -> nat) (Hpick : forall l, l <> [] -> In (pick l) l) (auto v2 : bool) (n : nat) (Hn : 0 < n).
Definition minv (s : mst) : Prop :=
  is_perm n (mmap s) /\ (auto = false -> mmap s = seq 0 n) /\ sset n (mset s) /\ length (mlist s) <= n.
Lemma pre_swap_spec data x s v : minv s -> lab n (mmap s) v (mvec s) ->
  exists s', pre_swap pick auto v2 n data x s = Some s' /\ minv s' /\ lab n (mmap s') v (mvec s').
Proof.
  intros (Hm & Hid & Hs & Hl) H. unfold pre_swap.
  destruct (auto && negb (forallb _ _) && v2) eqn:E1.
  - destruct (do_swap_v2_spec pick Hpick n (mvec s) data (mcnt s) (mset s) (mmap s) v Hm Hs H) as (w & nl & m & E & Pm & Ps & Pl).
    rewrite E. eexists. split; [reflexivity|]. cbn. split; [|exact Pl]. split; [exact Pm|]. split; [|split; [exact Ps|exact Hl]].
    intros Ha. rewrite Ha in E1. discriminate.
  - destruct (auto && negb (forallb (fun q => mem (at_ (mmap s) q) (mlist s)) (qargs (op x)))) eqn:E2; [|exists s; split; [reflexivity|split; [split; auto|auto]]].
    destruct (do_swap_v1_spec n (mvec s) data (mcnt s) (mlist s) (mmap s) v Hm Hl H) as (w & nl & m & E & Pm & Pn & Pl & _).
    rewrite E. eexists. split; [reflexivity|]. cbn. split; [|exact Pl]. split; [exact Pm|]. split; [|split; [exact Hs|change (length nl <= n); rewrite Pn; exact Hl]].
    intros Ha. rewrite Ha in E2. discriminate.
Qed.
Lemma gate_step_spec g s v : (forall q, In q (gqs g) -> q < n) -> minv s -> lab n (mmap s) v (mvec s) ->
  exists s', gate_step auto n g s = Some s' /\ minv s' /\ lab n (mmap s') (mv n (gate_mat n (fun q => q) g) v) (mvec s').
Proof.
  intros Hq (Hm & Hid & Hs & Hl) H. unfold gate_step.
  destruct g as [g qs|g qs|g qs|A qs];
    try (eexists; split; [reflexivity|]; cbn [mmap mvec]; split; [exact (conj Hm (conj Hid (conj Hs Hl)))|];
         apply lab_mv; auto; intros i j Hi Hj; apply gate_entry; auto; intros; discriminate).
  destruct auto eqn:Ea.
  - destruct (restore_spec n (mmap s) v (mvec s) Hm H) as (w & E & Hw). rewrite E. eexists. split; [reflexivity|]. cbn [mmap mvec gate_mat].
    split; [exact (conj (perm_id n) (conj (fun _ => eq_refl) (conj Hs Hl)))|]. apply lab_id. intros i Hi. apply mv_ext; auto. apply meq_refl.
  - eexists. split; [reflexivity|]. cbn [mmap mvec gate_mat]. split; [exact (conj Hm (conj (fun _ => Hid eq_refl) (conj Hs Hl)))|].
    rewrite (Hid eq_refl) in H |- *. apply (proj1 (lab_id n v (mvec s))) in H. apply lab_id. intros i Hi. apply mv_ext; auto. apply meq_refl.
Qed.
Lemma meas1_rel {A B} (R : A -> B -> Prop) m q v w k k' : is_perm n m -> q < n -> lab n m v w ->
  (forall b v' w', lab n m v' w' -> trel R (k' b w') (k b v')) -> trel R (meas1 eps n (at_ m q) w k') (meas1 eps n q v k).
Proof.
  intros Hm Hq H Hk. unfold meas1, at_. rewrite (lab_norm n m v w Hm H). destruct (Rlt_dec _ _); [constructor|].
  rewrite (lab_probq n m v w q 0 Hm Hq H). constructor. intros b. apply Hk. intros j Hj.
  rewrite (lab_probq n m v w q (b2n b) Hm Hq H). f_equal. exact (lab_project n m v w q (b2n b) Hm Hq H j Hj).
Qed.
Definition same_shot (a : mst * list bool * list R) (b : vector * list bool * list (nat * bool)) : Prop :=
  let '(s, cl, _) := a in let '(v, cl', _) := b in cl = cl' /\ minv s /\ lab n (mmap s) v (mvec s).
Lemma exec_same stable shots data : stable = true \/ shots = true -> forall l s v cl log pc,
  (forall x, In x l -> inst_ok n x) -> minv s -> lab n (mmap s) v (mvec s) ->
  trel same_shot (exec_mpi eps pick auto v2 n stable shots data l s cl pc) (exec eps n stable l v cl log).
Proof.
  intros Hss. induction l as [|x r IH]; intros s v cl log pc Hok Hi H; cbn [exec_mpi exec].
  - constructor. split; [reflexivity|]. split; [exact Hi|exact H].
  - assert (Hx := Hok x (or_introl eq_refl)). assert (Hr : forall y, In y r -> inst_ok n y) by (intros; apply Hok; now right).
    destruct (skip cl (cnd x)); [now apply IH|]. unfold inst_ok in Hx.
    destruct (pre_swap_spec data x s v Hi H) as (s1 & E1 & Hi1 & H1).
    destruct (op x) as [g|q c|q|qs|qs|qs|qs] eqn:Eop; try constructor; cbn [qargs] in Hx.
    + rewrite E1. cbn [ores]. destruct (gate_step_spec g s1 v Hx Hi1 H1) as (s2 & E2 & Hi2 & H2). rewrite E2. cbn [ores]. now apply IH.
    + destruct stable; [now apply IH|]. destruct Hss as [Hss| ->]; [discriminate|]. rewrite E1. cbn [ores].
      apply (meas1_rel same_shot (mmap s1)); [apply Hi1|apply Hx; now left|exact H1|]. intros b v' w' Hvw. apply IH; auto.
    + rewrite E1. cbn [ores]. destruct stable; [constructor|].
      assert (Hq : q < n) by (apply Hx; now left).
      apply (meas1_rel same_shot (mmap s1)); [apply Hi1|exact Hq|exact H1|]. intros b v' w' Hvw. apply IH; auto. cbn [mmap set_vec bump mvec].
      destruct b; auto. apply lab_mv; [apply Hi1| |exact Hvw]. intros i j _ _. apply x_entry; [apply Hi1|exact Hq].
    + now apply IH.
Qed.
Definition same_none (a : mst * list bool * list R) (b : vector * list R) : Prop :=
  let '(s, _, pc) := a in let '(v, pc') := b in pc = pc' /\ minv s /\ lab n (mmap s) v (mvec s).
Lemma exec_none_same stable data : forall l s v cl pc,
  (forall x, In x l -> inst_ok n x /\ cnd x = None) -> minv s -> lab n (mmap s) v (mvec s) ->
  trel same_none (exec_mpi eps pick auto v2 n stable false data l s cl pc) (exec_none eps n stable l v pc).
Proof.
  induction l as [|x r IH]; intros s v cl pc Hok Hi H; cbn [exec_mpi exec_none].
  - constructor. split; [reflexivity|]. split; [exact Hi|exact H].
  - destruct (Hok x (or_introl eq_refl)) as [Hx Hc]. assert (Hr : forall y, In y r -> inst_ok n y /\ cnd y = None) by (intros; apply Hok; now right).
    rewrite Hc. cbn [skip]. unfold inst_ok in Hx.
    destruct (pre_swap_spec data x s v Hi H) as (s1 & E1 & Hi1 & H1).
    destruct (op x) as [g|q c|q|qs|qs|qs|qs] eqn:Eop; try constructor; cbn [qargs] in Hx.
    + rewrite E1. cbn [ores]. destruct (gate_step_spec g s1 v Hx Hi1 H1) as (s2 & E2 & Hi2 & H2). rewrite E2. cbn [ores]. now apply IH.
    + destruct stable; [now apply IH|]. rewrite E1. cbn [ores]. destruct Hi1 as (Hm & Hi1).
      assert (Hq : q < n) by (apply Hx; now left).
      unfold at_. rewrite (lab_norm n _ v _ Hm H1), (lab_probq n _ v _ q 0 Hm Hq H1). destruct (Rlt_dec _ _); [constructor|].
      apply IH; auto. split; auto.
    + rewrite E1. cbn [ores]. destruct stable; [constructor|].
      assert (Hq : q < n) by (apply Hx; now left).
      apply (meas1_rel same_none (mmap s1)); [apply Hi1|exact Hq|exact H1|]. intros b v' w' Hvw. apply IH; auto. cbn [mmap set_vec bump mvec].
      destruct b; auto. apply lab_mv; [apply Hi1| |exact Hvw]. intros i j _ _. apply x_entry; [apply Hi1|exact Hq].
    + now apply IH.
Qed.
Lemma start_inv g m : is_perm n m -> (auto = false -> m = seq 0 n) -> minv (start n g m) /\ lab n (mmap (start n g m)) (basis 0) (mvec (start n g m)).
Proof.
  intros Hm Hid. split; [|now apply lab_basis0]. split; [exact Hm|]. split; [exact Hid|]. cbn. split; [apply seq_sset; lia|rewrite seq_length; lia].
Qed.
End Exec.

(* sampling depends only on the amplitudes of the n qubits *)
Lemma marg_veq n v w k b : veq n v w -> k <= n -> b < 2 ^ n -> marg v k b = marg w k b.
Proof.
  intros H Hk Hb. unfold marg. apply rsum_ext'. intros i Hi. rewrite H; [reflexivity|].
  assert (Hp : 2 ^ n = 2 ^ (n - k) * 2 ^ k) by (rewrite <- Nat.pow_add_r; f_equal; lia).
  assert (b / 2 ^ k < 2 ^ (n - k)) by (apply Nat.div_lt_upper_bound; [apply Nat.pow_nonzero; lia|lia]). nia.
Qed.
Lemma measall_veq n v w : veq n v w -> forall k b, k <= n -> b < 2 ^ n -> measall k v b = measall k w b.
Proof.
  intros H. induction k as [|k IH]; intros b Hk Hb; cbn; auto.
  assert (Hc : forall x, x < 2 ^ n -> Nat.clearbit x k < 2 ^ n).
  { intros x Hx. apply lt_pow2_bits. intros l Hl. rewrite Nat.clearbit_eqb, (pow2_bits_high n x l Hx Hl). now destruct (k =? l). }
  assert (Hs : forall x, x < 2 ^ n -> Nat.setbit x k < 2 ^ n).
  { intros x Hx. apply lt_pow2_bits. intros l Hl. rewrite Nat.setbit_eqb, (pow2_bits_high n x l Hx Hl).
    destruct (Nat.eqb_spec k l); [lia|reflexivity]. }
  unfold cond0. rewrite (marg_veq n v w k), (marg_veq n v w (S k)) by (auto; lia).
  f_equal. apply functional_extensionality. intros [|]; apply IH; auto; lia.
Qed.
Lemma probs_veq n v w : veq n v w -> probs n v = probs n w.
Proof.
  intros H. unfold probs. apply map_ext_in. intros i Hi. apply in_seq in Hi. rewrite (H i) by lia. f_equal.
  unfold norm2v. apply rsum_ext'. intros j Hj. now rewrite (H j Hj).
Qed.
Lemma phase_veq n a v w : veq n v w -> veq n (phase a v) (phase a w).
Proof. intros H i Hi. unfold phase, scaled. now rewrite (H i Hi). Qed.
Lemma assemble_id n ncl m res : (forall c q, In (c, q) m -> q < n) -> assemble_m (seq 0 n) ncl m res = assemble ncl m res.
Proof.
  intros H. unfold assemble_m, assemble. f_equal. generalize (repeat false ncl). induction m as [|[c q] m IH]; intros acc; cbn; auto.
  rewrite IH by (intros; eapply H; right; eauto). unfold at_. rewrite seq_nth; [reflexivity|]. apply (H c). now left.
Qed.
Lemma replicate_ext {A} k (t t' : tree A) : t = t' -> replicate k t = replicate k t'.
Proof. now intros ->. Qed.

(* the measured qubits of the circuit exist *)
Lemma dset_In d k v a b : In (a, b) (dset d k v) -> (a, b) = (k, v) \/ In (a, b) d.
Proof.
  induction d as [|[k' v'] d IH]; cbn; [intros [E|[]]; left; now rewrite E|].
  destruct (k =? k'); cbn; intros [E|H]; auto. destruct (IH H); auto.
Qed.
Lemma classify_In n0 n l : (forall x, In x l -> inst_ok n x) -> forall i st me m st' me' m',
  classify n0 i l st me m = (st', me', m') -> (forall c q, In (c, q) m -> q < n) -> forall c q, In (c, q) m' -> q < n.
Proof.
  induction l as [|x r IH]; intros Hok i st me m st' me' m' E Hm; cbn in E; [injection E as <- <- <-; exact Hm|].
  destruct (classify_step n0 i x st me m) as [[st1 me1] m1] eqn:E1.
  assert (H1 : forall c q, In (c, q) m1 -> q < n).
  { unfold classify_step in E1. pose proof (Hok x (or_introl eq_refl)) as Hx. unfold inst_ok in Hx. intros c q Hi.
    destruct (op x) as [g|q' c'|q'|qs|qs|qs|qs]; try (destruct (_ || _); injection E1 as _ _ <-; eapply Hm; eauto).
    injection E1 as _ _ <-. apply dset_In in Hi as [E'|Hi]; [injection E' as -> ->; apply Hx; now left|eapply Hm; eauto]. }
  destruct (negb st1 && _); [injection E as <- <- <-; exact H1|]. eapply IH; [intros; apply Hok; now right|exact E|exact H1].
Qed.

Section Eval.
Context (eps : R) (pick : list nat -> nat) (Hpick : forall l, l <> [] -> In (pick l) l) (auto v2 : bool).
Lemma restored_rel {A B} (R : A -> B -> Prop) n s v (k : vector -> list nat -> tree A) (t : tree B) :
  minv auto n s -> lab n (mmap s) v (mvec s) -> (forall w, veq n w v -> trel R (k w (seq 0 n)) t) ->
  trel R (if auto then ores (restore_swap n (mvec s) (mmap s)) (fun '(w, m) => k w m) else k (mvec s) (mmap s)) t.
Proof.
  intros (Hm & Hid & _) H Hk. destruct auto.
  - destruct (restore_spec n (mmap s) v (mvec s) Hm H) as (w & E & Hw). rewrite E. cbn. now apply Hk.
  - rewrite (Hid eq_refl) in H |- *. apply Hk. now apply lab_id.
Qed.
Lemma shots_same g c k m : 0 < nq c -> (forall x, In x (data c) -> inst_ok (nq c) x) -> is_perm (nq c) m -> (auto = false -> m = seq 0 (nq c)) ->
  trel eq (shots_mpi eps pick auto v2 g c k m) (replicate k (shot_unstable eps c)).
Proof.
  intros Hn Hok. revert m. induction k as [|k IH]; intros m Hm Hid; cbn [shots_mpi replicate]; [constructor; reflexivity|].
  unfold shot_unstable at 1.
  destruct (start_inv auto (nq c) Hn g m Hm Hid) as [Hi H].
  pose proof (exec_same eps pick Hpick auto v2 (nq c) Hn false true (data c) (or_intror eq_refl) (data c) _ _ (repeat false (nc c)) [] [] Hok Hi H) as He.
  induction He as [[[s cl] pc] [[v cl'] log] Hr| |p k1 k2 _ IHe]; cbn [bind]; [|constructor|constructor; exact IHe].
  destruct Hr as (<- & (Hm' & Hid' & Hr') & Hlab).
  destruct k as [|k].
  - cbn [replicate bind]. destruct auto; [|constructor; reflexivity].
    destruct (restore_spec (nq c) (mmap s) v (mvec s) Hm' Hlab) as (w & E & _). rewrite E. constructor. reflexivity.
  - eapply trel_bind; [apply IH; auto|]. intros a b ->. constructor. reflexivity.
Qed.
(* C35: with any number of processes, automatic swaps on or off, either version of
   the swap heuristic, the evaluation draws the same, fails the same and returns
   the same data as the evaluation without swaps *)
Theorem C35_same_results size c p req shots : 1 <= size -> size < 2 ^ nq c -> (forall x, In x (data c) -> inst_ok (nq c) x) ->
  validate_circuit req c = Some p -> evaluate_mpi eps pick auto v2 size c p shots = evaluate eps c p shots.
Proof.
  intros Hs1 Hs Hok Hv. apply trel_eq. unfold evaluate_mpi. destruct (Nat.leb_spec (2 ^ nq c) size) as [|_]; [lia|].
  assert (Hn : 0 < nq c) by (destruct (nq c); [cbn in Hs; lia|lia]).
  assert (Hcl : forall k q, In (k, q) (clbit_final_values p) -> q < nq c).
  { unfold validate_circuit in Hv. destruct (max_qubits <? nq c); [discriminate|].
    destruct (classify (nq c) 0 (data c) true [] []) as [[st me] m] eqn:E. destruct (_ && _); [discriminate|]. injection Hv as <-.
    cbn. eapply classify_In; [exact Hok|exact E|]. intros ? ? []. }
  destruct (start_inv auto (nq c) Hn (Nat.log2 size) (seq 0 (nq c)) (perm_id _) (fun _ => eq_refl)) as [Hi H].
  unfold evaluate. destruct shots as [z|].
  - destruct (stable_final_state p) eqn:Est.
    + eapply trel_bind; [apply (exec_same eps pick Hpick auto v2 (nq c) Hn true _ (data c) (or_introl eq_refl) (data c)); auto|].
      intros [[s cl] pc] [[v cl'] log] (<- & Hi' & Hl'). eapply restored_rel; [exact Hi'|exact Hl'|]. intros w Hw. cbn beta zeta.
      destruct (z =? 0)%Z; [constructor; f_equal; apply probs_veq, phase_veq, Hw|].
      match goal with |- trel _ (bind ?a _) (bind ?b _) => replace a with b; [apply trel_refl|] end.
      apply replicate_ext. unfold shot_stable.
      rewrite (measall_veq (nq c) (phase (gphase c) w) (phase (gphase c) v)); [|now apply phase_veq|lia|apply Nat.neq_0_lt_0, Nat.pow_nonzero; lia].
      f_equal. apply functional_extensionality. intros b. f_equal. symmetry. now apply assemble_id.
    + destruct (z <=? 0)%Z; [constructor|]. eapply trel_bind; [apply shots_same; auto; apply perm_id|].
      intros a b ->. constructor. reflexivity.
  - destruct (existsb has_cond (data c)) eqn:Ec; [constructor|].
    assert (Hcn : forall x, In x (data c) -> inst_ok (nq c) x /\ cnd x = None).
    { intros x Hx. split; [auto|]. destruct (cnd x) eqn:E; auto. exfalso. rewrite <- not_true_iff_false in Ec. apply Ec.
      apply existsb_exists. exists x. split; auto. unfold has_cond. now rewrite E. }
    eapply trel_bind; [apply (exec_none_same eps pick Hpick auto v2 (nq c) Hn _ (data c) (data c)); auto|].
    intros [[s cl] pc] [v pc'] (<- & Hi' & Hl'). eapply restored_rel; [exact Hi'|exact Hl'|]. intros w Hw.
    constructor. f_equal. destruct (stable_final_state p); [apply probs_veq, phase_veq, Hw|reflexivity].
Qed.
End Eval.
