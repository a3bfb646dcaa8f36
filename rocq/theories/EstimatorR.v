(* EstimatorR.v -- property C43, third part: the experiment map. *)
From Coq Require Import Reals ZArith Bool List Lia Arith Permutation.
From Coquelicot Require Import Complex.
From Verif Require Import Spec Backend Estimator PauliP EstimatorP EstimatorQ.
Import ListNotations.
Open Scope nat_scope.

Lemma fold_left_map {A B C} (F : A -> C -> A) (g : B -> C) l : forall d, fold_left (fun d o => F d (g o)) l d = fold_left F (map g l) d.
Proof. induction l as [|x l IH]; intros d; cbn; auto. Qed.
Lemma fold_some {A X} (f : option A -> X -> A) l : forall a, fold_left (fun acc x => Some (f acc x)) l (Some a) = Some (fold_left (fun acc x => f (Some acc) x) l a).
Proof. induction l as [|x l IH]; intros a; cbn; auto. Qed.
Lemma kfilter_In {X} k (l : list (nat * X)) x : In x (kfilter k l) <-> In (k, x) l.
Proof.
  unfold kfilter. rewrite in_map_iff. split.
  - intros ([k' x'] & E & H). apply filter_In in H as [H Hk]. cbn in *. apply Nat.eqb_eq in Hk. congruence.
  - intros H. exists (k, x). split; [reflexivity|]. apply filter_In. split; auto. cbn. apply Nat.eqb_refl.
Qed.
Lemma kfilter_app {X} k (l l' : list (nat * X)) : kfilter k (l ++ l') = kfilter k l ++ kfilter k l'.
Proof. unfold kfilter. now rewrite filter_app, map_app. Qed.
Lemma kfilter_map_pair {X} k j (l : list X) : kfilter k (map (pair j) l) = if j =? k then l else [].
Proof.
  unfold kfilter. destruct (j =? k) eqn:E.
  - induction l as [|x l IH]; cbn; auto. rewrite E. cbn. now rewrite IH.
  - induction l as [|x l IH]; cbn; auto. rewrite E. auto.
Qed.
Lemma agetl_nil {A} (k : nat) : agetl (@nil (nat * list A)) k = [].
Proof. reflexivity. Qed.

(* ---- groups of Paulis ---- *)
Definition qwc (p p' : pauli) : Prop := forall q, at_q p q = (false, false) \/ at_q p' q = (false, false) \/ at_q p q = at_q p' q.
(* a partition of the Paulis in l into groups that can be measured together *)
Definition partition_of (l : list pauli) (gs : list (list pauli)) : Prop :=
  NoDup (concat gs) /\ (forall p, In p (concat gs) <-> In p l) /\ ~ In [] gs /\ (forall g p p', In g gs -> In p g -> In p' g -> qwc p p').
Lemma is_id_spec p : is_id p = true <-> forall q, at_q p q = (false, false).
Proof.
  unfold is_id, at_q. rewrite forallb_forall. split.
  - intros H q. destruct (Nat.lt_ge_cases q (length p)) as [h|h]; [|now apply nth_overflow].
    specialize (H _ (nth_In p (false, false) h)). destruct (nth q p (false, false)) as [[] []]; cbn in H; congruence.
  - intros H x Hx. apply (In_nth _ _ (false, false)) in Hx as (q & _ & <-). now rewrite H.
Qed.
Lemma not_id p : is_id p = false -> exists q, q < length p /\ pnon p q = true.
Proof.
  unfold is_id. intros H. assert (E : existsb (fun xz => fst xz || snd xz) p = true).
  { induction p as [|x p IH]; [discriminate|]. cbn in *. destruct (fst x || snd x); [reflexivity|]. cbn in *. auto. }
  apply existsb_exists in E as (x & Hx & E). apply (In_nth _ _ (false, false)) in Hx as (q & Hq & <-). exists q. split; auto.
  unfold pnon, px, pz. now rewrite orb_comm.
Qed.
Lemma nth_map_seq {A} (f : nat -> A) n q d : q < n -> nth q (map f (seq 0 n)) d = f q.
Proof.
  intros H. rewrite (nth_indep _ d (f 0)) by (rewrite map_length, seq_length; lia). rewrite (map_nth f), seq_nth by lia. reflexivity.
Qed.
Lemma basis_len n g : g <> [] -> (forall p, In p g -> length p = n) -> length (paulis2basis g) = n.
Proof.
  intros Hg H. unfold paulis2basis. rewrite map_length, seq_length. destruct g as [|p g]; [congruence|]. cbn. apply H. now left.
Qed.
Lemma existsb_two (f : pauli -> bool) g p : In p g -> (forall p', In p' g -> f p' = true -> f p = true) -> existsb f g = f p.
Proof.
  intros Hp H. destruct (f p) eqn:E.
  - apply existsb_exists. eauto.
  - apply Bool.not_true_iff_false. intros h. apply existsb_exists in h as (p' & Hp' & E'). specialize (H p' Hp' E'). congruence.
Qed.
Lemma basis_measures n g p : g <> [] -> (forall p, In p g -> length p = n) -> (forall p p', In p g -> In p' g -> qwc p p') -> In p g ->
  measured_by n (paulis2basis g) p.
Proof.
  intros Hg Hl Hq Hp q Hn. destruct (pair_dec (at_q p q) (false, false)) as [E|E]; [now left|]. right.
  assert (Hs : forall p', In p' g -> at_q p' q = (false, false) \/ at_q p q = at_q p' q).
  { intros p' Hp'. destruct (Hq p p' Hp Hp' q) as [h|[h|h]]; auto. contradiction. }
  unfold at_q at 2, paulis2basis. destruct g as [|p0 g]; [congruence|]. cbn [nth]. rewrite (Hl p0) by (now left).
  rewrite (nth_map_seq _ n q _ Hn). rewrite (existsb_two (fun p => px p q) _ p Hp), (existsb_two (fun p => pz p q) _ p Hp).
  - unfold px, pz. fold (at_q p q). now destruct (at_q p q).
  - intros p' Hp'. unfold px, pz. fold (at_q p q). fold (at_q p' q). destruct (Hs p' Hp') as [h|h]; rewrite h; [discriminate|auto].
  - intros p' Hp'. unfold px, pz. fold (at_q p q). fold (at_q p' q). destruct (Hs p' Hp') as [h|h]; rewrite h; [discriminate|auto].
Qed.
Lemma basis_support n g p : g <> [] -> (forall p, In p g -> length p = n) -> In p g -> is_id p = false -> support (paulis2basis g) <> [].
Proof.
  intros Hg Hl Hp Hi. apply not_id in Hi as (q & Hq & Hn). rewrite (Hl p Hp) in Hq. intros E.
  assert (H : In q (support (paulis2basis g))); [|rewrite E in H; exact H].
  unfold support. apply filter_In. rewrite (basis_len n) by auto. split; [apply in_seq; lia|].
  unfold pnon, px, pz, paulis2basis. destruct g as [|p0 g]; [congruence|]. cbn [nth]. rewrite (Hl p0) by (now left). rewrite (nth_map_seq _ n q _ Hq). cbn [fst snd].
  unfold pnon in Hn. apply orb_true_iff in Hn. apply orb_true_iff. destruct Hn as [h|h]; [left|right]; apply existsb_exists; eauto.
Qed.
Lemma mem_p_spec p l : mem_p p l = true <-> In p l.
Proof.
  unfold mem_p. rewrite existsb_exists. split.
  - intros (x & Hx & E). destruct (pauli_dec p x); congruence.
  - intros H. exists p. split; auto. destruct (pauli_dec p p); congruence.
Qed.
Lemma basis_ind_In gs p b : basis_ind gs p = Some b -> exists g, nth_error gs b = Some g /\ In p g.
Proof.
  revert b. induction gs as [|g gs IH]; intros b H; [discriminate|]. cbn in H. destruct (mem_p p g) eqn:E.
  - injection H as <-. exists g. split; auto. now apply mem_p_spec.
  - destruct (basis_ind gs p) as [b'|]; [|discriminate]. injection H as <-. now apply IH.
Qed.
Lemma basis_ind_some gs p : In p (concat gs) -> exists b, basis_ind gs p = Some b.
Proof.
  induction gs as [|g gs IH]; intros H; [destruct H|]. cbn in *. destruct (mem_p p g) eqn:E; [eauto|].
  apply in_app_or in H as [H|H]; [apply mem_p_spec in H; congruence|]. destruct (IH H) as (b & ->). cbn. eauto.
Qed.
Lemma basis_ind_nodup gs p b g : NoDup (concat gs) -> nth_error gs b = Some g -> In p g -> basis_ind gs p = Some b.
Proof.
  revert b. induction gs as [|g0 gs IH]; intros b H Hb Hp; [destruct b; discriminate|]. cbn. cbn in H. destruct b as [|b]; cbn in Hb.
  - injection Hb as ->. now rewrite (proj2 (mem_p_spec p g) Hp).
  - destruct (mem_p p g0) eqn:E.
    + exfalso. apply mem_p_spec in E. assert (H2 : In p (concat gs)) by (apply in_concat; exists g; split; auto; eapply nth_error_In; eauto).
      clear -H E H2. induction g0 as [|x g0 IHg]; [destruct E|]. cbn in H. inversion H; subst. destruct E as [->|E]; auto. apply H3. apply in_or_app. now right.
    + rewrite (IH b); auto. clear -H. induction g0 as [|x g0 IHg]; auto. cbn in H. inversion H; subst. auto.
Qed.
(* one Pauli per group, in order of first occurrence *)
Lemma uniq_firsts l : uniq l = firsts pauli_dec l.
Proof.
  assert (G : forall l acc, NoDup acc -> fold_left (addf pauli_dec) l acc = acc ++ filter (fun x => if in_dec pauli_dec x acc then false else true) (uniq l)).
  { clear. induction l as [|p l IH]; intros acc Ha; cbn [fold_left uniq filter]; [now rewrite app_nil_r|].
    assert (FF : forall f g (m : list pauli), filter f (filter g m) = filter (fun x => g x && f x) m).
    { clear. intros f g m. induction m as [|x m IHm]; cbn; auto. destruct (g x); cbn; [|auto]. destruct (f x); now rewrite IHm. }
    unfold addf at 2. destruct (in_dec pauli_dec p acc) as [h|h].
    - rewrite IH, FF by auto. f_equal. apply filter_ext. intros x. destruct (pauli_dec p x) as [<-|]; cbn; [|reflexivity]. destruct (in_dec pauli_dec p acc); [reflexivity|contradiction].
    - rewrite IH, FF by (now apply NoDup_snoc). rewrite <- app_assoc. cbn [app]. do 2 f_equal. apply filter_ext. intros x.
      destruct (in_dec pauli_dec x (acc ++ [p])) as [h1|h1], (in_dec pauli_dec x acc) as [h2|h2], (pauli_dec p x) as [h3|h3]; cbn; auto; exfalso; rewrite in_app_iff in h1; cbn in h1; subst; intuition congruence. }
  unfold firsts. rewrite G by constructor. cbn [app]. rewrite <- (filter_ext (fun _ => true)) by (intros a; now destruct (in_dec pauli_dec a [])).
  induction (uniq l) as [|x m IHm]; cbn; auto. now rewrite <- IHm.
Qed.
Lemma concat_single {A} (l : list A) : concat (map (fun p => [p]) l) = l.
Proof. induction l as [|x l IH]; cbn; auto. now rewrite IH. Qed.
Lemma single_partition l : partition_of l (map (fun p => [p]) (uniq l)).
Proof.
  unfold partition_of. rewrite concat_single, uniq_firsts. split; [apply firsts_NoDup|]. split; [intros p; apply firsts_In|]. split.
  - intros h. apply in_map_iff in h as (p & E & _). discriminate.
  - intros g p p' Hg Hp Hp'. apply in_map_iff in Hg as (x & <- & _). destruct Hp as [<-|[]], Hp' as [<-|[]]. intros q. auto.
Qed.
Lemma basis_ind_single u : NoDup u -> forall a, map (fun p => match basis_ind (map (fun p => [p]) u) p with Some b => a + b | None => 0 end) u = seq a (length u).
Proof.
  induction u as [|p u IH]; intros H a; [reflexivity|]. inversion H as [|? ? H1 H2]; subst. cbn [map length seq basis_ind]. f_equal.
  - unfold mem_p. cbn. destruct (pauli_dec p p); [cbn; lia|congruence].
  - rewrite <- (IH H2 (S a)). apply map_ext_in. intros p' Hp'. unfold mem_p. cbn [existsb]. destruct (pauli_dec p' p) as [->|]; [contradiction|]. cbn [orb].
    destruct (basis_ind_some (map (fun p => [p]) u) p') as (b & ->); [now rewrite concat_single|]. cbn. lia.
Qed.
Lemma firsts_map {A B} (dA : forall x y : A, {x = y} + {x <> y}) (dB : forall x y : B, {x = y} + {x <> y}) (f : A -> B) l :
  (forall x y, In x l -> In y l -> f x = f y -> x = y) -> firsts dB (map f l) = map f (firsts dA l).
Proof.
  induction l as [|x l IH] using rev_ind; intros H; [reflexivity|]. rewrite map_app. cbn [map]. rewrite !firsts_snoc, IH.
  - unfold addf. destruct (in_dec dB (f x) (map f (firsts dA l))) as [h|h], (in_dec dA x (firsts dA l)) as [h'|h']; auto.
    + exfalso. apply in_map_iff in h as (y & E & Hy). apply h'. replace x with y; auto. apply firsts_In in Hy. apply H; auto; apply in_or_app; [now left|right; now left].
    + exfalso. apply h, in_map. exact h'.
    + rewrite map_app. reflexivity.
  - intros a b Ha Hb. apply H; apply in_or_app; now left.
Qed.

Lemma agetl_aset {A} (d : list (nat * list A)) k x j : agetl (aset d k x) j = if j =? k then x else agetl d j.
Proof. unfold agetl. rewrite aget_aset. now destruct (j =? k). Qed.
Lemma aget_map {A} (f : nat -> A) ks k : In k ks -> aget (map (fun k => (k, f k)) ks) k = Some (f k).
Proof.
  induction ks as [|x ks IH]; intros H; [destruct H|]. cbn. destruct (Nat.eqb_spec k x) as [->|]; auto. apply IH. destruct H; congruence.
Qed.
Lemma com_spec cos : map fst (circ_obs_map cos) = firsts Nat.eq_dec (map fst cos) /\ forall ci, agetl (circ_obs_map cos) ci = kfilter ci cos.
Proof.
  unfold circ_obs_map.
  pose proof (upd_fold (fun (o : option (list nat)) x => match o with Some l => l | None => [] end ++ [x]) cos) as H. cbn zeta in H. destruct H as [H1 H2].
  split; [exact H1|]. intros ci. unfold agetl at 1. rewrite H2. clear.
  induction (kfilter ci cos) as [|x l IH] using rev_ind; [reflexivity|]. rewrite fold_left_app. cbn [fold_left].
  destruct (fold_left _ l None) as [m|]; congruence.
Qed.
Lemma com_eq cos : circ_obs_map cos = map (fun ci => (ci, kfilter ci cos)) (firsts Nat.eq_dec (map fst cos)).
Proof.
  destruct (com_spec cos) as [H1 H2]. rewrite (dict_as_map (circ_obs_map cos)) by (rewrite H1; apply firsts_NoDup). rewrite H1. apply map_ext. intros ci. now rewrite H2.
Qed.

Section Map.
Context {Q K KO N V : Type} (K_dec : forall x y : K, {x = y} + {x <> y}) (KO_dec : forall x y : KO, {x = y} + {x <> y}).
Context (V_dec : forall x y : V, {x = y} + {x <> y}).
Context (group : list pauli -> list (list pauli)) (abelian : bool).
Notation estimator := (@estimator Q K KO N).
Notation groups := (groups group abelian).
Notation build := (@build Q K KO N group abelian).
Notation vals_dec := (vals_dec V_dec).
Notation bmap := (list (nat * list (list V))).
Definition blist (s : estimator) (gs : list (list pauli)) (o : nat) : list nat :=
  flat_map (fun p => match basis_ind gs p with Some b => [b] | None => [] end) (paulis_of s o).
Lemma obs_map_get s gs ois o : agetl (obs_map s gs ois) o = concat (repeat (blist s gs o) (count_occ Nat.eq_dec ois o)).
Proof.
  induction ois as [|x ois IH] using rev_ind; [reflexivity|]. unfold obs_map in *. rewrite fold_left_app. cbn [fold_left]. rewrite agetl_aset, count_occ_app. cbn [count_occ].
  fold (blist s gs x). destruct (Nat.eqb_spec o x) as [->|Hn].
  - rewrite IH. destruct (Nat.eq_dec x x); [|congruence]. rewrite repeat_app, concat_app. cbn. now rewrite app_nil_r.
  - destruct (Nat.eq_dec x o); [congruence|]. rewrite Nat.add_0_r. exact IH.
Qed.
Lemma obs_map_In s gs ois o b : In o ois -> (In b (agetl (obs_map s gs ois) o) <-> In b (blist s gs o)).
Proof.
  intros H. rewrite obs_map_get. apply (count_occ_In Nat.eq_dec) in H. rewrite in_concat. split.
  - intros (l & Hl & Hb). apply repeat_spec in Hl as ->. exact Hb.
  - intros Hb. exists (blist s gs o). split; auto. destruct (count_occ Nat.eq_dec ois o); [lia|now left].
Qed.
Lemma obs_map_nth s gs ois o k b : In o ois -> nth_error (blist s gs o) k = Some b -> nth_error (agetl (obs_map s gs ois) o) k = Some b.
Proof.
  intros H Hk. rewrite obs_map_get. apply (count_occ_In Nat.eq_dec) in H. destruct (count_occ Nat.eq_dec ois o) as [|n]; [lia|]. cbn.
  rewrite nth_error_app1; auto. apply nth_error_Some. congruence.
Qed.

(* ---- build ---- *)
Lemma build_eq s (Qof : nat -> Q) cs (F : nat -> list nat) : (forall ci, In ci cs -> nth_error (ecircs s) ci = Some (Qof ci)) ->
  (forall ci, In ci cs -> let bases := map paulis2basis (groups (flat_map (paulis_of s) (F ci))) in (length bases =? 1) && is_id (nth 0 bases []) = false) ->
  forall ed oms, build s (map (fun ci => (ci, F ci)) cs) ed oms =
    (ed ++ map (fun ci => (ci, map (fun g => (Qof ci, paulis2basis g)) (groups (flat_map (paulis_of s) (F ci))))) cs,
     oms ++ map (fun ci => (ci, obs_map s (groups (flat_map (paulis_of s) (F ci))) (F ci))) cs).
Proof.
  induction cs as [|ci cs IH]; intros H1 H2 ed oms; cbn [map Estimator.build]; [now rewrite !app_nil_r|].
  rewrite (H2 ci (or_introl eq_refl)), (H1 ci (or_introl eq_refl)). rewrite IH by (intros; (apply H1 || apply H2); now right).
  rewrite map_map, <- !app_assoc. reflexivity.
Qed.

(* ---- the experiment map ---- *)
Definition gv (acc : option (list (list V))) (v : list V) : list (list V) :=
  match acc with None => [v] | Some vals => if mem_v V_dec v vals then vals else vals ++ [v] end.
Definition gb (acc : option bmap) (x : nat * list V) : bmap :=
  let bm := match acc with Some b => b | None => [] end in aset bm (fst x) (gv (aget bm (fst x)) (snd x)).
Definition ge (em : list (nat * bmap)) (y : nat * (nat * list V)) := aset em (fst y) (gb (aget em (fst y)) (snd y)).
Lemma mem_v_spec v l : mem_v V_dec v l = true <-> In v l.
Proof.
  unfold mem_v. rewrite existsb_exists. split.
  - intros (x & Hx & E). destruct (vals_dec v x); congruence.
  - intros H. exists v. split; auto. destruct (vals_dec v v); congruence.
Qed.
Definition triv (ps : nat -> list N) (em : list (nat * bmap)) : Prop :=
  forall ci, ps ci = [] -> forall b vals, aget (agetl em ci) b = Some vals -> vals = [[]].
Lemma add_val_eq (ps : nat -> list N) ci v em b : triv ps em -> length v = length (ps ci) ->
  add_val V_dec (negb (length (ps ci) =? 0)) ci v em b = ge em (ci, (b, v)) /\ triv ps (ge em (ci, (b, v))).
Proof.
  intros Ht Hv. split.
  - unfold add_val, ge, gb. cbn [fst snd]. fold (agetl em ci). destruct (aget (agetl em ci) b) as [vals|] eqn:E; [|reflexivity].
    destruct (aget em ci) as [bm|] eqn:Ee; [|unfold agetl in E; rewrite Ee in E; discriminate].
    assert (Eb : agetl em ci = bm) by (unfold agetl; now rewrite Ee). rewrite Eb in *. cbn [gv].
    destruct (length (ps ci)) as [|k] eqn:Ek; cbn [Nat.eqb negb].
    + destruct v; [|discriminate]. rewrite (Ht ci ltac:(now apply length_zero_iff_nil) b vals) by (now rewrite Eb). cbn [mem_v existsb].
      destruct (Estimator.vals_dec V_dec [] []); [reflexivity|congruence].
    + destruct (mem_v V_dec v vals) eqn:Em; [|reflexivity]. rewrite (aset_same bm b vals E). now rewrite aset_same.
  - intros cj Hc b' vals. unfold ge. cbn [fst]. unfold gb. cbn [fst snd]. fold (agetl em ci).
    unfold agetl at 1. rewrite aget_aset. destruct (Nat.eqb_spec cj ci) as [->|]; [|fold (agetl em cj); now apply Ht].
    assert (v = []) as -> by (apply length_zero_iff_nil; now rewrite Hv, Hc).
    rewrite aget_aset. fold (agetl em ci). destruct (Nat.eqb_spec b' b) as [->|]; [|now apply Ht].
    intros E. injection E as <-. destruct (aget (agetl em ci) b) as [vals|] eqn:Eg; cbn [gv]; [|reflexivity].
    rewrite (Ht ci Hc b vals Eg). cbn [mem_v existsb]. destruct (Estimator.vals_dec V_dec [] []); [reflexivity|congruence].
Qed.
Definition steps (om : nat -> nat -> list nat) (l : list (nat * nat * list V)) : list (nat * (nat * list V)) :=
  flat_map (fun x => map (fun b => (fst (fst x), (b, snd x))) (om (fst (fst x)) (snd (fst x)))) l.
Lemma pre_process_eq (s : estimator) oms om l : (forall x, In x l -> length (snd x) = length (nth (fst (fst x)) (eparams s) []) /\
    exists d, aget oms (fst (fst x)) = Some d /\ agetl d (snd (fst x)) = om (fst (fst x)) (snd (fst x))) ->
  forall em, triv (fun ci => nth ci (eparams s) []) em -> pre_process V_dec s oms l em = Some (fold_left ge (steps om l) em).
Proof.
  set (ps := fun ci => nth ci (eparams s) []). induction l as [|[[ci oi] v] l IH]; intros H em Ht; [reflexivity|]. cbn [Estimator.pre_process].
  destruct (H _ (or_introl eq_refl)) as (Hv & d & Hd & Ho). cbn [fst snd] in *. rewrite Hv, Nat.eqb_refl, Hd. cbn [negb].
  unfold steps. cbn [flat_map fst snd]. rewrite fold_left_app. fold (steps om l).
  assert (G : forall bs em, triv ps em -> fold_left (add_val V_dec (negb (length (nth ci (eparams s) []) =? 0)) ci v) bs em = fold_left ge (map (fun b => (ci, (b, v))) bs) em /\
     triv ps (fold_left ge (map (fun b => (ci, (b, v))) bs) em)).
  { clear -Hv. induction bs as [|b bs IHb]; intros em Ht; [auto|]. cbn [fold_left map].
    destruct (add_val_eq ps ci v em b Ht Hv) as [E1 E2]. unfold ps in E1 at 1. rewrite E1. now apply IHb. }
  destruct (G (agetl d oi) em Ht) as [G1 G2]. rewrite G1, Ho in *. apply IH; auto. intros x Hx. apply H. now right.
Qed.
(* its contents *)
Lemma gv_firsts l : l <> [] -> fold_left (fun acc v => Some (gv acc v)) l None = Some (firsts vals_dec l).
Proof.
  induction l as [|v l IH] using rev_ind; intros H; [congruence|]. rewrite fold_left_app, firsts_snoc. cbn [fold_left].
  destruct l as [|x l]; [reflexivity|]. rewrite IH by discriminate. cbn [gv]. f_equal. unfold addf.
  destruct (mem_v V_dec v (firsts vals_dec (x :: l))) eqn:E, (in_dec vals_dec v (firsts vals_dec (x :: l))) as [h|h]; auto.
  - apply mem_v_spec in E. contradiction.
  - apply mem_v_spec in h. congruence.
Qed.
Lemma em_keys st : map fst (fold_left ge st []) = firsts Nat.eq_dec (map fst st).
Proof. exact (Logic.proj1 (upd_fold gb st)). Qed.
Lemma em_bases st ci : agetl (fold_left ge st []) ci = fold_left (fun bm x => gb (Some bm) x) (kfilter ci st) [].
Proof.
  unfold agetl. pose proof (Logic.proj2 (upd_fold gb st) ci) as E. fold ge in E. 
  change (fun (d : list (nat * bmap)) (kx : nat * (nat * list V)) => aset d (fst kx) (gb (aget d (fst kx)) (snd kx))) with ge in E. rewrite E.
  destruct (kfilter ci st) as [|x r]; [reflexivity|]. cbn [fold_left]. now rewrite fold_some.
Qed.
Lemma em_basis_keys st ci : map fst (agetl (fold_left ge st []) ci) = firsts Nat.eq_dec (map fst (kfilter ci st)).
Proof. rewrite em_bases. exact (Logic.proj1 (upd_fold gv (kfilter ci st))). Qed.
Lemma em_vals st ci b : In b (map fst (kfilter ci st)) -> aget (agetl (fold_left ge st []) ci) b = Some (firsts vals_dec (kfilter b (kfilter ci st))).
Proof.
  intros H. rewrite em_bases. pose proof (Logic.proj2 (upd_fold gv (kfilter ci st)) b) as E. cbn zeta in E. unfold gb. rewrite E. apply gv_firsts.
  apply in_map_iff in H as ([b' v] & <- & H). cbn [fst]. apply kfilter_In in H. intros h. apply kfilter_In in H. 
  assert (Hv : In v (kfilter b' (kfilter ci st))) by (now apply kfilter_In). rewrite h in Hv. exact Hv.
Qed.
End Map.
