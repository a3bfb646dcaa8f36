(* EstimatorM.v -- property C43: what the Estimator returns. *)
From Coq Require Import Reals Lra ZArith Bool List Lia Arith Permutation.
From Coquelicot Require Import Complex.
From Verif Require Import Num RNum Spec SpecP Backend BackSpec BackendP BackendQ Estimator PauliP EstimatorP EstimatorQ EstimatorR EstimatorS EstimatorT.
Import ListNotations.
Open Scope nat_scope.

Lemma F2_exists {A B} (P : A -> B -> Prop) l : (forall x, In x l -> exists y, P x y) -> exists ys, Forall2 P l ys.
Proof.
  induction l as [|x l IH]; intros H; [exists []; constructor|]. destruct (H x (or_introl eq_refl)) as (y & Hy). destruct IH as (ys & Hys); [intros; apply H; now right|].
  exists (y :: ys). now constructor.
Qed.
Lemma F2_In {A B} (P P' : A -> B -> Prop) l l' : (forall a b, In a l -> In b l' -> P a b -> P' a b) -> Forall2 P l l' -> Forall2 P' l l'.
Proof.
  intros H F. induction F as [|a b l l' Hab F IH]; constructor; [apply H; auto; now left|]. apply IH. intros; apply H; auto; now right.
Qed.
Lemma F2_nth {A B} (P : A -> B -> Prop) l l' i a : Forall2 P l l' -> nth_error l i = Some a -> exists b, nth_error l' i = Some b /\ P a b.
Proof. intros F. revert i. induction F as [|x y l l' H F IH]; intros [|i] E; cbn in *; try discriminate; [injection E as ->; eauto|auto]. Qed.
Lemma F2_right {A B} (P : A -> B -> Prop) l l' b : Forall2 P l l' -> In b l' -> exists a, In a l /\ P a b.
Proof. intros F. induction F as [|x y l l' H F IH]; intros Hb; [destruct Hb|]. destruct Hb as [->|Hb]; [exists x; split; auto; now left|]. destruct (IH Hb) as (a & Ha & Hp). exists a. split; auto. now right. Qed.
Lemma nth_error_combine {A B} (l : list A) : forall (l' : list B) i, nth_error (combine l l') i = match nth_error l i, nth_error l' i with Some a, Some b => Some (a, b) | _, _ => None end.
Proof.
  induction l as [|a l IH]; intros [|b l'] [|i]; cbn; auto. now destruct (nth_error l i).
Qed.
Lemma Ex_sumC {A T} (t : tree A) (P : A -> Prop) (g : A -> T -> C) l : always P t ->
  Ex t (fun a => fst (sumC (map (g a) l))) = fst (sumC (map (fun x => (Ex t (fun a => fst (g a x)), Ex t (fun a => snd (g a x)))) l)) /\
  Ex t (fun a => snd (sumC (map (g a) l))) = snd (sumC (map (fun x => (Ex t (fun a => fst (g a x)), Ex t (fun a => snd (g a x)))) l)).
Proof.
  intros Ha. unfold sumC. induction l as [|x l [IH1 IH2]]; cbn [map fold_right].
  - cbn. split; apply (Ex_const P); auto.
  - cbn [fst snd Cplus]. rewrite !Ex_plus, IH1, IH2. split; reflexivity.
Qed.
Lemma id_expect n v p : is_id p = true -> norm2v n v = 1%R -> pauli_expect n v p = RtoC 1.
Proof.
  intros Hi Hn. rewrite expect_inner, (inner_ext n v _ v v), inner_norm, Hn; auto; [apply veq_refl|].
  eapply veq_trans; [|apply mv_ident]. intros i Hl. apply mv_ext; auto; [|apply veq_refl].
  eapply meq_trans; [|apply (tens_0 n (fun _ => ident))]. intros a b _ _. apply cprod_ext. intros q Hq. unfold upto. cbn [Nat.ltb Nat.leb].
  pose proof (proj1 (is_id_spec p) Hi q) as Hi2. unfold at_q in Hi2. now rewrite Hi2.
Qed.
Lemma pure_norm n l : pure n l -> norm2v n (finalv n l (basis 0)) = 1%R.
Proof.
  intros H. rewrite (finalv_norm n 0); [apply BackendP.norm_basis0|]. intros x Hx. destruct (H x Hx) as [Ec Ho]. rewrite Ec. split; [|exact Logic.I].
  unfold supported. destruct (op x); auto; contradiction.
Qed.
Lemma sum_obs n v T : sumC (map (fun x : option nat * (pauli * C) => Cmult (snd (snd x)) (pauli_expect n v (fst (snd x)))) T) = obs_expect n v (map snd T).
Proof. unfold sumC, obs_expect. induction T as [|x T IH]; cbn; auto. now rewrite IH. Qed.

(* the qubits a Pauli acts on are the first ones *)
Definition first_qubits (p : pauli) : Prop := forall q q', q' < q -> pnon p q = true -> pnon p q' = true.
Lemma filter_prefix (f : nat -> bool) n : (forall q q', q' < q -> f q = true -> f q' = true) -> filter f (seq 0 n) = seq 0 (length (filter f (seq 0 n))).
Proof.
  intros H. induction n as [|n IH]; [reflexivity|]. rewrite seq_S, filter_app. cbn [filter Nat.add]. destruct (f n) eqn:E.
  - assert (Ea : filter f (seq 0 n) = seq 0 n).
    { clear IH. assert (G : forall l, (forall x, In x l -> f x = true) -> filter f l = l) by (induction l as [|x l IHl]; intros Hl; cbn; auto; rewrite Hl by (now left); f_equal; apply IHl; intros; apply Hl; now right).
      apply G. intros x Hx. apply in_seq in Hx. apply (H n x); auto. lia. }
    rewrite Ea, app_length, seq_length. cbn [length]. rewrite Nat.add_1_r, seq_S. reflexivity.
  - rewrite app_nil_r. exact IH.
Qed.
Lemma basis_prefix n g : g <> [] -> (forall p, In p g -> length p = n) -> (forall p, In p g -> first_qubits p) -> prefix (paulis2basis g).
Proof.
  intros Hne Hl H. unfold prefix, support. apply filter_prefix. intros q q' Hq E.
  assert (Ep : forall x, pnon (paulis2basis g) x = (x <? n) && existsb (fun p => pnon p x) g).
  { intros x. unfold pnon, px, pz, paulis2basis. destruct g as [|p0 g0] eqn:Eg; [congruence|]. cbn [nth]. rewrite (Hl p0 (or_introl eq_refl)). rewrite <- Eg. destruct (Nat.ltb_spec x n) as [h|h].
    - rewrite nth_map_seq by exact h. cbn [fst snd andb]. unfold px, pz. clear. induction g as [|p g IH]; [reflexivity|]. cbn [existsb]. rewrite <- IH.
      repeat match goal with |- context [existsb ?a ?b] => destruct (existsb a b) end; destruct (nth x p (false, false)) as [[] []]; reflexivity.
    - rewrite nth_overflow by (rewrite map_length, seq_length; lia). reflexivity. }
  rewrite Ep in *. apply andb_true_iff in E as [E1 E2]. apply Nat.ltb_lt in E1. apply existsb_exists in E2 as (p & Hp & E2). apply andb_true_iff. split; [apply Nat.ltb_lt; lia|].
  apply existsb_exists. exists p. split; auto. eapply H; eauto.
Qed.

Section Main.
Context {Q K KO N V : Type} (K_dec : forall x y : K, {x = y} + {x <> y}) (KO_dec : forall x y : KO, {x = y} + {x <> y}).
Context (V_dec : forall x y : V, {x = y} + {x <> y}).
Context (key : Q -> K) (okey : obs -> KO) (params : Q -> list N) (assign : Q -> option (list (N * V)) -> option circ).
Context (group : list pauli -> list (list pauli)) (abelian approx : bool) (eps : R) (default_shots : option Z).
Notation estimator := (@estimator Q K KO N).
Notation build := (@build Q K KO N group abelian).
Notation reg_circ := (@reg_circ Q K KO N K_dec key params).
Notation reg_obs := (@reg_obs Q K KO N KO_dec okey).
Notation est_run := (est_run K_dec KO_dec V_dec key okey params assign group abelian approx eps default_shots).
Notation ereach := (ereach K_dec KO_dec V_dec key okey params assign group abelian approx eps default_shots).

(* ---- the object ---- *)
Definition extends (s s' : estimator) : Prop := (exists a, ecircs s' = ecircs s ++ a) /\ (exists b, eobs s' = eobs s ++ b).
Lemma extends_refl s : extends s s.
Proof. split; exists []; now rewrite app_nil_r. Qed.
Lemma extends_trans a b c : extends a b -> extends b c -> extends a c.
Proof. intros [(x & E1) (y & E2)] [(x' & E3) (y' & E4)]. split; [exists (x ++ x')|exists (y ++ y')]; now rewrite ?E3, ?E4, ?E1, ?E2, app_assoc. Qed.
Lemma build_ext (s s' : estimator) : extends s s' -> forall com ed oms,
  (forall ci ois, In (ci, ois) com -> ci < length (ecircs s) /\ forall o, In o ois -> o < length (eobs s)) ->
  build s' com ed oms = build s com ed oms.
Proof.
  intros [(a & Ea) (b & Eb)]. induction com as [|[ci ois] com IH]; intros ed oms H; [reflexivity|]. cbn [Estimator.build].
  destruct (H ci ois (or_introl eq_refl)) as [Hc Ho].
  assert (Ep : forall o, In o ois -> paulis_of s' o = paulis_of s o).
  { intros o Hi. unfold paulis_of. rewrite Eb, app_nth1; auto. }
  assert (Ef : flat_map (paulis_of s') ois = flat_map (paulis_of s) ois).
  { rewrite !flat_map_concat_map. f_equal. apply map_ext_in. exact Ep. }
  assert (Eo : forall gs, obs_map s' gs ois = obs_map s gs ois).
  { intros gs. unfold obs_map. generalize (@nil (nat * list nat)). clear -Ep. induction ois as [|o ois IH]; intros d; [reflexivity|]. cbn [fold_left].
    rewrite (Ep o) by (now left). apply IH. intros o' Ho'. apply Ep. now right. }
  rewrite Ef, Eo. assert (En : nth_error (ecircs s') ci = nth_error (ecircs s) ci) by (rewrite Ea, nth_error_app1; auto). rewrite En.
  destruct (_ && _); [reflexivity|]. destruct (nth_error (ecircs s) ci); [|reflexivity]. apply IH. intros c o Hi. apply H. now right.
Qed.
Definition einv (s : estimator) : Prop :=
  eparams s = map params (ecircs s) /\
  (forall k i, kget K_dec (ecids s) k = Some i -> exists q, nth_error (ecircs s) i = Some q /\ key q = k) /\
  (forall k i, kget KO_dec (eoids s) k = Some i -> exists o, nth_error (eobs s) i = Some o /\ okey o = k) /\
  (forall cis ois x, cache_get (ecache s) (cis, ois) = Some x -> (forall i, In i cis -> i < length (ecircs s)) /\ (forall i, In i ois -> i < length (eobs s)) /\
     x = build s (circ_obs_map (combine cis ois)) [] []).
Lemma com_bounds cis ois ci os : In (ci, os) (circ_obs_map (combine cis ois)) -> In ci cis /\ forall o, In o os -> In o ois.
Proof.
  rewrite com_eq. intros H. apply in_map_iff in H as (c & E & Hc). injection E as -> <-. apply firsts_In, in_map_iff in Hc as ([c' o'] & E & Hi). cbn in E. subst c'.
  split; [eapply in_combine_l; eauto|]. intros o Ho. apply kfilter_In in Ho. eapply in_combine_r; eauto.
Qed.
Lemma build_ext' (s s' : estimator) cis ois : extends s s' -> (forall i, In i cis -> i < length (ecircs s)) -> (forall i, In i ois -> i < length (eobs s)) ->
  build s' (circ_obs_map (combine cis ois)) [] [] = build s (circ_obs_map (combine cis ois)) [] [].
Proof.
  intros He H1 H2. apply build_ext; auto. intros ci os Hi. destruct (com_bounds cis ois ci os Hi) as [Hc Ho]. split; auto.
Qed.
Lemma nth_snoc {A} (l : list A) i x y : nth_error l i = Some x -> nth_error (l ++ [y]) i = Some x.
Proof. intros H. rewrite nth_error_app1; auto. apply nth_error_Some. congruence. Qed.
Lemma cache_ext (s s' : estimator) : extends s s' -> ecache s' = ecache s -> einv s ->
  forall cis ois x, cache_get (ecache s') (cis, ois) = Some x -> (forall i, In i cis -> i < length (ecircs s')) /\ (forall i, In i ois -> i < length (eobs s')) /\
     x = build s' (circ_obs_map (combine cis ois)) [] [].
Proof.
  intros He Ec (_ & _ & _ & I4) cis ois x H. rewrite Ec in H. destruct (I4 _ _ _ H) as (H1 & H2 & H3).
  assert (He' := He). destruct He as [(a & Ea) (b & Eb)]. rewrite Ea, Eb, !app_length. split; [intros i Hi; specialize (H1 i Hi); lia|].
  split; [intros i Hi; specialize (H2 i Hi); lia|]. rewrite (build_ext' s s') by auto. exact H3.
Qed.
Lemma reg_circ_inv s q i s1 : einv s -> reg_circ s q = (i, s1) -> einv s1 /\ extends s s1 /\ kget K_dec (ecids s1) (key q) = Some i /\
  (forall k j, kget K_dec (ecids s) k = Some j -> kget K_dec (ecids s1) k = Some j) /\ eoids s1 = eoids s.
Proof.
  intros HI H. assert (HI' := HI). destruct HI as (I1 & I2 & I3 & I4). unfold Estimator.reg_circ in H. destruct (kget K_dec (ecids s) (key q)) as [j|] eqn:E; injection H as <- <-.
  - split; [exact HI'|]. split; [apply extends_refl|]. auto.
  - set (s1 := Est _ _ _ _ _ _). assert (He : extends s s1) by (split; [exists [q]; reflexivity|exists []; cbn; now rewrite app_nil_r]).
    split; [|split; [exact He|split; [|split]]].
    + split; [cbn; rewrite map_app, I1; reflexivity|]. split; [|split; [exact I3|now apply (cache_ext s s1)]].
      cbn [ecids kget ecircs s1]. intros k i H. destruct (K_dec k (key q)) as [->|].
      * injection H as <-. exists q. split; [|reflexivity]. now rewrite nth_error_app2, Nat.sub_diag by lia.
      * destruct (I2 k i H) as (q0 & Hq & Ek). exists q0. split; [now apply nth_snoc|exact Ek].
    + cbn. destruct (K_dec (key q) (key q)); congruence.
    + intros k j Hk. cbn. destruct (K_dec k (key q)) as [->|]; [congruence|exact Hk].
    + reflexivity.
Qed.
Lemma reg_obs_inv s o i s1 : einv s -> reg_obs s o = (i, s1) -> einv s1 /\ extends s s1 /\ kget KO_dec (eoids s1) (okey o) = Some i /\
  (forall k j, kget KO_dec (eoids s) k = Some j -> kget KO_dec (eoids s1) k = Some j) /\ ecids s1 = ecids s.
Proof.
  intros HI H. assert (HI' := HI). destruct HI as (I1 & I2 & I3 & I4). unfold Estimator.reg_obs in H. destruct (kget KO_dec (eoids s) (okey o)) as [j|] eqn:E; injection H as <- <-.
  - split; [exact HI'|]. split; [apply extends_refl|]. auto.
  - set (s1 := Est _ _ _ _ _ _). assert (He : extends s s1) by (split; [exists []; cbn; now rewrite app_nil_r|exists [o]; reflexivity]).
    split; [|split; [exact He|split; [|split]]].
    + split; [exact I1|]. split; [exact I2|]. split; [|now apply (cache_ext s s1)].
      cbn [eoids kget eobs s1]. intros k i H. destruct (KO_dec k (okey o)) as [->|].
      * injection H as <-. exists o. split; [|reflexivity]. now rewrite nth_error_app2, Nat.sub_diag by lia.
      * destruct (I3 k i H) as (q0 & Hq & Ek). exists q0. split; [now apply nth_snoc|exact Ek].
    + cbn. destruct (KO_dec (okey o) (okey o)); congruence.
    + intros k j Hk. cbn. destruct (KO_dec k (okey o)) as [->|]; [congruence|exact Hk].
    + reflexivity.
Qed.
Lemma reg_circs_inv qs : forall s is_ s1, einv s -> reg_all reg_circ s qs = (is_, s1) -> einv s1 /\ extends s s1 /\
  Forall2 (fun q i => kget K_dec (ecids s1) (key q) = Some i) qs is_ /\ (forall k j, kget K_dec (ecids s) k = Some j -> kget K_dec (ecids s1) k = Some j).
Proof.
  induction qs as [|q qs IH]; intros s is_ s2 Hi H; cbn [reg_all] in H.
  - injection H as <- <-. split; [exact Hi|]. split; [apply extends_refl|]. auto.
  - destruct (reg_circ s q) as [i s1] eqn:E1. destruct (reg_all reg_circ s1 qs) as [l s2'] eqn:E2. injection H as <- <-.
    destruct (reg_circ_inv s q i s1 Hi E1) as (H1 & H2 & H3 & H4 & _). destruct (IH s1 l s2' H1 E2) as (J1 & J2 & J3 & J4).
    split; [exact J1|]. split; [eapply extends_trans; eauto|]. split; [constructor; auto|]. auto.
Qed.
Lemma reg_obss_inv os : forall s is_ s1, einv s -> reg_all reg_obs s os = (is_, s1) -> einv s1 /\ extends s s1 /\
  Forall2 (fun o i => kget KO_dec (eoids s1) (okey o) = Some i) os is_ /\ (forall k j, kget KO_dec (eoids s) k = Some j -> kget KO_dec (eoids s1) k = Some j) /\ ecids s1 = ecids s.
Proof.
  induction os as [|o os IH]; intros s is_ s2 Hi H; cbn [reg_all] in H.
  - injection H as <- <-. split; [exact Hi|]. split; [apply extends_refl|]. auto.
  - destruct (reg_obs s o) as [i s1] eqn:E1. destruct (reg_all reg_obs s1 os) as [l s2'] eqn:E2. injection H as <- <-.
    destruct (reg_obs_inv s o i s1 Hi E1) as (H1 & H2 & H3 & H4 & H5). destruct (IH s1 l s2' H1 E2) as (J1 & J2 & J3 & J4 & J5).
    split; [exact J1|]. split; [eapply extends_trans; eauto|]. split; [constructor; auto|]. split; [auto|congruence].
Qed.
Lemma kget_bound (s : estimator) l is_ : einv s -> Forall2 (fun q i => kget K_dec (ecids s) (key q) = Some i) l is_ -> forall i, In i is_ -> i < length (ecircs s).
Proof.
  intros (_ & I2 & _) H i Hi. induction H as [|q j l is_ E H IH]; [destruct Hi|]. destruct Hi as [->|Hi]; auto.
  destruct (I2 _ _ E) as (q' & Hq & _). apply nth_error_Some. congruence.
Qed.
Lemma koget_bound (s : estimator) l is_ : einv s -> Forall2 (fun o i => kget KO_dec (eoids s) (okey o) = Some i) l is_ -> forall i, In i is_ -> i < length (eobs s).
Proof.
  intros (_ & _ & I3 & _) H i Hi. induction H as [|q j l is_ E H IH]; [destruct Hi|]. destruct Hi as [->|Hi]; auto.
  destruct (I3 _ _ E) as (q' & Hq & _). apply nth_error_Some. congruence.
Qed.
(* what a submission computes, whether or not it is in the cache *)
Lemma est_run_eq s sub shots : einv s -> exists cis ois s3,
  Forall2 (fun x i => kget K_dec (ecids s3) (key (fst (fst x))) = Some i) sub cis /\ Forall2 (fun x i => kget KO_dec (eoids s3) (okey (snd (fst x))) = Some i) sub ois /\
  einv s3 /\ extends s s3 /\
  est_run s sub shots = (s3, let '(ed, oms) := build s3 (circ_obs_map (combine cis ois)) [] [] in
     compute V_dec assign approx eps default_shots s3 ed oms (combine (combine cis ois) (map snd sub)) shots).
Proof.
  intros HI. unfold Estimator.est_run.
  destruct (reg_all reg_circ s (map (fun x => fst (fst x)) sub)) as [cis s1] eqn:E1. destruct (reg_all reg_obs s1 (map (fun x => snd (fst x)) sub)) as [ois s2] eqn:E2.
  destruct (reg_circs_inv _ _ _ _ HI E1) as (H1 & H2 & H3 & _). destruct (reg_obss_inv _ _ _ _ H1 E2) as (J1 & J2 & J3 & _ & J5).
  assert (F1 : Forall2 (fun x i => kget K_dec (ecids s2) (key (fst (fst x))) = Some i) sub cis).
  { rewrite J5. clear -H3. revert cis H3. induction sub as [|x sub IH]; intros cis H; inversion H; subst; constructor; auto. }
  assert (F2 : Forall2 (fun x i => kget KO_dec (eoids s2) (okey (snd (fst x))) = Some i) sub ois).
  { clear -J3. revert ois J3. induction sub as [|x sub IH]; intros ois H; inversion H; subst; constructor; auto. }
  destruct (cache_get (ecache s2) (cis, ois)) as [[ed oms]|] eqn:Ec.
  - exists cis, ois, s2. split; [exact F1|]. split; [exact F2|]. split; [exact J1|]. split; [eapply extends_trans; eauto|].
    destruct J1 as (_ & _ & _ & I4). destruct (I4 _ _ _ Ec) as (_ & _ & <-). reflexivity.
  - destruct (build s2 (circ_obs_map (combine cis ois)) [] []) as [ed oms] eqn:Eb. set (s3 := Est _ _ _ _ _ _).
    assert (Eb3 : forall com, build s3 com [] [] = build s2 com [] []).
    { intros com. generalize (@nil (nat * list (@mcirc Q))) as e. generalize (@nil (nat * list (nat * list nat))) as o. clear.
      induction com as [|[ci os] com IH]; intros o e; [reflexivity|]. cbn [Estimator.build]. destruct (_ && _); [reflexivity|]. cbn [ecircs s3]. destruct (nth_error (ecircs s2) ci); [|reflexivity]. apply IH. }
    exists cis, ois, s3. split; [exact F1|]. split; [exact F2|].
    assert (He : extends s s3) by (eapply extends_trans; [exact H2|exact J2]).
    assert (Er : (s3, compute V_dec assign approx eps default_shots s3 ed oms (combine (combine cis ois) (map snd sub)) shots) =
      (s3, let '(ed, oms) := build s3 (circ_obs_map (combine cis ois)) [] [] in compute V_dec assign approx eps default_shots s3 ed oms (combine (combine cis ois) (map snd sub)) shots))
      by (rewrite Eb3, Eb; reflexivity).
    split; [|split; [exact He|exact Er]].
    assert (B1 : forall i, In i cis -> i < length (ecircs s2)).
    { apply (kget_bound s2 (map (fun x => fst (fst x)) sub) cis J1). rewrite J5. exact H3. }
    assert (B2 : forall i, In i ois -> i < length (eobs s2)) by (eapply koget_bound; eauto).
    destruct J1 as (I1 & I2 & I3 & I4). split; [exact I1|]. split; [exact I2|]. split; [exact I3|].
    intros cis' ois' x Hx. rewrite Eb3. cbn [ecache s3 cache_get] in Hx. cbn [ecircs eobs s3]. destruct (pair_list_dec (cis', ois') (cis, ois)) as [E|].
    + injection E as -> ->. injection Hx as <-. auto.
    + now apply I4.
Qed.
Lemma ereach_inv s : ereach s -> einv s.
Proof.
  intros H. induction H as [|s sub shots H IH].
  - split; [reflexivity|]. split; [discriminate|]. split; discriminate.
  - destruct (est_run_eq s sub shots IH) as (cis & ois & s3 & _ & _ & I3 & _ & E). rewrite E. exact I3.
Qed.

(* ---- the property ---- *)
Context (nqubits : Q -> nat).
(* the circuit q with the values v for its parameters is c *)
Definition bound_to (q : Q) (v : list V) (c : circ) : Prop :=
  assign q (Some (combine (params q) v)) = Some c /\ (params q = [] -> assign q None = Some c).
(* a submission the Estimator is meant for: a circuit of gates with values for all
   its parameters, and an observable on its qubits *)
Definition meant (q : Q) (o : obs) (v : list V) : Prop :=
  length v = length (params q) /\ o <> [] /\
  exists c, bound_to q v c /\ nq c = nqubits q /\ nq c <= 100 /\ pure (nq c) (data c) /\ forall t, In t o -> length (fst t) = nq c.
(* equal keys mean equal circuits and observables *)
Definition keys_ok : Prop :=
  (forall q q', key q = key q' -> params q = params q' /\ assign q = assign q' /\ nqubits q = nqubits q') /\ (forall o o', okey o = okey o' -> o = o').
(* grouping partitions; the identity is grouped with other Paulis if there are any *)
Definition group_ok : Prop := forall l, partition_of l (group l) /\
  ((exists p, In p l /\ is_id p = false) -> forall g, In g (group l) -> exists p, In p g /\ is_id p = false).
(* with grouping: every circuit is submitted with every one of its observables for
   every one of its value lists, and one of its observables is not a multiple of the
   identity; without: no observable has an identity term *)
Definition product (sub : list (Q * obs * list V)) : Prop :=
  forall q o v q' o' v', In (q, o, v) sub -> In (q', o', v') sub -> key q = key q' -> exists q'', In (q'', o, v') sub /\ key q'' = key q.
Definition has_term (sub : list (Q * obs * list V)) : Prop :=
  forall q o v, In (q, o, v) sub -> exists q' o' v' t, In (q', o', v') sub /\ key q' = key q /\ In t o' /\ is_id (fst t) = false.
Definition no_identity (sub : list (Q * obs * list V)) : Prop := forall q o v t, In (q, o, v) sub -> In t o -> is_id (fst t) = false.

(* every value returned is on average the expectation value *)
Definition expectations (sub : list (Q * obs * list V)) (t : tree (list C)) : Prop :=
  always (fun vs => length vs = length sub) t /\
  forall i q o v c, nth_error sub i = Some (q, o, v) -> bound_to q v c ->
    Ex t (fun vs => fst (nth i vs (RtoC 0))) = fst (obs_expect (nq c) (finalv (nq c) (data c) (basis 0)) o) /\
    Ex t (fun vs => snd (nth i vs (RtoC 0))) = snd (obs_expect (nq c) (finalv (nq c) (data c) (basis 0)) o).
Lemma submission (sure : bool) s sub shots sh : keys_ok -> group_ok -> ereach s -> sub <> [] -> shotsk approx shots sh ->
  (forall q o v, In (q, o, v) sub -> meant q o v) ->
  (approx = true -> forall q o v t, In (q, o, v) sub -> In t o -> first_qubits (fst t)) ->
  (if sure && abelian then product sub /\ has_term sub else no_identity sub) ->
  (sure = false /\ snd (est_run s sub shots) = Raise) \/
  (expectations sub (snd (est_run s sub shots)) /\ (approx = true -> exists vs, snd (est_run s sub shots) = Leaf vs)).
Proof.
  intros [Hkey Hokey] Hgroup Hreach Hne Hshots Hmeant Hfirst Hcond. apply ereach_inv in Hreach.
  assert (Hht : has_term sub).
  { destruct (sure && abelian); [apply Hcond|]. intros q o v Hi. destruct (Hmeant q o v Hi) as (_ & Ho & _). destruct o as [|t o]; [congruence|].
    exists q, (t :: o), v, t. split; [exact Hi|]. split; [reflexivity|]. split; [now left|]. eapply Hcond; [exact Hi|now left]. }
  assert (Hnoid : abelian = false -> no_identity sub) by (intros ->; rewrite andb_false_r in Hcond; exact Hcond).
  assert (Hnoid2 : sure = false -> no_identity sub) by (intros ->; exact Hcond).
  assert (Hpr : sure = true -> abelian = true -> product sub) by (intros -> ->; apply Hcond). clear Hcond.
  destruct (est_run_eq s sub shots Hreach) as (cis & ois & s3 & F1 & F2 & HI & _ & Erun). rewrite Erun. cbn [snd]. clear Erun Hreach s.
  rename s3 into s. destruct HI as (I1 & I2 & I3 & _).
  set (l := combine (combine cis ois) (map snd sub)).
  assert (FL : Forall2 (fun x y => kget K_dec (ecids s) (key (fst (fst x))) = Some (fst (fst y)) /\ kget KO_dec (eoids s) (okey (snd (fst x))) = Some (snd (fst y)) /\ snd x = snd y) sub l).
  { unfold l. clear -F1 F2. revert cis ois F1 F2. induction sub as [|x sub IH]; intros cis ois F1 F2; inversion F1; subst; inversion F2; subst; cbn [combine map]; constructor; auto. }
  assert (El : map fst l = combine cis ois).
  { unfold l. assert (L1 : length sub = length cis) by (now apply F2_combine in F1). assert (L2 : length sub = length ois) by (now apply F2_combine in F2).
    clear -L1 L2. revert cis ois L1 L2. induction sub as [|x sub IH]; intros [|c cis] [|o ois] L1 L2; try discriminate; cbn in *; auto. f_equal. apply IH; congruence. }
  rewrite <- El. clear El.
  destruct sub as [|x0 sub0] eqn:Esub; [congruence|]. rewrite <- Esub in *. clear Hne.
  set (q0 := fst (fst x0)). set (Qof := fun ci => nth ci (ecircs s) q0).
  (* what an index stands for *)
  assert (Hl : forall ci oi v, In (ci, oi, v) l -> exists q o q', In (q, o, v) sub /\ kget K_dec (ecids s) (key q) = Some ci /\ kget KO_dec (eoids s) (okey o) = Some oi /\
     nth_error (ecircs s) ci = Some q' /\ Qof ci = q' /\ key q' = key q /\ PS s ci = params q /\ assign q' = assign q /\ nqubits q' = nqubits q /\
     nth oi (eobs s) [] = o /\ paulis_of s oi = map fst o).
  { intros ci oi v Hi. destruct (F2_right _ _ _ _ FL Hi) as ([[q o] v'] & Hs & E1 & E2 & E3). cbn [fst snd] in *. subst v'.
    destruct (I2 _ _ E1) as (q' & Hq & Ek). destruct (I3 _ _ E2) as (o' & Ho & Eo). apply Hokey in Eo. subst o'. destruct (Hkey q' q Ek) as (K1 & K2 & K3).
    exists q, o, q'. split; [exact Hs|]. split; [exact E1|]. split; [exact E2|]. split; [exact Hq|]. split; [unfold Qof; now apply nth_error_nth|]. split; [exact Ek|].
    split; [|split; [exact K2|split; [exact K3|split]]].
    - unfold PS. rewrite I1. rewrite <- K1. apply nth_error_nth. now apply map_nth_error.
    - now apply nth_error_nth.
    - unfold paulis_of. f_equal. now apply nth_error_nth. }
  assert (Hls : forall q o v, In (q, o, v) sub -> exists ci oi, In (ci, oi, v) l /\ kget K_dec (ecids s) (key q) = Some ci /\ kget KO_dec (eoids s) (okey o) = Some oi).
  { intros q o v Hi. apply In_nth_error in Hi as (i & Hi). destruct (F2_nth _ _ _ _ _ FL Hi) as ([[ci oi] v'] & Hy & E1 & E2 & E3). cbn [fst snd] in *. subst v'.
    exists ci, oi. split; [eapply nth_error_In; eauto|]. auto. }
  set (cs := firsts Nat.eq_dec (map fst (map fst l))).
  assert (Hcs : forall ci, In ci cs -> exists oi v, In (ci, oi, v) l) by (intros ci Hi; now apply cs_In).
  assert (HQ : forall ci, In ci cs -> nth_error (ecircs s) ci = Some (Qof ci)).
  { intros ci Hc. destruct (Hcs ci Hc) as (oi & v & Hi). destruct (Hl ci oi v Hi) as (q & o & q' & _ & _ & _ & E1 & E2 & _). congruence. }
  assert (Hlen : forall x, In x l -> length (snd x) = length (PS s (fst (fst x)))).
  { intros [[ci oi] v] Hi. cbn [fst snd]. destruct (Hl ci oi v Hi) as (q & o & q' & Hs & _ & _ & _ & _ & _ & -> & _). destruct (Hmeant q o v Hs) as (H & _). exact H. }
  assert (Hnp : forall ci oi, In (ci, oi) (map fst l) -> paulis_of s oi <> []).
  { intros ci oi Hi. apply in_map_iff in Hi as ([[c' o'] v] & E & Hi). cbn in E. injection E as -> ->.
    destruct (Hl ci oi v Hi) as (q & o & q' & Hs & _ & _ & _ & _ & _ & _ & _ & _ & _ & ->). destruct (Hmeant q o v Hs) as (_ & H & _). destruct o; [congruence|discriminate]. }
  assert (HG : forall ci, In ci cs -> partition_of (flat_map (paulis_of s) (kfilter ci (map fst l))) (gs group abelian s l ci)).
  { intros ci Hc. unfold gs, Estimator.groups. destruct abelian; [apply Hgroup|apply single_partition]. }
  (* the Paulis of a circuit *)
  assert (Hps : forall ci p, In p (flat_map (paulis_of s) (kfilter ci (map fst l))) -> exists q o v t, In (q, o, v) sub /\ kget K_dec (ecids s) (key q) = Some ci /\ In t o /\ p = fst t).
  { intros ci p Hp. apply in_flat_map in Hp as (oi & Ho & Hp). apply cos_In in Ho as (v & Hi). destruct (Hl ci oi v Hi) as (q & o & q' & Hs & E1 & _ & _ & _ & _ & _ & _ & _ & _ & Epo).
    rewrite Epo in Hp. apply in_map_iff in Hp as (t & <- & Ht). exists q, o, v, t. auto. }
  assert (Hsp : forall ci q o v t, In (q, o, v) sub -> kget K_dec (ecids s) (key q) = Some ci -> In t o -> In (fst t) (flat_map (paulis_of s) (kfilter ci (map fst l)))).
  { intros ci q o v t Hs E Ht. destruct (Hls q o v Hs) as (ci' & oi & Hi & E1 & E2). rewrite E in E1. injection E1 as <-.
    apply in_flat_map. exists oi. split; [apply cos_In; eauto|]. destruct (Hl ci oi v Hi) as (q2 & o2 & q' & _ & _ & E3 & _ & _ & _ & _ & _ & _ & _ & ->).
    destruct (I3 _ _ E2) as (o3 & Ho3 & Ek3). destruct (I3 _ _ E3) as (o4 & Ho4 & Ek4). rewrite Ho3 in Ho4. injection Ho4 as <-. apply Hokey in Ek3, Ek4. subst. now apply in_map. }
  assert (Hw : forall ci p oi v, In (ci, oi, v) l -> In p (flat_map (paulis_of s) (kfilter ci (map fst l))) -> length p = nqubits (Qof ci)).
  { intros ci p oi v Hi Hp. destruct (Hps ci p Hp) as (q & o & w & t & Hs & E & Ht & ->). destruct (Hmeant q o w Hs) as (_ & _ & c & _ & Hn & _ & _ & Ho). rewrite (Ho t Ht), Hn.
    destruct (Hl ci oi v Hi) as (q2 & o2 & q' & _ & E2 & _ & Hq' & -> & Ek & _ & _ & En & _). destruct (I2 _ _ E) as (q3 & Hq3 & Ek3). rewrite Hq' in Hq3. injection Hq3 as <-.
    destruct (Hkey q' q Ek3) as (_ & _ & K3). now symmetry. }
  assert (Hsame : forall ci p p', In ci cs -> In p (flat_map (paulis_of s) (kfilter ci (map fst l))) -> In p' (flat_map (paulis_of s) (kfilter ci (map fst l))) -> length p = length p').
  { intros ci p p' Hc Hp Hp'. destruct (Hcs ci Hc) as (oi & v & Hi). rewrite (Hw ci p oi v), (Hw ci p' oi v); auto. }
  assert (Hid : forall ci g, In ci cs -> In g (gs group abelian s l ci) -> exists p, In p g /\ is_id p = false).
  { intros ci g Hc Hg. destruct (Hcs ci Hc) as (oi & v & Hi). unfold gs, Estimator.groups in Hg. destruct abelian.
    - destruct (Hl ci oi v Hi) as (q & o & q' & Hs & E1 & _). destruct (Hht q o v Hs) as (q1 & o1 & v1 & t & Hs1 & Ek & Ht1 & Hid1).
      apply (Logic.proj2 (Hgroup (flat_map (paulis_of s) (kfilter ci (map fst l))))); auto. exists (fst t). split; auto. eapply (Hsp ci q1 o1 v1 t); eauto. now rewrite Ek.
    - apply in_map_iff in Hg as (p & <- & Hp). rewrite uniq_firsts in Hp. apply firsts_In in Hp. exists p. split; [now left|].
      destruct (Hps ci p Hp) as (q & o & w & t & Hs & _ & Ht1 & ->). eapply Hnoid; eauto. }
  assert (Hpos : (sure = false /\ all_some (map (post_processing V_dec s (theoms group abelian s l) (theem V_dec group abelian s l)) l) = None) \/ positioned V_dec group abelian s l).
  { destruct sure.
    - right. apply position; auto. clear Hmeant.
      assert (Hab : abelian = true -> balanced l); [|destruct abelian; auto]. intros Ha ci oi oi' v v' Hi Hi'. specialize (Hpr eq_refl Ha).
      destruct (Hl ci oi v Hi) as (q & o & q1 & Hs & E1 & E2 & Hq1 & _ & Ek1 & _). destruct (Hl ci oi' v' Hi') as (q' & o' & q1' & Hs' & E1' & E2' & Hq1' & _ & Ek1' & _).
      rewrite Hq1 in Hq1'. injection Hq1' as <-. destruct (Hpr q o v q' o' v' Hs Hs') as (q'' & Hs'' & Ek''); [congruence|].
      destruct (Hls q'' o v' Hs'') as (c2 & o2 & Hi2 & E3 & E4). rewrite Ek'', E1 in E3. rewrite E2 in E4. congruence.
    - destruct (all_some (map (post_processing V_dec s (theoms group abelian s l) (theem V_dec group abelian s l)) l)) as [pps|] eqn:Epp; [right|left; auto].
      apply position_found; auto. intros ci oi v k p Hi Hk. destruct (Hl ci oi v Hi) as (q & o & q' & Hs & _ & _ & _ & _ & _ & _ & _ & _ & Eo & Ep).
      rewrite Ep in Hk. destruct (nth_error o k) as [t|] eqn:Et; [|rewrite nth_error_map, Et in Hk; discriminate]. rewrite (map_nth_error fst _ _ Et) in Hk. injection Hk as <-.
      apply all_some_spec in Epp. assert (Hpx : exists es, post_processing V_dec s (theoms group abelian s l) (theem V_dec group abelian s l) (ci, oi, v) = Some es).
      { assert (Hin : In (post_processing V_dec s (theoms group abelian s l) (theem V_dec group abelian s l) (ci, oi, v)) (map Some pps)) by (rewrite <- Epp; now apply in_map).
        apply in_map_iff in Hin as (es & E & _). eauto. }
      destruct Hpx as (es & Hes). cbn [post_processing] in Hes. rewrite Eo in Hes. apply (entries_some V_dec _ _ _ _ _ _ _ _ _ Hes k t Et). eapply Hnoid2; [reflexivity|exact Hs|eapply nth_error_In; eauto]. }
  destruct Hpos as [[Hs Hnone]|Hpos].
  { left. split; [exact Hs|]. unfold compute. pose proof (build_is group abelian s l Qof HQ HG Hid Hsame) as Ebuild. rewrite Ebuild.
    pose proof (pre_is V_dec group abelian s l Hlen) as Epre. rewrite Epre. destruct (flatten s _ _). rewrite Hnone. reflexivity. }
  right.
  pose proof (build_is group abelian s l Qof HQ HG Hid Hsame) as Ebuild. rewrite Ebuild. clear Ebuild.
  pose proof (pre_is V_dec group abelian s l Hlen) as Epre. unfold compute. rewrite Epre. clear Epre.
  pose proof (fun ci oi v k p => term_found V_dec group abelian s l Qof Hnp HG Hid ci oi v k p Hpos) as Hterm.
  pose proof (experiments_valid V_dec group abelian s l Qof HG Hid) as Hvalid.
  set (ed := theed group abelian s l Qof) in *. set (oms := theoms group abelian s l) in *. set (em := theem V_dec group abelian s l) in *.
  destruct (flatten s ed em) as [exps binds] eqn:Efl. cbn [fst snd] in *.
  (* the terms *)
  assert (Hpost : forall x, In x l -> exists y, post_processing V_dec s oms em x = Some (fst y) /\ wf_entries (fst y) /\ Permutation (flat (fst y)) (snd y) /\
     map snd (snd y) = nth (snd (fst x)) (eobs s) [] /\
     forall t, In t (snd y) -> (fst t = None /\ is_id (fst (snd t)) = true) \/ exists i g, fst t = Some i /\ nth_error exps i = Some (Qof (fst (fst x)), paulis2basis g) /\
        nth_error binds i = Some (combine (PS s (fst (fst x))) (snd x)) /\ In g (gs group abelian s l (fst (fst x))) /\ In (fst (snd t)) g).
  { intros [[ci oi] v] Hi. cbn [fst snd post_processing]. destruct (Hl ci oi v Hi) as (q & o & q' & _ & _ & _ & _ & _ & _ & _ & _ & _ & Eo & Ep). rewrite Eo.
    assert (Hj : forall j t, nth_error o j = Some t -> nth_error (paulis_of s oi) j = Some (fst t)) by (intros j t Hj; rewrite Ep; now apply map_nth_error).
    destruct (entries_eq V_dec oms em ci oi v o 0 []) as (es & T & E1 & E2 & E3 & E4 & E5).
    - intros j t Hjt _. destruct (Hterm ci oi v j (fst t) Hi (Hj j t Hjt)) as (i & g & Hr & _). exists i. exact Hr.
    - intros e [].
    - exists (es, T). cbn [fst snd]. split; [exact E1|]. split; [exact E2|]. split; [exact E3|]. split; [exact E4|]. intros t Ht.
      destruct (E5 t Ht) as [h|(j & i & h1 & h2 & h3)]; [now left|]. right. destruct (Hterm ci oi v j _ Hi (Hj j _ h1)) as (i' & g & Hr & R1 & R2 & R3 & R4).
      cbn [Nat.add] in h3. rewrite Hr in h3. injection h3 as ->. exists i, g. auto. }
  destruct (F2_exists _ l Hpost) as (ys & Fys). clear Hpost.
  assert (Epps : all_some (map (post_processing V_dec s oms em) l) = Some (map fst ys)).
  { apply all_some_map. clear -Fys. induction Fys as [|x y l1 ys1 (H & _) F IH]; constructor; auto. }
  rewrite Epps. clear Epps.
  (* the experiments *)
  set (has := existsb nonempty binds).
  assert (Hbind : forall ci oi v c, In (ci, oi, v) l -> In (combine (PS s ci) v) binds -> (exists q o, In (q, o, v) sub /\ kget K_dec (ecids s) (key q) = Some ci /\ bound_to q v c) ->
     assign (Qof ci) (if has then Some (combine (PS s ci) v) else None) = Some c).
  { intros ci oi v c Hi Hb (q & o & Hs & Ek & Hbd). destruct (Hl ci oi v Hi) as (q2 & o2 & q' & Hs2 & Ek2 & _ & Hq' & -> & Ekk & EP & EA & _).
    destruct (I2 _ _ Ek) as (q3 & Hq3 & Ek3). rewrite Hq' in Hq3. injection Hq3 as <-. destruct (Hkey q' q Ek3) as (K1 & K2 & _). destruct (Hkey q' q2 Ekk) as (K1' & _).
    rewrite EP, <- K1', K1. rewrite EP, <- K1', K1 in Hb. rewrite K2. destruct Hbd as [B1 B2]. destruct has eqn:Eh; [exact B1|]. apply B2.
    destruct (combine (params q) v) as [|y r] eqn:Ec.
    - destruct (Hmeant q o v Hs) as (Hlv & _). destruct (params q), v; try discriminate; auto.
    - exfalso. unfold has in Eh. assert (Et : existsb nonempty binds = true) by (apply existsb_exists; exists (y :: r); split; auto). congruence. }
  assert (HF : Forall2 (fun m bd => exists c, assign (fst m) (if has then Some bd else None) = Some c /\ goodc c (snd m)) exps binds).
  { eapply F2_In; [|exact Hvalid]. cbn. intros m bd Hm Hbd (ci & oi & v & g & Hi & Hg & -> & ->). cbn [fst snd].
    destruct (Hl ci oi v Hi) as (q & o & q' & Hs & Ek & _ & _ & EQ & _ & _ & _ & En & _). destruct (Hmeant q o v Hs) as (_ & _ & c & Hb & Hn & H100 & Hpure & Ho).
    exists c. split; [eapply Hbind; eauto|]. assert (Hc : In ci cs) by (apply cs_In; eauto).
    assert (Hlg : forall p, In p g -> length p = nq c).
    { intros p Hp. rewrite (Hw ci p oi v Hi), EQ, En; auto. eapply (group_In group abelian s l HG); eauto. }
    destruct (Hid ci g Hc Hg) as (p & Hp & Hidp). split; [exact Hpure|]. split; [apply basis_len; auto; destruct g; [destruct Hp|discriminate]|]. split; [exact H100|].
    apply (basis_support (nq c) g p); auto. destruct g; [destruct Hp|discriminate]. }
  destruct (run_ok assign approx eps default_shots exps binds shots sh Hshots HF) as (jobs & Erun & Hal & Hleaf & Ljobs & Hjobs). fold has in Erun, Hjobs.
  assert (Hexne : exps <> []).
  { destruct l as [|[[ci oi] v] l'] eqn:El; [rewrite Esub in FL; inversion FL|].
    assert (Hi : In (ci, oi, v) l) by (rewrite El; now left). rewrite <- El in *. destruct (Hl ci oi v Hi) as (q & o & q' & Hs & _ & _ & _ & _ & _ & _ & _ & _ & _ & Ep).
    destruct (Hmeant q o v Hs) as (_ & Hon & _). destruct o as [|t o]; [congruence|]. destruct (Hterm ci oi v 0 (fst t) Hi) as (i & g & _ & R1 & _); [rewrite Ep; reflexivity|].
    intros h. rewrite h in R1. destruct i; discriminate. }
  destruct exps as [|e0 exps0] eqn:Eexps; [congruence|]. rewrite <- Eexps in *. clear Hexne. fold has. rewrite Erun.
  set (tr := traverse _ jobs) in *.
  assert (Htr : always (Forall2 (fun _ => kind approx) jobs) tr) by (apply always_traverse; exact Hal).
  set (bs := map snd exps). set (val := fun (ds : list rdata) (y : list entry * list (option nat * (pauli * C))) => sumC (map (tval (combine bs ds)) (snd y))).
  (* the values *)
  assert (Hvals : forall ds, Forall2 (fun _ => kind approx) jobs ds ->
     all_some (map (post_value approx (combine bs ds)) (map fst ys)) = Some (map (val ds) ys)).
  { intros ds Hds. rewrite map_map. apply all_some_map.
    assert (G : Forall (fun y => post_value approx (combine bs ds) (fst y) = Some (val ds y)) ys).
    { apply Forall_forall. intros y Hy. destruct (F2_right _ _ _ _ Fys Hy) as (x & _ & _ & Y2 & Y3 & _ & Y5). unfold val.
      rewrite post_value_eq; [f_equal; apply sumC_perm, Permutation_map; exact Y3|exact Y2|].
      intros i t Ht. apply (Permutation_in _ Y3) in Ht. destruct (Y5 _ Ht) as [[h _]|(i' & g & h & R1 & R2 & _)]; [discriminate|]. cbn in h. injection h as <-.
      destruct (Hjobs i _ _ R1 R2) as (c & pr & _ & Hj & _). destruct (F2_nth _ _ _ _ _ Hds Hj) as (d & Hd & Hk).
      exists (paulis2basis g), d. split; [|exact Hk]. rewrite nth_error_combine, Hd. unfold bs. rewrite (map_nth_error snd _ _ R1). reflexivity. }
    clear -G. induction G as [|y ys H G IH]; cbn [map]; constructor; auto. }
  assert (Lys : length ys = length sub) by (apply F2_combine in Fys; apply F2_combine in FL; lia).
  assert (Hout : forall ds, Forall2 (fun _ => kind approx) jobs ds ->
    match all_some (map (post_value approx (combine bs ds)) (map fst ys)) with Some (x :: vs) => Leaf (x :: vs) | _ => Raise end = Leaf (map (val ds) ys)).
  { intros ds Hds. rewrite (Hvals ds Hds). destruct ys as [|y ys]; [rewrite Esub in Lys; discriminate|]. reflexivity. }
  split.
  2:{ intros Ha. assert (El : exists ds, tr = Leaf ds).
    { unfold tr. clear -Hleaf Ha. specialize (Hleaf Ha). induction jobs as [|j jobs IH]; [cbn; eauto|]. cbn [traverse]. destruct (Hleaf j (or_introl eq_refl)) as (d & ->).
      destruct IH as (ds & ->); [intros; apply Hleaf; now right|]. cbn. eauto. }
    destruct El as (ds & El). rewrite El in Htr |- *. cbn in Htr. cbn [bind]. rewrite (Hout ds Htr). eauto. }
  split.
  - eapply always_bind; [eapply always_bind; [exact Htr|]|].
    + intros ds Hds. cbn. instantiate (1 := fun j => exists ds, j = Done ds /\ Forall2 (fun _ => kind approx) jobs ds). cbn. eauto.
    + intros j (ds & -> & Hds). rewrite (Hout ds Hds). cbn. now rewrite map_length.
  - intros i q o v c Hi Hbd. destruct (F2_nth _ _ _ _ _ FL Hi) as ([[ci oi] v'] & Hx & E1 & E2 & E3). cbn [fst snd] in E1, E2, E3. subst v'.
    destruct (F2_nth _ _ _ _ _ Fys Hx) as (y & Hy & _ & _ & _ & Y4 & Y5). cbn [fst snd] in Y4, Y5.
    assert (Hil : In (ci, oi, v) l) by (eapply nth_error_In; eauto). assert (Hs : In (q, o, v) sub) by (eapply nth_error_In; eauto).
    assert (Eo : nth oi (eobs s) [] = o) by (destruct (I3 _ _ E2) as (o3 & Ho3 & Ek3); apply Hokey in Ek3; subst; now apply nth_error_nth).
    rewrite Eo in Y4. destruct (Hmeant q o v Hs) as (Hlv & _ & c' & Hb' & Hn & H100 & Hpure & Ho).
    assert (c' = c) as ->. { destruct Hb' as [B1 _], Hbd as [B2 _]. congruence. }
    set (psi := finalv (nq c) (data c) (basis 0)).
    assert (EX : forall (F : C -> R), Ex (bind (bind tr (fun r => Leaf (Done r))) (fun j => match all_some (map (post_value approx (combine bs match j with Done ds => ds | Failed => [] end)) (map fst ys)) with
        Some (x :: vs) => Leaf (x :: vs) | _ => Raise end)) (fun vs => F (nth i vs (RtoC 0))) = Ex tr (fun ds => F (sumC (map (tval (combine bs ds)) (snd y))))).
    { intros F. rewrite !Ex_bind. apply (Ex_always _ _ _ _ Htr). intros ds Hds. cbn [Ex]. rewrite (Hout ds Hds). cbn [Ex]. f_equal.
      apply nth_error_nth. rewrite (map_nth_error (val ds) _ _ Hy). reflexivity. }
    rewrite !EX. destruct (Ex_sumC tr _ (fun ds => tval (combine bs ds)) (snd y) Htr) as [S1 S2]. cbv beta in S1, S2. rewrite S1, S2.
    assert (Eterm : map (fun x => (Ex tr (fun ds => fst (tval (combine bs ds) x)), Ex tr (fun ds => snd (tval (combine bs ds) x)))) (snd y) =
      map (fun x => Cmult (snd (snd x)) (pauli_expect (nq c) psi (fst (snd x)))) (snd y)).
    { apply map_ext_in. intros [r [p co]] Ht. cbn [fst snd]. destruct (Y5 _ Ht) as [[h1 h2]|(j & g & h1 & R1 & R2 & R3 & R4)]; cbn [fst snd] in *; subst r.
      - unfold tval. cbn [fst snd]. rewrite !(Ex_const _ _ _ Htr). rewrite (id_expect (nq c) psi p h2) by (now apply pure_norm). rewrite Cmult_1_r. now destruct co.
      - destruct (Hjobs j _ _ R1 R2) as (c1 & pr & A1 & Hj & Hv). cbn [fst snd] in *.
        assert (c1 = c) as ->.
        { assert (X : assign (Qof ci) (if has then Some (combine (PS s ci) v) else None) = Some c); [|congruence].
          apply (Hbind ci oi v c Hil); [eapply nth_error_In; eauto|]. exists q, o. auto. }
        assert (Hc : In ci cs) by (apply cs_In; eauto).
        destruct (HG ci Hc) as (_ & _ & _ & Hqwc).
        assert (Hlg : forall p, In p g -> length p = nq c).
        { intros p' Hp'. rewrite (Hw ci p' oi v Hil); [|eapply (group_In group abelian s l HG); eauto]. rewrite Hn. destruct (Hl ci oi v Hil) as (q2 & o2 & q' & Hs2 & Ek2 & _ & Hq' & -> & Ekk & _).
          destruct (I2 _ _ E1) as (q3 & Hq3 & Ek3). rewrite Hq' in Hq3. injection Hq3 as <-. now apply Hkey. }
        assert (Hgne : g <> []) by (destruct g; [destruct R4|discriminate]).
        destruct (Hid ci g Hc R3) as (pn & Hpn & Hidn).
        assert (Hsh : if approx then sh = None else exists z, sh = Some z /\ (0 < z)%Z).
        { clear -Hshots. unfold shotsk in Hshots. destruct approx; [apply Hshots|]. destruct Hshots as (z & E & Hz & _). exists z. split; auto. lia. }
        destruct (experiment approx eps c (paulis2basis g) sh Hpure (basis_len _ g Hgne Hlg) H100 (basis_support _ g pn Hgne Hlg Hpn Hidn) Hsh) as (pr' & Hv' & _ & _ & Hexp).
        assert (Hpre : approx = true -> prefix (paulis2basis g)).
        { intros Ha. apply (basis_prefix (nq c)); auto. intros p' Hp'. destruct (Hps ci p') as (q5 & o5 & v5 & t5 & Hs5 & _ & Ht5 & ->); [eapply (group_In group abelian s l HG); eauto|]. eapply Hfirst; eauto. }
        rewrite Hv in Hv'. injection Hv' as <-. specialize (Hexp p (basis_measures (nq c) g p Hgne Hlg (fun a b Ha Hb => Hqwc g a b R3 Ha Hb) R4) Hpre).
        assert (ET : forall (F : C -> R), F (RtoC 0) = 0%R -> Ex tr (fun ds => F (tval (combine bs ds) (Some j, (p, co)))) =
          Ex (evaluate eps (add_meas (paulis2basis g) c) pr sh) (fun d => F (Cmult (RtoC (expval_of (paulis2basis g) p d)) co))).
        { intros F F0. etransitivity; [|apply (Ex_traverse (fun _ => kind approx) (fun cp => evaluate eps (fst cp) (snd cp) sh) (fun d => F (Cmult (RtoC (expval_of (paulis2basis g) p d)) co)) jobs j (add_meas (paulis2basis g) c, pr) Hal Hj)].
          apply Ex_ext. intros ds. unfold tval. cbn [fst snd]. rewrite nth_error_combine. unfold bs. rewrite (map_nth_error snd _ _ R1). cbn [snd].
          destruct (nth_error ds j); auto. }
        rewrite (ET fst eq_refl), (ET snd eq_refl).
        rewrite (Ex_ext _ _ (fun d => (fst co * expval_of (paulis2basis g) p d)%R)) by (intros d; destruct co; cbn; ring).
        rewrite (Ex_ext _ (fun d => snd _) (fun d => (snd co * expval_of (paulis2basis g) p d)%R)) by (intros d; destruct co; cbn; ring).
        rewrite !Ex_scal. fold psi in Hexp. rewrite <- Hexp. destruct co as [a b]. unfold Cmult, RtoC. cbn [fst snd]. f_equal; ring. }
    rewrite Eterm, sum_obs, Y4. split; reflexivity.
Qed.
End Main.

Section Properties.
Context {Q K KO N V : Type} (K_dec : forall x y : K, {x = y} + {x <> y}) (KO_dec : forall x y : KO, {x = y} + {x <> y}).
Context (V_dec : forall x y : V, {x = y} + {x <> y}).
Context (key : Q -> K) (okey : obs -> KO) (params : Q -> list N) (assign : Q -> option (list (N * V)) -> option circ).
Context (group : list pauli -> list (list pauli)) (abelian : bool) (eps : R) (default_shots : option Z) (nqubits : Q -> nat).
Notation est_run := (fun approx => est_run K_dec KO_dec V_dec key okey params assign group abelian approx eps default_shots).
Notation ereach := (fun approx => ereach K_dec KO_dec V_dec key okey params assign group abelian approx eps default_shots).
Notation keys_ok := (keys_ok key okey params assign nqubits).
Notation meant := (meant params assign nqubits).
Notation expectations := (expectations params assign).

(* with grouping, for products with a non-identity term for each circuit; without, for
   observables with no identity term *)
Theorem C43_expectation_partial s sub shots z : keys_ok -> group_ok group -> ereach false s -> sub <> [] -> shotsz shots z -> (0 < z <= 1000000)%Z ->
  (forall q o v, In (q, o, v) sub -> meant q o v) ->
  (if abelian then product key sub /\ has_term key sub else no_identity sub) ->
  expectations sub (snd (est_run false s sub shots)).
Proof.
  intros H1 H2 H3 H4 H5 H6 H7 H8. destruct (submission K_dec KO_dec V_dec key okey params assign group abelian false eps default_shots nqubits true s sub shots (Some z) H1 H2 H3 H4) as [[h _]|[h _]]; auto; [|discriminate|discriminate].
  exists z. auto.
Qed.
(* with or without grouping, for observables with no identity term: no value is silently wrong *)
Theorem C43_raise_or_expectation_partial s sub shots z : keys_ok -> group_ok group -> ereach false s -> sub <> [] -> shotsz shots z -> (0 < z <= 1000000)%Z ->
  (forall q o v, In (q, o, v) sub -> meant q o v) -> no_identity sub ->
  snd (est_run false s sub shots) = Raise \/ expectations sub (snd (est_run false s sub shots)).
Proof.
  intros H1 H2 H3 H4 H5 H6 H7 H8. destruct (submission K_dec KO_dec V_dec key okey params assign group abelian false eps default_shots nqubits false s sub shots (Some z) H1 H2 H3 H4) as [[_ h]|[h _]]; auto; [|discriminate].
  exists z. auto.
Qed.
(* approximation=True without shots: the value itself (there are no draws in it), if all
   terms act on the first qubits *)
Theorem C43_approximation_partial s sub shots : keys_ok -> group_ok group -> ereach true s -> sub <> [] -> shots = None \/ shots = Some None ->
  (forall q o v, In (q, o, v) sub -> meant q o v) ->
  (forall q o v t, In (q, o, v) sub -> In t o -> first_qubits (fst t)) ->
  (if abelian then product key sub /\ has_term key sub else no_identity sub) ->
  expectations sub (snd (est_run true s sub shots)) /\ exists vs, snd (est_run true s sub shots) = Leaf vs.
Proof.
  intros H1 H2 H3 H4 H5 H6 H7 H8. destruct (submission K_dec KO_dec V_dec key okey params assign group abelian true eps default_shots nqubits true s sub shots None H1 H2 H3 H4) as [[h _]|[h h']]; auto; [|discriminate].
  split; auto.
Qed.
End Properties.
