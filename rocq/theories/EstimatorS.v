(* EstimatorS.v -- property C43, fourth part: the experiment read for a term is the
   circuit bound to the submitted values and measured in a basis for the term. *)
From Coq Require Import Reals ZArith Bool List Lia Arith Permutation.
From Coquelicot Require Import Complex.
From Verif Require Import Spec Backend BackendQ Estimator PauliP EstimatorP EstimatorQ EstimatorR.
Import ListNotations.
Open Scope nat_scope.

Lemma addf_copies {A B} (dec : forall x y : A, {x = y} + {x <> y}) (h : B -> list A) (c : B -> nat) os : (forall o, In o os -> c o <> 0) -> forall acc,
  fold_left (addf dec) (flat_map (fun o => concat (repeat (h o) (c o))) os) acc = fold_left (addf dec) (flat_map h os) acc.
Proof.
  induction os as [|o os IH]; intros H acc; [reflexivity|]. cbn [flat_map]. rewrite !fold_left_app, IH by (intros; apply H; now right). f_equal.
  assert (Ho : c o <> 0) by (apply H; now left). destruct (c o) as [|k]; [congruence|]. cbn [repeat concat]. rewrite fold_left_app.
  apply addf_absorb. intros x Hx. apply in_concat in Hx as (l & Hl & Hx). apply repeat_spec in Hl as ->. apply addf_all_In. now right.
Qed.
Lemma steps_fst {X V} (k : X -> nat) (w : X -> V) (h : X -> list nat) l :
  map fst (flat_map (fun x => map (fun b => (k x, (b, w x))) (h x)) l) = flat_map (fun x => repeat (k x) (length (h x))) l.
Proof.
  induction l as [|x r IH]; [reflexivity|]. cbn [flat_map]. rewrite map_app, IH, map_map. cbn [fst]. f_equal.
  induction (h x) as [|y m IHm]; cbn; auto. now rewrite IHm.
Qed.
Lemma steps_order {V} (om : nat -> nat -> list nat) (l : list (nat * nat * V)) ci :
  map fst (kfilter ci (flat_map (fun x => map (fun b => (fst (fst x), (b, snd x))) (om (fst (fst x)) (snd (fst x)))) l)) = flat_map (fun o => om ci o) (kfilter ci (map fst l)).
Proof.
  induction l as [|[[c o] v] r IH]; [reflexivity|]. cbn [flat_map map fst snd]. rewrite kfilter_app, map_app, IH.
  replace (map (fun b => (c, (b, v))) (om c o)) with (map (pair c) (map (fun b => (b, v)) (om c o))) by (now rewrite map_map).
  rewrite kfilter_map_pair. unfold kfilter at 2. cbn [filter fst]. destruct (Nat.eqb_spec c ci) as [->|]; [|reflexivity]. cbn [map snd flat_map]. f_equal.
  rewrite map_map. cbn [fst]. apply map_id.
Qed.
(* the pairs of an observable and values submitted with a circuit form a product *)
Definition balanced {V} (l : list (nat * nat * list V)) : Prop :=
  forall ci oi oi' v v', In (ci, oi, v) l -> In (ci, oi', v') l -> In (ci, oi, v') l.

Section Term.
Context {Q K KO N V : Type} (K_dec : forall x y : K, {x = y} + {x <> y}) (KO_dec : forall x y : KO, {x = y} + {x <> y}).
Context (V_dec : forall x y : V, {x = y} + {x <> y}).
Context (group : list pauli -> list (list pauli)) (abelian : bool).
Notation estimator := (@estimator Q K KO N).
Notation groups := (groups group abelian).
Notation build := (@build Q K KO N group abelian).
Notation vals_dec := (vals_dec V_dec).
Context (s : estimator) (l : list (nat * nat * list V)) (Qof : nat -> Q).
Let cos := map fst l.
Let cs := firsts Nat.eq_dec (map fst cos).
Definition gs (ci : nat) : list (list pauli) := groups (flat_map (paulis_of s) (kfilter ci cos)).
Definition PS (ci : nat) : list N := nth ci (eparams s) [].
Definition OM (ci : nat) := obs_map s (gs ci) (kfilter ci cos).
Definition theed : @expdict Q := map (fun ci => (ci, map (fun g => (Qof ci, paulis2basis g)) (gs ci))) cs.
Definition theoms : obsmaps := map (fun ci => (ci, OM ci)) cs.
Definition st := steps (fun ci oi => agetl (OM ci) oi) l.
Definition theem := fold_left (ge V_dec) st [].
Hypothesis HQ : forall ci, In ci cs -> nth_error (ecircs s) ci = Some (Qof ci).
Hypothesis Hlen : forall x, In x l -> length (snd x) = length (PS (fst (fst x))).
Hypothesis Hne : forall ci oi, In (ci, oi) cos -> paulis_of s oi <> [].
Hypothesis HG : forall ci, In ci cs -> partition_of (flat_map (paulis_of s) (kfilter ci cos)) (gs ci).
Hypothesis Hid : forall ci g, In ci cs -> In g (gs ci) -> exists p, In p g /\ is_id p = false.

Lemma cs_In ci : In ci cs <-> exists oi v, In (ci, oi, v) l.
Proof.
  unfold cs, cos. rewrite firsts_In, map_map, in_map_iff. split.
  - intros ([[c o] v] & E & H). cbn in E. subst. eauto.
  - intros (oi & v & H). exists (ci, oi, v). auto.
Qed.
Lemma cos_In ci oi : In oi (kfilter ci cos) <-> exists v, In (ci, oi, v) l.
Proof.
  rewrite kfilter_In. unfold cos. rewrite in_map_iff. split.
  - intros ([[c o] v] & E & H). cbn in E. injection E as -> ->. eauto.
  - intros (v & H). exists (ci, oi, v). auto.
Qed.
Lemma basis_nonid g p : In p g -> is_id p = false -> is_id (paulis2basis g) = false \/ exists p', In p' g /\ length p' <> length p.
Proof.
  intros Hp Hi. destruct (forallb (fun p' => length p' =? length p) g) eqn:E.
  - left. rewrite forallb_forall in E.
    assert (Hl : forall p', In p' g -> length p' = length p) by (intros p' Hp'; now apply Nat.eqb_eq, E).
    assert (Hs : support (paulis2basis g) <> []) by (apply (basis_support (length p) g p); auto; now destruct g).
    destruct (is_id (paulis2basis g)) eqn:Ei; [|reflexivity]. exfalso. apply Hs. rewrite is_id_spec in Ei. unfold support.
    assert (F : forall q, pnon (paulis2basis g) q = false) by (intros q; unfold pnon, px, pz; fold (at_q (paulis2basis g) q); now rewrite Ei).
    clear -F. induction (seq 0 (length (paulis2basis g))) as [|q r IH]; cbn; auto. now rewrite F.
  - right. assert (Ee : existsb (fun p' => negb (length p' =? length p)) g = true).
    { clear -E. induction g as [|x g IH]; [discriminate|]. cbn in *. destruct (length x =? length p); cbn in *; auto. }
    apply existsb_exists in Ee as (p' & Hp' & Ee). exists p'. split; auto. now apply Nat.eqb_neq, negb_true_iff.
Qed.
Hypothesis Hsame : forall ci p p', In ci cs -> In p (flat_map (paulis_of s) (kfilter ci cos)) -> In p' (flat_map (paulis_of s) (kfilter ci cos)) -> length p = length p'.
Lemma group_In ci g p : In ci cs -> In g (gs ci) -> In p g -> In p (flat_map (paulis_of s) (kfilter ci cos)).
Proof.
  intros Hc Hg Hp. destruct (HG ci Hc) as (_ & H & _). apply H. apply in_concat. eauto.
Qed.
Lemma build_is : build s (circ_obs_map cos) [] [] = (theed, theoms).
Proof.
  rewrite com_eq. fold cs. rewrite (build_eq group abelian s Qof cs (fun ci => kfilter ci cos)); [reflexivity|exact HQ|].
  intros ci Hc. cbn zeta. fold (gs ci). destruct (gs ci) as [|g r] eqn:E; [reflexivity|]. cbn [map nth length].
  destruct (Hid ci g Hc) as (p & Hp & Hi); [rewrite E; now left|].
  destruct (basis_nonid g p Hp Hi) as [->|(p' & Hp' & Hd)]; [apply andb_false_r|]. exfalso. apply Hd.
  apply (Hsame ci); auto; apply (group_In ci g); auto; rewrite E; now left.
Qed.
Lemma oms_get ci : In ci cs -> aget theoms ci = Some (OM ci).
Proof. intros H. unfold theoms. now rewrite aget_map. Qed.
Lemma pre_is : pre_process V_dec s theoms l [] = Some theem.
Proof.
  apply pre_process_eq.
  - intros [[ci oi] v] Hx. cbn [fst snd]. split; [exact (Hlen _ Hx)|]. exists (OM ci). split; [|reflexivity]. apply oms_get, cs_In. eauto.
  - intros ci _ b vals H. discriminate.
Qed.
Lemma om_In ci oi v b : In (ci, oi, v) l -> (In b (agetl (OM ci) oi) <-> In b (blist s (gs ci) oi)).
Proof. intros H. apply obs_map_In, cos_In. eauto. Qed.
Definition idx (ci : nat) (p : pauli) : nat := match basis_ind (gs ci) p with Some b => b | None => 0 end.
Lemma paulis_concat ci oi v p : In (ci, oi, v) l -> In p (paulis_of s oi) -> In p (concat (gs ci)).
Proof.
  intros H Hp. destruct (HG ci) as (_ & E & _); [apply cs_In; eauto|]. apply E, in_flat_map. exists oi. split; auto. apply cos_In. eauto.
Qed.
Lemma blist_map ci oi v : In (ci, oi, v) l -> blist s (gs ci) oi = map (idx ci) (paulis_of s oi).
Proof.
  intros H. apply flat_map_single. intros p Hp. destruct (basis_ind_some (gs ci) p) as (b & E); [eapply paulis_concat; eauto|].
  unfold idx. now rewrite E.
Qed.
Lemma st_In ci b v : In (b, v) (kfilter ci st) <-> exists oi, In (ci, oi, v) l /\ In b (blist s (gs ci) oi).
Proof.
  rewrite kfilter_In. unfold st, steps. rewrite in_flat_map. split.
  - intros ([[c o] w] & Hx & H). cbn [fst snd] in H. apply in_map_iff in H as (b' & E & Hb). injection E as -> -> ->. exists o. split; auto.
    eapply om_In; eauto.
  - intros (oi & Hx & Hb). exists (ci, oi, v). split; auto. cbn [fst snd]. apply in_map_iff. exists b. split; auto. eapply om_In; eauto.
Qed.
Lemma bases_In ci b : In ci cs -> (In b (map fst (kfilter ci st)) <-> b < length (gs ci)).
Proof.
  intros Hc. rewrite in_map_iff. split.
  - intros ([b' v] & E & H). cbn in E. subst b'. apply st_In in H as (oi & Hx & Hb). unfold blist in Hb. apply in_flat_map in Hb as (p & Hp & Hb).
    destruct (basis_ind (gs ci) p) as [b'|] eqn:E; [|destruct Hb]. destruct Hb as [->|[]]. apply basis_ind_In in E as (g & Hg & _). apply nth_error_Some. congruence.
  - intros Hb. destruct (nth_error (gs ci) b) as [g|] eqn:Eg; [|apply nth_error_None in Eg; lia].
    destruct (HG ci Hc) as (Hnd & Hin & _ & _). assert (Hg : In g (gs ci)) by (eapply nth_error_In; eauto).
    destruct (Hid ci g Hc Hg) as (p & Hp & _). pose proof (basis_ind_nodup _ _ _ _ Hnd Eg Hp) as Ei.
    pose proof (group_In ci g p Hc Hg Hp) as Hpl. apply in_flat_map in Hpl as (oi & Ho & Hpo). apply cos_In in Ho as (v & Hv).
    exists (b, v). split; auto. apply st_In. exists oi. split; auto. unfold blist. apply in_flat_map. exists p. split; auto. rewrite Ei. now left.
Qed.
Lemma bm_perm ci : In ci cs -> Permutation (map fst (agetl theem ci)) (seq 0 (length (gs ci))).
Proof.
  intros Hc. unfold theem. rewrite em_basis_keys. apply NoDup_Permutation; [apply firsts_NoDup|apply seq_NoDup|].
  intros b. rewrite firsts_In, bases_In, in_seq by auto. lia.
Qed.
Lemma bm_vals ci b : In ci cs -> b < length (gs ci) -> exists vb, aget (agetl theem ci) b = Some vb /\ NoDup vb /\
  forall v, In v vb <-> exists oi, In (ci, oi, v) l /\ In b (blist s (gs ci) oi).
Proof.
  intros Hc Hb. exists (firsts vals_dec (kfilter b (kfilter ci st))). split; [apply em_vals, bases_In; auto|]. split; [apply firsts_NoDup|].
  intros v. rewrite firsts_In, kfilter_In. apply st_In.
Qed.
Lemma em_keys_cs : map fst theem = cs.
Proof.
  unfold theem. rewrite em_keys. unfold cs, cos, st, steps.
  assert (E : map fst (flat_map (fun x => map (fun b => (fst (fst x), (b, snd x))) (agetl (OM (fst (fst x))) (snd (fst x)))) l) =
    flat_map (fun x => repeat (fst (fst x)) (length (agetl (OM (fst (fst x))) (snd (fst x))))) l).
  { apply (steps_fst (fun x => fst (fst x)) snd (fun x => agetl (OM (fst (fst x))) (snd (fst x)))). }
  rewrite E. unfold firsts. rewrite (fold_addf_flat Nat.eq_dec (fun x => fst (fst x)) (fun x => length (agetl (OM (fst (fst x))) (snd (fst x))))).
  - rewrite map_map. reflexivity.
  - intros [[ci oi] v] Hx. cbn [fst snd]. destruct (paulis_of s oi) as [|p r] eqn:Ep; [exfalso; apply (Hne ci oi); auto; apply in_map_iff; exists (ci, oi, v); auto|].
    assert (Hb : In (idx ci p) (agetl (OM ci) oi)). { eapply om_In; eauto. rewrite (blist_map ci oi v Hx), Ep. now left. }
    intros h. apply length_zero_iff_nil in h. rewrite h in Hb. exact Hb.
Qed.
Lemma st_order ci : map fst (kfilter ci st) = flat_map (fun o => agetl (OM ci) o) (kfilter ci cos).
Proof.
  unfold st, steps, cos. apply (steps_order (fun c o => agetl (OM c) o)).
Qed.
Lemma ordered ci : abelian = false -> In ci cs -> map fst (agetl theem ci) = seq 0 (length (gs ci)).
Proof.
  intros Ha Hc. unfold theem. rewrite em_basis_keys, st_order.
  assert (E : firsts Nat.eq_dec (flat_map (fun o => agetl (OM ci) o) (kfilter ci cos)) = firsts Nat.eq_dec (map (idx ci) (flat_map (paulis_of s) (kfilter ci cos)))).
  { unfold firsts, OM. rewrite (flat_map_ext _ (fun o => concat (repeat (blist s (gs ci) o) (count_occ Nat.eq_dec (kfilter ci cos) o)))) by (intros o; apply obs_map_get).
    rewrite (addf_copies Nat.eq_dec (blist s (gs ci))) by (intros o Ho; apply (count_occ_In Nat.eq_dec) in Ho; lia). f_equal.
    assert (G : forall os, (forall o, In o os -> In o (kfilter ci cos)) -> flat_map (blist s (gs ci)) os = map (idx ci) (flat_map (paulis_of s) os)).
    { induction os as [|o os IHo]; intros H; [reflexivity|]. cbn [flat_map]. rewrite map_app, IHo by (intros; apply H; now right). f_equal.
      destruct (proj1 (cos_In ci o)) as (v & Hv); [apply H; now left|]. eapply blist_map; eauto. }
    now apply G. }
  rewrite E. set (ps := flat_map (paulis_of s) (kfilter ci cos)).
  assert (Eg : gs ci = map (fun p => [p]) (uniq ps)) by (unfold gs, Estimator.groups; now rewrite Ha).
  rewrite (firsts_map pauli_dec).
  - rewrite <- uniq_firsts. rewrite Eg, map_length. rewrite <- (basis_ind_single (uniq ps)) by (rewrite uniq_firsts; apply firsts_NoDup).
    apply map_ext. intros p. unfold idx. rewrite Eg. reflexivity.
  - intros p p' Hp Hp'. unfold idx. rewrite Eg.
    destruct (basis_ind_some (map (fun p => [p]) (uniq ps)) p) as (b & Eb); [rewrite concat_single, uniq_firsts; now apply firsts_In|].
    destruct (basis_ind_some (map (fun p => [p]) (uniq ps)) p') as (b' & Eb'); [rewrite concat_single, uniq_firsts; now apply firsts_In|].
    rewrite Eb, Eb'. intros <-. apply basis_ind_In in Eb as (g & Hg & Hpg). apply basis_ind_In in Eb' as (g' & Hg' & Hpg'). rewrite Hg in Hg'. injection Hg' as <-.
    apply nth_error_In, in_map_iff in Hg as (x & <- & _). destruct Hpg as [<-|[]], Hpg' as [<-|[]]. reflexivity.
Qed.
(* at position j in the map of a circuit there are as many values as for the basis j *)
Definition positioned : Prop := forall ci j, In ci cs -> j < length (gs ci) -> exists b' vals, nth_error (agetl theem ci) j = Some (b', vals) /\
  length vals = Lb (agetl theem ci) j /\ (forall oi v, In (ci, oi, v) l -> In j (blist s (gs ci) oi) -> In v vals).
Lemma position : balanced l \/ abelian = false -> positioned.
Proof.
  intros Hord ci j Hc Hj. pose proof (bm_perm ci Hc) as HP. set (bm := agetl theem ci) in *.
  assert (Hn : NoDup (map fst bm)) by (eapply Permutation_NoDup; [symmetry; exact HP|apply seq_NoDup]).
  assert (Hl : length bm = length (gs ci)) by (apply Permutation_length in HP; now rewrite map_length, seq_length in HP).
  destruct (nth_error bm j) as [[b' vals]|] eqn:E; [|apply nth_error_None in E; lia]. exists b', vals. split; [reflexivity|].
  assert (Hg : aget bm b' = Some vals) by (apply aget_In; auto; eapply nth_error_In; eauto).
  assert (Hb' : b' < length (gs ci)).
  { assert (In b' (seq 0 (length (gs ci)))) as h by (apply (Permutation_in _ HP); change b' with (fst (b', vals)); apply in_map; eapply nth_error_In; eauto). apply in_seq in h. lia. }
  destruct (bm_vals ci j Hc Hj) as (vj & Ej & Nj & Ij). fold bm in Ej. destruct (bm_vals ci b' Hc Hb') as (vb & Eb & Nb & Ib). fold bm in Eb. rewrite Hg in Eb. injection Eb as <-.
  destruct Hord as [Hbal|Ha].
  - assert (All : forall b, b < length (gs ci) -> forall v, (exists oi, In (ci, oi, v) l /\ In b (blist s (gs ci) oi)) <-> exists oi, In (ci, oi, v) l).
    { intros b Hb v. split; [intros (oi & H & _); eauto|]. intros (oi & H).
      destruct (bm_vals ci b Hc Hb) as (w & Ew & _ & Iw). apply bases_In in Hb; auto. apply in_map_iff in Hb as ([b0 v0] & E0 & H0). cbn in E0. subst b0.
      apply st_In in H0 as (oi0 & H0 & Hb0). exists oi0. split; auto. eapply Hbal; eauto. }
    split.
    + unfold Lb, agetl. rewrite Ej. apply Permutation_length, NoDup_Permutation; auto. intros v. rewrite Ij, Ib, !All by auto. tauto.
    + intros oi v H _. apply Ib, All; eauto.
  - assert (b' = j) as ->.
    { pose proof (ordered ci Ha Hc) as Eo. fold bm in Eo. apply (map_nth_error fst) in E. rewrite Eo, nth_error_seq in E by lia. cbn in E. injection E as E. lia. }
    split; [unfold Lb, agetl; now rewrite Hg|]. intros oi v H Hb. apply Ib. eauto.
Qed.
(* if no lookup fails the map is in order too: the values of each basis are among those at
   its position, and there are as many of both *)
Lemma sum_le_eq (f g : nat -> nat) n : (forall j, j < n -> f j <= g j) -> list_sum (map f (seq 0 n)) = list_sum (map g (seq 0 n)) -> forall j, j < n -> f j = g j.
Proof.
  induction n as [|n IH]; intros Hle E j Hj; [lia|]. rewrite seq_S, !map_app, !list_sum_app in E. unfold list_sum in E. cbn [map fold_right Nat.add] in E. fold (list_sum (map f (seq 0 n))) in E. fold (list_sum (map g (seq 0 n))) in E.
  assert (Hs : list_sum (map f (seq 0 n)) <= list_sum (map g (seq 0 n))).
  { assert (Hle' : forall j, j < n -> f j <= g j) by (intros; apply Hle; lia). clear -Hle'. induction n as [|n IH]; [cbn; lia|].
    rewrite seq_S, !map_app, !list_sum_app. unfold list_sum at 2 4. cbn [map fold_right Nat.add]. specialize (IH ltac:(intros; apply Hle'; lia)). specialize (Hle' n ltac:(lia)). lia. }
  pose proof (Hle n ltac:(lia)). destruct (Nat.eq_dec j n) as [->|]; [lia|]. apply IH; [intros; apply Hle; lia|lia|lia].
Qed.
Lemma scan_missing (bm : list (nat * list (list V))) : forall pos k v acc b' vals, nth_error bm k = Some (b', vals) -> ~ In v vals -> scan_bases V_dec bm pos (pos + k) v acc = Missing.
Proof.
  induction bm as [|[b0 vs] bm IH]; intros pos k v acc b' vals Hk Hv; [destruct k; discriminate|]. destruct k as [|k]; cbn in Hk; cbn [Estimator.scan_bases].
  - injection Hk as -> ->. rewrite Nat.add_0_r, Nat.eqb_refl. destruct (index_v V_dec v vals) eqn:E; [|reflexivity]. exfalso. apply Hv. apply index_v_nth in E. eapply nth_error_In; eauto.
  - destruct (Nat.eqb_spec pos (pos + S k)); [lia|]. replace (pos + S k) with (S pos + k) by lia. eapply IH; eauto.
Qed.
Lemma scan_circs_missing cs1 ci cs2 (B : nat -> list (nat * list (list V))) b v : ~ In ci cs1 -> (forall acc, scan_bases V_dec (B ci) 0 b v acc = Missing) ->
  forall acc, scan_circs V_dec (map (fun c => (c, B c)) (cs1 ++ ci :: cs2)) ci b v acc = Missing.
Proof.
  intros Hc Hb. induction cs1 as [|c cs1 IH]; intros acc; cbn [map app Estimator.scan_circs].
  - now rewrite Nat.eqb_refl, Hb.
  - destruct (Nat.eqb_spec c ci) as [->|]; [exfalso; apply Hc; now left|]. apply IH. intros h. apply Hc. now right.
Qed.
Lemma em_as_map : theem = map (fun c => (c, agetl theem c)) cs.
Proof. rewrite <- em_keys_cs at 1. apply dict_as_map. rewrite em_keys_cs. apply firsts_NoDup. Qed.
Lemma position_found : (forall ci oi v k p, In (ci, oi, v) l -> nth_error (paulis_of s oi) k = Some p -> result_index V_dec theoms theem ci oi k v <> None) -> positioned.
Proof.
  intros Hf. assert (G : forall ci, In ci cs -> forall j b' vals, j < length (gs ci) -> nth_error (agetl theem ci) j = Some (b', vals) ->
    forall oi v, In (ci, oi, v) l -> In j (blist s (gs ci) oi) -> In v vals).
  { intros ci Hc j b' vals Hj Hn oi v Hx Hb. destruct (in_dec vals_dec v vals) as [|Hv]; auto. exfalso.
    rewrite (blist_map ci oi v Hx) in Hb. apply In_nth_error in Hb as (k & Hk).
    destruct (nth_error (paulis_of s oi) k) as [p|] eqn:Ep; [|apply nth_error_None in Ep; assert (k < length (map (idx ci) (paulis_of s oi))) by (apply nth_error_Some; congruence); rewrite map_length in *; lia].
    apply (Hf ci oi v k p Hx Ep). unfold result_index. rewrite (oms_get ci Hc). unfold OM.
    rewrite (obs_map_nth s (gs ci) (kfilter ci cos) oi k j); [|apply cos_In; eauto|rewrite (blist_map ci oi v Hx); exact Hk].
    destruct (in_split ci cs Hc) as (cs1 & cs2 & Ecs). rewrite em_as_map at 1. rewrite Ecs.
    rewrite (scan_circs_missing cs1 ci cs2 (fun c => agetl theem c)); [reflexivity| |].
    - assert (NoDup cs) as Hnd by apply firsts_NoDup. rewrite Ecs in Hnd. apply NoDup_remove_2 in Hnd. intros h. apply Hnd, in_or_app. now left.
    - intros acc. apply (scan_missing _ 0 j v acc b' vals Hn Hv). }
  intros ci j Hc Hj. pose proof (bm_perm ci Hc) as HP. set (bm := agetl theem ci) in *.
  assert (Hl : length bm = length (gs ci)) by (apply Permutation_length in HP; now rewrite map_length, seq_length in HP).
  assert (Hle : forall j, j < length (gs ci) -> Lb bm j <= length (snd (nth j bm (0, [])))).
  { intros j' Hj'. destruct (nth_error bm j') as [[b' vals]|] eqn:E; [|apply nth_error_None in E; lia]. rewrite (nth_error_nth _ _ _ E). cbn [snd].
    destruct (bm_vals ci j' Hc Hj') as (vj & Ej & Nj & Ij). fold bm in Ej. unfold Lb, agetl. rewrite Ej. apply NoDup_incl_length; auto.
    intros v Hv. apply Ij in Hv as (oi & Hx & Hb). eapply (G ci Hc j'); eauto. }
  assert (Hsum : list_sum (map (Lb bm) (seq 0 (length (gs ci)))) = list_sum (map (fun j => length (snd (nth j bm (0, [])))) (seq 0 (length (gs ci))))).
  { rewrite <- (total_perm bm _ HP), total_sum. f_equal. rewrite <- Hl. clear. apply (nth_ext _ _ 0 0); [now rewrite !map_length, seq_length|].
    rewrite map_length. intros k Hk. rewrite (nth_indep _ 0 (length (snd (0, @nil (list V))))) by (now rewrite map_length).
    rewrite (map_nth (fun bv : nat * list (list V) => length (snd bv))). rewrite (nth_indep _ 0 ((fun j => length (snd (nth j bm (0, [])))) 0)) by (now rewrite map_length, seq_length).
    rewrite (map_nth (fun j => length (snd (nth j bm (0, []))))), seq_nth by auto. reflexivity. }
  pose proof (sum_le_eq _ _ _ Hle Hsum j Hj) as Ej. cbv beta in Ej.
  destruct (nth_error bm j) as [[b' vals]|] eqn:E; [|apply nth_error_None in E; lia]. exists b', vals. split; [reflexivity|]. rewrite (nth_error_nth _ _ _ E) in Ej. cbn [snd] in Ej.
  split; [now symmetry|]. intros oi v Hx Hb. eapply (G ci Hc j); eauto.
Qed.
Lemma flatten_is : flatten s theed theem =
  (flat_map (fun ci => fst (flat_circ (PS ci) (map (fun g => (Qof ci, paulis2basis g)) (gs ci)) (agetl theem ci))) cs,
   flat_map (fun ci => snd (flat_circ (PS ci) (map (fun g => (Qof ci, paulis2basis g)) (gs ci)) (agetl theem ci))) cs).
Proof. unfold flatten, theed. rewrite !map_map, !flat_map_concat_map. reflexivity. Qed.
Theorem term_found ci oi v k p : positioned -> In (ci, oi, v) l -> nth_error (paulis_of s oi) k = Some p ->
  exists i g, result_index V_dec theoms theem ci oi k v = Some (Some i) /\
    nth_error (fst (flatten s theed theem)) i = Some (Qof ci, paulis2basis g) /\ nth_error (snd (flatten s theed theem)) i = Some (combine (PS ci) v) /\
    In g (gs ci) /\ In p g.
Proof.
  intros position Hx Hk. assert (Hc : In ci cs) by (apply cs_In; eauto).
  assert (Hp : In p (paulis_of s oi)) by (eapply nth_error_In; eauto).
  destruct (basis_ind_some (gs ci) p) as (b & Eb); [eapply paulis_concat; eauto|]. destruct (basis_ind_In _ _ _ Eb) as (g & Hg & Hpg).
  assert (Hbl : nth_error (blist s (gs ci) oi) k = Some b).
  { rewrite (blist_map ci oi v Hx). rewrite (map_nth_error (idx ci) _ _ Hk). unfold idx. now rewrite Eb. }
  assert (Hb : b < length (gs ci)) by (apply nth_error_Some; congruence).
  pose proof (bm_perm ci Hc) as HP. set (combos := map (fun g => (Qof ci, paulis2basis g)) (gs ci)).
  assert (HP' : Permutation (map fst (agetl theem ci)) (seq 0 (length combos))) by (unfold combos; now rewrite map_length).
  destruct (position ci b Hc Hb) as (b' & vals & Hn & Hl & Hv). 
  destruct (index_v_In V_dec v vals) as (i & Hi); [eapply Hv; eauto; eapply nth_error_In; eauto|].
  destruct (circ_found V_dec (PS ci) combos (agetl theem ci) b v vals b' i (Qof ci, paulis2basis g) HP' Hn Hi Hl) as (r & Hs & H1 & H2).
  { intros j Hj. destruct (position ci j Hc ltac:(lia)) as (bj & vj & Ej & Lj & _). rewrite (nth_error_nth _ _ _ Ej). exact Lj. }
  { unfold combos. apply (map_nth_error (fun g => (Qof ci, paulis2basis g))). exact Hg. }
  destruct (in_split ci cs Hc) as (cs1 & cs2 & Ecs).
  assert (Hni : ~ In ci cs1).
  { assert (NoDup cs) as Hnd by apply firsts_NoDup. rewrite Ecs in Hnd. apply NoDup_remove_2 in Hnd. intros h. apply Hnd, in_or_app. now left. }
  exists (list_sum (map (fun c => total_vals (agetl theem c)) cs1) + r), g.
  assert (Hlens : forall c, In c cs1 -> length (fst (flat_circ (PS c) (map (fun g => (Qof c, paulis2basis g)) (gs c)) (agetl theem c))) = total_vals (agetl theem c) /\
     length (snd (flat_circ (PS c) (map (fun g => (Qof c, paulis2basis g)) (gs c)) (agetl theem c))) = total_vals (agetl theem c)).
  { intros c Hcc. apply flat_circ_lengths. rewrite map_length. apply bm_perm. rewrite Ecs. apply in_or_app. now left. }
  split; [|split; [|split; [|split; auto; eapply nth_error_In; eauto]]].
  - unfold result_index. rewrite (oms_get ci Hc). unfold OM. rewrite (obs_map_nth s (gs ci) (kfilter ci cos) oi k b); [|apply cos_In; eauto|exact Hbl].
    rewrite em_as_map at 1. rewrite Ecs. rewrite (scan_circs_found V_dec (fun c => agetl theem c) cs1 ci cs2 b v r Hni Hs 0). reflexivity.
  - rewrite flatten_is. cbn [fst]. rewrite Ecs. apply (flat_at _ (fun c => total_vals (agetl theem c))); [apply Hlens|exact H1].
  - rewrite flatten_is. cbn [snd]. rewrite Ecs. apply (flat_at _ (fun c => total_vals (agetl theem c))); [apply Hlens|exact H2].
Qed.
(* every experiment is a submitted circuit with submitted values *)
Theorem experiments_valid : Forall2 (fun m bd => exists ci oi v g, In (ci, oi, v) l /\ In g (gs ci) /\ m = (Qof ci, paulis2basis g) /\ bd = combine (PS ci) v)
  (fst (flatten s theed theem)) (snd (flatten s theed theem)).
Proof.
  rewrite flatten_is. cbn [fst snd]. apply Forall2_concat. intros ci Hc.
  set (combos := map (fun g => (Qof ci, paulis2basis g)) (gs ci)). pose proof (bm_perm ci Hc) as HP.
  assert (HP' : Permutation (map fst (agetl theem ci)) (seq 0 (length combos))) by (unfold combos; now rewrite map_length).
  destruct (flat_circ_lengths (PS ci) combos (agetl theem ci) HP') as [L1 L2].
  assert (F : Forall2 (fun m bd => (exists g, In g (gs ci) /\ m = (Qof ci, paulis2basis g)) /\ (exists oi v, In (ci, oi, v) l /\ bd = combine (PS ci) v))
    (fst (flat_circ (PS ci) combos (agetl theem ci))) (snd (flat_circ (PS ci) combos (agetl theem ci)))).
  { apply Forall2_split; [exact (eq_trans L1 (eq_sym L2))| |].
    - apply Forall_forall. intros m Hm. unfold flat_circ in Hm. cbn [fst] in Hm. apply in_flat_map in Hm as (i & _ & Hm). change (@nth_error (@mcirc Q)) with (@nth_error (Q * pauli)) in Hm.
      destruct (nth_error combos i) as [m'|] eqn:E; [|destruct Hm]. destruct Hm as [<-|[]]. apply nth_error_In in E. unfold combos in E.
      apply in_map_iff in E as (g & <- & Hg). eauto.
    - apply Forall_forall. intros bd Hb. unfold flat_circ in Hb. cbn [snd] in Hb. apply in_flat_map in Hb as ([b vals] & Hbv & Hb). cbn [snd] in Hb.
      apply in_map_iff in Hb as (v & <- & Hv).
      assert (Hb' : b < length (gs ci)).
      { assert (In b (seq 0 (length (gs ci)))) as h by (apply (Permutation_in _ HP); change b with (fst (b, vals)); now apply in_map). apply in_seq in h. lia. }
      destruct (bm_vals ci b Hc Hb') as (vb & Eb & _ & Ib).
      apply aget_In in Hbv; [|eapply Permutation_NoDup; [symmetry; exact HP|apply seq_NoDup]]. rewrite Hbv in Eb. injection Eb as <-.
      apply Ib in Hv as (oi & Hx & _). eauto. }
  eapply F2_impl; [|exact F]. cbn. intros m bd [(g & Hg & ->) (oi & v & Hx & ->)]. exists ci, oi, v, g. auto.
Qed.
End Term.
