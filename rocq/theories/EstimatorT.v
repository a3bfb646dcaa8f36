(* EstimatorT.v -- property C43, fifth part: from the results to the values, and the
   whole submission. *)
From Coq Require Import Reals Lra ZArith Bool List Lia Arith Permutation.
From Coquelicot Require Import Complex.
From Verif Require Import Num RNum Spec SpecP Backend BackSpec BackendP BackendQ Estimator PauliP EstimatorP EstimatorQ EstimatorR EstimatorS.
Import ListNotations.
Open Scope nat_scope.

(* ---- sums of terms ---- *)
Definition sumC (l : list C) : C := fold_right Cplus (RtoC 0) l.
Lemma sumC_perm l l' : Permutation l l' -> sumC l = sumC l'.
Proof. unfold sumC. induction 1; cbn; auto; [now rewrite IHPermutation|ring|congruence]. Qed.
Lemma sumC_app l l' : sumC (l ++ l') = Cplus (sumC l) (sumC l').
Proof. unfold sumC. induction l as [|x l IH]; cbn; [ring|]. rewrite IH. ring. Qed.
Lemma csumo_some l : csumo (map Some l) = Some (sumC l).
Proof. unfold csumo, sumC. induction l as [|x l IH]; cbn; auto. now rewrite IH. Qed.
Definition flat (es : list entry) : list (option nat * (pauli * C)) := flat_map (fun e => map (pair (fst e)) (snd e)) es.
Definition wf_entries (es : list entry) : Prop := forall e, In e es -> snd e <> [] /\ (fst e = None -> exists t, snd e = [t]).
Lemma oeq_eq a b : oeq a b = true -> a = b.
Proof. destruct a as [a|], b as [b|]; cbn; try discriminate; auto. intros H. apply Nat.eqb_eq in H. congruence. Qed.
Lemma add_entry_flat es i t : Permutation (flat (add_entry es i t)) (flat es ++ [(i, t)]).
Proof.
  induction es as [|[r ts] es IH]; [reflexivity|]. cbn [add_entry]. destruct (oeq i r) eqn:E.
  - apply oeq_eq in E as <-. unfold flat. cbn [flat_map fst snd]. rewrite map_app, <- !app_assoc. apply Permutation_app_head. cbn [map]. 
    apply Permutation_app_comm.
  - unfold flat in *. cbn [flat_map fst snd]. rewrite <- app_assoc. now apply Permutation_app_head.
Qed.
Lemma add_entry_wf es i t : wf_entries es -> wf_entries (add_entry es (Some i) t).
Proof.
  induction es as [|[r ts] es IH]; intros H e He; cbn [add_entry] in He.
  - destruct He as [<-|[]]. split; discriminate.
  - assert (H' : wf_entries es) by (intros x Hx; apply H; now right). destruct (oeq (Some i) r) eqn:E.
    + apply oeq_eq in E as <-. destruct He as [<-|He]; [|now apply H']. split; [cbn; now destruct ts|discriminate].
    + destruct He as [<-|He]; [apply H; now left|]. now apply IH.
Qed.
Definition tval (res : list (pauli * rdata)) (x : option nat * (pauli * C)) : C :=
  match fst x with
  | None => snd (snd x)
  | Some i => match nth_error res i with Some (b, d) => Cmult (RtoC (expval_of b (fst (snd x)) d)) (snd (snd x)) | None => RtoC 0 end
  end.
Lemma post_value_eq approx res es : wf_entries es -> (forall i t, In (Some i, t) (flat es) -> exists b d, nth_error res i = Some (b, d) /\ kind approx d) ->
  post_value approx res es = Some (sumC (map (tval res) (flat es))).
Proof.
  intros Hw Hr. unfold post_value.
  assert (E : map (entry_value approx res) es = map Some (map (fun e => sumC (map (tval res) (map (pair (fst e)) (snd e)))) es)).
  { rewrite map_map. apply map_ext_in. intros [r ts] He. unfold entry_value. cbn [fst snd]. destruct r as [i|].
    - destruct ts as [|t0 ts0] eqn:Ets.
      { destruct (Hw _ He) as [h _]. now cbn in h. }
      rewrite <- Ets in *. assert (Hi : exists b d, nth_error res i = Some (b, d) /\ kind approx d).
      { apply (Hr i t0). unfold flat. apply in_flat_map. exists (Some i, ts). split; auto. cbn. apply in_map. rewrite Ets. now left. }
      destruct Hi as (b & d & Hi & Hk). rewrite Hi. rewrite <- csumo_some, !map_map. f_equal. apply map_ext. intros t. unfold tval. cbn [fst snd]. rewrite Hi. unfold kind in Hk. destruct approx, d; try contradiction; reflexivity.
    - destruct (Hw (None, ts) He) as [_ Hs]. destruct (Hs eq_refl) as (t & Et). cbn in Et. subst ts. cbn. f_equal. ring. }
  rewrite E, csumo_some. f_equal. clear. unfold flat. induction es as [|e es IH]; [reflexivity|]. cbn [map flat_map]. rewrite map_app, sumC_app, <- IH. reflexivity.
Qed.
Section Run.
Context {Q K KO N V : Type} (K_dec : forall x y : K, {x = y} + {x <> y}) (KO_dec : forall x y : KO, {x = y} + {x <> y}).
Context (V_dec : forall x y : V, {x = y} + {x <> y}).
Context (key : Q -> K) (okey : obs -> KO) (params : Q -> list N) (assign : Q -> option (list (N * V)) -> option circ).
Context (group : list pauli -> list (list pauli)) (abelian approx : bool) (eps : R) (default_shots : option Z).
Context (nqubits : Q -> nat).
Notation estimator := (@estimator Q K KO N).
(* the terms of an observable with the results they are read from *)
Lemma entries_eq oms em ci oi v : forall o k acc,
  (forall j t, nth_error o j = Some t -> is_id (fst t) = false -> exists i, result_index V_dec oms em ci oi (k + j) v = Some (Some i)) -> wf_entries acc ->
  exists es T, entries V_dec oms em ci oi k v o acc = Some es /\ wf_entries es /\ Permutation (flat es) (flat acc ++ T) /\ map snd T = o /\
    forall x, In x T -> (fst x = None /\ is_id (fst (snd x)) = true) \/
      exists j i, nth_error o j = Some (snd x) /\ fst x = Some i /\ result_index V_dec oms em ci oi (k + j) v = Some (Some i).
Proof.
  induction o as [|t o IH]; intros k acc H Hw.
  - exists acc, []. split; [reflexivity|]. split; [exact Hw|]. rewrite app_nil_r. split; [reflexivity|]. split; [reflexivity|]. intros x [].
  - cbn [Estimator.entries].
    assert (H' : forall j t0, nth_error o j = Some t0 -> is_id (fst t0) = false -> exists i, result_index V_dec oms em ci oi (S k + j) v = Some (Some i)).
    { intros j t0 Hj Hi. replace (S k + j) with (k + S j) by lia. now apply (H (S j) t0). }
    destruct (is_id (fst t)) eqn:Ei.
    + destruct (IH (S k) (acc ++ [(None, [t])]) H') as (es & T & E1 & E2 & E3 & E4 & E5).
      { intros e He. apply in_app_or in He as [He|[<-|[]]]; [now apply Hw|]. split; [discriminate|]. cbn. eauto. }
      exists es, ((None, t) :: T). split; [exact E1|]. split; [exact E2|]. split; [|split; [cbn; now rewrite E4|]].
      * rewrite E3. unfold flat. rewrite flat_map_app. cbn. rewrite <- app_assoc. reflexivity.
      * intros x [<-|Hx]; [left; auto|]. destruct (E5 x Hx) as [h|(j & i & h1 & h2 & h3)]; [now left|]. right. exists (S j), i.
        replace (k + S j) with (S k + j) by lia. auto.
    + destruct (H 0 t eq_refl Ei) as (i & Hi). rewrite Nat.add_0_r in Hi. rewrite Hi.
      destruct (IH (S k) (add_entry acc (Some i) t) H') as (es & T & E1 & E2 & E3 & E4 & E5); [now apply add_entry_wf|].
      exists es, ((Some i, t) :: T). split; [exact E1|]. split; [exact E2|]. split; [|split; [cbn; now rewrite E4|]].
      * rewrite E3, add_entry_flat, <- app_assoc. reflexivity.
      * intros x [<-|Hx].
        { right. exists 0, i. rewrite Nat.add_0_r. auto. }
        destruct (E5 x Hx) as [h|(j & i' & h1 & h2 & h3)]; [now left|]. right. exists (S j), i'. replace (k + S j) with (S k + j) by lia. auto.
Qed.

Lemma entries_some oms em ci oi v : forall o k acc es, entries V_dec oms em ci oi k v o acc = Some es ->
  forall j t, nth_error o j = Some t -> is_id (fst t) = false -> result_index V_dec oms em ci oi (k + j) v <> None.
Proof.
  induction o as [|x o IH]; intros k acc es H j t Hj Hi; [destruct j; discriminate|]. cbn [entries] in H. destruct j as [|j]; cbn [nth_error] in Hj.
  - injection Hj as ->. rewrite Hi in H. rewrite Nat.add_0_r. destruct (result_index V_dec oms em ci oi k v); discriminate.
  - replace (k + S j) with (S k + j) by lia. destruct (is_id (fst x)); [eapply IH; eauto|].
    destruct (result_index V_dec oms em ci oi k v); [eapply IH; eauto|discriminate].
Qed.
(* ---- the experiments run ---- *)
Definition shotsz (shots : option (option Z)) (z : Z) : Prop := shots = Some (Some z) \/ (z = 1024%Z /\ (shots = None \/ shots = Some None)).
(* what evaluate is called with *)
Definition shotsk (shots : option (option Z)) (sh : option Z) : Prop :=
  if approx then sh = None /\ (shots = None \/ shots = Some None) else exists z, sh = Some z /\ (0 < z <= 1000000)%Z /\ shotsz shots z.
Definition goodc (c : circ) (b : pauli) : Prop := pure (nq c) (data c) /\ length b = nq c /\ nq c <= 100 /\ support b <> [].
Lemma all_some_map {A B} (f : A -> option B) l r : Forall2 (fun a b => f a = Some b) l r -> all_some (map f l) = Some r.
Proof. induction 1 as [|a b l r H1 H2 IH]; cbn; auto. now rewrite H1, IH. Qed.
Lemma run_ok (exps : list (@mcirc Q)) binds shots sh : shotsk shots sh ->
  Forall2 (fun m bd => exists c, assign (fst m) (if existsb nonempty binds then Some bd else None) = Some c /\ goodc c (snd m)) exps binds ->
  exists jobs, run_backend eps false default_shots (Some (map (assign_meas assign) exps)) (Ropts (eff_shots approx shots) (if existsb nonempty binds then Some binds else None)) =
    bind (traverse (fun cp => evaluate eps (fst cp) (snd cp) sh) jobs) (fun l => Leaf (Done l)) /\
    (forall cp, In cp jobs -> always (kind approx) (evaluate eps (fst cp) (snd cp) sh)) /\
    (approx = true -> forall cp, In cp jobs -> exists d, evaluate eps (fst cp) (snd cp) sh = Leaf d) /\
    length jobs = length exps /\
    forall i m bd, nth_error exps i = Some m -> nth_error binds i = Some bd -> exists c pr, assign (fst m) (if existsb nonempty binds then Some bd else None) = Some c /\
      nth_error jobs i = Some (add_meas (snd m) c, pr) /\ validate_circuit true (add_meas (snd m) c) = Some pr.
Proof.
  intros Hsh HF. set (has := existsb nonempty binds) in *.
  assert (Hz : if approx then sh = None else exists z, sh = Some z /\ (0 < z)%Z).
  { unfold shotsk in Hsh. destruct approx; [apply Hsh|]. destruct Hsh as (z & E & Hz & _). exists z. split; auto. lia. }
  assert (HJ : exists jobs, Forall2 (fun mb job => exists c, assign (fst (fst mb)) (if has then Some (snd mb) else None) = Some c /\ goodc c (snd (fst mb)) /\
     fst job = add_meas (snd (fst mb)) c /\ validate_circuit true (fst job) = Some (snd job)) (combine exps binds) jobs).
  { clear -HF Hz eps approx. clearbody has. induction HF as [|m bd l l' (c & E & G) H IH]; [exists []; constructor|]. destruct IH as (jobs & IH).
    destruct G as (G1 & G2 & G3 & G4). destruct (experiment approx eps c (snd m) sh G1 G2 G3 G4 Hz) as (pr & Ev & _).
    exists ((add_meas (snd m) c, pr) :: jobs). cbn [combine]. constructor; auto. exists c. cbn [fst snd]. split; [exact E|]. split; [split; auto|]. split; [reflexivity|exact Ev]. }
  destruct HJ as (jobs & HJ). exists jobs.
  assert (Hal2 : forall cp, In cp jobs -> always (kind approx) (evaluate eps (fst cp) (snd cp) sh) /\ (approx = true -> exists d, evaluate eps (fst cp) (snd cp) sh = Leaf d)).
  { intros cp Hcp. assert (X : exists mb, exists c, assign (fst (fst mb)) (if has then Some (snd mb) else None) = Some c /\ goodc c (snd (fst mb)) /\
      fst cp = add_meas (snd (fst mb)) c /\ validate_circuit true (fst cp) = Some (snd cp)).
    { clear -HJ Hcp. induction HJ as [|mb job l l' H1 H2 IH]; [destruct Hcp|]. destruct Hcp as [<-|Hcp]; [exists mb; exact H1|auto]. }
    destruct X as (mb & c & _ & (G1 & G2 & G3 & G4) & E1 & E2). destruct (experiment approx eps c (snd (fst mb)) sh G1 G2 G3 G4 Hz) as (pr & Ev & Ea & El & _).
    rewrite E1 in *. rewrite Ev in E2. injection E2 as <-. split; [exact Ea|intros Ha; eexists; apply (El Ha)]. }
  assert (Hal : forall cp, In cp jobs -> always (kind approx) (evaluate eps (fst cp) (snd cp) sh)) by (intros cp Hcp; now apply Hal2).
  assert (Hlen : length exps = length binds) by (now apply F2_combine in HF).
  split; [|split; [exact Hal|split; [intros Ha cp Hcp; now apply Hal2|split]]].
  - assert (Eeff : eff_shots approx shots = Some sh /\ shots_ok (Some sh) = true).
    { unfold shotsk in Hsh. destruct approx; [destruct Hsh as [-> _]; auto|]. destruct Hsh as (z & -> & Hzz & Hs). split; [destruct Hs as [->|[-> [->| ->]]]; reflexivity|].
      cbn [shots_ok]. unfold max_shots. rewrite (proj2 (Z.ltb_lt 0 z)), (proj2 (Z.leb_le z 1000000)) by lia. reflexivity. }
    destruct Eeff as [-> Eok]. unfold run_backend, run_internal. cbn [r_shots r_binds]. rewrite Eok. cbn [negb].
    assert (Eb : all_some (bound (map (assign_meas assign) exps) (if has then Some binds else None)) = Some (map fst jobs)).
    { assert (Eb' : bound (map (assign_meas assign) exps) (if has then Some binds else None) =
        map (fun mb => assign_meas assign (fst mb) (if has then Some (snd mb) else None)) (combine exps binds)).
      { clear -Hlen. clearbody has. destruct has; cbn [bound]; revert binds Hlen; induction exps as [|m e IH]; intros [|bd bs] Hl; try discriminate; cbn in *; auto; f_equal; apply (IH bs); congruence. }
      rewrite Eb'. apply all_some_map. clear -HJ. induction HJ as [|mb job l l' (c & E1 & E2 & E3 & E4) H IH]; cbn [map]; constructor; auto.
      unfold assign_meas. match goal with |- option_map _ ?x = _ => replace x with (Some c) by (symmetry; exact E1) end. cbn. now rewrite E3. }
    rewrite Eb.
    assert (Ev : all_some (map (validate_circuit true) (map fst jobs)) = Some (map snd jobs)).
    { apply all_some_map. clear -HJ. induction HJ as [|mb job l l' (c & E1 & E2 & E3 & E4) H IH]; cbn [map]; constructor; auto. }
    rewrite Ev. assert (Ec : combine (map fst jobs) (map snd jobs) = jobs) by (clear; induction jobs as [|[a b] j IH]; cbn; auto; now rewrite IH).
    rewrite Ec. apply (catch_always (fun _ => True)). eapply always_bind; [apply (always_traverse (fun _ => kind approx)); exact Hal|]. cbn. auto.
  - apply F2_combine in HJ. rewrite combine_length in HJ. lia.
  - intros i m bd Hm Hb. clear -HJ Hm Hb. clearbody has. revert exps binds i jobs HJ Hm Hb.
    induction exps as [|m0 e IH]; intros [|b0 bs] i jobs HJ Hm Hb; try (destruct i; discriminate). cbn [combine] in HJ. inversion HJ as [|? job ? jobs' (c & E1 & E2 & E3 & E4) H]; subst.
    destruct i as [|i]; cbn in Hm, Hb; [|now apply (IH bs i jobs')]. injection Hm as ->. injection Hb as ->. cbn [fst snd] in *.
    exists c, (snd job). split; [exact E1|]. split; [cbn; destruct job; cbn in *; now subst|now rewrite <- E3].
Qed.
End Run.
