(* EstimatorX.v -- property C43: a submission that meets the hypotheses, and what the
   Estimator returns outside them. *)
From Coq Require Import Reals Lra ZArith Bool List Lia Arith Permutation.
From Coquelicot Require Import Complex.
From Verif Require Import Num RNum Spec SpecP GateMat Backend BackSpec BackendP BackendQ BackendX Estimator PauliP EstimatorP EstimatorQ EstimatorR EstimatorS EstimatorT EstimatorM.
Import ListNotations.
Open Scope nat_scope.

Definition pI : bool * bool := (false, false).
Definition pX : bool * bool := (true, false).
Definition pZ : bool * bool := (false, true).
(* two qubits, qubit 0 first (Qiskit writes it last) *)
Definition Z0 : pauli := [pZ; pI].
Definition Z1 : pauli := [pI; pZ].
Definition X0 : pauli := [pX; pI].
Definition X1 : pauli := [pI; pX].
Definition XX : pauli := [pX; pX].
Definition II : pauli := [pI; pI].
Definition one (p : pauli) : pauli * C := (p, RtoC 1).

(* ---- outside the hypotheses ---- *)
Section Outside.
Context {Q K KO N V : Type} (K_dec : forall x y : K, {x = y} + {x <> y}) (KO_dec : forall x y : KO, {x = y} + {x <> y}).
Context (V_dec : forall x y : V, {x = y} + {x <> y}).
Context (key : Q -> K) (okey : obs -> KO) (params : Q -> list N) (assign : Q -> option (list (N * V)) -> option circ).
Context (group : list pauli -> list (list pauli)) (eps : R) (default_shots : option Z).
Notation est_run := (fun abelian approx => est_run K_dec KO_dec V_dec key okey params assign group abelian approx eps default_shots).
Notation init := (@estimator_init Q K KO N).
Ltac dec := repeat (first
  [match goal with |- context [K_dec ?a ?b] => destruct (K_dec a b) as [?E|?E]; try congruence end
  |match goal with |- context [KO_dec ?a ?b] => destruct (KO_dec a b) as [?E|?E]; try congruence end]; cbn [kget ecids ecircs eparams eobs eoids ecache fst snd app length]).

(* Z0 + Z1 and XX for the values v1, the identity for the values v2.  The list of
   Paulis is grouped as Qiskit groups it: XX, which conflicts with both of the others,
   comes first.  The identity adds v2 to the values of the basis XX, so there are two
   experiments in that basis and one in the basis ZZ; but the index is computed as if
   there were one and two *)
Definition wrong_sub (q : Q) (v1 v2 : V) : list (Q * obs * list V) :=
  [(q, [one Z0; one Z1], [v1]); (q, [one XX], [v1]); (q, [one II], [v2])].
Theorem wrong_basis q n v1 v2 c1 c2 z : params q = [n] -> v1 <> v2 ->
  okey [one Z0; one Z1] <> okey [one XX] -> okey [one Z0; one Z1] <> okey [one II] -> okey [one XX] <> okey [one II] ->
  group [Z0; Z1; XX; II] = [[XX; II]; [Z0; Z1]] ->
  assign q (Some [(n, v1)]) = Some c1 -> assign q (Some [(n, v2)]) = Some c2 ->
  nq c1 = 2 -> nq c2 = 2 -> pure 2 (data c1) -> pure 2 (data c2) -> (0 < z <= 1000000)%Z ->
  let t := snd (est_run true false init (wrong_sub q v1 v2) (Some (Some z))) in
  always (fun vs => length vs = 3) t /\
  Ex t (fun vs => fst (nth 0 vs (RtoC 0))) = fst (obs_expect 2 (finalv 2 (data c1) (basis 0)) [one X0; one X1]).
Proof.
  intros Hp Hv O1 O2 O3 Hg A1 A2 N1 N2 P1 P2 Hz.
  unfold Estimator.est_run, wrong_sub, estimator_init. cbn [map fst snd].
  match goal with |- context [reg_all ?f ?s [q; q; q]] => assert (E1 : reg_all f s [q; q; q] = ([0; 0; 0], Est [q] [params q] [(key q, 0)] [] [] [])) end.
  { cbn [reg_all]. unfold reg_circ. cbn [kget ecids ecircs eparams eobs eoids ecache fst snd app length]. dec. }
  rewrite E1. clear E1.
  match goal with |- context [reg_all ?f ?s ?l] => match l with [?a; ?b; ?c] => assert (E2 : reg_all f s l = ([0; 1; 2], Est [q] [params q] [(key q, 0)] [a; b; c] [(okey c, 2); (okey b, 1); (okey a, 0)] [])) end end.
  { cbn [reg_all]. unfold reg_obs. cbn [kget ecids ecircs eparams eobs eoids ecache fst snd app length]. dec. reflexivity. }
  rewrite E2. clear E2. cbn [ecache cache_get].
  set (s := Est _ _ _ _ _ []).
  assert (Eb : build group true s (circ_obs_map (combine [0; 0; 0] [0; 1; 2])) [] [] =
    ([(0, [(q, XX); (q, [pZ; pZ])])], [(0, [(0, [1; 1]); (1, [0]); (2, [0])])])).
  { unfold s. cbn [circ_obs_map combine fold_left fst snd aset agetl aget Nat.eqb app build flat_map paulis_of nth eobs map groups one]. rewrite Hg. reflexivity. }
  rewrite Eb. clear Eb. cbn [snd]. set (s3 := Est _ _ _ _ _ _).
  set (em := [(0, [(1, [[v1]]); (0, [[v1]; [v2]])])] : @expmap V).
  assert (Ep : pre_process V_dec s3 [(0, [(0, [1; 1]); (1, [0]); (2, [0])])] (combine (combine [0; 0; 0] [0; 1; 2]) [[v1]; [v1]; [v2]]) [] = Some em).
  { unfold s3. cbn. rewrite Hp. cbn. destruct (V_dec v1 v1); [|congruence]. cbn. destruct (V_dec v2 v1); [congruence|]. reflexivity. }
  unfold compute. rewrite Ep. clear Ep.
  assert (Ef : flatten s3 [(0, [(q, XX); (q, [pZ; pZ])])] em = ([(q, XX); (q, XX); (q, [pZ; pZ])], [[(n, v1)]; [(n, v1)]; [(n, v2)]])).
  { unfold s3. cbn. rewrite Hp. reflexivity. }
  rewrite Ef. clear Ef.
  assert (Epp : all_some (map (post_processing V_dec s3 [(0, [(0, [1; 1]); (1, [0]); (2, [0])])] em) (combine (combine [0; 0; 0] [0; 1; 2]) [[v1]; [v1]; [v2]])) =
    Some [[(Some 1, [one Z0; one Z1])]; [(Some 0, [one XX])]; [(None, [one II])]]).
  { unfold s3, em. cbn. destruct (V_dec v1 v1); [|congruence]. reflexivity. }
  rewrite Epp. clear Epp. cbn [eff_shots].
  assert (HF : Forall2 (fun m bd => exists c, assign (fst m) (if existsb nonempty [[(n, v1)]; [(n, v1)]; [(n, v2)]] then Some bd else None) = Some c /\ goodc c (snd m))
    [(q, XX); (q, XX); (q, [pZ; pZ])] [[(n, v1)]; [(n, v1)]; [(n, v2)]]).
  { assert (G : forall c b, nq c = 2 -> pure 2 (data c) -> length b = 2 -> support b <> [] -> goodc c b) by (intros c b E H1 H2 H3; unfold goodc; rewrite E; split; [exact H1|]; split; [exact H2|]; split; [lia|exact H3]).
    repeat constructor; cbn [fst snd existsb nonempty orb]; [exists c1|exists c1|exists c2]; (split; [assumption|apply G; auto; discriminate]). }
  destruct (run_ok assign false eps default_shots [(q, XX); (q, XX); (q, [pZ; pZ])] [[(n, v1)]; [(n, v1)]; [(n, v2)]] (Some (Some z)) (Some z) ltac:(exists z; unfold shotsz; auto) HF) as (jobs & Erun & Hal & _ & Ljobs & Hjobs).
  cbn [existsb nonempty orb] in Erun, Hjobs |- *.
  match goal with |- context [run_backend ?a ?b ?c ?d ?e] => match type of Erun with ?x = _ => change (run_backend a b c d e) with x end end. rewrite Erun. clear Erun.
  set (tr := traverse _ jobs).
  assert (Htr : always (Forall2 (fun _ => kind false) jobs) tr) by (apply always_traverse; exact Hal).
  destruct jobs as [|j0 [|j1 [|j2 [|]]]]; try discriminate Ljobs. clear Ljobs.
  set (out := fun ds => match all_some (map (post_value false (combine [XX; XX; [pZ; pZ]] ds)) [[(Some 1, [one Z0; one Z1])]; [(Some 0, [one XX])]; [(None, [one II])]]) with
    | Some (x :: vs) => Leaf (x :: vs) | _ => Raise end).
  assert (Hout : forall ds, Forall2 (fun _ => kind false) [j0; j1; j2] ds -> exists a b, out ds =
    Leaf [Cplus (Cplus (Cmult (RtoC (match nth_error ds 1 with Some d => expval_of XX X0 d | None => 0%R end)) (RtoC 1)) (Cplus (Cmult (RtoC (match nth_error ds 1 with Some d => expval_of XX X1 d | None => 0%R end)) (RtoC 1)) (RtoC 0))) (RtoC 0); a; b]).
  { intros ds H. inversion H as [|? d0 ? ds1 K0 H1]; subst. inversion H1 as [|? d1 ? ds2 K1 H2]; subst. inversion H2 as [|? d2 ? ds3 K2 H3]; subst. inversion H3; subst.
    destruct d0 as [r0|], d1 as [r1|], d2 as [r2|]; try contradiction.
    unfold out. cbn [map post_value combine all_some csumo fold_right entry_value fst snd nth_error expval option_map one]. eexists _, _. reflexivity. }
  cbn zeta. split.
  - eapply always_bind; [eapply always_bind; [exact Htr|]|].
    + intros ds Hds. cbn. instantiate (1 := fun j => exists ds, j = Done ds /\ Forall2 (fun _ => kind false) [j0; j1; j2] ds). cbn. eauto.
    + intros j (ds & -> & Hds). destruct (Hout ds Hds) as (a & b & E). change (always (fun vs => length vs = 3) (out ds)). rewrite E. reflexivity.
  - rewrite !Ex_bind. 
    assert (EQ : Ex tr (fun ds => Ex (out ds) (fun vs => fst (nth 0 vs (RtoC 0)))) = 
      Ex tr (fun ds => ((match nth_error ds 1 with Some d => expval_of XX X0 d | None => 0%R end) + (match nth_error ds 1 with Some d => expval_of XX X1 d | None => 0%R end))%R)).
    { apply (Ex_always _ _ _ _ Htr). intros ds Hds. destruct (Hout ds Hds) as (a & b & E). rewrite E. cbn [Ex nth fst Cplus Cmult RtoC]. cbn. ring. }
    etransitivity; [exact EQ|]. rewrite Ex_plus.
    destruct (Hjobs 1 _ _ eq_refl eq_refl) as (c & pr & A & Hj & Hval). cbn [fst snd] in *. rewrite A1 in A. injection A as <-.
    pose proof (fun h => Ex_traverse (fun _ => kind false) (fun cp => evaluate eps (fst cp) (snd cp) (Some z)) h [j0; j1; j2] 1 _ Hal Hj) as HT. fold tr in HT. rewrite !HT. cbn [fst snd].
    destruct (experiment false eps c1 XX (Some z)) as (pr' & Hv' & _ & _ & He); [now rewrite N1|now rewrite N1|lia|discriminate|exists z; split; [reflexivity|lia]|]. rewrite Hval in Hv'. injection Hv' as <-.
    assert (M0 : measured_by (nq c1) XX X0) by (rewrite N1; intros [|[|k]] Hk; cbn; auto; lia).
    assert (M1 : measured_by (nq c1) XX X1) by (rewrite N1; intros [|[|k]] Hk; cbn; auto; lia).
    pose proof (He _ M0 ltac:(discriminate)) as H0. pose proof (He _ M1 ltac:(discriminate)) as H1. rewrite N1 in H0, H1.
    cbn [obs_expect fold_right one snd fst]. rewrite <- H0, <- H1. cbn. ring.
Qed.

Ltac reg1 := match goal with |- context [reg_all ?f ?s ?l] => match type of f with _ -> Q -> _ => let E := fresh "E" in let r := fresh "r" in evar (r : (list nat * @estimator Q K KO N)%type);
  assert (E : reg_all f s l = r); [cbn [reg_all]; unfold reg_circ; cbn [kget ecids ecircs eparams eobs eoids ecache fst snd app length]; dec; unfold r; reflexivity|rewrite E; unfold r; clear E r] end end.
Ltac reg2 := match goal with |- context [reg_all ?f ?s ?l] => match type of f with _ -> obs -> _ => let E := fresh "E" in let r := fresh "r" in evar (r : (list nat * @estimator Q K KO N)%type);
  assert (E : reg_all f s l = r); [cbn [reg_all]; unfold reg_obs; cbn [kget ecids ecircs eparams eobs eoids ecache fst snd app length]; dec; unfold r; reflexivity|rewrite E; unfold r; clear E r] end end.

(* the value lists of the two observables differ: ValueError *)
Theorem values_raise q n v1 v2 sh : params q = [n] -> v1 <> v2 -> okey [one Z0; one Z1] <> okey [one XX] ->
  group [Z0; Z1; XX] = [[XX]; [Z0; Z1]] ->
  snd (est_run true false init [(q, [one Z0; one Z1], [v1]); (q, [one XX], [v2])] sh) = Raise.
Proof.
  intros Hp Hv O1 Hg. unfold Estimator.est_run, estimator_init. cbn [map fst snd]. reg1. reg2. cbn [ecache cache_get].
  set (s := Est _ _ _ _ _ []).
  assert (Eb : build group true s (circ_obs_map (combine [0; 0] [0; 1])) [] [] = ([(0, [(q, XX); (q, [pZ; pZ])])], [(0, [(0, [1; 1]); (1, [0])])])).
  { unfold s. cbn [circ_obs_map combine fold_left fst snd aset agetl aget Nat.eqb app build flat_map paulis_of nth eobs map groups one]. rewrite Hg. reflexivity. }
  rewrite Eb. clear Eb. cbn [snd]. set (s3 := Est _ _ _ _ _ _). unfold compute.
  set (em := [(0, [(1, [[v1]]); (0, [[v2]])])] : @expmap V).
  assert (Ep : pre_process V_dec s3 [(0, [(0, [1; 1]); (1, [0])])] (combine (combine [0; 0] [0; 1]) [[v1]; [v2]]) [] = Some em).
  { unfold s3. cbn. rewrite Hp. cbn. destruct (V_dec v1 v1); [|congruence]. reflexivity. }
  rewrite Ep. destruct (flatten _ _ _). 
  assert (Epp : all_some (map (post_processing V_dec s3 [(0, [(0, [1; 1]); (1, [0])])] em) (combine (combine [0; 0] [0; 1]) [[v1]; [v2]])) = None).
  { unfold s3, em. cbn. destruct (V_dec v1 v2); [congruence|]. reflexivity. }
  rewrite Epp. reflexivity.
Qed.
(* a circuit with only the identity that is not the last: KeyError *)
Theorem identity_first_raise q q' sh : params q = [] -> params q' = [] -> key q <> key q' -> okey [one II] <> okey [one Z0] -> group [II] = [[II]] ->
  snd (est_run true false init [(q, [one II], []); (q', [one Z0], [])] sh) = Raise.
Proof.
  intros Hp Hp' Hk Ho Hg. unfold Estimator.est_run, estimator_init. cbn [map fst snd]. reg1. reg2. cbn [ecache cache_get].
  set (s := Est _ _ _ _ _ []).
  assert (Eb : build group true s (circ_obs_map (combine [0; 1] [0; 1])) [] [] = ([], [(0, [(0, [0])])])).
  { unfold s. cbn [circ_obs_map combine fold_left fst snd aset agetl aget Nat.eqb app build flat_map paulis_of nth eobs map groups one]. rewrite Hg. reflexivity. }
  rewrite Eb. clear Eb. cbn [snd]. set (s3 := Est _ _ _ _ _ _). unfold compute.
  assert (Ep : pre_process V_dec s3 [(0, [(0, [0])])] (combine (combine [0; 1] [0; 1]) [[]; []]) [] = None) by (unfold s3; cbn; rewrite Hp, Hp'; reflexivity).
  rewrite Ep. reflexivity.
Qed.
(* without grouping, an identity term: its circuit has no measurement, and the job fails *)
Lemma classify_pure n l : pure n l -> forall i m, classify n i l true [] m = (true, [], m).
Proof.
  induction l as [|x l IH]; intros Hp i m; [reflexivity|]. cbn [classify]. unfold classify_step. destruct (Hp x (or_introl eq_refl)) as [Ec Ho].
  assert (Hq : forall qs, existsb (fun q => existsb (Nat.eqb q) []) qs = false) by (induction qs; auto).
  unfold has_cond. rewrite Ec. destruct (op x); try contradiction; rewrite Hq; cbn [orb is_reset is_kraus negb andb]; apply IH; intros y Hy; apply Hp; now right.
Qed.
Theorem no_grouping_raise q c sh : params q = [] -> assign q None = Some c -> nq c = 2 -> pure 2 (data c) ->
  snd (est_run false false init [(q, [one Z0; one II], [])] sh) = Raise.
Proof.
  intros Hp Ha Hn Hpu. unfold Estimator.est_run, estimator_init. cbn [map fst snd]. reg1. reg2. cbn [ecache cache_get].
  set (s := Est _ _ _ _ _ []).
  assert (Eb : build group false s (circ_obs_map (combine [0] [0])) [] [] = ([(0, [(q, Z0); (q, II)])], [(0, [(0, [0; 1])])])) by reflexivity.
  rewrite Eb. clear Eb. cbn [snd]. set (s3 := Est _ _ _ _ _ _). unfold compute.
  set (em := [(0, [(0, [[]]); (1, [[]])])] : @expmap V).
  assert (Ep : pre_process V_dec s3 [(0, [(0, [0; 1])])] (combine (combine [0] [0]) [[]]) [] = Some em) by (unfold s3; cbn; rewrite Hp; reflexivity).
  rewrite Ep. clear Ep.
  assert (Ef : flatten s3 [(0, [(q, Z0); (q, II)])] em = ([(q, Z0); (q, II)], [[]; []])) by (unfold s3; cbn; rewrite Hp; reflexivity).
  rewrite Ef. clear Ef.
  assert (Epp : all_some (map (post_processing V_dec s3 [(0, [(0, [0; 1])])] em) (combine (combine [0] [0]) [[]])) = Some [[(Some 0, [one Z0]); (None, [one II])]]) by reflexivity.
  rewrite Epp. clear Epp. cbn [existsb nonempty orb].
  assert (Er : forall o, run_backend eps false default_shots (Some (map (assign_meas assign) [(q, Z0); (q, II)])) (Ropts o None) = Leaf Failed).
  { intros o. unfold run_backend, run_internal. cbn [r_shots r_binds]. destruct (negb (shots_ok o)); [reflexivity|]. cbn [bound map]. unfold assign_meas. cbn [fst snd]. rewrite Ha. cbn [option_map all_some map].
    destruct (validate_circuit (negb false) (add_meas Z0 c)); [|reflexivity].
    assert (Ev : validate_circuit (negb false) (add_meas II c) = None).
    { unfold validate_circuit. destruct (max_qubits <? nq (add_meas II c)); [reflexivity|]. cbn [add_meas nq data II support meas_data filter seq length pnon].
      change (meas_data II 0 (support II)) with (@nil inst). rewrite app_nil_r, Hn, (classify_pure 2) by exact Hpu. reflexivity. }
    rewrite Ev. reflexivity. }
  match goal with |- context [run_backend ?a ?b ?c ?d ?e] => change (run_backend a b c d e) with (run_backend eps false default_shots (Some (map (assign_meas assign) [(q, Z0); (q, II)])) e) end.
  rewrite Er. reflexivity.
Qed.
(* approximation: Z on qubit 1 alone returns the expectation of Z on qubit 0 *)
Theorem approximation_wrong_qubit q c : params q = [] -> assign q None = Some c -> nq c = 2 -> pure 2 (data c) -> group [Z1] = [[Z1]] ->
  exists x, snd (est_run true true init [(q, [one Z1], [])] None) = Leaf [x] /\ x = pauli_expect 2 (finalv 2 (data c) (basis 0)) Z0.
Proof.
  intros Hp Ha Hn Hpu Hg. unfold Estimator.est_run, estimator_init. cbn [map fst snd]. reg1. reg2. cbn [ecache cache_get].
  set (s := Est _ _ _ _ _ []).
  assert (Eb : build group true s (circ_obs_map (combine [0] [0])) [] [] = ([(0, [(q, Z1)])], [(0, [(0, [0])])])).
  { unfold s. cbn [circ_obs_map combine fold_left fst snd aset agetl aget Nat.eqb app build flat_map paulis_of nth eobs map groups one]. rewrite Hg. reflexivity. }
  rewrite Eb. clear Eb. cbn [snd]. set (s3 := Est _ _ _ _ _ _). unfold compute.
  set (em := [(0, [(0, [[]])])] : @expmap V).
  assert (Ep : pre_process V_dec s3 [(0, [(0, [0])])] (combine (combine [0] [0]) [[]]) [] = Some em) by (unfold s3; cbn; rewrite Hp; reflexivity).
  rewrite Ep. clear Ep.
  assert (Ef : flatten s3 [(0, [(q, Z1)])] em = ([(q, Z1)], [[]])) by (unfold s3; cbn; rewrite Hp; reflexivity).
  rewrite Ef. clear Ef.
  assert (Epp : all_some (map (post_processing V_dec s3 [(0, [(0, [0])])] em) (combine (combine [0] [0]) [[]])) = Some [[(Some 0, [one Z1])]]) by reflexivity.
  rewrite Epp. clear Epp. cbn [existsb nonempty orb eff_shots].
  destruct (experiment true eps c Z1 None) as (pr & Hv & _ & He & _); [now rewrite Hn|now rewrite Hn|lia|discriminate|reflexivity|].
  destruct (experiment true eps c Z0 None) as (pr0 & Hv0 & _ & He0 & Hx); [now rewrite Hn|now rewrite Hn|lia|discriminate|reflexivity|].
  specialize (He eq_refl). specialize (He0 eq_refl). specialize (Hx Z0). rewrite He0 in Hx. cbn [Ex expval_of] in Hx. rewrite Hn in *.
  assert (Er : run_backend eps false default_shots (Some (map (assign_meas assign) [(q, Z1)])) (Ropts (Some None) None) =
     Leaf (Done [Probs (probs 2 (phase (gphase c) (finalv 2 (data c ++ meas_data Z1 0 (support Z1)) (basis 0))))])).
  { unfold run_backend, run_internal. cbn [r_shots r_binds shots_ok negb bound map]. unfold assign_meas. cbn [fst snd]. rewrite Ha. cbn [option_map all_some map negb]. rewrite Hv. cbn [combine traverse fst snd]. rewrite He. reflexivity. }
  match goal with |- context [run_backend ?a ?b ?c ?d ?e] => change (run_backend a b c d e) with (run_backend eps false default_shots (Some (map (assign_meas assign) [(q, Z1)])) (@Ropts (list (N * V)) (Some None) None)) end.
  rewrite Er. cbn [bind map combine snd all_some post_value csumo fold_right entry_value fst nth_error expval option_map one].
  eexists. split; [reflexivity|]. rewrite <- Hx; [|intros [|[|k]] Hk; cbn; auto; lia|intros _; reflexivity].
  change (meas_data Z0 0 (support Z0)) with [I (BMeasure 0 0) None]. change (meas_data Z1 0 (support Z1)) with [I (BMeasure 1 0) None].
  rewrite !finalv_app. cbn [finalv op]. change (expval_probs Z1 (support Z1)) with (expval_probs Z0 (support Z0)). rewrite Cmult_1_r, !Cplus_0_r. reflexivity.
Qed.
End Outside.

(* ---- a grouping, circuits and submissions that meet the hypotheses ---- *)
(* first fit: the last Paulis first, identities with the first group *)
Definition qwcb (p p' : pauli) : bool :=
  forallb (fun q => let a := at_q p q in let b := at_q p' q in
     (if pair_dec a (false, false) then true else false) || (if pair_dec b (false, false) then true else false) || (if pair_dec a b then true else false)) (seq 0 (length p + length p')).
Fixpoint first_fit (gs : list (list pauli)) (p : pauli) : list (list pauli) :=
  match gs with [] => [[p]] | g :: r => if forallb (qwcb p) g then (p :: g) :: r else g :: first_fit r p end.
Definition grp (l : list pauli) : list (list pauli) :=
  match fold_left first_fit (rev (filter (fun p => negb (is_id p)) (uniq l))) [] with
  | [] => map (fun p => [p]) (filter is_id (uniq l))
  | g :: r => (g ++ filter is_id (uniq l)) :: r
  end.
Lemma qwcb_spec p p' : qwcb p p' = true -> qwc p p'.
Proof.
  unfold qwcb. rewrite forallb_forall. intros H q. destruct (Nat.lt_ge_cases q (length p + length p')) as [h|h].
  - specialize (H q ltac:(apply in_seq; lia)). cbn in H. destruct (pair_dec (at_q p q) (false, false)); [auto|]. destruct (pair_dec (at_q p' q) (false, false)); [auto|].
    destruct (pair_dec (at_q p q) (at_q p' q)); [auto|discriminate].
  - left. unfold at_q. apply nth_overflow. lia.
Qed.
Lemma qwc_sym p p' : qwc p p' -> qwc p' p.
Proof. intros H q. destruct (H q) as [h|[h|h]]; auto. Qed.
Lemma qwc_refl p : qwc p p.
Proof. intros q. auto. Qed.
Lemma qwc_id p p' : is_id p = true -> qwc p p'.
Proof. intros H q. left. rewrite is_id_spec in H. apply H. Qed.
Definition fits (gs : list (list pauli)) : Prop := ~ In [] gs /\ (forall g p p', In g gs -> In p g -> In p' g -> qwc p p').
Lemma first_fit_perm gs p : Permutation (concat (first_fit gs p)) (p :: concat gs).
Proof.
  induction gs as [|g r IH]; cbn [first_fit concat]; [reflexivity|]. destruct (forallb (qwcb p) g); cbn [concat]; [reflexivity|].
  rewrite IH. symmetry. apply Permutation_middle.
Qed.
Lemma first_fit_ok gs p : fits gs -> fits (first_fit gs p).
Proof.
  induction gs as [|g r IH]; intros [H1 H2]; cbn [first_fit].
  - split; [intros [h|[]]; discriminate|]. intros g q q' [<-|[]] [<-|[]] [<-|[]]. apply qwc_refl.
  - destruct (forallb (qwcb p) g) eqn:E.
    + rewrite forallb_forall in E. split; [intros [h|h]; [discriminate|apply H1; now right]|].
      intros g' q q' [<-|Hg] Hq Hq'; [|apply (H2 g'); auto; now right].
      destruct Hq as [<-|Hq], Hq' as [<-|Hq']; [apply qwc_refl|now apply qwcb_spec, E|now apply qwc_sym, qwcb_spec, E|apply (H2 g); auto; now left].
    + destruct IH as [I1 I2]; [split; [intros h; apply H1; now right|intros g' q q' Hg; apply H2; now right]|].
      split; [intros [h|h]; [apply H1; now left|now apply I1]|]. intros g' q q' [<-|Hg]; [apply H2; now left|now apply I2].
Qed.
Lemma fold_fit l : forall gs, fits gs -> fits (fold_left first_fit l gs) /\ Permutation (concat (fold_left first_fit l gs)) (rev l ++ concat gs).
Proof.
  induction l as [|p l IH]; intros gs H; cbn [fold_left rev app]; [split; auto|]. destruct (IH _ (first_fit_ok gs p H)) as [H1 H2]. split; [exact H1|].
  rewrite H2, first_fit_perm, <- app_assoc. reflexivity.
Qed.
Lemma filter_split {A} (f : A -> bool) l : Permutation (filter (fun x => negb (f x)) l ++ filter f l) l.
Proof.
  induction l as [|x l IH]; [reflexivity|]. cbn. destruct (f x); cbn [negb].
  - rewrite <- Permutation_middle. now constructor.
  - cbn. now constructor.
Qed.
Lemma grp_ok : group_ok grp.
Proof.
  intros l. set (ids := filter is_id (uniq l)). set (non := filter (fun p => negb (is_id p)) (uniq l)).
  assert (Hids : forall p, In p ids -> is_id p = true) by (intros p Hp; apply filter_In in Hp; apply Hp).
  destruct (fold_fit (rev non) []) as [[F1 F2] HP]; [split; [intros []|intros g p p' []]|]. rewrite rev_involutive in HP. cbn [concat] in HP. rewrite app_nil_r in HP.
  assert (Hu : NoDup (uniq l)) by (rewrite uniq_firsts; apply firsts_NoDup).
  assert (Hin : forall p, In p (uniq l) <-> In p l) by (intros p; rewrite uniq_firsts; apply firsts_In).
  unfold grp. fold ids non. destruct (fold_left first_fit (rev non) []) as [|g r] eqn:E.
  - cbn [concat] in HP. apply Permutation_nil in HP. assert (Ep : Permutation ids (uniq l)).
    { pose proof (filter_split is_id (uniq l)) as H. fold ids non in H. rewrite HP in H. exact H. }
    split.
    + split; [rewrite concat_single; eapply Permutation_NoDup; [symmetry; exact Ep|exact Hu]|]. split.
      * intros p. rewrite concat_single, <- Hin. split; apply Permutation_in; [exact Ep|now symmetry].
      * split; [intros h; apply in_map_iff in h as (p & h & _); discriminate|]. intros g p p' Hg Hp Hp'. apply in_map_iff in Hg as (x & <- & _). destruct Hp as [<-|[]], Hp' as [<-|[]]. apply qwc_refl.
    + intros (p & Hp & Hi) g Hg. exfalso. apply Hin in Hp. apply (Permutation_in _ (Permutation_sym Ep)) in Hp. apply Hids in Hp. congruence.
  - cbn [concat] in HP.
    assert (Ep : Permutation (concat ((g ++ ids) :: r)) (uniq l)).
    { cbn [concat]. rewrite <- app_assoc, (Permutation_app_comm ids), app_assoc, HP. apply (filter_split is_id (uniq l)). }
    assert (Hnon : forall p, In p g -> is_id p = false).
    { intros p Hp. assert (In p non) as h by (apply (Permutation_in _ HP), in_or_app; now left). apply filter_In in h as [_ h]. now apply negb_true_iff. }
    split.
    + split; [eapply Permutation_NoDup; [symmetry; exact Ep|exact Hu]|]. split; [intros p; rewrite <- Hin; split; apply Permutation_in; [exact Ep|now symmetry]|]. split.
      * intros [h|h]; [|apply F1; now right]. apply app_eq_nil in h as [h _]. apply F1. now left.
      * intros g' p p' [<-|Hg] Hp Hp'; [|apply (F2 g'); auto; now right].
        apply in_app_or in Hp as [Hp|Hp]; [|now apply qwc_id, Hids]. apply in_app_or in Hp' as [Hp'|Hp']; [|now apply qwc_sym, qwc_id, Hids]. apply (F2 g); auto. now left.
    + intros _ g' [<-|Hg].
      * destruct g as [|p g]; [exfalso; apply F1; now left|]. exists p. split; [now left|]. apply Hnon. now left.
      * destruct g' as [|p g']; [exfalso; apply F1; now right|]. exists p. split; [now left|].
        assert (In p non) as h. { apply (Permutation_in _ HP), in_or_app. right. apply in_concat. exists (p :: g'). split; auto. now left. }
        apply filter_In in h as [_ h]. now apply negb_true_iff.
Qed.

(* circuits: c0 without gates, c1 with X on qubit 1; c0 and c1 with the parameter *)
Definition c0 : circ := Circ 2 0 [] 0.
Definition c1 : circ := Circ 2 0 [I (BGate (G1 X [1])) None] 0.
Inductive ex_circ := Fixed0 | Fixed1 | Param.
Definition ex_dec (x y : ex_circ) : {x = y} + {x <> y}.
Proof. decide equality. Defined.
Definition ex_params (q : ex_circ) : list unit := match q with Param => [tt] | _ => [] end.
Definition ex_assign (q : ex_circ) (b : option (list (unit * bool))) : option circ :=
  match q, b with
  | Fixed0, _ => Some c0 | Fixed1, _ => Some c1
  | Param, Some [(_, v)] => Some (if v then c1 else c0)
  | Param, _ => None
  end.
Definition C_dec (x y : C) : {x = y} + {x <> y}.
Proof. decide equality; apply Req_EM_T. Defined.
Definition term_dec (x y : pauli * C) : {x = y} + {x <> y}.
Proof. decide equality; [apply C_dec|apply pauli_dec]. Defined.
Definition obs_dec : forall x y : obs, {x = y} + {x <> y} := list_eq_dec term_dec.
Definition exrun (abelian approx : bool) (eps : R) := est_run ex_dec obs_dec Bool.bool_dec (fun q => q) (fun o => o) ex_params ex_assign grp abelian approx eps None.
Definition exinit : @estimator ex_circ ex_circ obs unit := estimator_init.
Lemma ex_keys : keys_ok (fun q : ex_circ => q) (fun o => o) ex_params ex_assign (fun _ => 2).
Proof. split; [intros q q' ->; auto|auto]. Qed.
Lemma pure_c0 : pure 2 (data c0).
Proof. intros x []. Qed.
Lemma pure_c1 : pure 2 (data c1).
Proof.
  intros x [<-|[]]. split; [reflexivity|]. cbn [op gate_mat last removelast ctl_of map]. apply unitary_X. lia.
Qed.
Lemma ex_meant q (o : obs) v : length v = length (ex_params q) -> o <> [] -> (forall t, In t o -> length (fst t) = 2) -> meant ex_params ex_assign (fun _ => 2) q o v.
Proof.
  intros Hl Ho Ht. split; [exact Hl|]. split; [exact Ho|]. destruct q; cbn in Hl.
  - exists c0. split; [split; reflexivity|]. split; [reflexivity|]. split; [cbn; lia|]. split; [exact pure_c0|exact Ht].
  - exists c1. split; [split; reflexivity|]. split; [reflexivity|]. split; [cbn; lia|]. split; [exact pure_c1|exact Ht].
  - destruct v as [|b [|]]; try discriminate. exists (if b then c1 else c0). split; [split; [reflexivity|discriminate]|].
    destruct b; (split; [reflexivity|]; split; [cbn; lia|]; split; [first [exact pure_c0|exact pure_c1]|exact Ht]).
Qed.
(* two observables, one with an identity term, for each of two values of the parameter *)
Definition ex_sub : list (ex_circ * obs * list bool) :=
  [(Param, [one XX; one II], [false]); (Param, [one Z0; one Z1], [false]); (Param, [one XX; one II], [true]); (Param, [one Z0; one Z1], [true])].
Example expectation_example eps :
  group_ok grp /\ keys_ok (fun q : ex_circ => q) (fun o => o) ex_params ex_assign (fun _ => 2) /\
  (forall q o v, In (q, o, v) ex_sub -> meant ex_params ex_assign (fun _ => 2) q o v) /\
  product (fun q : ex_circ => q) ex_sub /\ has_term (fun q : ex_circ => q) ex_sub /\
  expectations ex_params ex_assign ex_sub (snd (exrun true false eps exinit ex_sub None)).
Proof.
  assert (M : forall q o v, In (q, o, v) ex_sub -> meant ex_params ex_assign (fun _ => 2) q o v).
  { intros q o v H. cbn in H. destruct H as [E|[E|[E|[E|[]]]]]; injection E as <- <- <-; apply ex_meant; auto; try discriminate; intros t [<-|[<-|[]]]; reflexivity. }
  assert (P1 : product (fun q : ex_circ => q) ex_sub).
  { intros q o v q' o' v' H H' _. cbn in H, H'. exists Param. destruct H as [E|[E|[E|[E|[]]]]]; injection E as <- <- <-; (split; [|reflexivity]);
      destruct H' as [E|[E|[E|[E|[]]]]]; injection E as <- <- <-; cbn; tauto. }
  assert (P2 : has_term (fun q : ex_circ => q) ex_sub).
  { intros q o v H. exists Param, [one XX; one II], [false], (one XX). cbn in H. destruct H as [E|[E|[E|[E|[]]]]]; injection E as <- <- <-; cbn; tauto. }
  split; [exact grp_ok|]. split; [exact ex_keys|]. split; [exact M|]. split; [exact P1|]. split; [exact P2|].
  apply (C43_expectation_partial ex_dec obs_dec Bool.bool_dec (fun q => q) (fun o => o) ex_params ex_assign grp true eps None (fun _ => 2) exinit ex_sub None 1024%Z); auto.
  - exact ex_keys.
  - exact grp_ok.
  - constructor.
  - discriminate.
  - right. auto.
  - lia.
Qed.

(* ---- C43 fails in general ---- *)
Lemma basis0_expect p : pauli_expect 2 (basis 0) p = pauli_mat 2 p 0 0.
Proof.
  unfold pauli_expect. cbn [csum Nat.pow Nat.mul Nat.add]. unfold basis. cbn [Nat.eqb]. 
  unfold Cconj, RtoC, Cmult, Cplus. cbn [fst snd]. destruct (pauli_mat 2 p 0 0). f_equal; cbn; ring.
Qed.
(* a value is silently wrong: 0 for a true expectation of 2 *)
Theorem C43_identity_refuted eps z : (0 < z <= 1000000)%Z ->
  (forall q o v, In (q, o, v) (wrong_sub Param false true) -> meant ex_params ex_assign (fun _ => 2) q o v) /\
  has_term (fun q : ex_circ => q) (wrong_sub Param false true) /\
  bound_to ex_params ex_assign Param [false] c0 /\
  let t := snd (exrun true false eps exinit (wrong_sub Param false true) (Some (Some z))) in
  always (fun vs => length vs = 3) t /\
  Ex t (fun vs => fst (nth 0 vs (RtoC 0))) = 0%R /\ obs_expect 2 (finalv 2 (data c0) (basis 0)) [one Z0; one Z1] = RtoC 2.
Proof.
  intros Hz. split; [|split; [|split]].
  - intros q o v H. cbn in H. destruct H as [E|[E|[E|[]]]]; injection E as <- <- <-; apply ex_meant; auto; try discriminate; intros t Ht; cbn in Ht; intuition (subst; reflexivity).
  - intros q o v H. exists Param, [one XX], [false], (one XX). cbn in H. destruct H as [E|[E|[E|[]]]]; injection E as <- <- <-; cbn; tauto.
  - split; [reflexivity|discriminate].
  - assert (O1 : [one Z0; one Z1] <> [one XX]) by discriminate.
    assert (O2 : [one Z0; one Z1] <> [one II]) by discriminate.
    assert (O3 : [one XX] <> [one II]) by (intros h; injection h; discriminate).
    assert (Hg : grp [Z0; Z1; XX; II] = [[XX; II]; [Z0; Z1]]) by reflexivity.
    destruct (wrong_basis ex_dec obs_dec Bool.bool_dec (fun q => q) (fun o => o) ex_params ex_assign grp eps None Param tt false true c0 c1 z
      eq_refl ltac:(discriminate) O1 O2 O3 Hg eq_refl eq_refl eq_refl eq_refl pure_c0 pure_c1 Hz) as [H1 H2].
    split; [exact H1|]. split.
    + etransitivity; [exact H2|]. cbn [data c0 finalv obs_expect fold_right one fst snd]. rewrite !basis0_expect. cbn. ring.
    + cbn [data c0 finalv obs_expect fold_right one fst snd]. rewrite !basis0_expect. unfold RtoC, Cmult, Cplus. cbn. f_equal; ring.
Qed.
Theorem C43_values_raise eps sh : snd (exrun true false eps exinit [(Param, [one Z0; one Z1], [false]); (Param, [one XX], [true])] sh) = Raise.
Proof.
  assert (O1 : [one Z0; one Z1] <> [one XX]) by discriminate. assert (Hg : grp [Z0; Z1; XX] = [[XX]; [Z0; Z1]]) by reflexivity.
  exact (values_raise ex_dec obs_dec Bool.bool_dec (fun q => q) (fun o => o) ex_params ex_assign grp eps None Param tt false true sh eq_refl ltac:(discriminate) O1 Hg).
Qed.
Theorem C43_identity_first_raise eps sh : snd (exrun true false eps exinit [(Fixed0, [one II], []); (Fixed1, [one Z0], [])] sh) = Raise.
Proof.
  assert (O1 : [one II] <> [one Z0]) by (intros h; injection h; discriminate). assert (Hg : grp [II] = [[II]]) by reflexivity.
  exact (identity_first_raise ex_dec obs_dec Bool.bool_dec (fun q => q) (fun o => o) ex_params ex_assign grp eps None Fixed0 Fixed1 sh eq_refl eq_refl ltac:(discriminate) O1 Hg).
Qed.
Theorem C43_no_grouping_identity_raise eps sh : snd (exrun false false eps exinit [(Fixed0, [one Z0; one II], [])] sh) = Raise.
Proof.
  exact (no_grouping_raise ex_dec obs_dec Bool.bool_dec (fun q => q) (fun o => o) ex_params ex_assign grp eps None Fixed0 c0 sh eq_refl eq_refl eq_refl pure_c0).
Qed.
(* approximation=True: Z on qubit 1 of X|0>, true value -1, returned value 1 *)
Theorem C43_approximation_refuted eps : bound_to ex_params ex_assign Fixed1 [] c1 /\
  snd (exrun true true eps exinit [(Fixed1, [one Z1], [])] None) = Leaf [RtoC 1] /\ obs_expect 2 (finalv 2 (data c1) (basis 0)) [one Z1] = RtoC (-1).
Proof.
  split; [split; reflexivity|].
  assert (E : forall p, pauli_expect 2 (finalv 2 (data c1) (basis 0)) p = pauli_mat 2 p 2 2).
  { intros p. assert (Hv : veq 2 (finalv 2 (data c1) (basis 0)) (basis 2)).
    { cbn [data c1 finalv op gate_mat last removelast ctl_of map]. intros i Hi. rewrite gate1_action by (auto; lia). cbn [ctl_ok forallb].
      cbn in Hi. destruct i as [|[|[|[|i]]]]; try lia; cbn; unfold RtoC, Cmult, Cplus; cbn; f_equal; ring. }
    assert (Hb : pauli_expect 2 (basis 2) p = pauli_mat 2 p 2 2).
    { unfold pauli_expect. cbn [csum Nat.pow Nat.mul Nat.add]. unfold basis. cbn [Nat.eqb].
      unfold Cconj, RtoC, Cmult, Cplus. cbn [fst snd]. destruct (pauli_mat 2 p 2 2). f_equal; cbn; ring. }
    rewrite <- Hb, !expect_inner. apply inner_ext; [exact Hv|]. intros i Hi. apply mv_ext; auto. apply meq_refl. }
  assert (Hg : grp [Z1] = [[Z1]]) by reflexivity.
  destruct (approximation_wrong_qubit ex_dec obs_dec Bool.bool_dec (fun q => q) (fun o => o) ex_params ex_assign grp eps None Fixed1 c1 eq_refl eq_refl eq_refl pure_c1 Hg) as (x & Hx & Ex_).
  assert (P0 : pauli_mat 2 Z0 2 2 = RtoC 1).
  { unfold pauli_mat. cbn. unfold RtoC, Cmult, Copp. cbn. f_equal; ring. }
  assert (P1 : pauli_mat 2 Z1 2 2 = RtoC (-1)).
  { unfold pauli_mat. cbn. unfold RtoC, Cmult, Copp. cbn. f_equal; ring. }
  split.
  - etransitivity; [exact Hx|]. rewrite Ex_, E, P0. reflexivity.
  - cbn [obs_expect fold_right one fst snd]. rewrite E, P1. unfold RtoC, Cmult, Cplus. cbn. f_equal; ring.
Qed.
