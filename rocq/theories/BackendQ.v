(* BackendQ.v -- properties C38 (strings), C39 (run), C40 (exact distributions),
   C41 (counts), C44 (statevector backend), and the refutations of the general
   forms of C36, C37, C39, C40, C44. *)
From Coq Require Import Reals Lra Psatz ZArith Bool List Lia Arith FunctionalExtensionality.
From Coquelicot Require Import Complex.
From Verif Require Import Num State DD Gates GC Measure Api RNum Wf Sums Err Inv Wp Spec SpecP LargeP ApplyP ApiP Obs Props1 Props2
  Backend BackSpec BackendP.
Import ListNotations.
Open Scope nat_scope.

(* ---- running with given draws ---- *)
Lemma run_bind {A B} (t : tree A) (f : A -> tree B) : forall ths, run (bind t f) ths =
  match run t ths with None => None | Some (None, r) => Some (None, r) | Some (Some a, r) => run (f a) r end.
Proof. induction t as [a| |p k IH]; intros ths; cbn; auto. destruct ths; auto. Qed.
Lemma run_bind_some {A B} (t : tree A) (f : A -> tree B) ths b rest : run (bind t f) ths = Some (Some b, rest) ->
  exists a r, run t ths = Some (Some a, r) /\ run (f a) r = Some (Some b, rest).
Proof. rewrite run_bind. destruct (run t ths) as [[[a|] r]|]; try discriminate. eauto. Qed.
Lemma run_replicate {A} (t : tree A) m : forall ths l rest, run (replicate m t) ths = Some (Some l, rest) ->
  length l = m /\ forall a, In a l -> exists th r, run t th = Some (Some a, r).
Proof.
  induction m as [|m IH]; intros ths l rest H; cbn [replicate] in H.
  - cbn in H. injection H as <- <-. split; [reflexivity|intros a []].
  - apply run_bind_some in H as (a & r & Ha & H). apply run_bind_some in H as (l' & r' & Hl & H). cbn in H. injection H as <- <-.
    destruct (IH _ _ _ Hl) as [H1 H2]. split; [cbn; now rewrite H1|]. intros x [<-|Hx]; eauto.
Qed.
Lemma run_traverse {A B} (f : A -> tree B) l : forall ths bs rest, run (traverse f l) ths = Some (Some bs, rest) ->
  Forall2 (fun a b => exists th r, run (f a) th = Some (Some b, r)) l bs.
Proof.
  induction l as [|a l IH]; intros ths bs rest H; cbn [traverse] in H.
  - cbn in H. injection H as <- <-. constructor.
  - apply run_bind_some in H as (b & r & Ha & H). apply run_bind_some in H as (l' & r' & Hl & H). cbn in H. injection H as <- <-.
    constructor; eauto.
Qed.

(* ---- C38 ---- *)
(* the qubit last measured into clbit k *)
Definition last_into (l : list inst) (k : nat) : option nat :=
  fold_left (fun acc x => match op x with BMeasure q c => if c =? k then Some q else acc | _ => acc end) l None.
Lemma mdict_get l : forall m k, dget (mdict l m) k =
  fold_left (fun acc x => match op x with BMeasure q c => if c =? k then Some q else acc | _ => acc end) l (dget m k).
Proof.
  induction l as [|x l IH]; intros m k; cbn [mdict fold_left]; auto. destruct (op x) as [g|q c|q|qs|qs|qs|qs]; auto.
  rewrite IH. f_equal. rewrite dget_dset, (Nat.eqb_sym k c). reflexivity.
Qed.
Lemma mdict_nodup l : forall m, NoDup (map fst m) -> NoDup (map fst (mdict l m)).
Proof. induction l as [|x l IH]; intros m H; cbn; auto. destruct (op x); auto. apply IH. now apply dset_nodup. Qed.
(* character for clbit k of a printed string *)
Definition char_of (s : list bool) (k : nat) : bool := nth (length s - 1 - k) s false.
Lemma char_rev l k : k < length l -> char_of (rev l) k = nth k l false.
Proof.
  intros H. unfold char_of. rewrite rev_length. rewrite rev_nth by lia. f_equal. lia.
Qed.
(* stable circuits: for every draw, the string comes from one measurement of all
   qubits, with outcome b: the character for clbit k is the bit of the qubit last
   measured into k, and 0 if there is none *)
Theorem C38_sampled c p req w ths s rest : validate_circuit req c = Some p -> stable_final_state p = true ->
  insts_ok (nq c) (nc c) (data c) -> run (shot_stable c p w) ths = Some (Some s, rest) ->
  exists b, run (measall (nq c) w 0) ths = Some (Some b, rest) /\ draws (nq c) w ths b /\ length s = nc c /\
    forall k, k < nc c -> char_of s k = match last_into (data c) k with Some q => Nat.testbit b q | None => false end.
Proof.
  intros Hv Hst Hok Hr. unfold validate_circuit in Hv. destruct (max_qubits <? nq c); [discriminate|].
  destruct (classify (nq c) 0 (data c) true [] []) as [[st me] m] eqn:E. destruct (_ && _); [discriminate|].
  injection Hv as <-. cbn in Hst. subst st. apply classify_true in E as [Hs ->].
  unfold shot_stable in Hr. apply run_bind_some in Hr as (b & r & Hb & Hr). cbn [run] in Hr. injection Hr as <- <-.
  exists b. split; [exact Hb|]. split; [exact (Logic.proj1 (measall_draws _ _ _ _ _ Hb))|].
  cbn [clbit_final_values]. rewrite assemble_fillin by (eapply mdict_qubits; eauto; intros k q []).
  split; [now rewrite rev_length, fillin_len, repeat_length|].
  intros k Hk. rewrite char_rev by now rewrite fillin_len, repeat_length.
  rewrite fillin_nth by (try rewrite repeat_length; auto; apply mdict_nodup; constructor). rewrite mdict_get. cbn [dget].
  fold (last_into (data c) k). destruct (last_into (data c) k); auto. apply nth_repeat.
Qed.
(* re-simulated circuits: the character for clbit k is the outcome of the last
   measurement made into k in this shot *)
Definition last_outcome (log : list (nat * bool)) (k : nat) : bool :=
  fold_left (fun acc e => if fst e =? k then snd e else acc) log false.
Lemma exec_log eps n l : forall v cl log ths v' cl' log' rest,
  run (exec eps n false l v cl log) ths = Some (Some (v', cl', log'), rest) ->
  (forall x q c, In x l -> op x = BMeasure q c -> c < length cl) ->
  (forall k, k < length cl -> nth k cl false = last_outcome log k) ->
  length cl' = length cl /\ forall k, k < length cl -> nth k cl' false = last_outcome log' k.
Proof.
  induction l as [|x l IH]; intros v cl log ths v' cl' log' rest Hr Hc Hi; cbn [exec] in Hr.
  - cbn in Hr. injection Hr as <- <- <- <-. auto.
  - assert (Hc' : forall y q c, In y l -> op y = BMeasure q c -> c < length cl) by (intros y q c Hy; apply Hc; right; exact Hy).
    destruct (skip cl (cnd x)); [eapply IH; eauto|].
    destruct (op x) as [g|q c|q|qs|qs|qs|qs] eqn:E; try discriminate; try (eapply IH; eauto; fail).
    + unfold meas1 in Hr. destruct (Rlt_dec eps _) in Hr; [discriminate|]. cbn [run] in Hr. destruct ths as [|th ths]; [discriminate|].
      set (b := if Rlt_dec th _ then false else true) in Hr.
      eapply IH in Hr; [| |].
      * rewrite upd_len in Hr. exact Hr.
      * rewrite upd_len. exact Hc'.
      * rewrite upd_len. intros k Hk. rewrite upd_nth. unfold last_outcome. rewrite fold_left_app. cbn [fold_left fst snd].
        fold (last_outcome log k). rewrite (Nat.eqb_sym c k). specialize (Hc x q c (or_introl eq_refl) E).
        replace (c <? length cl) with true by (symmetry; apply Nat.ltb_lt; lia). rewrite andb_true_r.
        destruct (k =? c); auto.
    + unfold meas1 in Hr. destruct (Rlt_dec eps _) in Hr; [discriminate|]. cbn [run] in Hr. destruct ths as [|th ths]; [discriminate|].
      eapply IH in Hr; eauto.
Qed.
Theorem C38_resimulated eps c ths s rest : insts_ok (nq c) (nc c) (data c) ->
  run (shot_unstable eps c) ths = Some (Some s, rest) ->
  exists v cl log, run (exec eps (nq c) false (data c) (basis 0) (repeat false (nc c)) []) ths = Some (Some (v, cl, log), rest) /\
    length s = nc c /\ forall k, k < nc c -> char_of s k = last_outcome log k.
Proof.
  intros Hok Hr. unfold shot_unstable in Hr. apply run_bind_some in Hr as ([[v cl] log] & r & Hx & Hr). cbn [run] in Hr. injection Hr as <- <-.
  exists v, cl, log. split; [exact Hx|].
  destruct (exec_log _ _ _ _ _ _ _ _ _ _ _ Hx) as [Hl Hn].
  - intros x q c0 Hi E. rewrite repeat_length. destruct (Hok x Hi) as [Hs _]. unfold supported in Hs. rewrite E in Hs. tauto.
  - intros k Hk. rewrite repeat_length in Hk. rewrite nth_repeat. reflexivity.
  - rewrite repeat_length in *. split; [now rewrite rev_length|]. intros k Hk. rewrite char_rev by lia. now apply Hn.
Qed.

(* ---- C41 ---- *)
Definition total_count (d : list (list bool * nat)) : nat := fold_right (fun x acc => snd x + acc) 0 d.
Definition lookup (d : list (list bool * nat)) (s : list bool) : nat :=
  match find (fun x => if str_dec (fst x) s then true else false) d with Some x => snd x | None => 0 end.
Lemma counter_add_total d s : total_count (counter_add d s) = S (total_count d).
Proof.
  induction d as [|[s' k] d IH]; cbn; auto. destruct (list_eq_dec Bool.bool_dec s s'); cbn; [lia|].
  unfold total_count in IH. rewrite IH. lia.
Qed.
Lemma counter_add_lookup d s x : lookup (counter_add d s) x = (if str_dec s x then 1 else 0) + lookup d x.
Proof.
  unfold lookup. induction d as [|[s' k] d IH]; cbn [counter_add find fst].
  - destruct (str_dec s x); reflexivity.
  - destruct (list_eq_dec Bool.bool_dec s s') as [->|Hne]; cbn [find fst].
    + destruct (str_dec s' x); reflexivity.
    + destruct (str_dec s' x) as [->|]; [destruct (str_dec s x); [contradiction|reflexivity]|exact IH].
Qed.
Lemma counter_add_keys d s x : In x (map fst (counter_add d s)) <-> x = s \/ In x (map fst d).
Proof.
  induction d as [|[s' k] d IH]; cbn; [intuition|]. destruct (list_eq_dec Bool.bool_dec s s') as [->|Hne]; cbn; [intuition|]. rewrite IH. intuition.
Qed.
Lemma counter_add_nodup d s : NoDup (map fst d) -> NoDup (map fst (counter_add d s)).
Proof.
  induction d as [|[s' k] d IH]; cbn; intros H; [repeat constructor; auto|]. inversion H as [|? ? Hn Hd]; subst.
  destruct (list_eq_dec Bool.bool_dec s s') as [->|Hne]; cbn; [now constructor|]. constructor; auto. rewrite counter_add_keys. intros [->|Hi]; [auto|contradiction].
Qed.
Lemma counter_add_pos d s : (forall x, In x d -> 0 < snd x) -> forall x, In x (counter_add d s) -> 0 < snd x.
Proof.
  induction d as [|[s' k] d IH]; cbn; intros H x Hx; [destruct Hx as [<-|[]]; cbn; lia|].
  destruct (list_eq_dec Bool.bool_dec s s'); cbn in Hx; destruct Hx as [<-|Hx]; cbn; try lia.
  - apply H. now right.
  - apply (H (s', k)). now left.
  - apply IH; auto.
Qed.
Lemma counter_spec l : forall d, NoDup (map fst d) -> (forall x, In x d -> 0 < snd x) ->
  let r := fold_left counter_add l d in
  NoDup (map fst r) /\ (forall x, In x r -> 0 < snd x) /\ total_count r = length l + total_count d /\
  (forall s, lookup r s = count_occ str_dec l s + lookup d s).
Proof.
  induction l as [|a l IH]; intros d Hn Hp; cbn [fold_left]; [auto|].
  destruct (IH (counter_add d a) (counter_add_nodup _ _ Hn) (counter_add_pos _ _ Hp)) as (H1 & H2 & H3 & H4).
  repeat split; auto.
  - rewrite H3, counter_add_total. cbn. lia.
  - intros s. rewrite H4, counter_add_lookup. cbn. destruct (str_dec a s); lia.
Qed.
(* For every circuit and every number of shots: whatever is drawn, the counts
   returned have distinct keys and positive values, count each sampled string as
   often as it was sampled, and sum to the number of shots. *)
Theorem C41_counts eps c p z ths l rest : (0 < z)%Z -> run (evaluate eps c p (Some z)) ths = Some (Some (Counts l), rest) ->
  Z.of_nat (length l) = z /\ NoDup (map fst (counter l)) /\ (forall s k, In (s, k) (counter l) -> 0 < k) /\
  Z.of_nat (total_count (counter l)) = z /\ (forall s, lookup (counter l) s = count_occ str_dec l s).
Proof.
  intros Hz Hr. assert (Hl : length l = Z.to_nat z).
  { unfold evaluate in Hr. destruct (stable_final_state p).
    - apply run_bind_some in Hr as ([[v cl] log] & r & _ & Hr). replace (z =? 0)%Z with false in Hr by (symmetry; apply Z.eqb_neq; lia).
      apply run_bind_some in Hr as (l' & r' & Hl & Hr). cbn in Hr. injection Hr as <- <-. eapply run_replicate; eauto.
    - replace (z <=? 0)%Z with false in Hr by (symmetry; apply Z.leb_gt; lia).
      apply run_bind_some in Hr as (l' & r' & Hl & Hr). cbn in Hr. injection Hr as <- <-. eapply run_replicate; eauto. }
  destruct (counter_spec l [] (NoDup_nil _) ltac:(intros x [])) as (H1 & H2 & H3 & H4). fold (counter l) in H1, H2, H3, H4.
  split; [lia|]. split; [exact H1|]. split; [intros s k Hi; exact (H2 _ Hi)|]. split.
  - rewrite H3. cbn. lia.
  - intros s. rewrite H4. cbn. lia.
Qed.
(* and with shots > 0 the result is always counts *)
Theorem C41_counts_returned eps c p z ths d rest : (0 < z)%Z -> run (evaluate eps c p (Some z)) ths = Some (Some d, rest) -> exists l, d = Counts l.
Proof.
  intros Hz Hr. unfold evaluate in Hr. destruct (stable_final_state p).
  - apply run_bind_some in Hr as ([[v cl] log] & r & _ & Hr). replace (z =? 0)%Z with false in Hr by (symmetry; apply Z.eqb_neq; lia).
    apply run_bind_some in Hr as (l' & r' & Hl & Hr). cbn in Hr. injection Hr as <- <-. eauto.
  - replace (z <=? 0)%Z with false in Hr by (symmetry; apply Z.leb_gt; lia).
    apply run_bind_some in Hr as (l' & r' & Hl & Hr). cbn in Hr. injection Hr as <- <-. eauto.
Qed.

(* ---- C39 ---- *)
Lemma run_catch {A} (t : tree A) h : forall ths o rest, run (catch t h) ths = Some (o, rest) ->
  exists a, o = Some a /\ (run t ths = Some (Some a, rest) \/ (a = h /\ run t ths = Some (None, rest))).
Proof.
  induction t as [a| |p k IH]; intros ths o rest H; cbn in *.
  - injection H as <- <-. eauto.
  - injection H as <- <-. eauto.
  - destruct ths; [discriminate|]. apply IH in H. exact H.
Qed.
Section C39.
Context {P : Type} (eps : R).
(* an exception never escapes run() *)
Theorem C39_no_exception sv ds circs (o : @ropts P) ths r rest : run (run_backend eps sv ds circs o) ths = Some (r, rest) -> r <> None.
Proof. intros H. apply run_catch in H as (a & -> & _). discriminate. Qed.
(* a shots value outside 1 .. 10^6 is rejected, before anything is drawn *)
Theorem C39_bad_shots sv ds circs (o : @ropts P) z : r_shots o = Some (Some z) -> ~ (0 < z <= 1000000)%Z ->
  run_backend eps sv ds circs o = Leaf Failed.
Proof.
  intros Ho Hz. unfold run_backend, run_internal, shots_ok. rewrite Ho. destruct circs as [cs|]; [|reflexivity].
  replace (negb ((0 <? z)%Z && (z <=? max_shots)%Z)) with true; [reflexivity|]. symmetry. apply negb_true_iff, andb_false_iff.
  destruct (Z.ltb_spec 0 z); [right; apply Z.leb_gt; unfold max_shots; lia|now left].
Qed.
Lemma all_some_spec {A} (l : list (option A)) r : all_some l = Some r -> l = map Some r.
Proof.
  revert r. induction l as [|[a|] l IH]; intros r H; cbn in H; try discriminate; [injection H as <-; reflexivity|].
  destruct (all_some l); [|discriminate]. injection H as <-. cbn. f_equal. now apply IH.
Qed.
Lemma map_some_inv {A B} (f : A -> option B) l r : map f l = map Some r -> Forall2 (fun a b => f a = Some b) l r.
Proof.
  revert r. induction l as [|a l IH]; intros [|b r] H; try discriminate; constructor; cbn in H; injection H as H1 H2; auto.
Qed.
Lemma F2_impl {A B} (Q Q' : A -> B -> Prop) l r : (forall a b, Q a b -> Q' a b) -> Forall2 Q l r -> Forall2 Q' l r.
Proof. intros H. induction 1; constructor; auto. Qed.
Lemma F2_combine {A B} (Q : A -> B -> Prop) l r : Forall2 Q l r -> length l = length r.
Proof. induction 1; cbn; auto. Qed.
(* A job that reports success: every circuit was accepted and has its result, in
   order, obtained by evaluating that circuit alone; explicit shots are in range
   and each result has exactly that many samples; shots=None gives probabilities. *)
Theorem C39_success_partial sv ds circs (o : @ropts P) ths res rest :
  run (run_backend eps sv ds circs o) ths = Some (Some (Done res), rest) -> r_binds o = None ->
  exists cs, circs = Some cs /\ length res = length cs /\
    Forall2 (fun pc d => exists c p th r, pc None = Some c /\ nq c <= 100 /\ validate_circuit (negb sv) c = Some p /\
       run (evaluate eps c p (match r_shots o with Some s => s | None => ds end)) th = Some (Some d, r) /\
       match r_shots o with
       | Some (Some z) => (0 < z <= 1000000)%Z /\ exists l, d = Counts l /\ Z.of_nat (length l) = z
       | Some None => exists l, d = Probs l
       | None => True
       end) cs res.
Proof.
  intros H Hb. apply run_catch in H as (a & Ha & H). injection Ha as <-. destruct H as [H|[H _]]; [|discriminate].
  destruct circs as [cs|]; [|discriminate]. exists cs. split; [reflexivity|].
  apply run_bind_some in H as (l & r & H & Hd). cbn in Hd. injection Hd as -> ->.
  unfold run_internal in H. destruct (shots_ok (r_shots o)) eqn:Es; [|discriminate]. cbn [negb] in H.
  rewrite Hb in H. cbn [bound] in H.
  destruct (all_some (map (fun c => c None) cs)) as [cl|] eqn:Ec; [|discriminate].
  destruct (all_some (map (validate_circuit (negb sv)) cl)) as [ps|] eqn:Ep; [|discriminate].
  apply all_some_spec, map_some_inv in Ec. apply all_some_spec, map_some_inv in Ep.
  apply run_traverse in H.
  assert (HF : Forall2 (fun pc d => exists c p th r, pc None = Some c /\ validate_circuit (negb sv) c = Some p /\
       run (evaluate eps c p (match r_shots o with Some s => s | None => ds end)) th = Some (Some d, r)) cs res).
  { revert cl ps res Ec Ep H. induction cs as [|pc cs IH]; intros cl ps res Ec Ep H; inversion Ec as [|? c ? cl' H1 H2]; subst.
    - inversion Ep; subst. cbn in H. inversion H. constructor.
    - inversion Ep as [|? p ? ps' H3 H4]; subst. cbn [combine] in H. inversion H as [|? d ? res' H5 H6]; subst. constructor; [|eapply IH; eauto].
      destruct H5 as (th & r & H5). cbn [fst snd] in H5. eauto 10. }
  split; [symmetry; eapply F2_combine; eauto|]. clear -HF Es.
  eapply F2_impl; [|exact HF]. intros pc d (c & p & th & r & H1 & H2 & H3). exists c, p, th, r. repeat (split; [assumption|]).
  split; [unfold validate_circuit in H2; destruct (max_qubits <? nq c) eqn:E; [discriminate|]; apply Nat.ltb_ge in E; exact E|].
  split; [assumption|]. split; [assumption|].
  destruct (r_shots o) as [[z|]|]; auto.
  - cbn in Es. apply andb_true_iff in Es as [E1 E2]. apply Z.ltb_lt in E1. apply Z.leb_le in E2. unfold max_shots in E2. split; [lia|].
    destruct (C41_counts_returned eps c p z th d r E1 H3) as (l & ->). exists l. split; auto. eapply C41_counts; eauto.
  - unfold evaluate in H3. destruct (existsb has_cond (data c)); [discriminate|].
    apply run_bind_some in H3 as ([v pc'] & r' & _ & H3). cbn [run] in H3. injection H3 as <- <-. eauto.
Qed.
End C39.
