(* BackendY.v -- C39: circuits that are rejected; C40: what shots=None returns for
   circuits with mid-circuit measurements; C35: the check on the number of processes. *)
From Coq Require Import Reals Lra Psatz ZArith Bool List Lia Arith FunctionalExtensionality.
From Coquelicot Require Import Complex.
From Verif Require Import Spec SpecP LargeP Backend BackSpec BackendP BackendQ BackendX Swap.
Import ListNotations.
Open Scope nat_scope.

(* ---- C39 ---- *)
Definition measures (c : circ) : Prop := exists x q b, In x (data c) /\ op x = BMeasure q b.
Lemma classify_measured n l : forall i st me m st' me' m', classify n i l st me m = (st', me', m') ->
  (forall x q b, In x l -> op x <> BMeasure q b) -> me' = me.
Proof.
  induction l as [|x l IH]; intros i st me m st' me' m' H Hn; cbn [classify] in H; [congruence|].
  assert (Hx : exists st1, classify_step n i x st me m = (st1, me, m)).
  { unfold classify_step. pose proof (Hn x) as Hx. destruct (op x) as [g|q b|q|qs|qs|qs|qs]; try (exfalso; eapply Hx; [now left|reflexivity]).
    all: destruct (_ || is_kraus _); try (eexists; reflexivity). }
  destruct Hx as (st1 & Hx). rewrite Hx in H. destruct (negb st1 && (0 <? length me)); [congruence|].
  eapply IH; [exact H|]. intros y q b Hy. apply Hn. now right.
Qed.
Lemma all_some_none {A} (l : list (option A)) : In None l -> all_some l = None.
Proof. induction l as [|[a|] l IH]; intros H; cbn; auto; [destruct H|]. destruct H as [H|H]; [discriminate|]. now rewrite IH. Qed.
(* a circuit that measures nothing (unless the state vector is asked for), or has too
   many qubits, fails the whole job, and nothing is drawn *)
Theorem C39_rejected {P} eps sv ds cs (o : @ropts P) pc c : In pc cs -> pc None = Some c -> r_binds o = None ->
  (sv = false /\ ~ measures c) \/ 100 < nq c -> run_backend eps sv ds (Some cs) o = Leaf Failed.
Proof.
  intros Hin Hpc Hb Hbad. unfold run_backend, run_internal. destruct (negb (shots_ok (r_shots o))); [reflexivity|].
  rewrite Hb. cbn [bound]. destruct (all_some (map (fun c0 => c0 None) cs)) as [cc|] eqn:E; [|reflexivity].
  apply all_some_spec in E. assert (Hc : In c cc).
  { assert (H1 : In (Some c) (map Some cc)) by (rewrite <- E; apply in_map_iff; eauto). apply in_map_iff in H1 as (c' & H1 & H2). congruence. }
  rewrite (all_some_none (map (validate_circuit (negb sv)) cc)); [reflexivity|]. apply in_map_iff. exists c. split; auto.
  unfold validate_circuit. destruct Hbad as [[-> Hm]|Hq].
  - destruct (max_qubits <? nq c); [reflexivity|]. destruct (classify (nq c) 0 (data c) true [] []) as [[st me] m] eqn:Ec.
    apply classify_measured in Ec; [subst me; reflexivity|]. intros x q b Hx Hop. apply Hm. now exists x, q, b.
  - unfold max_qubits. apply Nat.ltb_lt in Hq. now rewrite Hq.
Qed.
Example C39_rejected_example : ~ measures (Circ 1 1 [xg] 0) /\ ~ measures (Circ 2 0 [] 0) /\ measures bellc.
Proof.
  split; [|split].
  - intros (x & q & b & [<-|[]] & H). discriminate H.
  - intros (x & q & b & [] & _).
  - exists (meas 0 1), 0, 1. split; [cbn [data bellc In]; tauto|reflexivity].
Qed.

(* ---- C40 ---- *)
(* the last measurement into bit j: the instructions before it and its qubit *)
Fixpoint last_meas (pre l : list inst) (j : nat) : option (list inst * nat) :=
  match l with
  | [] => None
  | x :: r =>
      match last_meas (pre ++ [x]) r j, op x with
      | Some y, _ => Some y
      | None, BMeasure q c => if c =? j then Some (pre, q) else None
      | None, _ => None
      end
  end.
(* probability that the qubit reads 0 there, in the state the gates before it give:
   the measurements in between are ignored; an unmeasured bit counts as never 0 *)
Definition marg0 (c : circ) (j : nat) : R :=
  match last_meas [] (data c) j with Some (pre, q) => probq (nq c) (finalv (nq c) pre (basis 0)) q 0 | None => 0%R end.
Fixpoint prodR (l : list R) : R := match l with [] => 1%R | x :: r => (x * prodR r)%R end.
Fixpoint pcs (n : nat) (l : list inst) (v : vector) (pc : list R) : list R :=
  match l with
  | [] => pc
  | x :: r => match op x with
              | BMeasure q c => pcs n r v (upd pc c (probq n v q 0))
              | BGate g => pcs n r (mv n (gate_mat n (fun q => q) g) v) pc
              | _ => pcs n r v pc
              end
  end.
Lemma exec_none_pcs eps n ncl l : (0 <= eps)%R -> forall v pc, insts_ok n ncl l -> (forall x q, In x l -> op x <> BReset q) -> norm2v n v = 1%R ->
  exec_none eps n false l v pc = Leaf (finalv n l v, pcs n l v pc).
Proof.
  intros He. induction l as [|x l IH]; intros v pc Hok Hr Hn; cbn [exec_none finalv pcs]; auto.
  assert (Hok' : insts_ok n ncl l) by (intros y Hy; apply Hok; right; exact Hy).
  assert (Hr' : forall x q, In x l -> op x <> BReset q) by (intros y q Hy; apply Hr; now right).
  destruct (Hok x (or_introl eq_refl)) as [Hsup _]. unfold supported in Hsup. pose proof (Hr x) as Hx.
  destruct (op x) as [g|q c|q|qs|qs|qs|qs] eqn:E; try contradiction; try (apply IH; auto; fail).
  - apply IH; auto. now rewrite unitary_norm.
  - destruct (Rlt_dec eps _) as [h|_]; [exfalso; revert h; now apply eps0|].
    replace (probq n v q 0 / norm2v n v)%R with (probq n v q 0) by (rewrite Hn; field). now apply IH.
  - exfalso. apply (Hx q); [now left|reflexivity].
Qed.
Lemma pcs_len n l : forall v pc, length (pcs n l v pc) = length pc.
Proof. induction l as [|x l IH]; intros v pc; cbn; auto. destruct (op x); auto. rewrite IH. apply upd_len. Qed.
Lemma finalv_app n a b v : finalv n (a ++ b) v = finalv n b (finalv n a v).
Proof. revert v. induction a as [|x a IH]; intros v; cbn; auto. destruct (op x); apply IH. Qed.
Lemma upd_nth_R (l : list R) k x j : nth j (upd l k x) 0%R = if (j =? k) && (k <? length l) then x else nth j l 0%R.
Proof.
  revert k j. induction l as [|a l IH]; intros [|k] [|j]; cbn; auto.
  - now rewrite andb_false_r.
  - rewrite IH. reflexivity.
Qed.
Lemma pcs_nth n v0 l : forall pre pc j, j < length pc ->
  nth j (pcs n l (finalv n pre v0) pc) 0%R =
    match last_meas pre l j with Some (p, q) => probq n (finalv n p v0) q 0 | None => nth j pc 0%R end.
Proof.
  induction l as [|x l IH]; intros pre pc j Hj; cbn [pcs last_meas]; auto.
  assert (Hpre : finalv n (pre ++ [x]) v0 = match op x with BGate g => mv n (gate_mat n (fun q => q) g) (finalv n pre v0) | _ => finalv n pre v0 end).
  { rewrite finalv_app. cbn [finalv]. destruct (op x); reflexivity. }
  specialize (IH (pre ++ [x])). destruct (op x) as [g|q c|q|qs|qs|qs|qs]; rewrite Hpre in IH; try (rewrite IH by exact Hj; destruct (last_meas (pre ++ [x]) l j) as [[p q']|]; reflexivity).
  rewrite IH by now rewrite upd_len. destruct (last_meas (pre ++ [x]) l j) as [[p q']|]; [reflexivity|].
  rewrite upd_nth_R. rewrite (Nat.eqb_sym c j). destruct (Nat.eqb_spec j c) as [<-|]; cbn [andb]; auto.
  apply Nat.ltb_lt in Hj. now rewrite Hj.
Qed.
Lemma fold_prod (f : nat -> R) l : forall a, fold_left (fun acc j => (acc * f j)%R) l a = (a * prodR (map f l))%R.
Proof. induction l as [|x l IH]; intros a; cbn; [ring|]. rewrite IH. ring. Qed.
(* what the code returns with shots=None for a circuit with mid-circuit measurements
   and no reset: for each number i, the product over the classical bits of the
   probability of that bit alone *)
Theorem C40_product eps c p req : (0 <= eps)%R -> circ_ok c -> validate_circuit req c = Some p -> stable_final_state p = false ->
  (forall x, In x (data c) -> cnd x = None) -> (forall x q, In x (data c) -> op x <> BReset q) ->
  exists l, evaluate eps c p None = Leaf (Probs l) /\ length l = 2 ^ nc c /\
    forall i, i < 2 ^ nc c -> nth i l 0%R = prodR (map (fun j => if Nat.testbit i j then (1 - marg0 c j)%R else marg0 c j) (seq 0 (nc c))).
Proof.
  intros He (Hok & Hw & Hp) Hv Hst Hcn Hr. unfold evaluate. replace (existsb has_cond (data c)) with false.
  2:{ symmetry. apply not_true_iff_false. intros Hx. apply existsb_exists in Hx as (x & Hx & Hc). unfold has_cond in Hc. rewrite (Hcn x Hx) in Hc. discriminate. }
  rewrite Hst. rewrite (exec_none_pcs eps (nq c) (nc c) (data c) He _ _ Hok Hr (norm_basis0 (nq c))). cbn [bind].
  eexists. split; [reflexivity|]. split; [unfold prob_product; now rewrite map_length, seq_length|]. intros i Hi.
  unfold prob_product. match goal with |- nth i (map ?F _) _ = _ => set (f := F) end.
  rewrite nth_indep with (d' := f 0) by (rewrite map_length, seq_length; exact Hi). rewrite map_nth, seq_nth by exact Hi. cbn [Nat.add]. unfold f. clear f.
  set (pc := pcs _ _ _ _). assert (Hpc : forall j, j < nc c -> nth j pc 0%R = marg0 c j).
  { intros j Hj. unfold pc. change (basis 0) with (finalv (nq c) [] (basis 0)). rewrite pcs_nth by (rewrite repeat_length; exact Hj).
    unfold marg0. destruct (last_meas [] (data c) j) as [[? ?]|]; auto. apply nth_repeat. }
  clearbody pc. rewrite <- (Rmult_1_l (prodR _)). rewrite <- fold_prod.
  assert (G : forall l a, (forall j, In j l -> j < nc c) ->
    fold_left (fun acc j => if Nat.testbit i j then (acc * (1 - nth j pc 0))%R else (acc * nth j pc 0)%R) l a =
    fold_left (fun acc j => (acc * (if Nat.testbit i j then (1 - marg0 c j)%R else marg0 c j))%R) l a).
  { induction l as [|j l IH]; intros a Hl; cbn [fold_left]; auto. rewrite IH by (intros z Hz; apply Hl; now right).
    rewrite Hpc by (apply Hl; now left). destruct (Nat.testbit i j); reflexivity. }
  apply G. intros j Hj. apply in_seq in Hj. lia.
Qed.
Example C40_product_example : exists p, circ_ok cI /\ validate_circuit true cI = Some p /\ stable_final_state p = false /\
  (forall x, In x (data cI) -> cnd x = None) /\ (forall x q, In x (data cI) -> op x <> BReset q).
Proof.
  destruct (C40_correlated_refuted 0 (Rle_refl 0)) as (p & _ & Hok & Hv & _). exists p. split; [exact Hok|]. split; [exact Hv|].
  cbv in Hv. injection Hv as <-. split; [reflexivity|].
  split; [intros x [<-|[<-|[<-|[<-|[]]]]]; reflexivity|intros x q [<-|[<-|[<-|[<-|[]]]]]; discriminate].
Qed.

(* ---- C35: more processes than basis states ---- *)
Theorem C35_too_many_processes eps pick auto v2 size c p shots : 2 ^ nq c <= size -> evaluate_mpi eps pick auto v2 size c p shots = Raise.
Proof. intros H. unfold evaluate_mpi. apply Nat.leb_le in H. now rewrite H. Qed.
