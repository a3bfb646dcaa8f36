(* QiskitP.v -- property C59: each Qiskit gate of the tables acts as Qiskit documents it. *)
From Coq Require Import Reals Lra Psatz ZArith Bool List Lia Arith.
From Coquelicot Require Import Complex.
From Verif Require Import Num Gates RNum Spec SpecP LargeP GateMat Backend BackendP SwapP Qiskit.
Import ListNotations.
Open Scope nat_scope.

(* ---- specification: the matrices of the Qiskit documentation (Gate.to_matrix),
   first qubit argument least significant ---- *)
(* ControlledGate: k controls, the first arguments, in the state s (an integer) *)
Definition controlled (k s : nat) (U : matrix) : matrix := fun i j =>
  if i mod 2 ^ k =? j mod 2 ^ k then
    if i mod 2 ^ k =? s then U (i / 2 ^ k) (j / 2 ^ k) else if i =? j then RtoC 1 else RtoC 0
  else RtoC 0.
Definition doc_H : matrix := mscal (RtoC (/ sqrt 2)) (m2x2 (RtoC 1) (RtoC 1) (RtoC 1) (RtoC (-1))).
Definition doc_SX : matrix := mscal (RtoC (/ 2)) (m2x2 (1, 1)%R (1, -1)%R (1, -1)%R (1, 1)%R).
Definition doc_SXdg : matrix := mscal (RtoC (/ 2)) (m2x2 (1, -1)%R (1, 1)%R (1, 1)%R (1, -1)%R).
Definition doc_U (theta phi lambda : R) : matrix :=
  m2x2 (RtoC (cos (theta / 2))) (Copp (Cmult (cis lambda) (RtoC (sin (theta / 2)))))
       (Cmult (cis phi) (RtoC (sin (theta / 2)))) (Cmult (cis (phi + lambda)) (RtoC (cos (theta / 2)))).
Definition doc_swap : matrix := fun i j => if i / 2 + 2 * (i mod 2) =? j then RtoC 1 else RtoC 0.
Definition doc_iswap : matrix := fun i j =>
  if i / 2 + 2 * (i mod 2) =? j then (if i =? j then RtoC 1 else Ci) else RtoC 0.
(* base gate: number of qubits and matrix; None: wrong number of parameters *)
Definition base (c : gclass) (ps : list R) : option (nat * matrix) :=
  match c, ps with
  | HGate, [] => Some (1, doc_H) | IGate, [] => Some (1, ident)
  | SGate, [] => Some (1, phase_gate (PI / 2)) | SdgGate, [] => Some (1, phase_gate (- (PI / 2)))
  | TGate, [] => Some (1, phase_gate (PI / 4)) | TdgGate, [] => Some (1, phase_gate (- (PI / 4)))
  | SXGate, [] | CSXGate, [] => Some (1, doc_SX) | SXdgGate, [] => Some (1, doc_SXdg)
  | XGate, [] | CXGate, [] | CCXGate, [] | C3XGate, [] | C4XGate, [] | MCXGate, [] => Some (1, PX)
  | YGate, [] | CYGate, [] => Some (1, PY) | ZGate, [] | CZGate, [] => Some (1, PZ)
  | RXGate, [a] | CRXGate, [a] => Some (1, rot a PX)
  | RYGate, [a] | CRYGate, [a] => Some (1, rot a PY)
  | RZGate, [a] | CRZGate, [a] => Some (1, rot a PZ)
  | PhaseGate, [a] | CPhaseGate, [a] | MCPhaseGate, [a] | CU1Gate, [a] => Some (1, phase_gate a)
  | RGate, [a; b] => Some (1, rot a (madd (mscal (RtoC (cos b)) PX) (mscal (RtoC (sin b)) PY)))
  | UGate, [a; b; d] | CU3Gate, [a; b; d] => Some (1, doc_U a b d)
  | CUGate, [a; b; d; e] => Some (1, mscal (cis e) (doc_U a b d))
  | SwapGate, [] | CSwapGate, [] => Some (2, doc_swap) | ISwapGate, [] => Some (2, doc_iswap)
  | RXXGate, [a] => Some (2, rot a (kronm 1 PX PX)) | RYYGate, [a] => Some (2, rot a (kronm 1 PY PY))
  | RZZGate, [a] => Some (2, rot a (kronm 1 PZ PZ)) | RZXGate, [a] => Some (2, rot a (kronm 1 PX PZ))
  | _, _ => None
  end.
(* number of controls of a class *)
Definition controls_of (c : gclass) (k : nat) : Prop :=
  match c with
  | CXGate | CYGate | CZGate | CSXGate | CPhaseGate | CU1Gate | CRXGate | CRYGate | CRZGate | CU3Gate | CUGate | CSwapGate => k = 1
  | CCXGate => k = 2 | C3XGate => k = 3 | C4XGate => k = 4
  | MCXGate | MCPhaseGate => 1 <= k
  | _ => k = 0
  end.
(* the gate object is well formed, with k controls, and U is its matrix on its qubits *)
Definition documented (g : qgate) (k : nat) (nqs : nat) (U : matrix) : Prop :=
  exists b B, base (gcls g) (gpar g) = Some (b, B) /\ controls_of (gcls g) k /\ gctl g < 2 ^ k /\
    nqs = k + b /\ U = controlled k (gctl g) B.

(* ---- proofs ---- *)
Definition gateT (n : nat) (G : matrix) (T : list nat) (c : ctls) : matrix := fun i j =>
  if agree_off n T i j then if ctl_ok c i then G (gather T i) (gather T j) else if gather T i =? gather T j then RtoC 1 else RtoC 0 else RtoC 0.
Lemma gather_app a b i : gather (a ++ b) i = gather a i + 2 ^ length a * gather b i.
Proof. unfold gather. rewrite gather_from_app, (gather_from_scale (0 + length a)). cbn. lia. Qed.
Lemma gather_ones cs i : gather cs i = 2 ^ length cs - 1 <-> ctl_ok (ctl_of (fun q => q) cs) i = true.
Proof.
  unfold ctl_of, ctl_ok. induction cs as [|q cs IH]; [cbn; intuition|].
  rewrite gather_S. cbn [map forallb length fst snd]. rewrite Nat2Z.id, andb_true_iff, <- IH.
  pose proof (gather_lt cs i) as Hl. cbn [Nat.pow]. unfold bit. destruct (Nat.testbit i q); cbn; intuition lia.
Qed.
Lemma gather_eq_bits cs i j : gather cs i = gather cs j <-> (forall q, In q cs -> Nat.testbit i q = Nat.testbit j q).
Proof.
  induction cs as [|q cs IH]; [cbn; intuition|]. rewrite !gather_S. unfold bit. split.
  - intros E. assert (E1 : Nat.testbit i q = Nat.testbit j q) by (destruct (Nat.testbit i q), (Nat.testbit j q); auto; lia).
    rewrite E1 in E. assert (E2 : gather cs i = gather cs j) by lia. intros x [<-|Hx]; auto. now apply IH.
  - intros H. rewrite (H q) by now left. f_equal. f_equal. apply IH. intros x Hx. apply H. now right.
Qed.
Lemma embed n G cs T : (forall q, In q cs -> q < n) -> (forall q, In q cs -> ~ In q T) ->
  meq n (gateT n G T (ctl_of (fun q => q) cs)) (gate_on n (controlled (length cs) (2 ^ length cs - 1) G) (cs ++ T)).
Proof.
  intros Hn Hd i j Hi Hj. unfold gateT, gate_on, controlled. rewrite !gather_app.
  assert (Hm : forall x, (gather cs x + 2 ^ length cs * gather T x) mod 2 ^ length cs = gather cs x).
  { intros x. rewrite Nat.mul_comm, Nat.mod_add by (apply Nat.pow_nonzero; lia). apply Nat.mod_small, gather_lt. }
  assert (Hq : forall x, (gather cs x + 2 ^ length cs * gather T x) / 2 ^ length cs = gather T x).
  { intros x. rewrite Nat.mul_comm, Nat.div_add by (apply Nat.pow_nonzero; lia). rewrite Nat.div_small by apply gather_lt. reflexivity. }
  rewrite !Hm, !Hq.
  assert (HA : agree_off n T i j = agree_off n (cs ++ T) i j && (gather cs i =? gather cs j)).
  { apply Bool.eq_true_iff_eq. rewrite andb_true_iff, Nat.eqb_eq, gather_eq_bits, !agree_off_spec. split.
    - intros H. split; [|intros q Hq'; apply H; auto]. intros l Hl Hnin. apply H; auto. intros h. apply Hnin, in_or_app. now right.
    - intros [H1 H2] l Hl Hnin. destruct (in_dec Nat.eq_dec l cs) as [h|h]; [now apply H2|]. apply H1; auto.
      intros h'. apply in_app_or in h' as [?|?]; contradiction. }
  rewrite HA. destruct (agree_off n (cs ++ T) i j); cbn [andb]; [|reflexivity].
  destruct (Nat.eqb_spec (gather cs i) (gather cs j)) as [E|E]; [|reflexivity].
  pose proof (gather_ones cs i) as HO. destruct (ctl_ok (ctl_of (fun q => q) cs) i).
  - rewrite (proj2 (Nat.eqb_eq _ _)); auto. now apply HO.
  - rewrite (proj2 (Nat.eqb_neq (gather cs i) (2 ^ length cs - 1))) by (intros h; apply HO in h; discriminate).
    rewrite E. destruct (Nat.eqb_spec (gather T i) (gather T j)) as [F|F].
    + rewrite F, Nat.eqb_refl. reflexivity.
    + rewrite (proj2 (Nat.eqb_neq _ _)); auto. intros h. apply F. apply Nat.add_cancel_l in h. apply Nat.mul_cancel_l in h; auto. apply Nat.pow_nonzero. lia.
Qed.
Lemma gateT1 n G t c : gate1 n G t c = gateT n G [t] c.
Proof. unfold gate1, gateT, gather. cbn [gather_from Nat.pow]. repeat (apply FunctionalExtensionality.functional_extensionality; intro). rewrite !Nat.mul_1_r, !Nat.add_0_r. reflexivity. Qed.
Lemma gateT2 n G hi lo c : gate2 n G hi lo c = gateT n G [lo; hi] c.
Proof.
  unfold gate2, gateT, gather. cbn [gather_from Nat.pow]. repeat (apply FunctionalExtensionality.functional_extensionality; intro).
  rewrite !Nat.add_0_r, !Nat.mul_1_r.
  replace (agree_off n [hi; lo] x x0) with (agree_off n [lo; hi] x x0).
  2: { apply Bool.eq_true_iff_eq. rewrite !agree_off_spec. cbn [In]. split; intros H l Hl Hn; apply H; auto; intuition. }
  replace (2 * bit x hi + bit x lo) with (bit x lo + bit x hi * (2 * 1)) by lia.
  replace (2 * bit x0 hi + bit x0 lo) with (bit x0 lo + bit x0 hi * (2 * 1)) by lia.
  destruct (agree_off n [lo; hi] x x0); auto. destruct (ctl_ok c x); auto.
  replace ((bit x hi =? bit x0 hi) && (bit x lo =? bit x0 lo)) with (bit x lo + bit x hi * (2 * 1) =? bit x0 lo + bit x0 hi * (2 * 1)); auto.
  unfold bit. destruct (Nat.testbit x hi), (Nat.testbit x0 hi), (Nat.testbit x lo), (Nat.testbit x0 lo); reflexivity.
Qed.
Lemma gateT_meq n G G' T c : meq (length T) G G' -> meq n (gateT n G T c) (gateT n G' T c).
Proof. intros H i j _ _. unfold gateT. destruct (agree_off n T i j); auto. destruct (ctl_ok c i); auto. apply H; apply gather_lt. Qed.
Lemma gate_on_meq n G G' T : meq (length T) G G' -> meq n (gate_on n G T) (gate_on n G' T).
Proof. intros H i j _ _. unfold gate_on. destruct (agree_off n T i j); auto. apply H; apply gather_lt. Qed.

Lemma split_last (qs : list nat) k : length qs = k + 1 -> exists cs t, qs = cs ++ [t] /\ length cs = k.
Proof.
  intros H. destruct (rev qs) as [|t r] eqn:E; [apply (f_equal (@length nat)) in E; rewrite rev_length in E; cbn in E; lia|].
  exists (rev r), t. assert (Q : qs = rev r ++ [t]) by (rewrite <- (rev_involutive qs), E; reflexivity). split; auto.
  rewrite Q, app_length in H. cbn in H. lia.
Qed.
Lemma nodup_split (a b : list nat) : NoDup (a ++ b) -> forall q, In q a -> ~ In q b.
Proof.
  induction a as [|x a IH]; intros HN q Hq Hb; [destruct Hq|]. inversion HN as [|y l Hx HN']; subst.
  destruct Hq as [<-|Hq]; [apply Hx, in_or_app; now right|]. now apply (IH HN' q).
Qed.
(* the two shapes of gates *)
Lemma op1 n g B qs k : length qs = k + 1 -> NoDup qs -> (forall q, In q qs -> q < n) -> meq 1 g B ->
  meq n (gate_mat n (fun q => q) (G1 g qs)) (gate_on n (controlled k (2 ^ k - 1) B) qs).
Proof.
  intros Hl HN Hn HB. destruct (split_last qs k Hl) as (cs & t & -> & <-). cbn [gate_mat].
  rewrite last_last, removelast_last, gateT1. eapply meq_trans; [apply gateT_meq; exact HB|]. apply embed.
  - intros q Hq. apply Hn, in_or_app. now left.
  - intros q Hq [<-|[]]. apply NoDup_remove_2 in HN. apply HN, in_or_app. now left.
Qed.
Lemma op2 n g B qs k : length qs = k + 2 -> NoDup qs -> (forall q, In q qs -> q < n) -> meq 2 g B ->
  meq n (gate_mat n (fun q => q) (G2 g qs)) (gate_on n (controlled k (2 ^ k - 1) B) qs).
Proof.
  intros Hl HN Hn HB. destruct (split_last qs (k + 1) ltac:(lia)) as (qs' & b & -> & Hl').
  destruct (split_last qs' k ltac:(lia)) as (cs & a & -> & <-). rewrite <- !app_assoc in *. cbn [app] in *. cbn [gate_mat].
  rewrite app_length. cbn [length]. replace (length cs + 2 - 1) with (S (length cs)) by lia. replace (length cs + 2 - 2) with (length cs) by lia.
  rewrite !app_nth2 by lia. replace (S (length cs) - length cs) with 1 by lia. replace (length cs - length cs) with 0 by lia. cbn [nth].
  rewrite firstn_app, firstn_all, Nat.sub_diag. cbn [firstn]. rewrite app_nil_r, gateT2.
  eapply meq_trans; [apply gateT_meq; exact HB|]. apply embed.
  - intros q Hq. apply Hn, in_or_app. now left.
  - apply nodup_split. exact HN.
Qed.

(* the matrices of the table are the documented ones *)
#[local] Hint Extern 0 NumOps => exact (RNum 0) : typeclass_instances.
Ltac cases2 Hi Hj := cbn in Hi, Hj; apply lt2 in Hi; apply lt2 in Hj; destruct Hi as [->| ->], Hj as [->| ->].
Ltac cases4 Hi Hj := cbn in Hi, Hj; apply lt4 in Hi; apply lt4 in Hj;
  destruct Hi as [->|[->|[->| ->]]], Hj as [->|[->|[->| ->]]].
Ltac norm := unfold doc_SX, doc_SXdg, doc_swap, doc_iswap, doc_U, mscal, madd, rot, phase_gate, m2x2, u, u3, u1, mk2, mk4, cexp, cscale, copp, cis, swap_matrix, iswap_matrix, SXmat, SXdagmat, cf_1plusi_2, cf_1minusi_2, cf_i, c0, c1;
  rewrite ?(half_n 0), ?(halve_n 0); cbn -[cos sin Rdiv Rinv IZR]; unfold Cplus, Cmult, Copp, RtoC, Ci; cbn -[cos sin Rdiv Rinv IZR].
Lemma doc_H_eq : meq 1 (@Hmat (RNum 0)) doc_H.
Proof.
  destruct (C23_constant_values 0) as (_ & _ & _ & _ & H & _). eapply meq_trans; [exact H|].
  intros i j Hi Hj. cases2 Hi Hj; unfold doc_H, mscal, madd, PX, PZ, m2x2, Cmult, Cplus, RtoC; cbn -[sqrt Rinv IZR]; f_equal; ring.
Qed.
Lemma doc_SX_eq : meq 1 (@SXmat (RNum 0)) doc_SX.
Proof. intros i j Hi Hj. cases2 Hi Hj; norm; f_equal; lra. Qed.
Lemma doc_SXdg_eq : meq 1 (@SXdagmat (RNum 0)) doc_SXdg.
Proof. intros i j Hi Hj. cases2 Hi Hj; norm; f_equal; lra. Qed.
Lemma doc_swap_eq : meq 2 (@swap_matrix (RNum 0)) doc_swap.
Proof. intros i j Hi Hj. cases4 Hi Hj; reflexivity. Qed.
Lemma doc_iswap_eq : meq 2 (@iswap_matrix (RNum 0)) doc_iswap.
Proof. intros i j Hi Hj. cases4 Hi Hj; reflexivity. Qed.
Lemma doc_CU_eq a b d e : meq 1 (@u (RNum 0) a b d e) (mscal (cis e) (doc_U a b d)).
Proof.
  intros i j Hi Hj. cases2 Hi Hj; norm; rewrite ?cos_plus, ?sin_plus, ?cos_plus, ?sin_plus; f_equal; ring.
Qed.
Lemma doc_U_eq a b d : meq 1 (@u3 (RNum 0) a b d) (doc_U a b d).
Proof.
  unfold u3. eapply meq_trans; [apply doc_CU_eq|]. intros i j _ _. unfold mscal, cis. change (@n0 (RNum 0)) with 0%R.
  rewrite cos_0, sin_0. destruct (doc_U a b d i j). unfold Cmult. cbn. f_equal; ring.
Qed.
(* the entry of the table and the documented matrix *)
Definition entry_ok (e : entry1) (bB : nat * matrix) : Prop :=
  match e with T1 m => fst bB = 1 /\ meq 1 m (snd bB) | T2 m => fst bB = 2 /\ meq 2 m (snd bB) end.
Lemma table_ok c ps b B : base c ps = Some (b, B) -> exists e, lookup c ps = Some e /\ entry_ok e (b, B).
Proof.
  destruct (C23_constant_values 0) as (VI & VX & VY & VZ & _ & VS & VSd & VT & VTd).
  intros H. destruct c; destruct ps as [|a [|a1 [|a2 [|a3 [|a4 ps]]]]]; try discriminate H; cbn [base] in H; injection H as <- <-;
    eexists; (split; [reflexivity|]); (split; [reflexivity|]); cbn [snd];
    first [exact doc_H_eq|exact VI|exact VX|exact VY|exact VZ|exact VS|exact VSd|exact VT|exact VTd|exact doc_SX_eq|exact doc_SXdg_eq
          |exact doc_swap_eq|exact doc_iswap_eq|apply doc_CU_eq|apply doc_U_eq
          |destruct (C23_rotation_values 0 a 0 0 0) as (R1 & R2 & R3 & R4 & R5 & _ & R6 & R7 & R8 & R9 & _);
             first [exact R1|exact R2|exact R3|exact R4|exact R5|exact R6|exact R7|exact R8|exact R9]
          |destruct (C23_rotation_values 0 a a1 0 0) as (_ & _ & _ & _ & _ & R6 & _); exact R6].
Qed.
(* C59: with the controls in the default state, the operator applied for a gate
   object is the documented matrix on its qubits *)
Theorem C59_gate_table_partial n g qs k U : documented g k (length qs) U -> NoDup qs -> (forall q, In q qs -> q < n) ->
  gctl g = 2 ^ k - 1 -> exists o, translate g qs = Some o /\ gqs o = qs /\ meq n (gate_mat n (fun q => q) o) (gate_on n U qs).
Proof.
  intros (b & B & Hb & Hc & _ & Hl & ->) HN Hn Hs. destruct (table_ok _ _ _ _ Hb) as (e & He & Hok).
  unfold translate. rewrite He, Hs. destruct e as [m|m]; destruct Hok as [Hf Hm]; cbn [fst snd] in *; subst b; (eexists; split; [reflexivity|]; split; [reflexivity|]).
  - now apply op1.
  - now apply op2.
Qed.

(* ---- whole circuits of table gates ---- *)
(* the state after the documented gates, first gate first *)
Fixpoint documented_state (n : nat) (l : list (matrix * list nat)) (v : vector) : vector :=
  match l with [] => v | (U, qs) :: r => documented_state n r (mv n (gate_on n U qs) v) end.
Definition well_used (n : nat) (x : qgate * list nat) (y : matrix * list nat) : Prop :=
  exists k, documented (fst x) k (length (snd x)) (fst y) /\ snd y = snd x /\ NoDup (snd x) /\ (forall q, In q (snd x) -> q < n) /\ gctl (fst x) = 2 ^ k - 1.
Theorem C59_circuit_partial n l ds : Forall2 (well_used n) l ds ->
  exists gs, all_some (map (fun x => translate (fst x) (snd x)) l) = Some gs /\
    forall v, veq n (finalv n (map (fun g => I (BGate g) None) gs) v) (documented_state n ds v).
Proof.
  induction 1 as [|x y l ds Hx _ (gs & Hg & IH)]; [exists []; split; [reflexivity|intros v; apply veq_refl]|].
  destruct Hx as (k & Hd & Hq & HN & Hn & Hs). destruct (C59_gate_table_partial n (fst x) (snd x) k (fst y) Hd HN Hn Hs) as (o & Ho & _ & HM).
  exists (o :: gs). split; [cbn [map all_some]; now rewrite Ho, Hg|]. intros v. destruct y as [U qs]. cbn [fst snd] in *. subst qs.
  cbn [map finalv op documented_state]. eapply veq_trans; [|apply IH]. apply finalv_veq.
  intros i Hi. apply mv_ext; auto using meq_refl. apply veq_refl.
Qed.

(* ---- FINDING: ctrl_state is ignored ---- *)
Fixpoint scatter (qs : list nat) (v : nat) : nat :=
  match qs with [] => 0 | q :: r => setb (scatter r (v / 2)) q (v mod 2) end.
Lemma scatter_lt n qs v : (forall q, In q qs -> q < n) -> scatter qs v < 2 ^ n.
Proof.
  revert v. induction qs as [|q qs IH]; intros v Hn; cbn [scatter]; [apply Nat.neq_0_lt_0, Nat.pow_nonzero; lia|].
  apply setb_lt; [|apply Hn; now left]. apply IH. intros x Hx. apply Hn. now right.
Qed.
Lemma scatter_off qs v l : ~ In l qs -> Nat.testbit (scatter qs v) l = false.
Proof.
  revert v. induction qs as [|q qs IH]; intros v Hl; cbn [scatter]; [apply Nat.bits_0|]. rewrite setb_testbit.
  destruct (Nat.eqb_spec l q) as [->|Hne]; [exfalso; apply Hl; now left|]. apply IH. intros h. apply Hl. now right.
Qed.
Lemma gather_scatter qs v : NoDup qs -> v < 2 ^ length qs -> gather qs (scatter qs v) = v.
Proof.
  revert v. induction qs as [|q qs IH]; intros v HN Hv; [cbn in *; lia|]. inversion HN as [|y l Hq HN']; subst.
  rewrite gather_S. cbn [scatter]. assert (E : gather qs (setb (scatter qs (v / 2)) q (v mod 2)) = gather qs (scatter qs (v / 2))).
  { apply gather_eq_bits. intros x Hx. rewrite setb_testbit. destruct (Nat.eqb_spec x q) as [->|]; auto. contradiction. }
  cbn [length Nat.pow] in Hv. rewrite E, IH by (auto; apply Nat.div_lt_upper_bound; lia).
  assert (Hb : bit (setb (scatter qs (v / 2)) q (v mod 2)) q = v mod 2).
  { unfold bit. rewrite setb_testbit, Nat.eqb_refl. pose proof (Nat.mod_upper_bound v 2 ltac:(lia)). destruct (v mod 2) as [|[|]]; cbn; lia. }
  rewrite Hb. pose proof (Nat.div_mod v 2 ltac:(lia)). lia.
Qed.
(* whenever the gate applied is the documented one although the controls are not
   all required to be 1, the base gate is the identity *)
Theorem C59_ctrl_state_refuted n g qs k b B o : base (gcls g) (gpar g) = Some (b, B) -> documented g k (length qs) (controlled k (gctl g) B) ->
  length qs = k + b -> NoDup qs -> (forall q, In q qs -> q < n) -> gctl g <> 2 ^ k - 1 -> translate g qs = Some o ->
  meq n (gate_mat n (fun q => q) o) (gate_on n (controlled k (gctl g) B) qs) -> meq b B ident.
Proof.
  intros Hb Hd Hl HN Hn Hs Ho HM x y Hx Hy. pose (g' := QG (gcls g) (gpar g) (2 ^ k - 1)).
  assert (Hk : 0 < 2 ^ k) by (apply Nat.neq_0_lt_0, Nat.pow_nonzero; lia).
  assert (Hd' : documented g' k (length qs) (controlled k (2 ^ k - 1) B)).
  { destruct Hd as (b' & B' & Hb' & Hc & _ & _ & _). exists b, B. cbn [gcls gpar gctl g']. repeat split; auto. lia. }
  destruct (C59_gate_table_partial n g' qs k _ Hd' HN Hn eq_refl) as (o' & Ho' & _ & HM').
  assert (o' = o) by (unfold translate, g' in Ho'; cbn [gcls gpar] in Ho'; unfold translate in Ho; congruence). subst o'.
  pose (i := scatter qs (2 ^ k - 1 + 2 ^ k * x)). pose (j := scatter qs (2 ^ k - 1 + 2 ^ k * y)).
  assert (Hi : i < 2 ^ n) by (apply scatter_lt; auto). assert (Hj : j < 2 ^ n) by (apply scatter_lt; auto).
  specialize (HM i j Hi Hj). specialize (HM' i j Hi Hj). rewrite HM' in HM. clear HM'. revert HM. unfold gate_on.
  assert (HA : agree_off n qs i j = true).
  { apply agree_off_spec. intros l _ Hnin. unfold i, j. now rewrite !scatter_off. }
  assert (Hlt : forall z, z < 2 ^ b -> 2 ^ k - 1 + 2 ^ k * z < 2 ^ length qs).
  { intros z Hz. rewrite Hl, Nat.pow_add_r. nia. }
  assert (Ei : gather qs i = 2 ^ k - 1 + 2 ^ k * x) by (apply gather_scatter; auto).
  assert (Ej : gather qs j = 2 ^ k - 1 + 2 ^ k * y) by (apply gather_scatter; auto).
  rewrite HA, Ei, Ej. unfold controlled.
  assert (Hm : forall z, (2 ^ k - 1 + 2 ^ k * z) mod 2 ^ k = 2 ^ k - 1).
  { intros z. rewrite Nat.mul_comm, Nat.mod_add by lia. apply Nat.mod_small. lia. }
  assert (Hv : forall z, (2 ^ k - 1 + 2 ^ k * z) / 2 ^ k = z).
  { intros z. rewrite Nat.mul_comm, Nat.div_add by lia. rewrite Nat.div_small by lia. reflexivity. }
  rewrite !Hm, !Hv, !Nat.eqb_refl. rewrite (proj2 (Nat.eqb_neq (2 ^ k - 1) (gctl g))) by auto. intros ->.
  unfold ident. destruct (Nat.eqb_spec x y) as [->|Hne]; [now rewrite Nat.eqb_refl|].
  rewrite (proj2 (Nat.eqb_neq _ _)); auto. nia.
Qed.
(* in particular a CX that should act when its control is 0 *)
Definition open_cx : qgate := QG CXGate [] 0.
Theorem C59_open_cx_refuted : documented open_cx 1 2 (controlled 1 0 PX) /\
  exists o, translate open_cx [0; 1] = Some o /\ ~ meq 2 (gate_mat 2 (fun q => q) o) (gate_on 2 (controlled 1 0 PX) [0; 1]).
Proof.
  assert (Hd : documented open_cx 1 2 (controlled 1 0 PX)).
  { exists 1, PX. cbn. repeat split; auto. }
  split; [exact Hd|]. eexists. split; [reflexivity|]. intros HM.
  assert (HI : meq 1 PX ident).
  { assert (HN : NoDup [0; 1]) by (repeat constructor; cbn; intuition lia). assert (Hq : forall q, In q [0; 1] -> q < 2) by (intros q [<-|[<-|[]]]; lia).
    refine (C59_ctrl_state_refuted 2 open_cx [0; 1] 1 1 PX _ eq_refl Hd eq_refl HN Hq _ eq_refl HM). cbn. lia. }
  specialize (HI 0 0 ltac:(cbn; lia) ltac:(cbn; lia)). cbn in HI. injection HI as HI. lra.
Qed.
(* ---- QDDGate: right when its qubits are the register in order, wrong otherwise ---- *)
Theorem C59_qddgate_partial n A : meq n (gate_mat n (fun q => q) (translate_qdd A (seq 0 n))) (gate_on n A (seq 0 n)).
Proof.
  intros i j Hi Hj. cbn [translate_qdd gate_mat]. unfold gate_on. rewrite !gather_id by auto.
  assert (HA : agree_off n (seq 0 n) i j = true); [|now rewrite HA].
  apply agree_off_spec. intros l Hl Hnin. exfalso. apply Hnin, in_seq. lia.
Qed.
(* a CX diagram appended to the qubits [1; 0] *)
Theorem C59_qddgate_refuted : let A := gate_on 2 (controlled 1 1 PX) [0; 1] in
  ~ meq 2 (gate_mat 2 (fun q => q) (translate_qdd A [1; 0])) (gate_on 2 A [1; 0]).
Proof.
  cbn [translate_qdd gate_mat]. intros HM. specialize (HM 1 1 ltac:(cbn; lia) ltac:(cbn; lia)). cbn in HM. injection HM as HM. lra.
Qed.
(* ---- the hypotheses are met: a Toffoli gate on the qubits 3, 0 and 1 of four ---- *)
Example C59_example : documented (QG CCXGate [] 3) 2 3 (controlled 2 3 PX) /\
  documented (QG RZXGate [1%R] 0) 0 2 (controlled 0 0 (rot 1 (kronm 1 PX PZ))) /\ documented (QG MCPhaseGate [1%R] 31) 5 6 (controlled 5 31 (phase_gate 1)).
Proof.
  split; [|split].
  - exists 1, PX. cbn. repeat split; auto; lia.
  - eexists 2, _. split; [reflexivity|]. cbn. repeat split; auto; lia.
  - eexists 1, _. split; [reflexivity|]. cbn. repeat split; auto; lia.
Qed.
