(* MergeX.v -- C61, what merge_circuit does not do: instructions that are not gates and
   conditions are dropped silently, UnitaryGate cannot be merged, and its collections
   destroy the gates the caller holds.  Also a circuit meeting the hypotheses of C61. *)
From Coq Require Import Reals Lra Psatz ZArith Bool List Lia Arith.
From Coquelicot Require Import Complex.
From Verif Require Import Num State DD Gates GC Measure Api RNum Wf Sums Err Inv Wp Make Add MulV Canon MM MM2
  GateP StateP Kron Spec SpecP Readout GCP MeasureP MeasAllP MeasOneP ApplyP ApiP Obs Props1 Props2 Prog Circuit LargeP GateMat Examples
  Backend BackSpec BackendP BackendQ BackendX BackLink GCX Merge MergeP.
Import ListNotations.
Open Scope nat_scope.

(* ---- a UnitaryGate always raises ---- *)
Section Raise.
Context (tau : R) {HTol : Tol tau}.
#[local] Hint Extern 0 NumOps => exact (RNum tau) : typeclass_instances.
Context {CF : Cfg}.
Lemma merge_loop_unitary i freq n obj l k col c o : merge_loop tau i freq n obj l k col c o ->
  (exists x g qs, In x l /\ op x = BGate (GU g qs)) -> o = None.
Proof.
  induction 1 as [k c|x r k col c c' Hop Hl IH|x g it r k b col s h hs1 c1 c2 c3 c' Hop Hgi H1 H2 Ht Hl IH
    |x g qs r k c Hop|x A qs j r k b col s h hs1 c2 c3 c' Hop Hj H2 Ht Hl IH|x r k b col c c3 c' Hop Ht Hl IH];
    intros (y & g' & qs' & Hy & Hg'); [destruct Hy|destruct Hy as [<-|Hy]..]; auto; try (apply IH; eauto).
  - rewrite Hg' in Hop. contradiction.
  - rewrite Hg' in Hop. injection Hop as <-. discriminate.
  - rewrite Hg' in Hop. discriminate.
  - rewrite Hg' in Hop. contradiction.
Qed.
Theorem C61_unitary_raises i freq c obj col cf o x g qs : In x (data c) -> op x = BGate (GU g qs) ->
  merge tau i freq c obj col cf o -> o = None.
Proof.
  intros Hx Ho Hm. destruct Hm as [col s hs c1 c2 c3 H1 Hl H2|col s hs c1 H1 Hl]; [|reflexivity].
  pose proof (merge_loop_unitary _ _ _ _ _ _ _ _ _ Hl) as E. discriminate E. eauto.
Qed.
End Raise.

(* ---- resets and conditions are dropped ---- *)
Definition c_reset : circ := Circ 1 1 [xg; I (BReset 0) None] 0%R.
Definition c_cond : circ := Circ 1 1 [I (BGate (G1 X [0])) (Some (CBit 0 true))] 0%R.
Lemma cis0 : (cos 0, sin 0) = RtoC 1.
Proof. now rewrite cos_0, sin_0. Qed.
Lemma op_one c : nq c = 1 -> gphase c = 0%R -> veq 1 (finalv 1 (data c) (basis 0)) (basis 1) -> veq 1 (mv 1 (operator c) (basis 0)) (basis 1).
Proof.
  intros Hn Hp Hf i Hi. rewrite <- (Hf i Hi).
  rewrite (mv_ext 1 (operator c) (product 1 (data c) ident) (basis 0) (basis 0)); auto using veq_refl.
  - rewrite (product_final 1 (data c) ident (basis 0) i Hi). apply finalv_veq; auto. apply mv_ident.
  - intros a b _ _. unfold operator. rewrite Hn, Hp, cis0. ring.
Qed.
(* [x; reset]: merged, it maps |0> to |1>; run, it ends in |0> for every draw *)
Theorem C61_reset_refuted eps : (0 <= eps)%R ->
  veq 1 (mv 1 (operator c_reset) (basis 0)) (basis 1) /\
  forall th, (0 <= th < 1)%R -> exists v, run (exec eps 1 false (data c_reset) (basis 0) [false] []) [th] = Some (Some (v, [false], []), []) /\
    veq 1 v (basis 0).
Proof.
  intros He. split.
  - apply op_one; try reflexivity. cbn [data c_reset finalv op xg gate_mat]. exact x_basis.
  - intros th Hth. cbn [data c_reset exec op xg skip cnd gate_mat gqs last removelast ctl_of]. unfold meas1.
    match goal with |- context [norm2v 1 ?u] => set (w := u) end.
    assert (W0 : w 0 = RtoC 0) by (etransitivity; [apply x_basis; cbn; lia|reflexivity]).
    assert (W1 : w 1 = RtoC 1) by (etransitivity; [apply x_basis; cbn; lia|reflexivity]).
    clearbody w.
    assert (Hn : norm2v 1 w = 1%R) by (unfold norm2v; cbn; rewrite W0, W1, Cmod_0, Cmod_1; ring).
    assert (Hp : probq 1 w 0 0 = 0%R) by (unfold probq; cbn; rewrite W0, Cmod_0; ring).
    assert (Hp1 : probq 1 w 0 1 = 1%R) by (unfold probq; cbn; rewrite W1, Cmod_1; ring).
    rewrite Hn, Hp. destruct (Rlt_dec eps (Rabs (1 - 1))) as [h|_]; [exfalso; rewrite Rminus_eq_0, Rabs_R0 in h; lra|].
    cbn [run]. destruct (Rlt_dec th (0 / 1)) as [h|_]; [exfalso; unfold Rdiv in h; lra|]. cbn [run]. eexists. split; [reflexivity|].
    intros i Hi. rewrite gate1_action by (auto; lia). cbn in Hi. change (b2n true) with 1. rewrite Hp1, sqrt_1.
    assert (i = 0 \/ i = 1) as [->| ->] by lia; cbn; rewrite ?W1; unfold basis, Cdiv; cbn; apply injective_projections; cbn; field.
Qed.
(* [x if clbit 0 is set]: merged, it maps |0> to |1>; run, it leaves |0> *)
Theorem C61_condition_refuted (eps : R) :
  veq 1 (mv 1 (operator c_cond) (basis 0)) (basis 1) /\
  exec eps 1 false (data c_cond) (basis 0) [false] [] = Leaf (basis 0, [false], []).
Proof. split; [|reflexivity]. apply op_one; try reflexivity. cbn [data c_cond finalv op gate_mat]. exact x_basis. Qed.

(* ---- collections destroy the caller's gates ---- *)
Section Stale.
#[local] Hint Extern 0 NumOps => exact (RNum 0) : typeclass_instances.
Context (mt : bool).
#[local] Instance CFm : @Cfg (RNum 0) := cfg_of mt 0.
Notation state := (@state (RNum 0)).
Notation handle := (@handle (RNum 0)).

(* the threshold is 0 and the allocation counters are not negative *)
Definition low (s : state) : Prop := gc_m s = 0%Z /\ forall k i, (0 <= p_asize (pools (tb s k) i))%Z /\ (0 <= p_allocs (pools (tb s k) i))%Z.
Lemma getNode_low i t a t' : (forall j, (0 <= p_asize (pools t j))%Z /\ (0 <= p_allocs (pools t j))%Z) -> getNode i t = (a, t') ->
  forall j, (0 <= p_asize (pools t' j))%Z /\ (0 <= p_allocs (pools t' j))%Z.
Proof.
  intros Ht Hg j. unfold getNode in Hg. specialize (Ht i) as Hi. specialize (Ht j). unfold GROWTH_FACTOR in *.
  destruct (p_avail (pools t i)); [destruct (p_left (pools t i) =? 0)%Z|]; injection Hg as <- <-; cbn [pools]; unfold pupd;
    destruct (Nat.eqb i j); cbn; auto; lia.
Qed.
Lemma set_tb_low s k t : low s -> (forall j, (0 <= p_asize (pools t j))%Z /\ (0 <= p_allocs (pools t j))%Z) -> low (set_tb s k t).
Proof. intros [H1 H2] Ht. split; [exact H1|]. intros k' i. cbn. destruct (kind_eqb k k'); auto. Qed.
Lemma pupd_low (t : table) i p : (forall j, (0 <= p_asize (pools t j))%Z /\ (0 <= p_allocs (pools t j))%Z) ->
  p_asize p = p_asize (pools t i) -> p_allocs p = p_allocs (pools t i) ->
  forall j, (0 <= p_asize (pupd (pools t) i p j))%Z /\ (0 <= p_allocs (pupd (pools t) i p j))%Z.
Proof. intros Ht E1 E2 j. unfold pupd. destruct (Nat.eqb i j); auto. rewrite E1, E2. apply Ht. Qed.
Lemma intern_low k i nd s p s' : low s -> intern k i nd s = Some (p, s') -> low s'.
Proof.
  intros Hs Hi. unfold intern in Hi. destruct (getNode i (tb s k)) as [a t1] eqn:Hg. pose proof (getNode_low _ _ _ _ (Logic.proj2 Hs k) Hg) as H1.
  destruct (State.lookup k i a nd (writeNode a nd t1)) as [[q t2]|] eqn:Hl; [|discriminate]. injection Hi as <- <-.
  apply set_tb_low; auto. unfold State.lookup in Hl. destruct (level_ok (nv nd)); [|discriminate].
  destruct (scan _ _ nd) as [[b|]|]; [| |discriminate]; injection Hl as <- <-; cbn [pools returnNode writeNode]; auto.
  apply pupd_low; auto.
Qed.
Lemma scratch_low k i nd s : low s -> low (scratch k i nd s).
Proof.
  intros Hs. unfold scratch. destruct (getNode i (tb s k)) as [a t1] eqn:Hg. pose proof (getNode_low _ _ _ _ (Logic.proj2 Hs k) Hg) as H1.
  apply set_tb_low; auto. cbn [pools returnNode writeNode]. apply pupd_low; auto.
Qed.
Lemma low_tb s s' : low s -> tb s' = tb s -> gc_m s' = gc_m s -> low s'.
Proof. intros [H1 H2] E1 E2. split; [now rewrite E2|]. rewrite E1. exact H2. Qed.
Lemma act1_low i c s c' s' : low s -> act1 i c s = Some (Cfg_ok c' s') -> low s'.
Proof.
  intros Hs Ha. destruct c; cbn [act1] in Ha; try discriminate.
  - destruct (readn k p s); inversion Ha; subst; auto.
  - destruct (intern k i nd s) as [[p s1]|] eqn:Hi; inversion Ha; subst. eapply intern_low; eauto.
  - inversion Ha; subst. now apply scratch_low.
  - destruct (afind k i l r s); inversion Ha; subst; auto.
  - destruct (aset k i l r res s) as [s1|] eqn:Hi; inversion Ha; subst. unfold aset in Hi.
    destruct (aorder k l r s) as [[[lv a] b]|]; [|discriminate]. destruct (level_ok lv); inversion Hi; subst. eapply low_tb; eauto.
  - destruct (mfind k i l r s) as [[e s1]|] eqn:Hi; inversion Ha; subst. unfold mfind in Hi.
    destruct (getVar KM l s); [|discriminate]. destruct (level_ok z); [|discriminate]. cbv zeta in Hi.
    repeat match type of Hi with
    | Some _ = Some _ => injection Hi as <- <-
    | match ?x with _ => _ end = _ => destruct x; try discriminate
    end; try (eapply low_tb; eauto; reflexivity); auto.
  - destruct (mset k i l r res s) as [s1|] eqn:Hi; inversion Ha; subst. unfold mset in Hi.
    destruct (getVar KM l s); [|discriminate]. destruct (level_ok z); inversion Hi; subst. eapply low_tb; eauto.
Qed.
Definition low_c (g : config) : Prop := match g with Cfg_ok _ s => low s | Wrong => True end.
Lemma step_low g g' : step g g' -> low_c g -> low_c g'.
Proof.
  induction 1; cbn [low_c] in *; auto. intros Hs. destruct g as [c' s'|]; cbn; auto. eapply act1_low; eauto.
Qed.
Lemma steps_low g g' : steps g g' -> low_c g -> low_c g'.
Proof. induction 1; auto. intros Hs. apply IHsteps. eapply step_low; eauto. Qed.
Lemma call_low x c c' : (forall i col ths, x <> P_measure i col ths) -> (forall i q e th, x <> P_measure1 i q e th) ->
  exec1 0 x c c' [] -> low (fst c) -> low (fst c').
Proof.
  intros H1 H2 Hx Hs. inversion Hx; subst; cbn [fst] in *.
  - match goal with HS : steps _ _ |- _ => apply (steps_low _ _ HS Hs) end.
  - exfalso. eapply H1; reflexivity.
Qed.

Definition idg : inst := I (BGate (G1 ident [0])) None.
Definition c_id (m : nat) : circ := Circ 1 0 (repeat idg m) 0%R.
Lemma size1 : size_ok 1.
Proof. unfold size_ok, NQUBITS. lia. Qed.
Lemma term_ident s : meq 1 (matof 0 s 1 (E c1 Term)) ident.
Proof.
  intros a b Ha Hb. cbn in Ha, Hb. assert (a = 0 \/ a = 1) as [->| ->] by lia; assert (b = 0 \/ b = 1) as [->| ->] by lia;
    unfold matof, matF, val, ident; cbn; apply injective_projections; cbn; ring.
Qed.
Lemma ident_edge s e hs : reachable (s, H KM 1 e :: hs) -> reads_m 0 s 1 e ident -> e = E c1 Term.
Proof.
  intros Hr (Hm & _). pose proof (reach_Inv 0 _ _ Hr) as HI. destruct (reach_M 0 _ _ _ _ Hr (or_introl eq_refl)) as (_ & Hw).
  assert (Hw' : wfe 0 KM (tb s KM) 1 (E c1 Term)) by (left; left; reflexivity).
  destruct (canon_edge 0 KM (tb s KM) 1 e (E c1 Term) eq_refl (inv_tb _ _ HI KM) Hw Hw') as [h|[_ h]]; auto.
  - apply (meq_val 0); auto. eapply meq_trans; [exact Hm|apply meq_sym, term_ident].
  - exfalso. injection h as h. lra.
Qed.
Lemma x_inner s e : reads_m 0 s 1 e (gate1 1 X 0 []) -> exists a, en e = Node a.
Proof.
  intros (Hm & _). assert (h01 : matof 0 s 1 e 0 1 = RtoC 1).
  { rewrite (Hm 0 1) by (cbn; lia). unfold gate1, X. cbn. reflexivity. }
  unfold matof, matF, val in h01. destruct e as [w [| |a]]; [| |exists a; reflexivity]; exfalso; cbn in h01.
  all: replace (w * (0%R * 1%R))%C with (RtoC 0) in h01 by ring; injection h01 as h; lra.
Qed.
Lemma gone s e a : tb s KM = table_init -> en e = Node a -> getMatrix s e 1 = None.
Proof.
  intros Ht Ha. unfold getMatrix, getVar, readn. rewrite Ha, Ht. reflexivity.
Qed.
Lemma idg_loop i freq hs obj m : forall k c M col o, 1 <= m -> k + m = freq -> at_ 0 c 1 M hs obj -> meq 1 M ident -> low (fst c) ->
  merge_loop 0 i freq 1 obj (repeat idg m) k col c o ->
  exists s', o = Some (s', H KM 1 (E c1 Term) :: hs) /\ tb s' KM = table_init /\ col = true.
Proof.
  induction m as [|m IH]; intros k c M col o Hm Hk Ha HM Hlow Hl; [lia|]. cbn [repeat] in Hl.
  inversion Hl as [|x r k0 col0 c0 c' Hop Hl'|x g it r k0 b col0 s h hs1 c1' c2 c3 c' Hop Hgi H1 H2 Ht Hl'
    |x g qs r k0 c0 Hop|x A qs j r k0 b col0 s h hs1 c2 c3 c' Hop Hj H2 Ht Hl'|x r k0 b col0 c0 c3 c' Hop Ht Hl']; subst; try discriminate; try contradiction.
  cbn in Hop. injection Hop as <-. cbn in Hgi. injection Hgi as <-.
  assert (Eh : hs1 = hs) by (destruct Ha as (s' & e & E & _); congruence). subst hs1.
  assert (Hg : gmeans 1 (P_gate 1 ident 0 []) (gate1 1 ident 0 [])).
  { apply (ginstr_means 1 (G1 ident [0]) _ size1); [cbn|reflexivity]. split; [lia|]. split; [repeat constructor; intros []|intros q [<-|[]]; lia]. }
  pose proof (step_gate 0 eq_refl _ _ s h hs c1' c2 1 M obj Hg Ha H1 H2) as Ha2.
  assert (L1 : low (fst c1')) by (eapply call_low; [| |exact H1|exact Hlow]; intros; discriminate).
  assert (L2 : low (fst c2)) by (eapply call_low; [| |exact H2|exact L1]; intros; discriminate).
  assert (HM2 : meq 1 (mm 1 (gate1 1 ident 0 []) M) ident).
  { eapply meq_trans; [apply mm_ext; [apply gate1_ident; lia|exact HM]|]. apply mm_ident_l. }
  destruct m as [|m].
  - (* the last one: the collection is carried out *)
    destruct Ha2 as (s2 & e2 & E2 & Hr2 & Hm2 & HF2). rewrite E2 in Ht.
    assert (Hlow2 : low s2).
    { replace s2 with (fst (drop_older 0 c2 hs)) by (rewrite E2; reflexivity). exact L2. }
    rewrite E2 in Hr2. pose proof (ident_edge s2 e2 hs Hr2 (reads_m_meq 0 _ _ _ _ _ HM2 Hm2)) as ->.
    destruct Hlow2 as [Z0 Hp]. inversion Ht as [ca Hk'|sa ma ea ha Hk' Hga Hb|sa ma ea ha e' s' Hk' Hb Hga]; subst.
    + exfalso. apply Hk'. rewrite Nat.add_comm. apply Nat.mod_same. lia.
    + exfalso. unfold below_thr in Hb. rewrite Z0 in Hb. apply Z.ltb_lt in Hb. specialize (Hp KM i). cbn in Hb. lia.
    + destruct (gc_mat_empty 0 i _ false s2 _ _ Hga) as (E' & T'); [left; rewrite Z0; cbn; apply (Hp KM i)|].
      injection E' as ->. inversion Hl'; subst. exists s'. auto.
  - assert (Hc3 : c3 = drop_older 0 c2 hs /\ b = false).
    { assert (HN : S k mod (k + S (S m)) <> 0) by (rewrite Nat.mod_small by lia; lia).
      inversion Ht; subst; auto; contradiction. }
    destruct Hc3 as [-> ->].
    destruct (IH (S k) _ _ _ _ ltac:(lia) ltac:(lia) Ha2 HM2 ltac:(cbn; exact L2) Hl') as (s' & -> & T' & ->). exists s'. auto.
Qed.
(* For every collection period: a client holds an X gate, has set the gate threshold
   to 0, and merges a circuit of that many identity gates.  Every execution
   completes, carries out a collection and returns the identity, and the X gate the
   client still holds points into the freed table: reading it is undefined. *)
Theorem C61_stale_refuted i freq : 1 <= freq ->
  exists s e, reachable (s, [H KM 1 e]) /\ reads_m 0 s 1 e (gate1 1 X 0 []) /\
    forall col o, merge 0 i freq (c_id freq) [IM 1 (gate1 1 X 0 [])] col (s, [H KM 1 e]) o ->
      exists s' e', o = Some (s', [H KM 1 e'; H KM 1 e]) /\ col = true /\ getMatrix s' e 1 = None.
Proof.
  intros Hf. set (X1 := gate1 1 X 0 []).
  assert (Hi : isem (P_gate 1 X 0 []) [] (IM 1 X1) []).
  { cbn [isem]. split; [apply size1|]. split; [unfold qubit; lia|]. split; [split; [constructor|intros x []]|split; reflexivity]. }
  destruct (exec1_exists 0 eq_refl (P_gate 1 X 0 []) (set_gc_thr 0 0 state_init, []) [] _ [] (r_step _ _ r_init (a_thr _ _ _ _)) (Forall2_nil _) Hi)
    as ([s hs] & Hx).
  destruct (exec1_env 0 eq_refl _ (set_gc_thr 0 0 state_init, []) _ [] _ [] [] (r_step _ _ r_init (a_thr _ _ _ _)) (Forall2_nil _) Hi Hx) as (_ & Hr & HF).
  cbn [fst snd] in *. assert (L : low s).
  { change s with (fst (s, hs)). eapply call_low; [| |exact Hx|]; [intros; discriminate|intros; discriminate|].
    split; [reflexivity|]. intros k j. cbn. unfold INITIAL_ALLOCATION_SIZE, GROWTH_FACTOR. lia. }
  inversion HF as [|h0 a l l' Hh HF']; subst. inversion HF'; subst. destruct h0 as [k0 n0 e]. cbn in Hh. destruct Hh as (-> & -> & Hh).
  destruct (x_inner s e Hh) as (a & Ea). exists s, e. split; [exact Hr|]. split; [exact Hh|]. intros col o Hg.
  assert (HL : forall c1' o', exec1 0 (P_gate 1 ident 0 []) (s, [H KM 1 e]) c1' [] ->
    merge_loop 0 i freq 1 [IM 1 X1] (repeat idg freq) 0 col c1' o' ->
    exists s', o' = Some (s', [H KM 1 (E c1 Term); H KM 1 e]) /\ tb s' KM = table_init /\ col = true).
  { intros c1' o' H1 Hl. apply (idg_loop i freq [H KM 1 e] [IM 1 X1] freq 0 c1' ident col); auto using meq_refl.
    - apply (at_start 0 eq_refl 1 s [H KM 1 e]); auto. apply size1.
    - eapply call_low; [| |exact H1|exact L]; intros; discriminate. }
  inversion Hg as [a1 a2 a3 c1' c2 c3 H1 Hl Hp|a1 a2 a3 c1' H1 Hl]; subst; destruct (HL _ _ H1 Hl) as (s2 & E2 & T2 & Ec); [injection E2 as ->|discriminate].
  inversion Hp as [x sa ha k n cm e3 s3 Hc Hs| |]; subst; try discriminate. cbn in Hc. injection Hc as <- <- <-.
  assert (s3 = s2) by (inversion Hs; subst; auto; match goal with HS : step _ _ |- _ => inversion HS; subst; discriminate end). subst s3.
  exists s2, e3. split; [reflexivity|]. split; [reflexivity|]. exact (gone s2 e a T2 Ea).
Qed.
End Stale.

(* ---- a circuit meeting the hypotheses: the Bell circuit of BackendX, and a client
   that holds a two-qubit state ---- *)
Example C61_bell : mergeable 2 [] (data bellc) /\ size_ok (nq bellc).
Proof.
  destruct C58_bell as (_ & Hl & Hs). split; [|exact Hs]. intros x g Hx Hg. pose proof (Hl x g Hx Hg) as Hlib. destruct g; try exact Hlib; contradiction.
Qed.
