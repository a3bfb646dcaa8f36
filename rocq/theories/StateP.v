(* StateP.v -- basis states are built exactly, at every tolerance; tensor
   product of states; global phase. *)
From Coq Require Import Reals Lra Psatz ZArith Bool List Lia Arith.
From Coquelicot Require Import Complex.
From Verif Require Import Num State DD Gates RNum Wf Sums Err Inv Wp Make Add MulV GateP Canon.
Import ListNotations.
Open Scope Z_scope.

(* index-level basis state: bits b *)
Fixpoint bsF (n : nat) (b : nat -> nat) (ix : nat -> nat) : C :=
  match n with
  | O => RtoC 1
  | S m => if Nat.eqb (ix m) (b m) then bsF m b ix else RtoC 0
  end.

Section StateP.
Context (tau : R) {HTol : Tol tau}.
Let Htau : (0 <= tau < 1 / 2)%R := tol_ok.
#[local] Hint Extern 0 NumOps => exact (RNum tau) : typeclass_instances.
Context {CF : Cfg}.
Notation table := (@table (RNum tau)).
Notation state := (@state (RNum tau)).
Notation edge := (@edge (RNum tau)).
Notation node := (@node (RNum tau)).
Notation val := (val tau).
Notation valp := (valp tau).
Notation wfe := (wfe tau).
Notation wfp := (wfp tau).
Notation reg := (reg tau).
Notation TInv := (TInv tau).
Notation Inv := (Inv tau).
Notation rel := (rel tau).
Notation dn := (dn tau).
Notation E := (@E (RNum tau)).

Lemma isequal_c0 (x : @cx (RNum tau)) : isequal c0 x = true -> iszero x = true.
Proof.
  destruct x as [a b]. unfold isequal, iszero. cbn. intros H.
  apply andb_true_iff. rewrite !Rleb_true. apply orb_prop in H as [H|H]; apply andb_prop in H as [H1 H2].
  - apply Reqb_true in H1, H2. subst. rewrite Rabs_R0. lra.
  - apply Rleb_true in H1, H2. replace (0 - a)%R with (- a)%R in H1 by ring. replace (0 - b)%R with (- b)%R in H2 by ring.
    rewrite Rabs_Ropp in H1, H2. auto.
Qed.
Lemma isone_c0 : @isone (RNum tau) c0 = false.
Proof.
  apply not_true_is_false. intros H. apply (isone_true tau) in H; [|lra].
  change (@c0 (RNum tau)) with (RtoC 0) in H. replace (Cminus (RtoC 0) (RtoC 1)) with (Copp (RtoC 1)) in H by ring.
  rewrite Cmod_opp, Cmod_1 in H. pose proof Htau. lra.
Qed.
Lemma isone_c1 : @isone (RNum tau) c1 = true.
Proof. apply isequal_refl. Qed.
Lemma cmul_11 : @cmul (RNum tau) c1 c1 = c1.
Proof. rewrite (cmul_C tau). change (@c1 (RNum tau)) with (RtoC 1). toC. ring. Qed.
Lemma cdiv_0 (y : @cx (RNum tau)) : y <> c0 -> cdiv c0 y = c0.
Proof. intros _. rewrite (cdiv_C tau). change (@c0 (RNum tau)) with (RtoC 0). apply Cdiv_0. Qed.
Lemma cmul_c1_r (y : @cx (RNum tau)) : cmul y c1 = y.
Proof. rewrite (cmul_C tau). change (@c1 (RNum tau)) with (RtoC 1). toC. ring. Qed.
Lemma cmul_c0_l (y : @cx (RNum tau)) : cmul c0 y = c0.
Proof. rewrite (cmul_C tau). change (@c0 (RNum tau)) with (RtoC 0). toC. ring. Qed.
Lemma cmul_c0_r (y : @cx (RNum tau)) : cmul y c0 = c0.
Proof. rewrite (cmul_C tau). change (@c0 (RNum tau)) with (RtoC 0). toC. ring. Qed.
Lemma iszero_c0' : @iszero (RNum tau) c0 = true.
Proof. apply iszero_c0. apply Htau. Qed.
Lemma iszero_c1' : @iszero (RNum tau) c1 = false.
Proof. apply iszero_c1. pose proof Htau. lra. Qed.

(* exact description of makeVEdge when one child has weight 0 *)
Definition mkV1 (q : Z) (c : bool) (e : edge) : comp :=
  CIntern KV (Nd q (if c then [zeroE; E c1 (en e)] else [E c1 (en e); zeroE])) (fun p =>
     CRead KV p (fun nd => if nv nd =? q then CRet (E (if isone (ew e) then c1 else ew e) p) else CFail)).
Lemma nltb_c0 (x : @cx (RNum tau)) : iszero x = false -> nltb (norm2 (@c0 (RNum tau))) (norm2 x) = true.
Proof.
  intros H. apply (iszero_false tau) in H; [|apply Htau]. cbn. apply Rltb_true.
  change (norm2 c0 < norm2 x)%R. rewrite !(norm2_Cmod tau). change (@c0 (RNum tau)) with (RtoC 0). rewrite Cmod_0.
  pose proof Htau. nra.
Qed.
Lemma nltb_c0_r (x : @cx (RNum tau)) : nltb (norm2 x) (norm2 (@c0 (RNum tau))) = false.
Proof.
  cbn. apply Rltb_false. change (norm2 c0 <= norm2 x)%R. rewrite !(norm2_Cmod tau).
  change (@c0 (RNum tau)) with (RtoC 0). rewrite Cmod_0. pose proof (Cmod_ge_0 x). nra.
Qed.
Lemma makeVEdge_hi q e0 e1 : ew e0 = c0 -> iszero (ew e1) = false -> makeVEdge q e0 e1 = mkV1 q true e1.
Proof.
  intros H0 H1. unfold makeVEdge, mkV1. rewrite H0, iszero_c0', H1. cbn [andb]. rewrite nltb_c0 by auto.
  rewrite cmul_c1_r, H1, H0, cdiv_0, isone_c0, iszero_c0' by (intros h; rewrite h, iszero_c0' in H1; discriminate). reflexivity.
Qed.
Lemma makeVEdge_lo q e0 e1 : ew e1 = c0 -> iszero (ew e0) = false -> makeVEdge q e0 e1 = mkV1 q false e0.
Proof.
  intros H0 H1. unfold makeVEdge, mkV1. rewrite H0, H1, nltb_c0_r. cbn [andb].
  rewrite cmul_c1_r, H1, H0, cdiv_0, isone_c0, iszero_c0' by (intros h; rewrite h, iszero_c0' in H1; discriminate). reflexivity.
Qed.

(* a registered node equal (up to the tolerance) to a basis node is that node *)
Lemma basis_node_eq t (c : bool) q p a nd : TInv KV t -> reg KV t a nd ->
  node_eqb (Nd q (if c then [zeroE; E c1 p] else [E c1 p; zeroE])) nd = true ->
  nd = Nd q (if c then [zeroE; E c1 p] else [E c1 p; zeroE]).
Proof.
  intros HT Hr Heq. pose proof (reg_ok tau _ _ _ _ HT Hr) as Hok.
  destruct nd as [v ch]. unfold node_eqb in Heq. cbn [nv nch] in Heq. apply andb_prop in Heq as [Hv Heq].
  apply Z.eqb_eq in Hv. subst v.
  assert (Hz : forall x, In x ch -> edge_eqb zeroE x = true -> x = zeroE).
  { intros x Hx He. apply (no_zero _ _ _ _ Hok x Hx). unfold edge_eqb in He. apply andb_prop in He as [He _]. now apply isequal_c0. }
  assert (Hp : forall x, edge_eqb (E c1 p) x = true -> en x = p).
  { intros x He. unfold edge_eqb in He. apply andb_prop in He as [_ He]. apply ptr_eqb_eq in He. auto. }
  assert (Hc : c1 <> (@c0 (RNum tau))) by (apply c1_neq_c0).
  destruct (no_max _ _ _ _ Hok) as (i & Hi & Hw & _). cbn [nch arity] in *.
  destruct c; cbn [edges_eqb] in Heq; destruct ch as [|x [|y [|]]]; try discriminate; cbn [edges_eqb] in Heq;
    rewrite ?andb_false_r in Heq; try discriminate; rewrite andb_true_r in Heq; apply andb_prop in Heq as [Hx Hy].
  - pose proof (Hz x (or_introl eq_refl) Hx) as ->. f_equal. f_equal. f_equal. destruct y as [wy py].
    pose proof (Hp _ Hy) as h. cbn in h. subst py. f_equal. destruct i as [|[|i]]; [|exact Hw|lia].
    cbn in Hw. exfalso. apply Hc. now symmetry.
  - pose proof (Hz y (or_intror (or_introl eq_refl)) Hy) as ->. f_equal. f_equal. destruct x as [wx px].
    pose proof (Hp _ Hx) as h. cbn in h. subst px. f_equal. destruct i as [|[|i]]; [exact Hw| |lia].
    cbn in Hw. exfalso. apply Hc. now symmetry.
Qed.

(* handle of a basis state *)
Definition isbs (n : nat) (b : nat -> nat) (e : edge) (s : state) : Prop :=
  ew e = c1 /\ wfp KV (tb s KV) n (en e) /\ forall ix, val KV (tb s KV) n e ix = bsF n b ix.
Lemma isbs_stable n b : stable tau (isbs n b).
Proof.
  intros e s s' HI Hr (H1 & H2 & H3). pose proof (rel_ext _ _ _ KV Hr) as He. split; [auto|split].
  - eapply wfp_ext; eauto.
  - intros ix. rewrite (val_ext tau KV (tb s KV)); auto; [apply HI|now left].
Qed.
Lemma isbs_term b s : isbs 0 b oneE s.
Proof. split; [reflexivity|split; [reflexivity|]]. intros ix. unfold Wf.val. cbn. toC. change (@c1 (RNum tau)) with (RtoC 1). ring. Qed.

Lemma wpr_mkV1 (c : bool) n b e s (Q : post tau) :
  Inv s -> Z.of_nat n < NQUBITS -> isbs n b e s -> b n = (if c then 1%nat else 0%nat) ->
  (forall e' s', rel s s' -> isbs (S n) b e' s' -> Q e' s') ->
  wpr tau (mkV1 (Z.of_nat n) c e) Q s.
Proof.
  intros HI Hn (Hw & Hp & Hv) Hb HQ. unfold mkV1. set (nd := Nd (Z.of_nat n) (if c then [zeroE; E c1 (en e)] else [E c1 (en e); zeroE])).
  assert (He : wfe KV (tb s KV) n (E c1 (en e))) by (now left).
  assert (Hz : wfe KV (tb s KV) n zeroE) by apply wfe_zero.
  assert (Hin : forall x, In x (nch nd) -> x = zeroE \/ x = E c1 (en e)).
  { intros x Hx. unfold nd in Hx. cbn in Hx. destruct c; cbn in Hx; intuition. }
  assert (Hok : nodeok tau KV (tb s KV) nd).
  { constructor.
    - cbn. lia.
    - destruct c; reflexivity.
    - intros x Hx. cbn [nv nd]. rewrite Nat2Z.id. destruct (Hin x Hx) as [->| ->]; auto.
    - intros x Hx. destruct (Hin x Hx) as [->| ->]; cbn [ew zeroE].
      + change (@c0 (RNum tau)) with (RtoC 0). rewrite Cmod_0. lra.
      + change (@c1 (RNum tau)) with (RtoC 1). rewrite Cmod_1. lra.
    - intros x Hx Hx0. destruct (Hin x Hx) as [->| ->]; auto. cbn [ew] in Hx0. rewrite iszero_c1' in Hx0. discriminate.
    - destruct c.
      + exists 1%nat. split; [cbn; lia|]. split; [reflexivity|]. intros j Hj. assert (j = 0%nat) by lia. subst j. cbn [nth nch nd ew zeroE].
        change (@c0 (RNum tau)) with (RtoC 0). rewrite Cmod_0. lra.
      + exists 0%nat. split; [cbn; lia|]. split; [reflexivity|]. intros j Hj. lia.
    - discriminate. }
  apply (wpr_intern tau); auto. intros a nd' s2 Hr Hreg Heq. pose proof (rel_inv _ _ _ Hr) as HI2.
  apply (basis_node_eq (tb s2 KV) c _ _ a) in Heq; [|apply HI2|auto]. fold nd in Heq. subst nd'.
  apply (wpr_read tau) with (nd := nd); auto. cbn [nv nd]. rewrite Z.eqb_refl. rewrite Hw, isone_c1.
  apply (wpr_ret tau). intros s3 Hr3. apply HQ; [eapply rel_trans; eauto|].
  apply (isbs_stable (S n) b _ s2 s3 HI2 Hr3). split; [reflexivity|]. split.
  - exists a, nd. auto.
  - intros ix. rewrite (val_node tau KV (tb s2 KV) n a nd) by auto. change (@c1 (RNum tau)) with (RtoC 1). rewrite Cmult_1_l.
    cbn [bsF]. rewrite Hb.
    assert (Hc : val KV (tb s2 KV) n (E c1 (en e)) ix = bsF n b ix).
    { rewrite (val_ext tau KV (tb s KV)); [|apply HI|apply (rel_ext _ _ _ KV Hr)|auto]. rewrite <- Hv.
      unfold Wf.val. cbn [ew en]. now rewrite Hw. }
    destruct c; cbn [nch nd]; destruct (ix n) as [|[|i]]; cbn [nth Nat.eqb]; rewrite ?val_zeroE; auto;
      destruct i; cbn [nth]; apply val_zeroE.
Qed.

Lemma wpr_zero_loop n b (Q : post tau) : (forall l, b l = 0%nat) -> forall cnt i e s, Inv s -> (i + cnt = n)%nat -> Z.of_nat n <= NQUBITS ->
  isbs i b e s -> (forall e' s', rel s s' -> isbs n b e' s' -> Q e' s') ->
  wpr tau (zero_loop cnt (Z.of_nat i) e) Q s.
Proof.
  intros Hb. induction cnt as [|cnt IH]; intros i e s HI Hi Hn Hbs HQ; cbn [zero_loop].
  - assert (i = n) by lia. subst i. apply (wpr_ret tau). intros s' Hr. apply HQ; auto. now apply (isbs_stable _ _ _ s).
  - apply (wpr_bind tau); auto. destruct Hbs as (Hw & Hbs).
    rewrite makeVEdge_lo; [|reflexivity|rewrite Hw; apply iszero_c1'].
    refine (wpr_mkV1 false i b e s _ HI _ (conj Hw Hbs) (Hb i) _); [lia|].
    intros e' s' Hr He'. replace (Z.of_nat i + 1) with (Z.of_nat (S i)) by lia.
    refine (IH (S i) e' s' (rel_inv _ _ _ Hr) _ Hn He' _); [lia|]. intros e2 s2 Hr2 H2. apply HQ; auto. eapply rel_trans; eauto.
Qed.
Lemma wpr_one_loop n b (Q : post tau) : (forall l, (l < n)%nat -> b l = 1%nat) -> forall cnt i e s, Inv s -> (i + cnt = n)%nat -> Z.of_nat n <= NQUBITS ->
  isbs i b e s -> (forall e' s', rel s s' -> isbs n b e' s' -> Q e' s') ->
  wpr tau (one_loop cnt (Z.of_nat i) e) Q s.
Proof.
  intros Hb. induction cnt as [|cnt IH]; intros i e s HI Hi Hn Hbs HQ; cbn [one_loop].
  - assert (i = n) by lia. subst i. apply (wpr_ret tau). intros s' Hr. apply HQ; auto. now apply (isbs_stable _ _ _ s).
  - apply (wpr_bind tau); auto. destruct Hbs as (Hw & Hbs).
    rewrite makeVEdge_hi; [|reflexivity|rewrite Hw; apply iszero_c1'].
    refine (wpr_mkV1 true i b e s _ HI _ (conj Hw Hbs) (Hb i ltac:(lia)) _); [lia|].
    intros e' s' Hr He'. replace (Z.of_nat i + 1) with (Z.of_nat (S i)) by lia.
    refine (IH (S i) e' s' (rel_inv _ _ _ Hr) _ Hn He' _); [lia|]. intros e2 s2 Hr2 H2. apply HQ; auto. eapply rel_trans; eauto.
Qed.
Theorem wpr_makeZeroState n b s (Q : post tau) : Inv s -> (1 <= n)%nat -> Z.of_nat n <= NQUBITS -> (forall l, b l = 0%nat) ->
  (forall e' s', rel s s' -> isbs n b e' s' -> Q e' s') -> wpr tau (makeZeroState n) Q s.
Proof.
  intros HI Hn1 Hn Hb HQ. unfold makeZeroState. apply (wpr_bind tau); auto.
  change 1 with (Z.of_nat 1). change (makeVEdge 0) with (makeVEdge (Z.of_nat 0)).
  rewrite makeVEdge_lo; [|reflexivity|exact iszero_c1'].
  refine (wpr_mkV1 false 0 b oneE s _ HI _ (isbs_term b s) (Hb _) _); [cbn; lia|].
  intros e s' Hr He. apply (wpr_zero_loop n b Q Hb (n - 1) 1 e s'); auto; [apply (rel_inv _ _ _ Hr)|lia|].
  intros e2 s2 Hr2 H2. apply HQ; auto. eapply rel_trans; eauto.
Qed.
Theorem wpr_makeOneState n b s (Q : post tau) : Inv s -> (1 <= n)%nat -> Z.of_nat n <= NQUBITS -> (forall l, (l < n)%nat -> b l = 1%nat) ->
  (forall e' s', rel s s' -> isbs n b e' s' -> Q e' s') -> wpr tau (makeOneState n) Q s.
Proof.
  intros HI Hn1 Hn Hb HQ. unfold makeOneState. apply (wpr_bind tau); auto.
  change 1 with (Z.of_nat 1). change (makeVEdge 0) with (makeVEdge (Z.of_nat 0)).
  rewrite makeVEdge_hi; [|reflexivity|exact iszero_c1'].
  refine (wpr_mkV1 true 0 b oneE s _ HI _ (isbs_term b s) (Hb _ _) _); [cbn; lia|lia|].
  intros e s' Hr He. apply (wpr_one_loop n b Q Hb (n - 1) 1 e s'); auto; [apply (rel_inv _ _ _ Hr)|lia|].
  intros e2 s2 Hr2 H2. apply HQ; auto. eapply rel_trans; eauto.
Qed.

(* global phase: exact *)
Lemma val_applyGlobal k t n (e : edge) a ix :
  val k t n (applyGlobal e a) ix = Cmult (ncos a, nsin a) (val k t n e ix).
Proof. unfold applyGlobal, Wf.val. cbn [ew en]. rewrite (cmul_C tau (ew e) (ncos a, nsin a)). toC. ring. Qed.
End StateP.
