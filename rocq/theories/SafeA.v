(* SafeA.v -- structural well-formedness over an arbitrary arithmetic.
   Nothing here knows what a number is.  The only facts used are that some set
   of numbers (the exact zeros) is closed under the operations the library
   applies to them: a zero times anything is a zero, and so on.  Exact reals
   satisfy these laws, and so does any rounded arithmetic without overflow. *)
From Coq Require Import ZArith Bool List Lia.
From Verif Require Import Num State DD Wf.
Import ListNotations.
Open Scope Z_scope.

(* The laws.  [zr x]: x is an exact zero (of either sign). *)
Class Arith (NO : NumOps) := {
  zr : num -> Prop;
  zr_0 : zr n0;
  zr_add : forall x y, zr x -> zr y -> zr (nadd x y);
  zr_sub : forall x y, zr x -> zr y -> zr (nsub x y);
  zr_mul_l : forall x y, zr x -> zr (nmul x y);
  zr_mul_r : forall x y, zr x -> zr (nmul y x);
  (* dividing a zero by the squared modulus of a weight that is not negligible *)
  zr_div : forall x w, zr x -> iszero (cmul w c1) = false -> zr (ndiv x (norm2 w));
  (* a zero is negligible, and not close to one *)
  zr_tol : forall x, zr x -> nleb (nabs x) ntol = true;
  zr_not1 : forall x y, zr x -> zr y -> isone (x, y) = false;
  zr_eqb : forall x, zr x -> neqb x n0 = true;
  zr_lt : forall x th, zr x -> nleb n0 th = true -> nltb th x = false;
  one_nz : iszero c1 = false;
  (* multiplying by one is exact; the comparisons are reflexive and symmetric *)
  mul_one : forall w, cmul w c1 = w;
  eq_refl' : forall w, isequal w w = true;
  eq_sym' : forall w x, isequal w x = true -> isequal x w = true;
  one_zero : forall w, isone w = true -> iszero w = false;
  eq_zero : forall w, isequal w c0 = true -> iszero w = true;
  (* [ps x]: x is at least one; [nn x]: x is not negative (partial squared norms) *)
  ps : num -> Prop;
  nn : num -> Prop;
  ps_1 : ps n1;
  nn_mul : forall x w, ps x -> nn (nmul x (norm2 w)) /\ nn (nmul (norm2 w) x);
  ps_c1 : forall x, ps x -> ps (nmul x (norm2 c1)) /\ ps (nmul (norm2 c1) x);
  ps_add : forall x y, ps x -> nn y -> ps (nadd x y) /\ ps (nadd y x);
  ps_nz : forall x, ps x -> neqb x n0 = false /\ nltb n0 x = true;
  (* of a possible and an impossible outcome, the possible one has probability 1 *)
  ps_sel : forall x z th, ps x -> zr z -> nltb th n1 = true -> nltb th (ndiv x (nadd x z)) = true;
  ps_one : forall x z, ps x -> zr z -> zr (nsub n1 (ndiv x (nadd x z)));
  zr_sel : forall x z, ps x -> zr z -> zr (ndiv z (nadd z x))
}.

Section SafeA.
Context {NO : NumOps} {AR : Arith NO} {CF : Cfg}.

Definition zc (w : cx) : Prop := zr (fst w) /\ zr (snd w).
Lemma zc_0 : zc c0.
Proof. split; apply zr_0. Qed.
Lemma zc_mul_l w x : zc w -> zc (cmul w x).
Proof. intros [H1 H2]. split; cbn; [apply zr_sub|apply zr_add]; now apply zr_mul_l. Qed.
Lemma zc_mul_r w x : zc w -> zc (cmul x w).
Proof. intros [H1 H2]. split; cbn; [apply zr_sub|apply zr_add]; now apply zr_mul_r. Qed.
Lemma zc_add w x : zc w -> zc x -> zc (cadd w x).
Proof. intros [H1 H2] [H3 H4]. split; cbn; now apply zr_add. Qed.
Lemma zc_div x w : zc x -> iszero (cmul w c1) = false -> zc (cdiv x w).
Proof.
  intros [H1 H2] Hw. split; cbn; apply zr_div; auto; [apply zr_add|apply zr_sub]; now apply zr_mul_l.
Qed.
Lemma zc_iszero w : zc w -> iszero w = true.
Proof. intros [H1 H2]. unfold iszero. now rewrite !zr_tol. Qed.
Lemma zc_isone w : zc w -> isone w = false.
Proof. intros [H1 H2]. destruct w. now apply zr_not1. Qed.

Definition reg (k : kind) (t : table) (a : positive) (nd : node) : Prop :=
  heap t a = Some nd /\ In a (chain t (nv nd) (nkey k nd)).
Definition ext (k : kind) (t t' : table) : Prop :=
  forall a nd, reg k t a nd -> reg k t' a nd.

(* a vector node on n qubits has variable n - 1 (vectors skip no level); a
   matrix node on n qubits has a variable below n *)
Definition sp (k : kind) (t : table) (n : nat) (p : ptr) : Prop :=
  match k with
  | KV => match n with
          | O => p = Term
          | S m => exists a nd, p = Node a /\ reg k t a nd /\ nv nd = Z.of_nat m
          end
  | KM => p = Term \/ exists a nd, p = Node a /\ reg k t a nd /\ nv nd < Z.of_nat n
  end.
Definition se (k : kind) (t : table) (n : nat) (e : edge) : Prop :=
  sp k t n (en e) \/ (zc (ew e) /\ en e = Term).

Record nodeok (k : kind) (t : table) (nd : node) : Prop := {
  no_level : 0 <= nv nd < NQUBITS;
  no_len : length (nch nd) = arity k;
  no_wf : forall c, In c (nch nd) -> se k t (Z.to_nat (nv nd)) c;
  (* a vector node has a child of weight exactly 1 *)
  no_one : k = KV -> exists i, (i < 2)%nat /\ ew (nth i (nch nd) zeroE) = c1 /\
             sp KV t (Z.to_nat (nv nd)) (en (nth i (nch nd) zeroE))
}.

Record TInv (k : kind) (t : table) : Prop := {
  ti_chain : forall v key a, In a (chain t v key) ->
     exists nd, heap t a = Some nd /\ nv nd = v /\ nkey k nd = key /\ nodeok k t nd;
  ti_nodup : forall v key, NoDup (chain t v key);
  ti_free : forall i a, In a (p_avail (pools t i)) ->
     exists nd, heap t a = Some nd /\ nv nd = -2;
  ti_fnd : forall i, NoDup (p_avail (pools t i));
  ti_fdisj : forall i j a, In a (p_avail (pools t i)) -> In a (p_avail (pools t j)) -> i = j;
  ti_next : forall a nd, heap t a = Some nd -> (a < nexta t)%positive
}.

Lemma TInv_init k : TInv k table_init.
Proof.
  constructor; cbn; try tauto; try discriminate.
  - intros; constructor.
  - intros; constructor.
Qed.

Lemma reg_ok k t a nd : TInv k t -> reg k t a nd -> nodeok k t nd.
Proof.
  intros H [H1 H2]. apply (ti_chain _ _ H) in H2 as (nd' & ? & ? & ? & ?). congruence.
Qed.
Lemma reg_fun k t a nd nd' : reg k t a nd -> reg k t a nd' -> nd = nd'.
Proof. intros [H _] [H' _]. congruence. Qed.

Lemma ext_refl k t : ext k t t.
Proof. intros a nd H; exact H. Qed.
Lemma ext_trans k t1 t2 t3 : ext k t1 t2 -> ext k t2 t3 -> ext k t1 t3.
Proof. intros H1 H2 a nd H. apply H2, H1, H. Qed.

Lemma sp_ext k t t' n p : ext k t t' -> sp k t n p -> sp k t' n p.
Proof.
  intros He. unfold sp. destruct k.
  - destruct n; auto. intros (a & nd & H1 & H2 & H3). exists a, nd; repeat split; auto; apply He; auto.
  - intros [H|(a & nd & H1 & H2 & H3)]; auto. right. exists a, nd; auto.
Qed.
Lemma se_ext k t t' n e : ext k t t' -> se k t n e -> se k t' n e.
Proof. intros He [H|H]; [left|right]; auto. eapply sp_ext; eauto. Qed.
Lemma nodeok_ext k t t' nd : ext k t t' -> nodeok k t nd -> nodeok k t' nd.
Proof.
  intros He []; constructor; auto. intros; eapply se_ext; eauto.
  intros Hk. destruct (no_one0 Hk) as (i & H1 & H2 & H3). subst k. exists i. split; [exact H1|]. split; [exact H2|]. eapply (sp_ext KV); eauto.
Qed.

Lemma se_zero k t n : se k t n zeroE.
Proof. right; split; [apply zc_0|reflexivity]. Qed.
Lemma sp_term0 k t : sp k t 0 Term.
Proof. destruct k; cbn; auto. Qed.
Lemma se_term0 k t w : se k t 0 (E w Term).
Proof. left. apply sp_term0. Qed.
Lemma sp_KM_up t n m p : (n <= m)%nat -> sp KM t n p -> sp KM t m p.
Proof. intros Hl [H|(a & nd & H1 & H2 & H3)]; [left|right]; auto. exists a, nd; repeat split; try apply H2; auto; lia. Qed.
Lemma se_KM_up t n m e : (n <= m)%nat -> se KM t n e -> se KM t m e.
Proof. intros Hl [H|H]; [left|right]; auto. eapply sp_KM_up; eauto. Qed.
Lemma se_scale k t n e w : se k t n e -> se k t n (E (cmul w (ew e)) (en e)).
Proof. intros [H|[H1 H2]]; [left; auto|right; cbn; split; auto]. now apply zc_mul_r. Qed.
Lemma se_scale_r k t n e w : se k t n e -> se k t n (E (cmul (ew e) w) (en e)).
Proof. intros [H|[H1 H2]]; [left; auto|right; cbn; split; auto]. now apply zc_mul_l. Qed.
(* an edge that is not negligible points to a proper node *)
Lemma se_nz k t n e : se k t n e -> iszero (ew e) = false -> sp k t n (en e).
Proof. intros [H|[H _]]; auto. apply zc_iszero in H. congruence. Qed.
Lemma se_KM t n e : se KM t n e -> sp KM t n (en e).
Proof. intros [H|[_ H]]; auto. now left. Qed.
Lemma se_w t n w p : sp KM t n p -> se KM t n (E w p).
Proof. intros. now left. Qed.

Lemma reg_child k t a nd i :
  TInv k t -> reg k t a nd -> se k t (Z.to_nat (nv nd)) (nth i (nch nd) zeroE).
Proof.
  intros HT Hr. pose proof (reg_ok _ _ _ _ HT Hr) as Hok.
  destruct (Nat.lt_ge_cases i (length (nch nd))).
  - apply (no_wf _ _ _ Hok). now apply nth_In.
  - rewrite nth_overflow by lia. apply se_zero.
Qed.
Lemma reg_nth k t a nd i : TInv k t -> reg k t a nd -> (i < arity k)%nat ->
  nth i (nch nd) nullE = nth i (nch nd) zeroE.
Proof.
  intros HT Hr Hi. apply nth_indep. rewrite (no_len _ _ _ (reg_ok _ _ _ _ HT Hr)). exact Hi.
Qed.

(* ---- the allocator ---- *)
Lemma hupd_same h a nd : hupd h a nd a = Some nd.
Proof. unfold hupd. now rewrite Pos.eqb_refl. Qed.
Lemma hupd_other h a nd b : a <> b -> hupd h a nd b = h b.
Proof. intros H. unfold hupd. apply Pos.eqb_neq in H. now rewrite H. Qed.

(* what getNode hands out: a slot that is neither registered nor free *)
Definition private (t : table) (a : positive) : Prop :=
  (forall v key, ~ In a (chain t v key)) /\ (forall i, ~ In a (p_avail (pools t i))) /\
  (a < nexta t)%positive.
(* the table invariant while one slot [a] is privately held *)
Lemma getNode_spec k i t : TInv k t ->
  let '(a, t1) := getNode i t in
  TInv k t1 /\ private t1 a /\ chain t1 = chain t /\ heap t1 = heap t.
Proof.
  intros HT. unfold getNode. destruct (p_avail (pools t i)) as [|a rest] eqn:Hp.
  - set (p' := if p_left (pools t i) =? 0 then _ else _).
    assert (Hav : p_avail p' = []) by (subst p'; destruct (_ =? 0); reflexivity).
    assert (Hpool : forall j, p_avail (pupd (pools t) i p' j) = p_avail (pools t j)).
    { intros j. unfold pupd. destruct (Nat.eqb_spec i j); subst; congruence. }
    assert (Hnew : heap t (nexta t) = None).
    { destruct (heap t (nexta t)) eqn:E; auto. apply (ti_next _ _ HT) in E. lia. }
    repeat split; cbn; intros.
    + apply (ti_chain _ _ HT) in H as (nd & ? & ? & ? & Hok). exists nd; (split; [|split; [|split]]); auto; eapply nodeok_ext; [|exact Hok]; intros ? ? Hx; exact Hx.
    + apply (ti_nodup _ _ HT).
    + rewrite Hpool in H. eapply (ti_free _ _ HT); eauto.
    + rewrite Hpool. apply (ti_fnd _ _ HT).
    + rewrite Hpool in *. eapply (ti_fdisj _ _ HT); eauto.
    + apply (ti_next _ _ HT) in H. lia.
    + intros Hin. apply (ti_chain _ _ HT) in Hin as (nd & Hh & _). congruence.
    + rewrite Hpool. intros Hin. apply (ti_free _ _ HT) in Hin as (nd & Hh & _). congruence.
    + lia.
  - set (p' := {| p_avail := rest; p_left := _; p_asize := _; p_allocs := _ |}).
    assert (Hin0 : In a (p_avail (pools t i))) by (rewrite Hp; now left).
    assert (Hnd : NoDup (a :: rest)) by (rewrite <- Hp; apply (ti_fnd _ _ HT)).
    assert (Hsub : forall j b, In b (p_avail (pupd (pools t) i p' j)) ->
                     In b (p_avail (pools t j)) /\ b <> a).
    { intros j b. unfold pupd. destruct (Nat.eqb_spec i j).
      - subst j. cbn. intros Hb. rewrite Hp. split; [now right|]. intros ->. inversion Hnd; auto.
      - intros Hb. split; auto. intros ->. apply n. eapply (ti_fdisj _ _ HT); eauto. }
    destruct (ti_free _ _ HT _ _ Hin0) as (fnd & Hfh & Hfv).
    repeat split; cbn; intros.
    + apply (ti_chain _ _ HT) in H as (nd & ? & ? & ? & Hok). exists nd; (split; [|split; [|split]]); auto; eapply nodeok_ext; [|exact Hok]; intros ? ? Hx; exact Hx.
    + apply (ti_nodup _ _ HT).
    + apply Hsub in H as [H _]. eapply (ti_free _ _ HT); eauto.
    + unfold pupd. destruct (Nat.eqb_spec i i0); [cbn|apply (ti_fnd _ _ HT)].
      now inversion Hnd.
    + apply Hsub in H as [H _]. apply Hsub in H0 as [H0 _]. eapply (ti_fdisj _ _ HT); eauto.
    + eapply (ti_next _ _ HT); eauto.
    + intros Hin. apply (ti_chain _ _ HT) in Hin as (nd & Hh & Hv & _ & Hok).
      pose proof (no_level _ _ _ Hok). rewrite Hfh in Hh. injection Hh as <-. lia.
    + intros Hin. apply Hsub in Hin as [_ Hin]. congruence.
    + eapply (ti_next _ _ HT); eauto.
Qed.

Lemma writeNode_spec k t a nd : TInv k t -> private t a ->
  TInv k (writeNode a nd t) /\ private (writeNode a nd t) a /\ ext k t (writeNode a nd t) /\
  heap (writeNode a nd t) a = Some nd /\
  (forall b n', reg k (writeNode a nd t) b n' -> reg k t b n').
Proof.
  intros HT (Hc & Hf & Hn).
  assert (Hext : ext k t (writeNode a nd t)).
  { intros b n' [H1 H2]. split; auto. cbn. rewrite hupd_other; auto.
    intros ->. eapply Hc; eauto. }
  assert (Hback : forall b n', reg k (writeNode a nd t) b n' -> reg k t b n').
  { intros b n' [H1 H2]. cbn in *. split; auto. rewrite hupd_other in H1; auto.
    intros ->. eapply Hc; eauto. }
  split; [|split; [|split; [|split]]]; auto.
  - constructor; cbn; intros.
    + pose proof H as Hin. apply (ti_chain _ _ HT) in H as (n' & ? & ? & ? & Hok).
      exists n'. rewrite hupd_other by (intros ->; eapply Hc; eauto). (split; [|split; [|split]]); auto. eapply nodeok_ext; eauto.
    + apply (ti_nodup _ _ HT).
    + rewrite hupd_other by (intros ->; eapply Hf; eauto). eapply (ti_free _ _ HT); eauto.
    + apply (ti_fnd _ _ HT).
    + eapply (ti_fdisj _ _ HT); eauto.
    + unfold hupd in H. destruct (Pos.eqb_spec a a0); [subst; auto|]. eapply (ti_next _ _ HT); eauto.
  - repeat split; auto.
  - apply hupd_same.
Qed.

Lemma returnNode_spec k i t a nd : TInv k t -> private t a ->
  TInv k (returnNode i a nd t) /\ ext k t (returnNode i a nd t).
Proof.
  intros HT (Hc & Hf & Hn).
  assert (Hext : ext k t (returnNode i a nd t)).
  { intros b n' [H1 H2]. split; auto. cbn. rewrite hupd_other; auto.
    intros ->. eapply Hc; eauto. }
  split; auto. unfold returnNode in *.
  set (p' := {| p_avail := _; p_left := _; p_asize := _; p_allocs := _ |}) in *.
  assert (Hsub : forall j b, In b (p_avail (pupd (pools t) i p' j)) ->
                   (b = a /\ i = j) \/ In b (p_avail (pools t j))).
  { intros j b. unfold pupd. destruct (Nat.eqb_spec i j); subst; cbn; intuition. }
  constructor; cbn [heap chain nexta pools]; intros.
  - pose proof H as Hin. apply (ti_chain _ _ HT) in H as (n' & ? & ? & ? & Hok).
    exists n'. rewrite hupd_other by (intros ->; eapply Hc; eauto). (split; [|split; [|split]]); auto. eapply nodeok_ext; eauto.
  - apply (ti_nodup _ _ HT).
  - apply Hsub in H as [[-> ->]|H].
    + rewrite hupd_same. eexists; split; reflexivity.
    + rewrite hupd_other by (intros ->; eapply Hf; eauto). eapply (ti_free _ _ HT); eauto.
  - unfold pupd. destruct (Nat.eqb_spec i i0); [subst p'; cbn|apply (ti_fnd _ _ HT)].
    constructor; [apply Hf|apply (ti_fnd _ _ HT)].
  - apply Hsub in H as [[-> ->]|H]; apply Hsub in H0 as [[? ->]|H0]; auto.
    + exfalso; eapply Hf; eauto.
    + subst. exfalso; eapply Hf; eauto.
    + eapply (ti_fdisj _ _ HT); eauto.
  - unfold hupd in H. destruct (Pos.eqb_spec a a0); [subst; auto|]. eapply (ti_next _ _ HT); eauto.
Qed.

Lemma scan_spec k t l nd : TInv k t -> (forall a, In a l -> exists n', heap t a = Some n') ->
  (exists b n', scan (heap t) l nd = Some (Some b) /\ In b l /\ heap t b = Some n' /\ node_eqb nd n' = true)
  \/ (scan (heap t) l nd = Some None /\ forall b n', In b l -> heap t b = Some n' -> node_eqb nd n' = false).
Proof.
  intros HT. induction l as [|a l IH]; intros H; cbn.
  - right; split; auto. intros ? ? [].
  - destruct (H a (or_introl eq_refl)) as (n' & Hn'). rewrite Hn'.
    destruct (node_eqb nd n') eqn:Heq.
    + left. exists a, n'. auto.
    + destruct IH as [(b & n2 & ? & ? & ? & ?)|[H1 H2]].
      * intros; apply H; now right.
      * left. exists b, n2. repeat split; auto.
      * right. split; auto. intros b n2 [->|Hb] Hh; [congruence|eauto].
Qed.

Lemma cupd_same c v key l : cupd c v key l v key = l.
Proof. unfold cupd. now rewrite !Z.eqb_refl. Qed.
Lemma cupd_cases c v key l v' key' :
  (v = v' /\ key = key' /\ cupd c v key l v' key' = l) \/
  (cupd c v key l v' key' = c v' key').
Proof.
  unfold cupd. destruct (Z.eqb_spec v v'), (Z.eqb_spec key key'); cbn; auto.
Qed.

(* registering a private slot whose content is fresh in its bucket *)
Lemma insert_spec k t a nd : TInv k t -> private t a -> heap t a = Some nd -> nodeok k t nd ->
  let t' := {| heap := heap t;
               chain := cupd (chain t) (nv nd) (nkey k nd) (a :: chain t (nv nd) (nkey k nd));
               nexta := nexta t; pools := pools t |} in
  TInv k t' /\ ext k t t' /\ reg k t' a nd.
Proof.
  intros HT (Hc & Hf & Hn) Hh Hok t'.
  assert (Hext : ext k t t').
  { intros b n' [H1 H2]. split; auto. cbn.
    destruct (cupd_cases (chain t) (nv nd) (nkey k nd) (a :: chain t (nv nd) (nkey k nd)) (nv n') (nkey k n'))
      as [(E1 & E2 & ->)| ->]; auto.
    rewrite E1, E2. now right. }
  assert (Hin : forall v key b, In b (chain t' v key) ->
            (b = a /\ v = nv nd /\ key = nkey k nd) \/ In b (chain t v key)).
  { cbn. intros v key b.
    destruct (cupd_cases (chain t) (nv nd) (nkey k nd) (a :: chain t (nv nd) (nkey k nd)) v key)
      as [(E1 & E2 & ->)| ->]; auto.
    subst. intros [<-|H]; auto. }
  split; [|split; auto].
  2:{ split; auto. cbn. rewrite cupd_same. now left. }
  constructor; intros.
  - apply Hin in H as [(-> & -> & ->)|H].
    + exists nd. (split; [|split; [|split]]); auto. eapply nodeok_ext; eauto.
    + apply (ti_chain _ _ HT) in H as (n' & ? & ? & ? & Hok'). exists n'. (split; [|split; [|split]]); auto.
      eapply nodeok_ext; eauto.
  - cbn. destruct (cupd_cases (chain t) (nv nd) (nkey k nd) (a :: chain t (nv nd) (nkey k nd)) v key)
      as [(E1 & E2 & ->)| ->]; [|apply (ti_nodup _ _ HT)].
    constructor; [apply Hc|apply (ti_nodup _ _ HT)].
  - eapply (ti_free _ _ HT); eauto.
  - apply (ti_fnd _ _ HT).
  - eapply (ti_fdisj _ _ HT); eauto.
  - eapply (ti_next _ _ HT); eauto.
Qed.

Lemma level_ok_true v : 0 <= v < NQUBITS -> level_ok v = true.
Proof. unfold level_ok. intros. apply andb_true_intro; split; [apply Z.leb_le|apply Z.ltb_lt]; lia. Qed.

Lemma lookup_spec k i t a nd : TInv k t -> private t a -> heap t a = Some nd -> nodeok k t nd ->
  exists b nd' t', lookup k i a nd t = Some (Node b, t') /\ TInv k t' /\ ext k t t' /\
    reg k t' b nd' /\ nv nd' = nv nd.
Proof.
  intros HT Hp Hh Hok. unfold lookup. rewrite level_ok_true by apply Hok.
  destruct (scan_spec k t (chain t (nv nd) (nkey k nd)) nd HT) as [(b & n' & Hs & Hin & Hb & Heq)|[Hs Hno]].
  - intros c Hc. apply (ti_chain _ _ HT) in Hc as (n' & H & _). eauto.
  - rewrite Hs. destruct (returnNode_spec k i t a nd HT Hp) as [HT' He'].
    assert (Hrb : reg k t b n').
    { pose proof Hin as Hin'. apply (ti_chain _ _ HT) in Hin' as (n2 & H1 & H2 & H3 & _).
      assert (n2 = n') by congruence; subst n2. split; auto. now rewrite H2, H3. }
    exists b, n', (returnNode i a nd t). split; [reflexivity|].
    split; [exact HT'|]. split; [exact He'|]. split; [now apply He'|].
    symmetry. apply andb_prop in Heq as [Heq _]. now apply Z.eqb_eq.
  - rewrite Hs. destruct (insert_spec k t a nd HT Hp Hh Hok) as (H1 & H2 & H3).
    eexists a, nd, _. split; [reflexivity|].
      split; [exact H1|]. split; [exact H2|]. split; [exact H3|reflexivity].
Qed.

Lemma set_tb_same (s : state) k t : tb (set_tb s k t) k = t.
Proof. cbn. now rewrite kind_eqb_refl. Qed.
Lemma set_tb_other (s : state) k k' t : k <> k' -> tb (set_tb s k t) k' = tb s k'.
Proof. intros H. cbn. destruct (kind_eqb k k') eqn:E; auto. apply kind_eqb_eq in E. contradiction. Qed.

Lemma intern_spec k i nd s : TInv k (tb s k) -> nodeok k (tb s k) nd ->
  exists b nd' t', intern k i nd s = Some (Node b, set_tb s k t') /\ TInv k t' /\
    ext k (tb s k) t' /\ reg k t' b nd' /\ nv nd' = nv nd.
Proof.
  intros HT Hok. unfold intern.
  pose proof (getNode_spec k i (tb s k) HT) as Hg.
  destruct (getNode i (tb s k)) as [a t1]. destruct Hg as (HT1 & Hp1 & Hc1 & Hh1).
  assert (He1 : ext k (tb s k) t1).
  { intros b n' [H1 H2]. split; congruence. }
  destruct (writeNode_spec k t1 a nd HT1 Hp1) as (HT2 & Hp2 & He2 & Hh2 & _).
  assert (Hok2 : nodeok k (writeNode a nd t1) nd).
  { eapply nodeok_ext; [|exact Hok]. eapply ext_trans; eauto. }
  destruct (lookup_spec k i _ a nd HT2 Hp2 Hh2 Hok2) as (b & nd' & t' & Hl & HT3 & He3 & Hr & Heq).
  rewrite Hl. exists b, nd', t'. split; [reflexivity|]. split; [exact HT3|].
  split; [eapply ext_trans; [exact He1|eapply ext_trans; eauto]|]. split; [exact Hr|exact Heq].
Qed.
Lemma scratch_spec k i nd s : TInv k (tb s k) ->
  exists t', scratch k i nd s = set_tb s k t' /\ TInv k t' /\ ext k (tb s k) t'.
Proof.
  intros HT. unfold scratch.
  pose proof (getNode_spec k i (tb s k) HT) as Hg.
  destruct (getNode i (tb s k)) as [a t1]. destruct Hg as (HT1 & Hp1 & Hc1 & Hh1).
  assert (He1 : ext k (tb s k) t1).
  { intros b n' [H1 H2]. split; congruence. }
  destruct (writeNode_spec k t1 a nd HT1 Hp1) as (HT2 & Hp2 & He2 & Hh2 & _).
  destruct (returnNode_spec k i _ a nd HT2 Hp2) as [HT3 He3].
  eexists. split; [reflexivity|]. split; [exact HT3|].
  eapply ext_trans; [exact He1|eapply ext_trans; eauto].
Qed.


End SafeA.
