(* Wf.v -- denotation of edges, well-formedness of tables, and the effect of
   the allocator / unique-table actions on them. *)
From Coq Require Import Reals Lra Psatz ZArith Bool List Lia.
From Coquelicot Require Import Complex.
From Verif Require Import Num State RNum.
Import ListNotations.
Open Scope Z_scope.

Definition arity (k : kind) : nat := match k with KV => 2 | KM => 4 end.

Lemma kind_eqb_refl k : kind_eqb k k = true.
Proof. now destruct k. Qed.
Lemma kind_eqb_eq k k' : kind_eqb k k' = true <-> k = k'.
Proof. destruct k, k'; cbn; split; congruence. Qed.
Lemma ptr_eqb_eq p q : ptr_eqb p q = true <-> p = q.
Proof.
  destruct p, q; cbn; split; try congruence.
  - intros H. apply Pos.eqb_eq in H. congruence.
  - intros [= ->]. apply Pos.eqb_refl.
Qed.
Lemma ptr_eqb_refl p : ptr_eqb p p = true.
Proof. now apply ptr_eqb_eq. Qed.

Section Wf.
Context (tau : R) {HTol : Tol tau}.
Let Htau : (0 <= tau < 1 / 2)%R := tol_ok.
#[local] Hint Extern 0 NumOps => exact (RNum tau) : typeclass_instances.
Context {CF : Cfg}.

(* index 0 and 3 are the diagonal blocks *)
Definition diag4 (i : nat) : C := match i with O | 3%nat => RtoC 1 | _ => RtoC 0 end.
Definition skipf (k : kind) (i : nat) : C := match k with KV => RtoC 1 | KM => diag4 i end.

(* value of the amplitude / entry selected by child index [ix l] at level l *)
Fixpoint valp (k : kind) (t : table) (n : nat) (p : ptr) (ix : nat -> nat) : C :=
  match n with
  | O => RtoC 1
  | S m =>
      match p with
      | Node a =>
          match heap t a with
          | Some nd =>
              if nv nd =? Z.of_nat m then
                let c := nth (ix m) (nch nd) zeroE in
                Cmult (ew c) (valp k t m (en c) ix)
              else Cmult (skipf k (ix m)) (valp k t m p ix)
          | None => RtoC 0
          end
      | _ => Cmult (skipf k (ix m)) (valp k t m p ix)
      end
  end.
Definition val (k : kind) (t : table) (n : nat) (e : edge) (ix : nat -> nat) : C :=
  Cmult (ew e) (valp k t n (en e) ix).

Definition reg (k : kind) (t : table) (a : positive) (nd : node) : Prop :=
  heap t a = Some nd /\ In a (chain t (nv nd) (nkey k nd)).
Definition ext (k : kind) (t t' : table) : Prop :=
  forall a nd, reg k t a nd -> reg k t' a nd.

Definition wfp (k : kind) (t : table) (n : nat) (p : ptr) : Prop :=
  match k with
  | KV => match n with
          | O => p = Term
          | S m => exists a nd, p = Node a /\ reg k t a nd /\ nv nd = Z.of_nat m
          end
  | KM => p = Term \/ exists a nd, p = Node a /\ reg k t a nd /\ nv nd < Z.of_nat n
  end.
Definition wfe (k : kind) (t : table) (n : nat) (e : edge) : Prop :=
  wfp k t n (en e) \/ (ew e = c0 /\ en e = Term).

(* the condition under which makeMEdge strips a level (src/dd.cpp:147) *)
Definition strippable (a b c d : edge) : bool :=
  ptr_eqb (en a) (en d) && iszero (ew b) && iszero (ew c) && isequal (ew a) (ew d).

Record nodeok (k : kind) (t : table) (nd : node) : Prop := {
  no_level : 0 <= nv nd < NQUBITS;
  no_len : length (nch nd) = arity k;
  no_wf : forall c, In c (nch nd) -> wfe k t (Z.to_nat (nv nd)) c;
  no_le1 : forall c, In c (nch nd) -> (Cmod (ew c) <= 1)%R;
  no_zero : forall c, In c (nch nd) -> iszero (ew c) = true -> c = zeroE;
  no_max : exists i, (i < arity k)%nat /\ ew (nth i (nch nd) zeroE) = c1 /\
             forall j, (j < i)%nat -> (Cmod (ew (nth j (nch nd) zeroE)) < 1)%R;
  no_strip : k = KM -> tau = 0%R ->
             strippable (nth 0 (nch nd) zeroE) (nth 1 (nch nd) zeroE)
                        (nth 2 (nch nd) zeroE) (nth 3 (nch nd) zeroE) = false
}.

Record TInv (k : kind) (t : table) : Prop := {
  ti_chain : forall v key a, In a (chain t v key) ->
     exists nd, heap t a = Some nd /\ nv nd = v /\ nkey k nd = key /\ nodeok k t nd;
  ti_nodup : forall v key, NoDup (chain t v key);
  ti_uniq : tau = 0%R -> forall a b nd, reg k t a nd -> reg k t b nd -> a = b;
  ti_free : forall i a, In a (p_avail (pools t i)) ->
     exists nd, heap t a = Some nd /\ nv nd = -2;
  ti_fnd : forall i, NoDup (p_avail (pools t i));
  ti_fdisj : forall i j a, In a (p_avail (pools t i)) -> In a (p_avail (pools t j)) -> i = j;
  ti_next : forall a nd, heap t a = Some nd -> (a < nexta t)%positive
}.

Lemma TInv_init k : TInv k table_init.
Proof.
  constructor; cbn; try tauto; try discriminate.
  - intros; constructor.
  - intros _ a b nd [H _]; discriminate.
  - intros; constructor.
Qed.

Lemma reg_ok k t a nd : TInv k t -> reg k t a nd -> nodeok k t nd.
Proof.
  intros H [H1 H2]. apply (ti_chain _ _ H) in H2 as (nd' & ? & ? & ? & ?). congruence.
Qed.
Lemma reg_fun k t a nd nd' : reg k t a nd -> reg k t a nd' -> nd = nd'.
Proof. intros [H _] [H' _]. congruence. Qed.

Lemma ext_refl k t : ext k t t.
Proof. intros a nd H; exact H. Qed.
Lemma ext_trans k t1 t2 t3 : ext k t1 t2 -> ext k t2 t3 -> ext k t1 t3.
Proof. intros H1 H2 a nd H. apply H2, H1, H. Qed.

Lemma wfp_ext k t t' n p : ext k t t' -> wfp k t n p -> wfp k t' n p.
Proof.
  intros He. unfold wfp. destruct k.
  - destruct n; auto. intros (a & nd & H1 & H2 & H3). exists a, nd; repeat split; auto; apply He; auto.
  - intros [H|(a & nd & H1 & H2 & H3)]; auto. right. exists a, nd; auto.
Qed.
Lemma wfe_ext k t t' n e : ext k t t' -> wfe k t n e -> wfe k t' n e.
Proof. intros He [H|H]; [left|right]; auto. eapply wfp_ext; eauto. Qed.
Lemma nodeok_ext k t t' nd : ext k t t' -> nodeok k t nd -> nodeok k t' nd.
Proof.
  intros He []; constructor; auto. intros; eapply wfe_ext; eauto.
Qed.

Lemma wfe_zero k t n : wfe k t n zeroE.
Proof. right; split; reflexivity. Qed.
Lemma wfp_term0 k t : wfp k t 0 Term.
Proof. destruct k; cbn; auto. Qed.
Lemma wfe_term0 k t w : wfe k t 0 (E w Term).
Proof. left. apply wfp_term0. Qed.
Lemma wfp_KM_up t n m p : (n <= m)%nat -> wfp KM t n p -> wfp KM t m p.
Proof. intros Hl [H|(a & nd & H1 & H2 & H3)]; [left|right]; auto. exists a, nd; repeat split; try apply H2; auto; lia. Qed.
Lemma wfe_KM_up t n m e : (n <= m)%nat -> wfe KM t n e -> wfe KM t m e.
Proof. intros Hl [H|H]; [left|right]; auto. eapply wfp_KM_up; eauto. Qed.
Lemma wfe_w k t n e w : wfp k t n (en e) -> wfe k t n (E w (en e)).
Proof. intros; now left. Qed.
Lemma wfe_scale k t n e w : wfe k t n e -> wfe k t n (E (cmul w (ew e)) (en e)).
Proof.
  intros [H|[H1 H2]]; [left; auto|right; cbn; split; auto].
  rewrite H1. change (@eq C (Cmult w (RtoC 0)) (RtoC 0)). ring.
Qed.
Lemma wfe_scale_r k t n e w : wfe k t n e -> wfe k t n (E (cmul (ew e) w) (en e)).
Proof.
  intros [H|[H1 H2]]; [left; auto|right; cbn; split; auto].
  rewrite H1. change (@eq C (Cmult (RtoC 0) w) (RtoC 0)). ring.
Qed.
(* a non-zero vector edge above level 0 is a node *)
Lemma wfe_nz k t n e : wfe k t n e -> ew e <> c0 -> wfp k t n (en e).
Proof. intros [H|[H _]]; congruence. Qed.

(* children of a registered node *)
Lemma reg_child k t a nd i :
  TInv k t -> reg k t a nd -> wfe k t (Z.to_nat (nv nd)) (nth i (nch nd) zeroE).
Proof.
  intros HT Hr. pose proof (reg_ok _ _ _ _ HT Hr) as Hok.
  destruct (Nat.lt_ge_cases i (length (nch nd))).
  - apply (no_wf _ _ _ Hok). now apply nth_In.
  - rewrite nth_overflow by lia. apply wfe_zero.
Qed.
Lemma reg_child_le1 k t a nd i :
  TInv k t -> reg k t a nd -> (Cmod (ew (nth i (nch nd) zeroE)) <= 1)%R.
Proof.
  intros HT Hr. pose proof (reg_ok _ _ _ _ HT Hr) as Hok.
  destruct (Nat.lt_ge_cases i (length (nch nd))).
  - apply (no_le1 _ _ _ Hok). now apply nth_In.
  - rewrite nth_overflow by lia. cbn. change (Cmod (RtoC 0) <= 1)%R. rewrite Cmod_0. lra.
Qed.

(* ---- valp ---- *)
Lemma valp_S_node k t m a nd ix :
  reg k t a nd -> nv nd = Z.of_nat m ->
  valp k t (S m) (Node a) ix = val k t m (nth (ix m) (nch nd) zeroE) ix.
Proof. intros [H _] Hv. cbn. rewrite H, Hv, Z.eqb_refl. reflexivity. Qed.
Lemma valp_S_skip k t m a nd ix :
  reg k t a nd -> nv nd <> Z.of_nat m ->
  valp k t (S m) (Node a) ix = Cmult (skipf k (ix m)) (valp k t m (Node a) ix).
Proof. intros [H _] Hv. cbn. rewrite H. apply Z.eqb_neq in Hv. now rewrite Hv. Qed.
Lemma valp_S_term k t m ix :
  valp k t (S m) Term ix = Cmult (skipf k (ix m)) (valp k t m Term ix).
Proof. reflexivity. Qed.
Lemma valp_KV_term t n ix : valp KV t n Term ix = RtoC 1.
Proof. induction n as [|n IH]; [reflexivity|]. rewrite valp_S_term, IH. cbn. ring. Qed.

(* a matrix edge that lives below level m *)
Lemma valp_KM_up t m p ix :
  wfp KM t m p -> valp KM t (S m) p ix = Cmult (diag4 (ix m)) (valp KM t m p ix).
Proof.
  intros [->|(a & nd & -> & Hr & Hlt)]; [reflexivity|].
  rewrite (valp_S_skip _ _ _ _ nd); auto. lia.
Qed.
Lemma val_KM_up t m e ix :
  wfe KM t m e -> val KM t (S m) e ix = Cmult (diag4 (ix m)) (val KM t m e ix).
Proof.
  intros [H|[H1 H2]]; unfold val.
  - rewrite valp_KM_up by auto. ring.
  - rewrite H1, H2. change (@c0 (RNum tau)) with (RtoC 0). ring.
Qed.

Lemma val_ext k t t' : TInv k t -> ext k t t' ->
  forall n e ix, wfe k t n e -> val k t' n e ix = val k t n e ix.
Proof.
  intros HT He n. induction n as [|m IH]; intros e ix Hwf; [reflexivity|].
  destruct Hwf as [Hwf|[H1 H2]].
  2:{ unfold val. rewrite H1. change (@c0 (RNum tau)) with (RtoC 0). ring. }
  unfold val. f_equal.
  assert (Hnode : forall a nd, reg k t a nd -> nv nd = Z.of_nat m ->
            valp k t' (S m) (Node a) ix = valp k t (S m) (Node a) ix).
  { intros a nd Hr Hv. rewrite (valp_S_node k t' m a nd), (valp_S_node k t m a nd); auto.
    apply IH. pose proof (reg_child k t a nd (ix m) HT Hr) as Hc.
    rewrite Hv, Nat2Z.id in Hc. exact Hc. }
  destruct k; cbn in Hwf.
  - destruct Hwf as (a & nd & -> & Hr & Hv). now apply (Hnode _ nd).
  - assert (Hlow : forall p, wfp KM t m p -> valp KM t' m p ix = valp KM t m p ix).
    { intros p Hp. specialize (IH (E c1 p) ix (or_introl Hp)). unfold val in IH; cbn [ew en] in IH.
      change (@c1 (RNum tau)) with (RtoC 1) in IH.
      rewrite !Cmult_1_l in IH. exact IH. }
    destruct Hwf as [->|(a & nd & -> & Hr & Hv)].
    + rewrite !valp_S_term. f_equal. apply Hlow. now left.
    + destruct (Z.eq_dec (nv nd) (Z.of_nat m)) as [Heq|Hne]; [now apply (Hnode _ nd)|].
      rewrite (valp_S_skip _ t' _ _ nd), (valp_S_skip _ t _ _ nd); auto. f_equal.
      apply Hlow. right. exists a, nd. repeat split; auto; try apply Hr. lia.
Qed.

Lemma diag4_le1 i : (Cmod (diag4 i) <= 1)%R.
Proof.
  destruct i as [|[|[|[|i]]]]; cbn; rewrite ?Cmod_0, ?Cmod_1; lra.
Qed.
Lemma skipf_le1 k i : (Cmod (skipf k i) <= 1)%R.
Proof. destruct k; cbn; [rewrite Cmod_1; lra|apply diag4_le1]. Qed.

Lemma valp_le1 k t : TInv k t ->
  forall n p ix, wfp k t n p \/ p = Term -> (Cmod (valp k t n p ix) <= 1)%R.
Proof.
  intros HT n. induction n as [|m IH]; intros p ix Hwf; [cbn; rewrite Cmod_1; lra|].
  assert (Hmul : forall x y, (Cmod x <= 1 -> Cmod y <= 1 -> Cmod (Cmult x y) <= 1)%R).
  { intros x y Hx Hy. rewrite Cmod_mult. pose proof (Cmod_ge_0 x); pose proof (Cmod_ge_0 y). nra. }
  destruct p as [| |a].
  - destruct Hwf as [Hwf|Hwf]; [|discriminate]. exfalso. destruct k; cbn in Hwf.
    + destruct Hwf as (? & ? & ? & _). discriminate.
    + destruct Hwf as [?|(? & ? & ? & _)]; discriminate.
  - rewrite valp_S_term. apply Hmul; [apply skipf_le1|]. apply IH. now right.
  - destruct Hwf as [Hwf|Hwf]; [|discriminate].
    assert (Hr : exists nd, reg k t a nd /\ (nv nd = Z.of_nat m \/ (k = KM /\ nv nd < Z.of_nat m))).
    { destruct k; cbn in Hwf.
      - destruct Hwf as (b & nd & [= <-] & Hr & Hv). exists nd. auto.
      - destruct Hwf as [?|(b & nd & [= <-] & Hr & Hv)]; [discriminate|]. exists nd. split; auto.
        destruct (Z.eq_dec (nv nd) (Z.of_nat m)); auto. right; split; auto; lia. }
    destruct Hr as (nd & Hr & [Hv|[-> Hv]]).
    + rewrite (valp_S_node _ _ _ _ nd); auto. unfold val. apply Hmul.
      * now apply (reg_child_le1 k t a nd).
      * apply IH. pose proof (reg_child k t a nd (ix m) HT Hr) as Hc.
        rewrite Hv, Nat2Z.id in Hc. destruct Hc as [Hc|[_ Hc]]; auto.
    + rewrite (valp_S_skip _ _ _ _ nd); auto; [|lia]. apply Hmul; [apply skipf_le1|].
      apply IH. left. right. exists a, nd; auto.
Qed.
Lemma val_le k t n e ix : TInv k t -> wfe k t n e -> (Cmod (val k t n e ix) <= Cmod (ew e))%R.
Proof.
  intros HT Hwf. unfold val. rewrite Cmod_mult.
  assert (Cmod (valp k t n (en e) ix) <= 1)%R.
  { apply valp_le1; auto. destruct Hwf as [H|[_ H]]; auto. }
  pose proof (Cmod_ge_0 (ew e)). nra.
Qed.
Lemma val_zeroE k t n ix : val k t n zeroE ix = RtoC 0.
Proof. unfold val. cbn [ew zeroE]. change (@c0 (RNum tau)) with (RtoC 0). ring. Qed.
Lemma val_zw k t n e ix : ew e = c0 -> val k t n e ix = RtoC 0.
Proof. intros H. unfold val. rewrite H. change (@c0 (RNum tau)) with (RtoC 0). ring. Qed.

Lemma valp_local k t n p f g : (forall l, (l < n)%nat -> f l = g l) ->
  valp k t n p f = valp k t n p g.
Proof.
  revert p. induction n as [|m IH]; intros q H; [reflexivity|]. cbn.
  rewrite (H m) by lia.
  destruct q; try (now rewrite IH by (intros; apply H; lia)).
  destruct (heap t a); auto. destruct (nv n =? Z.of_nat m);
    now rewrite IH by (intros; apply H; lia).
Qed.
Lemma val_local k t n e f g : (forall l, (l < n)%nat -> f l = g l) ->
  val k t n e f = val k t n e g.
Proof. intros H. unfold val. now rewrite (valp_local k t n _ f g H). Qed.

(* the largest value has modulus 1 *)
Lemma valp_max k t : TInv k t ->
  forall n p, wfp k t n p ->
  exists ix, (forall l, (ix l < arity k)%nat) /\ Cmod (valp k t n p ix) = 1%R.
Proof.
  intros HT n. induction n as [|m IH]; intros p Hwf.
  { exists (fun _ => 0%nat). split; [destruct k; cbn; lia|]. cbn. apply Cmod_1. }
  assert (Hloc : forall q (f g : nat -> nat), (forall l, (l < m)%nat -> f l = g l) ->
            valp k t m q f = valp k t m q g) by (intros; now apply valp_local).
  set (up := fun (ix : nat -> nat) i l => if Nat.eqb l m then i else ix l).
  assert (Hup : forall ix i, up ix i m = i) by (intros; unfold up; now rewrite Nat.eqb_refl).
  assert (Hlow : forall q ix i, valp k t m q (up ix i) = valp k t m q ix).
  { intros. apply Hloc. intros l Hl. unfold up. destruct (Nat.eqb_spec l m); auto; lia. }
  assert (Hnode : forall a nd, reg k t a nd -> nv nd = Z.of_nat m -> p = Node a ->
           exists ix, (forall l, (ix l < arity k)%nat) /\ Cmod (valp k t (S m) p ix) = 1%R).
  { intros a nd Hr Hv ->. pose proof (reg_ok _ _ _ _ HT Hr) as Hok.
    destruct (no_max _ _ _ Hok) as (i & Hi & Hw & _).
    pose proof (reg_child k t a nd i HT Hr) as Hc. rewrite Hv, Nat2Z.id in Hc.
    apply wfe_nz in Hc; [|rewrite Hw; apply c1_neq_c0].
    destruct (IH _ Hc) as (ix & Hix & Hmax). exists (up ix i). split.
    - intros l. unfold up. destruct (Nat.eqb l m); auto.
    - rewrite (valp_S_node _ _ _ _ nd) by auto. unfold val. rewrite Hup, Hlow, Hw.
      change (@c1 (RNum tau)) with (RtoC 1). rewrite Cmult_1_l. exact Hmax. }
  assert (Hskip : k = KM -> wfp k t m p ->
           exists ix, (forall l, (ix l < arity k)%nat) /\ Cmod (valp k t (S m) p ix) = 1%R).
  { intros -> Hp. destruct (IH _ Hp) as (ix & Hix & Hmax). exists (up ix 0%nat). split.
    - intros l. unfold up. destruct (Nat.eqb l m); auto. cbn; lia.
    - rewrite valp_KM_up by auto. rewrite Hup, Hlow. cbn [diag4]. rewrite Cmult_1_l. exact Hmax. }
  destruct k; cbn in Hwf.
  - destruct Hwf as (a & nd & -> & Hr & Hv). now apply (Hnode a nd).
  - destruct Hwf as [->|(a & nd & -> & Hr & Hv)].
    + apply Hskip; auto. now left.
    + destruct (Z.eq_dec (nv nd) (Z.of_nat m)); [now apply (Hnode a nd)|].
      apply Hskip; auto. right. exists a, nd; repeat split; try apply Hr; auto. lia.
Qed.

(* ---- the allocator ---- *)
Lemma hupd_same h a nd : hupd h a nd a = Some nd.
Proof. unfold hupd. now rewrite Pos.eqb_refl. Qed.
Lemma hupd_other h a nd b : a <> b -> hupd h a nd b = h b.
Proof. intros H. unfold hupd. apply Pos.eqb_neq in H. now rewrite H. Qed.

(* what getNode hands out: a slot that is neither registered nor free *)
Definition private (t : table) (a : positive) : Prop :=
  (forall v key, ~ In a (chain t v key)) /\ (forall i, ~ In a (p_avail (pools t i))) /\
  (a < nexta t)%positive.
(* the table invariant while one slot [a] is privately held *)
Lemma getNode_spec k i t : TInv k t ->
  let '(a, t1) := getNode i t in
  TInv k t1 /\ private t1 a /\ chain t1 = chain t /\ heap t1 = heap t.
Proof.
  intros HT. unfold getNode. destruct (p_avail (pools t i)) as [|a rest] eqn:Hp.
  - set (p' := if p_left (pools t i) =? 0 then _ else _).
    assert (Hav : p_avail p' = []) by (subst p'; destruct (_ =? 0); reflexivity).
    assert (Hpool : forall j, p_avail (pupd (pools t) i p' j) = p_avail (pools t j)).
    { intros j. unfold pupd. destruct (Nat.eqb_spec i j); subst; congruence. }
    assert (Hnew : heap t (nexta t) = None).
    { destruct (heap t (nexta t)) eqn:E; auto. apply (ti_next _ _ HT) in E. lia. }
    repeat split; cbn; intros.
    + apply (ti_chain _ _ HT) in H as (nd & ? & ? & ? & Hok). exists nd; (split; [|split; [|split]]); auto; eapply nodeok_ext; [|exact Hok]; intros ? ? Hx; exact Hx.
    + apply (ti_nodup _ _ HT).
    + eapply (ti_uniq _ _ HT); eauto.
    + rewrite Hpool in H. eapply (ti_free _ _ HT); eauto.
    + rewrite Hpool. apply (ti_fnd _ _ HT).
    + rewrite Hpool in *. eapply (ti_fdisj _ _ HT); eauto.
    + apply (ti_next _ _ HT) in H. lia.
    + intros Hin. apply (ti_chain _ _ HT) in Hin as (nd & Hh & _). congruence.
    + rewrite Hpool. intros Hin. apply (ti_free _ _ HT) in Hin as (nd & Hh & _). congruence.
    + lia.
  - set (p' := {| p_avail := rest; p_left := _; p_asize := _; p_allocs := _ |}).
    assert (Hin0 : In a (p_avail (pools t i))) by (rewrite Hp; now left).
    assert (Hnd : NoDup (a :: rest)) by (rewrite <- Hp; apply (ti_fnd _ _ HT)).
    assert (Hsub : forall j b, In b (p_avail (pupd (pools t) i p' j)) ->
                     In b (p_avail (pools t j)) /\ b <> a).
    { intros j b. unfold pupd. destruct (Nat.eqb_spec i j).
      - subst j. cbn. intros Hb. rewrite Hp. split; [now right|]. intros ->. inversion Hnd; auto.
      - intros Hb. split; auto. intros ->. apply n. eapply (ti_fdisj _ _ HT); eauto. }
    destruct (ti_free _ _ HT _ _ Hin0) as (fnd & Hfh & Hfv).
    repeat split; cbn; intros.
    + apply (ti_chain _ _ HT) in H as (nd & ? & ? & ? & Hok). exists nd; (split; [|split; [|split]]); auto; eapply nodeok_ext; [|exact Hok]; intros ? ? Hx; exact Hx.
    + apply (ti_nodup _ _ HT).
    + eapply (ti_uniq _ _ HT); eauto.
    + apply Hsub in H as [H _]. eapply (ti_free _ _ HT); eauto.
    + unfold pupd. destruct (Nat.eqb_spec i i0); [cbn|apply (ti_fnd _ _ HT)].
      now inversion Hnd.
    + apply Hsub in H as [H _]. apply Hsub in H0 as [H0 _]. eapply (ti_fdisj _ _ HT); eauto.
    + eapply (ti_next _ _ HT); eauto.
    + intros Hin. apply (ti_chain _ _ HT) in Hin as (nd & Hh & Hv & _ & Hok).
      pose proof (no_level _ _ _ Hok). rewrite Hfh in Hh. injection Hh as <-. lia.
    + intros Hin. apply Hsub in Hin as [_ Hin]. congruence.
    + eapply (ti_next _ _ HT); eauto.
Qed.

Lemma writeNode_spec k t a nd : TInv k t -> private t a ->
  TInv k (writeNode a nd t) /\ private (writeNode a nd t) a /\ ext k t (writeNode a nd t) /\
  heap (writeNode a nd t) a = Some nd /\
  (forall b n', reg k (writeNode a nd t) b n' -> reg k t b n').
Proof.
  intros HT (Hc & Hf & Hn).
  assert (Hext : ext k t (writeNode a nd t)).
  { intros b n' [H1 H2]. split; auto. cbn. rewrite hupd_other; auto.
    intros ->. eapply Hc; eauto. }
  assert (Hback : forall b n', reg k (writeNode a nd t) b n' -> reg k t b n').
  { intros b n' [H1 H2]. cbn in *. split; auto. rewrite hupd_other in H1; auto.
    intros ->. eapply Hc; eauto. }
  split; [|split; [|split; [|split]]]; auto.
  - constructor; cbn; intros.
    + pose proof H as Hin. apply (ti_chain _ _ HT) in H as (n' & ? & ? & ? & Hok).
      exists n'. rewrite hupd_other by (intros ->; eapply Hc; eauto). (split; [|split; [|split]]); auto. eapply nodeok_ext; eauto.
    + apply (ti_nodup _ _ HT).
    + eapply (ti_uniq _ _ HT); eauto.
    + rewrite hupd_other by (intros ->; eapply Hf; eauto). eapply (ti_free _ _ HT); eauto.
    + apply (ti_fnd _ _ HT).
    + eapply (ti_fdisj _ _ HT); eauto.
    + unfold hupd in H. destruct (Pos.eqb_spec a a0); [subst; auto|]. eapply (ti_next _ _ HT); eauto.
  - repeat split; auto.
  - apply hupd_same.
Qed.

Lemma returnNode_spec k i t a nd : TInv k t -> private t a ->
  TInv k (returnNode i a nd t) /\ ext k t (returnNode i a nd t).
Proof.
  intros HT (Hc & Hf & Hn).
  assert (Hext : ext k t (returnNode i a nd t)).
  { intros b n' [H1 H2]. split; auto. cbn. rewrite hupd_other; auto.
    intros ->. eapply Hc; eauto. }
  split; auto. unfold returnNode in *.
  set (p' := {| p_avail := _; p_left := _; p_asize := _; p_allocs := _ |}) in *.
  assert (Hsub : forall j b, In b (p_avail (pupd (pools t) i p' j)) ->
                   (b = a /\ i = j) \/ In b (p_avail (pools t j))).
  { intros j b. unfold pupd. destruct (Nat.eqb_spec i j); subst; cbn; intuition. }
  constructor; cbn [heap chain nexta pools]; intros.
  - pose proof H as Hin. apply (ti_chain _ _ HT) in H as (n' & ? & ? & ? & Hok).
    exists n'. rewrite hupd_other by (intros ->; eapply Hc; eauto). (split; [|split; [|split]]); auto. eapply nodeok_ext; eauto.
  - apply (ti_nodup _ _ HT).
  - assert (Hb : forall b, reg k {| heap := hupd (heap t) a (Nd (-2) (nch nd)); chain := chain t;
        nexta := nexta t; pools := pupd (pools t) i p' |} b nd0 -> reg k t b nd0).
    { intros b' [h1 h2]; cbn in *; split; auto. rewrite hupd_other in h1; auto. intros ->; eapply Hc; eauto. }
    eapply (ti_uniq _ _ HT); eauto.
  - apply Hsub in H as [[-> ->]|H].
    + rewrite hupd_same. eexists; split; reflexivity.
    + rewrite hupd_other by (intros ->; eapply Hf; eauto). eapply (ti_free _ _ HT); eauto.
  - unfold pupd. destruct (Nat.eqb_spec i i0); [subst p'; cbn|apply (ti_fnd _ _ HT)].
    constructor; [apply Hf|apply (ti_fnd _ _ HT)].
  - apply Hsub in H as [[-> ->]|H]; apply Hsub in H0 as [[? ->]|H0]; auto.
    + exfalso; eapply Hf; eauto.
    + subst. exfalso; eapply Hf; eauto.
    + eapply (ti_fdisj _ _ HT); eauto.
  - unfold hupd in H. destruct (Pos.eqb_spec a a0); [subst; auto|]. eapply (ti_next _ _ HT); eauto.
Qed.

Lemma scan_spec k t l nd : TInv k t -> (forall a, In a l -> exists n', heap t a = Some n') ->
  (exists b n', scan (heap t) l nd = Some (Some b) /\ In b l /\ heap t b = Some n' /\ node_eqb nd n' = true)
  \/ (scan (heap t) l nd = Some None /\ forall b n', In b l -> heap t b = Some n' -> node_eqb nd n' = false).
Proof.
  intros HT. induction l as [|a l IH]; intros H; cbn.
  - right; split; auto. intros ? ? [].
  - destruct (H a (or_introl eq_refl)) as (n' & Hn'). rewrite Hn'.
    destruct (node_eqb nd n') eqn:Heq.
    + left. exists a, n'. auto.
    + destruct IH as [(b & n2 & ? & ? & ? & ?)|[H1 H2]].
      * intros; apply H; now right.
      * left. exists b, n2. repeat split; auto.
      * right. split; auto. intros b n2 [->|Hb] Hh; [congruence|eauto].
Qed.

Lemma edges_eqb_refl l : edges_eqb l l = true.
Proof.
  induction l as [|e l IH]; cbn; auto. unfold edge_eqb.
  now rewrite isequal_refl, ptr_eqb_refl, IH.
Qed.
Lemma node_eqb_refl nd : node_eqb nd nd = true.
Proof. unfold node_eqb. now rewrite Z.eqb_refl, edges_eqb_refl. Qed.
Lemma edge_eqb_ex a b : tau = 0%R -> edge_eqb a b = true -> a = b.
Proof.
  intros Ht H. apply andb_prop in H as [H1 H2]. apply isequal_ex in H1; auto.
  apply ptr_eqb_eq in H2. destruct a, b; cbn in *; congruence.
Qed.
Lemma edges_eqb_ex a b : tau = 0%R -> edges_eqb a b = true -> a = b.
Proof.
  intros Ht. revert b. induction a as [|x a IH]; destruct b as [|y b]; cbn; try discriminate; auto.
  intros H. apply andb_prop in H as [H1 H2]. f_equal; auto. now apply edge_eqb_ex.
Qed.
Lemma node_eqb_ex a b : tau = 0%R -> node_eqb a b = true -> a = b.
Proof.
  intros Ht H. apply andb_prop in H as [H1 H2]. apply Z.eqb_eq in H1.
  apply edges_eqb_ex in H2; auto. destruct a, b; cbn in *; congruence.
Qed.

Lemma cupd_same c v key l : cupd c v key l v key = l.
Proof. unfold cupd. now rewrite !Z.eqb_refl. Qed.
Lemma cupd_cases c v key l v' key' :
  (v = v' /\ key = key' /\ cupd c v key l v' key' = l) \/
  (cupd c v key l v' key' = c v' key').
Proof.
  unfold cupd. destruct (Z.eqb_spec v v'), (Z.eqb_spec key key'); cbn; auto.
Qed.

(* registering a private slot whose content is fresh in its bucket *)
Lemma insert_spec k t a nd : TInv k t -> private t a -> heap t a = Some nd -> nodeok k t nd ->
  (tau = 0%R -> forall b, ~ reg k t b nd) ->
  let t' := {| heap := heap t;
               chain := cupd (chain t) (nv nd) (nkey k nd) (a :: chain t (nv nd) (nkey k nd));
               nexta := nexta t; pools := pools t |} in
  TInv k t' /\ ext k t t' /\ reg k t' a nd.
Proof.
  intros HT (Hc & Hf & Hn) Hh Hok Hfresh t'.
  assert (Hext : ext k t t').
  { intros b n' [H1 H2]. split; auto. cbn.
    destruct (cupd_cases (chain t) (nv nd) (nkey k nd) (a :: chain t (nv nd) (nkey k nd)) (nv n') (nkey k n'))
      as [(E1 & E2 & ->)| ->]; auto.
    rewrite E1, E2. now right. }
  assert (Hin : forall v key b, In b (chain t' v key) ->
            (b = a /\ v = nv nd /\ key = nkey k nd) \/ In b (chain t v key)).
  { cbn. intros v key b.
    destruct (cupd_cases (chain t) (nv nd) (nkey k nd) (a :: chain t (nv nd) (nkey k nd)) v key)
      as [(E1 & E2 & ->)| ->]; auto.
    subst. intros [<-|H]; auto. }
  split; [|split; auto].
  2:{ split; auto. cbn. rewrite cupd_same. now left. }
  constructor; intros.
  - apply Hin in H as [(-> & -> & ->)|H].
    + exists nd. (split; [|split; [|split]]); auto. eapply nodeok_ext; eauto.
    + apply (ti_chain _ _ HT) in H as (n' & ? & ? & ? & Hok'). exists n'. (split; [|split; [|split]]); auto.
      eapply nodeok_ext; eauto.
  - cbn. destruct (cupd_cases (chain t) (nv nd) (nkey k nd) (a :: chain t (nv nd) (nkey k nd)) v key)
      as [(E1 & E2 & ->)| ->]; [|apply (ti_nodup _ _ HT)].
    constructor; [apply Hc|apply (ti_nodup _ _ HT)].
  - assert (Hr : forall c, reg k t' c nd0 -> (c = a /\ nd0 = nd) \/ reg k t c nd0).
    { intros c [h1 h2]. apply Hin in h2 as [(-> & _)|h2]; [left|right].
      - split; auto. cbn in h1. congruence.
      - split; auto. }
    apply Hr in H0 as [[-> ->]|H0]; apply Hr in H1 as [[-> E]|H1]; auto.
    + exfalso; eapply Hfresh; eauto.
    + subst. exfalso; eapply Hfresh; eauto.
    + eapply (ti_uniq _ _ HT); eauto.
  - eapply (ti_free _ _ HT); eauto.
  - apply (ti_fnd _ _ HT).
  - eapply (ti_fdisj _ _ HT); eauto.
  - eapply (ti_next _ _ HT); eauto.
Qed.

Lemma level_ok_true v : 0 <= v < NQUBITS -> level_ok v = true.
Proof. unfold level_ok. intros. apply andb_true_intro; split; [apply Z.leb_le|apply Z.ltb_lt]; lia. Qed.

Lemma lookup_spec k i t a nd : TInv k t -> private t a -> heap t a = Some nd -> nodeok k t nd ->
  exists b nd' t', lookup k i a nd t = Some (Node b, t') /\ TInv k t' /\ ext k t t' /\
    reg k t' b nd' /\ node_eqb nd nd' = true.
Proof.
  intros HT Hp Hh Hok. unfold lookup. rewrite level_ok_true by apply Hok.
  destruct (scan_spec k t (chain t (nv nd) (nkey k nd)) nd HT) as [(b & n' & Hs & Hin & Hb & Heq)|[Hs Hno]].
  - intros c Hc. apply (ti_chain _ _ HT) in Hc as (n' & H & _). eauto.
  - rewrite Hs. destruct (returnNode_spec k i t a nd HT Hp) as [HT' He'].
    assert (Hrb : reg k t b n').
    { pose proof Hin as Hin'. apply (ti_chain _ _ HT) in Hin' as (n2 & H1 & H2 & H3 & _).
      assert (n2 = n') by congruence; subst n2. split; auto. now rewrite H2, H3. }
    exists b, n', (returnNode i a nd t). split; [reflexivity|].
    split; [exact HT'|]. split; [exact He'|]. split; [now apply He'|exact Heq].
  - rewrite Hs. destruct (insert_spec k t a nd HT Hp Hh Hok) as (H1 & H2 & H3).
    + intros Ht b [Hb1 Hb2]. specialize (Hno _ _ Hb2 Hb1). rewrite node_eqb_refl in Hno. discriminate.
    + eexists a, nd, _. split; [reflexivity|].
      split; [exact H1|]. split; [exact H2|]. split; [exact H3|apply node_eqb_refl].
Qed.

Lemma set_tb_same (s : state) k t : tb (set_tb s k t) k = t.
Proof. cbn. now rewrite kind_eqb_refl. Qed.
Lemma set_tb_other (s : state) k k' t : k <> k' -> tb (set_tb s k t) k' = tb s k'.
Proof. intros H. cbn. destruct (kind_eqb k k') eqn:E; auto. apply kind_eqb_eq in E. contradiction. Qed.

Lemma intern_spec k i nd s : TInv k (tb s k) -> nodeok k (tb s k) nd ->
  exists b nd' t', intern k i nd s = Some (Node b, set_tb s k t') /\ TInv k t' /\
    ext k (tb s k) t' /\ reg k t' b nd' /\ node_eqb nd nd' = true.
Proof.
  intros HT Hok. unfold intern.
  pose proof (getNode_spec k i (tb s k) HT) as Hg.
  destruct (getNode i (tb s k)) as [a t1]. destruct Hg as (HT1 & Hp1 & Hc1 & Hh1).
  assert (He1 : ext k (tb s k) t1).
  { intros b n' [H1 H2]. split; congruence. }
  destruct (writeNode_spec k t1 a nd HT1 Hp1) as (HT2 & Hp2 & He2 & Hh2 & _).
  assert (Hok2 : nodeok k (writeNode a nd t1) nd).
  { eapply nodeok_ext; [|exact Hok]. eapply ext_trans; eauto. }
  destruct (lookup_spec k i _ a nd HT2 Hp2 Hh2 Hok2) as (b & nd' & t' & Hl & HT3 & He3 & Hr & Heq).
  rewrite Hl. exists b, nd', t'. split; [reflexivity|]. split; [exact HT3|].
  split; [eapply ext_trans; [exact He1|eapply ext_trans; eauto]|]. split; [exact Hr|exact Heq].
Qed.
Lemma scratch_spec k i nd s : TInv k (tb s k) ->
  exists t', scratch k i nd s = set_tb s k t' /\ TInv k t' /\ ext k (tb s k) t'.
Proof.
  intros HT. unfold scratch.
  pose proof (getNode_spec k i (tb s k) HT) as Hg.
  destruct (getNode i (tb s k)) as [a t1]. destruct Hg as (HT1 & Hp1 & Hc1 & Hh1).
  assert (He1 : ext k (tb s k) t1).
  { intros b n' [H1 H2]. split; congruence. }
  destruct (writeNode_spec k t1 a nd HT1 Hp1) as (HT2 & Hp2 & He2 & Hh2 & _).
  destruct (returnNode_spec k i _ a nd HT2 Hp2) as [HT3 He3].
  eexists. split; [reflexivity|]. split; [exact HT3|].
  eapply ext_trans; [exact He1|eapply ext_trans; eauto].
Qed.

End Wf.
