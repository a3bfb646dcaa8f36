(* GCP.v -- correctness of serialisation, rebuilding and garbage collection. *)
From Coq Require Import Reals Lra Psatz ZArith Bool List Lia Arith.
From Coquelicot Require Import Complex.
From Verif Require Import Num State DD GC RNum Wf Sums Err Inv Wp Make Add MulV Canon.
Import ListNotations.
Open Scope Z_scope.

Section GCP.
Context (tau : R) {HTol : Tol tau}.
Let Htau : (0 <= tau < 1 / 2)%R := tol_ok.
#[local] Hint Extern 0 NumOps => exact (RNum tau) : typeclass_instances.
Context {CF : Cfg}.
Notation table := (@table (RNum tau)).
Notation state := (@state (RNum tau)).
Notation edge := (@edge (RNum tau)).
Notation node := (@node (RNum tau)).
Notation content := (@content (RNum tau)).
Notation val := (val tau).
Notation valp := (valp tau).
Notation wfe := (wfe tau).
Notation wfp := (wfp tau).
Notation reg := (reg tau).
Notation TInv := (TInv tau).
Notation Inv := (Inv tau).
Notation eps := (eps tau).
Notation E := (@E (RNum tau)).
Notation Nd := (@Nd (RNum tau)).

(* q is reached from p by following child pointers *)
Inductive reach (k : kind) (s : state) : ptr -> ptr -> Prop :=
| reach_refl p : reach k s p p
| reach_child p nd e q : p <> Term -> readn k p s = Some nd -> In e (nch nd) ->
    reach k s (en e) q -> reach k s p q.

Lemma reach_trans k s p q r : reach k s p q -> reach k s q r -> reach k s p r.
Proof. induction 1; intros Hqr; auto. eapply reach_child; eauto. Qed.

Definition desc (k : kind) (t : table) (ps : list ptr) (j : nat) (c : content) : Prop :=
  exists a nd, nth_error ps j = Some (Node a) /\ reg k t a nd /\ c_v c = nv nd /\
    c_w c = map ew (nch nd) /\ length (c_ix c) = length (nch nd) /\
    forall i, (i < length (nch nd))%nat ->
      (nth i (c_ix c) 0 < j)%nat /\ nth_error ps (nth i (c_ix c) 0%nat) = Some (en (nth i (nch nd) zeroE)).

Record EI (k : kind) (t : table) (ps : list ptr) (cs : list content) (m : pmap) : Prop := {
  ei_len : length cs = length ps;
  ei_0 : nth_error ps 0 = Some Term;
  ei_nd : NoDup ps;
  ei_map : forall p j, m p = Some j <-> nth_error ps j = Some p;
  ei_desc : forall j c, (1 <= j)%nat -> nth_error cs j = Some c -> desc k t ps j c
}.

Definition okp (k : kind) (t : table) (n : nat) (p : ptr) : Prop := p = Term \/ wfp k t n p.
Definition levlt (k : kind) (t : table) (n : nat) (p : ptr) : Prop :=
  exists a nd, p = Node a /\ reg k t a nd /\ nv nd < Z.of_nat n.

Lemma okp_node k t n a : TInv k t -> okp k t n (Node a) ->
  exists nd, reg k t a nd /\ 0 <= nv nd < Z.of_nat n.
Proof.
  intros HT [H|H]; [discriminate|]. unfold Wf.wfp in H. destruct k.
  - destruct n; [discriminate|]. destruct H as (a' & nd & Ha & Hr & Hv). inversion Ha; subst a'.
    exists nd; split; auto. lia.
  - destruct H as [H|(a' & nd & Ha & Hr & Hv)]; [discriminate|]. inversion Ha; subst a'.
    exists nd; split; auto. pose proof (no_level _ _ _ _ (reg_ok tau KM t a nd HT Hr)). lia.
Qed.
Lemma okp_null k t n : ~ okp k t n Null.
Proof.
  intros [H|H]; [discriminate|]. unfold Wf.wfp in H. destruct k.
  - destruct n; [discriminate|]. destruct H as (a' & nd & Ha & _). discriminate.
  - destruct H as [H|(a' & nd & Ha & _)]; discriminate.
Qed.
Lemma wfe_okp k t n e : wfe k t n e -> okp k t n (en e).
Proof. intros [H|[_ H]]; [right; exact H | left; exact H]. Qed.

Lemma nth_error_app_l {A} (l l' : list A) i x : nth_error l i = Some x -> nth_error (l ++ l') i = Some x.
Proof. intros H. rewrite nth_error_app1; auto. apply nth_error_Some. congruence. Qed.

Lemma desc_app k t ps ps2 j c : desc k t ps j c -> desc k t (ps ++ ps2) j c.
Proof.
  intros (a & nd & H1 & H2 & H3 & H4 & H5 & H6). exists a, nd.
  repeat (split; [solve [auto using nth_error_app_l]|]).
  intros i Hi. destruct (H6 i Hi). split; auto using nth_error_app_l.
Qed.

(* specification of a serialisation step *)
Definition enc_spec (k : kind) (s : state) (n : nat) (go : ptr -> enc -> option (nat * enc)) : Prop :=
  forall p ps cs m, okp k (tb s k) n p -> EI k (tb s k) ps cs m ->
  exists i ps2 cs' m', go p (cs, m) = Some (i, (cs', m')) /\ EI k (tb s k) (ps ++ ps2) cs' m' /\
    nth_error (ps ++ ps2) i = Some p /\
    (forall q, In q ps2 -> levlt k (tb s k) n q /\ reach k s p q) /\
    (m p = None -> S i = length (ps ++ ps2)).

Lemma kids_spec k s n go : enc_spec k s n go ->
  forall l ps cs m, (forall e, In e l -> okp k (tb s k) n (en e)) -> EI k (tb s k) ps cs m ->
  exists is ps2 cs' m', kids go l (cs, m) = Some (is, (cs', m')) /\ EI k (tb s k) (ps ++ ps2) cs' m' /\
    Forall2 (fun i e => nth_error (ps ++ ps2) i = Some (en e)) is l /\
    (forall q, In q ps2 -> levlt k (tb s k) n q /\ exists e, In e l /\ reach k s (en e) q).
Proof.
  intros Hgo. induction l as [|e l IH]; intros ps cs m Hl HE.
  - exists [], [], cs, m. rewrite app_nil_r. split; [reflexivity|]. split; [exact HE|].
    split; [constructor|]. intros q [].
  - destruct (Hgo (en e) ps cs m (Hl e (or_introl eq_refl)) HE) as (i & p1 & cs1 & m1 & H1 & H2 & H3 & H4 & _).
    destruct (IH (ps ++ p1) cs1 m1 (fun x Hx => Hl x (or_intror Hx)) H2) as (is & p2 & cs2 & m2 & G1 & G2 & G3 & G4).
    exists (i :: is), (p1 ++ p2), cs2, m2. cbn [kids]. rewrite H1, G1. split; [reflexivity|].
    rewrite app_assoc. split; [exact G2|]. split.
    + constructor; [apply nth_error_app_l; exact H3|exact G3].
    + intros q Hq. apply in_app_or in Hq. destruct Hq as [Hq|Hq].
      * destruct (H4 q Hq) as [A B]. split; [exact A|]. exists e. split; [left; reflexivity|exact B].
      * destruct (G4 q Hq) as [A (e' & B & C)]. split; [exact A|]. exists e'. split; [right; exact B|exact C].
Qed.

Lemma Forall2_nth {A B} (P : A -> B -> Prop) l l' i d d' : Forall2 P l l' -> (i < length l')%nat -> P (nth i l d) (nth i l' d').
Proof.
  intros H. revert i. induction H as [|x y l l' Hxy H IH]; intros i Hi; [inversion Hi|].
  destruct i; cbn; auto. apply IH. cbn in Hi. lia.
Qed.
Lemma Forall2_len {A B} (P : A -> B -> Prop) l l' : Forall2 P l l' -> length l = length l'.
Proof. induction 1; cbn; auto. Qed.

Lemma nth_error_snoc {A} (l : list A) x i y : nth_error (l ++ [x]) i = Some y ->
  nth_error l i = Some y \/ (i = length l /\ y = x).
Proof.
  intros H. destruct (Nat.lt_ge_cases i (length l)) as [Hl|Hl].
  - left. rewrite nth_error_app1 in H; auto.
  - right. rewrite nth_error_app2 in H by auto. destruct (i - length l)%nat as [|u] eqn:Hu.
    + cbn in H. split; [lia|congruence].
    + cbn in H. destruct u; discriminate.
Qed.
Lemma nth_error_last {A} (l : list A) x : nth_error (l ++ [x]) (length l) = Some x.
Proof. rewrite nth_error_app2 by auto. rewrite Nat.sub_diag. reflexivity. Qed.

Lemma levlt_up k t n m p : (n <= m)%nat -> levlt k t n p -> levlt k t m p.
Proof. intros H (a & nd & H1 & H2 & H3). exists a, nd. split; [auto|]. split; [auto|lia]. Qed.

Lemma EI_push k t ps cs m a nd is : EI k t ps cs m -> reg k t a nd -> ~ In (Node a) ps ->
  Forall2 (fun i e => nth_error ps i = Some (en e)) is (nch nd) ->
  EI k t (ps ++ [Node a]) (cs ++ [Ct (nv nd) (map ew (nch nd)) is]) (pset m (Node a) (length cs)).
Proof.
  intros HE Hr Hn HF. destruct HE as [H1 H2 H3 H4 H5]. constructor.
  - rewrite !app_length, H1. reflexivity.
  - apply nth_error_app_l; exact H2.
  - apply (NoDup_Add (a := Node a) (l := ps)).
    + rewrite <- (app_nil_r ps) at 1. apply Add_app.
    + split; auto.
  - intros p j. unfold pset. destruct (ptr_eqb (Node a) p) eqn:Hp.
    + apply ptr_eqb_eq in Hp. subst p. split; intros H.
      * inversion H; subst j. rewrite H1. apply nth_error_last.
      * apply nth_error_snoc in H. destruct H as [H|[H _]].
        { apply nth_error_In in H. contradiction. }
        { subst j. rewrite H1. reflexivity. }
    + rewrite H4. split; intros H.
      * apply nth_error_app_l; exact H.
      * apply nth_error_snoc in H. destruct H as [H|[_ H]]; auto.
        subst p. rewrite ptr_eqb_refl in Hp. discriminate.
  - intros j c Hj Hc. apply nth_error_snoc in Hc. destruct Hc as [Hc|[Hc Hc']].
    + apply desc_app. apply H5; auto.
    + subst j c. exists a, nd. cbn [c_v c_w c_ix]. rewrite H1.
      split; [apply nth_error_last|]. split; [exact Hr|]. split; [reflexivity|]. split; [reflexivity|].
      split; [exact (Forall2_len _ _ _ HF)|]. intros i Hi.
      pose proof (Forall2_nth _ _ _ i 0%nat zeroE HF Hi) as Hx. cbn beta in Hx. split.
      * apply nth_error_Some. congruence.
      * apply nth_error_app_l; exact Hx.
Qed.

Lemma to_vec_spec k s : TInv k (tb s k) -> forall fuel n, (n <= fuel)%nat -> enc_spec k s n (to_vec k s fuel).
Proof.
  intros HT. induction fuel as [|f IH]; intros n Hn p ps cs m Hp HE.
  - (* fuel 0: p = Term *)
    assert (Hps : p = Term).
    { destruct p as [| |a]; auto; [exfalso; exact (okp_null _ _ _ Hp)|].
      destruct (okp_node _ _ _ _ HT Hp) as (nd & _ & Hv). lia. }
    subst p. assert (Hm : m Term = Some 0%nat) by (apply (ei_map _ _ _ _ _ HE); apply (ei_0 _ _ _ _ _ HE)).
    exists 0%nat, [], cs, m. cbn [to_vec fst].
    destruct cs as [|c cs]; [pose proof (ei_len _ _ _ _ _ HE) as X; pose proof (ei_0 _ _ _ _ _ HE); destruct ps; discriminate|].
    rewrite Hm, app_nil_r. split; [reflexivity|]. split; [exact HE|]. split; [apply (ei_0 _ _ _ _ _ HE)|].
    split; [intros q []|]. intros X; discriminate.
  - cbn [to_vec fst].
    destruct cs as [|c cs]; [pose proof (ei_len _ _ _ _ _ HE) as X; pose proof (ei_0 _ _ _ _ _ HE); destruct ps; discriminate|].
    remember (c :: cs) as cs0 eqn:Hcs0. clear Hcs0 c cs.
    destruct (m p) as [i|] eqn:Hm.
    + exists i, [], cs0, m. rewrite app_nil_r. split; [reflexivity|]. split; [exact HE|].
      split; [apply (ei_map _ _ _ _ _ HE); exact Hm|]. split; [intros q []|]. intros X; discriminate.
    + assert (Hnt : p <> Term).
      { intros ->. assert (m Term = Some 0%nat) by (apply (ei_map _ _ _ _ _ HE); apply (ei_0 _ _ _ _ _ HE)). congruence. }
      destruct p as [| |a]; [exfalso; exact (okp_null _ _ _ Hp)|congruence|].
      destruct (okp_node _ _ _ _ HT Hp) as (nd & Hr & Hv).
      assert (Hrd : readn k (Node a) s = Some nd) by (cbn; exact (proj1 Hr)).
      rewrite Hrd.
      pose proof (reg_ok tau k _ a nd HT Hr) as Hok.
      assert (Hlv : (Z.to_nat (nv nd) <= f)%nat) by lia.
      destruct (kids_spec k s (Z.to_nat (nv nd)) (to_vec k s f) (IH _ Hlv) (nch nd) ps cs0 m) as (is & p2 & cs' & m' & G1 & G2 & G3 & G4).
      { intros e He. apply wfe_okp. apply (no_wf _ _ _ _ Hok); exact He. }
      { exact HE. }
      rewrite G1.
      assert (Hnin : ~ In (Node a) (ps ++ p2)).
      { intros Hin. apply in_app_or in Hin. destruct Hin as [Hin|Hin].
        - apply In_nth_error in Hin. destruct Hin as [j Hj]. apply (ei_map _ _ _ _ _ HE) in Hj. congruence.
        - destruct (G4 _ Hin) as [(a' & nd' & Ha & Hr' & Hlt) _]. inversion Ha; subst a'.
          pose proof (reg_fun tau _ _ _ _ _ Hr Hr'). subst nd'. lia. }
      exists (length cs'), (p2 ++ [Node a]), (cs' ++ [Ct (nv nd) (map ew (nch nd)) is]), (pset m' (Node a) (length cs')).
      split; [reflexivity|]. rewrite app_assoc. split; [apply EI_push; auto|].
      split; [rewrite (ei_len _ _ _ _ _ G2); apply nth_error_last|]. split.
      * intros q Hq. apply in_app_or in Hq. destruct Hq as [Hq|[Hq|[]]].
        { destruct (G4 q Hq) as [A (e & B & C)]. split; [apply (levlt_up _ _ (Z.to_nat (nv nd))); [lia|exact A]|].
          eapply reach_child; eauto. }
        { subst q. split; [exists a, nd; repeat split; try apply Hr; lia|apply reach_refl]. }
      * intros _. rewrite (app_length (ps ++ p2)), (ei_len _ _ _ _ _ G2). cbn. lia.
Qed.

Lemma EI_init k t : EI k t [Term] [term_content k] (pset pmap0 Term 0).
Proof.
  constructor; auto.
  - constructor; [intros []|constructor].
  - intros p j. unfold pset, pmap0. destruct (ptr_eqb Term p) eqn:Hp.
    + apply ptr_eqb_eq in Hp. subst p. split; intros H; [inversion H; reflexivity|].
      destruct j as [|j]; [reflexivity|]. destruct j; discriminate.
    + split; [discriminate|]. intros H. destruct j as [|j]; cbn in H.
      * inversion H; subst p. discriminate.
      * destruct j; discriminate.
  - intros j c Hj Hc. destruct j as [|j]; [lia|]. destruct j; discriminate.
Qed.
Lemma to_vec_enc0 k s fuel p : to_vec k s fuel p enc0 = to_vec k s fuel p ([term_content k], pset pmap0 Term 0).
Proof. destruct fuel; reflexivity. Qed.

(* the whole serialisation of a well-formed root *)
Lemma node_to_vec_spec k s n p : TInv k (tb s k) -> (n <= 101)%nat -> okp k (tb s k) n p ->
  exists i cs ps m, node_to_vec k s p = Some (i, cs) /\ EI k (tb s k) ps cs m /\
    nth_error ps i = Some p /\ S i = length ps /\
    (forall q, In q ps -> q = Term \/ (levlt k (tb s k) n q /\ reach k s p q)).
Proof.
  intros HT Hn Hp.
  destruct (to_vec_spec k s HT FUEL n Hn p [Term] [term_content k] (pset pmap0 Term 0) Hp (EI_init k _))
    as (i & ps2 & cs & m & H1 & H2 & H3 & H4 & H5).
  exists i, cs, ([Term] ++ ps2), m. unfold node_to_vec. rewrite to_vec_enc0.
  match goal with |- context [to_vec k s FUEL p ?x] => replace (to_vec k s FUEL p x) with (Some (i, (cs, m))) by (symmetry; exact H1) end.
  split; [reflexivity|]. split; [exact H2|]. split; [exact H3|]. split.
  - destruct p as [| |a]; [exfalso; exact (okp_null _ _ _ Hp)| |apply H5; reflexivity].
    clear H5. pose proof H1 as H1'. unfold FUEL in H1'. cbn in H1'. inversion H1'; subst.
    pose proof (ei_len _ _ _ _ _ H2) as X. cbn in X. cbn. lia.
  - intros q Hq. apply in_app_or in Hq. destruct Hq as [[Hq|[]]|Hq]; auto.
Qed.

(* ---- rebuilding -------------------------------------------------------------- *)
Definition good (k : kind) (t t' : table) (d : R) (p q : ptr) : Prop :=
  (p = Term -> q = Term) /\
  forall n, wfp k t n p -> wfp k t' n q /\
    forall ix, (Cmod (Cminus (valp k t' n q ix) (valp k t n p ix)) <= INR n * d)%R.

Lemma good_ext k t t1 t2 d p q : TInv k t1 -> ext tau k t1 t2 -> good k t t1 d p q -> good k t t2 d p q.
Proof.
  intros HT He [H1 H2]. split; auto. intros n Hn. destruct (H2 n Hn) as [A B].
  split; [exact (wfp_ext tau _ _ _ _ _ He A)|]. intros ix. rewrite (valp_ext tau k t1 t2 n q ix HT He A). apply B.
Qed.

Lemma good_inj k t t' d p p' q n n' : tau = 0%R -> d = 0%R -> TInv k t ->
  good k t t' d p q -> good k t t' d p' q -> wfp k t n p -> wfp k t n' p' -> p = p'.
Proof.
  intros Ht Hd HT [_ G] [_ G'] Hp Hp'.
  assert (exists N, wfp k t N p /\ wfp k t N p') as (N & HN & HN').
  { destruct k.
    - destruct (G n Hp) as [A _]. destruct (G' n' Hp') as [B _].
      exists n. split; auto. replace n with n'; auto.
      unfold Wf.wfp in A, B. destruct n, n'; auto.
      + destruct B as (a & nd & -> & _). discriminate.
      + destruct A as (a & nd & -> & _). discriminate.
      + destruct A as (a & nd & -> & Ha & Hv). destruct B as (b & nd' & Hb & Hb' & Hv').
        inversion Hb; subst b. pose proof (reg_fun tau _ _ _ _ _ Ha Hb'). subst nd'. lia.
    - exists (Nat.max n n'). split; [apply (wfp_KM_up tau _ n)|apply (wfp_KM_up tau _ n')]; auto; lia. }
  apply (canon_ptr tau k t Ht HT N p p' (RtoC 1) HN HN'). intros ix.
  destruct (G N HN) as [_ A]. destruct (G' N HN') as [_ B]. specialize (A ix). specialize (B ix).
  rewrite Hd, Rmult_0_r in A, B.
  assert (X : forall x y : C, (Cmod (Cminus x y) <= 0)%R -> x = y).
  { intros x y H. assert (Cminus x y = RtoC 0) as H0 by (apply Cmod_eq_0; pose proof (Cmod_ge_0 (Cminus x y)); lra).
    replace x with (Cplus (Cminus x y) y) by ring. rewrite H0. ring. }
  apply X in A. apply X in B. rewrite Cmult_1_l. congruence.
Qed.

(* value of a rebuilt node *)
Lemma good_node k t t' d a nd b nd'' :
  TInv k t -> TInv k t' -> (0 <= d)%R -> reg k t a nd -> reg k t' b nd'' -> nv nd'' = nv nd ->
  length (nch nd'') = length (nch nd) ->
  (forall i, (i < length (nch nd))%nat ->
     good k t t' d (en (nth i (nch nd) zeroE)) (en (nth i (nch nd'') zeroE)) /\
     (Cmod (Cminus (ew (nth i (nch nd'') zeroE)) (ew (nth i (nch nd) zeroE))) <= d)%R) ->
  good k t t' d (Node a) (Node b).
Proof.
  intros HT HT' Hd Hr Hr' Hv Hl Hc. split; [discriminate|].
  pose proof (reg_ok tau k t a nd HT Hr) as Hok.
  pose proof (reg_ok tau k t' b nd'' HT' Hr') as Hok'.
  pose proof (no_level _ _ _ _ Hok) as Hlv.
  assert (Hbase : forall ix, (Cmod (Cminus (valp k t' (S (Z.to_nat (nv nd))) (Node b) ix) (valp k t (S (Z.to_nat (nv nd))) (Node a) ix)) <= INR (S (Z.to_nat (nv nd))) * d)%R).
  { intros ix. set (m := Z.to_nat (nv nd)). assert (Hm : nv nd = Z.of_nat m) by (unfold m; lia).
    rewrite (valp_S_node tau k t' m b nd'' ix Hr') by congruence.
    rewrite (valp_S_node tau k t m a nd ix Hr) by congruence.
    destruct (Nat.lt_ge_cases (ix m) (length (nch nd))) as [Hi|Hi].
    - destruct (Hc _ Hi) as [[G1 G2] Hw].
      assert (Hin : In (nth (ix m) (nch nd) zeroE) (nch nd)) by (apply nth_In; exact Hi).
      assert (Hin' : In (nth (ix m) (nch nd'') zeroE) (nch nd'')) by (apply nth_In; rewrite Hl; exact Hi).
      pose proof (no_wf _ _ _ _ Hok _ Hin) as W. pose proof (no_le1 _ _ _ _ Hok _ Hin) as L.
      pose proof (no_wf _ _ _ _ Hok' _ Hin') as W'. rewrite Hv in W'. fold m in W, W'.
      set (c := nth (ix m) (nch nd) zeroE) in *. set (c' := nth (ix m) (nch nd'') zeroE) in *.
      assert (V' : (Cmod (valp k t' m (en c') ix) <= 1)%R).
      { apply (valp_le1 tau k t' HT' m (en c') ix). destruct W' as [W'|[_ W']]; auto. }
      unfold Wf.val. rewrite S_INR.
      assert (Hm0 : (0 <= INR m * d)%R) by (apply Rmult_le_pos; [apply pos_INR|exact Hd]).
      destruct W as [W|[W0 W1]].
      + destruct (G2 m W) as [_ B]. specialize (B ix).
        replace (Cminus (Cmult (ew c') (valp k t' m (en c') ix)) (Cmult (ew c) (valp k t m (en c) ix)))
          with (Cplus (Cmult (Cminus (ew c') (ew c)) (valp k t' m (en c') ix))
                      (Cmult (ew c) (Cminus (valp k t' m (en c') ix) (valp k t m (en c) ix)))) by (toC; ring).
        eapply Rle_trans; [apply Cmod_triangle|]. rewrite !Cmod_mult.
        assert (Cmod (Cminus (ew c') (ew c)) * Cmod (valp k t' m (en c') ix) <= d * 1)%R.
        { apply Rmult_le_compat; auto using Cmod_ge_0. }
        assert (Cmod (ew c) * Cmod (Cminus (valp k t' m (en c') ix) (valp k t m (en c) ix)) <= 1 * (INR m * d))%R.
        { apply Rmult_le_compat; auto using Cmod_ge_0. }
        lra.
      + rewrite W0. change (@c0 (RNum tau)) with (RtoC 0). rewrite Cmult_0_l. unfold Cminus. rewrite Copp_0, Cplus_0_r.
        rewrite Cmod_mult. rewrite W0 in Hw. change (@c0 (RNum tau)) with (RtoC 0) in Hw.
        unfold Cminus in Hw. rewrite Copp_0, Cplus_0_r in Hw.
        assert (Cmod (ew c') * Cmod (valp k t' m (en c') ix) <= d * 1)%R.
        { apply Rmult_le_compat; auto using Cmod_ge_0. }
        lra.
    - rewrite !nth_overflow by (rewrite ?Hl; exact Hi). rewrite !val_zeroE.
      unfold Cminus. rewrite Copp_0, Cplus_0_l, Cmod_0. apply Rmult_le_pos; [apply pos_INR|exact Hd]. }
  intros n Hn. destruct k.
  - unfold Wf.wfp in Hn. destruct n as [|m]; [discriminate|].
    destruct Hn as (a' & nd1 & Ha & Hr1 & Hv1). inversion Ha; subst a'.
    pose proof (reg_fun tau _ _ _ _ _ Hr Hr1). subst nd1.
    replace (Z.to_nat (nv nd)) with m in Hbase by lia. split; [|exact Hbase].
    exists b, nd''. split; [reflexivity|]. split; [exact Hr'|congruence].
  - destruct Hn as [Hn|(a' & nd1 & Ha & Hr1 & Hv1)]; [discriminate|]. inversion Ha; subst a'.
    pose proof (reg_fun tau _ _ _ _ _ Hr Hr1). subst nd1. split.
    { right. exists b, nd''. split; [reflexivity|]. split; [exact Hr'|congruence]. }
    intros ix. assert (Hge : exists u, n = (u + S (Z.to_nat (nv nd)))%nat) by (exists (n - S (Z.to_nat (nv nd)))%nat; lia).
    destruct Hge as [u Hu]. subst n. clear Hv1. induction u as [|u IHu]; [apply Hbase|].
    cbn [Nat.add]. rewrite (valp_S_skip tau KM t' _ b nd'' ix Hr') by lia.
    rewrite (valp_S_skip tau KM t _ a nd ix Hr) by lia.
    rewrite S_INR.
    match goal with |- (Cmod (Cminus (Cmult ?f ?x) (Cmult _ ?y)) <= _)%R =>
      replace (Cminus (Cmult f x) (Cmult f y)) with (Cmult f (Cminus x y)) by ring end.
    rewrite Cmod_mult. pose proof (skipf_le1 KM (ix (u + S (Z.to_nat (nv nd)))%nat)) as Hs.
    eapply Rle_trans; [apply Rmult_le_compat; [apply Cmod_ge_0|apply Cmod_ge_0|exact Hs|exact IHu]|].
    rewrite Rmult_1_l. apply Rmult_le_compat_r; [exact Hd|lra].
Qed.

Definition DI (k : kind) (t t' : table) (d : R) (ps qs : list ptr) : Prop :=
  forall j p q, nth_error ps j = Some p -> nth_error qs j = Some q -> good k t t' d p q.

Lemma mk_edges_spec k t t' d ps qs j c a nd : DI k t t' d ps qs -> (length qs = j)%nat ->
  c_w c = map ew (nch nd) -> length (c_ix c) = length (nch nd) ->
  (forall i, (i < length (nch nd))%nat ->
      (nth i (c_ix c) 0 < j)%nat /\ nth_error ps (nth i (c_ix c) 0%nat) = Some (en (nth i (nch nd) zeroE))) ->
  reg k t a nd ->
  length (mk_edges qs c) = length (nch nd) /\
  forall i, (i < length (nch nd))%nat -> exists q, nth i (mk_edges qs c) zeroE = E (ew (nth i (nch nd) zeroE)) q /\
     good k t t' d (en (nth i (nch nd) zeroE)) q.
Proof.
  intros HD Hj Hw Hl Hi _. unfold mk_edges.
  assert (Hlen : length (combine (c_w c) (c_ix c)) = length (nch nd)).
  { rewrite combine_length, Hw, map_length, Hl. apply Nat.min_id. }
  split; [rewrite map_length; exact Hlen|]. intros i Hlt. destruct (Hi i Hlt) as [H1 H2].
  set (f := fun wi : cx * nat => E (fst wi) (nth (snd wi) qs Null)).
  assert (exists q, nth_error qs (nth i (c_ix c) 0%nat) = Some q) as [q Hq].
  { destruct (nth_error qs (nth i (c_ix c) 0%nat)) as [q|] eqn:Hq; [eauto|]. apply nth_error_None in Hq. lia. }
  exists q. split; [|exact (HD _ _ _ H2 Hq)].
  rewrite (nth_indep _ zeroE (f (c0, 0%nat))) by (rewrite map_length, Hlen; exact Hlt).
  rewrite map_nth. rewrite combine_nth by (rewrite Hw, map_length, Hl; reflexivity).
  unfold f. cbn [fst snd]. f_equal.
  - rewrite Hw. change (@c0 (RNum tau)) with (ew (@zeroE (RNum tau))). apply map_nth.
  - rewrite (nth_error_nth _ _ _ Hq). reflexivity.
Qed.

Lemma nth_in_ex {A} (l : list A) x d : In x l -> exists i, (i < length l)%nat /\ nth i l d = x.
Proof. intros H. apply (In_nth l x d) in H. destruct H as (i & A1 & A2). eauto. Qed.

Lemma rebuilt_ok k t t' d a nd ch : TInv k t -> (tau = 0%R -> d = 0%R) -> reg k t a nd ->
  length ch = length (nch nd) ->
  (forall i, (i < length (nch nd))%nat -> exists q, nth i ch zeroE = E (ew (nth i (nch nd) zeroE)) q /\
     good k t t' d (en (nth i (nch nd) zeroE)) q) ->
  nodeok tau k t' (Nd (nv nd) ch).
Proof.
  intros HT Hd Hr Hl Hc. pose proof (reg_ok tau k t a nd HT Hr) as Hok.
  assert (HIn : forall x, In x ch -> exists i, (i < length (nch nd))%nat /\ nth i ch zeroE = x).
  { intros x Hx. destruct (nth_in_ex ch x zeroE Hx) as (i & A1 & A2). exists i. split; [lia|exact A2]. }
  assert (Hw : forall i, ew (nth i ch zeroE) = ew (nth i (nch nd) zeroE)).
  { intros i. destruct (Nat.lt_ge_cases i (length (nch nd))) as [Hi|Hi].
    - destruct (Hc i Hi) as (q & Hq & _). rewrite Hq. reflexivity.
    - rewrite !nth_overflow by lia. reflexivity. }
  constructor; cbn [nv nch].
  - exact (no_level _ _ _ _ Hok).
  - rewrite Hl. exact (no_len _ _ _ _ Hok).
  - intros x Hx. destruct (HIn x Hx) as (i & Hi & Hx'). destruct (Hc i Hi) as (q & Hq & G1 & G2).
    subst x. rewrite Hq. destruct (no_wf _ _ _ _ Hok (nth i (nch nd) zeroE) (nth_In _ _ Hi)) as [W|[W0 W1]].
    + left. exact (proj1 (G2 _ W)).
    + right. cbn. split; auto.
  - intros x Hx. destruct (HIn x Hx) as (i & Hi & Hx'). subst x. rewrite Hw.
    apply (no_le1 _ _ _ _ Hok). apply nth_In; exact Hi.
  - intros x Hx Hz. destruct (HIn x Hx) as (i & Hi & Hx'). subst x. rewrite Hw in Hz.
    pose proof (no_zero _ _ _ _ Hok _ (nth_In _ _ Hi) Hz) as Hz'.
    destruct (Hc i Hi) as (q & Hq & G1 & _). rewrite Hq. rewrite Hz' in *. cbn in G1. rewrite (G1 eq_refl). reflexivity.
  - destruct (no_max _ _ _ _ Hok) as (i & Hi & Hi1 & Hi2). exists i. split; [exact Hi|]. split; [rewrite Hw; exact Hi1|].
    intros j Hj. rewrite Hw. apply Hi2; exact Hj.
  - intros -> Ht. pose proof (no_strip _ _ _ _ Hok eq_refl Ht) as Hs. unfold strippable in *. rewrite !Hw.
    pose proof (no_len _ _ _ _ Hok) as Hlen. cbn in Hlen.
    destruct (Hc 0%nat ltac:(lia)) as (q0 & Hq0 & G0). destruct (Hc 3%nat ltac:(lia)) as (q3 & Hq3 & G3).
    rewrite Hq0, Hq3. cbn [en].
    destruct (ptr_eqb q0 q3) eqn:Hq; [|reflexivity]. apply ptr_eqb_eq in Hq. subst q3.
    assert (Hp : forall i, (i < 4)%nat -> wfp KM t (Z.to_nat (nv nd)) (en (nth i (nch nd) zeroE))).
    { intros i Hi. assert (Hi' : (i < length (nch nd))%nat) by lia.
      destruct (no_wf _ _ _ _ Hok (nth i (nch nd) zeroE) (nth_In _ _ Hi')) as [W|[_ W]]; [exact W|].
      left. exact W. }
    assert (Heq : en (nth 0 (nch nd) zeroE) = en (nth 3 (nch nd) zeroE)).
    { apply (good_inj KM t t' d _ _ q0 (Z.to_nat (nv nd)) (Z.to_nat (nv nd)) Ht (Hd Ht) HT G0 G3); apply Hp; lia. }
    rewrite Heq, ptr_eqb_refl in Hs. exact Hs.
Qed.

Definition dof (nolook : bool) : R := if nolook then 0 else eps.
Lemma dof_pos b : (0 <= dof b)%R.
Proof. destruct b; cbn; [lra|apply (eps_pos tau)]. Qed.
Lemma dof_0 b : tau = 0%R -> dof b = 0%R.
Proof. intros H. destruct b; cbn; auto. apply (eps_0 tau). exact H. Qed.

Definition onlyreg (k : kind) (t' : table) (qs : list ptr) : Prop :=
  forall b nd, reg k t' b nd -> In (Node b) qs.

Lemma edges_eqb_w (a b : list edge) : edges_eqb a b = true -> length b = length a /\
  forall i, en (nth i b zeroE) = en (nth i a zeroE) /\ (Cmod (Cminus (ew (nth i b zeroE)) (ew (nth i a zeroE))) <= eps)%R.
Proof.
  intros H. destruct (edges_eqb_nth tau a b H) as [Hl Hi]. split; [auto|]. intros i.
  destruct (Nat.lt_ge_cases i (length a)) as [H1|H1].
  - specialize (Hi i H1). unfold edge_eqb in Hi. apply andb_prop in Hi. destruct Hi as [A B].
    apply ptr_eqb_eq in B. split; [auto|].
    replace (Cminus (ew (nth i b zeroE)) (ew (nth i a zeroE))) with (Copp (Cminus (ew (nth i a zeroE)) (ew (nth i b zeroE)))) by (toC; ring).
    rewrite Cmod_opp. apply isequal_true; [apply Htau|exact A].
  - rewrite !nth_overflow by lia. split; [reflexivity|].
    replace (Cminus (ew (@zeroE (RNum tau))) (ew (@zeroE (RNum tau)))) with (RtoC 0) by (toC; ring).
    rewrite Cmod_0. apply eps_pos. exact HTol.
Qed.

(* the nodes registered in t3 are those of t' and the rebuilt ones; every rebuilt
   node points to the rebuilt children *)
Definition grown (t' t3 : table) (qs : list ptr) : Prop :=
  forall x v key, In x (chain t3 v key) -> In x (chain t' v key) \/ In (Node x) qs.
Definition linked (k : kind) (t3 : table) (cs : list content) (qs : list ptr) : Prop :=
  forall j c, (1 <= j)%nat -> nth_error cs j = Some c -> (j < length qs)%nat ->
  exists b nd, nth_error qs j = Some (Node b) /\ reg k t3 b nd /\ forall u, (u < length (c_ix c))%nat -> (u < length (nch nd))%nat /\ en (nth u (nch nd) zeroE) = nth (nth u (c_ix c) 0%nat) qs Null.
Lemma mk_edges_en qs (c : content) u : length (c_w c) = length (c_ix c) -> (u < length (c_ix c))%nat ->
  en (nth u (mk_edges qs c) zeroE) = nth (nth u (c_ix c) 0%nat) qs Null.
Proof.
  intros Hl Hu. unfold mk_edges. set (f := fun wi : cx * nat => E (fst wi) (nth (snd wi) qs Null)).
  rewrite nth_indep with (d' := f (c0, 0%nat)) by (rewrite map_length, combine_length; lia).
  rewrite map_nth, combine_nth by exact Hl. reflexivity.
Qed.

Lemma one_node k i nolook t t' ps cs m j c qs : TInv k t -> TInv k t' -> EI k t ps cs m ->
  DI k t t' (dof nolook) ps qs -> length qs = j -> (1 <= j)%nat -> nth_error cs j = Some c ->
  (nolook = true -> onlyreg k t' qs) ->
  exists p t3, (let '(a, t1) := getNode i t' in
      let nd := Nd (c_v c) (mk_edges qs c) in
      let t2 := writeNode a nd t1 in
      if nolook then register_wo_lookup k a nd t2 else lookup k i a nd t2) = Some (p, t3) /\
    TInv k t3 /\ ext tau k t' t3 /\ DI k t t3 (dof nolook) ps (qs ++ [p]) /\
    (nolook = true -> onlyreg k t3 (qs ++ [p])) /\
    (forall x v key, In x (chain t3 v key) -> In x (chain t' v key) \/ p = Node x) /\
    (exists b nd, p = Node b /\ reg k t3 b nd /\ forall u, (u < length (c_ix c))%nat ->
       (u < length (nch nd))%nat /\ en (nth u (nch nd) zeroE) = nth (nth u (c_ix c) 0%nat) qs Null).
Proof.
  intros HT HT' HE HD Hj Hj1 Hc Hon.
  destruct (ei_desc _ _ _ _ _ HE j c Hj1 Hc) as (a0 & nd0 & Hp & Hr & Hv & Hw & Hl & Hi).
  destruct (mk_edges_spec k t t' _ ps qs j c a0 nd0 HD Hj Hw Hl Hi Hr) as [Hlen Hch].
  pose proof (rebuilt_ok k t t' (dof nolook) a0 nd0 (mk_edges qs c) HT (dof_0 nolook) Hr Hlen Hch) as Hok.
  pose proof (getNode_spec tau k i t' HT') as Hg. destruct (getNode i t') as [a t1]. destruct Hg as (T1 & P1 & C1 & H1).
  assert (X1 : ext tau k t' t1). { intros b nb Hb. unfold Wf.reg in *. rewrite C1, H1. exact Hb. }
  assert (X1' : ext tau k t1 t'). { intros b nb Hb. unfold Wf.reg in *. rewrite <- C1, <- H1. exact Hb. }
  set (nd := Nd (c_v c) (mk_edges qs c)).
  destruct (writeNode_spec tau k t1 a nd T1 P1) as (T2 & P2 & X2 & H2 & R2).
  set (t2 := writeNode a nd t1) in *. cbv zeta.
  assert (Hnd : nd = Nd (nv nd0) (mk_edges qs c)) by (unfold nd; rewrite Hv; reflexivity).
  assert (Hok2 : nodeok tau k t2 nd).
  { rewrite Hnd. apply (nodeok_ext tau k t1); [exact X2|]. apply (nodeok_ext tau k t'); [exact X1|exact Hok]. }
  assert (X12 : ext tau k t' t2) by (exact (ext_trans tau _ _ _ _ X1 X2)).
  assert (Hlwi : length (c_w c) = length (c_ix c)) by (rewrite Hw, map_length; auto).
  assert (Hmk : forall u, (u < length (c_ix c))%nat -> (u < length (nch nd))%nat /\ en (nth u (nch nd) zeroE) = nth (nth u (c_ix c) 0%nat) qs Null).
  { intros u Hu. unfold nd. cbn [nch]. split; [lia|]. now apply mk_edges_en. }
  assert (Hgr : forall b t3, chain t3 = cupd (chain t2) (nv nd) (nkey k nd) (b :: chain t2 (nv nd) (nkey k nd)) ->
     forall x v key, In x (chain t3 v key) -> In x (chain t' v key) \/ Node b = Node x).
  { intros b t3 E3 x v key Hx. rewrite E3 in Hx.
    destruct (cupd_cases (chain t2) (nv nd) (nkey k nd) (b :: chain t2 (nv nd) (nkey k nd)) v key) as [(E1 & E2 & E4)|E4]; rewrite E4 in Hx.
    - destruct Hx as [->|Hx]; [now right|]. left. rewrite <- C1. rewrite <- E1, <- E2. exact Hx.
    - left. rewrite <- C1. exact Hx. }
  (* finishing: a registered node close to nd *)
  assert (Fin : forall b nd'' t3, TInv k t3 -> ext tau k t2 t3 -> reg k t3 b nd'' ->
     nv nd'' = nv nd -> length (nch nd'') = length (nch nd) ->
     (forall u, en (nth u (nch nd'') zeroE) = en (nth u (nch nd) zeroE) /\
        (Cmod (Cminus (ew (nth u (nch nd'') zeroE)) (ew (nth u (nch nd) zeroE))) <= dof nolook)%R) ->
     good k t t3 (dof nolook) (Node a0) (Node b)).
  { intros b nd'' t3 T3 X3 R3 V3 L3 W3. apply (good_node k t t3 (dof nolook) a0 nd0 b nd''); auto using dof_pos.
    - rewrite V3, Hnd. reflexivity.
    - rewrite L3. exact Hlen.
    - intros u Hu. destruct (W3 u) as [W4 W5]. destruct (Hch u Hu) as (q & Hq & G).
      rewrite W4. unfold nd in W5 |- *. cbn [nch] in *. rewrite Hq in *. cbn [ew en] in *. split; [|exact W5].
      apply (good_ext k t t' t3); auto. exact (ext_trans tau _ _ _ _ X12 X3). }
  assert (DI3 : forall b t3, TInv k t3 -> ext tau k t2 t3 -> good k t t3 (dof nolook) (Node a0) (Node b) ->
     DI k t t3 (dof nolook) ps (qs ++ [Node b])).
  { intros b t3 T3 X3 G j' p q Hp' Hq'. apply nth_error_snoc in Hq'. destruct Hq' as [Hq'|[Hq' Hq'']].
    - apply (good_ext k t t' t3); auto. { exact (ext_trans tau _ _ _ _ X12 X3). } exact (HD _ _ _ Hp' Hq').
    - subst j' q. rewrite Hj in Hp'. rewrite Hp in Hp'. inversion Hp'; subst p. exact G. }
  destruct nolook.
  - unfold register_wo_lookup. rewrite (level_ok_true (nv nd)) by (exact (no_level _ _ _ _ Hok2)).
    assert (Hfresh : tau = 0%R -> forall b, ~ reg k t2 b nd).
    { intros Ht b Hb. pose proof (R2 _ _ Hb) as Hb1. pose proof (X1' _ _ Hb1) as Hb2.
      pose proof (Hon eq_refl _ _ Hb2) as Hin. apply In_nth_error in Hin. destruct Hin as [j' Hj'].
      assert (Hj'j : (j' < j)%nat) by (rewrite <- Hj; apply nth_error_Some; congruence).
      destruct (nth_error ps j') as [pi|] eqn:Hpi.
      2:{ apply nth_error_None in Hpi. assert (j < length ps)%nat by (apply nth_error_Some; congruence). lia. }
      pose proof (HD _ _ _ Hpi Hj') as Gi.
      assert (Gj : good k t t2 (dof true) (Node a0) (Node b)).
      { apply (Fin b nd t2 T2 (ext_refl tau _ _) Hb eq_refl eq_refl). intros u. split; [reflexivity|].
        match goal with |- (Cmod (Cminus ?x ?x) <= _)%R => replace (Cminus x x) with (RtoC 0) by (toC; ring) end.
        rewrite Cmod_0. cbn. lra. }
      assert (Gi2 : good k t t2 (dof true) pi (Node b)) by (apply (good_ext k t t' t2); auto).
      assert (exists ni, wfp k t ni pi) as [ni Hni].
      { destruct pi as [| |ai].
        - exfalso. assert (Hc' : exists c', nth_error cs j' = Some c').
          { destruct (nth_error cs j') eqn:X; eauto. apply nth_error_None in X. rewrite (ei_len _ _ _ _ _ HE) in X.
            assert (j' < length ps)%nat by (apply nth_error_Some; congruence). lia. }
          destruct Hc' as [c' Hc'].
          destruct j' as [|j']. { rewrite (ei_0 _ _ _ _ _ HE) in Hpi. discriminate. }
          destruct (ei_desc _ _ _ _ _ HE (S j') c' ltac:(lia) Hc') as (x & y & Z1 & _). congruence.
        - exists 0%nat. apply wfp_term0.
        - assert (Hc' : exists c', nth_error cs j' = Some c').
          { destruct (nth_error cs j') eqn:X; eauto. apply nth_error_None in X. rewrite (ei_len _ _ _ _ _ HE) in X.
            assert (j' < length ps)%nat by (apply nth_error_Some; congruence). lia. }
          destruct Hc' as [c' Hc'].
          destruct j' as [|j']. { rewrite (ei_0 _ _ _ _ _ HE) in Hpi. discriminate. }
          destruct (ei_desc _ _ _ _ _ HE (S j') c' ltac:(lia) Hc') as (x & y & Z1 & Z2 & _). rewrite Hpi in Z1. inversion Z1; subst x.
          pose proof (no_level _ _ _ _ (reg_ok tau k t ai y HT Z2)) as Lv.
          exists (S (Z.to_nat (nv y))). destruct k.
          + exists ai, y. split; [reflexivity|]. split; [exact Z2|lia].
          + right. exists ai, y. split; [reflexivity|]. split; [exact Z2|lia]. }
      assert (exists nj, wfp k t nj (Node a0)) as [nj Hnj].
      { pose proof (no_level _ _ _ _ (reg_ok tau k t a0 nd0 HT Hr)) as Lv.
        exists (S (Z.to_nat (nv nd0))). destruct k.
        + exists a0, nd0. split; [reflexivity|]. split; [exact Hr|lia].
        + right. exists a0, nd0. split; [reflexivity|]. split; [exact Hr|lia]. }
      assert (Heq : pi = Node a0) by (exact (good_inj k t t2 (dof true) pi (Node a0) (Node b) ni nj Ht eq_refl HT Gi2 Gj Hni Hnj)).
      subst pi. assert (j' = j).
      { apply (proj1 (NoDup_nth_error ps) (ei_nd _ _ _ _ _ HE)); [apply nth_error_Some; congruence|congruence]. }
      lia. }
    destruct (insert_spec tau k t2 a nd T2 P2 H2 Hok2 Hfresh) as (T3 & X3 & R3).
    set (t3 := {| heap := heap t2; chain := _; nexta := _; pools := _ |}) in *.
    exists (Node a), t3. split; [reflexivity|]. split; [exact T3|]. split; [exact (ext_trans tau _ _ _ _ X12 X3)|].
    split; [|split; [|split; [apply Hgr; reflexivity|exists a, nd; split; [reflexivity|split; [exact R3|exact Hmk]]]]].
    + apply DI3; auto. apply (Fin a nd t3 T3 X3 R3 eq_refl eq_refl). intros u. split; [reflexivity|].
      match goal with |- (Cmod (Cminus ?x ?x) <= _)%R => replace (Cminus x x) with (RtoC 0) by (toC; ring) end.
      rewrite Cmod_0. cbn. lra.
    + intros _ b nb Hb. apply in_or_app. destruct (Pos.eq_dec a b) as [->|Hab]; [right; left; reflexivity|].
      left. apply (Hon eq_refl b nb). apply X1'. apply R2. destruct Hb as [Hb1 Hb2]. split; [exact Hb1|].
      unfold t3 in Hb2. cbn [chain] in Hb2.
      destruct (cupd_cases (chain t2) (nv nd) (nkey k nd) (a :: chain t2 (nv nd) (nkey k nd)) (nv nb) (nkey k nb)) as [(E1 & E2 & E3)|E3];
        rewrite E3 in Hb2; [|exact Hb2]. destruct Hb2 as [Hb2|Hb2]; [contradiction|]. rewrite E1, E2 in Hb2. exact Hb2.
  - destruct (lookup_spec tau k i t2 a nd T2 P2 H2 Hok2) as (b & nd' & t3 & L1 & T3 & X3 & R3 & Q3).
    exists (Node b), t3. split; [exact L1|]. split; [exact T3|]. split; [exact (ext_trans tau _ _ _ _ X12 X3)|].
    unfold node_eqb in Q3. apply andb_prop in Q3. destruct Q3 as [Q3 Q4]. apply Z.eqb_eq in Q3.
    destruct (edges_eqb_w _ _ Q4) as [Q5 Q6].
    split; [apply DI3; auto; apply (Fin b nd' t3 T3 X3 R3); auto|]. split; [discriminate|]. split.
    + unfold lookup in L1. destruct (level_ok (nv nd)); [|discriminate]. cbv zeta in L1.
      destruct (scan _ _ _) as [[b'|]|]; [| |discriminate]; injection L1 as L1 L2; rewrite <- L2.
      * intros x v key Hx. left. rewrite <- C1. exact Hx.
      * rewrite <- L1. apply Hgr. reflexivity.
    + exists b, nd'. split; [reflexivity|]. split; [exact R3|]. intros u Hu. destruct (Hmk u Hu) as [M1 M2]. split; [lia|].
      rewrite (proj1 (Q6 u)). exact M2.
Qed.

Lemma from_loop_spec k i nolook t ps cs m : TInv k t -> EI k t ps cs m ->
  forall r pre qs t', cs = pre ++ r -> length qs = length pre -> (1 <= length pre)%nat -> TInv k t' ->
  DI k t t' (dof nolook) ps qs -> (nolook = true -> onlyreg k t' qs) -> linked k t' cs qs ->
  exists qs' t3, from_loop k i nolook r qs t' = Some (qs', t3) /\ TInv k t3 /\ ext tau k t' t3 /\
    DI k t t3 (dof nolook) ps qs' /\ length qs' = length cs /\ grown t' t3 qs' /\ linked k t3 cs qs' /\
    exists qs2, qs' = qs ++ qs2.
Proof.
  intros HT HE. induction r as [|c r IH]; intros pre qs t' Hcs Hlq Hpre HT' HD Hon Hlk.
  - exists qs, t'. split; [reflexivity|]. split; [exact HT'|]. split; [apply ext_refl|]. split; [exact HD|].
    split; [rewrite Hcs, app_nil_r; exact Hlq|]. split; [intros x v key Hx; now left|]. split; [exact Hlk|]. exists []. now rewrite app_nil_r.
  - assert (Hc : nth_error cs (length pre) = Some c).
    { rewrite Hcs. rewrite nth_error_app2 by auto. rewrite Nat.sub_diag. reflexivity. }
    destruct (one_node k i nolook t t' ps cs m (length pre) c qs HT HT' HE HD Hlq Hpre Hc Hon) as (p & t3 & S1 & T3 & X3 & D3 & O3 & G3 & (b3 & nd3 & P3 & R3 & N3)).
    cbn [from_loop]. destruct (getNode i t') as [a t1]. cbv zeta in S1. cbv zeta. rewrite S1.
    destruct (IH (pre ++ [c]) (qs ++ [p]) t3) as (qs' & t4 & A1 & A2 & A3 & A4 & A5 & A6 & A7 & (qs2 & A8)); auto.
    + rewrite Hcs, <- app_assoc. reflexivity.
    + rewrite !app_length, Hlq. reflexivity.
    + rewrite app_length. lia.
    + intros j c' Hj Hc' Hjl. rewrite app_length in Hjl. cbn in Hjl.
      destruct (ei_desc _ _ _ _ _ HE j c' Hj Hc') as (a0 & nd0 & _ & _ & _ & _ & Hlx & Hix).
      assert (Hnth : forall u, (u < length (c_ix c'))%nat -> nth (nth u (c_ix c') 0%nat) (qs ++ [p]) Null = nth (nth u (c_ix c') 0%nat) qs Null).
      { intros u Hu. rewrite Hlx in Hu. destruct (Hix u Hu) as [Hlt _]. apply app_nth1. lia. }
      destruct (Nat.eq_dec j (length qs)) as [->|Hne].
      * exists b3, nd3. rewrite Hlq in Hc'. rewrite Hc in Hc'. injection Hc' as <-.
        split; [rewrite nth_error_app2, Nat.sub_diag by lia; cbn; now rewrite P3|]. split; [exact R3|].
        intros u Hu. destruct (N3 u Hu). split; auto. rewrite Hnth; auto.
      * destruct (Hlk j c' Hj Hc' ltac:(lia)) as (b & nd & Y1 & Y2 & Y3). exists b, nd.
        split; [rewrite nth_error_app1 by lia; exact Y1|]. split; [apply X3; exact Y2|].
        intros u Hu. rewrite Hnth by auto. auto.
    + exists qs', t4. split; [exact A1|]. split; [exact A2|]. split; [exact (ext_trans tau _ _ _ _ X3 A3)|]. split; [exact A4|]. split; [exact A5|].
      split; [|split; [exact A7|exists (p :: qs2); rewrite A8, <- app_assoc; reflexivity]].
      intros x v key Hx. destruct (A6 x v key Hx) as [Hx'|Hx']; [|now right].
      destruct (G3 x v key Hx') as [Hx2|Hx2]; [now left|]. right. rewrite A8, <- Hx2. apply in_or_app. left. apply in_or_app. right. now left.
Qed.

(* reachability in a table *)
Inductive lreach (k : kind) (t : table) : ptr -> ptr -> Prop :=
| lr_refl p : lreach k t p p
| lr_child a nd e q : reg k t a nd -> In e (nch nd) -> lreach k t (en e) q -> lreach k t (Node a) q.
(* encode, then rebuild in any table (a new one when the lookups are skipped) *)
Lemma roundtrip_full k i nolook s n p t' : TInv k (tb s k) -> TInv k t' -> (n <= 101)%nat -> okp k (tb s k) n p ->
  (nolook = true -> onlyreg k t' []) ->
  exists j cs q t3, node_to_vec k s p = Some (j, cs) /\ vec_to_node k i nolook cs t' = Some (q, t3) /\
    TInv k t3 /\ ext tau k t' t3 /\ good k (tb s k) t3 (dof nolook) p q /\
    (forall x v key, In x (chain t3 v key) -> In x (chain t' v key) \/ lreach k t3 q (Node x)).
Proof.
  intros HT HT' Hn Hp Hon.
  destruct (node_to_vec_spec k s n p HT Hn Hp) as (j & cs & ps & m & H1 & H2 & H3 & H4 & H5).
  exists j, cs. destruct cs as [|c r].
  { pose proof (ei_len _ _ _ _ _ H2) as X. cbn in X. rewrite <- X in H4. discriminate. }
  destruct (from_loop_spec k i nolook (tb s k) ps (c :: r) m HT H2 r [c] [Term] t' eq_refl eq_refl (le_n 1) HT')
    as (qs & t3 & A1 & A2 & A3 & A4 & A5 & A6 & A7 & (qs2 & A8)).
  - intros j' p' q' Hp' Hq'. destruct j' as [|j']; [|destruct j'; discriminate].
    rewrite (ei_0 _ _ _ _ _ H2) in Hp'. inversion Hp'; subst p'. cbn in Hq'. inversion Hq'; subst q'.
    split; [auto|]. intros n' Hn'. split.
    + unfold Wf.wfp in *. destruct k; [|left; reflexivity]. destruct n'; auto.
      destruct Hn' as (x & y & Z1 & _). discriminate.
    + intros ix. assert (HX : valp k t' n' Term ix = valp k (tb s k) n' Term ix).
      { clear. induction n' as [|n' IH]; [reflexivity|]. rewrite !valp_S_term, IH. reflexivity. }
      rewrite HX. match goal with |- (Cmod (Cminus ?x ?x) <= _)%R => replace (Cminus x x) with (RtoC 0) by (toC; ring) end.
      rewrite Cmod_0. apply Rmult_le_pos; [apply pos_INR|apply dof_pos].
  - intros Hnl b nd Hb. destruct (Hon Hnl b nd Hb).
  - intros j' c' Hj' _ Hl'. cbn in Hl'. lia.
  - assert (Hq : exists q, nth_error qs (length (c :: r) - 1) = Some q).
    { destruct (nth_error qs (length (c :: r) - 1)) eqn:X; eauto. apply nth_error_None in X. rewrite A5 in X. cbn in X. lia. }
    destruct Hq as [q Hq]. exists q, t3. split; [exact H1|]. split.
    + unfold vec_to_node. rewrite A1. rewrite (nth_error_nth _ _ _ Hq). reflexivity.
    + split; [exact A2|]. split; [exact A3|].
      assert (Hqj : nth_error qs j = Some q).
      { replace j with (length (c :: r) - 1)%nat; [exact Hq|]. pose proof (ei_len _ _ _ _ _ H2) as X. lia. }
      split; [apply (A4 j); [exact H3|exact Hqj]|].
      intros x v key Hx. destruct (A6 x v key Hx) as [Hx'|Hx']; [now left|]. right.
      apply In_nth_error in Hx' as (jx & Hjx).
      assert (Hlen : length qs = length ps) by (rewrite A5; apply (ei_len _ _ _ _ _ H2)).
      destruct (nth_error ps jx) as [px|] eqn:Hpx.
      2:{ apply nth_error_None in Hpx. assert (jx < length qs)%nat by (apply nth_error_Some; congruence). lia. }
      assert (Hjx0 : jx <> 0%nat).
      { intros ->. rewrite A8 in Hjx. cbn in Hjx. discriminate. }
      destruct (H5 px (nth_error_In _ _ Hpx)) as [->|[_ Hre]].
      { exfalso. apply Hjx0. apply (proj1 (NoDup_nth_error ps) (ei_nd _ _ _ _ _ H2)); [apply nth_error_Some; congruence|].
        rewrite Hpx. symmetry. apply (ei_0 _ _ _ _ _ H2). }
      clear Hq H4 A4 Hx A6. clear H1 Hp Hn H5. revert j q H3 Hqj. induction Hre as [p|p nd ed pz Hpt Hrd Hie Hre IH]; intros j q H3 Hqj.
      { replace q with (Node x); [constructor|]. rewrite <- (proj1 (NoDup_nth_error ps) (ei_nd _ _ _ _ _ H2) jx j) in Hqj; [congruence|apply nth_error_Some; congruence|congruence]. }
      assert (Hj0 : j <> 0%nat) by (intros ->; rewrite (ei_0 _ _ _ _ _ H2) in H3; congruence).
      assert (Hc' : exists c', nth_error (c :: r) j = Some c').
      { destruct (nth_error (c :: r) j) eqn:X; eauto. apply nth_error_None in X. assert (j < length ps)%nat by (apply nth_error_Some; congruence).
        rewrite <- Hlen, A5 in H. lia. }
      destruct Hc' as (c' & Hc').
      destruct (ei_desc _ _ _ _ _ H2 j c' ltac:(lia) Hc') as (a0 & nd0 & D1 & D2 & D3 & D4 & D5 & D6).
      rewrite H3 in D1. injection D1 as ->. cbn in Hrd. rewrite (proj1 D2) in Hrd. injection Hrd as ->.
      destruct (nth_in_ex (nch nd) ed zeroE Hie) as (u & U1 & U2). destruct (D6 u U1) as [D7 D8]. rewrite U2 in D8.
      destruct (A7 j c' ltac:(lia) Hc' ltac:(rewrite Hlen; apply nth_error_Some; congruence)) as (b & nb & B1 & B2 & B3).
      destruct (B3 u ltac:(lia)) as [B4 B5].
      assert (Hqu : nth_error qs (nth u (c_ix c') 0%nat) = Some (nth (nth u (c_ix c') 0%nat) qs Null)).
      { apply nth_error_nth'. rewrite Hlen. apply nth_error_Some. congruence. }
      rewrite B1 in Hqj. injection Hqj as <-. eapply lr_child; [exact B2|apply nth_In; exact B4|]. rewrite B5. eapply IH; eauto.
Qed.
Theorem roundtrip k i nolook s n p t' : TInv k (tb s k) -> TInv k t' -> (n <= 101)%nat -> okp k (tb s k) n p ->
  (nolook = true -> onlyreg k t' []) ->
  exists j cs q t3, node_to_vec k s p = Some (j, cs) /\ vec_to_node k i nolook cs t' = Some (q, t3) /\
    TInv k t3 /\ ext tau k t' t3 /\ good k (tb s k) t3 (dof nolook) p q.
Proof.
  intros HT HT' Hn Hp Hon. destruct (roundtrip_full k i nolook s n p t' HT HT' Hn Hp Hon) as (j & cs & q & t3 & A1 & A2 & A3 & A4 & A5 & _).
  exists j, cs, q, t3. auto.
Qed.

(* what a collection guarantees about one handle *)
Definition keep (k : kind) (t t' : table) (d : R) (e e' : edge) : Prop :=
  ew e' = ew e /\ forall n, wfe k t n e -> wfe k t' n e' /\
    forall ix, (Cmod (Cminus (val k t' n e' ix) (val k t n e ix)) <= Cmod (ew e) * (INR n * d))%R.

Lemma good_keep k t t' d e q : (0 <= d)%R -> good k t t' d (en e) q -> keep k t t' d e (E (ew e) q).
Proof.
  intros Hd [G1 G2]. split; [reflexivity|]. intros n [W|[W0 W1]].
  - destruct (G2 n W) as [A B]. split; [left; exact A|]. intros ix. unfold Wf.val. cbn [ew en].
    match goal with |- (Cmod (Cminus (Cmult ?f ?x) (Cmult _ ?y)) <= _)%R =>
      replace (Cminus (Cmult f x) (Cmult f y)) with (Cmult f (Cminus x y)) by (toC; ring) end.
    rewrite Cmod_mult. apply Rmult_le_compat_l; [apply Cmod_ge_0|apply B].
  - split; [right; cbn; auto|]. intros ix. rewrite !val_zw by auto.
    match goal with |- (Cmod (Cminus ?x ?x) <= _)%R => replace (Cminus x x) with (RtoC 0) by (toC; ring) end.
    rewrite Cmod_0. apply Rmult_le_pos; [apply Cmod_ge_0|]. apply Rmult_le_pos; [apply pos_INR|exact Hd].
Qed.
Lemma keep_ext k t t1 t2 d e e' : TInv k t1 -> ext tau k t1 t2 -> keep k t t1 d e e' -> keep k t t2 d e e'.
Proof.
  intros HT He [K1 K2]. split; [exact K1|]. intros n Hn. destruct (K2 n Hn) as [A B].
  split; [exact (wfe_ext tau _ _ _ _ _ He A)|]. intros ix. rewrite (val_ext tau k t1 t2 HT He n e' ix A). apply B.
Qed.
Lemma keep_refl k t d e : (0 <= d)%R -> keep k t t d e e.
Proof.
  intros Hd. split; [reflexivity|]. intros n Hn. split; [exact Hn|]. intros ix.
  match goal with |- (Cmod (Cminus ?x ?x) <= _)%R => replace (Cminus x x) with (RtoC 0) by (toC; ring) end.
  rewrite Cmod_0. apply Rmult_le_pos; [apply Cmod_ge_0|]. apply Rmult_le_pos; [apply pos_INR|exact Hd].
Qed.
Lemma keep_weaken k t t' d d' e e' : (d <= d')%R -> keep k t t' d e e' -> keep k t t' d' e e'.
Proof.
  intros Hd [K1 K2]. split; [exact K1|]. intros n Hn. destruct (K2 n Hn) as [A B]. split; [exact A|]. intros ix.
  eapply Rle_trans; [apply B|]. apply Rmult_le_compat_l; [apply Cmod_ge_0|]. apply Rmult_le_compat_l; [apply pos_INR|exact Hd].
Qed.

(* the error of the collected handles: none for the first *)
Definition keeps (k : kind) (t t' : table) (first : bool) (es es' : list edge) : Prop :=
  match es, es' with
  | [], [] => True
  | e :: r, e' :: r' => keep k t t' (dof first) e e' /\ Forall2 (keep k t t' eps) r r'
  | _, _ => False
  end.

Definition live (k : kind) (t : table) (es : list edge) : Prop :=
  forall e, In e es -> exists n, (n <= 100)%nat /\ wfe k t n e.

Lemma encode_all_spec k s es : TInv k (tb s k) -> live k (tb s k) es ->
  exists N css, encode_all k s es = Some (N, css) /\ 0 <= N /\
    Forall2 (fun e cs => exists j, node_to_vec k s (en e) = Some (j, cs)) es css.
Proof.
  intros HT. induction es as [|e es IH]; intros Hl.
  - exists 0, []. split; [reflexivity|]. split; [lia|constructor].
  - destruct (Hl e (or_introl eq_refl)) as (n & Hn & W). apply wfe_okp in W.
    destruct (node_to_vec_spec k s n (en e) HT ltac:(lia) W) as (j & cs & ps & m & H1 & _).
    destruct IH as (N & css & A1 & A2 & A3). { intros x Hx. apply Hl. right. exact Hx. }
    exists (Z.of_nat j + N), (cs :: css). cbn [encode_all]. rewrite H1, A1. split; [reflexivity|]. split; [lia|].
    constructor; eauto.
Qed.

Lemma decode_all_false k i s es css : TInv k (tb s k) -> live k (tb s k) es ->
  Forall2 (fun e cs => exists j, node_to_vec k s (en e) = Some (j, cs)) es css ->
  forall t', TInv k t' ->
  exists es' t3, decode_all k i false es css t' = Some (es', t3) /\ TInv k t3 /\ ext tau k t' t3 /\
    Forall2 (keep k (tb s k) t3 eps) es es'.
Proof.
  intros HT Hl HF. induction HF as [|e cs es css (j & Hj) HF IH]; intros t' HT'.
  - exists [], t'. split; [reflexivity|]. split; [exact HT'|]. split; [apply ext_refl|constructor].
  - destruct (Hl e (or_introl eq_refl)) as (n & Hn & W). apply wfe_okp in W.
    destruct (roundtrip k i false s n (en e) t' HT HT' ltac:(lia) W ltac:(discriminate)) as (j' & cs' & q & t1 & A1 & A2 & A3 & A4 & A5).
    rewrite Hj in A1. inversion A1; subst j' cs'.
    destruct (IH (fun x Hx => Hl x (or_intror Hx)) t1 A3) as (es' & t3 & B1 & B2 & B3 & B4).
    exists (E (ew e) q :: es'), t3. cbn [decode_all]. rewrite A2, B1. split; [reflexivity|]. split; [exact B2|].
    split; [exact (ext_trans tau _ _ _ _ A4 B3)|]. constructor; [|exact B4].
    apply (keep_ext k _ t1); auto. apply good_keep; [apply (dof_pos false)|exact A5].
Qed.

Lemma decode_all_true k i s es css : TInv k (tb s k) -> live k (tb s k) es ->
  Forall2 (fun e cs => exists j, node_to_vec k s (en e) = Some (j, cs)) es css ->
  exists es' t3, decode_all k i true es css table_init = Some (es', t3) /\ TInv k t3 /\
    keeps k (tb s k) t3 true es es'.
Proof.
  intros HT Hl HF. pose proof (TInv_init tau k) as HT0. destruct HF as [|e cs es css (j & Hj) HF].
  - exists [], table_init. split; [reflexivity|]. split; [exact HT0|exact I].
  - destruct (Hl e (or_introl eq_refl)) as (n & Hn & W). apply wfe_okp in W.
    destruct (roundtrip k i true s n (en e) table_init HT HT0 ltac:(lia) W) as (j' & cs' & q & t1 & A1 & A2 & A3 & A4 & A5).
    { intros _ b nd [Hb _]. discriminate. }
    rewrite Hj in A1. inversion A1; subst j' cs'.
    destruct (decode_all_false k i s es css HT (fun x Hx => Hl x (or_intror Hx)) HF t1 A3) as (es' & t3 & B1 & B2 & B3 & B4).
    exists (E (ew e) q :: es'), t3. cbn [decode_all]. rewrite A2, B1. split; [reflexivity|]. split; [exact B2|].
    split; [|exact B4]. apply (keep_ext k _ t1); auto. apply good_keep; [apply (dof_pos true)|exact A5].
Qed.

Lemma keeps_refl k t es : keeps k t t true es es.
Proof.
  destruct es as [|e es]; [exact I|]. split; [apply keep_refl; apply dof_pos|].
  induction es as [|x es IH]; constructor; auto. apply keep_refl. apply (eps_pos tau).
Qed.

Lemma bucket_init_invalid (e : ment) : In e bucket_init -> m_valid e = true -> False.
Proof. cbn. intros [<-|[<-|[<-|[<-|[]]]]]; discriminate. Qed.

Theorem gc_spec i es force s : Inv s -> live KV (tb s KV) es ->
  exists es' s', gc i es force s = Some (es', s') /\ Inv s' /\ tb s' KM = tb s KM /\
    keeps KV (tb s KV) (tb s' KV) true es es' /\
    (p_allocs (pools (tb s KV) i) < u64 (gc_v s) -> force = false -> es' = es /\ s' = s) /\
    (u64 (gc_v s) <= p_allocs (pools (tb s KV) i) \/ force = true ->
       (forall i' k lv key, ac s' i' k lv key = None) /\ (forall p, probs s' p = None)).
Proof.
  intros HI Hl. unfold gc. destruct (below_thr i (tb s KV) (gc_v s) && negb force)%bool eqn:Hthr.
  - exists es, s. split; [reflexivity|]. split; [exact HI|]. split; [reflexivity|]. split; [apply keeps_refl|].
    apply andb_prop in Hthr as [h1 h2]. unfold below_thr in h1. apply Z.ltb_lt in h1. apply negb_true_iff in h2. split; [auto|]. intros [h|h]; [lia|congruence].
  - destruct (encode_all_spec KV s es (inv_tb _ _ HI KV) Hl) as (N & css & A1 & _ & A3). rewrite A1.
    destruct (decode_all_true KV i s es css (inv_tb _ _ HI KV) Hl A3) as (es' & t3 & B1 & B2 & B3). rewrite B1.
    eexists es', _. split; [reflexivity|]. split; [|split; [reflexivity|split; [exact B3|split; [intros h1 h2; unfold below_thr in Hthr; apply Z.ltb_lt in h1; rewrite h1, h2 in Hthr; discriminate|split; reflexivity]]]].
    constructor; cbn.
    + intros [|]; cbn; [exact B2|exact (inv_tb _ _ HI KM)].
    + intros; discriminate.
    + intros i' k lv key e He Hv. exfalso. exact (bucket_init_invalid e He Hv).
    + intros; discriminate.
    + reflexivity.
Qed.

Theorem gc_mat_spec i es force s : Inv s -> live KM (tb s KM) es ->
  exists es' s', gc_mat i es force s = Some (es', s') /\ Inv s' /\ tb s' KV = tb s KV /\
    keeps KM (tb s KM) (tb s' KM) true es es' /\ probs s' = probs s /\
    (p_allocs (pools (tb s KM) i) < u64 (gc_m s) -> force = false -> es' = es /\ s' = s) /\
    (u64 (gc_m s) <= p_allocs (pools (tb s KM) i) \/ force = true ->
       forall i' k lv key, ac s' i' k lv key = None).
Proof.
  intros HI Hl. unfold gc_mat. destruct (below_thr i (tb s KM) (gc_m s) && negb force)%bool eqn:Hthr.
  - exists es, s. split; [reflexivity|]. split; [exact HI|]. split; [reflexivity|]. split; [apply keeps_refl|].
    apply andb_prop in Hthr as [h1 h2]. unfold below_thr in h1. apply Z.ltb_lt in h1. apply negb_true_iff in h2. split; [reflexivity|]. split; [auto|]. intros [h|h]; [lia|congruence].
  - destruct (encode_all_spec KM s es (inv_tb _ _ HI KM) Hl) as (N & css & A1 & _ & A3). rewrite A1.
    destruct (decode_all_true KM i s es css (inv_tb _ _ HI KM) Hl A3) as (es' & t3 & B1 & B2 & B3). rewrite B1.
    eexists es', _. split; [reflexivity|]. split; [|split; [reflexivity|split; [exact B3|split; [reflexivity|split; [intros h1 h2; unfold below_thr in Hthr; apply Z.ltb_lt in h1; rewrite h1, h2 in Hthr; discriminate|reflexivity]]]]].
    constructor; cbn.
    + intros [|]; cbn; [exact (inv_tb _ _ HI KV)|exact B2].
    + intros; discriminate.
    + intros i' k lv key e He Hv. exfalso. exact (bucket_init_invalid e He Hv).
    + intros p x Hx. exact (inv_pr _ _ HI p x Hx).
    + reflexivity.
Qed.

(* get_nNodes counts the distinct reachable inner nodes *)
Theorem get_nNodes_spec s n e : Inv s -> (n <= 100)%nat -> wfe KV (tb s KV) n e ->
  exists l, get_nNodes s e = Some (length l) /\ NoDup l /\
    forall a, In a l <-> reach KV s (en e) (Node a).
Proof.
  intros HI Hn W. apply wfe_okp in W. pose proof (inv_tb _ _ HI KV) as HT.
  destruct (node_to_vec_spec KV s n (en e) HT ltac:(lia) W) as (j & cs & ps & m & H1 & H2 & H3 & H4 & H5).
  set (addr := fun p => match p with Node a => [a] | _ => [] end).
  exists (flat_map addr ps).
  assert (Hin : forall a, In a (flat_map addr ps) <-> In (Node a) ps).
  { intros a. rewrite in_flat_map. split.
    - intros (x & Hx & Ha). destruct x as [| |b]; cbn in Ha; try contradiction. destruct Ha as [->|[]]. exact Hx.
    - intros Ha. exists (Node a). split; [exact Ha|left; reflexivity]. }
  pose proof (ei_0 _ _ _ _ _ H2) as Hz. pose proof (ei_nd _ _ _ _ _ H2) as Hnd.
  destruct ps as [|p0 ps]; [discriminate|]. cbn in Hz. inversion Hz; subst p0.
  assert (Hnode : forall p, In p ps -> exists a, p = Node a).
  { intros p Hp. destruct (H5 p (or_intror Hp)) as [->|[(a & nd & -> & _) _]]; [|eauto].
    inversion Hnd; subst. contradiction. }
  split.
  { unfold get_nNodes. rewrite H1. f_equal. cbn [flat_map addr app]. cbn in H4. inversion H4 as [H4'].
    clear -Hnode. induction ps as [|p ps IH]; [reflexivity|]. destruct (Hnode p (or_introl eq_refl)) as [a ->].
    cbn. f_equal. apply IH. intros q Hq. apply Hnode. right. exact Hq. }
  split.
  { cbn [flat_map addr app]. inversion Hnd as [|x y Hx Hy]; subst. clear -Hnode Hy.
    induction Hy as [|p ps Hp Hy IH]; [constructor|]. destruct (Hnode p (or_introl eq_refl)) as [a ->].
    cbn. constructor; [|apply IH; intros q Hq; apply Hnode; right; exact Hq].
    intros Ha. apply in_flat_map in Ha. destruct Ha as (x & Hx & Ha). destruct x as [| |b]; cbn in Ha; try contradiction.
    destruct Ha as [->|[]]. contradiction. }
  intros a. rewrite Hin. split.
  - intros Ha. destruct (H5 _ Ha) as [X|[_ X]]; [discriminate|exact X].
  - intros Hr. assert (Hcl : forall p q, reach KV s p q -> In p (Term :: ps) -> In q (Term :: ps)).
    { clear -H2 HT. intros p q Hr. induction Hr as [p|p nd x q Hpt Hrd Hx Hr IH]; auto. intros Hp. apply IH.
      apply In_nth_error in Hp. destruct Hp as [u Hu].
      destruct u as [|u]; [cbn in Hu; congruence|].
      assert (Hc' : exists c', nth_error cs (S u) = Some c').
      { destruct (nth_error cs (S u)) eqn:X; eauto. apply nth_error_None in X. rewrite (ei_len _ _ _ _ _ H2) in X.
        assert (S u < length (Term :: ps))%nat by (apply nth_error_Some; congruence). lia. }
      destruct Hc' as [c' Hc'].
      destruct (ei_desc _ _ _ _ _ H2 (S u) c' ltac:(lia) Hc') as (b & nb & Z1 & Z2 & Z3 & Z4 & Z5 & Z6).
      rewrite Hu in Z1. inversion Z1; subst p. cbn in Hrd. rewrite (proj1 Z2) in Hrd. inversion Hrd; subst nb.
      destruct (nth_in_ex (nch nd) x zeroE Hx) as (v & V1 & V2). destruct (Z6 v V1) as [_ Z7]. rewrite V2 in Z7.
      apply nth_error_In in Z7. exact Z7. }
    apply (Hcl _ _ Hr). apply nth_error_In in H3. exact H3.
Qed.
End GCP.
