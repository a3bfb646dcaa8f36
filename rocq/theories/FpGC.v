(* FpGC.v -- garbage collection over a rounded arithmetic: every handle keeps its
   value, exactly for the first one, up to the tolerance used in the hash table for
   the others (follows GCP.v). *)
From Coq Require Import Reals Lra Psatz ZArith Bool List Lia.
From Coquelicot Require Import Complex.
From Verif Require Import Num State DD Gates GC RNum Wf Sums Err Inv Wp Make Add MulV GateP FpA FpE FpW FpM FpAdd.
Import ListNotations.
Open Scope Z_scope.

Section FpGC.
Context {NO : NumOps} {AC : Accur NO} {CF : Cfg}.
Notation dl := (@dl NO AC).
Notation Gr := (@Gr NO AC).
Notation Gp := (@Gp NO AC).
Definition desc (k : kind) (t : table) (ps : list ptr) (j : nat) (c : content) : Prop :=
  exists a nd, nth_error ps j = Some (Node a) /\ reg k t a nd /\ c_v c = nv nd /\
    c_w c = map ew (nch nd) /\ length (c_ix c) = length (nch nd) /\
    forall i, (i < length (nch nd))%nat ->
      (nth i (c_ix c) 0 < j)%nat /\ nth_error ps (nth i (c_ix c) 0%nat) = Some (en (nth i (nch nd) zeroE)).

Record EI (k : kind) (t : table) (ps : list ptr) (cs : list content) (m : pmap) : Prop := {
  ei_len : length cs = length ps;
  ei_0 : nth_error ps 0 = Some Term;
  ei_nd : NoDup ps;
  ei_map : forall p j, m p = Some j <-> nth_error ps j = Some p;
  ei_desc : forall j c, (1 <= j)%nat -> nth_error cs j = Some c -> desc k t ps j c
}.

Definition okp (k : kind) (t : table) (n : nat) (p : ptr) : Prop := p = Term \/ wfp k t n p.
Definition levlt (k : kind) (t : table) (n : nat) (p : ptr) : Prop :=
  exists a nd, p = Node a /\ reg k t a nd /\ nv nd < Z.of_nat n.

Lemma okp_node k t n a : TInv k t -> okp k t n (Node a) ->
  exists nd, reg k t a nd /\ 0 <= nv nd < Z.of_nat n.
Proof.
  intros HT [H|H]; [discriminate|]. unfold wfp in H. destruct k.
  - destruct n; [discriminate|]. destruct H as (a' & nd & Ha & Hr & Hv). inversion Ha; subst a'.
    exists nd; split; auto. lia.
  - destruct H as [H|(a' & nd & Ha & Hr & Hv)]; [discriminate|]. inversion Ha; subst a'.
    exists nd; split; auto. pose proof (no_level _ _ _ (reg_ok KM t a nd HT Hr)). lia.
Qed.
Lemma okp_null k t n : ~ okp k t n Null.
Proof.
  intros [H|H]; [discriminate|]. unfold wfp in H. destruct k.
  - destruct n; [discriminate|]. destruct H as (a' & nd & Ha & _). discriminate.
  - destruct H as [H|(a' & nd & Ha & _)]; discriminate.
Qed.
Lemma wfe_okp k t n e : wfe k t n e -> okp k t n (en e).
Proof. intros [H|[_ H]]; [right; exact H | left; exact H]. Qed.

Lemma nth_error_app_l {A} (l l' : list A) i x : nth_error l i = Some x -> nth_error (l ++ l') i = Some x.
Proof. intros H. rewrite nth_error_app1; auto. apply nth_error_Some. congruence. Qed.

Lemma desc_app k t ps ps2 j c : desc k t ps j c -> desc k t (ps ++ ps2) j c.
Proof.
  intros (a & nd & H1 & H2 & H3 & H4 & H5 & H6). exists a, nd.
  repeat (split; [solve [auto using nth_error_app_l]|]).
  intros i Hi. destruct (H6 i Hi). split; auto using nth_error_app_l.
Qed.

(* specification of a serialisation step *)
Definition enc_spec (k : kind) (s : state) (n : nat) (go : ptr -> enc -> option (nat * enc)) : Prop :=
  forall p ps cs m, okp k (tb s k) n p -> EI k (tb s k) ps cs m ->
  exists i ps2 cs' m', go p (cs, m) = Some (i, (cs', m')) /\ EI k (tb s k) (ps ++ ps2) cs' m' /\
    nth_error (ps ++ ps2) i = Some p /\
    (forall q, In q ps2 -> levlt k (tb s k) n q) /\
    (m p = None -> S i = length (ps ++ ps2)).

Lemma kids_spec k s n go : enc_spec k s n go ->
  forall l ps cs m, (forall e, In e l -> okp k (tb s k) n (en e)) -> EI k (tb s k) ps cs m ->
  exists is ps2 cs' m', kids go l (cs, m) = Some (is, (cs', m')) /\ EI k (tb s k) (ps ++ ps2) cs' m' /\
    Forall2 (fun i e => nth_error (ps ++ ps2) i = Some (en e)) is l /\
    (forall q, In q ps2 -> levlt k (tb s k) n q).
Proof.
  intros Hgo. induction l as [|e l IH]; intros ps cs m Hl HE.
  - exists [], [], cs, m. rewrite app_nil_r. split; [reflexivity|]. split; [exact HE|].
    split; [constructor|]. intros q [].
  - destruct (Hgo (en e) ps cs m (Hl e (or_introl eq_refl)) HE) as (i & p1 & cs1 & m1 & H1 & H2 & H3 & H4 & _).
    destruct (IH (ps ++ p1) cs1 m1 (fun x Hx => Hl x (or_intror Hx)) H2) as (is & p2 & cs2 & m2 & G1 & G2 & G3 & G4).
    exists (i :: is), (p1 ++ p2), cs2, m2. cbn [kids]. rewrite H1, G1. split; [reflexivity|].
    rewrite app_assoc. split; [exact G2|]. split.
    + constructor; [apply nth_error_app_l; exact H3|exact G3].
    + intros q Hq. apply in_app_or in Hq. destruct Hq as [Hq|Hq].
      * exact (H4 q Hq).
      * exact (G4 q Hq).
Qed.

Lemma Forall2_nth {A B} (P : A -> B -> Prop) l l' i d d' : Forall2 P l l' -> (i < length l')%nat -> P (nth i l d) (nth i l' d').
Proof.
  intros H. revert i. induction H as [|x y l l' Hxy H IH]; intros i Hi; [inversion Hi|].
  destruct i; cbn; auto. apply IH. cbn in Hi. lia.
Qed.
Lemma Forall2_len {A B} (P : A -> B -> Prop) l l' : Forall2 P l l' -> length l = length l'.
Proof. induction 1; cbn; auto. Qed.

Lemma nth_error_snoc {A} (l : list A) x i y : nth_error (l ++ [x]) i = Some y ->
  nth_error l i = Some y \/ (i = length l /\ y = x).
Proof.
  intros H. destruct (Nat.lt_ge_cases i (length l)) as [Hl|Hl].
  - left. rewrite nth_error_app1 in H; auto.
  - right. rewrite nth_error_app2 in H by auto. destruct (i - length l)%nat as [|u] eqn:Hu.
    + cbn in H. split; [lia|congruence].
    + cbn in H. destruct u; discriminate.
Qed.
Lemma nth_error_last {A} (l : list A) x : nth_error (l ++ [x]) (length l) = Some x.
Proof. rewrite nth_error_app2 by auto. rewrite Nat.sub_diag. reflexivity. Qed.

Lemma levlt_up k t n m p : (n <= m)%nat -> levlt k t n p -> levlt k t m p.
Proof. intros H (a & nd & H1 & H2 & H3). exists a, nd. split; [auto|]. split; [auto|lia]. Qed.

Lemma EI_push k t ps cs m a nd is : EI k t ps cs m -> reg k t a nd -> ~ In (Node a) ps ->
  Forall2 (fun i e => nth_error ps i = Some (en e)) is (nch nd) ->
  EI k t (ps ++ [Node a]) (cs ++ [Ct (nv nd) (map ew (nch nd)) is]) (pset m (Node a) (length cs)).
Proof.
  intros HE Hr Hn HF. destruct HE as [H1 H2 H3 H4 H5]. constructor.
  - rewrite !app_length, H1. reflexivity.
  - apply nth_error_app_l; exact H2.
  - apply (NoDup_Add (a := Node a) (l := ps)).
    + rewrite <- (app_nil_r ps) at 1. apply Add_app.
    + split; auto.
  - intros p j. unfold pset. destruct (ptr_eqb (Node a) p) eqn:Hp.
    + apply ptr_eqb_eq in Hp. subst p. split; intros H.
      * inversion H; subst j. rewrite H1. apply nth_error_last.
      * apply nth_error_snoc in H. destruct H as [H|[H _]].
        { apply nth_error_In in H. contradiction. }
        { subst j. rewrite H1. reflexivity. }
    + rewrite H4. split; intros H.
      * apply nth_error_app_l; exact H.
      * apply nth_error_snoc in H. destruct H as [H|[_ H]]; auto.
        subst p. rewrite ptr_eqb_refl in Hp. discriminate.
  - intros j c Hj Hc. apply nth_error_snoc in Hc. destruct Hc as [Hc|[Hc Hc']].
    + apply desc_app. apply H5; auto.
    + subst j c. exists a, nd. cbn [c_v c_w c_ix]. rewrite H1.
      split; [apply nth_error_last|]. split; [exact Hr|]. split; [reflexivity|]. split; [reflexivity|].
      split; [exact (Forall2_len _ _ _ HF)|]. intros i Hi.
      pose proof (Forall2_nth _ _ _ i 0%nat zeroE HF Hi) as Hx. cbn beta in Hx. split.
      * apply nth_error_Some. congruence.
      * apply nth_error_app_l; exact Hx.
Qed.

Lemma to_vec_spec k s : TInv k (tb s k) -> forall fuel n, (n <= fuel)%nat -> enc_spec k s n (to_vec k s fuel).
Proof.
  intros HT. induction fuel as [|f IH]; intros n Hn p ps cs m Hp HE.
  - (* fuel 0: p = Term *)
    assert (Hps : p = Term).
    { destruct p as [| |a]; auto; [exfalso; exact (okp_null _ _ _ Hp)|].
      destruct (okp_node _ _ _ _ HT Hp) as (nd & _ & Hv). lia. }
    subst p. assert (Hm : m Term = Some 0%nat) by (apply (ei_map _ _ _ _ _ HE); apply (ei_0 _ _ _ _ _ HE)).
    exists 0%nat, [], cs, m. cbn [to_vec fst].
    destruct cs as [|c cs]; [pose proof (ei_len _ _ _ _ _ HE) as X; pose proof (ei_0 _ _ _ _ _ HE); destruct ps; discriminate|].
    rewrite Hm, app_nil_r. split; [reflexivity|]. split; [exact HE|]. split; [apply (ei_0 _ _ _ _ _ HE)|].
    split; [intros q []|]. intros X; discriminate.
  - cbn [to_vec fst].
    destruct cs as [|c cs]; [pose proof (ei_len _ _ _ _ _ HE) as X; pose proof (ei_0 _ _ _ _ _ HE); destruct ps; discriminate|].
    remember (c :: cs) as cs0 eqn:Hcs0. clear Hcs0 c cs.
    destruct (m p) as [i|] eqn:Hm.
    + exists i, [], cs0, m. rewrite app_nil_r. split; [reflexivity|]. split; [exact HE|].
      split; [apply (ei_map _ _ _ _ _ HE); exact Hm|]. split; [intros q []|]. intros X; discriminate.
    + assert (Hnt : p <> Term).
      { intros ->. assert (m Term = Some 0%nat) by (apply (ei_map _ _ _ _ _ HE); apply (ei_0 _ _ _ _ _ HE)). congruence. }
      destruct p as [| |a]; [exfalso; exact (okp_null _ _ _ Hp)|congruence|].
      destruct (okp_node _ _ _ _ HT Hp) as (nd & Hr & Hv).
      assert (Hrd : readn k (Node a) s = Some nd) by (cbn; exact (Logic.proj1 Hr)).
      rewrite Hrd.
      pose proof (reg_ok k _ a nd HT Hr) as Hok.
      assert (Hlv : (Z.to_nat (nv nd) <= f)%nat) by lia.
      destruct (kids_spec k s (Z.to_nat (nv nd)) (to_vec k s f) (IH _ Hlv) (nch nd) ps cs0 m) as (is & p2 & cs' & m' & G1 & G2 & G3 & G4).
      { intros e He. apply wfe_okp. apply (no_wf _ _ _ Hok); exact He. }
      { exact HE. }
      rewrite G1.
      assert (Hnin : ~ In (Node a) (ps ++ p2)).
      { intros Hin. apply in_app_or in Hin. destruct Hin as [Hin|Hin].
        - apply In_nth_error in Hin. destruct Hin as [j Hj]. apply (ei_map _ _ _ _ _ HE) in Hj. congruence.
        - destruct (G4 _ Hin) as (a' & nd' & Ha & Hr' & Hlt). inversion Ha; subst a'.
          pose proof (reg_fun _ _ _ _ _ Hr Hr'). subst nd'. lia. }
      exists (length cs'), (p2 ++ [Node a]), (cs' ++ [Ct (nv nd) (map ew (nch nd)) is]), (pset m' (Node a) (length cs')).
      split; [reflexivity|]. rewrite app_assoc. split; [apply EI_push; auto|].
      split; [rewrite (ei_len _ _ _ _ _ G2); apply nth_error_last|]. split.
      * intros q Hq. apply in_app_or in Hq. destruct Hq as [Hq|[Hq|[]]].
        { apply (levlt_up _ _ (Z.to_nat (nv nd))); [lia|exact (G4 q Hq)]. }
        { subst q. exists a, nd. split; [reflexivity|]. split; [exact Hr|lia]. }
      * intros _. rewrite (app_length (ps ++ p2)), (ei_len _ _ _ _ _ G2). cbn. lia.
Qed.

Lemma EI_init k t : EI k t [Term] [term_content k] (pset pmap0 Term 0).
Proof.
  constructor; auto.
  - constructor; [intros []|constructor].
  - intros p j. unfold pset, pmap0. destruct (ptr_eqb Term p) eqn:Hp.
    + apply ptr_eqb_eq in Hp. subst p. split; intros H; [inversion H; reflexivity|].
      destruct j as [|j]; [reflexivity|]. destruct j; discriminate.
    + split; [discriminate|]. intros H. destruct j as [|j]; cbn in H.
      * inversion H; subst p. discriminate.
      * destruct j; discriminate.
  - intros j c Hj Hc. destruct j as [|j]; [lia|]. destruct j; discriminate.
Qed.
Lemma to_vec_enc0 k s fuel p : to_vec k s fuel p enc0 = to_vec k s fuel p ([term_content k], pset pmap0 Term 0).
Proof. destruct fuel; reflexivity. Qed.

(* the whole serialisation of a well-formed root *)
Lemma node_to_vec_spec k s n p : TInv k (tb s k) -> (n <= 101)%nat -> okp k (tb s k) n p ->
  exists i cs ps m, node_to_vec k s p = Some (i, cs) /\ EI k (tb s k) ps cs m /\
    nth_error ps i = Some p /\ S i = length ps /\
    (forall q, In q ps -> q = Term \/ levlt k (tb s k) n q).
Proof.
  intros HT Hn Hp.
  destruct (to_vec_spec k s HT FUEL n Hn p [Term] [term_content k] (pset pmap0 Term 0) Hp (EI_init k _))
    as (i & ps2 & cs & m & H1 & H2 & H3 & H4 & H5).
  exists i, cs, ([Term] ++ ps2), m. unfold node_to_vec. rewrite to_vec_enc0.
  match goal with |- context [to_vec k s FUEL p ?x] => replace (to_vec k s FUEL p x) with (Some (i, (cs, m))) by (symmetry; exact H1) end.
  split; [reflexivity|]. split; [exact H2|]. split; [exact H3|]. split.
  - destruct p as [| |a]; [exfalso; exact (okp_null _ _ _ Hp)| |apply H5; reflexivity].
    clear H5. pose proof H1 as H1'. unfold FUEL in H1'. cbn in H1'. inversion H1'; subst.
    pose proof (ei_len _ _ _ _ _ H2) as X. cbn in X. cbn. lia.
  - intros q Hq. apply in_app_or in Hq. destruct Hq as [[Hq|[]]|Hq]; auto.
Qed.


(* ---- rebuilding ---- *)

(* what rebuilding guarantees about one pointer: same values up to a weight error d at every level *)
Definition egc (n : nat) (d : R) : R := (INR n * d * Gp n)%R.
Lemma egc_pos n d : (0 <= d -> 0 <= egc n d)%R.
Proof. intros. unfold egc. apply Rmult_le_pos; [apply Rmult_le_pos; [apply pos_INR|auto]|apply Grp]. Qed.
Lemma egc_step n d : (0 <= d -> d * Gp n + Gr * egc n d <= egc (S n) d)%R.
Proof.
  intros Hd. unfold egc. rewrite S_INR. pose proof (Gp_S n) as HS. change (FpA.Gp) with Gp in HS. change (FpA.Gr) with Gr in HS.
  rewrite HS. pose proof Gr_ge1 as Hg. pose proof (Grp n) as Hp.
  replace ((INR n + 1) * d * (Gr * Gp n))%R with (Gr * (d * Gp n) + Gr * (INR n * d * Gp n))%R by ring.
  apply Rplus_le_compat_r. rewrite <- (Rmult_1_l (d * Gp n)) at 1. apply Rmult_le_compat_r; [apply Rmult_le_pos; auto|auto].
Qed.
Lemma egc_mono n d : (0 <= d -> egc n d <= egc (S n) d)%R.
Proof.
  intros Hd. pose proof (egc_step n d Hd). pose proof (egc_pos n d Hd) as H0. pose proof Gr_ge1. pose proof (Grp n) as Hp.
  assert (0 <= d * Gp n)%R by (apply Rmult_le_pos; auto).
  assert (1 * egc n d <= Gr * egc n d)%R by (apply Rmult_le_compat_r; auto). lra.
Qed.
Lemma egc_0 n : egc n 0 = 0%R.
Proof. unfold egc. ring. Qed.
Definition good (k : kind) (t t' : table) (d : R) (p q : ptr) : Prop :=
  (p = Term -> q = Term) /\
  forall n, wfp k t n p -> wfp k t' n q /\
    forall ix, (Cmod (Cminus (valp k t' n q ix) (valp k t n p ix)) <= egc n d)%R.

Lemma good_ext k t t1 t2 d p q : TInv k t1 -> ext k t1 t2 -> good k t t1 d p q -> good k t t2 d p q.
Proof.
  intros HT He [H1 H2]. split; auto. intros n Hn. destruct (H2 n Hn) as [A B].
  split; [exact (wfp_ext _ _ _ _ _ He A)|]. intros ix. rewrite (valp_ext k t1 t2 n q ix HT He A). apply B.
Qed.

Lemma good_node k t t' d a nd b nd'' :
  TInv k t -> TInv k t' -> (0 <= d)%R -> reg k t a nd -> reg k t' b nd'' -> nv nd'' = nv nd ->
  length (nch nd'') = length (nch nd) ->
  (forall i, (i < length (nch nd))%nat ->
     good k t t' d (en (nth i (nch nd) zeroE)) (en (nth i (nch nd'') zeroE)) /\
     (Cmod (Cminus (cv (ew (nth i (nch nd'') zeroE))) (cv (ew (nth i (nch nd) zeroE)))) <= d)%R) ->
  good k t t' d (Node a) (Node b).
Proof.
  intros HT HT' Hd Hr Hr' Hv Hl Hc. split; [discriminate|].
  pose proof (reg_ok k t a nd HT Hr) as Hok.
  pose proof (reg_ok k t' b nd'' HT' Hr') as Hok'.
  pose proof (no_level _ _ _ Hok) as Hlv.
  assert (Hbase : forall ix, (Cmod (Cminus (valp k t' (S (Z.to_nat (nv nd))) (Node b) ix) (valp k t (S (Z.to_nat (nv nd))) (Node a) ix)) <= egc (S (Z.to_nat (nv nd))) d)%R).
  { intros ix. set (m := Z.to_nat (nv nd)). assert (Hm : nv nd = Z.of_nat m) by (unfold m; lia).
    rewrite (valp_S_node k t' m b nd'' ix Hr') by congruence.
    rewrite (valp_S_node k t m a nd ix Hr) by congruence.
    destruct (Nat.lt_ge_cases (ix m) (length (nch nd))) as [Hi|Hi].
    - destruct (Hc _ Hi) as [[G1 G2] Hw].
      assert (Hin : In (nth (ix m) (nch nd) zeroE) (nch nd)) by (apply nth_In; exact Hi).
      assert (Hin' : In (nth (ix m) (nch nd'') zeroE) (nch nd'')) by (apply nth_In; rewrite Hl; exact Hi).
      pose proof (no_wf _ _ _ Hok _ Hin) as W. pose proof (no_le1 _ _ _ Hok _ Hin) as L.
      pose proof (no_wf _ _ _ Hok' _ Hin') as W'. rewrite Hv in W'. fold m in W, W'.
      set (c := nth (ix m) (nch nd) zeroE) in *. set (c' := nth (ix m) (nch nd'') zeroE) in *.
      assert (V' : (Cmod (valp k t' m (en c') ix) <= Gp m)%R).
      { apply (valp_le1 k t' HT' m (en c') ix). destruct W' as [W'|[_ W']]; auto. }
      unfold FpA.val. pose proof (egc_pos m d Hd) as Hm0. pose proof (Grp m) as HGm. pose proof Gr_ge1 as HG1.
      eapply Rle_trans; [|apply egc_step; exact Hd].
      destruct W as [W|[W0 W1]].
      + destruct (G2 m W) as [_ B]. specialize (B ix).
        replace (Cminus (Cmult (cv (ew c')) (valp k t' m (en c') ix)) (Cmult (cv (ew c)) (valp k t m (en c) ix)))
          with (Cplus (Cmult (Cminus (cv (ew c')) (cv (ew c))) (valp k t' m (en c') ix))
                      (Cmult (cv (ew c)) (Cminus (valp k t' m (en c') ix) (valp k t m (en c) ix)))) by ring.
        eapply Rle_trans; [apply Cmod_triangle|]. rewrite !Cmod_mult.
        apply Rplus_le_compat; apply Rmult_le_compat; auto using Cmod_ge_0.
      + rewrite W0, Cmult_0_l. unfold Cminus. rewrite Copp_0, Cplus_0_r.
        rewrite Cmod_mult. rewrite W0 in Hw. unfold Cminus in Hw. rewrite Copp_0, Cplus_0_r in Hw.
        assert (Cmod (cv (ew c')) * Cmod (valp k t' m (en c') ix) <= d * Gp m)%R.
        { apply Rmult_le_compat; auto using Cmod_ge_0. }
        assert (0 <= Gr * egc m d)%R by (apply Rmult_le_pos; lra). lra.
    - rewrite !nth_overflow by (rewrite ?Hl; exact Hi). rewrite !val_zeroE.
      unfold Cminus. rewrite Copp_0, Cplus_0_l, Cmod_0. now apply egc_pos. }
  intros n Hn. destruct k.
  - unfold Wf.wfp in Hn. destruct n as [|m]; [discriminate|].
    destruct Hn as (a' & nd1 & Ha & Hr1 & Hv1). inversion Ha; subst a'.
    pose proof (reg_fun _ _ _ _ _ Hr Hr1). subst nd1.
    replace (Z.to_nat (nv nd)) with m in Hbase by lia. split; [|exact Hbase].
    exists b, nd''. split; [reflexivity|]. split; [exact Hr'|congruence].
  - destruct Hn as [Hn|(a' & nd1 & Ha & Hr1 & Hv1)]; [discriminate|]. inversion Ha; subst a'.
    pose proof (reg_fun _ _ _ _ _ Hr Hr1). subst nd1. split.
    { right. exists b, nd''. split; [reflexivity|]. split; [exact Hr'|congruence]. }
    intros ix. assert (Hge : exists u, n = (u + S (Z.to_nat (nv nd)))%nat) by (exists (n - S (Z.to_nat (nv nd)))%nat; lia).
    destruct Hge as [u Hu]. subst n. clear Hv1. induction u as [|u IHu]; [apply Hbase|].
    cbn [Nat.add]. rewrite (valp_S_skip KM t' _ b nd'' ix Hr') by lia.
    rewrite (valp_S_skip KM t _ a nd ix Hr) by lia.
    match goal with |- (Cmod (Cminus (Cmult ?f ?x) (Cmult _ ?y)) <= _)%R =>
      replace (Cminus (Cmult f x) (Cmult f y)) with (Cmult f (Cminus x y)) by ring end.
    rewrite Cmod_mult. pose proof (skipf_le1 KM (ix (u + S (Z.to_nat (nv nd)))%nat)) as Hs.
    eapply Rle_trans; [apply Rmult_le_compat; [apply Cmod_ge_0|apply Cmod_ge_0|exact Hs|exact IHu]|].
    rewrite Rmult_1_l. now apply egc_mono.
Qed.

Definition DI (k : kind) (t t' : table) (d : R) (ps qs : list ptr) : Prop :=
  forall j p q, nth_error ps j = Some p -> nth_error qs j = Some q -> good k t t' d p q.

Lemma mk_edges_spec k t t' d ps qs j c a nd : DI k t t' d ps qs -> (length qs = j)%nat ->
  c_w c = map ew (nch nd) -> length (c_ix c) = length (nch nd) ->
  (forall i, (i < length (nch nd))%nat ->
      (nth i (c_ix c) 0 < j)%nat /\ nth_error ps (nth i (c_ix c) 0%nat) = Some (en (nth i (nch nd) zeroE))) ->
  reg k t a nd ->
  length (mk_edges qs c) = length (nch nd) /\
  forall i, (i < length (nch nd))%nat -> exists q, nth i (mk_edges qs c) zeroE = E (ew (nth i (nch nd) zeroE)) q /\
     good k t t' d (en (nth i (nch nd) zeroE)) q.
Proof.
  intros HD Hj Hw Hl Hi _. unfold mk_edges.
  assert (Hlen : length (combine (c_w c) (c_ix c)) = length (nch nd)).
  { rewrite combine_length, Hw, map_length, Hl. apply Nat.min_id. }
  split; [rewrite map_length; exact Hlen|]. intros i Hlt. destruct (Hi i Hlt) as [H1 H2].
  set (f := fun wi : cx * nat => E (fst wi) (nth (snd wi) qs Null)).
  assert (exists q, nth_error qs (nth i (c_ix c) 0%nat) = Some q) as [q Hq].
  { destruct (nth_error qs (nth i (c_ix c) 0%nat)) as [q|] eqn:Hq; [eauto|]. apply nth_error_None in Hq. lia. }
  exists q. split; [|exact (HD _ _ _ H2 Hq)].
  rewrite (nth_indep _ zeroE (f (c0, 0%nat))) by (rewrite map_length, Hlen; exact Hlt).
  rewrite map_nth. rewrite combine_nth by (rewrite Hw, map_length, Hl; reflexivity).
  unfold f. cbn [fst snd]. f_equal.
  - rewrite Hw. change (@c0 NO) with (ew (@zeroE NO)). apply map_nth.
  - rewrite (nth_error_nth _ _ _ Hq). reflexivity.
Qed.

Lemma nth_in_ex {A} (l : list A) x d : In x l -> exists i, (i < length l)%nat /\ nth i l d = x.
Proof. intros H. apply (In_nth l x d) in H. destruct H as (i & A1 & A2). eauto. Qed.

Lemma rebuilt_ok k t t' d a nd ch : TInv k t -> reg k t a nd -> length ch = length (nch nd) ->
  (forall i, (i < length (nch nd))%nat -> exists q, nth i ch zeroE = E (ew (nth i (nch nd) zeroE)) q /\
     good k t t' d (en (nth i (nch nd) zeroE)) q) ->
  nodeok k t' (Nd (nv nd) ch).
Proof.
  intros HT Hr Hl Hc. pose proof (reg_ok k t a nd HT Hr) as Hok.
  assert (HIn : forall x, In x ch -> exists i, (i < length (nch nd))%nat /\ nth i ch zeroE = x).
  { intros x Hx. destruct (nth_in_ex ch x zeroE Hx) as (i & A1 & A2). exists i. split; [lia|exact A2]. }
  constructor; cbn [nv nch].
  - exact (no_level _ _ _ Hok).
  - rewrite Hl. exact (no_len _ _ _ Hok).
  - intros x Hx. destruct (HIn x Hx) as (i & Hi & Hx'). destruct (Hc i Hi) as (q & Hq & G1 & G2).
    subst x. rewrite Hq. destruct (no_wf _ _ _ Hok (nth i (nch nd) zeroE) (nth_In _ _ Hi)) as [W|[W0 W1]].
    + left. exact (proj1 (G2 _ W)).
    + right. cbn. split; auto.
  - intros x Hx. destruct (HIn x Hx) as (i & Hi & Hx'). destruct (Hc i Hi) as (q & Hq & _). subst x. rewrite Hq. cbn [ew].
    exact (no_le1 _ _ _ Hok _ (nth_In _ _ Hi)).
  - intros x Hx Hz. destruct (HIn x Hx) as (i & Hi & Hx'). destruct (Hc i Hi) as (q & Hq & G1 & _). subst x. rewrite Hq in *.
    cbn [ew] in Hz. pose proof (no_zero _ _ _ Hok _ (nth_In _ zeroE Hi) Hz) as Hz'. rewrite Hz' in *. cbn [en zeroE ew] in *.
    rewrite (G1 eq_refl). reflexivity.
  - destruct (no_max _ _ _ Hok) as (i & Hi & Hw). exists i. split; auto.
    destruct (Hc i) as (q & Hq & _). { rewrite (no_len _ _ _ Hok). exact Hi. }
    rewrite Hq. exact Hw.
Qed.
Definition dof (nolook : bool) : R := if nolook then 0%R else dl.
Lemma dof_pos b : (0 <= dof b)%R.
Proof. destruct b; cbn; [lra|apply dl_pos]. Qed.
Lemma edges_eqb_w (a b : list edge) : edges_eqb a b = true -> length b = length a /\
  forall i, en (nth i b zeroE) = en (nth i a zeroE) /\ (Cmod (Cminus (cv (ew (nth i b zeroE))) (cv (ew (nth i a zeroE)))) <= dl)%R.
Proof.
  intros H. destruct (edges_eqb_nth a b H) as [Hl Hi]. split; [auto|]. intros i.
  destruct (Nat.lt_ge_cases i (length a)) as [H1|H1].
  - specialize (Hi i H1). unfold edge_eqb in Hi. apply andb_prop in Hi. destruct Hi as [A B].
    apply ptr_eqb_eq in B. split; [auto|]. rewrite Cmod_sub_sym. apply eq_true; exact A.
  - rewrite !nth_overflow by lia. split; [reflexivity|].
    replace (Cminus (cv (ew zeroE)) (cv (ew zeroE))) with (RtoC 0) by ring.
    rewrite Cmod_0. apply dl_pos.
Qed.
Lemma one_node k i (nolook : bool) t t' ps cs m j c qs : TInv k t -> TInv k t' -> EI k t ps cs m ->
  DI k t t' (dof nolook) ps qs -> length qs = j -> (1 <= j)%nat -> nth_error cs j = Some c ->
  exists p t3, (let '(a, t1) := getNode i t' in
      let nd := Nd (c_v c) (mk_edges qs c) in
      let t2 := writeNode a nd t1 in
      if nolook then register_wo_lookup k a nd t2 else lookup k i a nd t2) = Some (p, t3) /\
    TInv k t3 /\ ext k t' t3 /\ DI k t t3 (dof nolook) ps (qs ++ [p]).
Proof.
  intros HT HT' HE HD Hj Hj1 Hc.
  destruct (ei_desc _ _ _ _ _ HE j c Hj1 Hc) as (a0 & nd0 & Hp & Hr & Hv & Hw & Hl & Hi).
  destruct (mk_edges_spec k t t' (dof nolook) ps qs j c a0 nd0 HD Hj Hw Hl Hi Hr) as [Hlen Hch].
  pose proof (rebuilt_ok k t t' (dof nolook) a0 nd0 (mk_edges qs c) HT Hr Hlen Hch) as Hok.
  pose proof (getNode_spec k i t' HT') as Hg. destruct (getNode i t') as [a t1]. destruct Hg as (T1 & P1 & C1 & H1).
  assert (X1 : ext k t' t1). { intros b nb Hb. unfold reg in *. rewrite C1, H1. exact Hb. }
  set (nd := Nd (c_v c) (mk_edges qs c)).
  destruct (writeNode_spec k t1 a nd T1 P1) as (T2 & P2 & X2 & H2 & R2).
  set (t2 := writeNode a nd t1) in *. cbv zeta.
  assert (Hnd : nd = Nd (nv nd0) (mk_edges qs c)) by (unfold nd; rewrite Hv; reflexivity).
  assert (Hok2 : nodeok k t2 nd).
  { rewrite Hnd. apply (nodeok_ext k t1); [exact X2|]. apply (nodeok_ext k t'); [exact X1|exact Hok]. }
  assert (X12 : ext k t' t2) by (exact (ext_trans _ _ _ _ X1 X2)).
  assert (DI3 : forall b nd'' t3, TInv k t3 -> ext k t2 t3 -> reg k t3 b nd'' -> nv nd'' = nv nd ->
     length (nch nd'') = length (nch nd) ->
     (forall u, en (nth u (nch nd'') zeroE) = en (nth u (nch nd) zeroE) /\
        (Cmod (Cminus (cv (ew (nth u (nch nd'') zeroE))) (cv (ew (nth u (nch nd) zeroE)))) <= dof nolook)%R) ->
     DI k t t3 (dof nolook) ps (qs ++ [Node b])).
  { intros b nd'' t3 T3 X3 R3 V3 L3 U3 j' p q Hp' Hq'. assert (X13 : ext k t' t3) by (exact (ext_trans _ _ _ _ X12 X3)).
    apply nth_error_snoc in Hq'. destruct Hq' as [Hq'|[Hq' Hq'']].
    - apply (good_ext k t t' t3); auto. exact (HD _ _ _ Hp' Hq').
    - subst j' q. rewrite Hj in Hp'. rewrite Hp in Hp'. injection Hp' as <-.
      apply (good_node k t t3 (dof nolook) a0 nd0 b nd''); auto.
      + apply dof_pos.
      + rewrite V3, Hnd. reflexivity.
      + rewrite L3, Hnd. exact Hlen.
      + intros u Hu. destruct (U3 u) as [U4 U5]. destruct (Hch u Hu) as (q & Q1 & Q2).
        rewrite Hnd in U4, U5. cbn [nch] in U4, U5. rewrite Q1 in U4, U5. cbn [en ew] in U4, U5. rewrite U4. split; [|exact U5].
        exact (good_ext k t t' t3 _ _ _ HT' X13 Q2). }
  destruct nolook.
  - unfold register_wo_lookup. rewrite (level_ok_true (nv nd)) by (exact (no_level _ _ _ Hok2)).
    destruct (insert_spec k t2 a nd T2 P2 H2 Hok2) as (T3 & X3 & R3).
    set (t3 := {| heap := heap t2; chain := _; nexta := _; pools := _ |}) in *.
    exists (Node a), t3. split; [reflexivity|]. split; [exact T3|]. split; [exact (ext_trans _ _ _ _ X12 X3)|].
    apply (DI3 a nd t3 T3 X3 R3); auto. intros u. split; [reflexivity|]. cbn [dof].
    unfold Cminus. rewrite Cplus_opp_r, Cmod_0. lra.
  - destruct (lookup_spec k i t2 a nd T2 P2 H2 Hok2) as (b & nd' & t3 & L1 & T3 & X3 & R3 & Q3).
    exists (Node b), t3. split; [exact L1|]. split; [exact T3|]. split; [exact (ext_trans _ _ _ _ X12 X3)|].
    unfold node_eqb in Q3. apply andb_prop in Q3 as [Q4 Q5]. apply Z.eqb_eq in Q4. destruct (edges_eqb_w _ _ Q5) as [Q6 Q7].
    apply (DI3 b nd' t3 T3 X3 R3); auto.
Qed.
Lemma from_loop_s k i nolook t ps cs m : TInv k t -> EI k t ps cs m ->
  forall r pre qs t', cs = pre ++ r -> length qs = length pre -> (1 <= length pre)%nat -> TInv k t' ->
  DI k t t' (dof nolook) ps qs ->
  exists qs' t3, from_loop k i nolook r qs t' = Some (qs', t3) /\ TInv k t3 /\ ext k t' t3 /\
    DI k t t3 (dof nolook) ps qs' /\ length qs' = length cs.
Proof.
  intros HT HE. induction r as [|c r IH]; intros pre qs t' Hcs Hlq Hpre HT' HD.
  - exists qs, t'. split; [reflexivity|]. split; [exact HT'|]. split; [apply ext_refl|]. split; [exact HD|].
    rewrite Hcs, app_nil_r; exact Hlq.
  - assert (Hc : nth_error cs (length pre) = Some c).
    { rewrite Hcs. rewrite nth_error_app2 by auto. rewrite Nat.sub_diag. reflexivity. }
    destruct (one_node k i nolook t t' ps cs m (length pre) c qs HT HT' HE HD Hlq Hpre Hc) as (p & t3 & S1 & T3 & X3 & D3).
    cbn [from_loop]. destruct (getNode i t') as [a t1]. cbv zeta in S1. cbv zeta. rewrite S1.
    destruct (IH (pre ++ [c]) (qs ++ [p]) t3) as (qs' & t4 & A1 & A2 & A3 & A4 & A5); auto.
    + rewrite Hcs, <- app_assoc. reflexivity.
    + rewrite !app_length, Hlq. reflexivity.
    + rewrite app_length. lia.
    + exists qs', t4. split; [exact A1|]. split; [exact A2|]. split; [exact (ext_trans _ _ _ _ X3 A3)|]. split; [exact A4|exact A5].
Qed.

Theorem roundtrip_s k i nolook s n p t' : TInv k (tb s k) -> TInv k t' -> (n <= 101)%nat -> okp k (tb s k) n p ->
  exists j cs q t3, node_to_vec k s p = Some (j, cs) /\ vec_to_node k i nolook cs t' = Some (q, t3) /\
    TInv k t3 /\ ext k t' t3 /\ good k (tb s k) t3 (dof nolook) p q.
Proof.
  intros HT HT' Hn Hp.
  destruct (node_to_vec_spec k s n p HT Hn Hp) as (j & cs & ps & m & H1 & H2 & H3 & H4 & H5).
  exists j, cs. destruct cs as [|c r].
  { pose proof (ei_len _ _ _ _ _ H2) as X. cbn in X. rewrite <- X in H4. discriminate. }
  destruct (from_loop_s k i nolook (tb s k) ps (c :: r) m HT H2 r [c] [Term] t' eq_refl eq_refl (le_n 1) HT') as (qs & t3 & A1 & A2 & A3 & A4 & A5).
  { intros j' p' q Hp' Hq. destruct j' as [|j']; [|destruct j'; discriminate].
    rewrite (ei_0 _ _ _ _ _ H2) in Hp'. injection Hp' as <-. cbn in Hq. injection Hq as <-.
    split; auto. intros n' Hn'. split.
    - unfold wfp in *. destruct k; [destruct n'; auto; destruct Hn' as (? & ? & ? & _); discriminate|]. now left.
    - intros ix. replace (valp k t' n' Term ix) with (valp k (tb s k) n' Term ix).
      + unfold Cminus. rewrite Cplus_opp_r, Cmod_0. apply egc_pos, dof_pos.
      + clear. induction n' as [|n' IH]; [reflexivity|]. rewrite !valp_S_term, IH. reflexivity. }
  assert (Hjl : (j < length qs)%nat) by (rewrite A5, (ei_len _ _ _ _ _ H2); lia).
  exists (nth j qs Null), t3. split; [exact H1|]. split.
  { cbn [vec_to_node]. rewrite A1. repeat f_equal. pose proof (ei_len _ _ _ _ _ H2) as X. lia. }
  split; [exact A2|]. split; [exact A3|]. apply (A4 j); [exact H3|]. now apply nth_error_nth'.
Qed.


(* what a collection guarantees about one handle *)
Definition keep (k : kind) (t t' : table) (d : R) (e e' : edge) : Prop :=
  ew e' = ew e /\ forall n, wfe k t n e -> wfe k t' n e' /\ (wfp k t n (en e) -> wfp k t' n (en e')) /\
    forall ix, (Cmod (Cminus (val k t' n e' ix) (val k t n e ix)) <= Cmod (cv (ew e)) * egc n d)%R.
Lemma good_keep k t t' d e q : (0 <= d)%R -> good k t t' d (en e) q -> keep k t t' d e (E (ew e) q).
Proof.
  intros Hd [G1 G2]. split; [reflexivity|]. intros n Hw. split; [|split].
  - destruct Hw as [W|[W0 W1]]; [left; exact (proj1 (G2 n W))|right; cbn; auto].
  - cbn [en]. intros W. exact (proj1 (G2 n W)).
  - intros ix. unfold FpA.val. cbn [ew en]. destruct Hw as [W|[W0 W1]].
    + replace (Cminus (Cmult (cv (ew e)) (FpA.valp k t' n q ix)) (Cmult (cv (ew e)) (FpA.valp k t n (en e) ix)))
        with (Cmult (cv (ew e)) (Cminus (FpA.valp k t' n q ix) (FpA.valp k t n (en e) ix))) by ring.
      rewrite Cmod_mult. apply Rmult_le_compat_l; [apply Cmod_ge_0|]. apply (G2 n W).
    + rewrite W0, !Cmult_0_l. unfold Cminus. rewrite Copp_0, Cplus_0_l, Cmod_0. lra.
Qed.
Lemma keep_ext k t t1 t2 d e e' : TInv k t1 -> ext k t1 t2 -> keep k t t1 d e e' -> keep k t t2 d e e'.
Proof.
  intros HT He [K1 K2]. split; [exact K1|]. intros n Hn. destruct (K2 n Hn) as (A & B & D). split; [eapply wfe_ext; eauto|].
  split; [intros W; eapply wfp_ext; eauto|]. intros ix. rewrite (val_ext k t1 t2); auto.
Qed.
Lemma keep_refl k t d e : (0 <= d)%R -> keep k t t d e e.
Proof.
  intros Hd. split; auto. intros n Hn. split; auto. split; auto. intros ix. unfold Cminus. rewrite Cplus_opp_r, Cmod_0.
  apply Rmult_le_pos; [apply Cmod_ge_0|]. now apply egc_pos.
Qed.
(* the first handle exactly, the others up to the tolerance *)
Definition keeps (k : kind) (t t' : table) (first : bool) (es es' : list edge) : Prop :=
  match es, es' with
  | [], [] => True
  | e :: r, e' :: r' => keep k t t' (dof first) e e' /\ Forall2 (keep k t t' dl) r r'
  | _, _ => False
  end.
Lemma keeps_F2 k t t' b es es' : keeps k t t' b es es' -> Forall2 (keep k t t' dl) es es'.
Proof.
  destruct es as [|e r], es' as [|e' r']; cbn [keeps]; try contradiction; [constructor|]. intros [H1 H2]. constructor; auto.
  destruct b; auto. destruct H1 as [K1 K2]. split; auto. intros n Hn. destruct (K2 n Hn) as (A & B & D). split; auto. split; auto.
  intros ix. eapply Rle_trans; [apply D|]. cbn [dof]. rewrite egc_0. rewrite Rmult_0_r. apply Rmult_le_pos; [apply Cmod_ge_0|].
  apply egc_pos, dl_pos.
Qed.

Definition live (k : kind) (t : table) (es : list edge) : Prop :=
  forall e, In e es -> exists n, (n <= 100)%nat /\ wfe k t n e.
Lemma encode_all_s k s es : TInv k (tb s k) -> live k (tb s k) es ->
  exists N css, encode_all k s es = Some (N, css) /\
    Forall2 (fun e cs => exists j, node_to_vec k s (en e) = Some (j, cs)) es css.
Proof.
  intros HT. induction es as [|e es IH]; intros Hl.
  - exists 0, []. split; [reflexivity|constructor].
  - destruct (Hl e (or_introl eq_refl)) as (n & Hn & W). apply wfe_okp in W.
    destruct (node_to_vec_spec k s n (en e) HT ltac:(lia) W) as (j & cs & ps & m & H1 & _).
    destruct IH as (N & css & A1 & A3). { intros x Hx. apply Hl. right. exact Hx. }
    exists (Z.of_nat j + N), (cs :: css). cbn [encode_all]. rewrite H1, A1. split; [reflexivity|]. constructor; eauto.
Qed.

Lemma decode_all_s k i s es css : TInv k (tb s k) -> live k (tb s k) es ->
  Forall2 (fun e cs => exists j, node_to_vec k s (en e) = Some (j, cs)) es css ->
  forall first t', TInv k t' ->
  exists es' t3, decode_all k i first es css t' = Some (es', t3) /\ TInv k t3 /\ ext k t' t3 /\
    keeps k (tb s k) t3 first es es'.
Proof.
  intros HT Hl HF. induction HF as [|e cs es css (j & Hj) HF IH]; intros first t' HT'.
  - exists [], t'. split; [reflexivity|]. split; [exact HT'|]. split; [apply ext_refl|exact I].
  - destruct (Hl e (or_introl eq_refl)) as (n & Hn & W). apply wfe_okp in W.
    destruct (roundtrip_s k i first s n (en e) t' HT HT' ltac:(lia) W) as (j' & cs' & q & t1 & A1 & A2 & A3 & A4 & A5).
    rewrite Hj in A1. injection A1 as <- <-.
    destruct (IH (fun x Hx => Hl x (or_intror Hx)) false t1 A3) as (es' & t3 & B1 & B2 & B3 & B4).
    exists (E (ew e) q :: es'), t3. cbn [decode_all]. rewrite A2, B1. split; [reflexivity|]. split; [exact B2|].
    split; [exact (ext_trans _ _ _ _ A4 B3)|]. cbn [keeps]. split.
    + apply (keep_ext k _ t1); auto. apply good_keep; auto. apply dof_pos.
    + now apply keeps_F2 in B4.
Qed.
Lemma keeps_refl k t es : keeps k t t true es es.
Proof.
  destruct es as [|e r]; cbn [keeps]; [exact I|]. split; [apply keep_refl, dof_pos|]. induction r; constructor; auto using keep_refl, dl_pos.
Qed.
Lemma bucket_init_invalid (e : ment) : In e bucket_init -> m_valid e = true -> False.
Proof. cbn. intros [<-|[<-|[<-|[<-|[]]]]]; discriminate. Qed.

Theorem gc_s i es force s : Inv s -> live KV (tb s KV) es ->
  exists es' s', gc i es force s = Some (es', s') /\ Inv s' /\ tb s' KM = tb s KM /\
    keeps KV (tb s KV) (tb s' KV) true es es'.
Proof.
  intros HI Hl. unfold gc. destruct (below_thr i (tb s KV) (gc_v s) && negb force)%bool eqn:Hthr.
  - exists es, s. split; [reflexivity|]. split; [exact HI|]. split; [reflexivity|]. apply keeps_refl.
  - destruct (encode_all_s KV s es (inv_tb _ HI KV) Hl) as (N & css & A1 & A3). rewrite A1.
    destruct (decode_all_s KV i s es css (inv_tb _ HI KV) Hl A3 true table_init (TInv_init KV)) as (es' & t3 & B1 & B2 & _ & B3). rewrite B1.
    eexists es', _. split; [reflexivity|]. split; [|split; [reflexivity|exact B3]].
    constructor; cbn.
    + intros [|]; cbn; [exact B2|exact (inv_tb _ HI KM)].
    + intros; discriminate.
    + intros i' k lv key e He Hv. exfalso. exact (bucket_init_invalid e He Hv).
    + intros; discriminate.
    + reflexivity.
Qed.
Theorem gc_mat_s i es force s : Inv s -> live KM (tb s KM) es ->
  exists es' s', gc_mat i es force s = Some (es', s') /\ Inv s' /\ tb s' KV = tb s KV /\
    keeps KM (tb s KM) (tb s' KM) true es es'.
Proof.
  intros HI Hl. unfold gc_mat. destruct (below_thr i (tb s KM) (gc_m s) && negb force)%bool eqn:Hthr.
  - exists es, s. split; [reflexivity|]. split; [exact HI|]. split; [reflexivity|]. apply keeps_refl.
  - destruct (encode_all_s KM s es (inv_tb _ HI KM) Hl) as (N & css & A1 & A3). rewrite A1.
    destruct (decode_all_s KM i s es css (inv_tb _ HI KM) Hl A3 true table_init (TInv_init KM)) as (es' & t3 & B1 & B2 & _ & B3). rewrite B1.
    eexists es', _. split; [reflexivity|]. split; [|split; [reflexivity|exact B3]].
    constructor; cbn.
    + intros [|]; cbn; [exact (inv_tb _ HI KV)|exact B2].
    + intros; discriminate.
    + intros i' k lv key e He Hv. exfalso. exact (bucket_init_invalid e He Hv).
    + exact (inv_pr _ HI).
    + reflexivity.
Qed.

End FpGC.
