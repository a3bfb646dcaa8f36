(* SafeR.v -- serialisation, garbage collection and read-outs over an arbitrary
   arithmetic: they always return, and keep every handle well-formed.  The
   argument follows GCP.v without the numerical part. *)
From Coq Require Import ZArith Bool List Lia Arith.
From Verif Require Import Num State DD Gates GC Measure Wf Wp SafeA SafeW SafeO.
Import ListNotations.
Open Scope Z_scope.

Section SafeR.
Context {NO : NumOps} {AR : Arith NO} {CF : Cfg}.

Definition desc (k : kind) (t : table) (ps : list ptr) (j : nat) (c : content) : Prop :=
  exists a nd, nth_error ps j = Some (Node a) /\ reg k t a nd /\ c_v c = nv nd /\
    c_w c = map ew (nch nd) /\ length (c_ix c) = length (nch nd) /\
    forall i, (i < length (nch nd))%nat ->
      (nth i (c_ix c) 0 < j)%nat /\ nth_error ps (nth i (c_ix c) 0%nat) = Some (en (nth i (nch nd) zeroE)).

Record EI (k : kind) (t : table) (ps : list ptr) (cs : list content) (m : pmap) : Prop := {
  ei_len : length cs = length ps;
  ei_0 : nth_error ps 0 = Some Term;
  ei_nd : NoDup ps;
  ei_map : forall p j, m p = Some j <-> nth_error ps j = Some p;
  ei_desc : forall j c, (1 <= j)%nat -> nth_error cs j = Some c -> desc k t ps j c
}.

Definition okp (k : kind) (t : table) (n : nat) (p : ptr) : Prop := p = Term \/ sp k t n p.
Definition levlt (k : kind) (t : table) (n : nat) (p : ptr) : Prop :=
  exists a nd, p = Node a /\ reg k t a nd /\ nv nd < Z.of_nat n.

Lemma okp_node k t n a : TInv k t -> okp k t n (Node a) ->
  exists nd, reg k t a nd /\ 0 <= nv nd < Z.of_nat n.
Proof.
  intros HT [H|H]; [discriminate|]. unfold sp in H. destruct k.
  - destruct n; [discriminate|]. destruct H as (a' & nd & Ha & Hr & Hv). inversion Ha; subst a'.
    exists nd; split; auto. lia.
  - destruct H as [H|(a' & nd & Ha & Hr & Hv)]; [discriminate|]. inversion Ha; subst a'.
    exists nd; split; auto. pose proof (no_level _ _ _ (reg_ok KM t a nd HT Hr)). lia.
Qed.
Lemma okp_null k t n : ~ okp k t n Null.
Proof.
  intros [H|H]; [discriminate|]. unfold sp in H. destruct k.
  - destruct n; [discriminate|]. destruct H as (a' & nd & Ha & _). discriminate.
  - destruct H as [H|(a' & nd & Ha & _)]; discriminate.
Qed.
Lemma se_okp k t n e : se k t n e -> okp k t n (en e).
Proof. intros [H|[_ H]]; [right; exact H | left; exact H]. Qed.

Lemma nth_error_app_l {A} (l l' : list A) i x : nth_error l i = Some x -> nth_error (l ++ l') i = Some x.
Proof. intros H. rewrite nth_error_app1; auto. apply nth_error_Some. congruence. Qed.

Lemma desc_app k t ps ps2 j c : desc k t ps j c -> desc k t (ps ++ ps2) j c.
Proof.
  intros (a & nd & H1 & H2 & H3 & H4 & H5 & H6). exists a, nd.
  repeat (split; [solve [auto using nth_error_app_l]|]).
  intros i Hi. destruct (H6 i Hi). split; auto using nth_error_app_l.
Qed.

(* specification of a serialisation step *)
Definition enc_spec (k : kind) (s : state) (n : nat) (go : ptr -> enc -> option (nat * enc)) : Prop :=
  forall p ps cs m, okp k (tb s k) n p -> EI k (tb s k) ps cs m ->
  exists i ps2 cs' m', go p (cs, m) = Some (i, (cs', m')) /\ EI k (tb s k) (ps ++ ps2) cs' m' /\
    nth_error (ps ++ ps2) i = Some p /\
    (forall q, In q ps2 -> levlt k (tb s k) n q) /\
    (m p = None -> S i = length (ps ++ ps2)).

Lemma kids_spec k s n go : enc_spec k s n go ->
  forall l ps cs m, (forall e, In e l -> okp k (tb s k) n (en e)) -> EI k (tb s k) ps cs m ->
  exists is ps2 cs' m', kids go l (cs, m) = Some (is, (cs', m')) /\ EI k (tb s k) (ps ++ ps2) cs' m' /\
    Forall2 (fun i e => nth_error (ps ++ ps2) i = Some (en e)) is l /\
    (forall q, In q ps2 -> levlt k (tb s k) n q).
Proof.
  intros Hgo. induction l as [|e l IH]; intros ps cs m Hl HE.
  - exists [], [], cs, m. rewrite app_nil_r. split; [reflexivity|]. split; [exact HE|].
    split; [constructor|]. intros q [].
  - destruct (Hgo (en e) ps cs m (Hl e (or_introl eq_refl)) HE) as (i & p1 & cs1 & m1 & H1 & H2 & H3 & H4 & _).
    destruct (IH (ps ++ p1) cs1 m1 (fun x Hx => Hl x (or_intror Hx)) H2) as (is & p2 & cs2 & m2 & G1 & G2 & G3 & G4).
    exists (i :: is), (p1 ++ p2), cs2, m2. cbn [kids]. rewrite H1, G1. split; [reflexivity|].
    rewrite app_assoc. split; [exact G2|]. split.
    + constructor; [apply nth_error_app_l; exact H3|exact G3].
    + intros q Hq. apply in_app_or in Hq. destruct Hq as [Hq|Hq].
      * exact (H4 q Hq).
      * exact (G4 q Hq).
Qed.

Lemma Forall2_nth {A B} (P : A -> B -> Prop) l l' i d d' : Forall2 P l l' -> (i < length l')%nat -> P (nth i l d) (nth i l' d').
Proof.
  intros H. revert i. induction H as [|x y l l' Hxy H IH]; intros i Hi; [inversion Hi|].
  destruct i; cbn; auto. apply IH. cbn in Hi. lia.
Qed.
Lemma Forall2_len {A B} (P : A -> B -> Prop) l l' : Forall2 P l l' -> length l = length l'.
Proof. induction 1; cbn; auto. Qed.

Lemma nth_error_snoc {A} (l : list A) x i y : nth_error (l ++ [x]) i = Some y ->
  nth_error l i = Some y \/ (i = length l /\ y = x).
Proof.
  intros H. destruct (Nat.lt_ge_cases i (length l)) as [Hl|Hl].
  - left. rewrite nth_error_app1 in H; auto.
  - right. rewrite nth_error_app2 in H by auto. destruct (i - length l)%nat as [|u] eqn:Hu.
    + cbn in H. split; [lia|congruence].
    + cbn in H. destruct u; discriminate.
Qed.
Lemma nth_error_last {A} (l : list A) x : nth_error (l ++ [x]) (length l) = Some x.
Proof. rewrite nth_error_app2 by auto. rewrite Nat.sub_diag. reflexivity. Qed.

Lemma levlt_up k t n m p : (n <= m)%nat -> levlt k t n p -> levlt k t m p.
Proof. intros H (a & nd & H1 & H2 & H3). exists a, nd. split; [auto|]. split; [auto|lia]. Qed.

Lemma EI_push k t ps cs m a nd is : EI k t ps cs m -> reg k t a nd -> ~ In (Node a) ps ->
  Forall2 (fun i e => nth_error ps i = Some (en e)) is (nch nd) ->
  EI k t (ps ++ [Node a]) (cs ++ [Ct (nv nd) (map ew (nch nd)) is]) (pset m (Node a) (length cs)).
Proof.
  intros HE Hr Hn HF. destruct HE as [H1 H2 H3 H4 H5]. constructor.
  - rewrite !app_length, H1. reflexivity.
  - apply nth_error_app_l; exact H2.
  - apply (NoDup_Add (a := Node a) (l := ps)).
    + rewrite <- (app_nil_r ps) at 1. apply Add_app.
    + split; auto.
  - intros p j. unfold pset. destruct (ptr_eqb (Node a) p) eqn:Hp.
    + apply ptr_eqb_eq in Hp. subst p. split; intros H.
      * inversion H; subst j. rewrite H1. apply nth_error_last.
      * apply nth_error_snoc in H. destruct H as [H|[H _]].
        { apply nth_error_In in H. contradiction. }
        { subst j. rewrite H1. reflexivity. }
    + rewrite H4. split; intros H.
      * apply nth_error_app_l; exact H.
      * apply nth_error_snoc in H. destruct H as [H|[_ H]]; auto.
        subst p. rewrite ptr_eqb_refl in Hp. discriminate.
  - intros j c Hj Hc. apply nth_error_snoc in Hc. destruct Hc as [Hc|[Hc Hc']].
    + apply desc_app. apply H5; auto.
    + subst j c. exists a, nd. cbn [c_v c_w c_ix]. rewrite H1.
      split; [apply nth_error_last|]. split; [exact Hr|]. split; [reflexivity|]. split; [reflexivity|].
      split; [exact (Forall2_len _ _ _ HF)|]. intros i Hi.
      pose proof (Forall2_nth _ _ _ i 0%nat zeroE HF Hi) as Hx. cbn beta in Hx. split.
      * apply nth_error_Some. congruence.
      * apply nth_error_app_l; exact Hx.
Qed.

Lemma to_vec_spec k s : TInv k (tb s k) -> forall fuel n, (n <= fuel)%nat -> enc_spec k s n (to_vec k s fuel).
Proof.
  intros HT. induction fuel as [|f IH]; intros n Hn p ps cs m Hp HE.
  - (* fuel 0: p = Term *)
    assert (Hps : p = Term).
    { destruct p as [| |a]; auto; [exfalso; exact (okp_null _ _ _ Hp)|].
      destruct (okp_node _ _ _ _ HT Hp) as (nd & _ & Hv). lia. }
    subst p. assert (Hm : m Term = Some 0%nat) by (apply (ei_map _ _ _ _ _ HE); apply (ei_0 _ _ _ _ _ HE)).
    exists 0%nat, [], cs, m. cbn [to_vec fst].
    destruct cs as [|c cs]; [pose proof (ei_len _ _ _ _ _ HE) as X; pose proof (ei_0 _ _ _ _ _ HE); destruct ps; discriminate|].
    rewrite Hm, app_nil_r. split; [reflexivity|]. split; [exact HE|]. split; [apply (ei_0 _ _ _ _ _ HE)|].
    split; [intros q []|]. intros X; discriminate.
  - cbn [to_vec fst].
    destruct cs as [|c cs]; [pose proof (ei_len _ _ _ _ _ HE) as X; pose proof (ei_0 _ _ _ _ _ HE); destruct ps; discriminate|].
    remember (c :: cs) as cs0 eqn:Hcs0. clear Hcs0 c cs.
    destruct (m p) as [i|] eqn:Hm.
    + exists i, [], cs0, m. rewrite app_nil_r. split; [reflexivity|]. split; [exact HE|].
      split; [apply (ei_map _ _ _ _ _ HE); exact Hm|]. split; [intros q []|]. intros X; discriminate.
    + assert (Hnt : p <> Term).
      { intros ->. assert (m Term = Some 0%nat) by (apply (ei_map _ _ _ _ _ HE); apply (ei_0 _ _ _ _ _ HE)). congruence. }
      destruct p as [| |a]; [exfalso; exact (okp_null _ _ _ Hp)|congruence|].
      destruct (okp_node _ _ _ _ HT Hp) as (nd & Hr & Hv).
      assert (Hrd : readn k (Node a) s = Some nd) by (cbn; exact (Logic.proj1 Hr)).
      rewrite Hrd.
      pose proof (reg_ok k _ a nd HT Hr) as Hok.
      assert (Hlv : (Z.to_nat (nv nd) <= f)%nat) by lia.
      destruct (kids_spec k s (Z.to_nat (nv nd)) (to_vec k s f) (IH _ Hlv) (nch nd) ps cs0 m) as (is & p2 & cs' & m' & G1 & G2 & G3 & G4).
      { intros e He. apply se_okp. apply (no_wf _ _ _ Hok); exact He. }
      { exact HE. }
      rewrite G1.
      assert (Hnin : ~ In (Node a) (ps ++ p2)).
      { intros Hin. apply in_app_or in Hin. destruct Hin as [Hin|Hin].
        - apply In_nth_error in Hin. destruct Hin as [j Hj]. apply (ei_map _ _ _ _ _ HE) in Hj. congruence.
        - destruct (G4 _ Hin) as (a' & nd' & Ha & Hr' & Hlt). inversion Ha; subst a'.
          pose proof (reg_fun _ _ _ _ _ Hr Hr'). subst nd'. lia. }
      exists (length cs'), (p2 ++ [Node a]), (cs' ++ [Ct (nv nd) (map ew (nch nd)) is]), (pset m' (Node a) (length cs')).
      split; [reflexivity|]. rewrite app_assoc. split; [apply EI_push; auto|].
      split; [rewrite (ei_len _ _ _ _ _ G2); apply nth_error_last|]. split.
      * intros q Hq. apply in_app_or in Hq. destruct Hq as [Hq|[Hq|[]]].
        { apply (levlt_up _ _ (Z.to_nat (nv nd))); [lia|exact (G4 q Hq)]. }
        { subst q. exists a, nd. split; [reflexivity|]. split; [exact Hr|lia]. }
      * intros _. rewrite (app_length (ps ++ p2)), (ei_len _ _ _ _ _ G2). cbn. lia.
Qed.

Lemma EI_init k t : EI k t [Term] [term_content k] (pset pmap0 Term 0).
Proof.
  constructor; auto.
  - constructor; [intros []|constructor].
  - intros p j. unfold pset, pmap0. destruct (ptr_eqb Term p) eqn:Hp.
    + apply ptr_eqb_eq in Hp. subst p. split; intros H; [inversion H; reflexivity|].
      destruct j as [|j]; [reflexivity|]. destruct j; discriminate.
    + split; [discriminate|]. intros H. destruct j as [|j]; cbn in H.
      * inversion H; subst p. discriminate.
      * destruct j; discriminate.
  - intros j c Hj Hc. destruct j as [|j]; [lia|]. destruct j; discriminate.
Qed.
Lemma to_vec_enc0 k s fuel p : to_vec k s fuel p enc0 = to_vec k s fuel p ([term_content k], pset pmap0 Term 0).
Proof. destruct fuel; reflexivity. Qed.

(* the whole serialisation of a well-formed root *)
Lemma node_to_vec_spec k s n p : TInv k (tb s k) -> (n <= 101)%nat -> okp k (tb s k) n p ->
  exists i cs ps m, node_to_vec k s p = Some (i, cs) /\ EI k (tb s k) ps cs m /\
    nth_error ps i = Some p /\ S i = length ps /\
    (forall q, In q ps -> q = Term \/ levlt k (tb s k) n q).
Proof.
  intros HT Hn Hp.
  destruct (to_vec_spec k s HT FUEL n Hn p [Term] [term_content k] (pset pmap0 Term 0) Hp (EI_init k _))
    as (i & ps2 & cs & m & H1 & H2 & H3 & H4 & H5).
  exists i, cs, ([Term] ++ ps2), m. unfold node_to_vec. rewrite to_vec_enc0.
  match goal with |- context [to_vec k s FUEL p ?x] => replace (to_vec k s FUEL p x) with (Some (i, (cs, m))) by (symmetry; exact H1) end.
  split; [reflexivity|]. split; [exact H2|]. split; [exact H3|]. split.
  - destruct p as [| |a]; [exfalso; exact (okp_null _ _ _ Hp)| |apply H5; reflexivity].
    clear H5. pose proof H1 as H1'. unfold FUEL in H1'. cbn in H1'. inversion H1'; subst.
    pose proof (ei_len _ _ _ _ _ H2) as X. cbn in X. cbn. lia.
  - intros q Hq. apply in_app_or in Hq. destruct Hq as [[Hq|[]]|Hq]; auto.
Qed.


(* ---- rebuilding ---- *)
Definition good (k : kind) (t t' : table) (p q : ptr) : Prop :=
  (p = Term -> q = Term) /\ forall n, sp k t n p -> sp k t' n q.
Lemma good_ext k t t1 t2 p q : ext k t1 t2 -> good k t t1 p q -> good k t t2 p q.
Proof. intros He [H1 H2]. split; auto. intros n Hn. eapply sp_ext; eauto. Qed.
Lemma good_node k t t' a nd b nd'' : reg k t a nd -> reg k t' b nd'' -> nv nd'' = nv nd ->
  good k t t' (Node a) (Node b).
Proof.
  intros Hr Hr' Hv. split; [discriminate|]. intros n Hn. unfold sp in *. destruct k.
  - destruct n as [|m]; [discriminate|]. destruct Hn as (a' & nd1 & Ha & Hr1 & Hv1). injection Ha as <-.
    pose proof (reg_fun _ _ _ _ _ Hr Hr1). subst nd1. exists b, nd''. split; [reflexivity|]. split; [exact Hr'|congruence].
  - destruct Hn as [Hn|(a' & nd1 & Ha & Hr1 & Hv1)]; [discriminate|]. injection Ha as <-.
    pose proof (reg_fun _ _ _ _ _ Hr Hr1). subst nd1. right. exists b, nd''. split; [reflexivity|]. split; [exact Hr'|lia].
Qed.
Definition DI (k : kind) (t t' : table) (ps qs : list ptr) : Prop :=
  forall j p q, nth_error ps j = Some p -> nth_error qs j = Some q -> good k t t' p q.

Lemma mk_edges_s k t t' ps qs j c nd : DI k t t' ps qs -> (length qs = j)%nat ->
  c_w c = map ew (nch nd) -> length (c_ix c) = length (nch nd) ->
  (forall i, (i < length (nch nd))%nat ->
      (nth i (c_ix c) 0 < j)%nat /\ nth_error ps (nth i (c_ix c) 0%nat) = Some (en (nth i (nch nd) zeroE))) ->
  length (mk_edges qs c) = length (nch nd) /\
  forall i, (i < length (nch nd))%nat -> exists q, nth i (mk_edges qs c) zeroE = E (ew (nth i (nch nd) zeroE)) q /\
     good k t t' (en (nth i (nch nd) zeroE)) q.
Proof.
  intros HD Hj Hw Hl Hi. unfold mk_edges.
  assert (Hlen : length (combine (c_w c) (c_ix c)) = length (nch nd)).
  { rewrite combine_length, Hw, map_length, Hl. apply Nat.min_id. }
  split; [rewrite map_length; exact Hlen|]. intros i Hlt. destruct (Hi i Hlt) as [H1 H2].
  set (f := fun wi : cx * nat => E (fst wi) (nth (snd wi) qs Null)).
  assert (exists q, nth_error qs (nth i (c_ix c) 0%nat) = Some q) as [q Hq].
  { destruct (nth_error qs (nth i (c_ix c) 0%nat)) as [q|] eqn:Hq; [eauto|]. apply nth_error_None in Hq. lia. }
  exists q. split; [|exact (HD _ _ _ H2 Hq)].
  rewrite (nth_indep _ zeroE (f (c0, 0%nat))) by (rewrite map_length, Hlen; exact Hlt).
  rewrite map_nth. rewrite combine_nth by (rewrite Hw, map_length, Hl; reflexivity).
  unfold f. cbn [fst snd]. f_equal.
  - rewrite Hw. change c0 with (ew zeroE). apply (map_nth ew).
  - rewrite (nth_error_nth _ _ _ Hq). reflexivity.
Qed.
Lemma nth_in_ex {A} (l : list A) x d : In x l -> exists i, (i < length l)%nat /\ nth i l d = x.
Proof. intros H. apply (In_nth l x d) in H. destruct H as (i & A1 & A2). eauto. Qed.
Lemma rebuilt_ok k t t' a nd ch : TInv k t -> reg k t a nd -> length ch = length (nch nd) ->
  (forall i, (i < length (nch nd))%nat -> exists q, nth i ch zeroE = E (ew (nth i (nch nd) zeroE)) q /\
     good k t t' (en (nth i (nch nd) zeroE)) q) ->
  nodeok k t' (Nd (nv nd) ch).
Proof.
  intros HT Hr Hl Hc. pose proof (reg_ok k t a nd HT Hr) as Hok.
  assert (HIn : forall x, In x ch -> exists i, (i < length (nch nd))%nat /\ nth i ch zeroE = x).
  { intros x Hx. destruct (nth_in_ex ch x zeroE Hx) as (i & A1 & A2). exists i. split; [lia|exact A2]. }
  constructor; cbn [nv nch].
  - exact (no_level _ _ _ Hok).
  - rewrite Hl. exact (no_len _ _ _ Hok).
  - intros x Hx. destruct (HIn x Hx) as (i & Hi & Hx'). destruct (Hc i Hi) as (q & Hq & G1 & G2).
    subst x. rewrite Hq. destruct (no_wf _ _ _ Hok (nth i (nch nd) zeroE) (nth_In _ _ Hi)) as [W|[W0 W1]].
    + left. exact (G2 _ W).
    + right. cbn. split; auto.
  - intros ->. destruct (no_one _ _ _ Hok eq_refl) as (i & Hi & Hw & Hp). exists i. split; auto.
    destruct (Hc i) as (q & Hq & G1 & G2). { rewrite (no_len _ _ _ Hok). exact Hi. }
    rewrite Hq. cbn [ew en]. split; [exact Hw|]. exact (G2 _ Hp).
Qed.

Lemma one_node k i (nolook : bool) t t' ps cs m j c qs : TInv k t -> TInv k t' -> EI k t ps cs m ->
  DI k t t' ps qs -> length qs = j -> (1 <= j)%nat -> nth_error cs j = Some c ->
  exists p t3, (let '(a, t1) := getNode i t' in
      let nd := Nd (c_v c) (mk_edges qs c) in
      let t2 := writeNode a nd t1 in
      if nolook then register_wo_lookup k a nd t2 else lookup k i a nd t2) = Some (p, t3) /\
    TInv k t3 /\ ext k t' t3 /\ DI k t t3 ps (qs ++ [p]).
Proof.
  intros HT HT' HE HD Hj Hj1 Hc.
  destruct (ei_desc _ _ _ _ _ HE j c Hj1 Hc) as (a0 & nd0 & Hp & Hr & Hv & Hw & Hl & Hi).
  destruct (mk_edges_s k t t' ps qs j c nd0 HD Hj Hw Hl Hi) as [Hlen Hch].
  pose proof (rebuilt_ok k t t' a0 nd0 (mk_edges qs c) HT Hr Hlen Hch) as Hok.
  pose proof (getNode_spec k i t' HT') as Hg. destruct (getNode i t') as [a t1]. destruct Hg as (T1 & P1 & C1 & H1).
  assert (X1 : ext k t' t1). { intros b nb Hb. unfold reg in *. rewrite C1, H1. exact Hb. }
  set (nd := Nd (c_v c) (mk_edges qs c)).
  destruct (writeNode_spec k t1 a nd T1 P1) as (T2 & P2 & X2 & H2 & R2).
  set (t2 := writeNode a nd t1) in *. cbv zeta.
  assert (Hnd : nd = Nd (nv nd0) (mk_edges qs c)) by (unfold nd; rewrite Hv; reflexivity).
  assert (Hok2 : nodeok k t2 nd).
  { rewrite Hnd. apply (nodeok_ext k t1); [exact X2|]. apply (nodeok_ext k t'); [exact X1|exact Hok]. }
  assert (X12 : ext k t' t2) by (exact (ext_trans _ _ _ _ X1 X2)).
  assert (DI3 : forall b nd'' t3, ext k t2 t3 -> reg k t3 b nd'' -> nv nd'' = nv nd -> DI k t t3 ps (qs ++ [Node b])).
  { intros b nd'' t3 X3 R3 V3 j' p q Hp' Hq'. apply nth_error_snoc in Hq'. destruct Hq' as [Hq'|[Hq' Hq'']].
    - apply (good_ext k t t' t3). { exact (ext_trans _ _ _ _ X12 X3). } exact (HD _ _ _ Hp' Hq').
    - subst j' q. rewrite Hj in Hp'. rewrite Hp in Hp'. injection Hp' as <-. eapply good_node; eauto. rewrite V3, Hnd. reflexivity. }
  destruct nolook.
  - unfold register_wo_lookup. rewrite (level_ok_true (nv nd)) by (exact (no_level _ _ _ Hok2)).
    destruct (insert_spec k t2 a nd T2 P2 H2 Hok2) as (T3 & X3 & R3).
    set (t3 := {| heap := heap t2; chain := _; nexta := _; pools := _ |}) in *.
    exists (Node a), t3. split; [reflexivity|]. split; [exact T3|]. split; [exact (ext_trans _ _ _ _ X12 X3)|]. eapply DI3; eauto.
  - destruct (lookup_spec k i t2 a nd T2 P2 H2 Hok2) as (b & nd' & t3 & L1 & T3 & X3 & R3 & Q3).
    exists (Node b), t3. split; [exact L1|]. split; [exact T3|]. split; [exact (ext_trans _ _ _ _ X12 X3)|]. eapply DI3; eauto.
Qed.

Lemma from_loop_s k i nolook t ps cs m : TInv k t -> EI k t ps cs m ->
  forall r pre qs t', cs = pre ++ r -> length qs = length pre -> (1 <= length pre)%nat -> TInv k t' ->
  DI k t t' ps qs ->
  exists qs' t3, from_loop k i nolook r qs t' = Some (qs', t3) /\ TInv k t3 /\ ext k t' t3 /\
    DI k t t3 ps qs' /\ length qs' = length cs.
Proof.
  intros HT HE. induction r as [|c r IH]; intros pre qs t' Hcs Hlq Hpre HT' HD.
  - exists qs, t'. split; [reflexivity|]. split; [exact HT'|]. split; [apply ext_refl|]. split; [exact HD|].
    rewrite Hcs, app_nil_r; exact Hlq.
  - assert (Hc : nth_error cs (length pre) = Some c).
    { rewrite Hcs. rewrite nth_error_app2 by auto. rewrite Nat.sub_diag. reflexivity. }
    destruct (one_node k i nolook t t' ps cs m (length pre) c qs HT HT' HE HD Hlq Hpre Hc) as (p & t3 & S1 & T3 & X3 & D3).
    cbn [from_loop]. destruct (getNode i t') as [a t1]. cbv zeta in S1. cbv zeta. rewrite S1.
    destruct (IH (pre ++ [c]) (qs ++ [p]) t3) as (qs' & t4 & A1 & A2 & A3 & A4 & A5); auto.
    + rewrite Hcs, <- app_assoc. reflexivity.
    + rewrite !app_length, Hlq. reflexivity.
    + rewrite app_length. lia.
    + exists qs', t4. split; [exact A1|]. split; [exact A2|]. split; [exact (ext_trans _ _ _ _ X3 A3)|]. split; [exact A4|exact A5].
Qed.

Theorem roundtrip_s k i nolook s n p t' : TInv k (tb s k) -> TInv k t' -> (n <= 101)%nat -> okp k (tb s k) n p ->
  exists j cs q t3, node_to_vec k s p = Some (j, cs) /\ vec_to_node k i nolook cs t' = Some (q, t3) /\
    TInv k t3 /\ ext k t' t3 /\ good k (tb s k) t3 p q.
Proof.
  intros HT HT' Hn Hp.
  destruct (node_to_vec_spec k s n p HT Hn Hp) as (j & cs & ps & m & H1 & H2 & H3 & H4 & H5).
  exists j, cs. destruct cs as [|c r].
  { pose proof (ei_len _ _ _ _ _ H2) as X. cbn in X. rewrite <- X in H4. discriminate. }
  destruct (from_loop_s k i nolook (tb s k) ps (c :: r) m HT H2 r [c] [Term] t' eq_refl eq_refl (le_n 1) HT') as (qs & t3 & A1 & A2 & A3 & A4 & A5).
  { intros j' p' q Hp' Hq. destruct j' as [|j']; [|destruct j'; discriminate].
    rewrite (ei_0 _ _ _ _ _ H2) in Hp'. injection Hp' as <-. cbn in Hq. injection Hq as <-.
    split; auto. intros n' Hn'. unfold sp in *. destruct k; [destruct n'; auto; destruct Hn' as (? & ? & ? & _); discriminate|]. now left. }
  assert (Hjl : (j < length qs)%nat) by (rewrite A5, (ei_len _ _ _ _ _ H2); lia).
  exists (nth j qs Null), t3. split; [exact H1|]. split.
  { cbn [vec_to_node]. rewrite A1. repeat f_equal. pose proof (ei_len _ _ _ _ _ H2) as X. lia. }
  split; [exact A2|]. split; [exact A3|]. apply (A4 j); [exact H3|]. now apply nth_error_nth'.
Qed.

(* what a collection guarantees about one handle *)
Definition keep (k : kind) (t t' : table) (e e' : edge) : Prop :=
  ew e' = ew e /\ forall n, se k t n e -> se k t' n e'.
Lemma good_keep k t t' e q : good k t t' (en e) q -> keep k t t' e (E (ew e) q).
Proof.
  intros [G1 G2]. split; [reflexivity|]. intros n [W|[W0 W1]]; [left; exact (G2 n W)|right; cbn; auto].
Qed.
Lemma keep_ext k t t1 t2 e e' : ext k t1 t2 -> keep k t t1 e e' -> keep k t t2 e e'.
Proof. intros He [K1 K2]. split; [exact K1|]. intros n Hn. eapply se_ext; eauto. Qed.
Lemma keep_refl k t e : keep k t t e e.
Proof. split; auto. Qed.

Definition live (k : kind) (t : table) (es : list edge) : Prop :=
  forall e, In e es -> exists n, (n <= 100)%nat /\ se k t n e.
Lemma encode_all_s k s es : TInv k (tb s k) -> live k (tb s k) es ->
  exists N css, encode_all k s es = Some (N, css) /\
    Forall2 (fun e cs => exists j, node_to_vec k s (en e) = Some (j, cs)) es css.
Proof.
  intros HT. induction es as [|e es IH]; intros Hl.
  - exists 0, []. split; [reflexivity|constructor].
  - destruct (Hl e (or_introl eq_refl)) as (n & Hn & W). apply se_okp in W.
    destruct (node_to_vec_spec k s n (en e) HT ltac:(lia) W) as (j & cs & ps & m & H1 & _).
    destruct IH as (N & css & A1 & A3). { intros x Hx. apply Hl. right. exact Hx. }
    exists (Z.of_nat j + N), (cs :: css). cbn [encode_all]. rewrite H1, A1. split; [reflexivity|]. constructor; eauto.
Qed.
Lemma decode_all_s k i s es css : TInv k (tb s k) -> live k (tb s k) es ->
  Forall2 (fun e cs => exists j, node_to_vec k s (en e) = Some (j, cs)) es css ->
  forall first t', TInv k t' ->
  exists es' t3, decode_all k i first es css t' = Some (es', t3) /\ TInv k t3 /\ ext k t' t3 /\
    Forall2 (keep k (tb s k) t3) es es'.
Proof.
  intros HT Hl HF. induction HF as [|e cs es css (j & Hj) HF IH]; intros first t' HT'.
  - exists [], t'. split; [reflexivity|]. split; [exact HT'|]. split; [apply ext_refl|constructor].
  - destruct (Hl e (or_introl eq_refl)) as (n & Hn & W). apply se_okp in W.
    destruct (roundtrip_s k i first s n (en e) t' HT HT' ltac:(lia) W) as (j' & cs' & q & t1 & A1 & A2 & A3 & A4 & A5).
    rewrite Hj in A1. injection A1 as <- <-.
    destruct (IH (fun x Hx => Hl x (or_intror Hx)) false t1 A3) as (es' & t3 & B1 & B2 & B3 & B4).
    exists (E (ew e) q :: es'), t3. cbn [decode_all]. rewrite A2, B1. split; [reflexivity|]. split; [exact B2|].
    split; [exact (ext_trans _ _ _ _ A4 B3)|]. constructor; [|exact B4].
    apply (keep_ext k _ t1); auto. now apply good_keep.
Qed.
Lemma keeps_refl k t es : Forall2 (keep k t t) es es.
Proof. induction es; constructor; auto using keep_refl. Qed.
Lemma bucket_init_invalid (e : ment) : In e bucket_init -> m_valid e = true -> False.
Proof. cbn. intros [<-|[<-|[<-|[<-|[]]]]]; discriminate. Qed.

Theorem gc_s i es force s : Inv s -> live KV (tb s KV) es ->
  exists es' s', gc i es force s = Some (es', s') /\ Inv s' /\ tb s' KM = tb s KM /\
    Forall2 (keep KV (tb s KV) (tb s' KV)) es es'.
Proof.
  intros HI Hl. unfold gc. destruct (below_thr i (tb s KV) (gc_v s) && negb force)%bool eqn:Hthr.
  - exists es, s. split; [reflexivity|]. split; [exact HI|]. split; [reflexivity|]. apply keeps_refl.
  - destruct (encode_all_s KV s es (inv_tb _ HI KV) Hl) as (N & css & A1 & A3). rewrite A1.
    destruct (decode_all_s KV i s es css (inv_tb _ HI KV) Hl A3 true table_init (TInv_init KV)) as (es' & t3 & B1 & B2 & _ & B3). rewrite B1.
    eexists es', _. split; [reflexivity|]. split; [|split; [reflexivity|exact B3]].
    constructor; cbn.
    + intros [|]; cbn; [exact B2|exact (inv_tb _ HI KM)].
    + intros; discriminate.
    + intros i' k lv key e He Hv. exfalso. exact (bucket_init_invalid e He Hv).
    + intros; discriminate.
    + reflexivity.
Qed.
Theorem gc_mat_s i es force s : Inv s -> live KM (tb s KM) es ->
  exists es' s', gc_mat i es force s = Some (es', s') /\ Inv s' /\ tb s' KV = tb s KV /\
    Forall2 (keep KM (tb s KM) (tb s' KM)) es es'.
Proof.
  intros HI Hl. unfold gc_mat. destruct (below_thr i (tb s KM) (gc_m s) && negb force)%bool eqn:Hthr.
  - exists es, s. split; [reflexivity|]. split; [exact HI|]. split; [reflexivity|]. apply keeps_refl.
  - destruct (encode_all_s KM s es (inv_tb _ HI KM) Hl) as (N & css & A1 & A3). rewrite A1.
    destruct (decode_all_s KM i s es css (inv_tb _ HI KM) Hl A3 true table_init (TInv_init KM)) as (es' & t3 & B1 & B2 & _ & B3). rewrite B1.
    eexists es', _. split; [reflexivity|]. split; [|split; [reflexivity|exact B3]].
    constructor; cbn.
    + intros [|]; cbn; [exact (inv_tb _ HI KV)|exact B2].
    + intros; discriminate.
    + intros i' k lv key e He Hv. exfalso. exact (bucket_init_invalid e He Hv).
    + intros p x Hx. exact (inv_pr _ HI p x Hx).
    + reflexivity.
Qed.

(* get_nNodes, save_binary, load_binary *)
Theorem nNodes_s s n e : Inv s -> (n <= 100)%nat -> se KV (tb s KV) n e -> get_nNodes s e <> None.
Proof.
  intros HI Hn W. apply se_okp in W. destruct (node_to_vec_spec KV s n (en e) (inv_tb _ HI KV) ltac:(lia) W) as (j & cs & ps & m & H1 & _).
  unfold get_nNodes. rewrite H1. discriminate.
Qed.
Theorem save_load_s i s s2 n e : Inv s -> Inv s2 -> (n <= 100)%nat -> sp KV (tb s KV) n (en e) ->
  exists cs e' s', save_binary s e = Some cs /\ load_binary i cs s2 = Some (e', s') /\ rel s2 s' /\ se KV (tb s' KV) n e'.
Proof.
  intros HI HI2 Hn W.
  destruct (roundtrip_s KV i false s n (en e) (tb s2 KV) (inv_tb _ HI KV) (inv_tb _ HI2 KV) ltac:(lia) (or_intror W)) as (j & cs & q & t3 & A1 & A2 & A3 & A4 & A5).
  exists cs, (E c1 q), (set_tb s2 KV t3). unfold save_binary, load_binary. rewrite A1, A2. split; [reflexivity|]. split; [reflexivity|].
  split; [now apply Inv_set_tb|]. left. cbn [en]. rewrite set_tb_same. now apply A5.
Qed.

(* ---- getVector, getMatrix ---- *)
Lemma fillVector_s s : TInv KV (tb s KV) -> forall n e row w m, se KV (tb s KV) n e -> fillVector s n e row w m <> None.
Proof.
  intros HT. induction n as [|n IH]; intros e row w m He; cbn [fillVector].
  - assert (Hp : en e = Term) by (destruct He as [h|[_ h]]; auto). rewrite Hp. cbn [is_term]. discriminate.
  - destruct (is_term (en e)) eqn:Ht; [discriminate|].
    destruct He as [(a & nd & Hp & Hr & Hv)|[_ h]]; [|rewrite h in Ht; discriminate].
    rewrite Hp. cbn [readn]. rewrite (Logic.proj1 Hr).
    assert (Hc : forall i, (i < 2)%nat -> se KV (tb s KV) n (nth i (nch nd) nullE)).
    { intros i Hi. rewrite (reg_nth KV _ a nd i HT Hr Hi). pose proof (reg_child KV _ a nd i HT Hr) as h. now rewrite Hv, Nat2Z.id in h. }
    destruct (fillVector s n (nth 0 (nch nd) nullE) _ _ m) as [m1|] eqn:H1; [|exfalso; exact (IH _ _ _ _ (Hc 0%nat ltac:(lia)) H1)].
    apply IH, Hc. lia.
Qed.
Lemma shift_ok_true k : 0 <= k < 31 -> shift_ok k = true.
Proof. intros H. unfold shift_ok. apply andb_true_iff. split; [apply Z.leb_le|apply Z.ltb_lt]; lia. Qed.
Theorem getVector_s s n e : Inv s -> (n <= 30)%nat -> se KV (tb s KV) n e -> is_term (en e) = false -> getVector s e <> None.
Proof.
  intros HI Hn He Ht. pose proof (inv_tb _ HI KV) as HT. pose proof He as He0.
  destruct n as [|n]; [destruct He as [h|[_ h]]; unfold sp in *; rewrite h in Ht; discriminate|].
  destruct He as [(a & nd & Hp & Hr & Hv)|[_ h]]; [|rewrite h in Ht; discriminate].
  unfold getVector, getVar. rewrite Ht, Hp. cbn [readn]. rewrite (Logic.proj1 Hr), Hv, shift_ok_true by lia.
  replace (Z.to_nat (Z.of_nat n + 1)) with (S n) by lia.
  destruct (fillVector s (S n) e 0 c1 (fun _ => c0)) eqn:Hf; [discriminate|]. exfalso. exact (fillVector_s s HT (S n) e _ _ _ He0 Hf).
Qed.
Lemma fillMatrix_s s : TInv KM (tb s KM) -> forall d e r c w m, se KM (tb s KM) d e -> fillMatrix s d e r c w m <> None.
Proof.
  intros HT. induction d as [|d IH]; intros e r c w m He.
  - assert (Hp : en e = Term).
    { destruct He as [[h|(a & nd & h & Hr & Hv)]|[_ h]]; auto. pose proof (no_level _ _ _ (reg_ok _ _ _ _ HT Hr)). lia. }
    cbn [fillMatrix]. unfold getVar. rewrite Hp. cbn. discriminate.
  - assert (Hcase : (exists a nd, en e = Node a /\ reg KM (tb s KM) a nd /\ nv nd = Z.of_nat d) \/
      (se KM (tb s KM) d e /\ exists v, getVar KM (en e) s = Some v /\ (v + 1 =? Z.of_nat (S d))%Z = false)).
    { destruct He as [[h|(a & nd & h & Hr & Hv)]|[hw h]].
      - right. split; [left; now left|]. exists (-1)%Z. unfold getVar. rewrite h. split; [reflexivity|apply Z.eqb_neq; lia].
      - destruct (Z.eq_dec (nv nd) (Z.of_nat d)) as [Hd|Hd]; [left; eauto|]. right. split.
        + left. right. exists a, nd. split; [auto|split; auto; lia].
        + exists (nv nd). unfold getVar. rewrite h. cbn [readn]. rewrite (Logic.proj1 Hr). split; [reflexivity|apply Z.eqb_neq; lia].
      - right. split; [right; auto|]. exists (-1)%Z. unfold getVar. rewrite h. split; [reflexivity|apply Z.eqb_neq; lia]. }
    cbn [fillMatrix].
    destruct Hcase as [(a & nd & Hp & Hr & Hv)|(He' & v & Hv & Hne)].
    + unfold getVar. rewrite Hp. cbn [readn]. rewrite (Logic.proj1 Hr), Hv. replace (Z.of_nat d + 1 =? Z.of_nat (S d))%Z with true by (symmetry; apply Z.eqb_eq; lia).
      cbn [is_term].
      assert (Hc : forall i, (i < 4)%nat -> se KM (tb s KM) d (nth i (nch nd) nullE)).
      { intros i Hi. rewrite (reg_nth KM _ a nd i HT Hr Hi). pose proof (reg_child KM _ a nd i HT Hr) as h. now rewrite Hv, Nat2Z.id in h. }
      pose proof (Hc 0%nat ltac:(lia)) as H0. pose proof (Hc 1%nat ltac:(lia)) as H1. pose proof (Hc 2%nat ltac:(lia)) as H2. pose proof (Hc 3%nat ltac:(lia)) as H3.
      repeat match goal with |- match fillMatrix s d ?x ?a ?b ?w ?mm with Some _ => _ | None => None end <> None =>
        let h := fresh in destruct (fillMatrix s d x a b w mm) eqn:h; [clear h|exfalso; revert h; apply IH; assumption] end.
      apply IH; assumption.
    + rewrite Hv, Hne.
      repeat match goal with |- match fillMatrix s d ?x ?a ?b ?w ?mm with Some _ => _ | None => None end <> None =>
        let h := fresh in destruct (fillMatrix s d x a b w mm) eqn:h; [clear h|exfalso; revert h; apply IH; assumption] end.
      apply IH; assumption.
Qed.
Theorem getMatrix_s s n e : Inv s -> (n <= 30)%nat -> se KM (tb s KM) n e -> getMatrix s e (Z.of_nat n) <> None.
Proof.
  intros HI Hn He. pose proof (inv_tb _ HI KM) as HT. unfold getMatrix.
  destruct (se_getVar KM s n e HI He) as (v & -> & _).
  destruct (Z.eqb_spec (Z.of_nat n) (-1)); [lia|]. rewrite shift_ok_true, Nat2Z.id by lia.
  destruct (fillMatrix s n e 0 0 c1 (fun _ _ => c0)) eqn:Hf; [discriminate|]. exfalso. exact (fillMatrix_s s HT n e _ _ _ _ He Hf).
Qed.
End SafeR.
