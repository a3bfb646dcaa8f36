(* GateP.v -- makeGate and makeTwoQubitGate denote controlled operators. *)
From Coq Require Import Reals Lra Psatz ZArith Bool List Lia Sorted.
From Coquelicot Require Import Complex.
From Verif Require Import Num State DD Gates RNum Wf Sums Err Inv Wp Make Add MulV.
Import ListNotations.
Open Scope Z_scope.

(* ---- index-level description of controlled operators ----------------------- *)
Definition b2n (b : bool) : nat := if b then 1%nat else 0%nat.
(* rows and columns agree on all levels < z outside T *)
Definition offeq (z : nat) (T : list nat) (r c : nat -> nat) : bool :=
  forallb (fun l => existsb (Nat.eqb l) T || Nat.eqb (r l) (c l)) (seq 0 z).
Definition oneq (T : list nat) (r c : nat -> nat) : bool :=
  forallb (fun l => Nat.eqb (r l) (c l)) T.
(* every control on a level < z is satisfied by the row bits *)
Definition sat (z : nat) (ctl : list control) (r : nat -> nat) : bool :=
  forallb (fun x => (Z.of_nat z <=? fst x) || Nat.eqb (r (Z.to_nat (fst x))) (b2n (snd x))) ctl.
Definition opF (z : nat) (T : list nat) (G : (nat -> nat) -> (nat -> nat) -> C) (D : C)
  (ctl : list control) (ix : nat -> nat) : C :=
  let r := rowix ix in let c := colix ix in
  if offeq z T r c then
    if sat z ctl r then G r c else if oneq T r c then D else RtoC 0
  else RtoC 0.
Fixpoint idF (z : nat) (ix : nat -> nat) : C :=
  match z with O => RtoC 1 | S m => Cmult (diag4 (ix m)) (idF m ix) end.

Lemma diag4_rc (ix : nat -> nat) z : diag4 (ix z) = if Nat.eqb (rowix ix z) (colix ix z) then RtoC 1 else RtoC 0.
Proof.
  unfold rowix, colix. destruct (ix z) as [|[|[|[|i]]]]; try reflexivity.
  cbn [diag4]. destruct (Nat.eqb_spec (S (S (S (S i))) / 2) (S (S (S (S i))) mod 2)) as [h|h]; auto.
  pose proof (Nat.mod_upper_bound (S (S (S (S i)))) 2 ltac:(lia)).
  pose proof (Nat.div_le_lower_bound (S (S (S (S i)))) 2 2 ltac:(lia) ltac:(lia)). lia.
Qed.
Lemma seq_snoc z : seq 0 (S z) = seq 0 z ++ [z].
Proof. now rewrite seq_S. Qed.
Lemma offeq_S z T r c : offeq (S z) T r c = offeq z T r c && (existsb (Nat.eqb z) T || Nat.eqb (r z) (c z)).
Proof. unfold offeq. rewrite seq_snoc, forallb_app. cbn. now rewrite andb_true_r. Qed.
Lemma idF_all z ix : idF z ix = if offeq z [] (rowix ix) (colix ix) then RtoC 1 else RtoC 0.
Proof.
  induction z as [|z IH]; [reflexivity|]. cbn [idF]. rewrite IH, offeq_S, diag4_rc. cbn [existsb orb].
  destruct (offeq z [] (rowix ix) (colix ix)), (Nat.eqb (rowix ix z) (colix ix z)); cbn [andb]; ring.
Qed.
(* all levels agree = outside and inside *)
Lemma offeq_split z T r c : (forall l, In l T -> (l < z)%nat) -> offeq z [] r c = offeq z T r c && oneq T r c.
Proof.
  intros HT. apply eq_true_iff_eq. rewrite andb_true_iff. unfold offeq, oneq. rewrite !forallb_forall.
  split.
  - intros H. split; intros l Hl.
    + apply H in Hl. cbn in Hl. now rewrite Hl, orb_true_r.
    + specialize (H l). cbn in H. apply H. apply in_seq. specialize (HT l Hl). lia.
  - intros [H1 H2] l Hl. cbn. destruct (existsb (Nat.eqb l) T) eqn:He.
    + apply existsb_exists in He as (x & Hx & He). apply Nat.eqb_eq in He. subst x. auto.
    + specialize (H1 l Hl). cbn in H1. now rewrite He in H1.
Qed.

(* controls: strictly sorted by qubit *)
Definition csorted (ctl : list control) : Prop := StronglySorted (fun a b : control => fst a < fst b) ctl.
Definition from (z : nat) (ctl : list control) : list control := filter (fun x => Z.of_nat z <=? fst x) ctl.
Definition ctl_at (z : nat) (ctl : list control) : option bool :=
  match find (fun x => fst x =? Z.of_nat z) ctl with Some x => Some (snd x) | None => None end.

Lemma csorted_inj ctl x y : csorted ctl -> In x ctl -> In y ctl -> fst x = fst y -> x = y.
Proof.
  induction 1 as [|a l Hs IH Hf]; cbn; [tauto|]. rewrite Forall_forall in Hf.
  intros [->|Hx] [->|Hy] He; auto.
  - specialize (Hf y Hy). lia.
  - specialize (Hf x Hx). lia.
Qed.
Lemma ctl_at_some z ctl b : csorted ctl -> (ctl_at z ctl = Some b <-> In (Z.of_nat z, b) ctl).
Proof.
  intros Hs. unfold ctl_at. split.
  - destruct (find (fun x : Z * bool => fst x =? Z.of_nat z) ctl) as [[q b']|] eqn:Hf; [|discriminate]. intros He; injection He as <-.
    apply find_some in Hf as [Hf1 Hf2]. cbn in *. apply Z.eqb_eq in Hf2. now subst.
  - intros Hin. destruct (find (fun x : Z * bool => fst x =? Z.of_nat z) ctl) as [x|] eqn:Hf.
    + apply find_some in Hf as [Hf1 Hf2]. apply Z.eqb_eq in Hf2.
      rewrite (csorted_inj ctl x (Z.of_nat z, b)); auto.
    + eapply find_none in Hf; eauto. cbn in Hf. rewrite Z.eqb_refl in Hf. discriminate.
Qed.
Lemma ctl_at_none z ctl : ctl_at z ctl = None <-> forall x, In x ctl -> fst x <> Z.of_nat z.
Proof.
  unfold ctl_at. split.
  - destruct (find (fun x : Z * bool => fst x =? Z.of_nat z) ctl) eqn:Hf; [discriminate|]. intros _ x Hx He.
    eapply find_none in Hf; eauto. cbn in Hf. rewrite He, Z.eqb_refl in Hf. discriminate.
  - intros H. destruct (find (fun x : Z * bool => fst x =? Z.of_nat z) ctl) as [x|] eqn:Hf; auto. apply find_some in Hf as [Hf1 Hf2].
    apply Z.eqb_eq in Hf2. exfalso. eapply H; eauto.
Qed.
Lemma from_step z ctl : csorted ctl ->
  match ctl_at z ctl with
  | Some b => exists r, from z ctl = (Z.of_nat z, b) :: r /\ r = from (S z) ctl
  | None => from z ctl = from (S z) ctl /\ at_ctl (from z ctl) (Z.of_nat z) = false
  end.
Proof.
  intros Hs. destruct (ctl_at z ctl) as [b|] eqn:Hc.
  - induction Hs as [|a l Hs IH Hf]; [discriminate|].
    assert (Ha : csorted (a :: l)) by (constructor; auto).
    apply (ctl_at_some z (a :: l) b Ha) in Hc. rewrite Forall_forall in Hf. unfold from. cbn [filter].
    destruct Hc as [->|Hc].
    + cbn [fst]. rewrite Z.leb_refl. replace (Z.of_nat (S z) <=? Z.of_nat z) with false by (symmetry; apply Z.leb_gt; lia).
      exists (filter (fun x => Z.of_nat z <=? fst x) l). split; auto.
      apply filter_ext_in. intros x Hx. specialize (Hf x Hx). cbn in Hf.
      destruct (Z.leb_spec (Z.of_nat z) (fst x)), (Z.leb_spec (Z.of_nat (S z)) (fst x)); auto; lia.
    + pose proof (Hf _ Hc) as Hlt. cbn in Hlt.
      replace (Z.of_nat z <=? fst a) with false by (symmetry; apply Z.leb_gt; lia).
      replace (Z.of_nat (S z) <=? fst a) with false by (symmetry; apply Z.leb_gt; lia).
      apply IH. now apply ctl_at_some.
  - pose proof (proj1 (ctl_at_none z ctl) Hc) as Hn. split.
    + unfold from. apply filter_ext_in. intros x Hx. specialize (Hn x Hx).
      destruct (Z.leb_spec (Z.of_nat z) (fst x)), (Z.leb_spec (Z.of_nat (S z)) (fst x)); auto; lia.
    + destruct (from z ctl) as [|x r] eqn:Hf; auto. cbn. apply Z.eqb_neq.
      apply Hn. assert (Hin : In x (from z ctl)) by (rewrite Hf; now left). unfold from in Hin. now apply filter_In in Hin.
Qed.

Lemma sat_S z ctl r : csorted ctl ->
  sat (S z) ctl r = sat z ctl r && match ctl_at z ctl with Some b => Nat.eqb (r z) (b2n b) | None => true end.
Proof.
  intros Hs. apply eq_true_iff_eq. rewrite andb_true_iff. unfold sat. rewrite !forallb_forall.
  destruct (ctl_at z ctl) as [b|] eqn:Hc.
  - apply ctl_at_some in Hc; auto. split.
    + intros H. split.
      * intros x Hx. specialize (H x Hx). destruct (Z.leb_spec (Z.of_nat z) (fst x)); auto.
        destruct (Z.leb_spec (Z.of_nat (S z)) (fst x)); auto; lia.
      * specialize (H _ Hc). cbn [fst snd] in H.
        replace (Z.of_nat (S z) <=? Z.of_nat z) with false in H by (symmetry; apply Z.leb_gt; lia).
        now rewrite Nat2Z.id in H.
    + intros [H1 H2] x Hx. specialize (H1 x Hx).
      destruct (Z.leb_spec (Z.of_nat (S z)) (fst x)); auto.
      destruct (Z.leb_spec (Z.of_nat z) (fst x)); auto.
      assert (fst x = Z.of_nat z) by lia. rewrite (csorted_inj ctl x (Z.of_nat z, b)); auto. cbn [fst snd orb].
      now rewrite Nat2Z.id.
  - pose proof (proj1 (ctl_at_none z ctl) Hc) as Hn. split.
    + intros H. split; auto. intros x Hx. specialize (H x Hx). specialize (Hn x Hx).
      destruct (Z.leb_spec (Z.of_nat z) (fst x)); auto. destruct (Z.leb_spec (Z.of_nat (S z)) (fst x)); auto; lia.
    + intros [H _] x Hx. specialize (H x Hx). specialize (Hn x Hx).
      destruct (Z.leb_spec (Z.of_nat (S z)) (fst x)); auto. destruct (Z.leb_spec (Z.of_nat z) (fst x)); auto; lia.
Qed.

(* one level of the construction *)
Definition wrapF (z : nat) (cb : option bool) (D : C) (F : (nat -> nat) -> C) : (nat -> nat) -> C :=
  match cb with
  | Some false => ch_F [F; fun _ => RtoC 0; fun _ => RtoC 0; fun ix => Cmult D (idF z ix)] z
  | Some true => ch_F [fun ix => Cmult D (idF z ix); fun _ => RtoC 0; fun _ => RtoC 0; F] z
  | None => ch_F [F; fun _ => RtoC 0; fun _ => RtoC 0; F] z
  end.
Lemma wrapF_opF z T G D ctl ix : csorted ctl -> (forall l, In l T -> (l < z)%nat) ->
  wrapF z (ctl_at z ctl) D (opF z T G D ctl) ix = opF (S z) T G D ctl ix.
Proof.
  intros Hs HT.
  assert (HzT : existsb (Nat.eqb z) T = false).
  { apply not_true_is_false. intros h. apply existsb_exists in h as (x & Hx & He). apply Nat.eqb_eq in He.
    subst x. apply HT in Hx. lia. }
  assert (Hid : Cmult D (idF z ix) =
     if offeq z T (rowix ix) (colix ix) then if oneq T (rowix ix) (colix ix) then D else RtoC 0 else RtoC 0).
  { rewrite idF_all, (offeq_split z T) by auto.
    destruct (offeq z T _ _), (oneq T _ _); cbn [andb]; ring. }
  unfold opF. rewrite offeq_S, sat_S, HzT by auto. cbn [orb].
  assert (Hix : (ix z = 0%nat /\ rowix ix z = 0%nat /\ colix ix z = 0%nat) \/
                (ix z = 1%nat /\ rowix ix z = 0%nat /\ colix ix z = 1%nat) \/
                (ix z = 2%nat /\ rowix ix z = 1%nat /\ colix ix z = 0%nat) \/
                (ix z = 3%nat /\ rowix ix z = 1%nat /\ colix ix z = 1%nat) \/
                ((4 <= ix z)%nat /\ Nat.eqb (rowix ix z) (colix ix z) = false)).
  { unfold rowix, colix. destruct (ix z) as [|[|[|[|i]]]].
    - left. now split.
    - right. left. now split.
    - right. right. left. now split.
    - right. right. right. left. now split.
    - right. right. right. right. split; [lia|]. apply Nat.eqb_neq.
      pose proof (Nat.mod_upper_bound (S (S (S (S i)))) 2 ltac:(lia)).
      pose proof (Nat.div_le_lower_bound (S (S (S (S i)))) 2 2 ltac:(lia) ltac:(lia)). lia. }
  unfold wrapF, ch_F.
  destruct Hix as [(h & h1 & h2)|[(h & h1 & h2)|[(h & h1 & h2)|[(h & h1 & h2)|(h & h1)]]]].
  - rewrite h1, h2. cbn [Nat.eqb]. rewrite andb_true_r.
    destruct (ctl_at z ctl) as [[|]|]; rewrite h; cbn [map nth b2n Nat.eqb]; rewrite ?andb_true_r, ?andb_false_r; auto.
  - rewrite h1, h2. cbn [Nat.eqb]. rewrite andb_false_r.
    destruct (ctl_at z ctl) as [[|]|]; rewrite h; reflexivity.
  - rewrite h1, h2. cbn [Nat.eqb]. rewrite andb_false_r.
    destruct (ctl_at z ctl) as [[|]|]; rewrite h; reflexivity.
  - rewrite h1, h2. cbn [Nat.eqb]. rewrite andb_true_r.
    destruct (ctl_at z ctl) as [[|]|]; rewrite h; cbn [map nth b2n Nat.eqb]; rewrite ?andb_true_r, ?andb_false_r; auto.
  - rewrite h1, andb_false_r.
    destruct (ctl_at z ctl) as [[|]|]; destruct (ix z) as [|[|[|[|i]]]]; try lia; destruct i; reflexivity.
Qed.

Lemma idF_le1 z ix : (Cmod (idF z ix) <= 1)%R.
Proof. rewrite idF_all. destruct (offeq _ _ _ _); rewrite ?Cmod_1, ?Cmod_0; lra. Qed.

Section GateP.
Context (tau : R) {HTol : Tol tau}.
Let Htau : (0 <= tau < 1 / 2)%R := tol_ok.
#[local] Hint Extern 0 NumOps => exact (RNum tau) : typeclass_instances.
Context {CF : Cfg}.
Notation table := (@table (RNum tau)).
Notation state := (@state (RNum tau)).
Notation edge := (@edge (RNum tau)).
Notation node := (@node (RNum tau)).
Notation val := (val tau).
Notation valp := (valp tau).
Notation wfe := (wfe tau).
Notation wfp := (wfp tau).
Notation TInv := (TInv tau).
Notation Inv := (Inv tau).
Notation rel := (rel tau).
Notation dn := (dn tau).
Notation E := (@E (RNum tau)).

(* error of n levels of gate construction with entries bounded by B *)
Fixpoint egate (n : nat) (B : R) : R :=
  match n with O => 0 | S m => egate m B + mkerr tau (B + egate m B) end.
Lemma egate_pos n B : (0 <= B)%R -> (0 <= egate n B)%R.
Proof.
  intros HB. induction n as [|m IH]; cbn; [lra|].
  pose proof (mkerr_pos tau (B + egate m B) ltac:(lra)). lra.
Qed.
Lemma egate_0 n B : tau = 0%R -> egate n B = 0%R.
Proof. intros H. induction n as [|m IH]; cbn; auto. rewrite IH, (mkerr_0 tau) by auto. lra. Qed.

Lemma valp_idF t z ix : valp KM t z Term ix = idF z ix.
Proof. induction z as [|z IH]; [reflexivity|]. rewrite valp_S_term. cbn [skipf idF]. now rewrite IH. Qed.
Lemma dn_term z w s err : (0 <= err)%R -> dn KM z (fun ix => Cmult w (idF z ix)) err (E w Term) s.
Proof.
  intros He. apply (dnt_weaken tau) with (err := 0%R); auto. apply (dnt_of_exact tau); [left; now left|].
  intros ix. unfold Wf.val. cbn [ew en]. now rewrite valp_idF.
Qed.
Lemma dn_zeroE k z s err : (0 <= err)%R -> dn k z (fun _ => RtoC 0) err zeroE s.
Proof.
  intros He. apply (dnt_weaken tau) with (err := 0%R); auto. apply (dnt_of_exact tau); [apply wfe_zero|].
  intros ix. apply val_zeroE.
Qed.

Lemma wpr_mk4 B z s (a b c d : edge) Fa Fb Fc Fd (Q : post tau) :
  Inv s -> Z.of_nat z < NQUBITS -> (0 <= B)%R ->
  dn KM z Fa (egate z B) a s -> dn KM z Fb (egate z B) b s -> dn KM z Fc (egate z B) c s -> dn KM z Fd (egate z B) d s ->
  (forall ix, Cmod (Fa ix) <= B)%R -> (forall ix, Cmod (Fb ix) <= B)%R ->
  (forall ix, Cmod (Fc ix) <= B)%R -> (forall ix, Cmod (Fd ix) <= B)%R ->
  (forall e s', rel s s' -> dn KM (S z) (ch_F [Fa; Fb; Fc; Fd] z) (egate (S z) B) e s' -> Q e s') ->
  wpr tau (makeMEdge (Z.of_nat z) a b c d) Q s.
Proof.
  intros HI Hz HB Da Db Dc Dd Ba Bb Bc Bd HQ.
  assert (HT : TInv KM (tb s KM)) by apply HI. pose proof (egate_pos z B HB) as Heg.
  eapply (wpr_mono tau); [auto| |apply (wpr_makeMEdge tau z s a b c d
     (val KM (tb s KM) z a) (val KM (tb s KM) z b) (val KM (tb s KM) z c) (val KM (tb s KM) z d) (B + egate z B)); auto].
  - intros e s' Hr Hd. apply HQ; auto. cbn [egate]. rewrite Rplus_comm. eapply (dnt_err tau); [|exact Hd].
    intros ix. unfold ch_F. cbn [map]. destruct (ix z) as [|[|[|[|i]]]]; cbn [nth].
    + apply Da.
    + apply Db.
    + apply Dc.
    + apply Dd.
    + destruct i; replace (Cminus (RtoC 0) (RtoC 0)) with (RtoC 0) by ring; rewrite Cmod_0; auto.
  - apply Da.
  - apply Db.
  - apply Dc.
  - apply Dd.
  - eapply (dnt_wbound tau); eauto.
  - eapply (dnt_wbound tau); eauto.
  - eapply (dnt_wbound tau); eauto.
  - eapply (dnt_wbound tau); eauto.
Qed.

Definition flagC (d : bool) : C := if d then RtoC 1 else RtoC 0.
Lemma wrapF_bound z cb d F B ix : (1 <= B)%R -> (forall ix, Cmod (F ix) <= B)%R -> (Cmod (wrapF z cb (flagC d) F ix) <= B)%R.
Proof.
  intros HB HF.
  assert (Hd : (Cmod (Cmult (flagC d) (idF z ix)) <= B)%R).
  { rewrite Cmod_mult. pose proof (idF_le1 z ix). pose proof (Cmod_ge_0 (idF z ix)).
    destruct d; cbn [flagC]; rewrite ?Cmod_1, ?Cmod_0; lra. }
  assert (H0 : (Cmod (RtoC 0) <= B)%R) by (rewrite Cmod_0; lra).
  unfold wrapF, ch_F. destruct cb as [[|]|]; cbn [map]; destruct (ix z) as [|[|[|[|[|i]]]]]; cbn [nth]; auto.
Qed.
Lemma wpr_wrap_low B z ctl s d e F (Q : post tau) : csorted ctl ->
  Inv s -> Z.of_nat z < NQUBITS -> (1 <= B)%R ->
  dn KM z F (egate z B) e s -> (forall ix, Cmod (F ix) <= B)%R ->
  (forall e' s', rel s s' -> dn KM (S z) (wrapF z (ctl_at z ctl) (flagC d) F) (egate (S z) B) e' s' -> Q e' s') ->
  wpr tau (wrap_low (Z.of_nat z) (from z ctl) d e) Q s.
Proof.
  intros Hs HI Hz HB He HF HQ. unfold wrap_low.
  assert (HB0 : (0 <= B)%R) by lra. pose proof (egate_pos z B HB0) as Heg.
  assert (Hz0 : dn KM z (fun _ => RtoC 0) (egate z B) zeroE s) by (now apply dn_zeroE).
  assert (Hid : dn KM z (fun ix => Cmult (flagC d) (idF z ix)) (egate z B) (if d then oneE else zeroE) s).
  { destruct d; cbn [flagC]; [apply (dn_term z (RtoC 1) s); auto|].
    eapply (dnt_F tau); [|exact Hz0]. intros ix. cbn. ring. }
  assert (B0 : forall ix : nat -> nat, (Cmod (RtoC 0) <= B)%R) by (intros; rewrite Cmod_0; lra).
  assert (Bd : forall ix, (Cmod (Cmult (flagC d) (idF z ix)) <= B)%R).
  { intros ix. rewrite Cmod_mult. pose proof (idF_le1 z ix). pose proof (Cmod_ge_0 (idF z ix)).
    destruct d; cbn [flagC]; rewrite ?Cmod_1, ?Cmod_0; lra. }
  pose proof (from_step z ctl Hs) as Hst.
  destruct (ctl_at z ctl) as [[|]|] eqn:Hc.
  - destruct Hst as (r & -> & _). cbn [at_ctl fst]. rewrite Z.eqb_refl.
    eapply (wpr_mk4 B z s _ _ _ _ _ _ _ _ Q HI Hz HB0 Hid Hz0 Hz0 He); auto.
  - destruct Hst as (r & -> & _). cbn [at_ctl fst]. rewrite Z.eqb_refl.
    eapply (wpr_mk4 B z s _ _ _ _ _ _ _ _ Q HI Hz HB0 He Hz0 Hz0 Hid); auto.
  - destruct Hst as (_ & ->).
    eapply (wpr_mk4 B z s _ _ _ _ _ _ _ _ Q HI Hz HB0 He Hz0 Hz0 He); auto.
Qed.
Lemma wrap_high_low z it e : wrap_high z it e = wrap_low z it true e.
Proof. reflexivity. Qed.
Lemma advance_from z ctl : csorted ctl -> advance (from z ctl) (Z.of_nat z) = from (S z) ctl.
Proof.
  intros Hs. pose proof (from_step z ctl Hs) as Hst. unfold advance. destruct (ctl_at z ctl).
  - destruct Hst as (r & -> & <-). cbn. now rewrite Z.eqb_refl.
  - destruct Hst as [h ->]. exact h.
Qed.

(* a list of (flag, edge) against a list of (flag, function) *)
Definition Den (z : nat) (B : R) (s : state) (es : list (bool * edge)) (fs : list (bool * ((nat -> nat) -> C))) : Prop :=
  Forall2 (fun de df => fst de = fst df /\ dn KM z (snd df) (egate z B) (snd de) s) es fs.
Lemma Den_rel z B s s' es fs : Inv s -> rel s s' -> Den z B s es fs -> Den z B s' es fs.
Proof.
  intros HI Hr H. induction H as [|de df es fs [h1 h2] H IH]; constructor; auto. split; auto.
  exact (dn_stable tau _ _ _ _ _ _ _ HI Hr h2).
Qed.
Lemma wpr_wrap_all B z ctl (Q : post tau) : csorted ctl -> Z.of_nat z < NQUBITS -> (1 <= B)%R ->
  forall es fs s k, Inv s -> Den z B s es fs ->
  (forall df, In df fs -> forall ix, (Cmod (snd df ix) <= B)%R) ->
  (forall es' s', rel s s' -> Den (S z) B s' es' (map (fun df => (fst df, wrapF z (ctl_at z ctl) (flagC (fst df)) (snd df))) fs) ->
     wpr tau (k es') Q s') ->
  wpr tau (wrap_all (Z.of_nat z) (from z ctl) es k) Q s.
Proof.
  intros Hs Hz HB. induction es as [|[d e] es IH]; intros fs s k HI HD HF Hk; inversion HD as [|x df' y fs' [Hd1 Hd2] HD']; subst; cbn [wrap_all].
  - apply Hk; [now apply rel_refl|constructor].
  - destruct df' as [d' F]. cbn [fst snd] in *. subst d'.
    apply (wpr_bind tau); auto.
    apply (wpr_wrap_low B z ctl s d e F); auto.
    { intros ix. apply (HF (d, F)). now left. }
    intros e' s' Hr He'. pose proof (rel_inv _ _ _ Hr) as HI'.
    refine (IH fs' s' _ HI' _ _ _).
    + exact (Den_rel _ _ _ _ _ _ HI Hr HD').
    + intros df Hin. apply HF. now right.
    + intros es' s2 Hr2 HD2. apply Hk; [eapply rel_trans; eauto|]. cbn [map]. constructor; auto.
      split; auto. exact (dn_stable tau _ _ _ _ _ _ _ HI' Hr2 He').
Qed.

(* a block of entries: flag, and function at z levels *)
Definition blockF (z : nat) (T : list nat) (ctl : list control)
  (Gs : list (bool * ((nat -> nat) -> (nat -> nat) -> C))) : list (bool * ((nat -> nat) -> C)) :=
  map (fun dg => (fst dg, opF z T (snd dg) (flagC (fst dg)) ctl)) Gs.
Lemma opF_bound z T G D ctl B ix : (1 <= B)%R -> (Cmod D <= 1)%R -> (forall r c, Cmod (G r c) <= B)%R -> (Cmod (opF z T G D ctl ix) <= B)%R.
Proof.
  intros HB HD HG. unfold opF. destruct (offeq _ _ _ _); [|rewrite Cmod_0; lra].
  destruct (sat _ _ _); auto. destruct (oneq _ _ _); [lra|rewrite Cmod_0; lra].
Qed.
Lemma flagC_le d : (Cmod (flagC d) <= 1)%R.
Proof. destruct d; cbn; rewrite ?Cmod_1, ?Cmod_0; lra. Qed.
Ltac opb := apply opF_bound; [auto|first [apply flagC_le|apply (flagC_le true)|apply (flagC_le false)]|intros; cbn [snd]; auto].
Lemma Den_F z B s es fs fs' : Forall2 (fun a b => fst a = fst b /\ forall ix, snd a ix = snd b ix) fs fs' ->
  Den z B s es fs -> Den z B s es fs'.
Proof.
  intros H. revert es. induction H as [|a b fs fs' [h1 h2] H IH]; intros es HD; inversion HD as [|x y l l' [g1 g2] HD']; subst; constructor.
  - split; [congruence|]. eapply (dnt_F tau); [|exact g2]. auto.
  - now apply IH.
Qed.
Lemma wpr_low_loop B T ctl Gs (Q : post tau) : csorted ctl -> (1 <= B)%R ->
  (forall dg, In dg Gs -> forall r c, (Cmod (snd dg r c) <= B)%R) ->
  forall cnt z es s k, Inv s -> Z.of_nat (z + cnt) <= NQUBITS -> (forall l, In l T -> (l < z)%nat) ->
  Den z B s es (blockF z T ctl Gs) ->
  (forall es' s', rel s s' -> Den (z + cnt) B s' es' (blockF (z + cnt) T ctl Gs) ->
     wpr tau (k (Z.of_nat (z + cnt)) (from (z + cnt) ctl) es') Q s') ->
  wpr tau (low_loop cnt (Z.of_nat z) (from z ctl) es k) Q s.
Proof.
  intros Hs HB HG. induction cnt as [|cnt IH]; intros z es s k HI Hz HT HD Hk; cbn [low_loop].
  - rewrite Nat.add_0_r in Hk. apply Hk; auto. now apply rel_refl.
  - apply (wpr_wrap_all B z ctl Q) with (fs := blockF z T ctl Gs); auto; [lia| |].
    { intros df Hin. unfold blockF in Hin. apply in_map_iff in Hin as (dg & <- & Hin). intros ix. cbn [snd].
      apply opF_bound; auto using flagC_le. }
    intros es' s' Hr HD'. pose proof (rel_inv _ _ _ Hr) as HI'.
    rewrite advance_from by auto. replace (Z.of_nat z + 1) with (Z.of_nat (S z)) by lia.
    refine (IH (S z) _ s' _ HI' _ _ _ _).
    + lia.
    + intros l Hl. specialize (HT l Hl). lia.
    + eapply Den_F; [|exact HD']. unfold blockF. rewrite map_map. clear - Hs HT.
      induction Gs as [|dg Gs IHg]; cbn; constructor; auto. cbn [fst snd]. split; auto.
      intros ix. now apply wrapF_opF.
    + intros es2 s2 Hr2 HD2. replace (S z + cnt)%nat with (z + S cnt)%nat in * by lia.
      apply Hk; auto. eapply rel_trans; eauto.
Qed.
Lemma wpr_high_loop B T ctl G (Q : post tau) : csorted ctl -> (1 <= B)%R -> (forall r c, (Cmod (G r c) <= B)%R) ->
  forall cnt z e s, Inv s -> Z.of_nat (z + cnt) <= NQUBITS -> (forall l, In l T -> (l < z)%nat) ->
  dn KM z (opF z T G (RtoC 1) ctl) (egate z B) e s ->
  (forall e' s', rel s s' -> dn KM (z + cnt) (opF (z + cnt) T G (RtoC 1) ctl) (egate (z + cnt) B) e' s' -> Q e' s') ->
  wpr tau (high_loop cnt (Z.of_nat z) (from z ctl) e) Q s.
Proof.
  intros Hs HB HG. induction cnt as [|cnt IH]; intros z e s HI Hz HT HD HQ; cbn [high_loop].
  - rewrite Nat.add_0_r in HQ. apply (wpr_ret tau). intros s' Hr. apply HQ; auto.
    exact (dn_stable tau _ _ _ _ _ _ _ HI Hr HD).
  - apply (wpr_bind tau); auto. rewrite wrap_high_low.
    apply (wpr_wrap_low B z ctl s true e (opF z T G (RtoC 1) ctl)); auto; [lia| |].
    { intros ix. apply opF_bound; auto. rewrite Cmod_1; lra. }
    intros e' s' Hr HD'. pose proof (rel_inv _ _ _ Hr) as HI'.
    rewrite advance_from by auto. replace (Z.of_nat z + 1) with (Z.of_nat (S z)) by lia.
    refine (IH (S z) _ s' HI' _ _ _ _).
    + lia.
    + intros l Hl. specialize (HT l Hl). lia.
    + eapply (dnt_F tau); [|exact HD']. intros ix. cbn [flagC]. now apply wrapF_opF.
    + intros e2 s2 Hr2 HD2. replace (S z + cnt)%nat with (z + S cnt)%nat in * by lia.
      apply HQ; auto. eapply rel_trans; eauto.
Qed.
Lemma from_none z ctl : csorted ctl -> (forall x, In x ctl -> fst x <> Z.of_nat z) -> from z ctl = from (S z) ctl.
Proof.
  intros Hs H. pose proof (from_step z ctl Hs) as Hst. apply ctl_at_none in H. rewrite H in Hst. apply Hst.
Qed.
Lemma from_0 ctl : (forall x, In x ctl -> 0 <= fst x) -> from 0 ctl = ctl.
Proof.
  intros H. unfold from. induction ctl as [|x l IH]; cbn [filter]; auto.
  replace (Z.of_nat 0 <=? fst x) with true by (symmetry; apply Z.leb_le; apply H; now left).
  f_equal. apply IH. intros y Hy. apply H. now right.
Qed.

Definition selG (z : nat) (G : nat -> nat -> (nat -> nat) -> (nat -> nat) -> C) (r c : nat -> nat) : C :=
  if (Nat.ltb (r z) 2 && Nat.ltb (c z) 2)%bool then G (r z) (c z) r c else RtoC 0.
Lemma offeq_cons z T r c : offeq z (z :: T) r c = offeq z T r c.
Proof.
  unfold offeq. apply eq_true_iff_eq. rewrite !forallb_forall.
  split; intros H l Hl; specialize (H l Hl); cbn [existsb] in *; apply in_seq in Hl;
    replace (l =? z)%nat with false in * by (symmetry; apply Nat.eqb_neq; lia); auto.
Qed.
Lemma join_opF z T G D ctl ix : csorted ctl -> ctl_at z ctl = None ->
  ch_F [opF z T (G 0%nat 0%nat) D ctl; opF z T (G 0%nat 1%nat) (RtoC 0) ctl;
        opF z T (G 1%nat 0%nat) (RtoC 0) ctl; opF z T (G 1%nat 1%nat) D ctl] z ix
  = opF (S z) (z :: T) (selG z G) D ctl ix.
Proof.
  intros Hs Hn. unfold opF at 5. rewrite offeq_S, sat_S, Hn, offeq_cons by auto.
  change (oneq (z :: T) (rowix ix) (colix ix)) with (Nat.eqb (rowix ix z) (colix ix z) && oneq T (rowix ix) (colix ix))%bool.
  cbn [existsb]. rewrite Nat.eqb_refl. cbn [orb]. rewrite !andb_true_r.
  unfold ch_F, selG. cbn [map].
  destruct (ix z) as [|[|[|[|i]]]] eqn:h.
  - assert (h1 : rowix ix z = 0%nat) by (unfold rowix; now rewrite h).
    assert (h2 : colix ix z = 0%nat) by (unfold colix; now rewrite h).
    rewrite h1, h2. reflexivity.
  - assert (h1 : rowix ix z = 0%nat) by (unfold rowix; now rewrite h).
    assert (h2 : colix ix z = 1%nat) by (unfold colix; now rewrite h).
    rewrite h1, h2. cbn [nth Nat.ltb Nat.leb andb Nat.eqb]. unfold opF. destruct (offeq z T (rowix ix) (colix ix)), (sat z ctl (rowix ix)), (oneq T (rowix ix) (colix ix)); auto.
  - assert (h1 : rowix ix z = 1%nat) by (unfold rowix; now rewrite h).
    assert (h2 : colix ix z = 0%nat) by (unfold colix; now rewrite h).
    rewrite h1, h2. cbn [nth Nat.ltb Nat.leb andb Nat.eqb]. unfold opF. destruct (offeq z T (rowix ix) (colix ix)), (sat z ctl (rowix ix)), (oneq T (rowix ix) (colix ix)); auto.
  - assert (h1 : rowix ix z = 1%nat) by (unfold rowix; now rewrite h).
    assert (h2 : colix ix z = 1%nat) by (unfold colix; now rewrite h).
    rewrite h1, h2. reflexivity.
  - assert (h1 : (2 <= rowix ix z)%nat).
    { unfold rowix. rewrite h. apply Nat.div_le_lower_bound; lia. }
    assert (h2 : (colix ix z < 2)%nat) by (unfold colix; apply Nat.mod_upper_bound; lia).
    replace (rowix ix z <? 2)%nat with false by (symmetry; apply Nat.ltb_ge; lia).
    replace (rowix ix z =? colix ix z)%nat with false by (symmetry; apply Nat.eqb_neq; lia).
    cbn [andb]. replace (nth (S (S (S (S i)))) _ (RtoC 0)) with (RtoC 0) by (destruct i; reflexivity).
    destruct (offeq z T (rowix ix) (colix ix)), (sat z ctl (rowix ix)); auto.
Qed.

Lemma sat_0 ctl r : (forall x, In x ctl -> 0 <= fst x) -> sat 0 ctl r = true.
Proof.
  intros H. unfold sat. apply forallb_forall. intros x Hx. replace (Z.of_nat 0 <=? fst x) with true; auto.
  symmetry. apply Z.leb_le. now apply H.
Qed.
Lemma dn_leaf B s w D ctl : (forall x, In x ctl -> 0 <= fst x) ->
  dn KM 0 (opF 0 [] (fun _ _ => w) D ctl) (egate 0 B) (termE w) s.
Proof.
  intros H. eapply (dnt_F tau); [|apply (dn_term 0 w s 0); lra]. intros ix. unfold opF. rewrite sat_0 by auto. cbn. ring.
Qed.

(* the operator of a one-qubit gate *)
Definition g1F (t : nat) (g : nat -> nat -> C) : (nat -> nat) -> (nat -> nat) -> C :=
  selG t (fun i j _ _ => g i j).

Theorem wpr_makeGate n t (g : nat -> nat -> C) ctl B s (Q : post tau) :
  Inv s -> Z.of_nat n <= NQUBITS -> (t < n)%nat -> csorted ctl ->
  (forall x, In x ctl -> 0 <= fst x) -> (forall x, In x ctl -> fst x <> Z.of_nat t) ->
  (1 <= B)%R -> (forall i j, Cmod (g i j) <= B)%R ->
  (forall e s', rel s s' -> dn KM n (opF n [t] (g1F t g) (RtoC 1) ctl) (egate n B) e s' -> Q e s') ->
  wpr tau (makeGate (Z.of_nat n) g (Z.of_nat t) ctl) Q s.
Proof.
  intros HI Hn Ht Hs H0 Hnt HB Hg HQ. unfold makeGate. rewrite Nat2Z.id.
  set (Gs := [(true, fun _ _ : nat -> nat => g 0%nat 0%nat); (false, fun _ _ => g 0%nat 1%nat);
              (false, fun _ _ => g 1%nat 0%nat); (true, fun _ _ => g 1%nat 1%nat)]).
  rewrite <- (from_0 ctl H0) at 1. change 0 with (Z.of_nat 0) at 1.
  refine (wpr_low_loop B [] ctl Gs Q Hs HB _ t 0 _ s _ HI _ _ _ _).
  - intros dg Hin. cbn in Hin. destruct Hin as [<-|[<-|[<-|[<-|[]]]]]; cbn; auto.
  - cbn. lia.
  - intros l [].
  - unfold Gs, blockF, Den. cbn [map fst snd].
    repeat (constructor; [split; [reflexivity|now apply dn_leaf]|]). constructor.
  - cbn [Nat.add]. intros es' s1 Hr1 HD. pose proof (rel_inv _ _ _ Hr1) as HI1.
    unfold Gs, blockF, Den in HD. cbn [map fst snd] in HD.
    inversion HD as [|e0 f0 l0 l0' [_ D0] HD0]; subst. inversion HD0 as [|e1 f1 l1 l1' [_ D1] HD1]; subst.
    inversion HD1 as [|e2 f2 l2 l2' [_ D2] HD2]; subst. inversion HD2 as [|e3 f3 l3 l3' [_ D3] HD3]; subst.
    inversion HD3; subst. cbn [eat nth snd] in *.
    apply (wpr_bind tau); auto.
    eapply (wpr_mk4 B t s1 _ _ _ _ _ _ _ _ _ HI1); [lia|lra|exact D0|exact D1|exact D2|exact D3|..].
    + intros ix; opb.
    + intros ix; opb.
    + intros ix; opb.
    + intros ix; opb.
    + intros e s2 Hr2 De. pose proof (rel_inv _ _ _ Hr2) as HI2.
      rewrite (from_none t ctl Hs Hnt). replace (Z.of_nat t + 1) with (Z.of_nat (S t)) by lia.
      replace (Z.to_nat (Z.of_nat n - Z.of_nat (S t))) with (n - S t)%nat by lia.
      refine (wpr_high_loop B [t] ctl (g1F t g) Q Hs HB _ _ _ _ _ HI2 _ _ _ _).
      * intros r c. unfold g1F, selG. destruct (_ && _)%bool; auto. rewrite Cmod_0. lra.
      * lia.
      * intros l [<-|[]]. lia.
      * eapply (dnt_F tau); [|exact De]. intros ix. cbn [flagC].
        apply (join_opF t [] (fun i j _ _ => g i j) (RtoC 1) ctl ix Hs). now apply ctl_at_none.
      * intros e' s3 Hr3 De'. replace (S t + (n - S t))%nat with n in De' by lia. apply HQ; auto.
        eapply rel_trans; [eapply rel_trans; eauto|auto].
Qed.

(* the operator of a two-qubit gate: [hi] is the qubit of the more significant index bit *)
Definition g2F (lo hi : nat) (g : nat -> nat -> C) : (nat -> nat) -> (nat -> nat) -> C :=
  fun r c => if (Nat.ltb (r lo) 2 && Nat.ltb (c lo) 2 && Nat.ltb (r hi) 2 && Nat.ltb (c hi) 2)%bool
             then g (2 * r hi + r lo)%nat (2 * c hi + c lo)%nat else RtoC 0.
Lemma Den_nth z B s es fs i d F : Den z B s es fs -> nth_error fs i = Some (d, F) ->
  dn KM z F (egate z B) (eat es i) s.
Proof.
  intros H. revert i. unfold eat. induction H as [|de df es fs [h1 h2] H IH]; intros i Hi.
  - destruct i; discriminate.
  - destruct i; cbn [nth nth_error] in *.
    + injection Hi as ->. exact h2.
    + now apply IH.
Qed.
Definition G16 (g : nat -> nat -> C) : list (bool * ((nat -> nat) -> (nat -> nat) -> C)) :=
  map (fun ij => (Nat.eqb (fst ij) (snd ij), fun _ _ : nat -> nat => g (fst ij) (snd ij))) idx16.
Lemma G16_nth g a b : (a < 4)%nat -> (b < 4)%nat -> nth_error (G16 g) (4 * a + b) = Some (Nat.eqb a b, fun _ _ => g a b).
Proof.
  intros Ha Hb. destruct a as [|[|[|[|a]]]]; [..|lia]; destruct b as [|[|[|[|b]]]]; (lia || reflexivity).
Qed.

Theorem wpr_makeTwoQubitGate n t0 t1 (g : nat -> nat -> C) ctl B s (Q : post tau) :
  Inv s -> Z.of_nat n <= NQUBITS -> (t0 < n)%nat -> (t1 < n)%nat -> t0 <> t1 -> csorted ctl ->
  (forall x, In x ctl -> 0 <= fst x) ->
  (forall x, In x ctl -> fst x <> Z.of_nat t0) -> (forall x, In x ctl -> fst x <> Z.of_nat t1) ->
  (1 <= B)%R -> (forall i j, Cmod (g i j) <= B)%R ->
  (forall e s', rel s s' -> dn KM n (opF n [Nat.max t0 t1; Nat.min t0 t1] (g2F t1 t0 g) (RtoC 1) ctl) (egate n B) e s' -> Q e s') ->
  wpr tau (makeTwoQubitGate (Z.of_nat n) g (Z.of_nat t0) (Z.of_nat t1) ctl) Q s.
Proof.
  intros HI Hn Ht0 Ht1 Hne Hs H0 Hnt0 Hnt1 HB Hg HQ. unfold makeTwoQubitGate.
  rewrite <- Nat2Z.inj_min, <- Nat2Z.inj_max. rewrite Nat2Z.id.
  set (lo := Nat.min t0 t1) in *. set (hi := Nat.max t0 t1) in *.
  assert (Hlh : (lo < hi)%nat) by lia. assert (Hhn : (hi < n)%nat) by lia.
  assert (Hnlo : forall x, In x ctl -> fst x <> Z.of_nat lo).
  { intros x Hx. destruct (Nat.min_spec t0 t1) as [[_ h]|[_ h]]; unfold lo; rewrite h; auto. }
  assert (Hnhi : forall x, In x ctl -> fst x <> Z.of_nat hi).
  { intros x Hx. destruct (Nat.max_spec t0 t1) as [[_ h]|[_ h]]; unfold hi; rewrite h; auto. }
  rewrite <- (from_0 ctl H0) at 1. change 0 with (Z.of_nat 0) at 1.
  refine (wpr_low_loop B [] ctl (G16 g) Q Hs HB _ lo 0 _ s _ HI _ _ _ _).
  - intros dg Hin. unfold G16 in Hin. apply in_map_iff in Hin as (ij & <- & _). intros; cbn; auto.
  - cbn. lia.
  - intros l [].
  - unfold G16, blockF, Den. rewrite map_map. clear - H0. induction idx16 as [|ij l IH]; cbn [map]; constructor; auto.
    cbn [fst snd]. split; auto. now apply dn_leaf.
  - cbn [Nat.add]. intros es s1 Hr1 HD. pose proof (rel_inv _ _ _ Hr1) as HI1.
    assert (Hpk : forall a b, (a < 4)%nat -> (b < 4)%nat ->
      dn KM lo (opF lo [] (fun _ _ => g a b) (flagC (Nat.eqb a b)) ctl) (egate lo B) (eat es (4 * a + b)) s1).
    { intros a b Ha Hb. eapply (Den_nth lo B s1 es _ (4 * a + b) (Nat.eqb a b)); [exact HD|].
      unfold blockF. rewrite nth_error_map, (G16_nth g a b) by auto. reflexivity. }
    (* the entry picked for block (b1,b0), position (i,j) *)
    set (pos := fun (b i : nat) => if Z.of_nat t1 <? Z.of_nat t0 then (b * 2 + i)%nat else (i * 2 + b)%nat).
    assert (Hpos : forall b i, (b < 2)%nat -> (i < 2)%nat -> (pos b i < 4)%nat) by (intros; unfold pos; destruct (_ <? _); lia).
    assert (Hpe : forall b1 b0 i j, (b1 < 2)%nat -> (b0 < 2)%nat -> (i < 2)%nat -> (j < 2)%nat ->
       Nat.eqb (pos b1 i) (pos b0 j) = (Nat.eqb b1 b0 && Nat.eqb i j)%bool).
    { intros. unfold pos. apply eq_true_iff_eq. rewrite andb_true_iff, !Nat.eqb_eq. destruct (_ <? _); lia. }
    set (pick := fun b1 b0 i j : nat => if Z.of_nat t1 <? Z.of_nat t0
      then eat es (4 * (b1 * 2 + i) + (b0 * 2 + j)) else eat es (4 * (i * 2 + b1) + (j * 2 + b0))).
    set (GG := fun b1 b0 : nat => selG lo (fun i j _ _ => g (pos b1 i) (pos b0 j))).
    assert (HGG : forall b1 b0 r c, (Cmod (GG b1 b0 r c) <= B)%R).
    { intros. unfold GG, selG. destruct (_ && _)%bool; auto. rewrite Cmod_0. lra. }
    assert (Hsub : forall b1 b0 s2 (Q' : post tau), (b1 < 2)%nat -> (b0 < 2)%nat -> rel s1 s2 ->
      (forall e s3, rel s2 s3 -> dn KM (S lo) (opF (S lo) [lo] (GG b1 b0) (flagC (Nat.eqb b1 b0)) ctl) (egate (S lo) B) e s3 -> Q' e s3) ->
      wpr tau (makeMEdge (Z.of_nat lo) (pick b1 b0 0%nat 0%nat) (pick b1 b0 0%nat 1%nat) (pick b1 b0 1%nat 0%nat) (pick b1 b0 1%nat 1%nat)) Q' s2).
    { intros b1 b0 s2 Q' Hb1 Hb0 Hr2 HQ'. pose proof (rel_inv _ _ _ Hr2) as HI2.
      assert (Hp : forall i j, (i < 2)%nat -> (j < 2)%nat ->
        dn KM lo (opF lo [] (fun _ _ => g (pos b1 i) (pos b0 j)) (flagC (Nat.eqb b1 b0 && Nat.eqb i j)) ctl) (egate lo B) (pick b1 b0 i j) s2).
      { intros i j Hi Hj. apply (dn_stable tau _ _ _ _ _ _ _ HI1 Hr2). rewrite <- Hpe by auto.
        replace (pick b1 b0 i j) with (eat es (4 * pos b1 i + pos b0 j)); [apply Hpk; auto|].
        unfold pick, pos. now destruct (_ <? _). }
      eapply (wpr_mk4 B lo s2 _ _ _ _ _ _ _ _ _ HI2);
        [lia|lra|apply Hp; lia|apply Hp; lia|apply Hp; lia|apply Hp; lia|..].
      - intros ix; opb.
      - intros ix; opb.
      - intros ix; opb.
      - intros ix; opb.
      - intros e s3 Hr3 De. apply HQ'; auto. eapply (dnt_F tau); [|exact De]. intros ix.
        cbn [Nat.eqb]. rewrite andb_true_r, andb_false_r.
        apply (join_opF lo [] (fun i j _ _ => g (pos b1 i) (pos b0 j)) _ ctl ix Hs). now apply ctl_at_none. }
    apply (wpr_bind tau); auto. apply (Hsub 0%nat 0%nat); [lia|lia|now apply rel_refl|]. intros e0 s2 Hr2 D0.
    apply (wpr_bind tau); [apply (rel_inv _ _ _ Hr2)|].
    apply (Hsub 0%nat 1%nat); [lia|lia|auto|]. intros e1 s3 Hr3 D1.
    assert (Hr13 : rel s1 s3) by (eapply rel_trans; eauto).
    apply (wpr_bind tau); [apply (rel_inv _ _ _ Hr3)|].
    apply (Hsub 1%nat 0%nat); [lia|lia|auto|]. intros e2 s4 Hr4 D2.
    assert (Hr14 : rel s1 s4) by (eapply rel_trans; eauto).
    apply (wpr_bind tau); [apply (rel_inv _ _ _ Hr4)|].
    apply (Hsub 1%nat 1%nat); [lia|lia|auto|]. intros e3 s5 Hr5 D3.
    assert (Hr15 : rel s1 s5) by (eapply rel_trans; eauto).
    pose proof (rel_inv _ _ _ Hr2) as HI2. pose proof (rel_inv _ _ _ Hr3) as HI3.
    pose proof (rel_inv _ _ _ Hr4) as HI4. pose proof (rel_inv _ _ _ Hr5) as HI5.
    pose proof (dn_stable tau _ _ _ _ _ _ _ HI4 Hr5 D2) as D2'.
    pose proof (dn_stable tau _ _ _ _ _ _ _ HI4 Hr5 (dn_stable tau _ _ _ _ _ _ _ HI3 Hr4 D1)) as D1'.
    pose proof (dn_stable tau _ _ _ _ _ _ _ HI4 Hr5 (dn_stable tau _ _ _ _ _ _ _ HI3 Hr4 (dn_stable tau _ _ _ _ _ _ _ HI2 Hr3 D0))) as D0'.
    rewrite (from_none lo ctl Hs Hnlo). replace (Z.of_nat lo + 1) with (Z.of_nat (S lo)) by lia.
    replace (Z.to_nat (Z.of_nat hi - Z.of_nat (S lo))) with (hi - S lo)%nat by lia.
    set (G4 := [(true, GG 0%nat 0%nat); (false, GG 0%nat 1%nat); (false, GG 1%nat 0%nat); (true, GG 1%nat 1%nat)]).
    refine (wpr_low_loop B [lo] ctl G4 Q Hs HB _ (hi - S lo) (S lo) _ s5 _ HI5 _ _ _ _).
    + intros dg Hin. cbn in Hin. destruct Hin as [<-|[<-|[<-|[<-|[]]]]]; cbn [snd]; auto.
    + lia.
    + intros l [<-|[]]. lia.
    + unfold G4, blockF, Den. cbn [map fst snd].
      constructor; [split; [reflexivity|exact D0']|]. constructor; [split; [reflexivity|exact D1']|].
      constructor; [split; [reflexivity|exact D2']|]. constructor; [split; [reflexivity|exact D3]|]. constructor.
    + replace (S lo + (hi - S lo))%nat with hi by lia. intros es2 s6 Hr6 HD2. pose proof (rel_inv _ _ _ Hr6) as HI6.
      apply (wpr_bind tau); auto.
      eapply (wpr_mk4 B hi s6 _ _ _ _ _ _ _ _ _ HI6); [lia|lra| | | | |..].
      1:{ eapply (Den_nth _ _ _ _ _ 0%nat _ _ HD2). reflexivity. }
      1:{ eapply (Den_nth _ _ _ _ _ 1%nat _ _ HD2). reflexivity. }
      1:{ eapply (Den_nth _ _ _ _ _ 2%nat _ _ HD2). reflexivity. }
      1:{ eapply (Den_nth _ _ _ _ _ 3%nat _ _ HD2). reflexivity. }
      1:{ intros ix; opb. }
      1:{ intros ix; opb. }
      1:{ intros ix; opb. }
      1:{ intros ix; opb. }
      intros e s7 Hr7 De. pose proof (rel_inv _ _ _ Hr7) as HI7.
      rewrite (from_none hi ctl Hs Hnhi). replace (Z.of_nat hi + 1) with (Z.of_nat (S hi)) by lia.
      replace (Z.to_nat (Z.of_nat n - Z.of_nat (S hi))) with (n - S hi)%nat by lia.
      assert (Hsel : forall r c, selG hi GG r c = g2F t1 t0 g r c).
      { intros r c. unfold selG, GG, selG, g2F, pos. unfold hi, lo. destruct (Z.ltb_spec (Z.of_nat t1) (Z.of_nat t0)).
        - rewrite Nat.max_l, Nat.min_r by lia.
          destruct (r t0 <? 2)%nat, (c t0 <? 2)%nat, (r t1 <? 2)%nat, (c t1 <? 2)%nat; cbn [andb]; auto.
          f_equal; lia.
        - rewrite Nat.max_r, Nat.min_l by lia.
          destruct (r t0 <? 2)%nat, (c t0 <? 2)%nat, (r t1 <? 2)%nat, (c t1 <? 2)%nat; cbn [andb]; auto.
          f_equal; lia. }
      refine (wpr_high_loop B [hi; lo] ctl (g2F t1 t0 g) Q Hs HB _ _ _ _ _ HI7 _ _ _ _).
      * intros r c. unfold g2F. destruct (_ && _)%bool; auto. rewrite Cmod_0. lra.
      * lia.
      * intros l [<-|[<-|[]]]; lia.
      * eapply (dnt_F tau); [|exact De]. intros ix. cbn [flagC].
        etransitivity; [exact (join_opF hi [lo] GG (RtoC 1) ctl ix Hs (proj2 (ctl_at_none _ _) Hnhi))|].
        unfold opF. now rewrite Hsel.
      * intros e' s8 Hr8 De'. replace (S hi + (n - S hi))%nat with n in De' by lia. apply HQ; auto.
        repeat (eapply rel_trans; [eassumption|]). now apply rel_refl, (rel_inv _ _ _ Hr8).
Qed.
End GateP.

(* ---- the std::set of controls ------------------------------------------------ *)
Lemma ctl_ltb_fst a b : fst a <> fst b -> ctl_ltb a b = (fst a <? fst b).
Proof. intros H. unfold ctl_ltb. apply Z.eqb_neq in H. rewrite H. cbn. now rewrite orb_false_r. Qed.
Lemma cinsert_in c l x : (forall y, In y l -> fst y <> fst c) -> (In x (cinsert c l) <-> x = c \/ In x l).
Proof.
  induction l as [|d r IH]; intros Hd; cbn; [firstorder|].
  assert (Hdc : fst d <> fst c) by (apply Hd; now left).
  rewrite (ctl_ltb_fst c d), (ctl_ltb_fst d c) by auto.
  destruct (Z.ltb_spec (fst c) (fst d)); [cbn; firstorder|]. destruct (Z.ltb_spec (fst d) (fst c)); [|lia].
  cbn. rewrite IH; [firstorder|]. intros y Hy. apply Hd. now right.
Qed.
Lemma cinsert_sorted c l : csorted l -> (forall y, In y l -> fst y <> fst c) -> csorted (cinsert c l).
Proof.
  induction 1 as [|d r Hs IH Hf]; intros Hd; cbn; [repeat constructor|].
  assert (Hdc : fst d <> fst c) by (apply Hd; now left).
  assert (Hr : forall y, In y r -> fst y <> fst c) by (intros; apply Hd; now right).
  rewrite Forall_forall in Hf.
  rewrite (ctl_ltb_fst c d), (ctl_ltb_fst d c) by auto.
  destruct (Z.ltb_spec (fst c) (fst d)).
  - constructor; [constructor; auto; now apply Forall_forall|]. constructor; auto.
    apply Forall_forall. intros y Hy. specialize (Hf y Hy). lia.
  - destruct (Z.ltb_spec (fst d) (fst c)); [|lia]. constructor; [now apply IH|].
    apply Forall_forall. intros y Hy. apply cinsert_in in Hy; auto. destruct Hy as [->|Hy]; auto.
Qed.
Lemma mkControls_spec l : NoDup (map fst l) -> csorted (mkControls l) /\ forall x, In x (mkControls l) <-> In x l.
Proof.
  unfold mkControls. intros Hl.
  assert (H : forall l acc, csorted acc -> NoDup (map fst l) -> (forall x y, In x acc -> In y l -> fst x <> fst y) ->
     csorted (fold_left (fun s c => cinsert c s) l acc) /\
     forall x, In x (fold_left (fun s c => cinsert c s) l acc) <-> In x acc \/ In x l).
  { clear. induction l as [|c l IH]; intros acc Ha Hl Hd; cbn; [split; auto; intros; tauto|].
    inversion Hl as [|? ? Hn Hl']; subst.
    assert (Hac : forall y, In y acc -> fst y <> fst c) by (intros; apply Hd; auto; now left).
    destruct (IH (cinsert c acc)) as [H1 H2]; auto using cinsert_sorted.
    - intros x y Hx Hy. apply cinsert_in in Hx; auto. destruct Hx as [->|Hx].
      + intros He. apply Hn. rewrite He. now apply in_map.
      + apply Hd; auto. now right.
    - split; auto. intros x. rewrite H2, cinsert_in by auto. split; [intros [[->|h]|h]|intros [h|[->|h]]]; auto. }
  destruct (H l [] (SSorted_nil _) Hl) as [H1 H2]; [intros x y []|]. split; auto. intros x. rewrite H2. cbn. tauto.
Qed.
Lemma sat_In z l l' r : (forall x, In x l <-> In x l') -> sat z l r = sat z l' r.
Proof.
  intros H. unfold sat. apply eq_true_iff_eq. rewrite !forallb_forall. split; intros h x Hx; apply h; now apply H.
Qed.
