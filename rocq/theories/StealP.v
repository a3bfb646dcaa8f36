(* StealP.v -- C72: fibers on the threads of a Scheduler (Steal.v).
   Main results: C72_once, C72_pinned, C72_safe, C72_returns, C72_chance, C72_takes,
   C72_order; limits: C72_behind, C72_alone; example C72_example. *)
From Coq Require Import Arith Bool List Lia Permutation.
From Verif Require Import Steal.
Import ListNotations.

Arguments fiber_dec : simpl never.
Definition cnt (f : fiber) (l : list fiber) : nat := count_occ fiber_dec l f.
Definition held (r : tst) : list fiber :=
  match r with Runs f => [f] | Probes (Some f) _ => [f] | Probes None _ => [] end.

Arguments cnt : simpl never.
Arguments everyone : simpl never.
Lemma cnt_app f a b : cnt f (a ++ b) = cnt f a + cnt f b.
Proof. apply count_occ_app. Qed.
Lemma cnt_cons f g l : cnt f (g :: l) = cnt f [g] + cnt f l.
Proof. change (g :: l) with ([g] ++ l). apply cnt_app. Qed.
Lemma cnt_one f g : cnt f [g] = if fiber_dec g f then 1 else 0.
Proof. unfold cnt. simpl. destruct (fiber_dec g f); reflexivity. Qed.
Lemma cnt_in f l : In f l <-> 0 < cnt f l.
Proof. apply count_occ_In. Qed.
Lemma setnth_len {A} i (x : A) l : length (setnth i x l) = length l.
Proof. revert i. induction l as [|y l IH]; intros [|i]; simpl; auto. Qed.
Lemma setnth_same {A} i (x : A) l : i < length l -> nth_error (setnth i x l) i = Some x.
Proof. revert i. induction l as [|y l IH]; intros [|i] Hi; simpl in *; try lia; auto. apply IH. lia. Qed.
Lemma setnth_other {A} i j (x : A) l : i <> j -> nth_error (setnth i x l) j = nth_error l j.
Proof. revert i j. induction l as [|y l IH]; intros [|i] [|j] Hij; simpl; try reflexivity; try congruence. apply IH. congruence. Qed.
Lemma cnt_concat f i x y l : nth_error l i = Some y -> cnt f (concat (setnth i x l)) + cnt f y = cnt f (concat l) + cnt f x.
Proof.
  revert i. induction l as [|z l IH]; intros [|i] Hi; simpl in *; try discriminate.
  - injection Hi as ->. rewrite !cnt_app. lia.
  - specialize (IH i Hi). rewrite !cnt_app. lia.
Qed.
Lemma cnt_held f i x y l : nth_error l i = Some y -> cnt f (flat_map held (setnth i x l)) + cnt f (held y) = cnt f (flat_map held l) + cnt f (held x).
Proof.
  revert i. induction l as [|z l IH]; intros [|i] Hi; simpl in *; try discriminate.
  - injection Hi as ->. rewrite !cnt_app. lia.
  - specialize (IH i Hi). rewrite !cnt_app. lia.
Qed.
Lemma everyone_eq s : everyone s = concat (qs s) ++ flat_map held (ru s) ++ blocked s ++ ended s.
Proof. reflexivity. Qed.
Lemma cnt_everyone f s : cnt f (everyone s) = cnt f (concat (qs s)) + cnt f (flat_map held (ru s)) + cnt f (blocked s) + cnt f (ended s).
Proof. rewrite everyone_eq, !cnt_app. lia. Qed.
Lemma nth_len {A} (l : list A) i x : nth_error l i = Some x -> i < length l.
Proof. intro Hi. apply nth_error_Some. congruence. Qed.
Lemma len_nth {A} (l : list A) i : i < length l -> exists x, nth_error l i = Some x.
Proof. intro Hi. destruct (nth_error l i) eqn:Hx; [eauto|]. apply nth_error_None in Hx. lia. Qed.
Lemma in_concat_nth {A} (l : list (list A)) i q x : nth_error l i = Some q -> In x q -> In x (concat l).
Proof. intros Hi Hx. apply in_concat. exists q. split; auto. eapply nth_error_In; eauto. Qed.

(* the invariant, for the threads in P *)
Record K (n : nat) (P : nat -> Prop) (s : st) : Prop := {
  k_q : length (qs s) = n;
  k_r : length (ru s) = n;
  k_range : forall f t, home s f = Some t -> t < n;
  k_pin : forall t, t < n -> home s (Main t) = Some t /\ home s (Disp t) = Some t;
  k_pin2 : forall f i, home s f = Some i -> match f with Main t | Disp t => t = i | Fib _ => True end;
  k_in : forall t q f, nth_error (qs s) t = Some q -> In f q -> home s f = if pinned f then Some t else None;
  k_held : forall t r f, P t -> nth_error (ru s) t = Some r -> In f (held r) -> home s f = Some t;
  k_disp : forall t q r, P t -> nth_error (qs s) t = Some q -> nth_error (ru s) t = Some r -> In (Disp t) q \/ In (Disp t) (held r);
  k_prob : forall t who k, P t -> nth_error (ru s) t = Some (Probes who k) -> who = Some (Disp t)
}.
Definition all : nat -> Prop := fun _ => True.
Definition but (t : nat) : nat -> Prop := fun i => i <> t.
Lemma K_weak n (P Q : nat -> Prop) s : K n P s -> (forall t, Q t -> P t) -> K n Q s.
Proof. intros [] HPQ. constructor; eauto. Qed.

Ltac dec := repeat match goal with |- context [fiber_dec ?a ?b] => destruct (fiber_dec a b) | H : context [fiber_dec ?a ?b] |- _ => destruct (fiber_dec a b) end.

(* awakened by thread t on a fiber attached to t that is nowhere else *)
Lemma awakened_ok n P t f s :
  K n P s -> home s f = Some t -> (forall t' r, P t' -> nth_error (ru s) t' = Some r -> ~ In f (held r)) ->
  exists s' q, awakened t f s = Ok s' /\ K n P s' /\ nth_error (qs s) t = Some q /\ qs s' = setnth t (q ++ [f]) (qs s)
    /\ ru s' = ru s /\ blocked s' = blocked s /\ ended s' = ended s.
Proof.
  intros HK Hf Hno.
  assert (Ht : t < n) by (eapply k_range; eauto).
  destruct (len_nth (qs s) t) as [q Hq]. { rewrite (k_q _ _ _ HK). exact Ht. }
  unfold awakened. rewrite Hq.
  destruct (pinned f) eqn:Hp.
  - eexists _, q. split; [reflexivity|]. split; [|repeat split].
    constructor; simpl; try (apply HK); auto.
    + rewrite setnth_len. exact (k_q _ _ _ HK).
    + intros t' q' g Hq' Hg. destruct (Nat.eq_dec t t') as [<-|Hne].
      * rewrite setnth_same in Hq' by (rewrite (k_q _ _ _ HK); exact Ht). injection Hq' as <-.
        apply in_app_or in Hg as [Hg|[<-|[]]]; [eapply k_in; eauto|]. rewrite Hp. exact Hf.
      * rewrite setnth_other in Hq' by exact Hne. eapply k_in; eauto.
    + intros t' q' r HP Hq' Hr. destruct (Nat.eq_dec t t') as [<-|Hne].
      * rewrite setnth_same in Hq' by (rewrite (k_q _ _ _ HK); exact Ht). injection Hq' as <-.
        destruct (k_disp _ _ _ HK t q r HP Hq Hr); [left; apply in_or_app; auto|auto].
      * rewrite setnth_other in Hq' by exact Hne. eapply k_disp; eauto.
  - rewrite Hf. eexists _, q. split; [reflexivity|]. split; [|repeat split].
    constructor; simpl; try (apply HK); auto.
    + rewrite setnth_len. exact (k_q _ _ _ HK).
    + intros g i. dec; [discriminate|]. apply HK.
    + intros i Hi. destruct (k_pin _ _ _ HK i Hi). split; dec; subst; try discriminate Hp; auto.
    + intros g i. dec; [discriminate|]. apply HK.
    + intros t' q' g Hq' Hg. destruct (fiber_dec g f) as [->|Hgf]; [rewrite Hp; reflexivity|].
      destruct (Nat.eq_dec t t') as [<-|Hne].
      * rewrite setnth_same in Hq' by (rewrite (k_q _ _ _ HK); exact Ht). injection Hq' as <-.
        apply in_app_or in Hg as [Hg|[<-|[]]]; [eapply k_in; eauto|congruence].
      * rewrite setnth_other in Hq' by exact Hne. eapply k_in; eauto.
    + intros t' r g HP Hr Hg. destruct (fiber_dec g f) as [->|Hgf]; [exfalso; eapply Hno; eauto|]. eapply k_held; eauto.
    + intros t' q' r HP Hq' Hr. destruct (Nat.eq_dec t t') as [<-|Hne].
      * rewrite setnth_same in Hq' by (rewrite (k_q _ _ _ HK); exact Ht). injection Hq' as <-.
        destruct (k_disp _ _ _ HK t q r HP Hq Hr); [left; apply in_or_app; auto|auto].
      * rewrite setnth_other in Hq' by exact Hne. eapply k_disp; eauto.
Qed.

Definition olist (who : option fiber) : list fiber := match who with Some f => [f] | None => [] end.

(* v has just been popped or stolen: it is in no queue *)
Lemma take_ok n t who v r0 s :
  K n (but t) s -> nth_error (ru s) t = Some r0 -> ~ In v (concat (qs s)) ->
  home s v = (if pinned v then Some t else None) ->
  (forall f, who = Some f -> home s f = Some t /\ f <> v) ->
  (forall q, nth_error (qs s) t = Some q -> In (Disp t) q \/ v = Disp t \/ who = Some (Disp t)) ->
  exists s', take t who v s = Ok s' /\ K n all s' /\
    (forall f, cnt f (everyone s') + cnt f (held r0) = cnt f (everyone s) + cnt f [v] + cnt f (olist who)) /\
    nth_error (ru s') t = Some (Runs v).
Proof.
  intros HK Hr Hv Hhv Hwho Hd.
  assert (Ht : t < n) by (rewrite <- (k_r _ _ _ HK); eapply nth_len; eauto).
  set (s1 := if pinned v then s else set_home v (Some t) s).
  assert (Hs1 : (if pinned v then Some s else match home s v with None => Some (set_home v (Some t) s) | Some _ => None end) = Some s1).
  { unfold s1. destruct (pinned v); [reflexivity|]. rewrite Hhv. reflexivity. }
  assert (HK1 : K n (but t) s1).
  { unfold s1. destruct (pinned v) eqn:Hp; [exact HK|].
    constructor; simpl; try (apply HK).
    - intros f i. dec; [congruence|]. apply HK.
    - intros i Hi. destruct (k_pin _ _ _ HK i Hi). split; dec; subst; try discriminate Hp; auto.
    - intros f i. dec; [subst; destruct v; auto; discriminate|]. apply HK.
    - intros t' q f Hq Hf. destruct (fiber_dec f v) as [->|]; [exfalso; apply Hv; eapply in_concat_nth; eauto|]. eapply k_in; eauto.
    - intros t' r f HP Hr' Hf. destruct (fiber_dec f v) as [->|]; [|eapply k_held; eauto].
      pose proof (k_held _ _ _ HK t' r v HP Hr' Hf). congruence. }
  assert (Hh1 : home s1 v = Some t).
  { unfold s1. destruct (pinned v) eqn:Hp; [exact Hhv|]. simpl. dec; congruence. }
  assert (Hf1 : qs s1 = qs s /\ ru s1 = ru s /\ blocked s1 = blocked s /\ ended s1 = ended s).
  { unfold s1. destruct (pinned v); repeat split. }
  destruct Hf1 as (Fq & Fr & Fb & Fe).
  unfold take. rewrite Hs1. clear Hs1.
  set (s2 := set_r t (Runs v) s1).
  assert (HK2 : forall P : nat -> Prop, (forall i, P i -> i <> t) -> K n P s2).
  { intros P HP. constructor; simpl; try (apply HK1).
    - rewrite setnth_len. exact (k_r _ _ _ HK1).
    - intros t' r f Pt Hr'. rewrite setnth_other in Hr' by (intro; eapply HP; eauto). eapply (k_held _ _ _ HK1); eauto. apply HP; auto.
    - intros t' q r Pt Hq' Hr'. rewrite setnth_other in Hr' by (intro; eapply HP; eauto). eapply (k_disp _ _ _ HK1); eauto. apply HP; auto.
    - intros t' w k Pt Hr'. rewrite setnth_other in Hr' by (intro; eapply HP; eauto). eapply (k_prob _ _ _ HK1); eauto. apply HP; auto. }
  assert (Hr2 : nth_error (ru s2) t = Some (Runs v)).
  { simpl. apply setnth_same. rewrite Fr, (k_r _ _ _ HK). exact Ht. }
  assert (Hcnt2 : forall f, cnt f (everyone s2) + cnt f (held r0) = cnt f (everyone s) + cnt f [v]).
  { intro f. rewrite !cnt_everyone. simpl. rewrite Fq, Fr, Fb, Fe. pose proof (cnt_held f t (Runs v) r0 (ru s) Hr) as H1. simpl held in H1. lia. }
  assert (Hfull : forall q', (forall q, nth_error (qs s2) t = Some q -> q = q') -> (In (Disp t) q' \/ v = Disp t) -> K n all s2).
  { intros q' Hq' Hd'. pose proof (HK2 (but t) (fun i h => h)) as HKb. constructor; try (apply HKb).
    - intros t' r f _ Hr' Hf. destruct (Nat.eq_dec t' t) as [->|Hne]; [|eapply (k_held _ _ _ HKb); eauto].
      rewrite Hr2 in Hr'. injection Hr' as <-. destruct Hf as [<-|[]]. exact Hh1.
    - intros t' q r _ Hq Hr'. destruct (Nat.eq_dec t' t) as [->|Hne]; [|eapply (k_disp _ _ _ HKb); eauto].
      rewrite Hr2 in Hr'. injection Hr' as <-. rewrite (Hq' _ Hq). destruct Hd' as [|Hd']; [left; auto|right; left; auto].
    - intros t' w k _ Hr'. destruct (Nat.eq_dec t' t) as [->|Hne]; [|eapply (k_prob _ _ _ HKb); eauto].
      rewrite Hr2 in Hr'. discriminate. }
  destruct who as [f|].
  - destruct (Hwho f eq_refl) as [Hhf Hfv].
    assert (Hh2 : home s2 f = Some t).
    { simpl. unfold s1. destruct (pinned v); [exact Hhf|]. simpl. dec; congruence. }
    assert (HKx : K n (but t) s2) by (apply HK2; auto).
    destruct (awakened_ok n (but t) t f s2 HKx Hh2) as (s' & q & He & HK' & Hq & Fq' & Fr' & Fb' & Fe').
    { intros t' r Pt Hr' Hin. pose proof (k_held _ _ _ HKx t' r f Pt Hr' Hin) as Hx. rewrite Hh2 in Hx. injection Hx as ->. exact (Pt eq_refl). }
    exists s'. split; [exact He|]. split; [|split].
    + assert (Hr3 : nth_error (ru s') t = Some (Runs v)) by (rewrite Fr'; exact Hr2).
      assert (Hh3 : home s' v = Some t).
      { unfold awakened in He. rewrite Hq in He. assert (Hv2 : home s2 v = Some t) by exact Hh1.
        destruct (pinned f); [injection He as <-; exact Hv2|]. rewrite Hh2 in He. injection He as <-. simpl. simpl in Hv2. dec; congruence. }
      constructor; try (apply HK').
      * intros t' r g _ Hr' Hg. destruct (Nat.eq_dec t' t) as [->|Hne]; [|eapply (k_held _ _ _ HK'); eauto].
        rewrite Hr3 in Hr'. injection Hr' as <-. destruct Hg as [<-|[]]. exact Hh3.
      * intros t' q' r _ Hq' Hr'. destruct (Nat.eq_dec t' t) as [->|Hne]; [|eapply (k_disp _ _ _ HK'); eauto].
        rewrite Hr3 in Hr'. injection Hr' as <-. rewrite Fq' in Hq'.
        rewrite setnth_same in Hq' by (eapply nth_len; eauto). injection Hq' as <-.
        change (qs s2) with (qs s1) in Hq. rewrite Fq in Hq.
        destruct (Hd q Hq) as [Hx|[Hx|Hx]].
        -- left. apply in_or_app. auto.
        -- right. left. exact Hx.
        -- injection Hx as ->. left. apply in_or_app. right. left. reflexivity.
      * intros t' w k _ Hr'. destruct (Nat.eq_dec t' t) as [->|Hne]; [|eapply (k_prob _ _ _ HK'); eauto].
        rewrite Hr3 in Hr'. discriminate.
    + intro g. specialize (Hcnt2 g). rewrite cnt_everyone in *. rewrite Fq', Fr', Fb', Fe'.
      pose proof (cnt_concat g t (q ++ [f]) q (qs s2) Hq) as H1. rewrite cnt_app in H1. simpl olist. rewrite cnt_everyone in Hcnt2. rewrite cnt_everyone. lia.
    + rewrite Fr'. exact Hr2.
  - exists s2. split; [reflexivity|]. split; [|split].
    + destruct (len_nth (qs s) t) as [q Hq]. { rewrite (k_q _ _ _ HK). exact Ht. }
      apply (Hfull q).
      * intros q' Hq'. change (qs s2) with (qs s1) in Hq'. rewrite Fq in Hq'. congruence.
      * destruct (Hd q Hq) as [Hx|[Hx|Hx]]; auto. discriminate.
    + intro g. specialize (Hcnt2 g). simpl olist. unfold cnt at 5. simpl. lia.
    + exact Hr2.
Qed.

(* thread t runs r, whose fibers are attached to t *)
Lemma set_r_ok n t r s : K n (but t) s -> t < n -> (forall f, In f (held r) -> home s f = Some t) ->
  (forall q, nth_error (qs s) t = Some q -> In (Disp t) q \/ In (Disp t) (held r)) ->
  (forall who k, r = Probes who k -> who = Some (Disp t)) -> K n all (set_r t r s).
Proof.
  intros HK Ht Hh Hd Hp. constructor; simpl; try (apply HK).
  - rewrite setnth_len. exact (k_r _ _ _ HK).
  - intros t' r' f _ Hr Hf. destruct (Nat.eq_dec t' t) as [->|Hne].
    + rewrite setnth_same in Hr by (rewrite (k_r _ _ _ HK); exact Ht). injection Hr as <-. auto.
    + rewrite setnth_other in Hr by auto. eapply (k_held _ _ _ HK); eauto.
  - intros t' q r' _ Hq Hr. destruct (Nat.eq_dec t' t) as [->|Hne].
    + rewrite setnth_same in Hr by (rewrite (k_r _ _ _ HK); exact Ht). injection Hr as <-. auto.
    + rewrite setnth_other in Hr by auto. eapply (k_disp _ _ _ HK); eauto.
  - intros t' w k _ Hr. destruct (Nat.eq_dec t' t) as [->|Hne].
    + rewrite setnth_same in Hr by (rewrite (k_r _ _ _ HK); exact Ht). injection Hr as ->. eauto.
    + rewrite setnth_other in Hr by auto. eapply (k_prob _ _ _ HK); eauto.
Qed.

Lemma pop_K n P d v q s : K n P s -> nth_error (qs s) d = Some (v :: q) ->
  (P d -> v <> Disp d \/ exists r, nth_error (ru s) d = Some r /\ In (Disp d) (held r)) -> K n P (set_q d q s).
Proof.
  intros HK Hq Hd. assert (Hl : d < length (qs s)) by (eapply nth_len; eauto).
  constructor; simpl; try (apply HK).
  - rewrite setnth_len. exact (k_q _ _ _ HK).
  - intros t' q' f Hq' Hf. destruct (Nat.eq_dec t' d) as [->|Hne].
    + rewrite setnth_same in Hq' by exact Hl. injection Hq' as <-. eapply k_in; eauto. right. exact Hf.
    + rewrite setnth_other in Hq' by auto. eapply k_in; eauto.
  - intros t' q' r HP Hq' Hr. destruct (Nat.eq_dec t' d) as [->|Hne].
    + rewrite setnth_same in Hq' by exact Hl. injection Hq' as <-.
      destruct (Hd HP) as [Hv|(r' & Hr' & Hx)].
      * destruct (k_disp _ _ _ HK d _ _ HP Hq Hr) as [[Hx|Hx]|Hx]; [congruence|auto|auto].
      * right. congruence.
    + rewrite setnth_other in Hq' by auto. eapply k_disp; eauto.
Qed.

Lemma start_ok n t who r0 s :
  K n (but t) s -> nth_error (ru s) t = Some r0 -> (forall f, cnt f (concat (qs s)) <= 1) ->
  (forall f, who = Some f -> home s f = Some t /\ ~ In f (concat (qs s))) ->
  (forall q, nth_error (qs s) t = Some q -> In (Disp t) q \/ who = Some (Disp t)) ->
  exists s', start t who s = Ok s' /\ K n all s' /\
    (forall f, cnt f (everyone s') + cnt f (held r0) = cnt f (everyone s) + cnt f (olist who)).
Proof.
  intros HK Hr H1 Hwho Hd.
  assert (Ht : t < n) by (rewrite <- (k_r _ _ _ HK); eapply nth_len; eauto).
  destruct (len_nth (qs s) t) as [q Hq]. { rewrite (k_q _ _ _ HK). exact Ht. }
  unfold start. rewrite Hq. destruct q as [|v q].
  - assert (Hw : who = Some (Disp t)) by (destruct (Hd _ Hq) as [[]|]; auto). subst who.
    eexists. split; [reflexivity|]. split.
    + apply set_r_ok; auto.
      * simpl. intros f [<-|[]]. apply Hwho. reflexivity.
      * intros q' Hq'. right. left. reflexivity.
      * intros w k He. congruence.
    + intro f. rewrite !cnt_everyone. simpl qs. simpl ru. simpl blocked. simpl ended.
      pose proof (cnt_held f t (Probes (Some (Disp t)) 0) r0 (ru s) Hr) as Hc. simpl held in Hc. simpl olist. lia.
  - pose proof (cnt_concat v t q (v :: q) (qs s) Hq) as Hc. rewrite (cnt_cons v v q), cnt_one in Hc.
    destruct (fiber_dec v v) as [_|]; [|congruence]. pose proof (H1 v).
    assert (Hvn : ~ In v (concat (setnth t q (qs s)))). { rewrite cnt_in. lia. }
    destruct (take_ok n t who v r0 (set_q t q s)) as (s' & He & HK' & Hn & _).
    + apply pop_K with v; [exact HK|exact Hq|]. intro Hx. exfalso. exact (Hx eq_refl).
    + exact Hr.
    + exact Hvn.
    + simpl. eapply (k_in _ _ _ HK); eauto. left. reflexivity.
    + intros f Hf. destruct (Hwho f Hf) as [Hx Hy]. split; [exact Hx|]. intros ->. apply Hy. eapply in_concat_nth; eauto. left. reflexivity.
    + intros q' Hq'. simpl in Hq'. rewrite setnth_same in Hq' by (eapply nth_len; eauto). injection Hq' as <-.
      destruct (Hd _ Hq) as [[Hx|Hx]|Hx]; auto.
    + exists s'. split; [exact He|]. split; [exact HK'|]. intro f. specialize (Hn f). rewrite Hn.
      rewrite !cnt_everyone. simpl qs. simpl ru. simpl blocked. simpl ended.
      pose proof (cnt_concat f t q (v :: q) (qs s) Hq) as Hcf. rewrite (cnt_cons f v q) in Hcf. lia.
Qed.

Lemma steal_some q v r : steal q = Some (v, r) -> q = v :: r /\ pinned v = false.
Proof. destruct q as [|w q]; simpl; [discriminate|]. destruct (pinned w) eqn:Hp; intro He; inversion He; subst; auto. Qed.

Lemma draw_ok n t d k s :
  K n all s -> nth_error (ru s) t = Some (Probes (Some (Disp t)) k) -> d < n -> (forall f, cnt f (everyone s) <= 1) ->
  exists s', draw t d (Some (Disp t)) k s = Ok s' /\ K n all s' /\ (forall f, cnt f (everyone s') = cnt f (everyone s)).
Proof.
  intros HK Hr Hd H1.
  assert (Ht : t < n) by (rewrite <- (k_r _ _ _ HK); eapply nth_len; eauto).
  assert (HKb : K n (but t) s) by (eapply K_weak; eauto; intros; exact I).
  assert (Hset : forall r, held r = [Disp t] -> (forall who j, r = Probes who j -> who = Some (Disp t)) ->
    K n all (set_r t r s) /\ forall f, cnt f (everyone (set_r t r s)) = cnt f (everyone s)).
  { intros r Hhr Hpr. split.
    - apply set_r_ok; auto.
      + rewrite Hhr. intros f [<-|[]]. apply (proj2 (k_pin _ _ _ HK t Ht)).
      + intros q _. right. rewrite Hhr. left. reflexivity.
    - intro f. rewrite !cnt_everyone. simpl qs. simpl ru. simpl blocked. simpl ended.
      pose proof (cnt_held f t r _ (ru s) Hr) as Hc. rewrite Hhr in Hc. simpl held in Hc. lia. }
  unfold draw. destruct (Nat.eqb_spec d t) as [->|Hne].
  - eexists. split; [reflexivity|]. apply Hset; [reflexivity|]. intros; congruence.
  - destruct (len_nth (qs s) d) as [q Hq]. { rewrite (k_q _ _ _ HK). exact Hd. }
    rewrite Hq. destruct (steal q) as [[v r]|] eqn:Hs.
    + apply steal_some in Hs as [-> Hp].
      assert (Hc : forall f, cnt f (concat (setnth d r (qs s))) + cnt f [v] = cnt f (concat (qs s))).
      { intro f. pose proof (cnt_concat f d r (v :: r) (qs s) Hq) as Hx. rewrite (cnt_cons f v r) in Hx. lia. }
      destruct (take_ok n t (Some (Disp t)) v (Probes (Some (Disp t)) k) (set_q d r s)) as (s' & He & HK' & Hn & _).
      * apply pop_K with v; [exact (HKb)|exact Hq|]. intros _. left. intros ->. discriminate Hp.
      * exact Hr.
      * simpl. rewrite cnt_in. specialize (Hc v). specialize (H1 v). rewrite cnt_everyone in H1. rewrite cnt_one in Hc.
        destruct (fiber_dec v v); [lia|congruence].
      * simpl. rewrite Hp. rewrite (k_in _ _ _ HK d (v :: r) v Hq (or_introl eq_refl)), Hp. reflexivity.
      * intros f Hf. injection Hf as <-. split; [apply (proj2 (k_pin _ _ _ HK t Ht))|]. intros <-. discriminate Hp.
      * intros q' _. auto.
      * exists s'. split; [exact He|]. split; [exact HK'|]. intro f. specialize (Hn f). specialize (Hc f).
        rewrite (cnt_everyone f (set_q d r s)) in Hn. simpl qs in Hn. simpl ru in Hn. simpl blocked in Hn. simpl ended in Hn.
        simpl held in Hn. simpl olist in Hn. rewrite (cnt_everyone f s). lia.
    + destruct (S k <? length (qs s)).
      * eexists. split; [reflexivity|]. apply Hset; [reflexivity|]. intros; congruence.
      * simpl. eexists. split; [reflexivity|]. apply Hset; [reflexivity|]. intros; discriminate.
Qed.

Definition spawned_now (e : ev) : list fiber := match e with Spawn _ m => [Fib m] | _ => [] end.
Lemma step_ok n s e o : K n all s -> (forall f, cnt f (everyone s) <= 1) -> step s e o ->
  exists s', o = Ok s' /\ K n all s' /\ (forall f, cnt f (everyone s') = cnt f (everyone s) + cnt f (spawned_now e)) /\
    (forall f, cnt f (everyone s') <= 1).
Proof.
  intros HK H1 Hst.
  assert (Hgoal : exists s', o = Ok s' /\ K n all s' /\ (forall f, cnt f (everyone s') = cnt f (everyone s) + cnt f (spawned_now e))).
  2:{ destruct Hgoal as (s' & Ho & HK' & Hc). exists s'. split; [exact Ho|]. split; [exact HK'|]. split; [exact Hc|]. intro f. rewrite Hc.
      pose proof (H1 f). destruct e; simpl spawned_now; try (change (cnt f []) with 0; lia).
      inversion Hst; subst. rewrite cnt_one. destruct (fiber_dec (Fib n0) f) as [<-|]; [|lia].
      match goal with HH : ~ In _ _ |- _ => rewrite cnt_in in HH; lia end. }
  assert (HKb : forall t, K n (but t) s) by (intro; eapply K_weak; eauto; intros; exact I).
  assert (H1q : forall f, cnt f (concat (qs s)) <= 1). { intro f. specialize (H1 f). rewrite cnt_everyone in H1. lia. }
  inversion Hst; subst; clear Hst.
  - (* spawn *)
    match goal with HH : ~ In _ _ |- _ => rename HH into Hf end. match goal with HH : nth_error (ru s) t = _ |- _ => rename HH into Hr end.
    assert (Ht : t < n) by (rewrite <- (k_r _ _ _ HK); eapply nth_len; eauto).
    assert (Hq0 : ~ In (Fib n0) (concat (qs s))). { rewrite cnt_in in *. rewrite cnt_everyone in Hf. lia. }
    assert (Hh0 : forall i r, nth_error (ru s) i = Some r -> ~ In (Fib n0) (held r)).
    { intros i r Hi Hx. apply Hf. rewrite everyone_eq. apply in_or_app. right. apply in_or_app. left.
      apply in_flat_map. exists r. split; [eapply nth_error_In; eauto|exact Hx]. }
    assert (HKs : K n all (set_home (Fib n0) (Some t) s)).
    { constructor; simpl; try (apply HK).
      - intros g i. dec; [congruence|]. apply HK.
      - intros g i. dec; [subst; auto|]. apply HK.
      - intros i q g Hq Hg. destruct (fiber_dec g (Fib n0)) as [->|]; [exfalso; apply Hq0; eapply in_concat_nth; eauto|]. eapply k_in; eauto.
      - intros i r g _ Hi Hg. destruct (fiber_dec g (Fib n0)) as [->|]; [exfalso; eapply Hh0; eauto|]. eapply (k_held _ _ _ HK); eauto. exact I. }
    destruct (awakened_ok n all t (Fib n0) _ HKs) as (s' & q & He & HK' & Hq & Fq & Fr & Fb & Fe).
    { simpl. dec; congruence. }
    { intros i r _ Hi. apply (Hh0 i r Hi). }
    exists s'. split; [exact He|]. split; [exact HK'|]. intro g. rewrite !cnt_everyone, Fq, Fr, Fb, Fe. simpl qs. simpl ru. simpl blocked. simpl ended.
    pose proof (cnt_concat g t (q ++ [Fib n0]) q (qs s) Hq) as Hc. rewrite cnt_app in Hc. simpl spawned_now. lia.
  - (* wake *)
    match goal with HH : blocked s = _ |- _ => rename HH into Hb end. match goal with HH : home s f = _ |- _ => rename HH into Hh end.
    set (s0 := St (qs s) (ru s) (a ++ b) (ended s) (home s)).
    assert (HK0 : K n all s0) by (constructor; simpl; apply HK).
    destruct (awakened_ok n all t f s0 HK0 Hh) as (s' & q & He & HK' & Hq & Fq & Fr & Fb & Fe).
    { intros i r _ Hi Hx. specialize (H1 f). rewrite cnt_everyone, Hb, cnt_app, cnt_cons, cnt_one in H1.
      destruct (fiber_dec f f); [|congruence].
      assert (In f (flat_map held (ru s))) as Hy by (apply in_flat_map; exists r; split; [eapply nth_error_In; eauto|exact Hx]).
      rewrite cnt_in in Hy. lia. }
    exists s'. split; [exact He|]. split; [exact HK'|]. intro g. rewrite !cnt_everyone, Fq, Fr, Fb, Fe, Hb. simpl qs. simpl ru. simpl blocked. simpl ended.
    pose proof (cnt_concat g t (q ++ [f]) q (qs s) Hq) as Hc. rewrite cnt_app in Hc. simpl spawned_now. change (cnt g []) with 0.
    rewrite !cnt_app, (cnt_cons g f b). lia.
  - (* yield *)
    match goal with HH : nth_error (ru s) t = _ |- _ => rename HH into Hr end. match goal with HH : is_disp f = _ |- _ => rename HH into Hx end.
    destruct (start_ok n t (Some f) (Runs f) s (HKb t) Hr H1q) as (s' & He & HK' & Hc).
    + intros g Hg. injection Hg as <-. split; [eapply (k_held _ _ _ HK); eauto; [exact I|left; reflexivity]|].
      intro Hin. specialize (H1 f). rewrite cnt_everyone in H1. rewrite cnt_in in Hin.
      assert (In f (flat_map held (ru s))) as Hy by (apply in_flat_map; exists (Runs f); split; [eapply nth_error_In; eauto|left; reflexivity]).
      rewrite cnt_in in Hy. lia.
    + intros q Hq. destruct (k_disp _ _ _ HK t q _ I Hq Hr) as [|[Hd|[]]]; [auto|]. subst f. discriminate Hx.
    + exists s'. split; [exact He|]. split; [exact HK'|]. intro g. specialize (Hc g). simpl held in Hc. simpl olist in Hc. simpl spawned_now. change (cnt g []) with 0. lia.
  - (* block *)
    match goal with HH : nth_error (ru s) t = _ |- _ => rename HH into Hr end. match goal with HH : is_disp f = _ |- _ => rename HH into Hx end.
    set (s0 := St (qs s) (ru s) (f :: blocked s) (ended s) (home s)).
    assert (HK0 : K n (but t) s0) by (constructor; simpl; apply (HKb t)).
    destruct (start_ok n t None (Runs f) s0 HK0 Hr H1q) as (s' & He & HK' & Hc).
    + discriminate.
    + intros q Hq. destruct (k_disp _ _ _ HK t q _ I Hq Hr) as [|[Hd|[]]]; [auto|]. subst f. discriminate Hx.
    + exists s'. split; [exact He|]. split; [exact HK'|]. intro g. specialize (Hc g). simpl held in Hc. simpl olist in Hc. simpl spawned_now. change (cnt g []) with 0 in *.
      rewrite (cnt_everyone g s0) in Hc. simpl qs in Hc. simpl ru in Hc. simpl blocked in Hc. simpl ended in Hc. rewrite (cnt_cons g f (blocked s)) in Hc. rewrite (cnt_everyone g s). lia.
  - (* end *)
    match goal with HH : nth_error (ru s) t = _ |- _ => rename HH into Hr end.
    set (s0 := St (qs s) (ru s) (blocked s) (Fib n0 :: ended s) (home s)).
    assert (HK0 : K n (but t) s0) by (constructor; simpl; apply (HKb t)).
    destruct (start_ok n t None (Runs (Fib n0)) s0 HK0 Hr H1q) as (s' & He & HK' & Hc).
    + discriminate.
    + intros q Hq. destruct (k_disp _ _ _ HK t q _ I Hq Hr) as [|[Hd|[]]]; [auto|]. discriminate Hd.
    + exists s'. split; [exact He|]. split; [exact HK'|]. intro g. specialize (Hc g). simpl held in Hc. simpl olist in Hc. simpl spawned_now. change (cnt g []) with 0 in *.
      rewrite (cnt_everyone g s0) in Hc. simpl qs in Hc. simpl ru in Hc. simpl blocked in Hc. simpl ended in Hc. rewrite (cnt_cons g (Fib n0) (ended s)) in Hc. rewrite (cnt_everyone g s). lia.
  - (* poll *)
    match goal with HH : nth_error (ru s) t = _ |- _ => rename HH into Hr end.
    assert (Hi : home s (Disp i) = Some t) by (eapply (k_held _ _ _ HK); eauto; [exact I|left; reflexivity]).
    assert (i = t) as -> by exact (k_pin2 _ _ _ HK _ _ Hi).
    destruct (start_ok n t (Some (Disp t)) (Runs (Disp t)) s (HKb t) Hr H1q) as (s' & He & HK' & Hc).
    + intros g Hg. injection Hg as <-. split; [exact Hi|].
      intro Hin. specialize (H1 (Disp t)). rewrite cnt_everyone in H1. rewrite cnt_in in Hin.
      assert (In (Disp t) (flat_map held (ru s))) as Hy by (apply in_flat_map; exists (Runs (Disp t)); split; [eapply nth_error_In; eauto|left; reflexivity]).
      rewrite cnt_in in Hy. lia.
    + auto.
    + exists s'. split; [exact He|]. split; [exact HK'|]. intro g. specialize (Hc g). simpl held in Hc. simpl olist in Hc. simpl spawned_now. change (cnt g []) with 0. lia.
  - (* draw *)
    match goal with HH : nth_error (ru s) t = _ |- _ => rename HH into Hr end.
    pose proof (k_prob _ _ _ HK t who k I Hr) as ->.
    destruct (draw_ok n t d k s HK Hr) as (s' & He & HK' & Hc); auto. { rewrite <- (k_q _ _ _ HK). assumption. }
    exists s'. split; [exact He|]. split; [exact HK'|]. intro g. rewrite Hc. simpl spawned_now. change (cnt g []) with 0. lia.
Qed.

Definition everybody (n : nat) (l : list ev) : list fiber :=
  map Main (seq 0 n) ++ map Disp (seq 0 n) ++ flat_map (fun e => match e with Spawn _ m => [Fib m] | _ => [] end) l.

Lemma nth_seq_map {A} (g : nat -> A) n t x : nth_error (map g (seq 0 n)) t = Some x -> t < n /\ x = g t.
Proof.
  intro Hx. assert (Ht : t < n). { apply nth_len in Hx. rewrite map_length, seq_length in Hx. exact Hx. }
  split; [exact Ht|]. rewrite nth_error_map in Hx. rewrite (nth_error_nth' _ 0) in Hx by (rewrite seq_length; exact Ht).
  rewrite seq_nth in Hx by exact Ht. simpl in Hx. congruence.
Qed.
Lemma boot_K n : K n all (boot n).
Proof.
  constructor; simpl.
  - rewrite map_length, seq_length. reflexivity.
  - rewrite map_length, seq_length. reflexivity.
  - intros f t. destruct f as [i|i|m]; try (destruct (Nat.ltb_spec i n); intro Hx; inversion Hx; subst; auto); discriminate.
  - intros t Ht. apply Nat.ltb_lt in Ht. rewrite Ht. auto.
  - intros f i. destruct f as [j|j|m]; auto; destruct (j <? n); congruence.
  - intros t q f Hq Hf. apply nth_seq_map in Hq as [Ht ->]. destruct Hf as [<-|[]]. simpl. apply Nat.ltb_lt in Ht. rewrite Ht. reflexivity.
  - intros t r f _ Hr Hf. apply nth_seq_map in Hr as [Ht ->]. destruct Hf as [<-|[]]. simpl. apply Nat.ltb_lt in Ht. rewrite Ht. reflexivity.
  - intros t q r _ Hq _. apply nth_seq_map in Hq as [Ht ->]. left. left. reflexivity.
  - intros t w k _ Hr. apply nth_seq_map in Hr as [_ Hr]. discriminate.
Qed.
Lemma concat_sing {A} (g : nat -> A) l : concat (map (fun t => [g t]) l) = map g l.
Proof. induction l; simpl; congruence. Qed.
Lemma held_sing (g : nat -> fiber) l : flat_map held (map (fun t => Runs (g t)) l) = map g l.
Proof. induction l; simpl; congruence. Qed.
Lemma boot_everyone n : everyone (boot n) = map Disp (seq 0 n) ++ map Main (seq 0 n).
Proof. rewrite everyone_eq. simpl. rewrite concat_sing, held_sing, app_nil_r. reflexivity. Qed.
Lemma nodup_dm l m : NoDup (map Disp l) -> NoDup (map Main m) -> NoDup (map Disp l ++ map Main m).
Proof.
  intros Hd Hm. induction l as [|x l IH]; simpl in *; [exact Hm|].
  inversion Hd; subst. constructor; [|auto]. intro Hx. apply in_app_or in Hx as [Hx|Hx]; [contradiction|].
  apply in_map_iff in Hx as (j & He & _). discriminate.
Qed.
Lemma boot_nodup n : NoDup (everyone (boot n)).
Proof.
  rewrite boot_everyone.
  assert (Hinj : forall g : nat -> fiber, (forall i j, g i = g j -> i = j) -> NoDup (map g (seq 0 n))).
  { intros g Hg. apply FinFun.Injective_map_NoDup; [exact Hg|apply seq_NoDup]. }
  assert (Hd := Hinj Disp ltac:(congruence)). assert (Hm := Hinj Main ltac:(congruence)).
  apply nodup_dm; assumption.
Qed.

Lemma exec_ok n l o : exec n l o -> exists s, o = Ok s /\ K n all s /\ (forall f, cnt f (everyone s) <= 1) /\
  (forall f, cnt f (everyone s) = cnt f (everybody n l)).
Proof.
  induction 1 as [|l e s o Hx IH Hs].
  - exists (boot n). split; [reflexivity|]. split; [apply boot_K|]. split.
    + intro f. apply NoDup_count_occ. apply boot_nodup.
    + intro f. rewrite boot_everyone. unfold everybody. simpl. rewrite !cnt_app. change (cnt f []) with 0. lia.
  - destruct IH as (s0 & He & HK & H1 & Hc). injection He as <-.
    destruct (step_ok n s e o HK H1 Hs) as (s' & -> & HK' & Hc' & H1').
    exists s'. split; [reflexivity|]. split; [exact HK'|]. split; [exact H1'|].
    intro f. rewrite Hc', Hc. unfold everybody. rewrite flat_map_app, !cnt_app. simpl. rewrite app_nil_r. unfold spawned_now. lia.
Qed.

(* No access out of bounds, no null pointer resumed, no failed assertion. *)
Theorem C72_safe n l o : exec n l o -> exists s, o = Ok s.
Proof. intro Hx. apply exec_ok in Hx as (s & -> & _). eauto. Qed.

(* Every fiber that exists is in exactly one place: in one queue, on one thread,
   blocked or ended. *)
Theorem C72_once n l s : exec n l (Ok s) -> NoDup (everyone s) /\ Permutation (everyone s) (everybody n l).
Proof.
  intro Hx. apply exec_ok in Hx as (s' & He & HK & H1 & Hc). injection He as <-. split.
  - apply (NoDup_count_occ fiber_dec). exact H1.
  - apply (Permutation_count_occ fiber_dec). exact Hc.
Qed.

(* Main contexts and dispatchers stay on their thread; a ready fiber is attached to
   no scheduler, a running one to the scheduler of its thread. *)
Definition belongs (f : fiber) (t : nat) : Prop := match f with Main i | Disp i => i = t | Fib _ => True end.
Theorem C72_pinned n l s t f : exec n l (Ok s) ->
  (forall q, nth_error (qs s) t = Some q -> In f q -> belongs f t /\ home s f = if pinned f then Some t else None) /\
  (nth_error (ru s) t = Some (Runs f) -> belongs f t /\ home s f = Some t).
Proof.
  intros Hx. apply exec_ok in Hx as (s' & He & HK & H1 & _). injection He as <-. split.
  - intros q Hq Hf. pose proof (k_in _ _ _ HK t q f Hq Hf) as Hh. split; [|exact Hh].
    destruct f; simpl; auto; simpl in Hh; exact (k_pin2 _ _ _ HK _ _ Hh).
  - intro Hr. pose proof (k_held _ _ _ HK t _ f I Hr (or_introl eq_refl)) as Hh. split; [|exact Hh].
    pose proof (k_pin2 _ _ _ HK _ _ Hh). destruct f; simpl; auto.
Qed.

(* the draws of thread t since it last called pick_next, the newest first *)
Fixpoint drawn_rev (t : nat) (l : list ev) : list nat :=
  match l with
  | [] => []
  | Draw i d :: r => if i =? t then d :: drawn_rev t r else drawn_rev t r
  | Yield i :: r | Block i :: r | End i :: r | Poll i :: r => if i =? t then [] else drawn_rev t r
  | Spawn _ _ :: r | Wake _ _ :: r => drawn_rev t r
  end.
Definition drawn (t : nat) (l : list ev) : list nat := rev (drawn_rev t (rev l)).

(* ---- pick_next returns ---- *)
Lemma awakened_ru t f s s' : awakened t f s = Ok s' -> ru s' = ru s.
Proof. unfold awakened. destruct (nth_error _ _); [|discriminate]. destruct (pinned f); [intro He; inversion He; reflexivity|]. destruct (home s f); intro He; inversion He; reflexivity. Qed.
Lemma take_ru t who v s s' : take t who v s = Ok s' -> ru s' = setnth t (Runs v) (ru s).
Proof.
  unfold take. destruct (if pinned v then _ else _) as [s1|] eqn:H1; [|discriminate].
  assert (ru s1 = ru s) as Hr. { destruct (pinned v); [inversion H1; reflexivity|]. destruct (home s v); inversion H1; reflexivity. }
  destruct who as [f|]; intro He.
  - apply awakened_ru in He. rewrite He. simpl. rewrite Hr. reflexivity.
  - inversion He; subst. simpl. rewrite Hr. reflexivity.
Qed.
Lemma start_ru t who s s' : start t who s = Ok s' -> exists r, ru s' = setnth t r (ru s) /\ (forall w k, r = Probes w k -> k = 0).
Proof.
  unfold start. destruct (nth_error (qs s) t) as [[|v q]|]; [| |discriminate].
  - intro He. inversion He. eexists. split; [reflexivity|]. intros w k Hw. congruence.
  - intro He. apply take_ru in He. rewrite He. eexists. split; [reflexivity|]. discriminate.
Qed.
Lemma draw_ru t d who k s s' : draw t d who k s = Ok s' -> exists r, ru s' = setnth t r (ru s) /\
  (forall w j, r = Probes w j -> j = S k /\ (d = t \/ S k < length (qs s))).
Proof.
  unfold draw. destruct (Nat.eqb_spec d t) as [->|Hne].
  - intro He. inversion He. eexists. split; [reflexivity|]. intros w j Hw. split; [congruence|auto].
  - destruct (nth_error (qs s) d) as [q|]; [|discriminate]. destruct (steal q) as [[v r]|].
    + intro He. apply take_ru in He. rewrite He. eexists. split; [reflexivity|]. discriminate.
    + destruct (Nat.ltb_spec (S k) (length (qs s))).
      * intro He. inversion He. eexists. split; [reflexivity|]. intros w j Hw. split; [congruence|auto].
      * unfold nothing. destruct who as [[]|]; intro He; inversion He. eexists. split; [reflexivity|]. discriminate.
Qed.
Lemma drawn_snoc t l e : drawn t (l ++ [e]) = match e with
  | Draw i d => if i =? t then drawn t l ++ [d] else drawn t l
  | Yield i | Block i | End i | Poll i => if i =? t then [] else drawn t l
  | _ => drawn t l end.
Proof.
  unfold drawn. rewrite rev_app_distr. simpl. destruct e; simpl; auto; destruct (t0 =? t); reflexivity.
Qed.

Lemma probing n l o : exec n l o -> forall s t who k, o = Ok s -> nth_error (ru s) t = Some (Probes who k) ->
  length (drawn t l) = k /\ forall j, n <= S j -> j < k -> nth_error (drawn t l) j = Some t.
Proof.
  induction 1 as [|l e s o Hx IH Hst]; intros s' t who k Ho Hp.
  - inversion Ho; subst. apply nth_seq_map in Hp as [_ Hp]. discriminate.
  - specialize (IH s). rewrite drawn_snoc.
    assert (Hlen : length (qs s) = n). { apply exec_ok in Hx as (s1 & He & HK & _). inversion He; subst. apply HK. }
    assert (Hother : forall i r, i <> t -> ru s' = setnth i r (ru s) -> nth_error (ru s) t = Some (Probes who k)).
    { intros i r Hi Hr. rewrite Hr, setnth_other in Hp by exact Hi. exact Hp. }
    assert (Hstart : forall i w s1, ru s1 = ru s -> start i w s1 = Ok s' -> i < length (ru s) ->
      length (if i =? t then [] else drawn t l) = k /\
      forall j, n <= S j -> j < k -> nth_error (if i =? t then [] else drawn t l) j = Some t).
    { intros i w s1 H1 Hs Hi. apply start_ru in Hs as (r & Hr & Hk). rewrite H1 in Hr. destruct (Nat.eqb_spec i t) as [->|Hne].
      - rewrite Hr, setnth_same in Hp by exact Hi. injection Hp as ->. rewrite (Hk _ _ eq_refl). split; [reflexivity|]. intros; lia.
      - exact (IH t who k eq_refl (Hother _ _ Hne Hr)). }
    inversion Hst; subst; try (match goal with HH : nth_error (ru s) ?i = Some (Runs _) |- context [?i =? t] => eapply Hstart; [|eassumption|eapply nth_len; exact HH]; reflexivity end).
    + match goal with HH : awakened _ _ _ = _ |- _ => apply awakened_ru in HH; simpl in HH; rewrite HH in Hp end. exact (IH t who k eq_refl Hp).
    + match goal with HH : awakened _ _ _ = _ |- _ => apply awakened_ru in HH; simpl in HH; rewrite HH in Hp end. exact (IH t who k eq_refl Hp).
    + match goal with HH : draw _ _ _ _ _ = _ |- _ => apply draw_ru in HH as (r & Hr & Hk) end.
      destruct (Nat.eqb_spec t0 t) as [->|Hne].
      * rewrite Hr, setnth_same in Hp by (eapply nth_len; eassumption). injection Hp as ->. destruct (Hk _ _ eq_refl) as [-> Hd].
        match goal with HH : nth_error (ru s) t = _ |- _ => destruct (IH t _ _ eq_refl HH) as [Hl Hj] end.
        rewrite app_length, Hl. simpl. split; [lia|]. intros j Hn Hlt.
        destruct (Nat.eq_dec j k0) as [->|].
        -- rewrite nth_error_app2 by lia. rewrite Hl, Nat.sub_diag. simpl. destruct Hd as [->|Hd]; [reflexivity|]. lia.
        -- rewrite nth_error_app1 by lia. apply Hj; lia.
      * exact (IH t who k eq_refl (Hother _ _ Hne Hr)).
Qed.

(* A pick_next that still looks for a victim has drawn only its own number since the
   n-th draw: it returns at the latest with the first other number after that. *)
Theorem C72_returns n l s t who k : exec n l (Ok s) -> nth_error (ru s) t = Some (Probes who k) ->
  forall j d, n <= S j -> nth_error (drawn t l) j = Some d -> d = t.
Proof.
  intros Hx Hp j d Hn Hj. destruct (probing n l _ Hx s t who k eq_refl Hp) as [Hl Ha].
  assert (j < k) by (rewrite <- Hl; eapply nth_len; eauto). specialize (Ha j Hn ltac:(assumption)). congruence.
Qed.

(* all outcomes of k draws from 0 .. n-1, and those after which a pick_next of thread
   t may still be looking *)
Fixpoint outcomes (n k : nat) : list (list nat) :=
  match k with O => [[]] | S k => flat_map (fun d => map (cons d) (outcomes n k)) (seq 0 n) end.
Definition undecided (n t : nat) (ds : list nat) : bool := forallb (Nat.eqb t) (skipn (n - 1) ds).
Lemma len_flat {A B} (g : A -> list B) l c : (forall x, In x l -> length (g x) = c) -> length (flat_map g l) = length l * c.
Proof. induction l as [|x l IH]; intro Hx; simpl; [reflexivity|]. rewrite app_length, Hx, IH; auto with datatypes. Qed.
Lemma outcomes_len n k : length (outcomes n k) = n ^ k.
Proof.
  induction k as [|k IH]; [reflexivity|]. cbn [outcomes Nat.pow]. rewrite (len_flat _ _ (n ^ k)).
  - rewrite seq_length. reflexivity.
  - intros d _. rewrite map_length. exact IH.
Qed.
Lemma filter_flat {A B} (p : B -> bool) (g : A -> list B) l : filter p (flat_map g l) = flat_map (fun x => filter p (g x)) l.
Proof. induction l; simpl; [reflexivity|]. rewrite filter_app. congruence. Qed.
Lemma filter_map {A B} (p : B -> bool) (g : A -> B) l : filter p (map g l) = map g (filter (fun x => p (g x)) l).
Proof. induction l; simpl; [reflexivity|]. destruct (p (g a)); simpl; congruence. Qed.
Lemma filter_false {A} (p : A -> bool) l : (forall x, p x = false) -> filter p l = [].
Proof. intro Hp. induction l; simpl; [reflexivity|]. rewrite Hp. exact IHl. Qed.
Lemma own_len n t m : t < n -> length (filter (forallb (Nat.eqb t)) (outcomes n m)) = 1.
Proof.
  intro Ht. induction m as [|m IH]; [reflexivity|]. cbn [outcomes]. rewrite filter_flat.
  assert (Hg : forall a l, a <= t < a + l -> length (flat_map (fun d => filter (forallb (Nat.eqb t)) (map (cons d) (outcomes n m))) (seq a l)) = 1).
  { intros a l. revert a. induction l as [|l IHl]; intros a Ha; [lia|]. cbn [seq flat_map]. rewrite app_length, filter_map, map_length. simpl forallb.
    destruct (Nat.eqb_spec t a) as [->|Hne].
    - rewrite (filter_ext _ (forallb (Nat.eqb a)) (fun x => eq_refl)), IH.
      assert (Hz : forall b c, a < b -> flat_map (fun d => filter (forallb (Nat.eqb a)) (map (cons d) (outcomes n m))) (seq b c) = []).
      { intros b c. revert b. induction c as [|c IHc]; intros b Hb; [reflexivity|]. cbn [seq flat_map]. rewrite IHc by lia. rewrite filter_map, filter_false; [reflexivity|].
        intro x. simpl. destruct (Nat.eqb_spec a b); [lia|reflexivity]. }
      rewrite Hz by lia. reflexivity.
    - rewrite filter_false by reflexivity. simpl. apply IHl. lia. }
  apply Hg. lia.
Qed.
Lemma skip_len n t a m : t < n -> length (filter (fun ds => forallb (Nat.eqb t) (skipn a ds)) (outcomes n (a + m))) = n ^ a.
Proof.
  intro Ht. induction a as [|a IH]; [exact (own_len n t m Ht)|]. cbn [outcomes plus Nat.pow]. rewrite filter_flat.
  rewrite (len_flat _ _ (n ^ a)). { rewrite seq_length. reflexivity. }
  intros d _. rewrite filter_map, map_length. exact IH.
Qed.
Lemma outcomes_in n k ds : length ds = k -> Forall (fun d => d < n) ds -> In ds (outcomes n k).
Proof.
  revert k. induction ds as [|d ds IH]; intros k Hl Hf; simpl in Hl; subst k; [left; reflexivity|]. inversion Hf; subst.
  cbn [outcomes]. apply in_flat_map. exists d. split; [apply in_seq; lia|]. apply in_map. auto.
Qed.
Lemma drawn_lt n l o : exec n l o -> forall t, Forall (fun d => d < n) (drawn t l).
Proof.
  induction 1 as [|l e s o Hx IH Hst]; intro t; [constructor|]. rewrite drawn_snoc.
  assert (Hlen : length (qs s) = n). { apply exec_ok in Hx as (s1 & He & HK & _). inversion He; subst. apply HK. }
  inversion Hst; subst; auto; match goal with |- context [?i =? t] => destruct (i =? t); auto end.
  apply Forall_app. split; auto.
Qed.

(* If the draws are uniform, pick_next is still looking after n - 1 + m of them with
   probability at most n^-m: of the n^(n-1+m) outcomes at most n^(n-1) leave it
   looking. *)
Theorem C72_chance n t m : t < n ->
  length (outcomes n (n - 1 + m)) = n ^ (n - 1 + m) /\
  length (filter (undecided n t) (outcomes n (n - 1 + m))) = n ^ (n - 1) /\
  (forall l s who k, exec n l (Ok s) -> nth_error (ru s) t = Some (Probes who k) -> length (drawn t l) = n - 1 + m ->
     In (drawn t l) (filter (undecided n t) (outcomes n (n - 1 + m)))).
Proof.
  intro Ht. split; [apply outcomes_len|]. split; [apply skip_len; exact Ht|].
  intros l s who k Hx Hp Hl. apply filter_In. split.
  - apply outcomes_in; [exact Hl|]. eapply drawn_lt; eauto.
  - unfold undecided. apply forallb_forall. intros d Hd. apply In_nth_error in Hd as (j & Hj).
    assert (Hsk : forall (l0 : list nat) a i, nth_error (skipn a l0) i = nth_error l0 (a + i)).
    { intros l0 a. revert l0. induction a as [|a IHa]; intros [|x l0] i; simpl; auto. destruct i; reflexivity. }
    rewrite Hsk in Hj. rewrite (C72_returns n l s t who k Hx Hp (n - 1 + j) d) by (try exact Hj; lia). apply Nat.eqb_refl.
Qed.

(* A thread that draws another one with a ready fiber in front runs that fiber. *)
Theorem C72_takes n l s t d who k m q : exec n l (Ok s) -> nth_error (ru s) t = Some (Probes who k) -> d <> t ->
  nth_error (qs s) d = Some (Fib m :: q) ->
  exists s', step s (Draw t d) (Ok s') /\ nth_error (ru s') t = Some (Runs (Fib m)) /\ nth_error (qs s') d = Some q.
Proof.
  intros Hx Hp Hne Hq. assert (Hd : d < length (qs s)) by (eapply nth_len; eauto).
  pose proof (e_draw s t d who k Hp Hd) as Hst.
  destruct (C72_safe n _ _ (x_step n l _ s _ Hx Hst)) as (s' & He). exists s'. rewrite <- He. split; [exact Hst|].
  assert (Hpl : t < length (ru s)) by (eapply nth_len; eauto).
  unfold draw in He. destruct (Nat.eqb_spec d t); [contradiction|]. rewrite Hq in He. simpl steal in He. cbv beta iota in He.
  split. { pose proof (take_ru _ _ _ _ _ He) as Hr. rewrite Hr. simpl. apply setnth_same. exact Hpl. }
  unfold take in He. destruct (if pinned (Fib m) then _ else _) as [s1|] eqn:H1; [|discriminate].
  assert (Hs1 : qs s1 = setnth d q (qs s)). { simpl in H1. destruct (home s (Fib m)); inversion H1; reflexivity. }
  assert (Hset : nth_error (qs s1) d = Some q) by (rewrite Hs1; apply setnth_same; exact Hd).
  destruct who as [f|]; [|inversion He; subst; exact Hset].
  unfold awakened in He. simpl in He. destruct (nth_error (qs s1) t) as [qt|] eqn:Hqt; [|discriminate].
  assert (Hfin : nth_error (setnth t (qt ++ [f]) (qs s1)) d = Some q) by (rewrite setnth_other by congruence; exact Hset).
  destruct (pinned f); [inversion He; subst; exact Hfin|]. destruct (home s1 f); inversion He; subst; exact Hfin.
Qed.

(* ---- ready fibers are run in the order they became ready ---- *)
Definition grew (q q' : list fiber) : Prop := exists x, q' = q ++ x.
Lemma awakened_qs t f s s' : awakened t f s = Ok s' -> forall i q, nth_error (qs s) i = Some q -> exists q', nth_error (qs s') i = Some q' /\ grew q q'.
Proof.
  unfold awakened. destruct (nth_error (qs s) t) as [qt|] eqn:Hqt; [|discriminate].
  assert (Hg : forall i q, nth_error (qs s) i = Some q -> exists q', nth_error (setnth t (qt ++ [f]) (qs s)) i = Some q' /\ grew q q').
  { intros i q Hq. destruct (Nat.eq_dec t i) as [->|Hne].
    - rewrite setnth_same by (eapply nth_len; eauto). eexists. split; [reflexivity|]. exists [f]. congruence.
    - rewrite setnth_other by exact Hne. exists q. split; [exact Hq|]. exists []. rewrite app_nil_r. reflexivity. }
  destruct (pinned f); [intro He; inversion He; exact Hg|]. destruct (home s f); intro He; inversion He. exact Hg.
Qed.
Lemma take_qs t who v s s' : take t who v s = Ok s' -> forall i q, nth_error (qs s) i = Some q -> exists q', nth_error (qs s') i = Some q' /\ grew q q'.
Proof.
  unfold take. destruct (if pinned v then _ else _) as [s1|] eqn:H1; [|discriminate].
  assert (Hs1 : qs s1 = qs s). { destruct (pinned v); [inversion H1; reflexivity|]. destruct (home s v); inversion H1; reflexivity. }
  destruct who as [f|]; intros He i q Hq.
  - apply (awakened_qs _ _ _ _ He). simpl. rewrite Hs1. exact Hq.
  - inversion He; subst. simpl. rewrite Hs1. exists q. split; [exact Hq|]. exists []. rewrite app_nil_r. reflexivity.
Qed.
Lemma start_qs t who s s' : t < length (ru s) -> start t who s = Ok s' -> forall i q, nth_error (qs s) i = Some q ->
  exists q', nth_error (qs s') i = Some q' /\
    ((grew q q' /\ (i = t -> q = [])) \/ (i = t /\ exists v r, q = v :: r /\ grew r q' /\ nth_error (ru s') t = Some (Runs v))).
Proof.
  intros Ht. unfold start. destruct (nth_error (qs s) t) as [[|v r]|] eqn:Hqt; [| |discriminate]; intros He i q Hq.
  - inversion He; subst. simpl. exists q. split; [exact Hq|]. left. split; [exists []; rewrite app_nil_r; reflexivity|]. intros ->. congruence.
  - pose proof (take_ru _ _ _ _ _ He) as Hr. simpl in Hr. destruct (Nat.eq_dec t i) as [<-|Hne].
    + destruct (take_qs _ _ _ _ _ He t r) as (q' & Hq' & Hg). { simpl. apply setnth_same. eapply nth_len; eauto. }
      exists q'. split; [exact Hq'|]. right. split; [reflexivity|]. exists v, r. rewrite Hr, setnth_same by exact Ht. repeat split; auto. congruence.
    + destruct (take_qs _ _ _ _ _ He i q) as (q' & Hq' & Hg). { simpl. rewrite setnth_other by exact Hne. exact Hq. }
      exists q'. split; [exact Hq'|]. left. split; [exact Hg|]. congruence.
Qed.
Lemma draw_qs t d who k s s' : t < length (ru s) -> draw t d who k s = Ok s' -> forall i q, nth_error (qs s) i = Some q ->
  exists q', nth_error (qs s') i = Some q' /\ (grew q q' \/ exists v r, q = v :: r /\ grew r q' /\ nth_error (ru s') t = Some (Runs v)).
Proof.
  intros Ht. assert (Hr : forall r0 i q, nth_error (qs s) i = Some q -> exists q', nth_error (qs (set_r t r0 s)) i = Some q' /\ (grew q q' \/ exists v r, q = v :: r /\ grew r q' /\ nth_error (ru (set_r t r0 s)) t = Some (Runs v))).
  { intros r0 i q Hq. exists q. split; [exact Hq|]. left. exists []. rewrite app_nil_r. reflexivity. }
  unfold draw. destruct (d =? t). { intro He. inversion He. apply Hr. }
  destruct (nth_error (qs s) d) as [qd|] eqn:Hqd; [|discriminate]. destruct (steal qd) as [[v r]|] eqn:Hs.
  - apply steal_some in Hs as [-> _]. intros He i q Hq. pose proof (take_ru _ _ _ _ _ He) as Hru. simpl in Hru. destruct (Nat.eq_dec d i) as [<-|Hne].
    + destruct (take_qs _ _ _ _ _ He d r) as (q' & Hq' & Hg). { simpl. apply setnth_same. eapply nth_len; eauto. }
      exists q'. split; [exact Hq'|]. right. exists v, r. rewrite Hru, setnth_same by exact Ht. repeat split; auto. congruence.
    + destruct (take_qs _ _ _ _ _ He i q) as (q' & Hq' & Hg). { simpl. rewrite setnth_other by exact Hne. exact Hq. }
      exists q'. split; [exact Hq'|]. auto.
  - destruct (S k <? length (qs s)); [intro He; inversion He; apply Hr|]. unfold nothing. destruct who as [[]|]; intro He; inversion He. apply Hr.
Qed.

(* the thread that calls pick_next *)
Definition picks (e : ev) : option nat := match e with Yield t | Block t | End t | Poll t => Some t | _ => None end.
(* A ready fiber with p others before it is run or keeps its place or moves on; it
   moves on, or is run, every time its thread picks: thread t runs it after at most
   p + 1 calls. *)
Theorem C72_order n l s e s' t q p f : exec n l (Ok s) -> step s e (Ok s') ->
  nth_error (qs s) t = Some q -> nth_error q p = Some f ->
  (exists i, nth_error (ru s') i = Some (Runs f)) \/
  (exists q' p', nth_error (qs s') t = Some q' /\ nth_error q' p' = Some f /\ p' <= p /\ (picks e = Some t -> p' < p)).
Proof.
  intros Hx Hst Hq Hp.
  assert (Hgrow : forall a b i (x : fiber), grew a b -> nth_error a i = Some x -> nth_error b i = Some x).
  { intros a b i x (y & ->) Hi. rewrite nth_error_app1; [exact Hi|]. eapply nth_len; eauto. }
  assert (Hkeep : picks e <> Some t -> (exists q', nth_error (qs s') t = Some q' /\ grew q q') ->
    exists q' p', nth_error (qs s') t = Some q' /\ nth_error q' p' = Some f /\ p' <= p /\ (picks e = Some t -> p' < p)).
  { intros Hne (q' & Hq' & Hg). exists q', p. repeat split; eauto. intro. contradiction. }
  assert (Hst' : forall i w s1, qs s1 = qs s -> i < length (ru s1) -> picks e = Some i -> start i w s1 = Ok s' ->
    (exists i, nth_error (ru s') i = Some (Runs f)) \/
    (exists q' p', nth_error (qs s') t = Some q' /\ nth_error q' p' = Some f /\ p' <= p /\ (picks e = Some t -> p' < p))).
  { intros i w s1 Hs1 Hi Hpk He. destruct (start_qs _ _ _ _ Hi He t q) as (q' & Hq' & [[Hg Hc]|(-> & v & r & -> & Hg & Hr)]).
    - rewrite Hs1. exact Hq.
    - right. apply Hkeep; [|eauto]. intro Hpk'. rewrite Hpk in Hpk'. injection Hpk' as <-. rewrite (Hc eq_refl) in Hp. destruct p; discriminate.
    - destruct p as [|p]; simpl in Hp. { injection Hp as ->. left. eauto. }
      right. exists q', p. repeat split; eauto. }
  inversion Hst; subst.
  - right. apply Hkeep; [discriminate|]. match goal with HH : awakened _ _ _ = _ |- _ => eapply (awakened_qs _ _ _ _ HH) end. exact Hq.
  - right. apply Hkeep; [discriminate|]. match goal with HH : awakened _ _ _ = _ |- _ => eapply (awakened_qs _ _ _ _ HH) end. exact Hq.
  - eapply (Hst' t0); [reflexivity|eapply nth_len; eassumption|reflexivity|eassumption].
  - eapply (Hst' t0); [| |reflexivity|eassumption]; [reflexivity|simpl; eapply nth_len; eassumption].
  - eapply (Hst' t0); [| |reflexivity|eassumption]; [reflexivity|simpl; eapply nth_len; eassumption].
  - eapply (Hst' t0); [reflexivity|eapply nth_len; eassumption|reflexivity|eassumption].
  - match goal with HH : draw _ _ _ _ _ = _ |- _ => rename HH into Hdr end.
    match goal with HH : nth_error (ru s) t0 = _ |- _ => pose proof (nth_len _ _ _ HH) as Hl end.
    destruct (draw_qs _ _ _ _ _ _ Hl Hdr t q Hq) as (q' & Hq' & [Hg|(v & r & -> & Hg & Hr)]).
    + right. apply Hkeep; [discriminate|eauto].
    + destruct p as [|p]; simpl in Hp. { injection Hp as ->. left. eauto. }
      right. exists q', p. repeat split; eauto.
Qed.

(* ---- limits ---- *)
(* With one thread (Scheduler(0); initMT creates a Scheduler only for n > 1) a
   pick_next that finds its own queue empty never returns. *)
Theorem C72_alone : (exists l s, exec 1 l (Ok s) /\ nth_error (ru s) 0 = Some (Probes (Some (Disp 0)) 0)) /\
  forall l s who k, exec 1 l (Ok s) -> nth_error (ru s) 0 = Some (Probes who k) ->
  forall d o, step s (Draw 0 d) o -> exists s', o = Ok s' /\ nth_error (ru s') 0 = Some (Probes who (S k)).
Proof.
  split.
  - assert (H0 : exec 1 [Block 0] (Ok (St [[]] [Runs (Disp 0)] [Main 0] [] (home (boot 1))))).
    { apply (x_step 1 [] (Block 0) (boot 1)); [constructor|]. apply (e_block (boot 1) 0 (Main 0)); reflexivity. }
    exists ([Block 0] ++ [Poll 0]), (St [[]] [Probes (Some (Disp 0)) 0] [Main 0] [] (home (boot 1))). split; [|reflexivity].
    eapply x_step; [exact H0|]. apply (e_poll (St [[]] [Runs (Disp 0)] [Main 0] [] (home (boot 1))) 0 0). reflexivity.
  - intros l s who k Hx Hp d o Hst. assert (Hl : length (qs s) = 1). { apply exec_ok in Hx as (s1 & He & HK & _). inversion He; subst. apply HK. }
    inversion Hst; subst. assert (d = 0) as -> by lia. assert (who0 = who /\ k0 = k) as [-> ->] by (split; congruence).
    unfold draw. rewrite Nat.eqb_refl. eexists. split; [reflexivity|]. cbn [set_r ru]. apply setnth_same. eapply nth_len; eauto.
Qed.

(* Fibers behind a dispatcher are hidden from the other threads: thread 0 runs its main
   context and has created two fibers, its dispatcher is before them in the queue; no
   number of draws of thread 1 gets one of them. *)
Inductive goes (s0 : st) : list ev -> outcome -> Prop :=
| g_nil : goes s0 [] (Ok s0)
| g_step l e s o : goes s0 l (Ok s) -> step s e o -> goes s0 (l ++ [e]) o.
Theorem C72_behind : exists l s, exec 2 l (Ok s) /\
  nth_error (qs s) 0 = Some [Disp 0; Fib 0; Fib 1] /\ nth_error (ru s) 0 = Some (Runs (Main 0)) /\
  forall l' o, Forall (fun e => e = Poll 1 \/ exists d, e = Draw 1 d) l' -> goes s l' o ->
  exists s', o = Ok s' /\ nth_error (qs s') 0 = Some [Disp 0; Fib 0; Fib 1] /\
    (nth_error (ru s') 1 = Some (Runs (Disp 1)) \/ exists k, nth_error (ru s') 1 = Some (Probes (Some (Disp 1)) k)).
Proof.
  set (h3 := fun g => if fiber_dec g (Fib 1) then None else (fun g => if fiber_dec g (Fib 1) then Some 0 else (fun g => if fiber_dec g (Fib 0) then None else (fun g => if fiber_dec g (Fib 0) then Some 0 else home (boot 2) g) g) g) g).
  set (S1 := fun r => St [[Disp 0; Fib 0; Fib 1]; []] [Runs (Main 0); r] [Main 1] [] h3).
  assert (H1 : exec 2 [Block 1; Spawn 0 0; Spawn 0 1] (Ok (S1 (Runs (Disp 1))))).
  { apply (x_step 2 [Block 1; Spawn 0 0] (Spawn 0 1) (St [[Disp 0; Fib 0]; []] [Runs (Main 0); Runs (Disp 1)] [Main 1] [] (fun g => if fiber_dec g (Fib 0) then None else (fun g => if fiber_dec g (Fib 0) then Some 0 else home (boot 2) g) g))).
    - apply (x_step 2 [Block 1] (Spawn 0 0) (St [[Disp 0]; []] [Runs (Main 0); Runs (Disp 1)] [Main 1] [] (home (boot 2)))).
      + apply (x_step 2 [] (Block 1) (boot 2)); [constructor|]. apply (e_block (boot 2) 1 (Main 1)); reflexivity.
      + apply (e_spawn (St [[Disp 0]; []] [Runs (Main 0); Runs (Disp 1)] [Main 1] [] (home (boot 2))) 0 0 (Main 0)); [reflexivity|]. simpl. intuition discriminate.
    - apply (e_spawn (St [[Disp 0; Fib 0]; []] [Runs (Main 0); Runs (Disp 1)] [Main 1] [] (fun g => if fiber_dec g (Fib 0) then None else (fun g => if fiber_dec g (Fib 0) then Some 0 else home (boot 2) g) g)) 0 1 (Main 0)); [reflexivity|]. simpl. intuition discriminate. }
  eexists _, _. split; [exact H1|]. split; [reflexivity|]. split; [reflexivity|].
  assert (Hall : forall l', Forall (fun e => e = Poll 1 \/ exists d, e = Draw 1 d) l' -> forall o, goes (S1 (Runs (Disp 1))) l' o ->
    exists r, o = Ok (S1 r) /\ (r = Runs (Disp 1) \/ exists k, r = Probes (Some (Disp 1)) k)).
  { induction l' as [|e l' IH] using rev_ind; intros Hf o Hx.
    - inversion Hx as [|l1 e1 s1 o1 Hx1 Hs1 Hl1]; subst; [|destruct l1; discriminate]. eauto.
    - apply Forall_app in Hf as [Hf He]. inversion He as [|? ? He' _]; subst.
      inversion Hx as [Hn|l1 e1 s1 o1 Hx1 Hs1 Hl1]. { destruct l'; discriminate. }
      apply app_inj_tail in Hl1 as [-> ->]. destruct (IH Hf _ Hx1) as (r & Hr & Hc). injection Hr as ->.
      destruct He' as [->|(d & ->)].
      + inversion Hs1; subst. match goal with HH : nth_error _ 1 = _ |- _ => cbn in HH; injection HH as -> end. destruct Hc as [Hc|(k & Hc)]; [|discriminate]. injection Hc as ->.
        eexists. split; [reflexivity|]. right. eauto.
      + inversion Hs1; subst. match goal with HH : nth_error _ 1 = _ |- _ => cbn in HH; injection HH as -> end. destruct Hc as [Hc|(k' & Hc)]; [discriminate|]. injection Hc as -> ->.
        match goal with HH : d < _ |- _ => simpl length in HH end. unfold draw. destruct d as [|[|d]]; [| |lia]; simpl.
        * destruct (S k' <? 2); eexists; (split; [reflexivity|]); eauto.
        * eexists. split; [reflexivity|]. eauto. }
  intros l' o Hf Hx. destruct (Hall l' Hf o Hx) as (r & -> & Hc). eexists. split; [reflexivity|]. split; [reflexivity|].
  destruct Hc as [->|(k & ->)]; simpl; eauto.
Qed.

(* Thread 0 creates a fiber and blocks; thread 1 draws itself, then thread 0, and runs
   the fiber, which blocks and is woken on thread 1. *)
Fixpoint remove1 (f : fiber) (l : list fiber) : option (list fiber) :=
  match l with
  | [] => None
  | g :: r => if fiber_dec g f then Some r else match remove1 f r with Some r' => Some (g :: r') | None => None end
  end.
Definition act (s : st) (e : ev) : option outcome :=
  match e with
  | Spawn t m => match nth_error (ru s) t with
      | Some (Runs _) => if in_dec fiber_dec (Fib m) (everyone s) then None else Some (awakened t (Fib m) (set_home (Fib m) (Some t) s))
      | _ => None end
  | Wake t f => match remove1 f (blocked s), home s f with
      | Some l, Some i => if i =? t then Some (awakened t f (St (qs s) (ru s) l (ended s) (home s))) else None
      | _, _ => None end
  | Yield t => match nth_error (ru s) t with Some (Runs f) => if is_disp f then None else Some (start t (Some f) s) | _ => None end
  | Block t => match nth_error (ru s) t with
      | Some (Runs f) => if is_disp f then None else Some (start t None (St (qs s) (ru s) (f :: blocked s) (ended s) (home s)))
      | _ => None end
  | End t => match nth_error (ru s) t with
      | Some (Runs (Fib m)) => Some (start t None (St (qs s) (ru s) (blocked s) (Fib m :: ended s) (home s)))
      | _ => None end
  | Poll t => match nth_error (ru s) t with Some (Runs (Disp i)) => Some (start t (Some (Disp i)) s) | _ => None end
  | Draw t d => match nth_error (ru s) t with
      | Some (Probes who k) => if d <? length (qs s) then Some (draw t d who k s) else None
      | _ => None end
  end.
Lemma remove1_split f l r : remove1 f l = Some r -> exists a b, l = a ++ f :: b /\ r = a ++ b.
Proof.
  revert r. induction l as [|g l IH]; intros r Hr; simpl in Hr; [discriminate|]. destruct (fiber_dec g f) as [->|].
  - injection Hr as <-. exists [], l. auto.
  - destruct (remove1 f l) as [r'|]; [|discriminate]. injection Hr as <-. destruct (IH _ eq_refl) as (a & b & -> & ->). exists (g :: a), b. auto.
Qed.
Lemma act_step s e o : act s e = Some o -> step s e o.
Proof.
  destruct e; simpl.
  - destruct (nth_error (ru s) t) as [[f|]|] eqn:Hr; try discriminate. destruct (in_dec _ _ _); [discriminate|]. intro Ho; injection Ho as <-. econstructor; eauto.
  - destruct (remove1 f (blocked s)) as [l|] eqn:Hl; [|discriminate]. destruct (home s f) as [i|] eqn:Hh; [|discriminate].
    destruct (Nat.eqb_spec i t) as [->|]; [|discriminate]. intro Ho; injection Ho as <-. apply remove1_split in Hl as (a & b & Hb & ->). econstructor; eauto.
  - destruct (nth_error (ru s) t) as [[f|]|] eqn:Hr; try discriminate. destruct (is_disp f) eqn:Hd; [discriminate|]. intro Ho; injection Ho as <-. econstructor; eauto.
  - destruct (nth_error (ru s) t) as [[f|]|] eqn:Hr; try discriminate. destruct (is_disp f) eqn:Hd; [discriminate|]. intro Ho; injection Ho as <-. econstructor; eauto.
  - destruct (nth_error (ru s) t) as [[[]|]|] eqn:Hr; try discriminate. intro Ho; injection Ho as <-. econstructor; eauto.
  - destruct (nth_error (ru s) t) as [[[]|]|] eqn:Hr; try discriminate. intro Ho; injection Ho as <-. econstructor; eauto.
  - destruct (nth_error (ru s) t) as [[|who k]|] eqn:Hr; try discriminate. destruct (Nat.ltb_spec d (length (qs s))); [|discriminate]. intro Ho; injection Ho as <-. econstructor; eauto.
Qed.
Fixpoint acts (s : st) (l : list ev) : option st :=
  match l with [] => Some s | e :: r => match act s e with Some (Ok s') => acts s' r | _ => None end end.
Lemma acts_exec n l2 : forall l1 s s', exec n l1 (Ok s) -> acts s l2 = Some s' -> exec n (l1 ++ l2) (Ok s').
Proof.
  induction l2 as [|e l2 IH]; intros l1 s s' Hx Ha; simpl in Ha.
  - injection Ha as <-. rewrite app_nil_r. exact Hx.
  - destruct (act s e) as [[s1|]|] eqn:He; try discriminate. apply act_step in He.
    change (e :: l2) with ([e] ++ l2). rewrite app_assoc. eapply IH; eauto. eapply x_step; eauto.
Qed.
(* Thread 0 creates a fiber and blocks; thread 1 draws itself, then thread 0, and runs
   the fiber, which blocks and is woken on thread 1. *)
Theorem C72_example : exists s, exec 2 [Spawn 0 0; Block 0; Block 1; Poll 1; Draw 1 1; Draw 1 0; Block 1; Wake 1 (Fib 0)] (Ok s) /\
  qs s = [[]; [Fib 0]] /\ ru s = [Runs (Disp 0); Runs (Disp 1)] /\ blocked s = [Main 1; Main 0].
Proof.
  destruct (acts (boot 2) [Spawn 0 0; Block 0; Block 1; Poll 1; Draw 1 1; Draw 1 0; Block 1; Wake 1 (Fib 0)]) as [s|] eqn:Ha.
  - exists s. split; [exact (acts_exec 2 _ [] _ _ (x_nil 2) Ha)|]. vm_compute in Ha. injection Ha as <-. repeat split; reflexivity.
  - vm_compute in Ha. discriminate.
Qed.
