(* SamplerP.v -- property C42: the Sampler returns results in submission order. *)
From Coq Require Import Reals Lra ZArith Bool List Lia Arith.
From Verif Require Import Spec Backend BackSpec BackendP BackendQ BackendX Sampler.
Import ListNotations.
Open Scope nat_scope.

(* consecutive computations: each starts with the draws the previous one left *)
Inductive each {A B} (f : A -> tree B) : list A -> list B -> list R -> list R -> Prop :=
| ea_nil ths : each f [] [] ths ths
| ea_cons a l b bs ths r rest : run (f a) ths = Some (Some b, r) -> each f l bs r rest -> each f (a :: l) (b :: bs) ths rest.
Lemma run_each {A B} (f : A -> tree B) l : forall bs ths rest, run (traverse f l) ths = Some (Some bs, rest) -> each f l bs ths rest.
Proof.
  induction l as [|a l IH]; intros bs ths rest H; cbn in H.
  - injection H as <- <-. constructor.
  - apply run_bind_some in H as (b & r & Hb & H). apply run_bind_some in H as (bs' & r' & Hr & H). cbn in H. injection H as <- <-.
    econstructor; eauto.
Qed.

(* ---- argsort of what append builds ---- *)
Lemma insert_dup a n : fold_right insert [] (combine (seq a n) (seq a n)) = combine (seq a n) (seq a n).
Proof.
  revert a. induction n as [|n IH]; intros a; [reflexivity|]. cbn [seq combine fold_right]. rewrite IH.
  destruct n as [|n]; [reflexivity|]. cbn [seq combine insert fst]. now rewrite (proj2 (Nat.leb_le a (S a))) by lia.
Qed.
Lemma snd_combine a n : map snd (combine (seq a n) (seq a n)) = seq a n.
Proof. revert a. induction n as [|n IH]; intros a; cbn; [reflexivity|]. now rewrite IH. Qed.
Lemma argsort_seq n : argsort (seq 0 n) = seq 0 n.
Proof. unfold argsort. rewrite seq_length, insert_dup. apply snd_combine. Qed.
Lemma concat_single l : concat (map (fun i : nat => [i]) l) = l.
Proof. induction l as [|x l IH]; cbn; [reflexivity|]. now rewrite IH. Qed.
Lemma seq_S_end a n : seq a (S n) = seq a n ++ [a + n].
Proof. apply seq_S. Qed.
Lemma index_of_some k l i : index_of k l = Some i -> nth_error l i = Some k.
Proof.
  revert i. induction l as [|y l IH]; intros i H; cbn in H; [discriminate|]. destruct (k =? y) eqn:E.
  - apply Nat.eqb_eq in E as ->. injection H as <-. reflexivity.
  - destruct (index_of k l) as [j|]; [|discriminate]. injection H as <-. cbn. now apply IH.
Qed.
Lemma index_of_none k l : index_of k l = None <-> ~ In k l.
Proof.
  induction l as [|y l IH]; cbn; [split; auto|]. destruct (k =? y) eqn:E.
  - apply Nat.eqb_eq in E as ->. split; [discriminate|]. intros h. exfalso. apply h. now left.
  - apply Nat.eqb_neq in E. destruct (index_of k l); cbn; split; try discriminate.
    + intros h. exfalso. apply h. right. destruct IH as [IH1 IH2]. destruct (in_dec Nat.eq_dec k l) as [Hi|Hi]; auto. exfalso. discriminate (IH2 Hi).
    + intros _ [h|h]; [congruence|]. destruct IH as [IH1 IH2]. now apply IH1.
    + reflexivity.
Qed.

Section P.
Context {Q K N V : Type} (K_dec : forall x y : K, {x = y} + {x <> y}).
Context (key : Q -> K) (params : Q -> list N) (assign : Q -> option (list (N * V)) -> option circ) (transp : nat -> Q -> Q).
Context (eps : R) (default_shots : option Z).
Notation sampler := (@sampler Q K N).
Notation register := (register K_dec key params).
Notation register_all := (register_all K_dec key params).
Notation sampler_run := (sampler_run K_dec key params assign transp eps default_shots).
Notation sreach := (sreach K_dec key params assign transp eps default_shots).
Notation transpile1 := (@transpile1 Q K N transp).
Notation transpile_all := (@transpile_all Q K N transp).

(* ---- the object ---- *)
Definition sinv (s : sampler) : Prop :=
  parameters s = map params (circuits s) /\
  (forall k i, get_id K_dec (circuit_ids s) k = Some i -> exists q, nth_error (circuits s) i = Some q /\ key q = k) /\
  (forall i q', get_tr (transpiled s) i = Some q' -> exists t q, nth_error (circuits s) i = Some q /\ q' = transp t q).
Lemma sinv_init : sinv sampler_init.
Proof. split; [reflexivity|]. split; discriminate. Qed.
Lemma nth_error_snoc {A} (l : list A) i x y : nth_error l i = Some x -> nth_error (l ++ [y]) i = Some x.
Proof. intros H. rewrite nth_error_app1; auto. apply nth_error_Some. congruence. Qed.
Lemma register_inv s q i s1 : sinv s -> register s q = (i, s1) -> sinv s1 /\ get_id K_dec (circuit_ids s1) (key q) = Some i /\
  (forall k j, get_id K_dec (circuit_ids s) k = Some j -> get_id K_dec (circuit_ids s1) k = Some j).
Proof.
  intros (I1 & I2 & I3) H. unfold register in H. destruct (get_id K_dec (circuit_ids s) (key q)) as [j|] eqn:E; injection H as <- <-.
  - split; [split; auto|]. auto.
  - cbn [circuits parameters circuit_ids transpiled]. split; [|split].
    + split; [cbn [parameters circuits]; rewrite map_app; cbn; now rewrite I1|]. split.
      * intros k i H. cbn [circuit_ids get_id] in H. cbn [circuits]. destruct (K_dec k (key q)) as [->|Hn].
        { injection H as <-. exists q. split; [|reflexivity]. now rewrite nth_error_app2, Nat.sub_diag by lia. }
        destruct (I2 k i H) as (q0 & Hq & Ek). exists q0. split; [now apply nth_error_snoc|exact Ek].
      * intros i q' H. cbn [transpiled] in H. cbn [circuits]. destruct (I3 i q' H) as (t & q0 & Hq & Eq). exists t, q0. split; [now apply nth_error_snoc|exact Eq].
    + cbn [get_id]. destruct (K_dec (key q) (key q)); congruence.
    + intros k j H. cbn [get_id]. destruct (K_dec k (key q)) as [->|]; [congruence|exact H].
Qed.
Lemma register_all_inv qs : forall s is_ s1, sinv s -> register_all s qs = (is_, s1) -> sinv s1 /\
  Forall2 (fun q i => get_id K_dec (circuit_ids s1) (key q) = Some i) qs is_ /\
  (forall k j, get_id K_dec (circuit_ids s) k = Some j -> get_id K_dec (circuit_ids s1) k = Some j).
Proof.
  induction qs as [|q qs IH]; intros s is_ s2 Hi H; cbn [Sampler.register_all] in H.
  - injection H as <- <-. auto.
  - destruct (register s q) as [i s1] eqn:E1. destruct (register_all s1 qs) as [l s2'] eqn:E2. injection H as <- <-.
    destruct (register_inv s q i s1 Hi E1) as (H1 & H2 & H3). destruct (IH s1 l s2' H1 E2) as (H4 & H5 & H6).
    split; [exact H4|]. split; [constructor; auto|]. intros k j Hk. auto.
Qed.
Lemma transpile1_inv s i : sinv s -> sinv (transpile1 s i) /\ circuit_ids (transpile1 s i) = circuit_ids s /\ circuits (transpile1 s i) = circuits s /\
  (i < length (circuits s) -> exists q, get_tr (transpiled (transpile1 s i)) i = Some q) /\
  (forall j q, get_tr (transpiled s) j = Some q -> get_tr (transpiled (transpile1 s i)) j = Some q).
Proof.
  intros (I1 & I2 & I3). unfold Sampler.transpile1. destruct (get_tr (transpiled s) i) as [q|] eqn:Et.
  { split; [split; auto|]. split; [reflexivity|]. split; [reflexivity|]. split; eauto. }
  destruct (nth_error (circuits s) i) as [q|] eqn:En.
  - cbn [circuits parameters circuit_ids transpiled]. split; [|split; [reflexivity|split; [reflexivity|split]]].
    + split; [exact I1|]. split; [exact I2|]. cbn [transpiled circuits get_tr]. intros j q' H. destruct (j =? i) eqn:E.
      * apply Nat.eqb_eq in E as ->. injection H as <-. eauto.
      * auto.
    + intros _. cbn [get_tr]. rewrite Nat.eqb_refl. eauto.
    + intros j q0 H. cbn [get_tr]. destruct (j =? i) eqn:E; [apply Nat.eqb_eq in E as ->; congruence|exact H].
  - split; [split; auto|]. split; [reflexivity|]. split; [reflexivity|]. split; [|auto].
    intros Hl. apply nth_error_None in En. lia.
Qed.
Lemma transpile_all_inv is_ : forall s, sinv s -> let s' := transpile_all s is_ in
  sinv s' /\ circuit_ids s' = circuit_ids s /\ circuits s' = circuits s /\
  (forall i, In i is_ -> i < length (circuits s) -> exists q, get_tr (transpiled s') i = Some q) /\
  (forall j q, get_tr (transpiled s) j = Some q -> get_tr (transpiled s') j = Some q).
Proof.
  induction is_ as [|i l IH]; intros s Hi; cbn zeta; cbn [Sampler.transpile_all fold_left].
  - split; [exact Hi|]. split; [reflexivity|]. split; [reflexivity|]. split; [intros j []|auto].
  - destruct (transpile1_inv s i Hi) as (H1 & H2 & H3 & H4 & H5). specialize (IH (transpile1 s i) H1). cbn zeta in IH.
    destruct IH as (J1 & J2 & J3 & J4 & J5). unfold Sampler.transpile_all in *. rewrite H2 in J2. rewrite H3 in J3, J4.
    split; [exact J1|]. split; [exact J2|]. split; [exact J3|]. split; [|auto].
    intros j [<-|Hj] Hl; [|auto]. destruct (H4 Hl) as (q & Hq). eauto.
Qed.
Lemma sreach_inv s : sreach s -> sinv s.
Proof.
  intros H. induction H as [|s sub shots H IH]; [apply sinv_init|]. unfold Sampler.sampler_run.
  destruct (register_all s (map fst sub)) as [is_ s1] eqn:E. cbn [fst].
  destruct (register_all_inv _ _ _ _ IH E) as (H1 & _). apply (transpile_all_inv is_ s1 H1).
Qed.

(* ---- the experiment manager ---- *)
Notation manager := (@manager Q N V).
Definition minv (s : sampler) (m : manager) : Prop :=
  num_experiment m = length (keys m) /\ length (parameter_binds m) = length (keys m) /\ length (experiment_circuits m) = length (keys m) /\
  input_indices m = map (fun i => [i]) (seq 0 (num_experiment m)) /\
  forall j k, nth_error (keys m) j = Some k -> length (nth j (parameter_binds m) []) = length (nth k (parameters s) []).
Lemma minv_init s : minv s manager_init.
Proof. repeat split; auto. intros [|j] k H; discriminate. Qed.
Definition fresh (m : manager) k b q : manager :=
  Mgr (keys m ++ [k]) (experiment_circuits m ++ [q]) (parameter_binds m ++ [b]) (input_indices m ++ [[num_experiment m]]) (S (num_experiment m)).
Lemma append_cases s m k b (q : Q) : minv s m -> length b = length (nth k (parameters s) []) ->
  append m k b q = (if match b with [] => false | _ => match index_of k (keys m) with Some _ => true | None => false end end then None else Some (fresh m k b q)).
Proof.
  intros (M1 & M2 & M3 & M4 & M5) Hb. unfold append. destruct b as [|x b]; [reflexivity|].
  destruct (index_of k (keys m)) as [ki|] eqn:E; [|reflexivity].
  apply index_of_some in E. specialize (M5 ki k E). destruct (nth ki (parameter_binds m) []); [|reflexivity].
  rewrite <- Hb in M5. discriminate.
Qed.
Lemma fresh_inv s m k b q : minv s m -> length b = length (nth k (parameters s) []) -> minv s (fresh m k b q).
Proof.
  intros (M1 & M2 & M3 & M4 & M5) Hb. unfold fresh, minv. cbn [keys parameter_binds experiment_circuits input_indices num_experiment].
  rewrite !app_length. cbn [length]. split; [lia|]. split; [lia|]. split; [lia|]. split.
  - rewrite seq_S_end, map_app, M4. cbn. reflexivity.
  - intros j k' H. destruct (Nat.lt_ge_cases j (length (keys m))) as [h|h].
    + rewrite nth_error_app1 in H by lia. rewrite app_nth1 by lia. auto.
    + rewrite nth_error_app2 in H by lia. rewrite app_nth2 by lia. replace (j - length (parameter_binds m)) with (j - length (keys m)) by lia.
      destruct (j - length (keys m)) as [|[|?]]; cbn in H; try discriminate. injection H as <-. exact Hb.
Qed.
(* what a run of the loop at 98-109 collects when it does not raise *)
Lemma collect_ok s l : forall m m', minv s m -> collect s m l = Some m' ->
  minv s m' /\ exists qs, Forall2 (fun iv q => get_tr (transpiled s) (fst iv) = Some q /\ length (snd iv) = length (nth (fst iv) (parameters s) [])) l qs /\
    experiment_circuits m' = experiment_circuits m ++ qs /\
    parameter_binds m' = parameter_binds m ++ map (fun iv => combine (nth (fst iv) (parameters s) []) (snd iv)) l /\
    num_experiment m' = num_experiment m + length l.
Proof.
  induction l as [|[i v] l IH]; intros m m' Hm H; cbn [collect] in H.
  - injection H as <-. split; [exact Hm|]. exists []. rewrite app_nil_r. cbn [map]. rewrite app_nil_r. cbn. repeat split; auto. lia.
  - destruct (length v =? length (nth i (parameters s) [])) eqn:El; [|discriminate]. apply Nat.eqb_eq in El. cbn [negb] in H.
    destruct (get_tr (transpiled s) i) as [q|] eqn:Et; [|discriminate].
    assert (Hb : length (combine (nth i (parameters s) []) v) = length (nth i (parameters s) [])) by (rewrite combine_length; lia).
    rewrite (append_cases s) in H by auto. destruct (match combine _ v with [] => false | _ => _ end); [discriminate|].
    destruct (IH _ _ (fresh_inv s m i _ q Hm Hb) H) as (H1 & qs & H2 & H3 & H4 & H5). split; [exact H1|]. exists (q :: qs).
    cbn [fresh experiment_circuits parameter_binds num_experiment] in *. split; [constructor; auto|].
    split; [rewrite H3, <- app_assoc; reflexivity|]. split; [rewrite H4, <- app_assoc; reflexivity|]. cbn. lia.
Qed.
Lemma collect_keys s l : forall m m', collect s m l = Some m' -> minv s m -> keys m' = keys m ++ map fst l.
Proof.
  induction l as [|[i v] l IH]; intros m m' H Hm; cbn [collect] in H.
  - injection H as <-. cbn. now rewrite app_nil_r.
  - destruct (length v =? length (nth i (parameters s) [])) eqn:El; [|discriminate]. apply Nat.eqb_eq in El. cbn [negb] in H.
    destruct (get_tr (transpiled s) i) as [q|] eqn:Et; [|discriminate].
    assert (Hb : length (combine (nth i (parameters s) []) v) = length (nth i (parameters s) [])) by (rewrite combine_length; lia).
    rewrite (append_cases s) in H by auto. destruct (match combine _ v with [] => false | _ => _ end); [discriminate|].
    rewrite (IH _ _ H (fresh_inv s m i _ q Hm Hb)). cbn. now rewrite <- app_assoc.
Qed.
(* when it does *)
Lemma collect_repeat s l : forall m i, minv s m -> In i (keys m) -> In i (map fst l) -> nth i (parameters s) [] <> [] -> collect s m l = None.
Proof.
  induction l as [|[k v] l IH]; intros m i Hm Hk Hl Hp; [destruct Hl|]. cbn [collect].
  destruct (length v =? length (nth k (parameters s) [])) eqn:El; [|reflexivity]. apply Nat.eqb_eq in El. cbn [negb].
  destruct (get_tr (transpiled s) k) as [q|] eqn:Et; [|reflexivity].
  assert (Hb : length (combine (nth k (parameters s) []) v) = length (nth k (parameters s) [])) by (rewrite combine_length; lia).
  rewrite (append_cases s) by auto. cbn in Hl. destruct (Nat.eq_dec k i) as [->|Hn].
  - destruct (combine (nth i (parameters s) []) v) as [|x c] eqn:Ec.
    + exfalso. destruct (nth i (parameters s) []); [congruence|discriminate].
    + destruct (index_of i (keys m)) eqn:E; [reflexivity|]. exfalso. revert Hk. now apply index_of_none.
  - destruct (match combine _ v with [] => false | _ => _ end); [reflexivity|].
    apply (IH _ i); auto.
    + now apply fresh_inv.
    + cbn. apply in_or_app. now left.
    + destruct Hl; [congruence|auto].
Qed.
Lemma collect_repeat2 s l : forall m a b, minv s m -> a < b -> (exists i, nth_error (map fst l) a = Some i /\ nth_error (map fst l) b = Some i /\
  nth i (parameters s) [] <> []) -> collect s m l = None.
Proof.
  induction l as [|[k v] l IH]; intros m a b Hm Hab (i & Ha & Hb & Hp); [destruct a; discriminate|]. cbn [collect].
  destruct (length v =? length (nth k (parameters s) [])) eqn:El; [|reflexivity]. apply Nat.eqb_eq in El. cbn [negb].
  destruct (get_tr (transpiled s) k) as [q|] eqn:Et; [|reflexivity].
  assert (Hlb : length (combine (nth k (parameters s) []) v) = length (nth k (parameters s) [])) by (rewrite combine_length; lia).
  rewrite (append_cases s) by auto. destruct (match combine _ v with [] => false | _ => _ end); [reflexivity|].
  destruct b as [|b]; [lia|]. cbn in Hb. destruct a as [|a].
  - cbn in Ha. injection Ha as ->. apply (collect_repeat s l _ i); auto.
    + now apply fresh_inv.
    + cbn. apply in_or_app. right. now left.
    + eapply nth_error_In; eauto.
  - cbn in Ha. apply (IH _ a b); [now apply fresh_inv|lia|]. eauto.
Qed.
Lemma collect_succeeds s l : forall m, minv s m ->
  (forall iv, In iv l -> length (snd iv) = length (nth (fst iv) (parameters s) []) /\ exists q, get_tr (transpiled s) (fst iv) = Some q) ->
  (forall i, In i (keys m) -> In i (map fst l) -> nth i (parameters s) [] = []) ->
  (forall a b i, a < b -> nth_error (map fst l) a = Some i -> nth_error (map fst l) b = Some i -> nth i (parameters s) [] = []) ->
  exists m', collect s m l = Some m'.
Proof.
  induction l as [|[k v] l IH]; intros m Hm Hl H1 H2; cbn [collect]; [eauto|].
  destruct (Hl (k, v) (or_introl eq_refl)) as (Hv & q & Hq). cbn [fst snd] in *. rewrite Hv, Nat.eqb_refl, Hq. cbn [negb].
  assert (Hb : length (combine (nth k (parameters s) []) v) = length (nth k (parameters s) [])) by (rewrite combine_length; lia).
  rewrite (append_cases s) by auto.
  assert (E : match combine (nth k (parameters s) []) v with [] => false | _ => match index_of k (keys m) with Some _ => true | None => false end end = false).
  { destruct (index_of k (keys m)) as [j|] eqn:Ej; [|now destruct (combine _ v)]. apply index_of_some, nth_error_In in Ej.
    rewrite (H1 k Ej (or_introl eq_refl)). reflexivity. }
  rewrite E. apply IH.
  - now apply fresh_inv.
  - intros iv Hi. apply Hl. now right.
  - cbn. intros i Hi Hin. apply in_app_or in Hi as [Hi|[<-|[]]]; [apply H1; [exact Hi|now right]|].
    apply In_nth_error in Hin as (b & Hb'). apply (H2 0 (S b)); [lia|reflexivity|exact Hb'].
  - intros a b i Hab Ha Hb'. apply (H2 (S a) (S b)); [lia|exact Ha|exact Hb'].
Qed.

(* ---- the results ---- *)
Lemma map_nth_seq {A B} (f : A -> option B) l : forall pre, map (fun i => match nth_error (pre ++ l) i with Some d => f d | None => None end) (seq (length pre) (length l)) = map f l.
Proof.
  induction l as [|x l IH]; intros pre; [reflexivity|]. cbn [length seq map]. rewrite nth_error_app2, Nat.sub_diag by lia. cbn [nth_error]. f_equal.
  specialize (IH (pre ++ [x])). rewrite app_length in IH. cbn in IH. rewrite Nat.add_1_r in IH. rewrite <- IH. apply map_ext. intros i. now rewrite <- app_assoc.
Qed.
Lemma post_all_seq sn l n : length l = n -> post_all sn l (seq 0 n) = all_some (map (post sn) l).
Proof. intros <-. unfold post_all. f_equal. exact (map_nth_seq (post sn) l []). Qed.
Lemma post_all_failed sn n : n <> 0 -> post_all sn [] (seq 0 n) = None.
Proof. destruct n; [congruence|]. reflexivity. Qed.
Definition eff (shots : option (option Z)) : option Z := match shots with Some s => s | None => default_shots end.
Lemma run_backend_done circs shots bs ths j rest : length circs = length bs ->
  run (run_backend eps false default_shots (Some (circs : list (@pcirc (list (N * V))))) (Ropts shots (Some bs))) ths = Some (Some j, rest) ->
  j = Failed \/ exists jobs ds, j = Done ds /\ length ds = length circs /\
    Forall2 (fun pb cp => fst pb (Some (snd pb)) = Some (fst cp) /\ validate_circuit true (fst cp) = Some (snd cp)) (combine circs bs) jobs /\
    each (fun cp => evaluate eps (fst cp) (snd cp) (eff shots)) jobs ds ths rest.
Proof.
  intros Hlen H. unfold run_backend in H. apply run_catch in H as (a & Ha & H). injection Ha as <-.
  destruct H as [H|[-> _]]; [|now left]. right. apply run_bind_some in H as (l & r & Hl & H). cbn in H. injection H as <- <-.
  unfold run_internal in Hl. cbn [r_shots r_binds] in Hl. destruct (shots_ok shots); [|discriminate]. cbn [negb] in Hl.
  destruct (all_some (bound circs (Some bs))) as [cs|] eqn:E1; [|discriminate].
  destruct (all_some (map (validate_circuit true) cs)) as [ps|] eqn:E2; [|discriminate].
  apply all_some_spec in E1, E2. cbn [bound] in E1. apply map_some_inv in E1, E2.
  apply run_each in Hl. exists (combine cs ps), l.
  assert (E3 : length l = length (combine cs ps)) by (clear -Hl; induction Hl; cbn; congruence).
  pose proof (F2_combine _ _ _ E1) as L1. pose proof (F2_combine _ _ _ E2) as L2. rewrite combine_length in L1, E3.
  split; [reflexivity|]. split; [lia|]. split; [|exact Hl]. clear -E1 E2. revert ps E2.
  induction E1 as [|pb c l cs H1 H2 IH]; intros ps E2; inversion E2; subst; cbn [combine]; constructor; auto.
Qed.
Definition one (shots : option (option Z)) (cp : circ * cprop) : tree quasi :=
  bind (evaluate eps (fst cp) (snd cp) (eff shots)) (fun d => match post (is_none shots) d with Some q => Leaf q | None => Raise end).
Lemma each_post shots jobs ds ths rest qs : each (fun cp => evaluate eps (fst cp) (snd cp) (eff shots)) jobs ds ths rest ->
  all_some (map (post (is_none shots)) ds) = Some qs -> each (one shots) jobs qs ths rest.
Proof.
  intros H. revert qs. induction H as [ths|a l b bs ths r rest Ha H IH]; intros qs Hq.
  - injection Hq as <-. constructor.
  - cbn [map all_some] in Hq. destruct (post (is_none shots) b) as [q|] eqn:Eq; [|discriminate].
    destruct (all_some (map (post (is_none shots)) bs)) as [qs'|]; [|discriminate]. injection Hq as <-.
    econstructor; [|now apply IH]. unfold one. rewrite run_bind, Ha, Eq. reflexivity.
Qed.
(* [q] was submitted with values [vals]: what is evaluated for it *)
Definition evaluated (sub : Q * list V) (cp : circ * cprop) : Prop :=
  exists t q', key q' = key (fst sub) /\ length (snd sub) = length (params q') /\
    assign (transp t q') (Some (combine (params q') (snd sub))) = Some (fst cp) /\ validate_circuit true (fst cp) = Some (snd cp).
Lemma nth_params s i q : sinv s -> nth_error (circuits s) i = Some q -> nth i (parameters s) [] = params q.
Proof.
  intros (I1 & _) H. rewrite I1. apply nth_error_nth. now apply map_nth_error.
Qed.
Lemma sub_exp s (sub : list (Q * list V)) : forall is_ qs, sinv s -> Forall2 (fun q i => get_id K_dec (circuit_ids s) (key q) = Some i) (map fst sub) is_ ->
  Forall2 (fun iv q => get_tr (transpiled s) (fst iv) = Some q /\ length (snd iv) = length (nth (fst iv) (parameters s) [])) (combine is_ (map snd sub)) qs ->
  Forall2 (fun qv q1 => exists t q', key q' = key (fst qv) /\ length (snd qv) = length (params q') /\ q1 = transp t q') sub qs /\
  map (fun iv => combine (nth (fst iv) (parameters s) []) (snd iv)) (combine is_ (map snd sub)) = map snd (combine qs (map (fun iv => combine (nth (fst iv) (parameters s) []) (snd iv)) (combine is_ (map snd sub)))) /\
  Forall2 (fun qv qb => exists t q', key q' = key (fst qv) /\ length (snd qv) = length (params q') /\ fst qb = transp t q' /\ snd qb = combine (params q') (snd qv))
    sub (combine qs (map (fun iv => combine (nth (fst iv) (parameters s) []) (snd iv)) (combine is_ (map snd sub)))).
Proof.
  intros is_ qs Hi. revert is_ qs. induction sub as [|[q v] sub IH]; intros is_ qs H1 H2; cbn [map fst snd] in H1; inversion H1; subst; cbn [map combine snd] in H2.
  - inversion H2; subst. repeat split; constructor.
  - inversion H2 as [|? q1 ? qs' [Ht Hl] H2']; subst. cbn [fst snd] in *. destruct (IH _ _ ltac:(eassumption) H2') as (J1 & J2 & J3).
    destruct Hi as (I1 & I2 & I3). destruct (I3 _ _ Ht) as (t & q' & Hq' & ->). destruct (I2 _ _ ltac:(eassumption)) as (q2 & Hq2 & Hk).
    rewrite Hq' in Hq2. injection Hq2 as ->. rewrite (nth_params s _ q2 (conj I1 (conj I2 I3)) Hq') in Hl.
    cbn [map combine fst snd]. split; [|split].
    + constructor; [|exact J1]. exists t, q2. auto.
    + f_equal. exact J2.
    + constructor; [|exact J3]. exists t, q2. cbn [fst snd]. rewrite (nth_params s _ q2 (conj I1 (conj I2 I3)) Hq'). auto.
Qed.
(* For every history of submissions to the Sampler and every further submission:
   if results are returned, there is one per submitted pair, in order; the i-th is
   obtained by evaluating the i-th circuit bound to the i-th values -- as many
   samples as asked for, or the probabilities if shots=None -- with draws of its
   own. *)
Theorem C42_order s sub shots ths res rest : sreach s ->
  run (snd (sampler_run s sub shots)) ths = Some (Some res, rest) -> sub <> [] ->
  exists jobs, Forall2 evaluated sub jobs /\ each (one shots) jobs res ths rest /\ length res = length sub.
Proof.
  intros Hs H Hne. apply sreach_inv in Hs. unfold Sampler.sampler_run in H.
  destruct (register_all s (map fst sub)) as [is_ s1] eqn:E. cbn [snd] in H.
  destruct (register_all_inv _ _ _ _ Hs E) as (H1 & H2 & _).
  destruct (transpile_all_inv is_ s1 H1) as (T1 & T2 & T3 & _). set (s2 := transpile_all s1 is_) in *.
  rewrite <- T2 in H2. unfold call in H. destruct (collect s2 manager_init (combine is_ (map snd sub))) as [m|] eqn:Ec; [|discriminate].
  destruct (collect_ok s2 _ _ _ (minv_init s2) Ec) as (Hm & qs & C1 & C2 & C3 & C4).
  cbn [manager_init experiment_circuits parameter_binds num_experiment app] in C2, C3, C4.
  assert (L1 : length sub = length is_) by (apply F2_combine in H2; now rewrite map_length in H2).
  assert (L2 : length (combine is_ (map snd sub)) = length sub) by (rewrite combine_length, map_length; lia).
  assert (L3 : length qs = length sub) by (apply F2_combine in C1; lia).
  destruct (sub_exp s2 sub is_ qs T1 H2 C1) as (J1 & _ & J3).
  apply run_bind_some in H as (j & r & Hj & H). rewrite C2, C3 in Hj.
  assert (Ei : experiment_indices m = seq 0 (length sub)).
  { unfold experiment_indices. destruct Hm as (_ & _ & _ & -> & _). rewrite concat_single, argsort_seq, C4. now rewrite L2. }
  rewrite Ei in H. apply run_backend_done in Hj as [-> |(jobs & ds & -> & Hd & F1 & F2)].
  - rewrite post_all_failed in H; [discriminate|]. destruct sub; [congruence|discriminate].
  - rewrite map_length in Hd. rewrite post_all_seq in H by lia.
    destruct (all_some (map (post (is_none shots)) ds)) as [l|] eqn:El; [|discriminate]. cbn in H. injection H as -> ->.
    exists jobs. split; [|split; [eapply each_post; eauto|]].
    + clear -F1 J3 L3. revert qs F1 J3 L3. generalize (map (fun iv : nat * list V => combine (nth (fst iv) (parameters s2) []) (snd iv)) (combine is_ (map snd sub))).
      intros bs qs. revert sub bs jobs. induction qs as [|q qs IH]; intros sub bs jobs F1 J3 L3.
      { destruct sub; [|discriminate]. cbn in F1. inversion F1. constructor. }
      destruct sub as [|x sub]; [discriminate|]. destruct bs as [|b bs]; cbn [map combine] in F1, J3; inversion J3; subst.
      inversion F1; subst. constructor; [|eapply IH; eauto].
      destruct H2 as (t & q' & Ek & El & Eq & Eb). destruct H1 as (Ea & Ev). cbn [fst snd] in *. subst. exists t, q'. auto.
    + pose proof (all_some_spec _ _ El) as Em. apply (f_equal (@length _)) in Em. rewrite !map_length in Em. lia.
  - rewrite map_length, map_length. lia.
Qed.
(* Results are returned: as long as no circuit with parameters occurs twice among
   the submitted pairs, and the backend reports success with data of the kind asked
   for, the results are its data in order. *)
Theorem C42_returned_partial s sub shots : sreach s -> (forall q q', key q = key q' -> params q = params q') ->
  (forall x, In x sub -> length (snd x) = length (params (fst x))) ->
  (forall a b x y, a < b -> nth_error sub a = Some x -> nth_error sub b = Some y -> key (fst x) = key (fst y) -> params (fst x) = []) ->
  exists qs, Forall2 (fun qv qb => exists t q', key q' = key (fst qv) /\ fst qb = transp t q' /\ snd qb = combine (params q') (snd qv)) sub qs /\
    forall ths ds rest,
      run (run_backend eps false default_shots (Some (map (fun qb => assign (fst qb)) qs)) (Ropts shots (Some (map snd qs)))) ths = Some (Some (Done ds), rest) ->
      run (snd (sampler_run s sub shots)) ths = Some (all_some (map (post (is_none shots)) ds), rest).
Proof.
  intros Hs Hkey Hlen Hno. apply sreach_inv in Hs. unfold Sampler.sampler_run.
  destruct (register_all s (map fst sub)) as [is_ s1] eqn:E. cbn [snd].
  destruct (register_all_inv _ _ _ _ Hs E) as (H1 & H2 & _).
  destruct (transpile_all_inv is_ s1 H1) as (T1 & T2 & T3 & T4 & _). set (s2 := transpile_all s1 is_) in *. clearbody s2.
  rewrite <- T2 in H2. rewrite <- T3 in T4.
  assert (L1 : length sub = length is_) by (apply F2_combine in H2; now rewrite map_length in H2).
  assert (L2 : length (combine is_ (map snd sub)) = length sub) by (rewrite combine_length, map_length; lia).
  assert (Hat : forall a i v, nth_error (combine is_ (map snd sub)) a = Some (i, v) -> exists q, nth_error sub a = Some (q, v) /\ In i is_ /\
    exists q', nth_error (circuits s2) i = Some q' /\ key q' = key q).
  { clear -H2 T1. revert is_ H2. induction sub as [|[q v] sub IH]; intros is_ H2 a i w Ha; inversion H2; subst; cbn [map combine] in Ha; [destruct a; discriminate|].
    destruct a as [|a]; cbn in Ha.
    - injection Ha as -> ->. exists q. split; [reflexivity|]. split; [now left|]. destruct T1 as (_ & I2 & _). now apply I2.
    - destruct (IH _ ltac:(eassumption) a i w Ha) as (q0 & Hq & Hin & Hr). exists q0. split; [exact Hq|]. split; [now right|exact Hr]. }
  destruct (collect_succeeds s2 (combine is_ (map snd sub)) manager_init (minv_init s2)) as (m & Ec).
  - intros [i v] Hi. apply In_nth_error in Hi as (a & Ha). destruct (Hat a i v Ha) as (q & Hq & Hin & q' & Hq' & Ek). cbn [fst snd].
    rewrite (nth_params s2 i q' T1 Hq'), (Hkey q' q Ek). split; [exact (Hlen (q, v) (nth_error_In _ _ Hq))|].
    apply T4; [exact Hin|]. apply nth_error_Some. congruence.
  - intros i [].
  - intros a b i Hab Ha Hb. rewrite nth_error_map in Ha, Hb.
    destruct (nth_error (combine is_ (map snd sub)) a) as [[i1 v1]|] eqn:Ea; [|discriminate]. injection Ha as ->.
    destruct (nth_error (combine is_ (map snd sub)) b) as [[i2 v2]|] eqn:Eb; [|discriminate]. injection Hb as ->. cbn [fst] in *.
    destruct (Hat a i v1 Ea) as (qa & Hqa & _ & q' & Hq' & Ek). destruct (Hat b i v2 Eb) as (qb & Hqb & _ & q'' & Hq'' & Ek').
    rewrite Hq' in Hq''. injection Hq'' as <-. rewrite (nth_params s2 i q' T1 Hq'), (Hkey q' qa Ek).
    apply (Hno a b (qa, v1) (qb, v2) Hab Hqa Hqb). cbn. congruence.
  - destruct (collect_ok s2 _ _ _ (minv_init s2) Ec) as (Hm & qs & C1 & C2 & C3 & C4).
    cbn [manager_init experiment_circuits parameter_binds num_experiment app] in C2, C3, C4.
    assert (L3 : length qs = length sub) by (apply F2_combine in C1; lia).
    destruct (sub_exp s2 sub is_ qs T1 H2 C1) as (_ & _ & J3). rewrite <- C3 in J3.
    assert (Lb : length (parameter_binds m) = length sub) by (rewrite C3, map_length; exact L2).
    exists (combine qs (parameter_binds m)). split.
    { eapply F2_impl; [|exact J3]. intros [q v] [q1 b] (t & q' & A & _ & B & D). exists t, q'. auto. }
    intros ths ds rest Hr. unfold call. rewrite Ec, run_bind, C2.
    assert (F1 : map (fun qb => assign (fst qb)) (combine qs (parameter_binds m)) = map assign qs).
    { clear -L3 Lb. revert sub L3 Lb. generalize (parameter_binds m) as bs. induction qs as [|q qs IH]; intros bs sub L3 Lb; [reflexivity|].
      destruct sub as [|x sub]; [discriminate|]. destruct bs as [|b bs]; [discriminate|]. cbn. f_equal. apply (IH bs sub); cbn in *; lia. }
    assert (F2 : map snd (combine qs (parameter_binds m)) = parameter_binds m).
    { clear -L3 Lb. revert sub L3 Lb. generalize (parameter_binds m) as bs. induction qs as [|q qs IH]; intros bs sub L3 Lb.
      - destruct sub; [|discriminate]. destruct bs; [reflexivity|discriminate].
      - destruct sub as [|x sub]; [discriminate|]. destruct bs as [|b bs]; [discriminate|]. cbn. f_equal. apply (IH bs sub); cbn in *; lia. }
    rewrite F1, F2 in Hr. rewrite Hr.
    assert (Ei : experiment_indices m = seq 0 (length sub)).
    { unfold experiment_indices. destruct Hm as (_ & _ & _ & -> & _). rewrite concat_single, argsort_seq, C4. now rewrite L2. }
    apply run_backend_done in Hr as [Hr|(jobs & ds' & Hr & Hd & _)]; [discriminate| |rewrite map_length; lia]. injection Hr as <-.
    rewrite map_length in Hd. rewrite Ei, post_all_seq by lia. destruct (all_some (map (post (is_none shots)) ds)); reflexivity.
Qed.
(* A circuit with parameters submitted twice in one call: always an exception,
   whatever the values, the history and the options. *)
Theorem C42_repeated_refuted s sub shots a b x y : sreach s -> (forall q q', key q = key q' -> params q = params q') ->
  a < b -> nth_error sub a = Some x -> nth_error sub b = Some y -> key (fst x) = key (fst y) -> params (fst x) <> [] ->
  snd (sampler_run s sub shots) = Raise.
Proof.
  intros Hs Hkey Hab Ha Hb Ek Hp. apply sreach_inv in Hs. unfold Sampler.sampler_run.
  destruct (register_all s (map fst sub)) as [is_ s1] eqn:E. cbn [snd].
  destruct (register_all_inv _ _ _ _ Hs E) as (H1 & H2 & _).
  destruct (transpile_all_inv is_ s1 H1) as (T1 & T2 & T3 & T4 & _). set (s2 := transpile_all s1 is_) in *. clearbody s2.
  rewrite <- T2 in H2. unfold call.
  assert (Hat : forall c z, nth_error sub c = Some z -> exists i, nth_error (map fst (combine is_ (map snd sub))) c = Some i /\ get_id K_dec (circuit_ids s2) (key (fst z)) = Some i).
  { clear -H2. revert is_ H2. induction sub as [|[q v] sub IH]; intros is_ H2 c z Hz; inversion H2; subst; [destruct c; discriminate|].
    destruct c as [|c]; cbn in Hz |- *; [injection Hz as <-; eauto|]. apply IH; auto. }
  destruct (Hat a x Ha) as (i & Hi & Hgi). destruct (Hat b y Hb) as (j & Hj & Hgj). rewrite <- Ek, Hgi in Hgj. injection Hgj as <-.
  rewrite (collect_repeat2 s2 _ manager_init a b (minv_init s2) Hab); [reflexivity|]. exists i. split; [exact Hi|]. split; [exact Hj|].
  pose proof T1 as (I1 & I2 & I3). destruct (I2 _ _ Hgi) as (q' & Hq' & Ek'). rewrite (nth_params s2 i q' T1 Hq'), (Hkey q' (fst x) Ek'). exact Hp.
Qed.
End P.

(* what a returned quasi-distribution is: the relative frequencies of the samples *)
Theorem C42_frequencies l d n : l <> [] -> post false (Counts l) = Some (QCounts d n) ->
  n = length l /\ NoDup (map fst d) /\ (forall s f, In (s, f) d -> f = (INR (count_occ str_dec l s) / INR (length l))%R) /\
  (forall s, In s l -> exists f, In (s, f) d).
Proof.
  intros Hl H. cbn [post] in H. injection H as <- <-.
  destruct (counter_spec l [] (NoDup_nil _) ltac:(intros ? [])) as (H1 & H2 & H3 & H4). fold (counter l) in H1, H2, H3, H4.
  unfold total_count in H3. cbn [fold_right] in H3. rewrite Nat.add_0_r in H3. rewrite H3. split; [reflexivity|].
  assert (Hlk : forall s k, In (s, k) (counter l) -> k = count_occ str_dec l s).
  { intros s k Hi. specialize (H4 s). unfold lookup at 2 in H4. cbn [find] in H4. rewrite Nat.add_0_r in H4. rewrite <- H4. clear -H1 Hi.
    revert H1 Hi. generalize (counter l) as c. unfold lookup. induction c as [|[s' k'] c IH]; intros Hn Hi; [destruct Hi|]. cbn [find fst].
    cbn [map fst] in Hn. inversion Hn as [|? ? Hni Hn']; subst. destruct (str_dec s' s) as [->|Hne].
    - destruct Hi as [Hi|Hi]; [injection Hi as ->; reflexivity|]. exfalso. apply Hni. exact (in_map fst _ _ Hi).
    - destruct Hi as [Hi|Hi]; [injection Hi as -> ->; congruence|]. now apply IH. }
  split; [rewrite map_map; cbn [fst]; exact H1|]. split.
  - intros s f Hi. apply in_map_iff in Hi as ([s' k] & E & Hi). cbn [fst snd] in E. injection E as <- <-. now rewrite <- (Hlk s' k Hi).
  - intros s Hs. assert (Hpos : lookup (counter l) s > 0).
    { rewrite H4. unfold lookup. cbn [find]. rewrite Nat.add_0_r. now apply count_occ_In. }
    unfold lookup in Hpos. destruct (find _ (counter l)) as [[s' k]|] eqn:Ef; [|lia]. apply find_some in Ef as [Hi Hs']. cbn [fst] in Hs'.
    destruct (str_dec s' s) as [->|]; [|discriminate]. exists (INR k / INR (length l))%R. apply in_map_iff. exists (s, k). auto.
Qed.

(* a submission that meets the hypotheses of C42_returned_partial and returns: a
   circuit without parameters twice, and one with a parameter, one shot each *)
Section Ex.
Definition kx (q : bool) : bool := q.
Definition px (q : bool) : list unit := if q then [tt] else [].
Definition ax (q : bool) (b : option (list (unit * R))) : option circ := match q, b with true, Some [] | true, None => None | _, _ => Some cH end.
Definition subx : list (bool * list R) := [(false, []); (true, [1%R]); (false, [])].
Example C42_example_hyps : (forall x, In x subx -> length (snd x) = length (px (fst x))) /\
  (forall a b x y, a < b -> nth_error subx a = Some x -> nth_error subx b = Some y -> kx (fst x) = kx (fst y) -> px (fst x) = []).
Proof.
  split; [intros x [<-|[<-|[<-|[]]]]; reflexivity|].
  intros a b x y Hab Ha Hb. assert (b < 3) by (change 3 with (length subx); apply nth_error_Some; congruence).
  assert (a = 0 /\ b = 1 \/ a = 0 /\ b = 2 \/ a = 1 /\ b = 2) as [[-> ->]|[[-> ->]|[-> ->]]] by lia;
    cbn in Ha, Hb; injection Ha as <-; injection Hb as <-; cbn; try discriminate; reflexivity.
Qed.
Lemma cH_shot eps p th r : stable_final_state p = true -> exists s, run (evaluate eps cH p (Some 1%Z)) (th :: r) = Some (Some (Counts [s]), r).
Proof.
  intros Hp. unfold evaluate. rewrite Hp. unfold cH, meas. cbn [data nq nc exec op cnd skip has_cond bind]. 
  change (1 =? 0)%Z with false. change (Z.to_nat 1) with 1. unfold shot_stable. cbn [nq nc replicate measall bind run].
  destruct (Rlt_dec th _); cbn [run bind]; eauto.
Qed.
Example C42_example eps a b c : exists x y z,
  run (snd (sampler_run Bool.bool_dec kx px ax (fun _ q => q) eps (Some 1024%Z) sampler_init subx (Some (Some 1%Z)))) [a; b; c]
  = Some (Some [QCounts [(x, (INR 1 / INR 1)%R)] 1; QCounts [(y, (INR 1 / INR 1)%R)] 1; QCounts [(z, (INR 1 / INR 1)%R)] 1], []).
Proof.
  set (p := Prop_ true [(0, 0)]).
  destruct (cH_shot eps p a [b; c] eq_refl) as (x & Hx). destruct (cH_shot eps p b [c] eq_refl) as (y & Hy). destruct (cH_shot eps p c [] eq_refl) as (z & Hz).
  exists x, y, z.
  assert (E : snd (sampler_run Bool.bool_dec kx px ax (fun _ q => q) eps (Some 1024%Z) sampler_init subx (Some (Some 1%Z))) =
    bind (catch (bind (traverse (fun cp => evaluate eps (fst cp) (snd cp) (Some 1%Z)) [(cH, p); (cH, p); (cH, p)]) (fun l => Leaf (Done l))) Failed)
      (fun j => match post_all false (match j with Done l => l | Failed => [] end) [0; 1; 2] with Some l => Leaf l | None => Raise end)).
  { reflexivity. }
  rewrite E, run_bind.
  assert (Hc : forall (t : tree job) l r, run t [a; b; c] = Some (Some (Done l), r) -> run (catch t Failed) [a; b; c] = Some (Some (Done l), r)).
  { intros t. generalize [a; b; c]. induction t as [j| |q k IH]; intros ths l r H; cbn in *; auto; [discriminate|]. destruct ths; [discriminate|]. auto. }
  rewrite (Hc _ [Counts [x]; Counts [y]; Counts [z]] []); [reflexivity|].
  rewrite run_bind. cbn [traverse fst snd]. rewrite run_bind, Hx, run_bind, run_bind, Hy, run_bind, run_bind, Hz. reflexivity.
Qed.
End Ex.
