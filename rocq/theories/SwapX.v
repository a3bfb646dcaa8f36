(* SwapX.v -- C35, continued: the map, where gates are applied, findings. *)
From Coq Require Import Reals Lra ZArith Bool List Lia Arith Permutation.
From Coquelicot Require Import Complex.
From Verif Require Import Spec SpecP LargeP Backend BackSpec BackendP Swap SwapP BackendQ BackendX.
Import ListNotations.
Open Scope nat_scope.

Section S.
Context (eps : R) (pick : list nat -> nat) (Hpick : forall l, l <> [] -> In (pick l) l) (auto v2 : bool).
(* the map after any number of instructions is a permutation and says where each
   qubit of the plain evaluation's state is stored; this for every outcome of the
   measurements *)
Theorem C35_map n data l m cl pc log stable k : 0 < n -> is_perm n m -> (auto = false -> m = seq 0 n) ->
  (forall x, In x l -> inst_ok n x) ->
  trel (fun '(s, c1, _) '(v, c2, _) => c1 = c2 /\ is_perm n (mmap s) /\ relabelled n (mmap s) v (mvec s))
    (exec_mpi eps pick auto v2 n stable true data l (start n k m) cl pc)
    (exec eps n stable l (basis 0) cl log).
Proof.
  intros Hn Hm Hid Hok. destruct (start_inv auto n Hn k m Hm Hid) as [Hi H].
  pose proof (exec_same eps pick Hpick auto v2 n Hn stable true data (or_intror eq_refl) l _ _ cl log pc Hok Hi H) as He.
  induction He as [[[s c1] p] [[v c2] lg] Hr| |p k1 k2 _ IHe]; constructor; auto.
  destruct Hr as (E & (Hm' & _) & Hl). split; [exact E|]. split; [exact Hm'|]. now apply lab_relabelled.
Qed.
(* do_swap_v1 never fails, keeps the state, and moves the qubits of the instruction
   at [count] to the positions below len(local_list) if they fit *)
Theorem C35_v1_local n w data count llist m v x : is_perm n m -> length llist <= n -> relabelled n m v w ->
  nth_error data count = Some x -> inst_ok n x -> NoDup (qargs (op x)) -> length (qargs (op x)) <= length llist ->
  exists w' nl m', do_swap_v1 n w data count llist m = Some (w', nl, m') /\ is_perm n m' /\ relabelled n m' v w' /\
    forall q, In q (qargs (op x)) -> nth q m' 0 < length llist.
Proof.
  intros Hm Hl H Hx Hok Hnd Hfit. apply lab_relabelled in H; auto.
  destruct (do_swap_v1_spec n w data count llist m v Hm Hl H) as (w' & nl & m' & E & Hm' & Hlen & H' & _ & Hin & Hloc).
  exists w', nl, m'. split; [exact E|]. split; [exact Hm'|]. split; [now apply lab_relabelled|].
  intros q Hq. rewrite <- Hlen. apply Hloc, Hin.
  assert (Es : skipn count data = x :: skipn (S count) data).
  { clear -Hx. revert data Hx. induction count as [|k IH]; intros [|y d] Hx; cbn in *; try discriminate; [now injection Hx as ->|now apply IH]. }
  rewrite Es. now apply lookahead_first.
Qed.
(* the same for do_swap_v2, when local_set does hold the qubits stored below its size *)
Definition holds (n k : nat) (m l : list nat) : Prop := forall q, q < n -> (In q l <-> nth q m 0 < k).
Lemma fuse_holds n k ab : forall F m l, is_perm n m -> holds n k m l ->
  NoDup (map fst ab) -> NoDup (map snd ab) -> (forall a b, In (a, b) ab -> a < n /\ b < n /\ In a l /\ ~ In b l) ->
  forall q, q < n -> (nth q (snd (fuse n ab F m)) 0 < k <-> (In q l /\ ~ In q (map fst ab)) \/ In q (map snd ab)).
Proof.
  induction ab as [|[a b] r IH]; intros F m l Hm Hh Hn1 Hn2 Hab q Hq; cbn [fuse snd map fst].
  - rewrite <- (Hh q Hq). cbn. tauto.
  - destruct (Hab a b (or_introl eq_refl)) as (Ha & Hb & Hal & Hbl).
    cbn in Hn1, Hn2. inversion Hn1 as [|? ? N1 N1']; subst. inversion Hn2 as [|? ? N2 N2']; subst.
    set (l' := b :: filter (fun x => negb (x =? a)) l).
    assert (Hl' : forall x, In x l' <-> x = b \/ (In x l /\ x <> a)).
    { intros x. unfold l'. cbn. rewrite filter_In, negb_true_iff, Nat.eqb_neq. intuition. }
    change (upd (upd m a (nth b m 0)) b (nth a m 0)) with (sw m a b).
    rewrite (IH _ (sw m a b) l'); auto.
    + rewrite Hl'. cbn. split.
      * intros [[[->|[H1 H2]] H3]|H]; [right; now left|left; split; auto; intros [E|E]; [congruence|auto]|right; now right].
      * intros [[H1 H2]|[<-|H]]; [left; split; [right; split; auto|]; intuition|left; split; [now left|]|now right].
        intros Hi. apply in_map_iff in Hi as ([x y] & E & Hi). cbn in E. subst x. destruct (Hab b y (or_intror Hi)) as (_ & _ & H1 & _). auto.
    + now apply sw_perm.
    + intros x Hx. rewrite (sw_nth n m a b x (perm_len n m Hm) Ha Hb), Hl'.
      destruct (Nat.eqb_spec x b) as [->|Hxb]; [split; [intros _; now apply Hh|now left]|].
      destruct (Nat.eqb_spec x a) as [->|Hxa].
      * split; [intros [->|[_ E]]; [congruence|congruence]|]. intros H. exfalso. apply Hbl. now apply Hh.
      * rewrite <- (Hh x Hx). split; [intros [->|[H _]]; [congruence|auto]|auto].
    + intros x y Hi. destruct (Hab x y (or_intror Hi)) as (H1 & H2 & H3 & H4). split; [auto|]. split; [auto|]. rewrite !Hl'. split.
      * right. split; auto. intros ->. apply N1. apply in_map_iff. now exists (a, y).
      * intros [->|[H _]]; [|auto]. apply N2. apply in_map_iff. now exists (x, b).
Qed.
Lemma map_fst_combine {A B} (a : list A) (b : list B) : length a = length b -> map fst (combine a b) = a /\ map snd (combine a b) = b.
Proof. revert b. induction a as [|x a IH]; intros [|y b] H; cbn in *; try discriminate; auto. destruct (IH b) as [-> ->]; auto. Qed.
Theorem C35_v2_local n w data count lset m v x : is_perm n m -> NoDup lset -> (forall q, In q lset -> q < n) -> holds n (length lset) m lset ->
  relabelled n m v w -> nth_error data count = Some x -> inst_ok n x -> NoDup (qargs (op x)) -> length (qargs (op x)) <= length lset ->
  exists w' nl m', do_swap_v2 pick n w data count lset m = Some (w', nl, m') /\ is_perm n m' /\ relabelled n m' v w' /\
    length nl = length lset /\ holds n (length nl) m' nl /\ forall q, In q (qargs (op x)) -> nth q m' 0 < length lset.
Proof.
  intros Hm Hnd Hlt Hh H Hx Hok Hnq Hfit. apply lab_relabelled in H; auto. assert (Hs : sset n lset) by (split; auto).
  destruct (do_swap_v2_spec pick Hpick n w data count lset m v Hm Hs H) as (w' & nl & m' & E & Hm' & Hnl & H').
  exists w', nl, m'. split; [exact E|]. split; [exact Hm'|]. split; [now apply lab_relabelled|].
  revert E. unfold do_swap_v2.
  destruct (lookahead_spec n (length lset) (skipn count data) [] (nil_sset n) (Nat.le_0_l _)) as (A & B & _).
  set (nl0 := lookahead n (length lset) (skipn count data) []) in *. pose proof (sset_le n lset Hs).
  destruct (fill_spec pick Hpick n (length lset - length nl0) nl0 A) as (nl' & E & Hnl' & Hlen & Hincl); [lia|]. rewrite E.
  destruct (length (diff n (diff n (seq 0 n) lset) (diff n (seq 0 n) nl')) =? length (diff n lset nl')) eqn:El; [|discriminate].
  apply Nat.eqb_eq in El.
  destruct (fuse n (combine (diff n lset nl') (diff n (diff n (seq 0 n) lset) (diff n (seq 0 n) nl'))) ident m) as [F m1] eqn:EF.
  intros Es. injection Es as _ <- <-.
  assert (Hln : length nl' = length lset) by lia. split; [exact Hln|].
  assert (Hg : forall q, In q (diff n (diff n (seq 0 n) lset) (diff n (seq 0 n) nl')) <-> q < n /\ In q nl' /\ ~ In q lset).
  { intros q. rewrite !diff_In, in_seq. destruct (in_dec Nat.eq_dec q nl'); intuition lia. }
  destruct (map_fst_combine (diff n lset nl') (diff n (diff n (seq 0 n) lset) (diff n (seq 0 n) nl'))) as [Ef Esd]; [now symmetry|].
  assert (Hh' : holds n (length lset) m1 nl').
  { intros q Hq. pose proof (fuse_holds n (length lset) (combine (diff n lset nl') (diff n (diff n (seq 0 n) lset) (diff n (seq 0 n) nl'))) ident m lset Hm Hh) as Hf.
    rewrite Ef, Esd, EF in Hf. cbn [snd] in Hf. rewrite (Hf (proj1 (diff_sset n lset nl')) (proj1 (diff_sset n _ _))); auto.
    - rewrite Hg, diff_In. destruct (in_dec Nat.eq_dec q lset); destruct (in_dec Nat.eq_dec q nl'); tauto.
    - intros a b Hab. pose proof (in_combine_l _ _ _ _ Hab) as H1. pose proof (in_combine_r _ _ _ _ Hab) as H2.
      apply diff_In in H1. apply Hg in H2. tauto. }
  split; [now rewrite Hln|]. intros q Hq. apply (Hh' q (Hok q Hq)). apply Hincl.
  assert (Es : skipn count data = x :: skipn (S count) data).
  { clear -Hx. revert data Hx. induction count as [|k IH]; intros [|y d] Hx; cbn in *; try discriminate; [now injection Hx as ->|now apply IH]. }
  unfold nl0. rewrite Es. now apply lookahead_first.
Qed.
End S.

(* FINDING (C35): "every gate lands on local qubits" fails.  local_list and
   local_set hold logical qubits, the test at 741 and 755 compares simulator
   positions with them.  Two processes, X on qubit 1 then on qubit 0: the first gate
   swaps the qubits; the second finds position 1 "in" local_list = [1] and runs on
   the global position 1.  With swap_ver="v2" and four processes (one local
   position): X on 1, 0, 0, 0 runs a gate on position 1 or 2. *)
Definition xq (q : nat) : inst := I (BGate (G1 X [q])) None.
Definition positions (t : tree (mst * list bool * list R)) : option (list (list nat)) :=
  match t with Leaf (s, _, _) => Some (mphys s) | _ => None end.
Theorem C35_local_refuted eps pick :
  let d1 := map xq [1; 0] in let d2 := map xq [1; 0; 0; 0] in
  (exists ps, positions (exec_mpi eps pick true false 2 true true d1 d1 (start 2 (Nat.log2 2) (seq 0 2)) [] []) = Some ps /\
     nth 1 ps [] = [1] /\ 2 - Nat.log2 2 = 1) /\
  (exists ps, positions (exec_mpi eps pick true true 3 true true d2 d2 (start 3 (Nat.log2 4) (seq 0 3)) [] []) = Some ps /\
     exists k p, nth k ps [] = [p] /\ 3 - Nat.log2 4 <= p).
Proof.
  split; (eexists; split; [lazy; reflexivity|]).
  - split; reflexivity.
  - first [exists 0; eexists; split; [reflexivity|cbn; lia]|exists 1; eexists; split; [reflexivity|cbn; lia]
          |exists 2; eexists; split; [reflexivity|cbn; lia]|exists 3; eexists; split; [reflexivity|cbn; lia]].
Qed.
(* FINDING (C35): count is not advanced by barriers, skipped instructions and (in
   stable circuits) measurements, so the heuristic looks at the wrong instruction:
   with a barrier on qubit 0 first, do_swap_v1 keeps qubit 0 local and X on qubit 1
   runs on the global position 1 *)
Theorem C35_count_refuted eps pick :
  let d := [I (BBarrier [0]) None; xq 1] in
  positions (exec_mpi eps pick true false 2 true true d d (start 2 (Nat.log2 2) (seq 0 2)) [] []) = Some [[1]].
Proof. lazy. reflexivity. Qed.
(* example: the Bell circuit, measured, on two processes *)
Example C35_example eps v2 z : evaluate_mpi eps (hd 0) true v2 2 bellc (Prop_ true [(1, 0); (0, 1)]) (Some z) =
  evaluate eps bellc (Prop_ true [(1, 0); (0, 1)]) (Some z).
Proof.
  apply (C35_same_results eps (hd 0)) with (req := true); auto.
  - intros [|x l] H; [congruence|]. now left.
  - cbn. lia.
  - intros x Hx q Hq. cbn in Hx. decompose [or] Hx; try contradiction; subst x; cbn in Hq; decompose [or] Hq; try contradiction; subst; cbn; lia.
Qed.
