(* GCX.v -- property C60: what a collection reclaims.  After a collection that is
   carried out, the table holds exactly the nodes of the handles that were passed;
   a handle that was not passed is dangling. *)
From Coq Require Import Reals Lra Psatz ZArith Bool List Lia Arith.
From Coquelicot Require Import Complex.
From Verif Require Import Num State DD Gates GC Measure Api RNum Wf Sums Err Inv Wp Make Add MulV Canon MM MM2
  GateP StateP Kron Spec SpecP Readout GCP MeasureP MeasAllP MeasOneP ApplyP ApiP Obs Props1 Props2 Prog Circuit GateMat Props3 Examples.
Import ListNotations.
Open Scope Z_scope.

Section GCX.
Context (tau : R) {HTol : Tol tau}.
Let Htau : (0 <= tau < 1 / 2)%R := tol_ok.
#[local] Hint Extern 0 NumOps => exact (RNum tau) : typeclass_instances.
Context {CF : Cfg}.
Notation state := (@state (RNum tau)).
Notation table := (@table (RNum tau)).
Notation edge := (@edge (RNum tau)).
Notation reach := (reach tau).
Notation lreach := (lreach tau).

(* x is a node registered in the table *)
Definition registered (t : table) (x : positive) : Prop := exists v key, In x (chain t v key).

Lemma lreach_ext k t t' p q : ext tau k t t' -> lreach k t p q -> lreach k t' p q.
Proof. intros He Hl. induction Hl as [p|a nd e q Hr Hi Hl IH]; [constructor|]. eapply lr_child; eauto. Qed.
Lemma lreach_reach k s p q : lreach k (tb s k) p q -> reach k s p q.
Proof.
  intros Hl. induction Hl as [p|a nd e q Hr Hi Hl IH]; [constructor|]. eapply reach_child; [discriminate| |exact Hi|exact IH].
  exact (Logic.proj1 Hr).
Qed.
Lemma decode_all_grown k i first s es css : TInv tau k (tb s k) -> live tau k (tb s k) es ->
  Forall2 (fun e cs => exists j, node_to_vec k s (en e) = Some (j, cs)) es css ->
  forall t' es' t3, TInv tau k t' -> (first = true -> forall x, ~ registered t' x) ->
  decode_all k i first es css t' = Some (es', t3) -> ext tau k t' t3 /\
    forall x, registered t3 x -> registered t' x \/ exists e', In e' es' /\ lreach k t3 (en e') (Node x).
Proof.
  intros HT Hl HF. revert first. induction HF as [|e cs es css (j & Hj) HF IH]; intros first t' es' t3 HT' Hno Hd.
  - cbn in Hd. injection Hd as <- <-. split; [apply ext_refl|]. auto.
  - destruct (Hl e (or_introl eq_refl)) as (n & Hn & W). apply wfe_okp in W.
    destruct (roundtrip_full tau k i first s n (en e) t' HT HT' ltac:(lia) W) as (j' & cs' & q & t1 & A1 & A2 & A3 & A4 & A5 & A6).
    { intros Hf b nd Hb. exfalso. apply (Hno Hf b). exists (nv nd), (nkey k nd). apply Hb. }
    rewrite Hj in A1. inversion A1; subst j' cs'. cbn [decode_all] in Hd. rewrite A2 in Hd.
    destruct (decode_all k i false es css t1) as [[es1 t2]|] eqn:Eq; [|discriminate]. injection Hd as <- <-.
    destruct (IH (fun x Hx => Hl x (or_intror Hx)) false t1 es1 t2 A3 ltac:(discriminate) Eq) as [B1 B2].
    split; [exact (ext_trans tau _ _ _ _ A4 B1)|].
    intros x Hx. destruct (B2 x Hx) as [(v & key & Hx')|(e' & He' & Hx')].
    + destruct (A6 x v key Hx') as [Hx2|Hx2]; [left; now exists v, key|]. right. exists (E (ew e) q). split; [now left|].
      cbn [en]. eapply lreach_ext; eauto.
    + right. exists e'. split; [now right|exact Hx'].
Qed.
Lemma init_empty x : ~ registered table_init x.
Proof. intros (v & key & []). Qed.

Lemma reach_registered k s n p x : TInv tau k (tb s k) -> okp tau k (tb s k) n p -> reach k s p (Node x) -> registered (tb s k) x.
Proof.
  intros HT W Hre. remember (Node x) as y eqn:Ey. revert n W.
  induction Hre as [p|p nd e q Hpt Hrd Hie Hre IH]; intros n W.
  - subst p. destruct (okp_node tau _ _ _ _ HT W) as (nd & Hrg & _). exists (nv nd), (nkey k nd). apply Hrg.
  - destruct p as [| |a]; [exfalso; exact (okp_null tau _ _ _ W)|contradiction|].
    destruct (okp_node tau _ _ _ _ HT W) as (nd' & Hrg & _). cbn in Hrd. rewrite (Logic.proj1 Hrg) in Hrd. injection Hrd as <-.
    eapply (IH Ey (Z.to_nat (nv nd'))). apply wfe_okp. apply (no_wf _ _ _ _ (reg_ok tau _ _ _ _ HT Hrg)). exact Hie.
Qed.

(* ---- C60 ---- *)
(* a collection is carried out when it is forced or the calling thread's pool has
   allocated at least as much as the threshold: src/dd.cpp:2363, 2411 *)
Theorem C60_gc_reclaims s ns es ms i force es' s' : reachable (s, rehandle KV ns es ++ ms) -> length ns = length es -> of_kind KM ms ->
  gc i es force s = Some (es', s') -> u64 (gc_v s) <= p_allocs (pools (tb s KV) i) \/ force = true ->
  forall x, registered (tb s' KV) x <-> exists e', In e' es' /\ reach KV s' (en e') (Node x).
Proof.
  intros Hr Hlen Hms Hg Hper. pose proof (reach_Inv tau _ _ Hr) as HI.
  pose proof (reachable_ok tau _ Hr) as [_ Hh]. cbn [fst snd] in Hh.
  pose proof (live_of tau KV s ns es ms Hlen Hh) as Hlive.
  assert (Hr' : reachable (s', rehandle KV ns es' ++ ms)) by (eapply r_step; [exact Hr|]; eapply a_gc; eauto).
  pose proof (reach_Inv tau _ _ Hr') as HI'.
  destruct (gc_spec tau i es force s HI Hlive) as (es2 & s2 & Hg2 & _ & _ & Hk & _).
  rewrite Hg in Hg2. injection Hg2 as <- <-.
  intros x. split.
  - intros Hx. unfold gc in Hg.
    destruct (below_thr i (tb s KV) (gc_v s) && negb force)%bool eqn:Hthr.
    { exfalso. apply andb_prop in Hthr as [h1 h2]. unfold below_thr in h1. apply Z.ltb_lt in h1. destruct Hper as [h|h]; [lia|]. subst force. discriminate. }
    destruct (encode_all_spec tau KV s es (inv_tb _ _ HI KV) Hlive) as (N & css & A1 & _ & A3). rewrite A1 in Hg.
    destruct (decode_all KV i true es css table_init) as [[es3 t3]|] eqn:Ed; [|discriminate]. injection Hg as <- <-.
    destruct (decode_all_grown KV i true s es css (inv_tb _ _ HI KV) Hlive A3 table_init es3 t3 (TInv_init tau KV)
      (fun _ => init_empty) Ed) as [_ Hgr].
    destruct (Hgr x Hx) as [Hx'|(e' & He' & Hx')]; [exfalso; exact (init_empty x Hx')|]. exists e'. split; [exact He'|].
    apply lreach_reach. exact Hx'.
  - intros (e' & He' & Hre). apply In_nth_error in He' as (j & Hj).
    destruct (nth_error ns j) as [n|] eqn:Hn.
    2:{ exfalso. apply nth_error_None in Hn. destruct (keeps_nth _ _ _ _ _ _ Hk) as [Hl _].
        assert (j < length es')%nat by (apply nth_error_Some; congruence). lia. }
    assert (Hin : In (H KV n e') (rehandle KV ns es' ++ ms)) by (apply in_or_app; left; eapply rehandle_nth; eauto).
    destruct (reach_V tau _ _ _ _ Hr' Hin) as (_ & _ & W). eapply (reach_registered KV s' n (en e')); [apply (inv_tb _ _ HI')|now apply wfe_okp|exact Hre].
Qed.
Theorem C60_gc_mat_reclaims s ns es vs i force es' s' : reachable (s, rehandle KM ns es ++ vs) -> length ns = length es -> of_kind KV vs ->
  gc_mat i es force s = Some (es', s') -> u64 (gc_m s) <= p_allocs (pools (tb s KM) i) \/ force = true ->
  forall x, registered (tb s' KM) x <-> exists e', In e' es' /\ reach KM s' (en e') (Node x).
Proof.
  intros Hr Hlen Hms Hg Hper. pose proof (reach_Inv tau _ _ Hr) as HI.
  pose proof (reachable_ok tau _ Hr) as [_ Hh]. cbn [fst snd] in Hh.
  pose proof (live_of tau KM s ns es vs Hlen Hh) as Hlive.
  assert (Hr' : reachable (s', rehandle KM ns es' ++ vs)) by (eapply r_step; [exact Hr|]; eapply a_gc_mat; eauto).
  pose proof (reach_Inv tau _ _ Hr') as HI'.
  destruct (gc_mat_spec tau i es force s HI Hlive) as (es2 & s2 & Hg2 & _ & _ & Hk & _).
  rewrite Hg in Hg2. injection Hg2 as <- <-.
  intros x. split.
  - intros Hx. unfold gc_mat in Hg.
    destruct (below_thr i (tb s KM) (gc_m s) && negb force)%bool eqn:Hthr.
    { exfalso. apply andb_prop in Hthr as [h1 h2]. unfold below_thr in h1. apply Z.ltb_lt in h1. destruct Hper as [h|h]; [lia|]. subst force. discriminate. }
    destruct (encode_all_spec tau KM s es (inv_tb _ _ HI KM) Hlive) as (N & css & A1 & _ & A3). rewrite A1 in Hg.
    destruct (decode_all KM i true es css table_init) as [[es3 t3]|] eqn:Ed; [|discriminate]. injection Hg as <- <-.
    destruct (decode_all_grown KM i true s es css (inv_tb _ _ HI KM) Hlive A3 table_init es3 t3 (TInv_init tau KM)
      (fun _ => init_empty) Ed) as [_ Hgr].
    destruct (Hgr x Hx) as [Hx'|(e' & He' & Hx')]; [exfalso; exact (init_empty x Hx')|]. exists e'. split; [exact He'|].
    apply lreach_reach. exact Hx'.
  - intros (e' & He' & Hre). apply In_nth_error in He' as (j & Hj).
    destruct (nth_error ns j) as [n|] eqn:Hn.
    2:{ exfalso. apply nth_error_None in Hn. destruct (keeps_nth _ _ _ _ _ _ Hk) as [Hl _].
        assert (j < length es')%nat by (apply nth_error_Some; congruence). lia. }
    assert (Hin : In (H KM n e') (rehandle KM ns es' ++ vs)) by (apply in_or_app; left; eapply rehandle_nth; eauto).
    destruct (reach_M tau _ _ _ _ Hr' Hin) as (_ & W). eapply (reach_registered KM s' n (en e')); [apply (inv_tb _ _ HI')|now apply wfe_okp|exact Hre].
Qed.
(* for a single state: the table holds as many nodes as get_nNodes reports *)
Theorem C60_gc_size s n e ms i force e' s' : reachable (s, H KV n e :: ms) -> of_kind KM ms ->
  gc i [e] force s = Some ([e'], s') -> u64 (gc_v s) <= p_allocs (pools (tb s KV) i) \/ force = true ->
  exists l, NoDup l /\ (forall x, In x l <-> registered (tb s' KV) x) /\ get_nNodes s' e' = Some (length l).
Proof.
  intros Hr Hms Hg Hper.
  assert (Hr' : reachable (s', H KV n e' :: ms)).
  { eapply r_step; [exact Hr|]. exact (a_gc s [n] [e] ms i force [e'] s' eq_refl Hms Hg). }
  destruct (reach_V tau _ _ _ _ Hr' (or_introl eq_refl)) as (W1 & W2 & W3).
  destruct (get_nNodes_spec tau s' n e' (reach_Inv tau _ _ Hr')) as (l & L1 & L2 & L3); [unfold NQUBITS in *; lia|exact W3|].
  exists l. split; [exact L2|]. split; [|exact L1]. intros x. rewrite L3.
  pose proof (C60_gc_reclaims s [n] [e] ms i force [e'] s' Hr eq_refl Hms Hg Hper x) as HC. rewrite HC. split.
  - intros Hx. exists e'. split; [now left|exact Hx].
  - intros (e2 & [<-|[]] & Hx). exact Hx.
Qed.
(* a collection that is carried out with no inner node to keep leaves an empty
   table: every other handle of that kind dangles *)
Lemma gc_mat_empty i w force s es' s' : gc_mat i [E w Term] force s = Some (es', s') ->
  u64 (gc_m s) <= p_allocs (pools (tb s KM) i) \/ force = true -> es' = [E w Term] /\ tb s' KM = table_init.
Proof.
  intros Hg Hper. unfold gc_mat in Hg. destruct (below_thr i (tb s KM) (gc_m s) && negb force)%bool eqn:Hthr.
  { exfalso. apply andb_prop in Hthr as [h1 h2]. unfold below_thr in h1. apply Z.ltb_lt in h1. destruct Hper as [h|h]; [lia|]. subst force. discriminate. }
  cbn in Hg. injection Hg as <- <-. auto.
Qed.
End GCX.

(* the hypotheses of C60 are met: a forced collection given the Bell state alone keeps
   its three nodes; the reachable client also holds the H gate *)
Section Ex.
#[local] Hint Extern 0 NumOps => exact (RNum 0) : typeclass_instances.
Context (mt : bool).
#[local] Instance CFg : @Cfg (RNum 0) := cfg_of mt 0.
Example ex_C60 i : exists s eb eg e' s', reachable (s, [H KV 2 eb; H KM 2 eg]) /\ reads_v 0 s 2 eb bell /\
  gc i [eb] true s = Some ([e'], s') /\ reads_v 0 s' 2 e' bell.
Proof.
  destruct (bell_client mt) as (s & eb & eg & ez & hs & Hr & Hg & _ & Hb & _).
  assert (Hr' : reachable (s, rehandle KV [2%nat] [eb] ++ [H KM 2 eg])).
  { eapply r_step; [exact Hr|]. apply a_drop. intros x [<-|[<-|[]]]; [now left|now right]. }
  assert (Hk : of_kind KM [H KM 2 eg]) by (intros x [<-|[]]; reflexivity).
  destruct (C13_gc 0 s [2%nat] [eb] [H KM 2 eg] i true Hr' eq_refl Hk) as (es' & s' & G1 & G2 & G3 & _).
  destruct es' as [|e' [|? ?]]; try discriminate. exists s, eb, eg, e', s'. split; [exact Hr'|]. split; [exact Hb|]. split; [exact G1|].
  destruct (C12_root_weight_max_v 0 _ _ _ _ _ Hr (or_introl eq_refl) Hb) as (HX & _).
  apply (G3 0%nat 2%nat eb e' bell (Cmod (ew eb))); auto.
Qed.
End Ex.
