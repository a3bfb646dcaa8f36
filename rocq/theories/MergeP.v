(* MergeP.v -- property C61: merge_circuit returns the operator of the circuit. *)
From Coq Require Import Reals Lra Psatz ZArith Bool List Lia Arith.
From Coquelicot Require Import Complex.
From Verif Require Import Num State DD Gates GC Measure Api RNum Wf Sums Err Inv Wp Make Add MulV Canon MM MM2
  GateP StateP Kron Spec SpecP Readout GCP MeasureP MeasAllP MeasOneP ApplyP ApiP Obs Props1 Props2 Prog Circuit LargeP GateMat
  Backend BackSpec BackendP BackendQ BackendX BackLink GCX Merge.
Import ListNotations.
Open Scope nat_scope.

(* ---- specification ---- *)
(* the operator of a list of instructions: the product of the gates, first gate
   rightmost, whatever the conditions; other instructions are left out *)
Fixpoint product (n : nat) (l : list inst) (M : matrix) : matrix :=
  match l with
  | [] => M
  | x :: r => match op x with BGate g => product n r (mm n (gate_mat n (fun q => q) g) M) | _ => product n r M end
  end.
Definition operator (c : circ) : matrix := fun a b => Cmult (cos (gphase c), sin (gphase c)) (product (nq c) (data c) ident a b).
(* gates the library can build *)
Definition mergeable (n : nat) (obj : list ival) (l : list inst) : Prop := forall x g, In x l -> op x = BGate g ->
  match g with
  | G1 _ _ | G2 _ _ => gate_lib n g
  | GU _ _ => False
  | GQ A _ => In (IM n A) obj
  end.

Lemma product_meq n l : forall M M', meq n M M' -> meq n (product n l M) (product n l M').
Proof.
  induction l as [|x r IH]; intros M M' HM; cbn [product]; auto. destruct (op x); auto. apply IH. apply mm_ext; auto using meq_refl.
Qed.
(* applied to a state, the product is the run of the gates one after the other *)
Lemma product_final n l : forall M v, veq n (mv n (product n l M) v) (finalv n l (mv n M v)).
Proof.
  induction l as [|x r IH]; intros M v; cbn [product finalv]; [apply veq_refl|]. destruct (op x); auto.
  eapply veq_trans; [apply IH|]. apply finalv_veq. apply mv_mm.
Qed.

Section Merge.
Context (tau : R) {HTol : Tol tau}.
Let Htau : (0 <= tau < 1 / 2)%R := tol_ok.
#[local] Hint Extern 0 NumOps => exact (RNum tau) : typeclass_instances.
Context {CF : Cfg}.
Notation state := (@state (RNum tau)).
Notation handle := (@handle (RNum tau)).
Notation config := (state * list handle)%type.
Notation exec1 := (exec1 tau).
Notation holds := (holds tau).
Notation reads_m := (reads_m tau).
Hypothesis H0 : tau = 0%R.

(* no gate but `current` is held, or no collection is carried out *)
Definition safe (col : bool) (hs : list handle) : Prop := col = false \/ of_kind KV hs.
Definition at_ (c : config) (n : nat) (M : matrix) (hs : list handle) (env : list ival) : Prop :=
  exists s e, c = (s, H KM n e :: hs) /\ reachable c /\ reads_m s n e M /\ Forall2 (holds s) hs env.
Lemma at_F c n M hs env : at_ c n M hs env -> reachable c /\ Forall2 (holds (fst c)) (snd c) (IM n M :: env).
Proof. intros (s & e & -> & Hr & Hm & HF). split; auto. cbn. constructor; auto. cbn. auto. Qed.
Lemma F_at (c : config) n M hs env h : reachable (fst c, h :: hs) -> holds (fst c) h (IM n M) -> Forall2 (holds (fst c)) hs env ->
  at_ (fst c, h :: hs) n M hs env.
Proof.
  intros Hr Hh HF. destruct h as [k m e]. cbn in Hh. destruct Hh as (-> & -> & Hh). exists (fst c), e. auto.
Qed.
Lemma tick_sound i freq k b c c' n M hs env : tick tau i freq k b c c' -> safe b hs -> at_ c n M hs env -> at_ c' n M hs env.
Proof.
  intros Ht Hs Ha. destruct Ht as [c Hk|s m e hs0 Hk Hg Hb|s m e hs0 e' s' Hk Hb Hg]; auto.
  destruct Hs as [Hs|Hs]; [discriminate|]. destruct Ha as (s1 & e1 & E & Hr & Hm & HF). injection E as <- <- <- <-.
  destruct (C14_gc_mat tau s [m] [e] hs0 i false Hr eq_refl Hs) as (es' & s2 & G1 & G2 & G3 & G4 & _ & _ & G7).
  rewrite Hg in G1. injection G1 as <- <-. exists s', e'. split; [reflexivity|]. split; [exact G7|]. split.
  - destruct (C12_root_weight_max_m tau _ _ _ _ _ Hr (or_introl eq_refl) Hm) as (HX & _).
    apply (G3 0 m e e' M (Cmod (ew e))); auto.
  - apply (holds_frame tau s); auto. intros m' h A Hi. exfalso. specialize (Hs _ Hi). discriminate.
Qed.
Lemma exec1_shape x s hs c' o : exec1 x (s, hs) c' o -> exists s' h, c' = (s', h :: hs).
Proof. intros Hx. inversion Hx; subst; eauto. Qed.
Lemma newest s h h2 h1 n M N hs env : reachable (s, h2 :: h1 :: h :: hs) -> Forall2 (holds s) (h2 :: h1 :: h :: hs) (IM n N :: M :: env) ->
  at_ (s, h2 :: hs) n N hs (tl env).
Proof.
  intros Hr HF. inversion HF as [|a b l l' Hab HF1]; subst. inversion HF1 as [|a b l l' _ HF2]; subst. inversion HF2 as [|a b l l' _ HF3]; subst.
  cbn [tl]. apply (F_at (s, [])); auto. cbn [fst]. eapply r_step; [exact Hr|]. apply a_drop. intros x [<-|Hx]; [now left|]. right. right. now right.
Qed.
Lemma newest1 s h h2 n N hs env : reachable (s, h2 :: h :: hs) -> Forall2 (holds s) (h2 :: h :: hs) (IM n N :: env) ->
  at_ (s, h2 :: hs) n N hs (tl env).
Proof.
  intros Hr HF. inversion HF as [|a b l l' Hab HF1]; subst. inversion HF1 as [|a b l l' _ HF2]; subst.
  cbn [tl]. apply (F_at (s, [])); auto. cbn [fst]. eapply r_step; [exact Hr|]. apply a_drop. intros x [<-|Hx]; [now left|]. right. now right.
Qed.
Lemma step_gate it A s h hs c1 c2 n M env : gmeans n it A -> at_ (s, h :: hs) n M hs env -> exec1 it (s, h :: hs) c1 [] ->
  exec1 (P_mmmul 0 1) c1 c2 [] -> at_ (drop_older tau c2 hs) n (mm n A M) hs env.
Proof.
  intros Hg Ha H1 H2. destruct (at_F _ _ _ _ _ Ha) as [Hr HF].
  destruct (exec1_env tau H0 it _ c1 _ _ _ _ Hr HF (Hg _) H1) as (_ & Hr1 & HF1).
  destruct (exec1_env tau H0 (P_mmmul 0 1) c1 c2 _ (IM n (mm n A M)) [] [] Hr1 HF1) as (_ & Hr2 & HF2); [exists n, A, M; cbn; auto|exact H2|].
  destruct (exec1_shape _ _ _ _ _ H1) as (s1 & h1 & ->). destruct (exec1_shape _ _ _ _ _ H2) as (s2 & h2 & ->).
  cbn [fst snd drop_older] in *. exact (newest s2 h h2 h1 n _ _ hs _ Hr2 HF2).
Qed.
Lemma step_qdd j A s h hs c2 n M env : nth_error env j = Some (IM n A) -> at_ (s, h :: hs) n M hs env ->
  exec1 (P_mmmul (S j) 0) (s, h :: hs) c2 [] -> at_ (drop_older tau c2 hs) n (mm n A M) hs env.
Proof.
  intros Hj Ha H2. destruct (at_F _ _ _ _ _ Ha) as [Hr HF].
  destruct (exec1_env tau H0 (P_mmmul (S j) 0) _ c2 _ (IM n (mm n A M)) [] [] Hr HF) as (_ & Hr2 & HF2); [exists n, A, M; cbn; auto|exact H2|].
  destruct (exec1_shape _ _ _ _ _ H2) as (s2 & h2 & ->). cbn [fst snd drop_older] in *. exact (newest1 s2 h h2 n _ hs _ Hr2 HF2).
Qed.
Lemma safe_or b col hs : safe (b || col) hs -> safe b hs /\ safe col hs.
Proof. intros [h|h]; [apply orb_false_elim in h as [-> ->]; split; now left|split; now right]. Qed.
Lemma merge_loop_sound i freq n obj l k col c o : size_ok n -> merge_loop tau i freq n obj l k col c o ->
  forall hs M, safe col hs -> mergeable n obj l -> at_ c n M hs obj -> exists c', o = Some c' /\ at_ c' n (product n l M) hs obj.
Proof.
  intros Hn Hl. induction Hl as [k c|x r k col c c' Hop Hl IH|x g it r k b col s h hs1 c1 c2 c3 c' Hop Hgi H1 H2 Ht Hl IH
    |x g qs r k c Hop|x A qs j r k b col s h hs1 c2 c3 c' Hop Hj H2 Ht Hl IH|x r k b col c c3 c' Hop Ht Hl IH]; intros hs M Hs Hm Ha.
  - exists c. auto.
  - cbn [product]. assert (Hm' : mergeable n obj r) by (intros y g Hy; apply Hm; now right).
    destruct (op x); try contradiction; apply IH; auto.
  - cbn [product]. rewrite Hop. assert (Hm' : mergeable n obj r) by (intros y g' Hy; apply Hm; now right).
    assert (E : hs1 = hs) by (destruct Ha as (s' & e & E & _); congruence). subst hs1.
    apply safe_or in Hs as [Hs1 Hs2]. apply IH; auto. eapply tick_sound; eauto.
    eapply step_gate; eauto. apply (ginstr_means n g it); auto.
    pose proof (Hm x g (or_introl eq_refl) Hop) as Hg. destruct g; try exact Hg; discriminate.
  - exfalso. exact (Hm x _ (or_introl eq_refl) Hop).
  - cbn [product]. rewrite Hop. assert (Hm' : mergeable n obj r) by (intros y g' Hy; apply Hm; now right).
    assert (E : hs1 = hs) by (destruct Ha as (s' & e & E & _); congruence). subst hs1.
    apply safe_or in Hs as [Hs1 Hs2]. apply IH; auto. eapply tick_sound; eauto. cbn [gate_mat]. eapply step_qdd; eauto.
  - cbn [product]. assert (Hm' : mergeable n obj r) by (intros y g' Hy; apply Hm; now right).
    apply safe_or in Hs as [Hs1 Hs2].
    assert (E : match op x with BGate g => product n r (mm n (gate_mat n (fun q => q) g) M) | _ => product n r M end = product n r M)
      by (destruct (op x); auto; contradiction). rewrite E. apply IH; auto. eapply tick_sound; eauto.
Qed.
Lemma merge_ident n env : size_ok n -> isem (P_gate n ident 0 []) env (IM n (gate1 n ident 0 [])) [].
Proof.
  intros Hn. cbn [isem]. split; [exact Hn|]. split; [destruct Hn; unfold qubit; lia|]. split; [|split; reflexivity].
  split; [constructor|intros x []].
Qed.
Lemma at_start n s hs obj c1 : size_ok n -> reachable (s, hs) -> Forall2 (holds s) hs obj -> exec1 (P_gate n ident 0 []) (s, hs) c1 [] ->
  at_ c1 n ident hs obj.
Proof.
  intros Hn Hr HF Hx. destruct (exec1_env tau H0 _ (s, hs) c1 obj _ [] [] Hr HF (merge_ident n obj Hn) Hx) as (_ & Hr1 & HF1).
  destruct (exec1_shape _ _ _ _ _ Hx) as (s1 & h1 & ->). cbn [fst snd] in *. inversion HF1 as [|a b l l' Hab HF2]; subst.
  destruct h1 as [k m e]. cbn in Hab. destruct Hab as (-> & -> & Hab). exists s1, e. split; [reflexivity|]. split; [exact Hr1|].
  split; [|exact HF2]. apply (reads_m_meq tau s1 n e (gate1 n ident 0 [])); auto. apply gate1_ident. destruct Hn; lia.
Qed.
Lemma at_end n M a hs obj c2 c3 : at_ c2 n M hs obj -> exec1 (P_global 0 a) c2 c3 [] ->
  at_ (drop_older tau c3 hs) n (fun i j => Cmult (cos a, sin a) (M i j)) hs obj.
Proof.
  intros Ha Hx. destruct (at_F _ _ _ _ _ Ha) as [Hr HF]. destruct Ha as (s & e & -> & _).
  destruct (exec1_env tau H0 (P_global 0 a) _ c3 _ (IM n (fun i j => Cmult (cos a, sin a) (M i j))) [] [] Hr HF) as (_ & Hr1 & HF1);
    [cbn [isem]; split; [reflexivity|]; right; exists n, M; split; reflexivity|exact Hx|].
  destruct (exec1_shape _ _ _ _ _ Hx) as (s2 & h2 & ->). cbn [fst snd drop_older] in *. exact (newest1 s2 _ h2 n _ hs _ Hr1 HF1).
Qed.
(* ---- C61 ---- *)
(* Every execution of merge_circuit on a circuit of gates the library can build
   returns a handle whose operator is the product of the gates, in order, times the
   global phase; the other handles of the client still read as before.  The client
   holds no other gate when a collection is carried out ([safe]). *)
Theorem C61_merge_partial i freq c obj col s hs o : reachable (s, hs) -> Forall2 (holds s) hs obj -> size_ok (nq c) -> 1 <= freq ->
  mergeable (nq c) obj (data c) -> merge tau i freq c obj col (s, hs) o -> safe col hs ->
  exists s' e, o = Some (s', H KM (nq c) e :: hs) /\ reachable (s', H KM (nq c) e :: hs) /\
    reads_m s' (nq c) e (operator c) /\ Forall2 (holds s') hs obj.
Proof.
  intros Hr HF Hn _ Hm Hg Hs.
  assert (HL : forall c1 o', exec1 (P_gate (nq c) ident 0 []) (s, hs) c1 [] -> merge_loop tau i freq (nq c) obj (data c) 0 col c1 o' ->
    exists c2, o' = Some c2 /\ at_ c2 (nq c) (product (nq c) (data c) ident) hs obj).
  { intros c1 o' Hx Hl. eapply merge_loop_sound; eauto using at_start. }
  inversion Hg as [a1 a2 a3 c1 c2 c3 Hx Hl Hp|a1 a2 a3 c1 Hx Hl]; subst.
  - destruct (HL _ _ Hx Hl) as (c2' & E & Ha). injection E as <-. destruct (at_end _ _ _ _ _ _ _ Ha Hp) as (s' & e & E & Hr' & Hm' & HF').
    exists s', e. rewrite <- E. auto.
  - destruct (HL _ _ Hx Hl) as (c2' & E & _). discriminate.
Qed.
Lemma tick_exists i freq k c n M hs env : 1 <= freq -> at_ c n M hs env -> of_kind KV hs \/ S k < freq ->
  exists b c', tick tau i freq (S k) b c c' /\ safe b hs.
Proof.
  intros Hf Ha Hs. destruct (Nat.eq_dec (S k mod freq) 0) as [Hk|Hk]; [|exists false, c; split; [now constructor|now left]].
  destruct Hs as [Hs|Hs]; [|rewrite Nat.mod_small in Hk by exact Hs; discriminate].
  destruct Ha as (s & e & -> & Hr & Hm & HF).
  destruct (C14_gc_mat tau s [n] [e] hs i false Hr eq_refl Hs) as (es' & s2 & G1 & G2 & _ & _ & G5 & _).
  destruct es' as [|e' [|? ?]]; try discriminate. destruct (below_thr i (tb s KM) (gc_m s)) eqn:Eb.
  - destruct G5 as [E1 E2]; [unfold below_thr in Eb; apply Z.ltb_lt; exact Eb|reflexivity|]. injection E1 as ->. subst s2.
    exists false, (s, H KM n e :: hs). split; [now apply tk_below|now left].
  - exists true, (s2, H KM n e' :: hs). split; [now apply tk_gc|now right].
Qed.
Lemma merge_loop_runs i freq n obj l : size_ok n -> 1 <= freq -> forall k c M hs, mergeable n obj l -> at_ c n M hs obj ->
  of_kind KV hs \/ k + length l < freq -> exists col c', merge_loop tau i freq n obj l k col c (Some c') /\ safe col hs.
Proof.
  intros Hn Hf. induction l as [|x r IH]; intros k c M hs Hm Ha Hs; [exists false, c; split; [constructor|now left]|].
  assert (Hm' : mergeable n obj r) by (intros y g Hy; apply Hm; now right).
  assert (Hs' : of_kind KV hs \/ k + length r < freq) by (destruct Hs; [now left|right; cbn in *; lia]).
  assert (Hs1 : of_kind KV hs \/ S k < freq) by (destruct Hs; [now left|right; cbn in *; lia]).
  assert (Hs2 : of_kind KV hs \/ S k + length r < freq) by (destruct Hs; [now left|right; cbn in *; lia]).
  assert (Hor : forall b col, safe b hs -> safe col hs -> safe (b || col) hs)
    by (intros b col [->|hb] [->|hc]; [left; reflexivity|right..]; assumption).
  destruct (op x) as [g|q cc|q|qs|qs|qs|qs] eqn:Hop.
  2: { destruct (IH k c M hs Hm' Ha Hs') as (col & c' & Hl & Hc). exists col, c'. split; [|exact Hc]. apply ml_continue; [now rewrite Hop|exact Hl]. }
  3: { destruct (IH k c M hs Hm' Ha Hs') as (col & c' & Hl & Hc). exists col, c'. split; [|exact Hc]. apply ml_continue; [now rewrite Hop|exact Hl]. }
  2-5: (destruct (tick_exists i freq k c n M hs obj Hf Ha Hs1) as (b & c3 & Ht & Hb);
    destruct (IH (S k) c3 M hs Hm' (tick_sound _ _ _ _ _ _ _ _ _ _ Ht Hb Ha) Hs2) as (col & c' & Hl & Hc);
    exists (b || col), c'; split; [|now apply Hor]; apply ml_ignored with c3; [rewrite Hop; exact Logic.I|exact Ht|exact Hl]).
  pose proof (Hm x g (or_introl eq_refl) Hop) as Hg.
  assert (Hcase : (exists it, ginstr n g = Some it /\ gmeans n it (gate_mat n (fun q => q) g)) \/ exists A qs, g = GQ A qs /\ In (IM n A) obj).
  { destruct g as [g qs|g qs|g qs|A qs]; [left|left|contradiction|right; eauto].
    - eexists. split; [reflexivity|]. apply ginstr_means; auto.
    - eexists. split; [reflexivity|]. apply ginstr_means; auto. }
  destruct (at_F _ _ _ _ _ Ha) as [Hr HF]. pose proof Ha as Ha0. destruct Ha0 as (s & e & -> & _).
  destruct Hcase as [(it & Hit & Hmn)|(A & qs & -> & HA)].
  - destruct (exec1_exists tau H0 it _ _ _ _ Hr HF (Hmn _)) as (c1 & H1).
    destruct (exec1_env tau H0 it _ c1 _ _ _ _ Hr HF (Hmn _) H1) as (_ & Hr1 & HF1).
    destruct (exec1_exists tau H0 (P_mmmul 0 1) c1 _ (IM n (mm n (gate_mat n (fun q => q) g) M)) [] Hr1 HF1) as (c2 & H2);
      [exists n, (gate_mat n (fun q => q) g), M; cbn; auto|].
    pose proof (step_gate it _ s _ hs c1 c2 n M obj Hmn Ha H1 H2) as Ha2.
    destruct (tick_exists i freq k _ n _ hs obj Hf Ha2 Hs1) as (b & c3 & Ht & Hb).
    destruct (IH (S k) c3 _ hs Hm' (tick_sound _ _ _ _ _ _ _ _ _ _ Ht Hb Ha2) Hs2) as (col & c' & Hl & Hc).
    exists (b || col), c'. split; [|now apply Hor]. eapply ml_gate; eauto.
  - destruct (In_nth_error _ _ HA) as (j & Hj).
    destruct (exec1_exists tau H0 (P_mmmul (S j) 0) _ _ (IM n (mm n A M)) [] Hr HF) as (c2 & H2); [exists n, A, M; cbn; auto|].
    pose proof (step_qdd j A s _ hs c2 n M obj Hj Ha H2) as Ha2.
    destruct (tick_exists i freq k _ n _ hs obj Hf Ha2 Hs1) as (b & c3 & Ht & Hb).
    destruct (IH (S k) c3 _ hs Hm' (tick_sound _ _ _ _ _ _ _ _ _ _ Ht Hb Ha2) Hs2) as (col & c' & Hl & Hc).
    exists (b || col), c'. split; [|now apply Hor]. eapply ml_qdd; eauto.
Qed.
(* and the library can run it: when the client holds no other gate, or the circuit is
   shorter than the collection period *)
Theorem C61_runs i freq c obj s hs : reachable (s, hs) -> Forall2 (holds s) hs obj -> size_ok (nq c) -> 1 <= freq ->
  mergeable (nq c) obj (data c) -> of_kind KV hs \/ length (data c) < freq ->
  exists col c', merge tau i freq c obj col (s, hs) (Some c') /\ safe col hs.
Proof.
  intros Hr HF Hn Hf Hm Hs. destruct (exec1_exists tau H0 (P_gate (nq c) ident 0 []) (s, hs) obj _ [] Hr HF (merge_ident _ _ Hn)) as (c1 & H1).
  pose proof (at_start _ _ _ _ _ Hn Hr HF H1) as Ha.
  destruct (merge_loop_runs i freq (nq c) obj (data c) Hn Hf 0 c1 ident hs Hm Ha Hs) as (col & c2 & Hl & Hc).
  destruct (merge_loop_sound _ _ _ _ _ _ _ _ _ Hn Hl hs ident Hc Hm Ha) as (c2' & E & Ha2). injection E as <-.
  destruct (at_F _ _ _ _ _ Ha2) as [Hr2 HF2].
  destruct (exec1_exists tau H0 (P_global 0 (gphase c)) c2 _ (IM (nq c) (fun i j => Cmult (cos (gphase c), sin (gphase c)) (product (nq c) (data c) ident i j))) [] Hr2 HF2) as (c3 & H3);
    [cbn [isem]; split; [reflexivity|]; right; exists (nq c), (product (nq c) (data c) ident); split; reflexivity|].
  exists col, (drop_older tau c3 hs). split; [|exact Hc]. eapply mg_done; eauto.
Qed.
End Merge.

(* applied to |0...0>, the merged operator gives the state the backend's own loop ends
   in, for circuits it runs in one pass (stable_final_state) *)
Theorem C61_same_state eps c p req : circ_ok c -> validate_circuit req c = Some p -> stable_final_state p = true ->
  exists w, exec eps (nq c) true (data c) (basis 0) (repeat false (nc c)) [] = Leaf (w, repeat false (nc c), []) /\
    veq (nq c) (mv (nq c) (operator c) (basis 0)) (Backend.phase (gphase c) w).
Proof.
  intros Hok Hv Hst. exists (finalv (nq c) (data c) (basis 0)).
  split; [exact (Logic.proj1 (shot_stable_dist eps c p req Hok Hv Hst))|].
  intros i Hi. unfold operator, Backend.phase, scaled, mv.
  rewrite (csum_ext' (2 ^ nq c) _ (fun j => Cmult (cos (gphase c), sin (gphase c)) (Cmult (product (nq c) (data c) ident i j) (basis 0 j)))) by (intros; ring).
  rewrite csum_scal. f_equal. change (mv (nq c) (product (nq c) (data c) ident) (basis 0) i = finalv (nq c) (data c) (basis 0) i).
  rewrite (product_final (nq c) (data c) ident (basis 0) i Hi). apply finalv_veq; auto. apply mv_ident.
Qed.
