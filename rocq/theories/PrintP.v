(* PrintP.v -- C73: what printVector, printVectorMPI, printVector_sparse and genDot
   show is the state (Print.v).
   Main results: C73_printVector, C73_sparse, C73_dot_vector,
   C73_dot_matrix, C73_printVectorMPI, C73_arrays. *)
From Coq Require Import Reals Lra ZArith NArith Bool List Lia Arith FinFun.
From Coquelicot Require Import Complex.
From Verif Require Import Num State DD Gates GC Measure Api RNum Wf Sums Err Inv Wp Make Add MulV GateP Canon Spec Readout GCP Obs ApiP Props1 Props2 MPIM MPIP MPIMP Print.
Import ListNotations.
Open Scope nat_scope.

Section Lines.
Context (tau : R) {HTol : Tol tau}.
Let Htau : (0 <= tau < 1 / 2)%R := tol_ok.
#[local] Hint Extern 0 NumOps => exact (RNum tau) : typeclass_instances.
Context {CF : Cfg}.
Notation state := (@state (RNum tau)).
Notation edge := (@edge (RNum tau)).
Notation node := (@node (RNum tau)).
Notation dline := (@dline (RNum tau)).
Notation wfe := (wfe tau).
Notation wfp := (wfp tau).
Notation reg := (reg tau).
Notation TInv := (TInv tau).
Notation Inv := (Inv tau).
Notation valp := (valp tau).
Notation reads_v := (reads_v tau).
Notation reads_m := (reads_m tau).

(* ---- printVector ---- *)
Lemma printVector2_fill s n : forall e row w m, printVector2 s n e row w m = fillVector s n e row w m.
Proof.
  induction n as [|n IH]; intros; cbn [printVector2 fillVector]; [reflexivity|].
  destruct (is_term (en e)); [reflexivity|]. destruct (readn KV (en e) s) as [nd|]; [|reflexivity].
  rewrite IH. destruct (fillVector _ _ _ _ _ _); [apply IH|reflexivity].
Qed.
Lemma print_array_get s e : is_term (en e) = false -> print_array s e = getVector s e.
Proof.
  intro Ht. unfold print_array, getVector. rewrite Ht. destruct (getVar KV (en e) s); [|reflexivity].
  destruct (shift_ok _); [|reflexivity]. rewrite printVector2_fill. reflexivity.
Qed.
(* printVector prints the amplitudes, in order; for the zero vector, the number 0 *)
Theorem C73_printVector s hs n e v : reachable (s, hs) -> In (H KV n e) hs -> reads_v s n e v -> n <= 30 ->
  (is_term (en e) = false -> exists l, printVector s e = Some l /\ length l = 2 ^ n /\ forall i, i < 2 ^ n -> nth i l (RtoC 0) = v i) /\
  (is_term (en e) = true -> exists w, printVector s e = Some [w] /\ forall i, i < 2 ^ n -> v i = RtoC 0).
Proof.
  intros Hr Hi (H1 & H2 & H3) Hn. split; intro Ht; unfold printVector; rewrite Ht.
  - rewrite print_array_get by exact Ht. destruct (H3 Hn Ht) as (l & Hl & Hlen & Hv). exists l. split; [exact Hl|]. split; [exact Hlen|].
    intros i Hi'. apply (Hv i Hi').
  - exists (ew e). split; [reflexivity|]. intros i Hi'. apply (H2 Ht i Hi').
Qed.

(* ---- printVector_sparse ---- *)
Definition big (thr : R) (x : C) : bool := if Rlt_dec thr (Cmod x) then true else false.
Lemma ltb_big thr (x : C) : @nltb (RNum tau) thr (cnorm x) = big thr x.
Proof.
  unfold cnorm, norm2, big. cbn. replace (fst x * fst x + snd x * snd x)%R with (fst x ^ 2 + snd x ^ 2)%R by ring.
  fold (Cmod x). try reflexivity.
Qed.

Lemma sfill_spec (m : smap) row cnt x j :
  sfill m row cnt x j = if ((row <=? j) && (j <? row + N.of_nat cnt))%N then Some x else m j.
Proof.
  induction cnt as [|c IH]; cbn [sfill].
  - destruct (N.leb_spec row j); cbn [andb]; [|reflexivity]. destruct (N.ltb_spec j (row + N.of_nat 0)%N); [lia|reflexivity].
  - unfold supd. rewrite IH. rewrite Nat2N.inj_succ. destruct (N.eqb_spec (row + N.of_nat c)%N j) as [<-|Hne].
    + destruct (N.leb_spec row (row + N.of_nat c)%N); [|lia]. cbn [andb]. destruct (N.ltb_spec (row + N.of_nat c)%N (row + N.succ (N.of_nat c))%N); [reflexivity|lia].
    + destruct (N.leb_spec row j); cbn [andb]; [|reflexivity].
      destruct (N.ltb_spec j (row + N.of_nat c)%N); destruct (N.ltb_spec j (row + N.succ (N.of_nat c))%N); try reflexivity; lia.
Qed.
Notation val := (val tau).
Lemma sparse2_spec thr s : TInv KV (tb s KV) -> forall n e row w m, wfe KV (tb s KV) n e ->
  exists m', sparse2 thr s n e row w m = Some m' /\
    forall j, m' j = if inblk n row j then (let x := Cmult w (val KV (tb s KV) n e (nbix j)) in if big thr x then Some x else m j) else m j.
Proof.
  intros HT. induction n as [|n IH]; intros e row w m He; cbn [sparse2].
  - assert (Hp : en e = Term) by (destruct He as [h|[_ h]]; auto). rewrite Hp. cbn [is_term].
    eexists. split; [reflexivity|]. intros j.
    assert (Hx : Cmult w (val KV (tb s KV) 0 e (nbix j)) = cmul (ew e) w).
    { unfold Wf.val. rewrite (cmul_C tau (ew e) w). change (Wf.valp tau KV (tb s KV) 0 (en e) (nbix j)) with (RtoC 1). toC. ring. }
    rewrite Hx, ltb_big, inblk_0. cbv zeta. unfold supd. destruct (big thr (cmul (ew e) w)); [|destruct (row =? j)%N; reflexivity].
    destruct (row =? j)%N; reflexivity.
  - destruct (is_term (en e)) eqn:Ht.
    + assert (Hp : en e = Term) by (destruct (en e); (discriminate Ht || auto)).
      assert (Hw : ew e = c0).
      { destruct He as [(a & nd & h & _)|[h _]]; auto. rewrite Hp in h. discriminate. }
      eexists. split; [reflexivity|]. intros j.
      assert (Hx : Cmult w (val KV (tb s KV) (S n) e (nbix j)) = cmul (ew e) w).
      { rewrite (val_zw tau) by auto. rewrite (cmul_C tau (ew e) w), Hw. change (@c0 (RNum tau)) with (RtoC 0). toC. ring. }
      rewrite Hx, ltb_big. cbv zeta. destruct (big thr (cmul (ew e) w)); [|destruct (inblk _ _ _); reflexivity].
      rewrite sfill_spec, N.shiftl_mul_pow2, <- inblk_range. destruct (inblk (S n) row j); reflexivity.
    + destruct He as [(a & nd & Hp & Hr & Hv)|[_ h]]; [|rewrite h in Ht; discriminate].
      rewrite Hp, (readn_node tau s KV a nd Hr). pose proof (reg_ok tau _ _ _ _ HT Hr) as Hok.
      destruct (nch nd) as [|c0' [|c1' [|]]] eqn:Hch; try (pose proof (no_len _ _ _ _ Hok) as Hl; rewrite Hch in Hl; discriminate).
      assert (Hw : forall c, In c (nch nd) -> wfe KV (tb s KV) n c).
      { intros c Hc. pose proof (no_wf _ _ _ _ Hok c Hc) as h. now rewrite Hv, Nat2Z.id in h. }
      rewrite Hch in Hw. cbn [nth].
      replace (N.shiftl row 1) with (2 * row)%N by (rewrite N.shiftl_mul_pow2; change (2 ^ 1)%N with 2%N; lia).
      destruct (IH c0' (2 * row)%N (cmul (ew e) w) m) as (m1 & -> & H1); [apply Hw; cbn; auto|].
      destruct (IH c1' (2 * row + 1)%N (cmul (ew e) w) m1) as (m2 & -> & H2); [apply Hw; cbn; auto|].
      eexists. split; [reflexivity|]. intros j. rewrite H2, H1, inblk_S. cbv zeta.
      assert (Hval : Cmult w (val KV (tb s KV) (S n) e (nbix j)) =
        Cmult (cmul (ew e) w) (val KV (tb s KV) n (nth (nbix j n) (nch nd) zeroE) (nbix j))).
      { unfold Wf.val at 1. rewrite Hp. rewrite (valp_S_node tau _ _ n a nd) by auto. rewrite (cmul_C tau (ew e) w). toC. ring. }
      rewrite Hval, Hch. rewrite (nbix_bit j n).
      destruct (N.testbit j (N.of_nat n)) eqn:Hb; cbn [nth].
      * destruct (inblk n (2 * row + 1) j); [destruct (inblk n (2 * row) j) eqn:Hi; [apply inblk_not in Hi; congruence|]; reflexivity|].
        destruct (inblk n (2 * row) j) eqn:Hi; auto. apply inblk_not in Hi. congruence.
      * destruct (inblk n (2 * row + 1) j) eqn:Hi; [apply inblk_not1 in Hi; congruence|].
        destruct (inblk n (2 * row) j); reflexivity.
Qed.
(* printVector_sparse prints the amplitudes of modulus above the threshold, in the
   order of their indices, and no others *)
Theorem C73_sparse s hs n e v thr : reachable (s, hs) -> In (H KV n e) hs -> reads_v s n e v -> n <= 30 -> is_term (en e) = false ->
  printVector_sparse thr s e = Some (map (fun i => SLine (N.of_nat i) (v i)) (filter (fun i => big thr (v i)) (seq 0 (2 ^ n)))).
Proof.
  intros Hr Hi Hv Hn Ht. destruct (reach_V tau _ _ _ _ Hr Hi) as (A1 & A2 & A3).
  pose proof (reach_Inv tau s hs Hr) as HI. pose proof (inv_tb _ _ HI KV) as HT.
  assert (Hw : Wf.wfp tau KV (tb s KV) n (en e)). { destruct A3 as [Hw|[_ Hw]]; [exact Hw|]. rewrite Hw in Ht. discriminate. }
  destruct n as [|n]. { simpl in Hw. rewrite Hw in Ht. discriminate. }
  destruct Hw as (a & nd & Hp & Hreg & Hnv).
  unfold printVector_sparse. rewrite Ht. unfold getVar. rewrite Hp, (readn_node tau s KV a nd Hreg), Hnv.
  replace (Z.of_nat n + 1)%Z with (Z.of_nat (S n)) by lia. rewrite Nat2Z.id.
  replace (shift_ok (Z.of_nat (S n))) with true by (unfold shift_ok; symmetry; apply andb_true_iff; split; [apply Z.leb_le|apply Z.ltb_lt]; lia).
  destruct (sparse2_spec thr s HT (S n) e 0%N c1 (fun _ => None)) as (m' & -> & Hm); [exact A3|].
  f_equal.
  assert (Hall : forall i, i < 2 ^ S n -> m' (N.of_nat i) = if big thr (v i) then Some (v i) else None).
  { intros i Hlt. rewrite Hm. replace (inblk (S n) 0 (N.of_nat i)) with true.
    2:{ symmetry. rewrite inblk_range. rewrite N.mul_0_l. apply andb_true_iff. split; [apply N.leb_le; lia|]. apply N.ltb_lt. lia. }
    cbv zeta. match goal with |- (if big thr ?X then _ else _) = _ => replace X with (v i); [reflexivity|] end.
    destruct Hv as [Hv _]. rewrite <- (Hv i Hlt). unfold nbix. rewrite Nat2N.id. change (@c1 (RNum tau)) with (RtoC 1). toC. unfold vecof, Obs.vecof, vecF. ring. }
  assert (Hl : forall a0 l0, (forall i, In i (seq a0 l0) -> i < 2 ^ S n) ->
    flat_map (fun i => match m' (N.of_nat i) with None => [] | Some x => [SLine (N.of_nat i) x] end) (seq a0 l0) =
    map (fun i => SLine (N.of_nat i) (v i)) (filter (fun i => big thr (v i)) (seq a0 l0))).
  { intros a0 l0. revert a0. induction l0 as [|l0 IHl]; intros a0 Hb; [reflexivity|]. cbn [seq flat_map filter].
    rewrite Hall by (apply Hb; left; reflexivity). rewrite IHl by (intros; apply Hb; right; assumption).
    destruct (big thr (v a0)); reflexivity. }
  apply Hl. intros i Hin. apply in_seq in Hin. lia.
Qed.

(* ---- genDot ---- *)
Definition skipped (k : kind) (c : edge) : bool := match k with KM => iszero (ew c) | KV => false end.
(* the nodes of a drawing with their labels, and the edges drawn from p *)
Definition dnodes (L : list dline) : list (ptr * Z) := flat_map (fun x => match x with DNode p l => [(p, l)] | _ => [] end) L.
Definition dedges (p : ptr) (L : list dline) : list (nat * ptr * cx) :=
  flat_map (fun x => match x with DEdge p' q i w => if ptr_eqb p' p then [(i, q, w)] else [] | _ => [] end) L.
Fixpoint kid_edges (k : kind) (i : nat) (cs : list edge) : list (nat * ptr * cx) :=
  match cs with
  | [] => []
  | c :: r => if skipped k c then kid_edges k (S i) r else (i, en c, ew c) :: kid_edges k (S i) r
  end.
Inductive seen (k : kind) (s : state) : ptr -> ptr -> Prop :=
| seen_refl p : seen k s p p
| seen_child p nd c q : readn k p s = Some nd -> In c (nch nd) -> skipped k c = false -> is_term (en c) = false ->
    seen k s (en c) q -> seen k s p q.

Lemma dnodes_app a b : dnodes (a ++ b) = dnodes a ++ dnodes b.
Proof. apply flat_map_app. Qed.
Lemma dedges_app p a b : dedges p (a ++ b) = dedges p a ++ dedges p b.
Proof. apply flat_map_app. Qed.
Lemma peqb p q : ptr_eqb p q = true <-> p = q.
Proof. destruct p, q; simpl; split; intro Hx; try congruence; try (apply Pos.eqb_eq in Hx; congruence); inversion Hx; apply Pos.eqb_refl. Qed.
Lemma pin p D : existsb (ptr_eqb p) D = true <-> In p D.
Proof. rewrite existsb_exists. split. { intros (q & Hq & He). apply peqb in He as <-. exact Hq. } intro Hp. exists p. split; [exact Hp|]. apply peqb. reflexivity. Qed.

(* what a call of genDot2, or the loop over some children, adds to the drawing *)
Record adds (k : kind) (s : state) (top : Z) (roots : ptr -> Prop) (ex : ptr -> list (nat * ptr * cx))
  (D : list ptr) (L' : list dline) (D' : list ptr) : Prop := {
  a_nd : NoDup D';
  a_dis : forall q, In q D' -> ~ In q D;
  a_nodes : map fst (dnodes L') = rev D';
  a_in : forall q, In q D' -> exists nd, (exists a, q = Node a /\ reg k (tb s k) a nd) /\ dedges q L' = kid_edges k 0 (nch nd) /\
    forall c, In c (nch nd) -> skipped k c = false -> is_term (en c) = false -> In (en c) (D' ++ D);
  a_out : forall q, ~ In q D' -> dedges q L' = ex q;
  a_seen : forall q, In q D' -> exists r, roots r /\ seen k s r q;
  a_lab : forall x, In x (dnodes L') -> exists nd, readn k (fst x) s = Some nd /\ snd x = match k with KM => nv nd | KV => (top - nv nd)%Z end
}.

Lemma adds_nil k s top roots D : adds k s top roots (fun _ => []) D [] [].
Proof. constructor; [constructor|intros q []|reflexivity|intros q []|reflexivity|intros q []|intros x []]. Qed.
Lemma adds_app k s top r1 r2 e1 e2 D L1 D1 L2 D2 :
  adds k s top r1 e1 D L1 D1 -> adds k s top r2 e2 (D1 ++ D) L2 D2 ->
  (forall q, e1 q <> [] -> In q D) -> (forall q, e2 q <> [] -> In q D) ->
  adds k s top (fun r => r1 r \/ r2 r) (fun q => e1 q ++ e2 q) D (L1 ++ L2) (D2 ++ D1).
Proof.
  intros [A1 A2 A3 A4 A5 A6 A7] [B1 B2 B3 B4 B5 B6 B7] He1 He2.
  assert (Hd : forall q, In q D1 -> ~ In q D2). { intros q H1 H2. apply (B2 q H2). apply in_or_app. auto. }
  constructor.
  - clear -A1 B1 Hd. induction B1 as [|x l Hx Hl IH]; simpl; [exact A1|]. constructor.
    + intro Hin. apply in_app_or in Hin as [Hin|Hin]; [contradiction|]. exact (Hd x Hin (or_introl eq_refl)).
    + apply IH. intros q H1 H2. exact (Hd q H1 (or_intror H2)).
  - intros q Hq HD. apply in_app_or in Hq as [Hq|Hq]; [|exact (A2 q Hq HD)]. apply (B2 q Hq). apply in_or_app. auto.
  - rewrite dnodes_app, map_app, A3, B3, rev_app_distr. reflexivity.
  - intros q Hq. apply in_app_or in Hq as [Hq|Hq].
    + destruct (B4 q Hq) as (nd & N1 & N2 & N3). exists nd. split; [exact N1|]. split.
      * rewrite dedges_app, N2. rewrite A5; [|intro Hx; exact (Hd q Hx Hq)].
        destruct (e1 q) as [|x l] eqn:Hx; [reflexivity|]. exfalso. apply (B2 q Hq). apply in_or_app. right. apply He1. congruence.
      * intros c H1 H2 H3. rewrite <- app_assoc. apply N3; auto.
    + destruct (A4 q Hq) as (nd & N1 & N2 & N3). exists nd. split; [exact N1|]. split.
      * rewrite dedges_app, N2. rewrite B5; [|exact (Hd q Hq)].
        destruct (e2 q) as [|x l] eqn:Hx; [apply app_nil_r|]. exfalso. apply (A2 q Hq). apply He2. congruence.
      * intros c H1 H2 H3. rewrite <- app_assoc. apply in_or_app. right. apply N3; auto.
  - intros q Hq. rewrite dedges_app. rewrite A5, B5; [reflexivity| |]; intro Hx; apply Hq; apply in_or_app; auto.
  - intros q Hq. apply in_app_or in Hq as [Hq|Hq]; [destruct (B6 q Hq) as (r & R1 & R2)|destruct (A6 q Hq) as (r & R1 & R2)]; exists r; auto.
  - intros x Hx. rewrite dnodes_app in Hx. apply in_app_or in Hx as [Hx|Hx]; auto.
Qed.
Lemma adds_ext k s top r1 r2 e1 e2 D L1 D1 : adds k s top r1 e1 D L1 D1 -> (forall q, r1 q -> exists q', r2 q' /\ seen k s q' q) ->
  (forall q, ~ In q D1 -> e1 q = e2 q) -> adds k s top r2 e2 D L1 D1.
Proof.
  intros [A1 A2 A3 A4 A5 A6 A7] Hr He. constructor; auto.
  - intros q Hq. rewrite A5 by exact Hq. apply He. exact Hq.
  - intros q Hq. destruct (A6 q Hq) as (r & R1 & R2). destruct (Hr r R1) as (r' & R3 & R4). exists r'. split; [exact R3|].
    clear -R2 R4. induction R4; auto. eapply seen_child; eauto.
Qed.

Definition ontop (k : kind) (top depth : Z) (m : nat) : Prop := match k with KV => (depth = top - Z.of_nat m)%Z | KM => True end.
Lemma kids_adds k s top rec p : forall cs i L D,
  In p D ->
  (forall c D0 L0, In c cs -> is_term (en c) = false -> incl D D0 -> exists L' D', rec (en c) (L0, D0) = Some (L0 ++ L', D' ++ D0) /\
     adds k s top (eq (en c)) (fun _ => []) D0 L' D' /\ In (en c) (D' ++ D0)) ->
  exists L' D', dot_kids k rec p i cs (L, D) = Some (L ++ L', D' ++ D) /\
    adds k s top (fun r => exists c, In c cs /\ skipped k c = false /\ is_term (en c) = false /\ r = en c)
      (fun q => if ptr_eqb p q then kid_edges k i cs else []) D L' D' /\
    forall c, In c cs -> skipped k c = false -> is_term (en c) = false -> In (en c) (D' ++ D).
Proof.
  induction cs as [|c cs IH]; intros i L D Hp Hrec.
  - exists [], []. cbn. rewrite app_nil_r. split; [reflexivity|]. split; [|intros c []].
    eapply adds_ext; [apply adds_nil| |].
    + intros q Hq. exists q. split; [exact Hq|constructor].
    + intros q _. destruct (ptr_eqb p q); reflexivity.
  - cbn [dot_kids kid_edges]. fold (skipped k c).
    assert (Hrec' : forall c0 D0 L0, In c0 cs -> is_term (en c0) = false -> incl D D0 -> exists L' D', rec (en c0) (L0, D0) = Some (L0 ++ L', D' ++ D0) /\
      adds k s top (eq (en c0)) (fun _ => []) D0 L' D' /\ In (en c0) (D' ++ D0)).
    { intros; apply Hrec; auto. right. auto. }
    destruct (skipped k c) eqn:Hs.
    + destruct (IH (S i) L D Hp Hrec') as (L' & D' & H1 & H2 & H3). exists L', D'. split; [exact H1|]. split.
      * eapply adds_ext; [exact H2| |reflexivity]. intros q (c0 & C1 & C2 & C3 & ->). exists (en c0). split; [|constructor]. exists c0. repeat split; auto. right. auto.
      * intros c0 [<-|Hc0] C2 C3; [congruence|auto].
    + cbn [fst snd]. set (ln := DEdge p (en c) i (ew c)).
      assert (Hln : adds k s top (fun _ => False) (fun q => if ptr_eqb p q then [(i, en c, ew c)] else []) D [ln] []).
      { constructor; [constructor|intros q []|reflexivity|intros q []| |intros q []|intros x []]. intros q _. unfold ln, dedges. cbn [flat_map]. destruct (ptr_eqb p q); reflexivity. }
      destruct (is_term (en c)) eqn:Ht.
      * destruct (IH (S i) (L ++ [ln]) D Hp Hrec') as (L' & D' & H1 & H2 & H3). exists ([ln] ++ L'), D'.
        rewrite app_assoc. split; [exact H1|]. split.
        -- pose proof (adds_app k s top _ _ _ _ D [ln] [] L' D' Hln H2) as Ha. rewrite app_nil_r in Ha. eapply adds_ext; [apply Ha| |].
           ++ intros q Hq. destruct (ptr_eqb p q) eqn:He; [apply peqb in He as <-; exact Hp|congruence].
           ++ intros q Hq. destruct (ptr_eqb p q) eqn:He; [apply peqb in He as <-; exact Hp|congruence].
           ++ intros q [[]|(c0 & C1 & C2 & C3 & ->)]. exists (en c0). split; [|constructor]. exists c0. repeat split; auto. right. auto.
           ++ intros q _. cbv beta. destruct (ptr_eqb p q); reflexivity.
        -- intros c0 [<-|Hc0] C2 C3; [congruence|auto].
      * destruct (Hrec c D (L ++ [ln]) (or_introl eq_refl) Ht (fun _ h => h)) as (L1 & D1 & R1 & R2 & R3). rewrite R1.
        destruct (IH (S i) ((L ++ [ln]) ++ L1) (D1 ++ D)) as (L' & D' & H1 & H2 & H3).
        { apply in_or_app. auto. }
        { intros c0 D0 L0 C1 C2 C3. apply Hrec'; auto. intros x Hx. apply C3. apply in_or_app. auto. }
        exists (([ln] ++ L1) ++ L'), (D' ++ D1). split; [rewrite H1; f_equal; f_equal; rewrite ?app_assoc; reflexivity|]. split.
        -- assert (Hp2 : forall A (a : list A) q, (if ptr_eqb p q then a else []) <> [] -> q = p).
           { intros A a q Hq. destruct (ptr_eqb p q) eqn:He; [apply peqb in He; auto|congruence]. }
           assert (Ha := adds_app k s top _ (eq (en c)) _ (fun _ => []) D [ln] [] L1 D1 Hln R2
              ltac:(intros q Hq; cbv beta in Hq; rewrite (Hp2 _ _ q Hq); exact Hp) ltac:(intros q Hq; congruence)).
           rewrite app_nil_r in Ha.
           pose proof (adds_app k s top _ _ _ _ D ([ln] ++ L1) D1 L' D' Ha H2) as Hb.
           eapply adds_ext; [apply Hb| |].
           ++ intros q Hq. cbv beta in Hq. rewrite app_nil_r in Hq. rewrite (Hp2 _ _ q Hq). exact Hp.
           ++ intros q Hq. cbv beta in Hq. rewrite (Hp2 _ _ q Hq). exact Hp.
           ++ intros q [[[]|<-]|(c0 & C1 & C2 & C3 & ->)].
              ** exists (en c). split; [|constructor]. exists c. repeat split; auto. left. auto.
              ** exists (en c0). split; [|constructor]. exists c0. repeat split; auto. right. auto.
           ++ intros q _. cbv beta. destruct (ptr_eqb p q); reflexivity.
        -- intros c0 [<-|Hc0] C2 C3.
           ++ rewrite <- app_assoc. apply in_or_app. auto.
           ++ rewrite <- app_assoc. auto.
Qed.

Lemma wfp_node k t n p : TInv k t -> wfp k t n p -> is_term p = false ->
  exists a nd m, p = Node a /\ reg k t a nd /\ nv nd = Z.of_nat m /\ m < n /\ match k with KV => n = S m | KM => True end.
Proof.
  intros HT Hw Ht. destruct k; cbn in Hw.
  - destruct n as [|m]; [rewrite Hw in Ht; discriminate|]. destruct Hw as (a & nd & H1 & H2 & H3). exists a, nd, m. repeat split; auto; apply H2.
  - destruct Hw as [->|(a & nd & H1 & H2 & H3)]; [discriminate|]. pose proof (no_level _ _ _ _ (reg_ok tau _ _ _ _ HT H2)). exists a, nd, (Z.to_nat (nv nd)). repeat split; auto; try apply H2; lia.
Qed.
Lemma wfe_wfp k t n (c : edge) : wfe k t n c -> is_term (en c) = false -> wfp k t n (en c).
Proof. intros [Hw|[_ Hw]] Ht; auto. rewrite Hw in Ht. discriminate. Qed.

Lemma genDot2_adds k s top : TInv k (tb s k) -> forall fuel n p depth L D,
  wfp k (tb s k) n p -> is_term p = false -> n <= fuel -> ontop k top depth (n - 1) ->
  exists L' D', genDot2 k s fuel p depth (L, D) = Some (L ++ L', D' ++ D) /\
    adds k s top (eq p) (fun _ => []) D L' D' /\ In p (D' ++ D) /\ (~ In p D -> exists l L'', L' = DNode p l :: L'').
Proof.
  intros HT. induction fuel as [|f IH]; intros n p depth L D Hw Ht Hn Hd.
  { destruct (wfp_node _ _ _ _ HT Hw Ht) as (a & nd & m & _ & _ & _ & H & _). lia. }
  cbn [genDot2]. cbn [fst snd]. destruct (existsb (ptr_eqb p) D) eqn:Hin.
  { exists [], []. rewrite app_nil_r. split; [reflexivity|]. split.
    - eapply adds_ext; [apply (adds_nil k s top (eq p))| |reflexivity]. intros q Hq. exists q. split; [exact Hq|constructor].
    - split; [apply pin; exact Hin|]. intro Hx. exfalso. apply Hx. apply pin. exact Hin. }
  destruct (wfp_node _ _ _ _ HT Hw Ht) as (a & nd & m & -> & Hreg & Hnv & Hm & Hk).
  pose proof (reg_ok tau _ _ _ _ HT Hreg) as Hok. pose proof (readn_node tau s k a nd Hreg) as Hrd. rewrite Hrd.
  set (lab := match k with KV => depth | KM => nv nd end).
  destruct (kids_adds k s top (fun q st => genDot2 k s f q (depth + 1) st) (Node a) (nch nd) 0 (L ++ [DNode (Node a) lab]) (Node a :: D))
    as (L1 & D1 & K1 & K2 & K3).
  { left. reflexivity. }
  { intros c D0 L0 Hc Hct _. destruct (IH m (en c) (depth + 1)%Z L0 D0) as (L' & D' & R1 & R2 & R3 & _); [| | | |exists L', D'; auto]; auto; try lia.
    - apply wfe_wfp; auto. pose proof (no_wf _ _ _ _ Hok c Hc) as Hx. rewrite Hnv, Nat2Z.id in Hx. exact Hx.
    - destruct k; [|exact I]. unfold ontop in *. subst n.
      pose proof (wfp_node KV (tb s KV) m (en c) HT) as Hmm.
      assert (Hx : wfp KV (tb s KV) m (en c)). { apply wfe_wfp; auto. pose proof (no_wf _ _ _ _ Hok c Hc) as Hx. rewrite Hnv, Nat2Z.id in Hx. exact Hx. }
      destruct (Hmm Hx Hct) as (_ & _ & m' & _ & _ & _ & _ & Hy). lia. }
  exists (DNode (Node a) lab :: L1), (D1 ++ [Node a]).
  split. { rewrite K1. rewrite <- !app_assoc. reflexivity. }
  assert (Hna : ~ In (Node a) D). { intro Hx. apply pin in Hx. congruence. }
  assert (Hn1 : ~ In (Node a) D1). { intro Hx. apply (a_dis _ _ _ _ _ _ _ _ K2 _ Hx). left. reflexivity. }
  split; [|split; [apply in_or_app; left; apply in_or_app; right; left; reflexivity|intros _; eexists; eexists; reflexivity]].
  destruct K2 as [A1 A2 A3 A4 A5 A6 A7]. constructor.
  - clear -A1 Hn1. induction A1 as [|x l Hx Hl IHl]; cbn [app]; [constructor; [intros []|constructor]|]. constructor.
    + intro Hi. apply in_app_or in Hi as [Hi|[Hi|[]]]; [contradiction|]. apply Hn1. left. auto.
    + apply IHl. intro Hi. apply Hn1. right. exact Hi.
  - intros q Hq. apply in_app_or in Hq as [Hq|[<-|[]]]; [|exact Hna]. intro Hx. apply (A2 q Hq). right. exact Hx.
  - change (dnodes (DNode (Node a) lab :: L1)) with ((Node a, lab) :: dnodes L1). cbn [map fst]. rewrite A3, rev_app_distr. reflexivity.
  - intros q Hq. change (dedges q (DNode (Node a) lab :: L1)) with (dedges q L1). apply in_app_or in Hq as [Hq|[<-|[]]].
    + destruct (A4 q Hq) as (nd' & N1 & N2 & N3). exists nd'. split; [exact N1|]. split; [exact N2|].
      intros c C1 C2 C3. rewrite <- app_assoc. exact (N3 c C1 C2 C3).
    + exists nd. split; [exists a; split; [reflexivity|exact Hreg]|]. split.
      * rewrite A5 by exact Hn1. replace (ptr_eqb (Node a) (Node a)) with true by (symmetry; apply peqb; reflexivity). reflexivity.
      * intros c C1 C2 C3. rewrite <- app_assoc. exact (K3 c C1 C2 C3).
  - intros q Hq. change (dedges q (DNode (Node a) lab :: L1)) with (dedges q L1).
    rewrite A5. 2:{ intro Hx. apply Hq. apply in_or_app. auto. }
    destruct (ptr_eqb (Node a) q) eqn:He; [|reflexivity]. apply peqb in He as <-. exfalso. apply Hq. apply in_or_app. right. left. reflexivity.
  - intros q Hq. exists (Node a). split; [reflexivity|]. apply in_app_or in Hq as [Hq|[<-|[]]]; [|constructor].
    destruct (A6 q Hq) as (r & (c & C1 & C2 & C3 & ->) & R2). eapply seen_child; eauto.
  - intros x Hx. change (dnodes (DNode (Node a) lab :: L1)) with ((Node a, lab) :: dnodes L1) in Hx. destruct Hx as [<-|Hx]; [|exact (A7 x Hx)].
    exists nd. split; [exact Hrd|]. cbn [snd]. unfold lab. destruct k; [|reflexivity]. unfold ontop in Hd. subst n. lia.
Qed.

(* Reading the drawing back: what a person following the arrows gets.  [edge_no j] is
   the edge numbered j among those drawn from a node, [label] the label of a node,
   [root_w] the weight on the terminal line, which is the last. *)
Fixpoint edge_no (j : nat) (l : list (nat * ptr * cx)) : option (ptr * cx) :=
  match l with
  | [] => None
  | (i, q, w) :: r => if Nat.eqb i j then Some (q, w) else edge_no j r
  end.
Definition label (L : list dline) (p : ptr) : option Z :=
  match find (fun x => ptr_eqb p (fst x)) (dnodes L) with Some x => Some (snd x) | None => None end.
Definition root_w (L : list dline) : C := match last L (DTerm c0) with DTerm w => w | _ => c0 end.
Fixpoint follow_v (L : list dline) (n : nat) (p : ptr) (i : nat) : C :=
  match n with
  | O => RtoC 1
  | S l => if is_term p then RtoC 1 else
      match edge_no (bit i l) (dedges p L) with None => RtoC 0 | Some (q, w) => Cmult w (follow_v L l q i) end
  end.
(* in a matrix drawing a node of label l decides on bit l of row and column; a level
   without a node is an identity *)
Fixpoint follow_m (L : list dline) (n : nat) (p : ptr) (i j : nat) : C :=
  match n with
  | O => RtoC 1
  | S l =>
      match label L p with
      | Some z => if Z.eqb z (Z.of_nat l) then
                    match edge_no (2 * bit i l + bit j l) (dedges p L) with None => RtoC 0 | Some (q, w) => Cmult w (follow_m L l q i j) end
                  else if Nat.eqb (bit i l) (bit j l) then follow_m L l p i j else RtoC 0
      | None => if Nat.eqb (bit i l) (bit j l) then follow_m L l p i j else RtoC 0
      end
  end.
Definition picture_v (L : list dline) (n : nat) (i : nat) : C :=
  match dnodes L with (p, _) :: _ => Cmult (root_w L) (follow_v L n p i) | [] => RtoC 0 end.
Definition picture_m (L : list dline) (n : nat) (i j : nat) : C :=
  match dnodes L with (p, _) :: _ => Cmult (root_w L) (follow_m L n p i j) | [] => RtoC 0 end.

Lemma edge_no_kids k j : forall cs i, edge_no (i + j) (kid_edges k i cs) =
  match nth_error cs j with Some c => if skipped k c then None else Some (en c, ew c) | None => None end.
Proof.
  assert (Hlt : forall cs i j, j < i -> edge_no j (kid_edges k i cs) = None).
  { induction cs as [|c cs IH]; intros i j0 Hj; cbn [kid_edges edge_no]; [reflexivity|].
    destruct (skipped k c); [apply IH; lia|]. cbn [edge_no]. replace (i =? j0) with false by (symmetry; apply Nat.eqb_neq; lia). apply IH. lia. }
  intros cs. revert j. induction cs as [|c cs IH]; intros j i; cbn [kid_edges].
  - destruct j; reflexivity.
  - destruct j as [|j].
    + cbn [nth_error]. destruct (skipped k c); [apply Hlt; lia|]. cbn [edge_no]. replace (i =? i + 0) with true by (symmetry; apply Nat.eqb_eq; lia). reflexivity.
    + cbn [nth_error]. destruct (skipped k c); [rewrite <- (IH j (S i)); f_equal; lia|]. cbn [edge_no].
      replace (i =? i + S j) with false by (symmetry; apply Nat.eqb_neq; lia). rewrite <- (IH j (S i)). f_equal. lia.
Qed.

Lemma child_eq k s top r L D q a nd j : TInv k (tb s k) -> adds k s top r (fun _ => []) [] L D ->
  q = Node a -> reg k (tb s k) a nd -> In q D -> j < arity k ->
  let c := nth j (nch nd) zeroE in
  (edge_no j (dedges q L) = Some (en c, ew c) /\ (is_term (en c) = false -> In (en c) D)) \/
  (edge_no j (dedges q L) = None /\ ew c = RtoC 0).
Proof.
  intros HT A -> Hreg Hq Hj c. pose proof (reg_ok tau _ _ _ _ HT Hreg) as Hok.
  destruct (a_in _ _ _ _ _ _ _ _ A _ Hq) as (nd' & (a' & Ha & N1) & N2 & N3). injection Ha as <-. assert (nd' = nd) as -> by (destruct N1, Hreg; congruence).
  pose proof (no_len _ _ _ _ Hok) as Hlen.
  assert (Hin : In c (nch nd)) by (apply nth_In; lia).
  assert (Hne : nth_error (nch nd) j = Some c) by (apply nth_error_nth'; lia).
  rewrite N2. pose proof (edge_no_kids k j (nch nd) 0) as Hk. cbn [Nat.add] in Hk. rewrite Hk, Hne. clear Hk.
  destruct (skipped k c) eqn:Hs; [right|left].
  - split; [reflexivity|]. destruct k; [discriminate|]. rewrite (no_zero _ _ _ _ Hok c Hin Hs). reflexivity.
  - split; [reflexivity|]. intros Ht. specialize (N3 c Hin Hs Ht). rewrite app_nil_r in N3. exact N3.
Qed.

Lemma follow_v_val s top r L D i : TInv KV (tb s KV) -> adds KV s top r (fun _ => []) [] L D ->
  forall n p, (wfp KV (tb s KV) n p /\ (is_term p = false -> In p D)) \/ p = Term -> follow_v L n p i = valp KV (tb s KV) n p (bix i).
Proof.
  intros HT A. induction n as [|n IH]; intros p Hp; [reflexivity|].
  destruct (is_term p) eqn:Ht.
  { assert (p = Term) as ->. { destruct p; try discriminate; auto. }
    cbn [follow_v is_term]. rewrite valp_KV_term. reflexivity. }
  destruct Hp as [[Hw HD]| ->]; [|discriminate]. specialize (HD eq_refl). cbn in Hw. destruct Hw as (a & nd & -> & Hreg & Hnv).
  rewrite (valp_S_node tau _ _ n a nd) by auto. cbn [follow_v]. rewrite Ht. unfold val, Wf.val.
  set (c := nth (bix i n) (nch nd) zeroE). unfold bix in c.
  assert (Hin : In c (nch nd)). { apply nth_In. rewrite (no_len _ _ _ _ (reg_ok tau _ _ _ _ HT Hreg)). cbn. apply bit_lt. }
  destruct (child_eq KV s top r L D (Node a) a nd (bit i n) HT A eq_refl Hreg HD (bit_lt i n)) as [[-> Hc]|[-> Hc]].
  - fold c. rewrite IH; [reflexivity|].
    pose proof (no_wf _ _ _ _ (reg_ok tau _ _ _ _ HT Hreg) c Hin) as Hx. rewrite Hnv, Nat2Z.id in Hx.
    destruct Hx as [Hx|[_ Hx]]; [left|right; exact Hx]. split; [exact Hx|exact Hc].
  - fold c in Hc. rewrite Hc. ring.
Qed.
Lemma adds_term k s top r L D w : adds k s top r (fun _ => []) [] L D -> adds k s top r (fun _ => []) [] (L ++ [DTerm w]) D.
Proof.
  intros [A1 A2 A3 A4 A5 A6 A7].
  assert (Hd : dnodes (L ++ [DTerm w]) = dnodes L) by (rewrite dnodes_app; apply app_nil_r).
  assert (He : forall q, dedges q (L ++ [DTerm w]) = dedges q L) by (intro q; rewrite dedges_app; apply app_nil_r).
  constructor; auto; try rewrite Hd; auto; intros q Hq; rewrite He; auto.
Qed.
Lemma drawn k s top r L D : adds k s top r (fun _ => []) [] L D -> forall p, In p (map fst (dnodes L)) <-> In p D.
Proof. intros A p. rewrite (a_nodes _ _ _ _ _ _ _ _ A). symmetry. apply in_rev. Qed.
Lemma label_in k s top r L D q nd : adds k s top r (fun _ => []) [] L D -> In q D -> readn k q s = Some nd ->
  label L q = Some (match k with KM => nv nd | KV => (top - nv nd)%Z end).
Proof.
  intros A Hq Hn. unfold label. destruct (find (fun x => ptr_eqb q (fst x)) (dnodes L)) as [x|] eqn:Hf.
  - apply find_some in Hf as [H1 H2]. apply peqb in H2. destruct (a_lab _ _ _ _ _ _ _ _ A x H1) as (nd' & H3 & H4).
    rewrite H4. subst q. rewrite Hn in H3. injection H3 as <-. reflexivity.
  - exfalso. apply (drawn _ _ _ _ _ _ A) in Hq. apply in_map_iff in Hq as (x & H1 & H2).
    pose proof (find_none _ _ Hf x H2) as H3. cbv beta in H3. rewrite H1 in H3. replace (ptr_eqb q q) with true in H3 by (symmetry; apply peqb; reflexivity). discriminate.
Qed.
Lemma label_out k s top r L D q : adds k s top r (fun _ => []) [] L D -> ~ In q D -> label L q = None.
Proof.
  intros A Hq. unfold label. destruct (find (fun x => ptr_eqb q (fst x)) (dnodes L)) as [x|] eqn:Hf; [|reflexivity].
  apply find_some in Hf as [H1 H2]. apply peqb in H2. exfalso. apply Hq. apply (drawn _ _ _ _ _ _ A). subst q. apply in_map. exact H1.
Qed.
Lemma term_out k s top r L D : adds k s top r (fun _ => []) [] L D -> ~ In Term D.
Proof. intros A Hq. destruct (a_in _ _ _ _ _ _ _ _ A _ Hq) as (nd & (a & H1 & _) & _). discriminate. Qed.

Lemma diag_bits i j l : diag4 (2 * bit i l + bit j l) = if Nat.eqb (bit i l) (bit j l) then RtoC 1 else RtoC 0.
Proof. unfold bit. destruct (Nat.testbit i l), (Nat.testbit j l); reflexivity. Qed.
Lemma follow_m_val s top r L D i j : TInv KM (tb s KM) -> adds KM s top r (fun _ => []) [] L D ->
  forall n p, (wfp KM (tb s KM) n p /\ (is_term p = false -> In p D)) \/ p = Term -> follow_m L n p i j = valp KM (tb s KM) n p (mix i j).
Proof.
  intros HT A. induction n as [|n IH]; intros p Hp; [reflexivity|].
  assert (Hskip : forall q, (wfp KM (tb s KM) n q /\ (is_term q = false -> In q D)) \/ q = Term ->
     (if Nat.eqb (bit i n) (bit j n) then follow_m L n q i j else RtoC 0) = Cmult (skipf KM (mix i j n)) (valp KM (tb s KM) n q (mix i j))).
  { intros q Hq. unfold skipf. change (mix i j n) with (2 * bit i n + bit j n). rewrite diag_bits. destruct (Nat.eqb (bit i n) (bit j n)); [rewrite IH by exact Hq; ring|ring]. }
  cbn [follow_m].
  destruct (is_term p) eqn:Ht.
  { assert (p = Term) as -> by (destruct p; try discriminate; auto).
    rewrite (label_out _ _ _ _ _ _ Term A (term_out _ _ _ _ _ _ A)), valp_S_term. apply Hskip. auto. }
  destruct Hp as [[Hw HD]| ->]; [|discriminate]. specialize (HD eq_refl).
  destruct Hw as [->|(a & nd & -> & Hreg & Hlt)]; [discriminate|].
  rewrite (label_in _ _ _ _ _ _ _ nd A HD (readn_node tau s KM a nd Hreg)).
  destruct (Z.eqb (nv nd) (Z.of_nat n)) eqn:Hz.
  2:{ apply Z.eqb_neq in Hz. rewrite (valp_S_skip tau _ _ n a nd) by auto. apply Hskip. left. split; [|intros _; exact HD].
      right. exists a, nd. split; [reflexivity|]. split; [exact Hreg|lia]. }
  apply Z.eqb_eq in Hz.
  rewrite (valp_S_node tau _ _ n a nd) by auto. unfold val, Wf.val.
  set (c := nth (mix i j n) (nch nd) zeroE). unfold mix in c.
  assert (Hb : 2 * bit i n + bit j n < 4) by (unfold bit; destruct (Nat.testbit i n), (Nat.testbit j n); lia).
  assert (Hin : In c (nch nd)). { apply nth_In. rewrite (no_len _ _ _ _ (reg_ok tau _ _ _ _ HT Hreg)). exact Hb. }
  destruct (child_eq KM s top r L D (Node a) a nd (2 * bit i n + bit j n) HT A eq_refl Hreg HD Hb) as [[-> Hc]|[-> Hc]].
  - fold c. rewrite IH; [reflexivity|].
    pose proof (no_wf _ _ _ _ (reg_ok tau _ _ _ _ HT Hreg) c Hin) as Hx. rewrite Hz, Nat2Z.id in Hx.
    destruct Hx as [Hx|[_ Hx]]; [left|right; exact Hx]. split; [exact Hx|exact Hc].
  - fold c in Hc. rewrite Hc. ring.
Qed.

(* the nodes drawn are those reached from the root *)
Lemma drawn_reach k s top p L D : TInv k (tb s k) -> adds k s top (eq p) (fun _ => []) [] L D -> In p D ->
  forall q, q <> Term -> (In q D <-> reach tau k s p q).
Proof.
  intros HT A Hp q Hq. pose proof (a_in _ _ _ _ _ _ _ _ A) as Hall. pose proof (a_seen _ _ _ _ _ _ _ _ A) as Hsn. clear A. split.
  - intro Hd. destruct (Hsn q Hd) as (r & <- & Hs). clear Hsn. revert Hp. clear Hd. revert Hq.
    induction Hs as [x|x nd c y H1 H2 H3 H4 H5 IH]; intros Hq Hx; [apply reach_refl|].
    destruct (Hall x Hx) as (nd' & (a & -> & N1) & _ & N3).
    pose proof H1 as H1'. rewrite (readn_node tau s k a nd' N1) in H1'. injection H1' as ->.
    eapply reach_child; eauto; [discriminate|]. apply IH; auto. specialize (N3 c H2 H3 H4). rewrite app_nil_r in N3. exact N3.
  - intro Hr. clear Hsn. revert Hp. induction Hr as [x|x nd c y H1 H2 H3 H4 IH]; intro Hx; [exact Hx|].
    destruct (is_term (en c)) eqn:Ht.
    { exfalso. assert (Hc : en c = Term) by (destruct (en c); try discriminate; auto). rewrite Hc in H4. inversion H4; subst; congruence. }
    apply IH; [exact Hq|]. destruct (Hall x Hx) as (nd' & (a & -> & N1) & _ & N3).
    rewrite (readn_node tau s k a nd' N1) in H2. injection H2 as ->.
    assert (Hs : skipped k c = false).
    { destruct k; [reflexivity|]. cbn. destruct (iszero (ew c)) eqn:Hz; [|reflexivity]. exfalso.
      rewrite (no_zero _ _ _ _ (reg_ok tau _ _ _ _ HT N1) c H3 Hz) in Ht. discriminate. }
    specialize (N3 c H3 Hs Ht). rewrite app_nil_r in N3. exact N3.
Qed.

Lemma genDot_spec k s n e : TInv k (tb s k) -> wfp k (tb s k) n (en e) -> is_term (en e) = false -> n <= 101 ->
  exists L0 D, genDot k s e = Some (L0 ++ [DTerm (ew e)], length D) /\
    adds k s (Z.of_nat n - 1) (eq (en e)) (fun _ => []) [] (L0 ++ [DTerm (ew e)]) D /\ In (en e) D /\ exists l L1, L0 = DNode (en e) l :: L1.
Proof.
  intros HT Hw Ht Hn. unfold genDot. rewrite Ht.
  destruct (genDot2_adds k s (Z.of_nat n - 1) HT 101 n (en e) 0 [] [] Hw Ht Hn) as (L0 & D & R1 & R2 & R3 & R4).
  { destruct (wfp_node _ _ _ _ HT Hw Ht) as (a & nd & m & _ & _ & _ & Hm & _). destruct k; [unfold ontop; lia|exact I]. }
  cbn [app] in R1. rewrite app_nil_r in R1, R3. rewrite R1. exists L0, D. split; [reflexivity|]. split; [apply adds_term; exact R2|]. split; [exact R3|].
  apply R4. intros [].
Qed.
Lemma root_w_last L w : root_w (L ++ [DTerm w]) = w.
Proof. unfold root_w. rewrite last_last. reflexivity. Qed.
Lemma nodup_drawn k s top r L D : adds k s top r (fun _ => []) [] L D -> NoDup (map fst (dnodes L)) /\ length (dnodes L) = length D.
Proof.
  intros A. rewrite (a_nodes _ _ _ _ _ _ _ _ A). split; [apply NoDup_rev; apply (a_nd _ _ _ _ _ _ _ _ A)|].
  rewrite <- (map_length fst), (a_nodes _ _ _ _ _ _ _ _ A). apply rev_length.
Qed.
Lemma nonneg_term k (t : table) n (e : edge) : wfe k t n e -> is_term (en e) = false -> wfp k t n (en e).
Proof. apply wfe_wfp. Qed.

(* The drawing of a live vector: following its arrows gives the amplitudes; every
   node reached from the root is drawn once, and no other; the number of nodes
   reported is the number drawn and the one get_nNodes returns; the label of a node
   is n-1 minus its level *)
Theorem C73_dot_vector s hs n e v : reachable (s, hs) -> In (H KV n e) hs -> reads_v s n e v -> is_term (en e) = false ->
  exists L cnt, genDot KV s e = Some (L, cnt) /\ veq n (picture_v L n) v /\
    NoDup (map fst (dnodes L)) /\ length (dnodes L) = cnt /\ get_nNodes s e = Some cnt /\
    (forall a, In (Node a) (map fst (dnodes L)) <-> reach tau KV s (en e) (Node a)) /\
    (forall p l, In (p, l) (dnodes L) -> exists nd, readn KV p s = Some nd /\ l = (Z.of_nat n - 1 - nv nd)%Z).
Proof.
  intros Hr Hi Hv Ht. destruct (reach_V tau _ _ _ _ Hr Hi) as (A1 & A2 & A3).
  pose proof (reach_Inv tau s hs Hr) as HI. pose proof (inv_tb _ _ HI KV) as HT.
  pose proof (wfe_wfp _ _ _ _ A3 Ht) as Hw.
  destruct (genDot_spec KV s n e HT Hw Ht) as (L0 & D & G1 & G2 & G3 & l0 & L1 & ->); [unfold NQUBITS in A1; lia|].
  set (L := (DNode (en e) l0 :: L1) ++ [DTerm (ew e)]) in *. exists L, (length D). split; [exact G1|].
  assert (Hrw : root_w L = ew e) by (unfold L; apply root_w_last).
  assert (Hdn : dnodes L = (en e, l0) :: dnodes (L1 ++ [DTerm (ew e)])) by reflexivity.
  destruct (nodup_drawn _ _ _ _ _ _ G2) as [N1 N2].
  assert (Hreach : forall a, In (Node a) (map fst (dnodes L)) <-> reach tau KV s (en e) (Node a)).
  { intro a. rewrite (drawn _ _ _ _ _ _ G2). apply (drawn_reach _ _ _ _ _ _ HT G2 G3). discriminate. }
  split; [|split; [exact N1|split; [exact N2|split; [|split; [exact Hreach|]]]]].
  - destruct Hv as [Hv _]. intros i Hlt. rewrite <- (Hv i Hlt). unfold picture_v.
    rewrite Hdn, Hrw. unfold vecof, Obs.vecof, vecF, Wf.val.
    rewrite (follow_v_val _ _ _ L D i HT G2 n (en e)); [reflexivity|]. left. split; [exact Hw|]. intros _. exact G3.
  - destruct (C17_get_nNodes tau s hs n e Hr Hi) as (l & -> & M1 & M2). f_equal. rewrite <- N2, <- (map_length fst).
    assert (Hnode : forall p, In p (map fst (dnodes L)) -> exists a, p = Node a).
    { intros p Hp. apply (drawn _ _ _ _ _ _ G2) in Hp. destruct (a_in _ _ _ _ _ _ _ _ G2 p Hp) as (_ & (a & -> & _) & _). eauto. }
    rewrite <- (map_length Node l). apply Nat.le_antisymm; apply NoDup_incl_length.
    + apply Injective_map_NoDup; [intros x y Hxy; congruence|exact M1].
    + intros p Hp. apply in_map_iff in Hp as (a & <- & Ha). apply Hreach, M2, Ha.
    + exact N1.
    + intros p Hp. destruct (Hnode p Hp) as (a & ->). apply in_map, M2, Hreach, Hp.
  - intros p l Hp. exact (a_lab _ _ _ _ _ _ _ _ G2 (p, l) Hp).
Qed.

(* The drawing of a live matrix, in the same way, on any number of qubits the handle
   stands for; children that are approximately zero are not drawn and nothing is
   lost; the label of a node is its level *)
Theorem C73_dot_matrix s hs n e A : reachable (s, hs) -> In (H KM n e) hs -> reads_m s n e A -> is_term (en e) = false ->
  exists L cnt, genDot KM s e = Some (L, cnt) /\ meq n (picture_m L n) A /\
    NoDup (map fst (dnodes L)) /\ length (dnodes L) = cnt /\
    (forall a, In (Node a) (map fst (dnodes L)) <-> reach tau KM s (en e) (Node a)) /\
    (forall p l, In (p, l) (dnodes L) -> exists nd, readn KM p s = Some nd /\ l = nv nd).
Proof.
  intros Hr Hi Hv Ht. destruct (reach_M tau _ _ _ _ Hr Hi) as (A1 & A3).
  pose proof (reach_Inv tau s hs Hr) as HI. pose proof (inv_tb _ _ HI KM) as HT.
  pose proof (wfe_wfp _ _ _ _ A3 Ht) as Hw.
  destruct (genDot_spec KM s n e HT Hw Ht) as (L0 & D & G1 & G2 & G3 & l0 & L1 & ->); [unfold NQUBITS in A1; lia|].
  set (L := (DNode (en e) l0 :: L1) ++ [DTerm (ew e)]) in *. exists L, (length D). split; [exact G1|].
  assert (Hrw : root_w L = ew e) by (unfold L; apply root_w_last).
  assert (Hdn : dnodes L = (en e, l0) :: dnodes (L1 ++ [DTerm (ew e)])) by reflexivity.
  destruct (nodup_drawn _ _ _ _ _ _ G2) as [N1 N2].
  split; [|split; [exact N1|split; [exact N2|split]]].
  - destruct Hv as [Hv _]. intros i j Hi1 Hj1. rewrite <- (Hv i j Hi1 Hj1). unfold picture_m.
    rewrite Hdn, Hrw. unfold matof, Obs.matof, matF, Wf.val.
    rewrite (follow_m_val _ _ _ L D i j HT G2 n (en e)); [reflexivity|]. left. split; [exact Hw|]. intros _. exact G3.
  - intro a. rewrite (drawn _ _ _ _ _ _ G2). apply (drawn_reach _ _ _ _ _ _ HT G2 G3). discriminate.
  - intros p l Hp. exact (a_lab _ _ _ _ _ _ _ _ G2 (p, l) Hp).
Qed.

(* ---- printVectorMPI ---- *)
Notation world := (@world (RNum tau)).
(* Rank 0 prints the amplitudes of the whole vector in order, except that the slice
   of a rank whose handle is the terminal is one line "(all 0)" (None); such a slice
   is zero *)
Theorem C73_printVectorMPI n g (w : world) v : size_ok n -> g < n -> n - g <= 30 -> world_holds tau n g w v ->
  printVectorMPI w = Some (concat (map (fun r =>
    match nth_error w r with
    | Some (e, _) => if is_term (en e) then [None] else map (fun j => Some (v (r * 2 ^ (n - g) + j))) (seq 0 (2 ^ (n - g)))
    | None => []
    end) (seq 0 (2 ^ g)))) /\
  forall r e s, nth_error w r = Some (e, s) -> is_term (en e) = true -> forall j, j < 2 ^ (n - g) -> v (r * 2 ^ (n - g) + j) = RtoC 0.
Proof.
  intros Hn Hg H30 [Hl Hw]. split.
  2:{ intros r e s Hr Ht j Hj. destruct (Hw r e s Hr) as (_ & _ & _ & Hz & _). apply (Hz Ht j Hj). }
  set (m := n - g) in *.
  set (F := fun r => match nth_error w r with
    | Some (e, _) => if is_term (en e) then [None] else map (fun j => Some (v (r * 2 ^ m + j))) (seq 0 (2 ^ m))
    | None => [] end).
  destruct (each_map tau (A := list (option cx)) (fun _ e s => if is_term (en e) then Some ([None], s)
                           else match print_array s e with None => None | Some l => Some (map Some l, s) end) F (fun _ _ => True) w 0) as (ss & E1 & _ & _).
  { intros r e s Hr. exists s. split; auto. cbn [Nat.add]. unfold F. rewrite Hr. destruct (is_term (en e)) eqn:Ht; [reflexivity|].
    rewrite print_array_get by exact Ht. destruct (Hw r e s Hr) as (_ & _ & _ & _ & Hv). destruct (Hv H30 Ht) as (l & El & Ll & Hvl).
    assert (Hlm : l = map (slice m r v) (seq 0 (2 ^ m))).
    { apply nth_ext with (d := RtoC 0) (d' := slice m r v 0); [rewrite map_length, seq_length; exact Ll|].
      intros i Hi. rewrite Ll in Hi. rewrite map_nth, seq_nth by exact Hi. cbn [Nat.add]. rewrite <- Hvl by exact Hi. reflexivity. }
    rewrite El, Hlm, map_map. reflexivity. }
  unfold printVectorMPI. rewrite E1, Hl. reflexivity.
Qed.

(* printMatrix and getEigenMatrix show the matrix, getEigenVector the vector *)
Theorem C73_arrays s hs n :
  (forall e A, reachable (s, hs) -> In (H KM n e) hs -> reads_m s n e A -> n <= 30 ->
     exists l, printMatrix s e (Z.of_nat n) = Some l /\ getEigenMatrix s e (Z.of_nat n) = Some l /\ length l = 2 ^ n /\
       (forall r, In r l -> length r = 2 ^ n) /\ meq n (mof l) A) /\
  (forall e v, reachable (s, hs) -> In (H KV n e) hs -> reads_v s n e v -> n <= 30 -> is_term (en e) = false ->
     exists l, getEigenVector s e = Some l /\ length l = 2 ^ n /\ veq n (vof l) v).
Proof.
  split.
  - intros e A _ _ (_ & Hv) Hn. destruct (Hv Hn) as (l & H1 & H2 & H3 & H4). exists l. repeat split; auto.
  - intros e v _ _ (_ & _ & Hv) Hn Ht. exact (Hv Hn Ht).
Qed.
End Lines.
