(* Shor.v -- the classical arithmetic of the Shor client.
   unsigned long long values are integers in [0, 2^64); w64 is the wrap-around.
   int values are integers; int_ok is the range outside which signed arithmetic
   is undefined. *)
From Coq Require Import ZArith Zpow_facts Znumtheory List Bool Lia.
Import ListNotations.
Open Scope Z_scope.

Definition w64 (x : Z) : Z := x mod 2 ^ 64.
Definition int_ok (x : Z) : bool := (- 2 ^ 31 <=? x) && (x <? 2 ^ 31).

(* modpow : include/algorithms/shor.hpp:28-37.  None: division by zero (undefined),
   or the loop did not end within 64 iterations. *)
Fixpoint modpow_loop (fuel : nat) (base exp result modulus : Z) : option Z :=
  if exp <=? 0 then Some result else
  match fuel with
  | O => None
  | S f =>
      let result' := if Z.odd exp then w64 (result * base) mod modulus else result in
      modpow_loop f (w64 (base * base) mod modulus) (exp / 2) result' modulus
  end.
Definition modpow (base exp modulus : Z) : option Z :=
  if modulus =? 0 then None else modpow_loop 64 (base mod modulus) exp 1 modulus.

(* gcd : include/algorithms/shor.hpp:39-47; [fuel] bounds the number of iterations *)
Fixpoint gcd_loop (fuel : nat) (a b : Z) : option Z :=
  if a =? 0 then Some b else
  match fuel with
  | O => None
  | S f => gcd_loop f (b mod a) a
  end.
Definition gcd64 (a b : Z) : option Z := gcd_loop (S (Z.to_nat a)) a b.

(* inverse_mod : src/algorithms/shor.cpp:5-28.  IUB: signed overflow (undefined);
   IExit: exit(3); ILoop: out of fuel *)
Inductive ires := IRet (t : Z) | IExit | IUB | ILoop.
Fixpoint inv_loop (fuel : nat) (n t newt r newr : Z) : ires :=
  if newr =? 0 then
    if 1 <? r then IExit
    else if t <? 0 then (if int_ok (t + n) then IRet (t + n) else IUB) else IRet t
  else
  match fuel with
  | O => ILoop
  | S f =>
      let q := Z.quot r newr in
      if int_ok q && int_ok (q * newt) && int_ok (t - q * newt) && int_ok (q * newr) && int_ok (r - q * newr)
      then inv_loop f n newt (t - q * newt) newr (r - q * newr)
      else IUB
  end.
Definition inverse_mod (a n : Z) : ires := inv_loop (S (S (Z.to_nat a))) n 0 1 n a.

(* post_processing : src/algorithms/shor.cpp:273-413.  [n] = the number to factor,
   [a] = coprime_a, [rb] = required_bits.  [close oldres olddenom num den] = the
   comparison of doubles in lines 345-347, left arbitrary.  PThrow: sample.at(...)
   out of range; PUB: shift by 64 or more, or division by zero. *)
Inductive pres := PRet (f1 f2 : Z) | PThrow | PUB.
(* lines 279-284 *)
Fixpoint read_bits (sample : list bool) (pos : nat) (k : nat) (res : Z) : option Z :=
  match k with
  | O => Some res
  | S j =>
      match nth_error sample pos with
      | None => None
      | Some b => read_bits sample (S pos) j (w64 (w64 (res * 2) + if b then 1 else 0))
      end
  end.
(* lines 306-311 *)
Fixpoint cont_frac (fuel : nat) (res denom : Z) : list Z :=
  if res =? 0 then [] else
  match fuel with
  | O => []
  | S f => denom / res :: cont_frac f (denom mod res) res
  end.
(* lines 322-329: [prev] = cf[i-1], ..., cf[0] *)
Fixpoint candidate (prev : list Z) (num den : Z) : Z * Z :=
  match prev with
  | [] => (num, den)
  | c :: r => candidate r den (w64 (num + w64 (c * den)))
  end.
(* lines 348-352; None: undefined or out of fuel *)
Fixpoint find_fact (fuel : nat) (a n den fact : Z) : option Z :=
  if w64 (den * fact) <? n then
    match modpow a (w64 (den * fact)) n with
    | None => None
    | Some x => if x =? 1 then Some fact else match fuel with O => None | S f => find_fact f a n den (w64 (fact + 1)) end
    end
  else Some fact.
(* lines 359-394: None undefined; Some None: trivial factors; Some (Some ..) success *)
Definition try_period (a n p : Z) : option (option (Z * Z)) :=
  if Z.odd p then Some None else
  match modpow a (p / 2) n with
  | None => None
  | Some x =>
      match gcd64 (if x =? 0 then n - 1 else x - 1) n, gcd64 (w64 (x + 1) mod n) n with
      | Some f1, Some f2 => if (f1 =? 1) || (f2 =? 1) then Some None else Some (Some (f1, f2))
      | _, _ => None
      end
  end.
(* lines 320-406: the loop over the convergents; [done] = cf[i-1],...,cf[0] *)
Fixpoint convergents (close : Z -> Z -> Z -> Z -> bool) (a n oldres olddenom : Z) (done todo : list Z) : option (option (Z * Z)) :=
  match todo with
  | [] => Some None
  | c :: rest =>
      let '(num, den) := candidate done 1 c in
      if n <? den then Some None                                     (* break *)
      else if close oldres olddenom num den then
        match find_fact (Z.to_nat n) a n den 1 with
        | None => None
        | Some fact =>
            match modpow a (w64 (den * fact)) n with
            | None => None
            | Some x =>
                if x =? 1 then try_period a n (w64 (den * fact))     (* break *)
                else convergents close a n oldres olddenom (c :: done) rest
            end
        end
      else convergents close a n oldres olddenom (c :: done) rest
  end.
Definition post_processing (close : Z -> Z -> Z -> Z -> bool) (n a : Z) (rb : nat) (sample : list bool) : pres :=
  match read_bits sample rb (2 * rb) 0 with
  | None => PThrow
  | Some res =>
      if (64 <=? 2 * Z.of_nat rb) then PUB else
      let denom := 2 ^ (2 * Z.of_nat rb) in
      if res =? 0 then PRet 0 0 else
      match convergents close a n res denom [] (cont_frac (Z.to_nat denom) res denom) with
      | None => PUB
      | Some None => PRet 0 0
      | Some (Some (f1, f2)) => PRet f1 f2
      end
  end.
(* the constructor, include/algorithms/shor.hpp:12-14: required_bits = ceil(log2 n),
   n_qubits = 2 * required_bits + 3 *)
Definition required_bits (n : Z) : nat := Z.to_nat (Z.log2_up n).

(* ---- C45 ---- *)
Lemma w64_small x : 0 <= x < 2 ^ 64 -> w64 x = x.
Proof. apply Z.mod_small. Qed.
Lemma modpow_loop_ok m : 2 <= m <= 2 ^ 32 -> forall fuel base exp result,
  0 <= base < m -> 0 <= result < m -> 0 <= exp < 2 ^ Z.of_nat fuel ->
  modpow_loop fuel base exp result m = Some ((result * base ^ exp) mod m).
Proof.
  intros Hm. assert (Hpr : forall x y, 0 <= x < m -> 0 <= y < m -> 0 <= x * y < 2 ^ 64).
  { intros x y Hx Hy. split; [nia|]. assert (x * y <= (2 ^ 32 - 1) * (2 ^ 32 - 1)) by (apply Z.mul_le_mono_nonneg; lia). lia. }
  induction fuel as [|fuel IH]; intros base exp result Hb Hr He.
  - cbn in He. assert (exp = 0) by lia. subst exp. cbn [modpow_loop]. cbn -[Z.modulo Z.mul]. rewrite Z.mul_1_r, Z.mod_small by lia. reflexivity.
  - cbn [modpow_loop]. destruct (Z.leb_spec exp 0) as [h|h].
    + assert (exp = 0) by lia. subst exp. rewrite Z.pow_0_r, Z.mul_1_r, Z.mod_small by lia. reflexivity.
    + rewrite Nat2Z.inj_succ, Z.pow_succ_r in He by lia. rewrite (w64_small (base * base)) by auto.
      pose proof (Z.div_mod exp 2 ltac:(lia)) as Hd. rewrite Zmod_odd in Hd.
      rewrite IH.
      * f_equal. destruct (Z.odd exp).
        { assert (E1 : base ^ exp = (base * base) ^ (exp / 2) * base).
          { rewrite Hd at 1. rewrite Z.pow_add_r, Z.pow_mul_r by (try lia; apply Z.div_pos; lia). now rewrite Z.pow_1_r, Z.pow_2_r. }
          rewrite E1, w64_small by auto. rewrite Z.mul_mod_idemp_l by lia.
          rewrite <- (Z.mul_mod_idemp_r (result * base)) by lia. rewrite <- Zpower_mod by lia. rewrite Z.mul_mod_idemp_r by lia. f_equal. ring. }
        { assert (E1 : base ^ exp = (base * base) ^ (exp / 2)).
          { rewrite Hd at 1. rewrite Z.add_0_r, Z.pow_mul_r by (try lia; apply Z.div_pos; lia). now rewrite Z.pow_2_r. }
          rewrite E1. rewrite <- Z.mul_mod_idemp_r by lia. rewrite <- Zpower_mod by lia. now rewrite Z.mul_mod_idemp_r by lia. }
      * apply Z.mod_pos_bound. lia.
      * destruct (Z.odd exp); auto. rewrite w64_small by auto. apply Z.mod_pos_bound. lia.
      * split; [apply Z.div_pos; lia|]. apply Z.div_lt_upper_bound; lia.
Qed.
(* b^e mod m, for every base and exponent and every modulus up to 2^32 *)
Theorem C45_modpow b e m : 0 <= b < 2 ^ 64 -> 0 <= e < 2 ^ 64 -> 2 <= m <= 2 ^ 32 -> modpow b e m = Some (b ^ e mod m).
Proof.
  intros Hb He Hm. unfold modpow. replace (m =? 0) with false by (symmetry; apply Z.eqb_neq; lia).
  rewrite (modpow_loop_ok m Hm); [|apply Z.mod_pos_bound; lia|lia|exact He]. now rewrite Z.mul_1_l, <- Zpower_mod by lia.
Qed.
(* beyond 2^32 the product wraps: 2^33-1 squared modulo 2^33 *)
Theorem C45_modpow_wraps : modpow (2 ^ 33 - 2) 2 (2 ^ 33 - 1) <> Some ((2 ^ 33 - 2) ^ 2 mod (2 ^ 33 - 1)).
Proof. vm_compute. discriminate. Qed.
Example C45_modpow_example : modpow 2 10 1000 = Some 24. Proof. reflexivity. Qed.

Lemma gcd_loop_ok : forall fuel a b, 0 <= a < Z.of_nat fuel -> 0 <= b -> gcd_loop fuel a b = Some (Z.gcd a b).
Proof.
  induction fuel as [|fuel IH]; intros a b Ha Hb; [lia|]. cbn [gcd_loop]. destruct (Z.eqb_spec a 0) as [->|Hne].
  - now rewrite Z.gcd_0_l, Z.abs_eq.
  - rewrite IH; [|pose proof (Z.mod_pos_bound b a); lia|lia]. f_equal. rewrite Z.gcd_mod by auto. reflexivity.
Qed.
(* the greatest common divisor: divides both, and every common divisor divides it *)
Theorem C45_gcd a b : 0 <= a < 2 ^ 64 -> 0 <= b < 2 ^ 64 ->
  exists g, gcd64 a b = Some g /\ 0 <= g /\ (g | a) /\ (g | b) /\ forall d, (d | a) -> (d | b) -> (d | g).
Proof.
  intros Ha Hb. exists (Z.gcd a b). unfold gcd64. rewrite gcd_loop_ok by lia. split; auto.
  split; [apply Z.gcd_nonneg|]. split; [apply Z.gcd_divide_l|]. split; [apply Z.gcd_divide_r|]. intros d. apply Z.gcd_greatest.
Qed.
Lemma gcd64_eq a b : 0 <= a < 2 ^ 64 -> 0 <= b < 2 ^ 64 -> gcd64 a b = Some (Z.gcd a b).
Proof. intros Ha Hb. unfold gcd64. apply gcd_loop_ok; lia. Qed.

Definition opposite (x y : Z) : Prop := (0 <= x /\ y <= 0) \/ (x <= 0 /\ 0 <= y).
Lemma int_ok_abs x : Z.abs x < 2 ^ 31 -> int_ok x = true.
Proof. intros H. unfold int_ok. apply andb_true_iff. split; [apply Z.leb_le|apply Z.ltb_lt]; lia. Qed.
Lemma inv_loop_ok n a : 1 <= n < 2 ^ 31 -> forall fuel t newt r newr,
  1 <= r < 2 ^ 31 -> 0 <= newr < 2 ^ 31 -> newr < Z.of_nat fuel -> opposite t newt -> Z.abs t <= n -> Z.abs newt <= n ->
  Z.abs newt * r + Z.abs t * newr = n -> (n | a * t - r) -> (n | a * newt - newr) -> Z.gcd r newr = Z.gcd n a ->
  (Z.gcd n a = 1 /\ exists x, inv_loop fuel n t newt r newr = IRet x /\ (n | a * x - 1) /\ 0 <= x <= n) \/
  (Z.gcd n a <> 1 /\ inv_loop fuel n t newt r newr = IExit).
Proof.
  intros Hn. induction fuel as [|fuel IH]; intros t newt r newr Hr Hnr Hf Ho Ht Hnt Hs D1 D2 Hg; [lia|].
  cbn [inv_loop]. destruct (Z.eqb_spec newr 0) as [E0|E0].
  - subst newr. rewrite Z.gcd_0_r, Z.abs_eq in Hg by lia. destruct (Z.ltb_spec 1 r) as [h|h].
    + right. split; [lia|reflexivity].
    + left. assert (Er : r = 1) by lia. rewrite Er in *. split; [lia|]. destruct (Z.ltb_spec t 0) as [h2|h2].
      * rewrite int_ok_abs by lia. exists (t + n). split; [reflexivity|]. split; [|lia].
        replace (a * (t + n) - 1) with ((a * t - 1) + a * n) by ring. apply Z.divide_add_r; [exact D1|]. apply Z.divide_factor_r.
      * exists t. split; [reflexivity|]. split; [exact D1|lia].
  - rewrite Z.quot_div_nonneg by lia. set (q := r / newr). assert (Hq : 0 <= q) by (apply Z.div_pos; lia).
    pose proof (Z.mod_pos_bound r newr ltac:(lia)) as Hm. rewrite Z.mod_eq in Hm by lia. fold q in Hm.
    assert (Hab : Z.abs (t - q * newt) = Z.abs t + q * Z.abs newt) by (destruct Ho as [[? ?]|[? ?]]; nia).
    assert (Hn2 : Z.abs (t - q * newt) * newr + Z.abs newt * (r - q * newr) = n) by (rewrite Hab; nia).
    assert (Hb2 : Z.abs (t - q * newt) <= n) by nia.
    assert (Hb3 : Z.abs (q * newt) <= n) by (rewrite Z.abs_mul, (Z.abs_eq q) by lia; lia).
    assert (Hb4 : 0 <= q * newr <= r) by nia. assert (Hb5 : q <= r) by nia.
    rewrite !int_ok_abs by lia. cbn [andb]. apply IH; try lia.
    + unfold opposite in *. nia.
    + exact D2.
    + replace (a * (t - q * newt) - (r - q * newr)) with ((a * t - r) - q * (a * newt - newr)) by ring.
      apply Z.divide_sub_r; [exact D1|]. now apply Z.divide_mul_r.
    + rewrite <- Hg. rewrite (Z.gcd_comm r newr). replace (r - q * newr) with (r + (- q) * newr) by ring. apply Z.gcd_add_mult_diag_r.
Qed.
(* inverse_mod returns an inverse when there is one, exits when there is none, and
   no intermediate value overflows int *)
Theorem C45_inverse_mod a n : 1 <= n < 2 ^ 31 -> 0 <= a < 2 ^ 31 ->
  (Z.gcd n a = 1 /\ exists x, inverse_mod a n = IRet x /\ (n | a * x - 1) /\ 0 <= x <= n) \/
  (Z.gcd n a <> 1 /\ inverse_mod a n = IExit).
Proof.
  intros Hn Ha. unfold inverse_mod. apply inv_loop_ok; try lia.
  - right. lia.
  - rewrite Z.mul_0_r. exists (-1). ring.
  - exists 0. ring.
Qed.
Example C45_inverse_example : inverse_mod 7 15 = IRet 13 /\ inverse_mod 6 15 = IExit. Proof. split; reflexivity. Qed.

(* ---- C46 ---- *)
Lemma period_factors n x f1 f2 : n mod 2 = 1 -> 2 <= n < 2 ^ 32 -> 0 <= x < n -> (n | x * x - 1) ->
  f1 = Z.gcd (if x =? 0 then n - 1 else x - 1) n -> f2 = Z.gcd (w64 (x + 1) mod n) n -> f1 <> 1 -> f2 <> 1 ->
  f1 * f2 = n /\ 1 < f1 < n /\ 1 < f2 < n.
Proof.
  intros Hodd Hn Hx Hd E1 E2 N1 N2.
  assert (Hx1 : 1 <= x). { destruct (Z.eq_dec x 0) as [->|]; [|lia]. destruct Hd as [k Hk]. destruct (Z.le_gt_cases 0 k); nia. }
  replace (x =? 0) with false in E1 by (symmetry; apply Z.eqb_neq; lia).
  rewrite w64_small in E2 by lia. rewrite Z.gcd_mod in E2 by lia. rewrite Z.gcd_comm in E2.
  assert (Hco : Z.gcd f1 f2 = 1).
  { pose proof (Z.gcd_nonneg f1 f2) as H0. assert (D1 : (Z.gcd f1 f2 | 2)).
    { replace 2 with ((x + 1) - (x - 1)) by ring. apply Z.divide_sub_r.
      - eapply Z.divide_trans; [apply Z.gcd_divide_r|]. rewrite E2. apply Z.gcd_divide_l.
      - eapply Z.divide_trans; [apply Z.gcd_divide_l|]. rewrite E1. apply Z.gcd_divide_l. }
    assert (D2 : (Z.gcd f1 f2 | n)). { eapply Z.divide_trans; [apply Z.gcd_divide_l|]. rewrite E1. apply Z.gcd_divide_r. }
    assert (Hle : Z.gcd f1 f2 <= 2) by (apply Z.divide_pos_le; [lia|exact D1]).
    assert (Hc : Z.gcd f1 f2 = 0 \/ Z.gcd f1 f2 = 1 \/ Z.gcd f1 f2 = 2) by lia. destruct Hc as [h|[h|h]]; auto.
    - rewrite h in D2. apply Z.divide_0_l in D2. lia.
    - rewrite h in D2. apply Z.mod_divide in D2; lia. }
  assert (P1 : 0 < f1). { pose proof (Z.gcd_nonneg (x - 1) n). destruct (Z.eq_dec f1 0) as [h|]; [|lia]. rewrite h in E1. symmetry in E1. apply Z.gcd_eq_0_r in E1. lia. }
  assert (P2 : 0 < f2). { pose proof (Z.gcd_nonneg (x + 1) n). destruct (Z.eq_dec f2 0) as [h|]; [|lia]. rewrite h in E2. symmetry in E2. apply Z.gcd_eq_0_r in E2. lia. }
  assert (Hdn : (f1 * f2 | n)).
  { destruct (Z.gcd_divide_r (x - 1) n) as [k Hk]. rewrite <- E1 in Hk. rewrite Hk at 1. rewrite (Z.mul_comm k). apply Z.mul_divide_mono_l.
    apply (Z.gauss f2 f1 k); [|now rewrite Z.gcd_comm]. rewrite Z.mul_comm, <- Hk, E2. apply Z.gcd_divide_r. }
  assert (Hnd : (n | f1 * f2)).
  { assert (H1 : exists u v, f1 = u * (x - 1) + v * n).
    { destruct (Zis_gcd_bezout (x - 1) n f1) as [u v Huv]; [rewrite E1; apply Zgcd_is_gcd|]. exists u, v. lia. }
    assert (H2 : exists u v, f2 = u * (x + 1) + v * n).
    { destruct (Zis_gcd_bezout (x + 1) n f2) as [u v Huv]; [rewrite E2; apply Zgcd_is_gcd|]. exists u, v. lia. }
    destruct H1 as (u & v & H1), H2 as (u' & v' & H2).
    replace (f1 * f2) with (u * u' * (x * x - 1) + n * (v * (u' * (x + 1)) + u * (x - 1) * v' + v * v' * n)) by (rewrite H1, H2; ring).
    apply Z.divide_add_r; [now apply Z.divide_mul_r|apply Z.divide_factor_l]. }
  assert (Heq : f1 * f2 = n) by (apply Z.divide_antisym_nonneg; try lia; auto).
  split; auto. nia.
Qed.
Lemma w64_range x : 0 <= w64 x < 2 ^ 64. Proof. apply Z.mod_pos_bound. lia. Qed.
Definition true_factors (n f1 f2 : Z) : Prop := f1 * f2 = n /\ 1 < f1 < n /\ 1 < f2 < n.
Lemma try_period_ok a n p f1 f2 : 0 <= a < 2 ^ 64 -> n mod 2 = 1 -> 2 <= n < 2 ^ 32 -> 0 <= p < 2 ^ 64 -> a ^ p mod n = 1 ->
  try_period a n p = Some (Some (f1, f2)) -> true_factors n f1 f2.
Proof.
  intros Ha Hodd Hn Hp Hpow. unfold try_period. destruct (Z.odd p) eqn:Eo; [discriminate|].
  assert (Hp2 : 0 <= p / 2 < 2 ^ 64) by (split; [apply Z.div_pos; lia|apply Z.div_lt_upper_bound; lia]).
  rewrite C45_modpow by lia. set (x := a ^ (p / 2) mod n). assert (Hx : 0 <= x < n) by (apply Z.mod_pos_bound; lia).
  rewrite (gcd64_eq (if x =? 0 then n - 1 else x - 1)) by (destruct (Z.eqb_spec x 0); lia).
  rewrite (gcd64_eq (w64 (x + 1) mod n)) by (pose proof (Z.mod_pos_bound (w64 (x + 1)) n); lia).
  destruct ((Z.gcd _ n =? 1) || (Z.gcd _ n =? 1)) eqn:Eq; [discriminate|]. apply orb_false_iff in Eq. destruct Eq as [N1 N2]. apply Z.eqb_neq in N1, N2.
  intros [= <- <-]. apply (period_factors n x); auto.
  assert (E2 : p = p / 2 + p / 2). { pose proof (Z.div_mod p 2 ltac:(lia)) as Hd. rewrite Zmod_odd, Eo in Hd. lia. }
  apply Z.mod_divide; [lia|]. rewrite Zminus_mod. unfold x. rewrite <- Z.mul_mod by lia. rewrite <- Z.pow_add_r by lia. rewrite <- E2, Hpow.
  rewrite (Z.mod_small 1) by lia. reflexivity.
Qed.
Lemma convergents_ok close a n oldres olddenom : 0 <= a < 2 ^ 64 -> n mod 2 = 1 -> 2 <= n < 2 ^ 32 ->
  forall todo done f1 f2, convergents close a n oldres olddenom done todo = Some (Some (f1, f2)) -> true_factors n f1 f2.
Proof.
  intros Ha Hodd Hn. induction todo as [|c rest IH]; intros done f1 f2; cbn [convergents]; [discriminate|].
  destruct (candidate done 1 c) as [num den]. destruct (n <? den); [discriminate|].
  destruct (close oldres olddenom num den); [|apply IH]. destruct (find_fact _ _ _ _ _) as [fact|]; [|discriminate].
  rewrite C45_modpow; [|lia|apply w64_range|lia]. destruct (Z.eqb_spec (a ^ w64 (den * fact) mod n) 1) as [E|E]; [|apply IH].
  apply try_period_ok; auto. apply w64_range.
Qed.
(* whatever was measured, and however the floating-point test decides, a reported
   factorisation of an odd number (the constructor rejects even ones) is one *)
Theorem C46_true_factors close n a rb sample f1 f2 : n mod 2 = 1 -> 2 <= n < 2 ^ 32 -> 0 <= a < 2 ^ 64 ->
  post_processing close n a rb sample = PRet f1 f2 -> (f1 = 0 /\ f2 = 0) \/ true_factors n f1 f2.
Proof.
  intros Hodd Hn Ha. unfold post_processing. destruct (read_bits _ _ _ _) as [res|]; [|discriminate].
  destruct (64 <=? _); [discriminate|]. destruct (res =? 0); [intros [= <- <-]; auto|].
  destruct (convergents _ _ _ _ _ _ _) as [[[x y]|]|] eqn:E; [|intros [= <- <-]; auto|discriminate].
  intros [= <- <-]. right. eapply convergents_ok; eauto.
Qed.
(* and it is defined: no division by zero, no endless search, no wide shift *)
Lemma find_fact_ok a n den : 0 <= a < 2 ^ 64 -> 2 <= n < 2 ^ 32 -> 0 <= den <= n -> forall fuel fact, 1 <= fact <= n -> n <= fact + Z.of_nat fuel ->
  exists x, find_fact fuel a n den fact = Some x.
Proof.
  intros Ha Hn Hd. induction fuel as [|fuel IH]; intros fact Hf Hle.
  - assert (Ef : fact = n) by lia. subst fact. cbn [find_fact].
    destruct (Z.eq_dec den 0) as [->|Hne].
    + rewrite Z.mul_0_l. change (w64 0) with 0. replace (0 <? n) with true by (symmetry; apply Z.ltb_lt; lia).
      rewrite C45_modpow by lia. rewrite Z.pow_0_r, Z.mod_small by lia. cbn; eauto.
    + rewrite w64_small by nia. replace (den * n <? n) with false by (symmetry; apply Z.ltb_ge; nia). eauto.
  - cbn [find_fact]. destruct (w64 (den * fact) <? n) eqn:El; [|eauto].
    rewrite C45_modpow; [|lia|apply w64_range|lia]. destruct (Z.eqb_spec (a ^ w64 (den * fact) mod n) 1) as [|n0]; [eauto|].
    rewrite (w64_small (fact + 1)) by lia. destruct (Z.eq_dec fact n) as [->|].
    + destruct (Z.eq_dec den 0) as [->|Hne].
      * exfalso. rewrite Z.mul_0_l in n0. change (w64 0) with 0 in n0. rewrite Z.pow_0_r, Z.mod_small in n0 by lia. lia.
      * exfalso. rewrite w64_small in El by nia. apply Z.ltb_lt in El. nia.
    + apply IH; lia.
Qed.
Lemma candidate_nonneg : forall prev num den, 0 <= den -> 0 <= snd (candidate prev num den).
Proof. induction prev as [|c r IH]; intros num den H; cbn [candidate]; auto. apply IH. apply w64_range. Qed.
Lemma cont_frac_nonneg : forall fuel res denom, 0 <= res -> 0 <= denom -> Forall (fun c => 0 <= c) (cont_frac fuel res denom).
Proof.
  induction fuel as [|fuel IH]; intros res denom Hr Hd; cbn [cont_frac]; destruct (Z.eqb_spec res 0); try constructor.
  - apply Z.div_pos; lia.
  - apply IH; [apply Z.mod_pos_bound; lia|lia].
Qed.
Lemma convergents_total close a n oldres olddenom : 0 <= a < 2 ^ 64 -> 2 <= n < 2 ^ 32 ->
  forall todo done, Forall (fun c => 0 <= c) todo -> exists r, convergents close a n oldres olddenom done todo = Some r.
Proof.
  intros Ha Hn. induction todo as [|c rest IH]; intros done HF; cbn [convergents]; [eauto|]. inversion HF; subst.
  pose proof (candidate_nonneg done 1 c ltac:(assumption)) as Hc. destruct (candidate done 1 c) as [num den]. cbn [snd] in Hc.
  destruct (Z.ltb_spec n den); [eauto|]. destruct (close oldres olddenom num den); [|auto].
  destruct (find_fact_ok a n den Ha Hn ltac:(lia) (Z.to_nat n) 1 ltac:(lia) ltac:(lia)) as (fact & ->).
  rewrite C45_modpow; [|lia|apply w64_range|lia]. destruct (_ =? 1); [|auto].
  unfold try_period. pose proof (w64_range (den * fact)) as Hw. destruct (Z.odd _); [eauto|].
  rewrite C45_modpow; [|lia|split; [apply Z.div_pos; lia|apply Z.div_lt_upper_bound; lia]|lia].
  pose proof (Z.mod_pos_bound (a ^ (w64 (den * fact) / 2)) n ltac:(lia)) as Hx. set (x := a ^ _ mod n) in *.
  rewrite (gcd64_eq (if x =? 0 then n - 1 else x - 1)) by (destruct (Z.eqb_spec x 0); lia).
  rewrite (gcd64_eq (w64 (x + 1) mod n)) by (pose proof (Z.mod_pos_bound (w64 (x + 1)) n); lia).
  destruct (_ || _); eauto.
Qed.
Theorem C46_defined close n a sample : 2 <= n < 2 ^ 31 -> 0 <= a < 2 ^ 64 ->
  post_processing close n a (required_bits n) sample <> PUB.
Proof.
  intros Hn Ha. unfold post_processing. destruct (read_bits _ _ _ _) as [res|] eqn:Er; [|discriminate].
  assert (Hl : 0 <= Z.log2_up n <= 31).
  { split; [apply Z.log2_up_nonneg|]. apply Z.log2_up_le_pow2; lia. }
  replace (64 <=? 2 * Z.of_nat (required_bits n)) with false by (symmetry; apply Z.leb_gt; unfold required_bits; lia).
  destruct (res =? 0); [discriminate|].
  assert (Hres : 0 <= res).
  { assert (H : forall k pos r0, 0 <= r0 -> read_bits sample pos k r0 = Some res -> 0 <= res).
    { induction k as [|k IH]; intros pos r0 H0; cbn [read_bits]; [intros [= <-]; auto|]. destruct (nth_error sample pos); [|discriminate]. apply IH. apply w64_range. }
    eapply H; [|exact Er]. lia. }
  destruct (convergents_total close a n res (2 ^ (2 * Z.of_nat (required_bits n))) Ha ltac:(lia) (cont_frac (Z.to_nat (2 ^ (2 * Z.of_nat (required_bits n)))) res (2 ^ (2 * Z.of_nat (required_bits n)))) []) as (r & ->).
  { apply cont_frac_nonneg; [lia|]. apply Z.pow_nonneg. lia. }
  destruct r as [[x y]|]; discriminate.
Qed.
(* the period of 2 modulo 15 read off 64/256 *)
Example C46_example : post_processing (fun r d num den => r * den =? num * d) 15 2 4
  [false; false; false; false; false; true; false; false; false; false; false; false] = PRet 3 5.
Proof. vm_compute. reflexivity. Qed.
(* FINDING (the only caller, shor.cpp:258-270, is commented out): the bits are read from position required_bits up to 3*required_bits-1,
   but a sample of the circuit has only 2*required_bits+3 characters: for every
   number above 8 the call throws. *)
Theorem C46_sample_too_short close n a sample : 8 < n -> length sample = (2 * required_bits n + 3)%nat ->
  post_processing close n a (required_bits n) sample = PThrow.
Proof.
  intros Hn Hl. unfold post_processing.
  assert (Hrb : (4 <= required_bits n)%nat).
  { unfold required_bits. assert (3 < Z.log2_up n). { apply Z.log2_up_lt_pow2; lia. } lia. }
  assert (H : forall k pos r0, (0 < k)%nat -> (length sample < pos + k)%nat -> read_bits sample pos k r0 = None).
  { induction k as [|k IH]; intros pos r0 Hk Hp; [lia|]. cbn [read_bits]. destruct (nth_error sample pos) eqn:E; auto.
    apply IH; [|lia]. assert (pos < length sample)%nat by (apply nth_error_Some; congruence). lia. }
  rewrite H by lia. reflexivity.
Qed.
