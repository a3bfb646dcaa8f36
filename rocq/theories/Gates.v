(* Gates.v -- gate constructors of src/dd.cpp and gate matrices of
   include/common.h and src/dd.cpp. *)
From Coq Require Import ZArith Bool List String.
From Verif Require Import Num State DD.
Import ListNotations.
Open Scope Z_scope.

(* Control { qubit, type } and Controls = std::set<Control, ControlComparator> :
   include/dd.h:363-397, 441.  Ordered by qubit, then neg < pos; inserting an
   element already present changes nothing. *)
Definition control := (Z * bool)%type.           (* (qubit, true = pos) *)
Definition ctl_ltb (a b : control) : bool :=
  (fst a <? fst b) || ((fst a =? fst b) && negb (snd a) && snd b).
Fixpoint cinsert (c : control) (l : list control) : list control :=
  match l with
  | [] => [c]
  | d :: r => if ctl_ltb c d then c :: d :: r
              else if ctl_ltb d c then d :: cinsert c r
              else d :: r
  end.
Definition mkControls (l : list control) : list control :=
  fold_left (fun s c => cinsert c s) l [].

Section Gates.
Context {NO : NumOps} {CF : Cfg}.

(* makeIdent(q) returns mEdge::one, whatever q : src/dd.cpp:280-282 *)
Definition makeIdent : comp := CRet oneE.

(* GateMatrix = std::array<std::complex<double>,4>, row-major : common.h:104 *)
Definition gmat := nat -> nat -> cx.
(* TwoQubitGateMatrix : common.h:120 *)

(* it != c.end() && it->qubit == z *)
Definition at_ctl (it : list control) (z : Z) : bool :=
  match it with c :: _ => fst c =? z | [] => false end.
Definition advance (it : list control) (z : Z) : list control :=
  if at_ctl it z then tl it else it.

(* one level below the (last) target : src/dd.cpp:337-356, 403-424, 453-472.
   [diag] is (b1 == b0); makeIdent(z-1) = mEdge::one (src/dd.cpp:280-282). *)
Definition wrap_low (z : Z) (it : list control) (diag : bool) (e : edge) : comp :=
  if at_ctl it z then
    match it with
    | (_, false) :: _ => makeMEdge z e zeroE zeroE (if diag then oneE else zeroE)
    | _ => makeMEdge z (if diag then oneE else zeroE) zeroE zeroE e
    end
  else makeMEdge z e zeroE zeroE e.
(* one level above the (last) target : src/dd.cpp:362-375, 477-487 *)
Definition wrap_high (z : Z) (it : list control) (e : edge) : comp :=
  if at_ctl it z then
    match it with
    | (_, false) :: _ => makeMEdge z e zeroE zeroE oneE
    | _ => makeMEdge z oneE zeroE zeroE e
    end
  else makeMEdge z e zeroE zeroE e.

(* the body of one iteration: all edges of the block in index order.  The list
   carries the (b1 == b0) flag of each entry. *)
Fixpoint wrap_all (z : Z) (it : list control) (es : list (bool * edge))
         (k : list (bool * edge) -> comp) : comp :=
  match es with
  | [] => k []
  | (d, e) :: r => bind (wrap_low z it d e) (fun e' =>
                     wrap_all z it r (fun r' => k ((d, e') :: r')))
  end.
(* for (; z < z + cnt; z++) *)
Fixpoint low_loop (cnt : nat) (z : Z) (it : list control) (es : list (bool * edge))
         (k : Z -> list control -> list (bool * edge) -> comp) : comp :=
  match cnt with
  | O => k z it es
  | S c => wrap_all z it es (fun es' => low_loop c (z + 1) (advance it z) es' k)
  end.
Fixpoint high_loop (cnt : nat) (z : Z) (it : list control) (e : edge) : comp :=
  match cnt with
  | O => CRet e
  | S c => bind (wrap_high z it e) (fun e' => high_loop c (z + 1) (advance it z) e')
  end.

Definition eat (es : list (bool * edge)) (i : nat) : edge := snd (nth i es (false, nullE)).
Definition termE (w : cx) : edge := E w Term.

(* makeGate : src/dd.cpp:324-378 (the uncontrolled overload passes {}) *)
Definition makeGate (q : Z) (g : gmat) (target : Z) (c : list control) : comp :=
  let es := [(true, termE (g 0%nat 0%nat)); (false, termE (g 0%nat 1%nat));
             (false, termE (g 1%nat 0%nat)); (true, termE (g 1%nat 1%nat))] in
  low_loop (Z.to_nat target) 0 c es (fun z it es =>
    bind (makeMEdge z (eat es 0) (eat es 1) (eat es 2) (eat es 3)) (fun e =>
      high_loop (Z.to_nat (q - (z + 1))) (z + 1) it e)).

(* makeTwoQubitGate : src/dd.cpp:385-490.  edges_4x4[b1][b0] is entry
   4*b1 + b0 of the list. *)
Definition idx16 : list (nat * nat) :=
  flat_map (fun i => map (fun j => (i, j)) (seq 0 4)) (seq 0 4).
Definition makeTwoQubitGate (q : Z) (g : gmat) (target0 target1 : Z) (c : list control) : comp :=
  let es := map (fun ij => (Nat.eqb (fst ij) (snd ij), termE (g (fst ij) (snd ij)))) idx16 in
  let small := Z.min target0 target1 in
  let large := Z.max target0 target1 in
  low_loop (Z.to_nat small) 0 c es (fun z it es =>
    let pick (b1 b0 i j : nat) : edge :=
      if target1 <? target0
      then eat es (4 * (b1 * 2 + i) + (b0 * 2 + j))
      else eat es (4 * (i * 2 + b1) + (j * 2 + b0)) in
    let sub (b1 b0 : nat) (k : edge -> comp) : comp :=
      bind (makeMEdge small (pick b1 b0 0%nat 0%nat) (pick b1 b0 0%nat 1%nat)
                            (pick b1 b0 1%nat 0%nat) (pick b1 b0 1%nat 1%nat)) k in
    sub 0%nat 0%nat (fun e0 => sub 0%nat 1%nat (fun e1 =>
    sub 1%nat 0%nat (fun e2 => sub 1%nat 1%nat (fun e3 =>
      low_loop (Z.to_nat (large - (z + 1))) (z + 1) it
        [(true, e0); (false, e1); (false, e2); (true, e3)] (fun z it es =>
        bind (makeMEdge z (eat es 0) (eat es 1) (eat es 2) (eat es 3)) (fun e =>
          high_loop (Z.to_nat (q - (z + 1))) (z + 1) it e))))))).

(* ---- gate matrices ------------------------------------------------------------ *)
Definition mk2 (a b c d : cx) : gmat :=
  fun i j => match i, j with
             | O, O => a | O, _ => b | _, O => c | _, _ => d
             end.
Definition mk4 (l : list (list cx)) : gmat := fun i j => nth j (nth i l []) c0.

(* the constant SQRT2 (= 1/sqrt 2) and 0.5 : common.h:74, 100-101 *)
Definition n2 : num := nadd n1 n1.
Definition nhalf : num := ndiv n1 n2.
Definition SQRT2 : num := nsqrt nhalf.

Definition cf_one : cx := c1.
Definition cf_mone : cx := (nopp n1, n0).
Definition cf_zero : cx := c0.
Definition cf_i : cx := (n0, n1).
Definition cf_mi : cx := (n0, nopp n1).
Definition cf_SQRT2_2 : cx := (SQRT2, n0).
Definition cf_mSQRT2_2 : cx := (nopp SQRT2, n0).
Definition cf_iSQRT2_2 : cx := (n0, SQRT2).
Definition cf_miSQRT2_2 : cx := (n0, nopp SQRT2).
Definition cf_1plusi : cx := (SQRT2, SQRT2).
Definition cf_1minusi : cx := (SQRT2, nopp SQRT2).
Definition cf_1plusi_2 : cx := (nhalf, nhalf).
Definition cf_1minusi_2 : cx := (nhalf, nopp nhalf).

(* common.h:105-117 *)
Definition Imat := mk2 cf_one cf_zero cf_zero cf_one.
Definition Hmat := mk2 cf_SQRT2_2 cf_SQRT2_2 cf_SQRT2_2 cf_mSQRT2_2.
Definition Xmat := mk2 cf_zero cf_one cf_one cf_zero.
Definition Ymat := mk2 cf_zero cf_mi cf_i cf_zero.
Definition Zmat := mk2 cf_one cf_zero cf_zero cf_mone.
Definition Smat := mk2 cf_one cf_zero cf_zero cf_i.
Definition Sdagmat := mk2 cf_one cf_zero cf_zero cf_mi.
Definition Tmat := mk2 cf_one cf_zero cf_zero cf_1plusi.
Definition Tdagmat := mk2 cf_one cf_zero cf_zero cf_1minusi.
Definition SXmat := mk2 cf_1plusi_2 cf_1minusi_2 cf_1minusi_2 cf_1plusi_2.
Definition SXdagmat := mk2 cf_1minusi_2 cf_1plusi_2 cf_1plusi_2 cf_1minusi_2.
Definition Vmat := mk2 cf_SQRT2_2 cf_miSQRT2_2 cf_miSQRT2_2 cf_SQRT2_2.
Definition Vdagmat := mk2 cf_SQRT2_2 cf_iSQRT2_2 cf_iSQRT2_2 cf_SQRT2_2.

Definition cexp (a : num) : cx := (ncos a, nsin a).       (* std::exp({0, a}) *)
Definition cscale (x : cx) (a : num) : cx := (nmul (fst x) a, nmul (snd x) a).
Definition halve (a : num) : num := ndiv a n2.

(* rx, ry, rz : src/dd.cpp:1973-1990 (and RX, RY, RZ : 1902-1918) *)
Definition rx (a : num) : gmat :=
  let i1 := (ncos (halve a), n0) in
  let i2 := (n0, nopp (nsin (halve a))) in mk2 i1 i2 i2 i1.
Definition ry (a : num) : gmat :=
  let i1 := (ncos (halve a), n0) in
  let i2 := (nopp (nsin (halve a)), n0) in
  let i3 := (nsin (halve a), n0) in mk2 i1 i2 i3 i1.
Definition rz (a : num) : gmat :=
  let i1 := (ncos (halve a), nopp (nsin (halve a))) in
  let i2 := (ncos (halve a), nsin (halve a)) in mk2 i1 c0 c0 i2.
(* u : src/dd.cpp:2000-2013 *)
Definition u (theta phi lambda gamma : num) : gmat :=
  mk2 (cscale (cexp gamma) (ncos (halve theta)))
      (cscale (copp (cexp (nadd lambda gamma))) (nsin (halve theta)))
      (cscale (cexp (nadd phi gamma)) (nsin (halve theta)))
      (cscale (cexp (nadd (nadd lambda phi) gamma)) (ncos (halve theta))).
(* u3, u1, u2 : src/dd.cpp:1992-1998; the constant PI is a parameter *)
Definition u3 (theta phi lambda : num) := u theta phi lambda n0.
Definition u1 (lambda : num) := u n0 n0 lambda n0.
Definition u2 (pi phi lambda : num) := u (halve pi) phi lambda n0.
(* p : src/dd.cpp:2015-2018 *)
Definition p_gate (a : num) : gmat := mk2 c1 c0 c0 (ncos a, nsin a).
(* r : src/dd.cpp:2020-2030 *)
Definition r_gate (theta phi : num) : gmat :=
  let i1 := (ncos (halve theta), n0) in
  let i2 := cscale (cmul (n0, nopp n1) (cexp (nopp phi))) (nsin (halve theta)) in
  let i3 := cscale (cmul (n0, nopp n1) (cexp phi)) (nsin (halve theta)) in
  mk2 i1 i2 i3 i1.
(* rxx_matrix .. iswap_matrix : src/dd.cpp:2032-2078 *)
Definition rxx_matrix (a : num) : gmat :=
  let i1 := (ncos (halve a), n0) in let i2 := (n0, nopp (nsin (halve a))) in
  mk4 [[i1; c0; c0; i2]; [c0; i1; i2; c0]; [c0; i2; i1; c0]; [i2; c0; c0; i1]].
Definition ryy_matrix (a : num) : gmat :=
  let i1 := (ncos (halve a), n0) in let i2 := (n0, nsin (halve a)) in
  mk4 [[i1; c0; c0; i2]; [c0; i1; copp i2; c0]; [c0; copp i2; i1; c0]; [i2; c0; c0; i1]].
Definition rzz_matrix (a : num) : gmat :=
  let i1 := (ncos (halve a), nopp (nsin (halve a))) in
  let i2 := (ncos (halve a), nsin (halve a)) in
  mk4 [[i1; c0; c0; c0]; [c0; i2; c0; c0]; [c0; c0; i2; c0]; [c0; c0; c0; i1]].
Definition rzx_matrix (a : num) : gmat :=
  let i1 := (ncos (halve a), n0) in let i2 := (n0, nsin (halve a)) in
  mk4 [[i1; c0; copp i2; c0]; [c0; i1; c0; i2]; [copp i2; c0; i1; c0]; [c0; i2; c0; i1]].
Definition swap_matrix : gmat :=
  mk4 [[c1; c0; c0; c0]; [c0; c0; c1; c0]; [c0; c1; c0; c0]; [c0; c0; c0; c1]].
Definition iswap_matrix : gmat :=
  mk4 [[c1; c0; c0; c0]; [c0; c0; cf_i; c0]; [c0; cf_i; c0; c0]; [c0; c0; c0; c1]].

(* CX : src/dd.cpp:1920-1926 *)
Definition CX (q target control : Z) : comp := makeGate q Xmat target [(control, true)].
(* makeSwap, SWAP : src/dd.cpp:1928-1936, 1958-1960 *)
Definition makeSwap (q t0 t1 : Z) : comp :=
  bind (makeGate q Xmat t1 [(t0, true)]) (fun e1 =>
  bind (makeGate q Xmat t0 [(t1, true)]) (fun e2 =>
  bind (mm_multiply e2 e1) (fun e3 => mm_multiply e1 e3))).
(* CSWAP : src/dd.cpp:1967-1972 *)
Definition CSWAP (q t0 t1 control : Z) : comp :=
  makeTwoQubitGate q swap_matrix t0 t1 [(control, true)].
(* ISWAP, RXX.. : src/dd.cpp:1938-1956, 1962-1965 *)
Definition ISWAP (q t0 t1 : Z) : comp := makeTwoQubitGate q iswap_matrix t0 t1 [].

(* gateMap[name] : qdd/bindings.cpp:23-27.  std::map::operator[] default-inserts
   for an unknown name: the zero matrix, no error. *)
Definition gateMap (name : string) : gmat :=
  (if String.eqb name "I" then Imat else if String.eqb name "H" then Hmat else
   if String.eqb name "X" then Xmat else if String.eqb name "Y" then Ymat else
   if String.eqb name "Z" then Zmat else if String.eqb name "S" then Smat else
   if String.eqb name "Sdag" then Sdagmat else if String.eqb name "T" then Tmat else
   if String.eqb name "Tdag" then Tdagmat else if String.eqb name "SX" then SXmat else
   if String.eqb name "SXdag" then SXdagmat else if String.eqb name "V" then Vmat else
   if String.eqb name "Vdag" then Vdagmat else mk2 c0 c0 c0 c0)%string.
(* get_controls, makeGate (three overloads), makeTwoQubitGate : qdd/bindings.cpp:59-86 *)
Definition get_controls (qs : list Z) : list control := mkControls (map (fun q => (q, true)) qs).
Definition makeGate_py (q : Z) (m : gmat) (target : Z) (controls : list Z) : comp :=
  makeGate q m target (get_controls controls).
Definition makeGate_name (q : Z) (name : string) (target : Z) (controls : list Z) : comp :=
  makeGate_py q (gateMap name) target controls.
Definition makeTwoQubitGate_py (q : Z) (m : gmat) (t0 t1 : Z) (controls : list Z) : comp :=
  makeTwoQubitGate q m t0 t1 (get_controls controls).

(* applyGlobal : qdd/bindings.cpp:88-100 *)
Definition applyGlobal (org : edge) (angle : num) : edge :=
  E (cmul (ew org) (ncos angle, nsin angle)) (en org).

End Gates.
