(* Num.v -- the arithmetic the C++ code is written against.

   The C++ code computes in IEEE doubles.  The model is written once, over an
   abstract record of operations ([NumOps]); it is instantiated
   - with the real numbers ([RNum] in RNum.v): every theorem is about this
     instance except C66 and C67.  SIMPLIFICATION: rounding is not modelled in
     it; the comparison tolerance of the code (Complex::TOLERANCE,
     include/dd.h:35-36) is kept as the parameter [ntol];
   - with rounded arithmetic ([FNum] in SafeF.v), binary64 in particular: C66
     and C67.  No overflow, NaN or signed zero;
   - with the rationals ([QNum] below), which compute: used by the executable
     examples and by the refutation witnesses. *)
From Coq Require Import ZArith QArith Bool List.
Import ListNotations.

Class NumOps := {
  num   : Type;
  n0    : num;
  n1    : num;
  nadd  : num -> num -> num;
  nsub  : num -> num -> num;
  nmul  : num -> num -> num;
  ndiv  : num -> num -> num;
  nopp  : num -> num;
  nabs  : num -> num;
  nsqrt : num -> num;
  ncos  : num -> num;
  nsin  : num -> num;
  nltb  : num -> num -> bool;
  nleb  : num -> num -> bool;
  neqb  : num -> num -> bool;
  ntol  : num                      (* Complex::TOLERANCE, include/dd.h:35-36 *)
}.

Section Complex.
Context {NO : NumOps}.

(* struct Complex { double r, i; }   include/dd.h:22-34 *)
Definition cx : Type := (num * num)%type.
Definition c0 : cx := (n0, n0).
Definition c1 : cx := (n1, n0).

(* operator+= : include/dd.h:42-46 *)
Definition cadd (x y : cx) : cx := (nadd (fst x) (fst y), nadd (snd x) (snd y)).
(* operator-= : include/dd.h:47-51 *)
Definition csub (x y : cx) : cx := (nsub (fst x) (fst y), nsub (snd x) (snd y)).
(* operator*= : include/dd.h:52-59 *)
Definition cmul (x y : cx) : cx :=
  (nsub (nmul (fst x) (fst y)) (nmul (snd x) (snd y)),
   nadd (nmul (fst x) (snd y)) (nmul (snd x) (fst y))).
(* norm2 / mag2 : include/dd.h:70 and 137-139 *)
Definition norm2 (x : cx) : num := nadd (nmul (fst x) (fst x)) (nmul (snd x) (snd x)).
(* operator/= : include/dd.h:60-68 *)
Definition cdiv (x y : cx) : cx :=
  (ndiv (nadd (nmul (fst x) (fst y)) (nmul (snd x) (snd y))) (norm2 y),
   ndiv (nsub (nmul (snd x) (fst y)) (nmul (fst x) (snd y))) (norm2 y)).
Definition copp (x : cx) : cx := (nopp (fst x), nopp (snd x)).

(* isApproximatelyZero : include/dd.h:74-76 *)
Definition iszero (x : cx) : bool :=
  nleb (nabs (fst x)) ntol && nleb (nabs (snd x)) ntol.
(* isApproximatelyEqual : include/dd.h:78-86 *)
Definition isequal (x y : cx) : bool :=
  (neqb (fst x) (fst y) && neqb (snd x) (snd y))
  || (nleb (nabs (nsub (fst x) (fst y))) ntol && nleb (nabs (nsub (snd x) (snd y))) ntol).
(* isApproximatelyOne : include/dd.h:88-90 *)
Definition isone (x : cx) : bool := isequal x c1.
(* norm(w) == 0.0, include/dd.h:133-135.  SIMPLIFICATION: sqrt(x) == 0 is
   modelled as x == 0 (equivalent for the x >= 0 it is applied to). *)
Definition isnull (x : cx) : bool := neqb (norm2 x) n0.

End Complex.

(* ---- executable instance: exact rationals --------------------------------- *)
Definition Qred2 (f : Q -> Q -> Q) (x y : Q) : Q := Qred (f x y).
(* exact on squares of rationals, which is all the examples use *)
Definition Qsqrt (x : Q) : Q :=
  let x := Qred x in Qred (Qmake (Z.sqrt (Qnum x)) (Z.to_pos (Z.sqrt (Zpos (Qden x))))).

Definition QNum (tol : Q) : NumOps := {|
  num := Q; n0 := 0%Q; n1 := 1%Q;
  nadd := Qred2 Qplus; nsub := Qred2 Qminus; nmul := Qred2 Qmult; ndiv := Qred2 Qdiv;
  nopp := Qopp;
  nabs := fun x => if Qle_bool 0 x then x else Qopp x;
  nsqrt := Qsqrt;
  ncos := fun _ => 1%Q; nsin := fun _ => 0%Q;   (* only the angle 0 is used *)
  nltb := fun x y => negb (Qle_bool y x);
  nleb := Qle_bool;
  neqb := Qeq_bool;
  ntol := tol |}.

(* machine epsilon (2^-52) * 1024 : include/dd.h:35-36 *)
Definition code_tolQ : Q := 1 # (2 ^ 42)%positive.
