(* Qiskit.v -- how qdd/qdd_backend.py translates Qiskit gate objects into calls of
   pyQDD: the tables at 29-103 and the branches at 762-892 (the same branches appear in
   merge_circuit, 450-490).  A gate object is its class (Instruction.base_class), its
   parameters and its ctrl_state (the state of the controls on which a controlled gate
   acts, all ones by default).  The qubits are given separately.  Exact arithmetic
   (RNum 0). *)
From Coq Require Import Reals ZArith Bool List Arith String.
From Coquelicot Require Import Complex.
From Verif Require Import Num Gates RNum Spec Backend.
Import ListNotations.
Open Scope nat_scope.

Inductive gclass :=
| HGate | IGate | SdgGate | SGate | SXdgGate | SXGate | TdgGate | TGate | XGate | YGate | ZGate
| CXGate | CYGate | CZGate | CSXGate | CCXGate | C3XGate | C4XGate | MCXGate
| RXGate | RYGate | RZGate | PhaseGate | CPhaseGate | MCPhaseGate | CU1Gate | CRXGate | CRYGate | CRZGate
| RGate | UGate | CU3Gate | CUGate
| SwapGate | ISwapGate | CSwapGate | RXXGate | RYYGate | RZZGate | RZXGate.
Record qgate := QG { gcls : gclass; gpar : list R; gctl : nat }.

Inductive entry1 := T1 (m : matrix) | T2 (m : matrix).
#[local] Hint Extern 0 NumOps => exact (RNum 0) : typeclass_instances.
Definition named (s : string) : option entry1 := Some (T1 (@gateMap (RNum 0) s)).
(* qdd_backend.py:30-52; bindings.cpp:74-81 looks the name up *)
Definition tab_0 (c : gclass) : option entry1 :=
  match c with
  | HGate => named "H" | IGate => named "I" | SdgGate => named "Sdag" | SGate => named "S" | SXdgGate => named "SXdag"
  | SXGate => named "SX" | TdgGate => named "Tdag" | TGate => named "T" | XGate => named "X" | YGate => named "Y"
  | ZGate => named "Z" | CXGate => named "X" | CYGate => named "Y" | CZGate => named "Z" | CSXGate => named "SX"
  | CCXGate => named "X" | C3XGate => named "X" | C4XGate => named "X" | MCXGate => named "X"
  | SwapGate => Some (T2 (@swap_matrix (RNum 0))) | ISwapGate => Some (T2 (@iswap_matrix (RNum 0)))
  | CSwapGate => Some (T2 (@swap_matrix (RNum 0)))
  | _ => None
  end.
(* 54-65, 91-96 *)
Definition tab_1 (c : gclass) (a : R) : option entry1 :=
  match c with
  | RXGate => Some (T1 (@rx (RNum 0) a)) | RYGate => Some (T1 (@ry (RNum 0) a)) | RZGate => Some (T1 (@rz (RNum 0) a))
  | PhaseGate => Some (T1 (@p_gate (RNum 0) a)) | CPhaseGate => Some (T1 (@p_gate (RNum 0) a)) | MCPhaseGate => Some (T1 (@p_gate (RNum 0) a))
  | CU1Gate => Some (T1 (@u1 (RNum 0) a))
  | CRXGate => Some (T1 (@rx (RNum 0) a)) | CRYGate => Some (T1 (@ry (RNum 0) a)) | CRZGate => Some (T1 (@rz (RNum 0) a))
  | RXXGate => Some (T2 (@rxx_matrix (RNum 0) a)) | RYYGate => Some (T2 (@ryy_matrix (RNum 0) a))
  | RZZGate => Some (T2 (@rzz_matrix (RNum 0) a)) | RZXGate => Some (T2 (@rzx_matrix (RNum 0) a))
  | _ => None
  end.
(* 67-69 *)
Definition tab_2 (c : gclass) (a b : R) : option entry1 := match c with RGate => Some (T1 (@r_gate (RNum 0) a b)) | _ => None end.
(* 71-74 *)
Definition tab_3 (c : gclass) (a b d : R) : option entry1 :=
  match c with UGate => Some (T1 (@u3 (RNum 0) a b d)) | CU3Gate => Some (T1 (@u3 (RNum 0) a b d)) | _ => None end.
(* 76-78 *)
Definition tab_4 (c : gclass) (a b d e : R) : option entry1 := match c with CUGate => Some (T1 (@u (RNum 0) a b d e)) | _ => None end.
(* 767-789, 822-828: i.params[0], ...; None: IndexError *)
Definition first {A} (l : list (option A)) : option A := fold_right (fun x acc => match x with Some a => Some a | None => acc end) None l.
Definition lookup (c : gclass) (ps : list R) : option entry1 :=
  first [tab_0 c;
         match ps with a :: _ => tab_1 c a | _ => None end;
         match ps with a :: b :: _ => tab_2 c a b | _ => None end;
         match ps with a :: b :: d :: _ => tab_3 c a b d | _ => None end;
         match ps with a :: b :: d :: e :: _ => tab_4 c a b d e | _ => None end].
(* 762-835: the instruction of Backend.v; ctrl_state is not read *)
Definition translate (g : qgate) (qs : list nat) : option gop :=
  match lookup (gcls g) (gpar g) with
  | Some (T1 m) => Some (G1 m qs)
  | Some (T2 m) => Some (G2 m qs)
  | None => None
  end.
(* a QDDGate is a ready-made operator on the whole register (qdd_gate.py:6-9,
   qdd_backend.py:880-890): its own qubits are not read *)
Definition translate_qdd (A : matrix) (qs : list nat) : gop := GQ A qs.
