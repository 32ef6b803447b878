(** Specification: the linear maps denoted by gates and circuits.  This file
    does not mirror code.  A state gives an amplitude to every assignment of bits
    to qubits; [upd x t b] is x with qubit t set to b. *)
From Coq Require Import Reals ZArith QArith Qcanon List Bool Arith.
From Verif Require Import CNum Base ScalarModel GraphSem GateModel.
Import ListNotations.
Open Scope C_scope.

Definition state := assignment -> C.
(** 2x2 matrices: [m row column] *)
Definition mat2 := bool -> bool -> C.
Definition mk2 (a b c d : C) : mat2 := fun i j => if i then if j then d else c else if j then b else a.
Definition flip (x : assignment) (t : nat) : assignment := upd x t (negb (x t)).
(** apply a one-qubit matrix to qubit t *)
Definition op1 (m : mat2) (t : nat) (s : state) : state := fun x =>
  m (x t) false * s (upd x t false) + m (x t) true * s (upd x t true).
(** do [f] when qubit c is 1 *)
Definition ctrl (c : nat) (f : state -> state) (s : state) : state := fun x => if x c then f s x else s x.
Definition swapq (x : assignment) (a b : nat) : assignment := upd (upd x a (x b)) b (x a).

(** cos and sin of pi p / 2 *)
Definition cosh_ (p : Qc) : C := RtoC (cos (PI * (Q2R (this p) / 2))).
Definition sinh_ (p : Qc) : C := RtoC (sin (PI * (Q2R (this p) / 2))).
Definition mP (p : Qc) : mat2 := mk2 C1 C0 C0 (cexp p).
Definition mH : mat2 := mk2 (/ sq2) (/ sq2) (/ sq2) (- / sq2).
(** Hadamard conjugate of [mP p] *)
Definition mXP (p : Qc) : mat2 :=
  mk2 ((C1 + cexp p) * / (C1 + C1)) ((C1 - cexp p) * / (C1 + C1)) ((C1 - cexp p) * / (C1 + C1)) ((C1 + cexp p) * / (C1 + C1)).
Definition mY : mat2 := mk2 C0 (- Ci) Ci C0.
Definition mRX (p : Qc) : mat2 := mk2 (cosh_ p) (- Ci * sinh_ p) (- Ci * sinh_ p) (cosh_ p).
Definition mRY (p : Qc) : mat2 := mk2 (cosh_ p) (- sinh_ p) (sinh_ p) (cosh_ p).
Definition mRZ (p : Qc) : mat2 := mk2 (cexp (- half p)) C0 C0 (cexp (half p)).
(** OpenQASM U(theta, phi, lambda), all angles in units of pi *)
Definition mU3 (th ph la : Qc) : mat2 :=
  mk2 (cosh_ th) (- (cexp la * sinh_ th)) (cexp ph * sinh_ th) (cexp (ph + la) * cosh_ th).
Definition mU2 (ph la : Qc) : mat2 :=
  mk2 (/ sq2) (- (cexp la * / sq2)) (cexp ph * / sq2) (cexp (ph + la) * / sq2).
Definition scale2 (z : C) (m : mat2) : mat2 := fun i j => z * m i j.

Definition parity (ts : list nat) (x : assignment) : bool := fold_right (fun t b => xorb (x t) b) false ts.

(** The unitary of each gate class, as documented (OpenQASM 2.0 / qelib1.inc,
    Cirq for FSim); phases in units of pi. *)
Definition gden (g : gate) (s : state) : state :=
  match g with
  | GZ _ t p => op1 (mP p) t s
  | GX _ t p => op1 (mXP p) t s
  | GY _ t p => op1 (mRY p) t s
  | GHAD t => op1 mH t s
  | GCNOT c t => fun x => s (upd x t (xorb (x t) (x c)))
  | GCZ c t => fun x => sgn (x c && x t) * s x
  (* CZ conjugated by Hadamards on both qubits *)
  | GXCX c t => fun x => / (C1 + C1) * (s x + s (flip x c) + s (flip x t) - s (flip (flip x c) t))
  | GSWAP c t => fun x => s (swapq x c t)
  | GCY c t => ctrl c (op1 mY t) s
  | GCSX c t => ctrl c (op1 (mXP (frac 1 2)) t) s
  | GCHAD c t => ctrl c (op1 mH t) s
  | GCRX c t p => ctrl c (op1 (mRX p) t) s
  | GCRY c t p => ctrl c (op1 (mRY p) t) s
  | GCRZ c t p => ctrl c (op1 (mRZ p) t) s
  | GCPhase c t p => fun x => (if x c && x t then cexp p else C1) * s x
  (* exp(-i pi p/2 X X) *)
  | GRXX c t p => fun x => cosh_ p * s x - Ci * sinh_ p * s (flip (flip x c) t)
  | GParity p ts => fun x => (if parity ts x then cexp p else C1) * s x
  (* exp(-i pi p/2 Z Z) *)
  | GRZZ c t _ p => fun x => (if xorb (x c) (x t) then cexp (half p) else cexp (- half p)) * s x
  | GCCZ c1 c2 t => fun x => sgn (x c1 && x c2 && x t) * s x
  | GTof c1 c2 t => fun x => s (upd x t (xorb (x t) (x c1 && x c2)))
  | GCSWAP c a b => fun x => if x c then s (swapq x a b) else s x
  | GU2 t th ph => op1 (mU2 th ph) t s
  | GU3 t th ph rho => op1 (mU3 th ph rho) t s
  | GCU3 c t th ph rho => ctrl c (op1 (mU3 th ph rho) t) s
  | GCU c t th ph rho ga => ctrl c (op1 (scale2 (cexp ga) (mU3 th ph rho)) t) s
  (* fSim(theta, phi): |01>,|10> -> cos - i sin swap, |11> -> e^{-i phi} *)
  | GFSim c t th ph => fun x =>
      if Bool.eqb (x c) (x t) then (if x c then cexp (- ph) else C1) * s x
      else cosh_ (th + th) * s x - Ci * sinh_ (th + th) * s (swapq x c t)
  end.
Definition cden (l : list gate) (s : state) : state := fold_left (fun s g => gden g s) l s.

(** the qubits of a gate are distinct and below n *)
Definition gate_qubits (g : gate) : list nat :=
  match g with
  | GZ _ t _ | GX _ t _ | GY _ t _ | GHAD t | GU2 t _ _ | GU3 t _ _ _ => [t]
  | GCNOT c t | GCZ c t | GXCX c t | GSWAP c t | GCY c t | GCSX c t | GCHAD c t | GCRX c t _ | GCRY c t _
  | GCRZ c t _ | GCPhase c t _ | GRXX c t _ | GRZZ c t _ _ | GCU3 c t _ _ _ | GCU c t _ _ _ _ | GFSim c t _ _ => [c; t]
  | GParity _ ts => ts
  | GCCZ a b t | GTof a b t | GCSWAP a b t => [a; b; t]
  end.
Definition gate_ok (g : gate) : Prop :=
  NoDup (gate_qubits g) /\ gate_qubits g <> [] /\
  match g with
  | GRZZ c t ts _ => ts = [c; t]
  | GFSim _ _ th _ => th = frac 1 2
  | _ => True
  end.
Definition gate_in (n : nat) (g : gate) : Prop := gate_ok g /\ forall q, In q (gate_qubits g) -> (q < n)%nat.
Definition circ_ok (c : circuit) : Prop := forall g, In g (cgates c) -> gate_in (cqubits c) g.

(** complex numbers of modulus one *)
Definition unitc (z : C) : Prop := z * Cconj z = C1.
(** equality up to a global phase *)
Definition eq_phase (f f' : state -> state) : Prop := exists z, unitc z /\ forall s x, f s x = z * f' s x.
