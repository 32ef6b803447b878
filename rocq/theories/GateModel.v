(** Model of pyzx/circuit/gates.py and of the gate-list methods of
    pyzx/circuit/__init__.py.  Only definitions.

    A gate object is its class together with its attributes.  Simplifications:
    phases are Fractions; InitAncilla, PostSelect, DiscardBit and Measurement
    (and hence classical bits) are left out; printing is left out; [Gate.index]
    is left out. *)
From Coq Require Import ZArith QArith Qcanon List Bool Arith.
From Verif Require Import CNum Base ScalarModel.
Import ListNotations.

(** subclasses of ZPhase (gates.py 306-389), XPhase (391-452, 524-531), YPhase (470-506);
    [S], [T], [SX] carry the attribute [adjoint] *)
Inductive zclass := KZPhase | KZ | KS (adjoint : bool) | KT (adjoint : bool).
Inductive xclass := KXPhase | KNOT | KSX (adjoint : bool).
Inductive yclass := KYPhase | KY.

Inductive gate :=
| GZ (k : zclass) (target : nat) (phase : Qc)
| GX (k : xclass) (target : nat) (phase : Qc)
| GY (k : yclass) (target : nat) (phase : Qc)
| GHAD (target : nat)
| GCNOT (control target : nat)
| GCZ (control target : nat)
| GXCX (control target : nat)
| GSWAP (control target : nat)
| GCY (control target : nat)
| GCSX (control target : nat)
| GCHAD (control target : nat)
| GCRX (control target : nat) (phase : Qc)
| GCRY (control target : nat) (phase : Qc)
| GCRZ (control target : nat) (phase : Qc)
| GCPhase (control target : nat) (phase : Qc)
| GRXX (control target : nat) (phase : Qc)
| GParity (phase : Qc) (targets : list nat)
| GRZZ (control target : nat) (targets : list nat) (phase : Qc)
| GCCZ (ctrl1 ctrl2 target : nat)
| GTof (ctrl1 ctrl2 target : nat)
| GCSWAP (ctrl1 ctrl2 target : nat)
| GU2 (target : nat) (theta phi : Qc)
| GU3 (target : nat) (theta phi rho : Qc)
| GCU3 (control target : nat) (theta phi rho : Qc)
| GCU (control target : nat) (theta phi rho gamma : Qc)
| GFSim (control target : nat) (theta phi : Qc).

(** constructors, gates.py: ZPhase 306-313, Z 360-367, S 369-378, T 380-389,
    XPhase 391-398, NOT 524-531, SX 445-452, YPhase 470-479, Y 499-506 *)
Definition ZPhase t p := GZ KZPhase t p.
Definition Zg t := GZ KZ t 1%Qc.
Definition Sg t (adj : bool) := GZ (KS adj) t (if adj then frac (-1) 2 else frac 1 2).
Definition Tg t (adj : bool) := GZ (KT adj) t (if adj then frac (-1) 4 else frac 1 4).
Definition XPhase t p := GX KXPhase t p.
Definition NOTg t := GX KNOT t 1%Qc.
Definition SXg t (adj : bool) := GX (KSX adj) t (if adj then frac (-1) 2 else frac 1 2).
Definition YPhase t p := GY KYPhase t p.
Definition Yg t := GY KY t 1%Qc.
(** RZZ.__init__, 812-819 *)
Definition RZZ c t p := GRZZ c t [c; t] p.
(** FSim.__init__, 822-833 *)
Definition FSim c t th ph : res gate := if qeqb th (frac 1 2) then Ok (GFSim c t th ph) else Err AssertionError.

Definition half (p : Qc) : Qc := (p * frac 1 2)%Qc.

(** ** to_basic_gates *)
(** U2.to_basic_gates, 1059-1062 *)
Definition u2_basic t th ph : list gate :=
  [ZPhase t (qmod2 (ph - frac 1 2)); XPhase t (frac 1 2); ZPhase t (qmod2 (th + frac 1 2))].
(** U3.to_basic_gates, 1079-1084 *)
Definition u3_basic t th ph rho : list gate :=
  [ZPhase t rho; XPhase t (frac 1 2); ZPhase t (qmod2 (th + 1)); XPhase t (frac 1 2); ZPhase t (qmod2 (ph + Qcz 3))].
(** YPhase.to_basic_gates, 489-490 *)
Definition yphase_basic t p : list gate := [ZPhase t (frac 1 2); XPhase t (- p); ZPhase t (- frac 1 2)%Qc].
(** CPhase.to_basic_gates, 739-751 *)
Definition cphase_basic c t p : list gate :=
  let p1 := qmod2 (half p) in let p2 := qmod2 (half (- p)) in
  [ZPhase c p1; GCNOT c t; ZPhase t p2; GCNOT c t; ZPhase t p1].
(** CU3.to_basic_gates, 1103-1109 *)
Definition cu3_basic c t th ph rho : list gate :=
  [ZPhase c (half (rho + ph)); ZPhase t (half (rho - ph)); GCNOT c t] ++
  u3_basic t (half (- th)) 0 (half (- (ph + rho))) ++ [GCNOT c t] ++ u3_basic t (half th) ph 0.
(** ParityPhase.to_basic_gates, 799-802: [cnots = [CNOT(ts[i], ts[i+1]) ...]];
    [targets[-1]] raises on an empty tuple *)
Fixpoint cnot_chain (ts : list nat) : list gate :=
  match ts with a :: ((b :: _) as l) => GCNOT a b :: cnot_chain l | _ => [] end.
Definition parity_basic p ts : res (list gate) :=
  match ts with
  | [] => Err IndexError
  | t :: _ => Ok (cnot_chain ts ++ [ZPhase (last ts t) p] ++ rev (cnot_chain ts))
  end.
(** CCZ.to_basic_gates, 969-974 *)
Definition ccz_basic c1 c2 t : list gate :=
  [GCNOT c2 t; Tg t true; GCNOT c1 t; Tg t false; GCNOT c2 t; Tg t true;
   GCNOT c1 t; Tg c2 false; Tg t false; GCNOT c1 c2; Tg c1 false; Tg c2 true; GCNOT c1 c2].
(** Tofolli.to_basic_gates, 1014-1019 *)
Definition tof_basic c1 c2 t : list gate :=
  [GHAD t; GCNOT c2 t; Tg t true; GCNOT c1 t; Tg t false; GCNOT c2 t; Tg t true;
   GCNOT c1 t; Tg c2 false; Tg t false; GCNOT c1 c2; Tg c1 false; Tg c2 true; GCNOT c1 c2; GHAD t].

(** Gate.to_basic_gates, 222-223, and the overriding methods *)
Definition to_basic_gates (g : gate) : res (list gate) :=
  match g with
  | GZ _ _ _ | GX _ _ _ | GHAD _ | GCNOT _ _ | GCZ _ _ => Ok [g]
  | GY _ t p => Ok (yphase_basic t p)
  (* XCX 631-632 *)
  | GXCX c t => Ok [GHAD c; GCNOT c t; GHAD c]
  (* SWAP 639-642 *)
  | GSWAP c t => Ok [GCNOT c t; GCNOT t c; GCNOT c t]
  (* CY 515-518 *)
  | GCY c t => Ok [Sg t true; GCNOT c t; Sg t false]
  (* CSX 461-464 *)
  | GCSX c t => Ok ([GHAD t] ++ cphase_basic c t (frac 1 2) ++ [GHAD t])
  (* CHAD 762-767 *)
  | GCHAD c t => Ok [GHAD t; Sg t true; GCNOT c t; GHAD t; Tg t false; GCNOT c t; Tg t false; GHAD t; Sg t false; NOTg t; Sg c false]
  (* CRX 657-662 *)
  | GCRX c t p => Ok ([ZPhase t (frac 1 2); GCNOT c t] ++ u3_basic t (half (- p)) 0 0 ++ [GCNOT c t] ++ u3_basic t (half p) (frac (-1) 2) 0)
  (* CRY 677-681 *)
  | GCRY c t p => Ok (yphase_basic t (half p) ++ [GCNOT c t] ++ yphase_basic t (half (- p)) ++ [GCNOT c t])
  (* CRZ 696-707 *)
  | GCRZ c t p => Ok [ZPhase t (qmod2 (half p)); GCNOT c t; ZPhase t (qmod2 (half (- p))); GCNOT c t]
  | GCPhase c t p => Ok (cphase_basic c t p)
  (* RXX 722-729 *)
  | GRXX c t p => Ok (u3_basic c (frac 1 2) p 0 ++ [GHAD t; GCNOT c t; ZPhase t (- p)%Qc; GCNOT c t; GHAD t] ++
                      u2_basic c (frac (-1) 1) (qmod2 (1 - p)))
  | GParity p ts => parity_basic p ts
  | GRZZ _ _ ts p => parity_basic p ts
  | GCCZ c1 c2 t => Ok (ccz_basic c1 c2 t)
  | GTof c1 c2 t => Ok (tof_basic c1 c2 t)
  (* CSWAP 1039-1043 *)
  | GCSWAP c t1 t2 => Ok ([GCNOT t2 t1] ++ tof_basic c t1 t2 ++ [GCNOT t2 t1])
  | GU2 t th ph => Ok (u2_basic t th ph)
  | GU3 t th ph rho => Ok (u3_basic t th ph rho)
  | GCU3 c t th ph rho => Ok (cu3_basic c t th ph rho)
  (* CU 1131-1133 *)
  | GCU c t th ph rho ga => Ok ([ZPhase c ga] ++ cu3_basic c t th ph rho)
  (* FSim 851-855 *)
  | GFSim _ _ _ _ => Ok [g]
  end.

(** ** to_adjoint, gates.py 203-209: negates an attribute [phase] and flips an
    attribute [adjoint] when the object has them *)
Definition zadj k := match k with KS a => KS (negb a) | KT a => KT (negb a) | k => k end.
Definition xadj k := match k with KSX a => KSX (negb a) | k => k end.
Definition to_adjoint (g : gate) : gate :=
  match g with
  | GZ k t p => GZ (zadj k) t (- p)%Qc
  | GX k t p => GX (xadj k) t (- p)%Qc
  | GY k t p => GY k t (- p)%Qc
  | GCRX c t p => GCRX c t (- p)%Qc
  | GCRY c t p => GCRY c t (- p)%Qc
  | GCRZ c t p => GCRZ c t (- p)%Qc
  | GCPhase c t p => GCPhase c t (- p)%Qc
  | GRXX c t p => GRXX c t (- p)%Qc
  | GParity p ts => GParity (- p)%Qc ts
  | GRZZ c t ts p => GRZZ c t ts (- p)%Qc
  | g => g
  end.

(** ** split_phases *)
Definition qden (p : Qc) : positive := Qden (this p).
Definition qnum (p : Qc) : Z := Qnum (this p).
(** the denominator-4 branch, gates.py 347-355 and 434-439 *)
Definition split4 t p : list gate :=
  let n := Z.modulo (qnum p) 8 in
  let b := (n =? 3)%Z || (n =? 5)%Z in
  let n' := if b then Z.modulo (n - 4) 8 else n in
  (if b then [Zg t] else []) ++ (if (n' =? 1)%Z then [Tg t false] else []) ++ (if (n' =? 7)%Z then [Tg t true] else []).
(** ZPhase.split_phases, 340-357 *)
Definition zsplit k t p : list gate :=
  if qeqb p 0 then [] else if qeqb p 1 then [Zg t] else
  if (qden p =? 2)%positive then [Sg t (negb (Z.modulo (qnum p) 4 =? 1)%Z)]
  else if (qden p =? 4)%positive then split4 t p else [GZ k t p].
(** XPhase.split_phases, 425-443 *)
Definition xsplit t p : list gate :=
  if qeqb p 0 then [] else if qeqb p 1 then [NOTg t] else
  [GHAD t] ++
  (if (qden p =? 2)%positive then [Sg t (negb (Z.modulo (qnum p) 4 =? 1)%Z)]
   else if (qden p =? 4)%positive then split4 t p else [ZPhase t p]) ++ [GHAD t].

(** ** reposition, gates.py 214-220, 794-797, 846-849, 962-967: [mask[q]] raises
    IndexError when out of range (qubit numbers are not negative here) *)
Definition at_ (mask : list nat) (q : nat) : res nat := of_opt IndexError (nth_error mask q).
Fixpoint mapM {A B} (f : A -> res B) (l : list A) : res (list B) :=
  match l with [] => Ok [] | a :: l => let* b := f a in let* bs := mapM f l in Ok (b :: bs) end.
(** with a target only *)
Definition rep1 mask t (k : nat -> gate) : res gate := let* t := at_ mask t in Ok (k t).
(** with a target and a control *)
Definition rep2 mask c t (k : nat -> nat -> gate) : res gate := let* t := at_ mask t in let* c := at_ mask c in Ok (k c t).
Definition rep3 mask c1 c2 t (k : nat -> nat -> nat -> gate) : res gate :=
  let* t := at_ mask t in let* c1 := at_ mask c1 in let* c2 := at_ mask c2 in Ok (k c1 c2 t).
Definition reposition (mask : list nat) (g : gate) : res gate :=
  match g with
  | GZ k t p => rep1 mask t (fun t => GZ k t p)
  | GX k t p => rep1 mask t (fun t => GX k t p)
  | GY k t p => rep1 mask t (fun t => GY k t p)
  | GHAD t => rep1 mask t GHAD
  | GCNOT c t => rep2 mask c t GCNOT
  | GCZ c t => rep2 mask c t GCZ
  | GXCX c t => rep2 mask c t GXCX
  | GSWAP c t => rep2 mask c t GSWAP
  | GCY c t => rep2 mask c t GCY
  | GCSX c t => rep2 mask c t GCSX
  | GCHAD c t => rep2 mask c t GCHAD
  | GCRX c t p => rep2 mask c t (fun c t => GCRX c t p)
  | GCRY c t p => rep2 mask c t (fun c t => GCRY c t p)
  | GCRZ c t p => rep2 mask c t (fun c t => GCRZ c t p)
  | GCPhase c t p => rep2 mask c t (fun c t => GCPhase c t p)
  | GRXX c t p => rep2 mask c t (fun c t => GRXX c t p)
  | GParity p ts => let* ts := mapM (at_ mask) ts in Ok (GParity p ts)
  (* ParityPhase.reposition is inherited: only [targets] is renamed *)
  | GRZZ c t ts p => let* ts := mapM (at_ mask) ts in Ok (GRZZ c t ts p)
  | GCCZ c1 c2 t => rep3 mask c1 c2 t GCCZ
  | GTof c1 c2 t => rep3 mask c1 c2 t GTof
  | GCSWAP c1 c2 t => rep3 mask c1 c2 t GCSWAP
  | GU2 t th ph => rep1 mask t (fun t => GU2 t th ph)
  | GU3 t th ph rho => rep1 mask t (fun t => GU3 t th ph rho)
  | GCU3 c t th ph rho => rep2 mask c t (fun c t => GCU3 c t th ph rho)
  | GCU c t th ph rho ga => rep2 mask c t (fun c t => GCU c t th ph rho ga)
  (* FSim.reposition reads the attribute [targets], which FSim does not have *)
  | GFSim _ _ _ _ => Err AttributeError
  end.

(** ** Circuit, circuit/__init__.py 45-52 *)
Record circuit := mkCirc { cqubits : nat; cgates : list gate }.
(** adjoint, 65-69 *)
Definition c_adjoint (c : circuit) : circuit := mkCirc (cqubits c) (map to_adjoint (rev (cgates c))).
(** to_basic_gates, 195-201 *)
Definition c_basic (c : circuit) : res circuit :=
  let* l := mapM to_basic_gates (cgates c) in Ok (mkCirc (cqubits c) (concat l)).
(** split_phase_gates, 203-211 *)
Definition split_gate (g : gate) : list gate :=
  match g with GZ k t p => zsplit k t p | GX _ t p => xsplit t p | g => [g] end.
Definition c_split (c : circuit) : circuit := mkCirc (cqubits c) (flat_map split_gate (cgates c)).
(** add_circuit, 139-177, without mask and with mask *)
Definition c_add (c d : circuit) : res circuit :=
  if negb (Nat.eqb (cqubits c) (cqubits d)) then Err TypeError else Ok (mkCirc (cqubits c) (cgates c ++ cgates d)).
Definition c_add_mask (c d : circuit) (mask : list nat) : res circuit :=
  if negb (Nat.eqb (length mask) (cqubits d)) then Err TypeError else
  let* l := mapM (reposition mask) (cgates d) in Ok (mkCirc (cqubits c) (cgates c ++ l)).
(** tensor, 179-193 *)
Definition c_tensor (c d : circuit) : res circuit :=
  let* l := mapM (reposition (map (fun i => i + cqubits c)%nat (seq 0 (cqubits d)))) (cgates d) in
  Ok (mkCirc (cqubits c + cqubits d) (cgates c ++ l)).

(** Gate.tcount, 211-212, and the overriding methods (337-338, 422-423, 496-497,
    808-809, 934-936, 959-960); a gate whose phase has denominator above 2 counts as
    one, also when the denominator is not 4 *)
Definition gate_tcount (g : gate) : nat :=
  match g with
  | GZ _ _ p | GX _ _ p | GY _ _ p | GParity p _ | GRZZ _ _ _ p => if (2 <? qden p)%positive then 1%nat else 0%nat
  | GCCZ _ _ _ | GTof _ _ _ | GCSWAP _ _ _ => 7%nat
  | _ => 0%nat
  end.
(** depth, circuit/__init__.py 505-519; [max] of an empty list raises ValueError *)
Definition lset (d : list nat) (i v : nat) : list nat := firstn i d ++ v :: skipn (S i) d.
Definition depth_step (d : list nat) (g : gate) : res (list nat) :=
  match g with
  | GZ _ t _ | GX _ t _ | GHAD t =>
    let* a := at_ d t in Ok (lset d t (S a))
  | GCZ c t | GXCX c t | GSWAP c t | GCNOT c t =>
    let* a := at_ d t in let* b := at_ d c in
    let m := S (Nat.max a b) in Ok (lset (lset d t m) c m)
  | GCCZ c1 c2 t | GTof c1 c2 t | GCSWAP c1 c2 t =>
    let* a := at_ d t in let* b := at_ d c1 in let* c := at_ d c2 in
    let m := S (Nat.max (Nat.max a b) c) in Ok (lset (lset (lset d t m) c1 m) c2 m)
  | _ => Ok d
  end.
Definition c_depth (c : circuit) : res nat :=
  let* d := foldM depth_step (cgates c) (repeat 0%nat (cqubits c)) in
  match d with [] => Err ValueError | _ => Ok (list_max d) end.
