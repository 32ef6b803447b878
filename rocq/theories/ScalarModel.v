(** Model of pyzx/graph/scalar.py.  Only definitions. *)
From Coq Require Import Reals ZArith QArith Qcanon Qround List Bool.
From Verif Require Import CNum Base.
Import ListNotations.

(** Python's [==] on Fractions. *)
Definition qeqb (a b : Qc) : bool := Qeq_bool (this a) (this b).
(** Python's [q % 2] on Fractions. *)
Definition qmod2 (q : Qc) : Qc := (q - Qcz (2 * Qfloor (this q / 2)))%Qc.
(** [q.numerator], [q.denominator] of a (reduced) Fraction. *)
Definition qnum (q : Qc) : Z := Qnum (this q).
Definition qden (q : Qc) : Z := Zpos (Qden (this q)).
(** Fraction(n, d) *)
Definition frac (n : Z) (d : positive) : Qc := Q2Qc (n # d).

(** pyzx/graph/scalar.py 53-61, class Scalar and __init__.
    Simplification: [floatfactor] is an exact complex number, phases are
    Fractions (no Poly). *)
Record scalar := mkS {
  power2 : Z;
  sphase : Qc;
  phasenodes : list Qc;
  floatfactor : C;
  is_unknown : bool;
  is_zero : bool
}.
Definition scalar_init : scalar := mkS 0 0%Qc [] C1 false false.

(** scalar.py 90-106, Scalar.copy *)
Definition scalar_copy (conjugate : bool) (s : scalar) : scalar :=
  mkS (power2 s)
      (if conjugate then (- sphase s)%Qc else sphase s)
      (if conjugate then map Qcopp (phasenodes s) else phasenodes s)
      (if conjugate then Cconj (floatfactor s) else floatfactor s)
      (is_unknown s) (is_zero s).

(** scalar.py 112-118, Scalar.to_number *)
Definition to_number (s : scalar) : C :=
  if is_zero s then C0
  else (cexp (sphase s) * cprod (fun n => C1 + cexp n) (phasenodes s)
        * sq2p (power2 s) * floatfactor s)%C.

(** scalar.py 203-205 *)
Definition set_unknown (s : scalar) : scalar :=
  mkS (power2 s) (sphase s) [] (floatfactor s) true (is_zero s).
(** scalar.py 207-209 *)
Definition s_add_power (n : Z) (s : scalar) : scalar :=
  mkS (power2 s + n) (sphase s) (phasenodes s) (floatfactor s) (is_unknown s) (is_zero s).
(** scalar.py 210-212 *)
Definition s_add_phase (p : Qc) (s : scalar) : scalar :=
  mkS (power2 s) (qmod2 (sphase s + p)%Qc) (phasenodes s) (floatfactor s) (is_unknown s) (is_zero s).
(** scalar.py 213-220 *)
Definition s_add_node (n : Qc) (s : scalar) : scalar :=
  let s1 := if qeqb n 0%Qc
            then mkS (power2 s + 2) (sphase s) (phasenodes s) (floatfactor s) (is_unknown s) (is_zero s)
            else mkS (power2 s) (sphase s) (phasenodes s ++ [n]) (floatfactor s) (is_unknown s) (is_zero s) in
  if qeqb n 1%Qc
  then mkS (power2 s1) (sphase s1) (phasenodes s1) (floatfactor s1) (is_unknown s1) true
  else s1.
(** scalar.py 221-224 *)
Definition s_add_float (f : C) (s : scalar) : scalar :=
  mkS (power2 s) (sphase s) (phasenodes s) (floatfactor s * f)%C (is_unknown s)
      (if C_eq_dec f C0 then true else is_zero s).
(** scalar.py 226-233 *)
Definition mult_with_scalar (s o : scalar) : scalar :=
  mkS (power2 s + power2 o) (qmod2 (sphase s + sphase o)%Qc)
      (phasenodes s ++ phasenodes o) (floatfactor s * floatfactor o)%C
      (if is_unknown o then true else is_unknown s)
      (if is_zero o then true else is_zero s).

(** scalar.py 235-273, Scalar.add_spider_pair (Fraction arguments).
    [math.cos(p1)] is the cosine of the rational p1 itself, as written. *)
Definition add_spider_pair (p1 p2 : Qc) (s : scalar) : scalar :=
  let (p1, p2) := if qeqb p2 0%Qc || qeqb p2 1%Qc then (p2, p1) else (p1, p2) in
  if qeqb p1 0%Qc then s_add_power 1 s
  else if qeqb p1 1%Qc then s_add_phase p2 (s_add_power 1 s)
  else
  let (p1, p2) := if Z.eqb (qden p2) 2 then (p2, p1) else (p1, p2) in
  if qeqb p1 (frac 1 2) then
    s_add_node (qmod2 (p2 - frac 1 2)%Qc) (s_add_phase (frac 1 4) s)
  else if qeqb p1 (frac 3 2) then
    s_add_node (qmod2 (p2 - frac 3 2)%Qc) (s_add_phase (frac 7 4) s)
  else if qeqb (qmod2 (p1 + p2)%Qc) 0%Qc then
    if Z.eqb (qden p1) 4 then
      if Z.eqb (qnum p1) 3 || Z.eqb (qnum p1) 5 then s_add_phase 1%Qc s else s
    else s_add_float (RtoC (cos (Q2R (this p1)))) (s_add_power 1 s)
  else s_add_float (C1 + cexp p1 + cexp p2 - cexp (p1 + p2)%Qc)%C (s_add_power (-1) s).
