(** Model of pyzx/mbqc.py: measure and apply_pauli.  The positions 2*q-0.8 and 2*r+0.8 are
    floats in the code; here they are the exact rationals. *)
From Coq Require Import ZArith QArith Qcanon List Bool Arith.
From Verif Require Import CNum Base ScalarModel GraphModel RulesModel.
Import ListNotations.
Open Scope nat_scope.

(** mbqc.py 36-37 and 64-65, the position of the output at a place of the grid *)
Definition grid_q (pos : Z * Z) : Qc := (Qcz (2 * fst pos) - frac 4 5)%Qc.
Definition grid_r (pos : Z * Z) : Qc := (Qcz (2 * snd pos) + frac 4 5)%Qc.
Definition at_pos (pos : Z * Z) (g : graph) (v : nat) : bool := qeqb (qubit g v) (grid_q pos) && qeqb (row g v) (grid_r pos).
(** list.remove for a value known to occur *)
Fixpoint remove_first (v : nat) (l : list nat) : list nat :=
  match l with [] => [] | a :: l' => if Nat.eqb a v then l' else a :: remove_first v l' end.

(** mbqc.py 43-50, the body of the loop of measure *)
Definition measure1 (pos : Z * Z) (t : vtype) (p : Qc) (st : graph * list nat * bool) (v : nat) : res (graph * list nat * bool) :=
  let '(g, outs, found) := st in
  if at_pos pos g v then
    if existsb (Nat.eqb v) outs then Ok (set_phase v p (set_type v t g), remove_first v outs, true) else Err ValueError
  else Ok st.
(** mbqc.py 34-53, measure with a numeric phase *)
Definition measure (pos : Z * Z) (t : vtype) (p : Qc) (g : graph) : res graph :=
  let* (go, found) := foldM (measure1 pos t p) (vertices g) (g, goutputs g, false) in
  if found then Ok (set_outputs (snd go) (fst go)) else Err ValueError.

(** mbqc.py 70-96, the body of the loop of apply_pauli *)
Definition pauli1 (pos : Z * Z) (t : vtype) (outs : list nat) (st : graph * bool) (v : nat) : res (graph * bool) :=
  let (g, found) := st in
  if at_pos pos g v then
    if existsb (Nat.eqb v) outs then
      match neighbors g v with
      | [w] =>
        if vtype_eqb t (vty g w) then Ok (add_to_phase w 1%Qc g, true)
        else if vtype_eqb t XSP then
          let* g := remove_edge v w g in
          let (g, c) := add_vertex XSP (grid_q pos + frac 2 5)%Qc (grid_r pos - frac 2 5)%Qc (Some 1%Qc) g in
          let* g := add_edge w c SIMPLE g in
          let* g := add_edge c v SIMPLE g in
          Ok (g, true)
        else
          match filter (fun n => negb (Nat.eqb n v)) (neighbors g w) with
          | [w1] => if vtype_eqb (vty g w1) ZSP then Ok (add_to_phase w1 1%Qc (set_phase w (- phase g w)%Qc g), true) else Err ValueError
          | _ => Err ValueError
          end
      | _ => Err ValueError
      end
    else Err ValueError
  else Ok st.
(** mbqc.py 56-99, apply_pauli *)
Definition apply_pauli (pos : Z * Z) (t : vtype) (p : Qc) (g : graph) : res graph :=
  if qeqb p 0%Qc then Ok g else if negb (qeqb p 1%Qc) then Err ValueError else
  let* (g, found) := foldM (pauli1 pos t (goutputs g)) (vertices g) (g, false) in
  if found then Ok g else Err ValueError.
