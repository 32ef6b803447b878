(** Model of class CNOT_tracker of pyzx/routing/parity_maps.py.  Only definitions.
    Not modelled: names, permutations (never changed by this class), printing,
    metrics other than count_cnots and cnot_depth, negative indices. *)
From Coq Require Import QArith Qcanon List Bool Arith.
From Verif Require Import Base LinModel GateModel.
Import ListNotations.

Record tracker := mkTracker { tk_n : nat; tk_gates : list gate; tk_mat : mat }.
(** parity_maps.py 39-44, __init__ *)
Definition tk_new (n : nat) : tracker := mkTracker n [] (mat_id n).
(** an index of [self.matrix.data] *)
Definition idx (m : mat) (i : nat) : res unit := if Nat.ltb i (length m) then Ok tt else Err IndexError.
(** Circuit.add_gate with a name (circuit/__init__.py 115-118) *)
Definition tk_push (g : gate) (t : tracker) : tracker := mkTracker (tk_n t) (tk_gates t ++ [g]) (tk_mat t).
(** parity_maps.py 66-69, row_add *)
Definition tk_row_add (q0 q1 : nat) (t : tracker) : res tracker :=
  let t := tk_push (GCNOT q0 q1) t in
  let* _ := idx (tk_mat t) q0 in
  let* _ := idx (tk_mat t) q1 in
  Ok (mkTracker (tk_n t) (tk_gates t) (row_add q0 q1 (tk_mat t))).
(** parity_maps.py 71-75, add_gate with a gate object, and with a gate name *)
Definition tk_add_gate (g : gate) (t : tracker) : res tracker :=
  match g with
  | GCNOT c d => tk_row_add c d t
  | _ => Ok (tk_push g t)
  end.
Definition tk_add_name (g : gate) (t : tracker) : res tracker := Ok (tk_push g t).
(** parity_maps.py 77-80, col_add, and 94-108, prepend_gate (columns are indexed below the number of rows: the matrix is square) *)
Definition tk_col_add (q0 q1 : nat) (t : tracker) : res tracker :=
  let t := mkTracker (tk_n t) (GCNOT q1 q0 :: tk_gates t) (tk_mat t) in
  if Nat.eqb (length (tk_mat t)) 0 then Ok t else
  let* _ := idx (tk_mat t) q0 in
  let* _ := if existsb (fun d => nth q0 d false) (tk_mat t) then idx (tk_mat t) q1 else Ok tt in
  Ok (mkTracker (tk_n t) (tk_gates t) (col_add q0 q1 (tk_mat t))).
(** parity_maps.py 122-131, update_matrix *)
Definition upd_gate (m : mat) (g : gate) : res mat :=
  match g with
  | GCNOT c t => let* _ := idx m c in let* _ := idx m t in Ok (row_add c t m)
  | _ => Ok m
  end.
Definition tk_update (t : tracker) : res tracker :=
  let* m := foldM upd_gate (tk_gates t) (mat_id (tk_n t)) in Ok (mkTracker (tk_n t) (tk_gates t) m).
(** parity_maps.py 115-120, from_circuit *)
Definition tk_from_circuit (c : circuit) : res tracker := tk_update (mkTracker (cqubits c) (cgates c) (mat_id (cqubits c))).

(** parity_maps.py 46-50, count_cnots *)
Definition is_cx (g : gate) : option (nat * nat) := match g with GCNOT c t | GCZ c t => Some (c, t) | _ => None end.
Definition count_cnots (t : tracker) : nat := length (filter (fun g => match is_cx g with Some _ => true | None => false end) (tk_gates t)).
(** parity_maps.py 52-65, cnot_depth *)
Definition depth_step (st : nat * list nat) (g : gate) : nat * list nat :=
  let (depth, prev) := st in
  match is_cx g with
  | Some (c, t) => if existsb (Nat.eqb c) prev || existsb (Nat.eqb t) prev then (S depth, []) else (depth, prev ++ [c; t])
  | None => st
  end.
Definition cnot_depth (t : tracker) : nat := fst (fold_left depth_step (tk_gates t) (1%nat, [])).
