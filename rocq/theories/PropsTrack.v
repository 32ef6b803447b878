(** C37 the parity matrix of a CNOT_tracker, C52 its depth.

    [mat_acts n m x y]: the matrix m sends the bits x to the bits y (y q is the
    parity of the x k with m q k set); [cden gates s y = s x] for all s says that
    the circuit sends the basis state x to the basis state y. *)
From Coq Require Import Reals List Bool Arith Lia.
From Verif Require Import CNum Base GraphSem GateModel CircSpec LinModel LinProofs TrackModel TrackProofs.
Import ListNotations.
Open Scope nat_scope.

Theorem C37_tracker : forall n ops, Forall (top_ok n) ops -> exists t, foldM tk_do ops (tk_new n) = Ok t /\ tk_n t = n /\ rect n n (tk_mat t) /\
  tk_gates t = fold_left rec_gates ops [] /\
  forall x, exists y, mat_acts n (tk_mat t) x y /\ (forall q, n <= q -> y q = x q) /\ forall s, cden (tk_gates t) s y = s x.
Proof. exact tracker_exact. Qed.
Print Assumptions C37_tracker.
Theorem C37_from_circuit : forall c, Forall (cnot_in (cqubits c)) (cgates c) -> exists t, tk_from_circuit c = Ok t /\
  tk_n t = cqubits c /\ tk_gates t = cgates c /\ rect (cqubits c) (cqubits c) (tk_mat t) /\
  forall x, exists y, mat_acts (cqubits c) (tk_mat t) x y /\ (forall q, cqubits c <= q -> y q = x q) /\ forall s, cden (cgates c) s y = s x.
Proof. exact from_circuit_exact. Qed.
Print Assumptions C37_from_circuit.
(** two rows, a column and a gate *)
Example C37_case : Forall (top_ok 3) [RowAdd 0 1; ColAdd 2 1; RowAdd 1 2; AddGate 2 0] /\
  (exists t, foldM tk_do [RowAdd 0 1; ColAdd 2 1; RowAdd 1 2; AddGate 2 0] (tk_new 3) = Ok t /\
    tk_gates t = [GCNOT 1 2; GCNOT 0 1; GCNOT 1 2; GCNOT 2 0] /\ tk_mat t = [[false; false; true]; [true; true; false]; [true; false; true]]).
Proof. split; [repeat constructor; discriminate|]. eexists. split; [reflexivity|]. split; reflexivity. Qed.
Theorem C37_add_by_name_refuted : exists n t x y s, tk_add_name (GCNOT 0 1) (tk_new n) = Ok t /\ tk_gates t = [GCNOT 0 1] /\ mat_acts n (tk_mat t) x y /\
  s x <> C0 /\ cden (tk_gates t) s y = C0.
Proof. exact add_name_stale. Qed.
Print Assumptions C37_add_by_name_refuted.
(** the reported depth can be too small for any layering of the gates *)
Theorem C52_cnot_depth_refuted : exists ops t, foldM tk_do ops (tk_new 2) = Ok t /\ Forall (top_ok 2) ops /\ forall L, ~ layering (tk_gates t) (cnot_depth t) L.
Proof. exact cnot_depth_undercounts. Qed.
Print Assumptions C52_cnot_depth_refuted.
