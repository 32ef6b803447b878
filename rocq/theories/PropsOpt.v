(** Property theorems about basic_optimization (C56). *)
From Coq Require Import Reals ZArith QArith Qcanon List Bool Arith Lia.
From Verif Require Import LinModel PermModel CNum Base ScalarModel GateModel OptModel GraphSem CircSpec OptTrace OptParse OptProofs.
Import ListNotations.
Open Scope nat_scope.

(** ** C56 *)
(** The supported gates: phase gates (ZPhase, Z, S, T) with any phase, HAD, NOT, CNOT and CZ,
    on existing and distinct qubits. *)
Definition supported (n : nat) (g : gate) : Prop :=
  match g with
  | GZ _ t _ | GHAD t => t < n
  | GX KNOT t p => t < n /\ p = 1%Qc
  | GCNOT c t | GCZ c t => c < n /\ t < n /\ c <> t
  | _ => False
  end.
(** basic_optimization never raises on such a circuit, and returns a circuit of such gates on
    the same qubits that denotes the same map up to a global phase. *)
Theorem C56_sound : forall sw c, Forall (supported (cqubits c)) (cgates c) ->
  exists c', basic_optimization sw c = Ok c' /\ cqubits c' = cqubits c /\ Forall (supported (cqubits c)) (cgates c') /\ eq_phase (cden (cgates c')) (cden (cgates c)).
Proof. exact (fun sw c => parse_circuit_ok sw 1000 c). Qed.
Print Assumptions C56_sound.
(** The same for any bound on the number of iterations. *)
Theorem C56_iterations : forall sw maxit c, Forall (supported (cqubits c)) (cgates c) ->
  exists c', parse_circuit sw maxit c = Ok c' /\ cqubits c' = cqubits c /\ Forall (supported (cqubits c)) (cgates c') /\ eq_phase (cden (cgates c')) (cden (cgates c)).
Proof. exact parse_circuit_ok. Qed.
Print Assumptions C56_iterations.
(** With separate_correction, the circuit has phase gates, HAD, CNOT and CZ only, and the
    correction, which is to be done after it, has NOT and SWAP gates only. *)
Theorem C56_separate : forall sw maxit c, Forall (supported (cqubits c)) (cgates c) ->
  exists c' cor, parse_circuit_sep sw maxit c = Ok (c', cor) /\ cqubits c' = cqubits c /\
    Forall (fun g => match g with GZ _ _ _ | GHAD _ => True | GCNOT c t | GCZ c t => c <> t | _ => False end) (cgates c') /\
    Forall (supported (cqubits c)) (cgates c') /\
    Forall (fun g => match g with GX KNOT t p => t < cqubits c /\ p = 1%Qc | GSWAP a b => a < cqubits c /\ b < cqubits c /\ a <> b | _ => False end) cor /\
    eq_phase (cden (cgates c' ++ cor)) (cden (cgates c)).
Proof. exact parse_circuit_sep_ok. Qed.
Print Assumptions C56_separate.
(** Any other gate with a target raises TypeError ... *)
Theorem C56_unsupported : forall sw n l1 g l2 t, Forall (supported n) l1 -> gate_target g = Ok t -> t < n ->
  (match g with GHAD _ | GZ _ _ _ | GX KNOT _ _ | GCZ _ _ | GCNOT _ _ => False | _ => True end) ->
  basic_optimization sw (mkCirc n (l1 ++ g :: l2)) = Err TypeError.
Proof. exact (fun sw => unsupported sw 1000). Qed.
Print Assumptions C56_unsupported.
(** ... also after to_basic_gates, which the error message recommends: it keeps XPhase gates,
    and makes them from YPhase gates. *)
Theorem C56_basic_gates_refuted : exists c c', circ_ok c /\ c_basic c = Ok c' /\ c' <> c /\ basic_optimization true c' = Err TypeError.
Proof. exact basic_gates_refuted. Qed.
Print Assumptions C56_basic_gates_refuted.
(** A circuit for which a NOT and a SWAP are postponed to the end. *)
Example C56_case : Forall (supported 3) ex_opt /\ exists l, parse_circuit_sep true 1000 (mkCirc 3 ex_opt) = Ok (mkCirc 3 l, [NOTg 1; GSWAP 1 2]) /\ length ex_opt = 12 /\ length l = 10.
Proof. split; [exact ex_opt_ok|exact ex_opt_run]. Qed.
