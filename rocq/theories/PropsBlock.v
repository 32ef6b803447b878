(** Property theorems C66 to C68: phase_block_optimize, greedy_consume_gates, and the T-count under
    basic_optimization.  Statements only; proofs are in BlockLane, BlockTab, BlockGreedy, BlockLoop,
    BlockProofs, BlockOpt and OptCount. *)
From Coq Require Import ZArith QArith Qcanon List Bool Arith Lia Permutation.
From Verif Require Import LinModel PermModel CNum Base ScalarModel GateModel OptModel GraphSem CircSpec OptTrace OptParse OptProofs ToddModel BlockModel BlockLane BlockTab BlockGreedy BlockLoop BlockProofs BlockOpt.
From Verif Require ToddSem ToddCases OptCount.
Import ListNotations.
Open Scope nat_scope.
Notation todd_gate := ToddSem.todd_gate.
Notation shid := ToddCases.shid.
Notation q4 := OptCount.q4.

(** ** C66: phase_block_optimize *)
(** [bgate n]: a ZPhase with a multiple of pi/4, HAD, CNOT or CZ on (distinct) qubits below n.
    With pre_optimize=False and 2 to 499 qubits, whatever random.shuffle does, the function
    does not raise (neither "Hadamards did not extract correctly" nor a KeyError or ValueError),
    its loop ends, the result has the same map, global phase included, and no more T gates. *)
Theorem C66_phase_block_optimize : forall sh hist c, 2 <= cqubits c <= 499 -> (forall k l, Permutation (sh k l) l) -> Forall (bgate (cqubits c)) (cgates c) ->
  exists c', phase_block_optimize sh hist false c = Ok c' /\ cqubits c' = cqubits c /\ Forall (pgate (cqubits c)) (cgates c') /\
    (forall s, cden (cgates c') s = cden (cgates c) s) /\ tcnt (cgates c') <= tcnt (cgates c).
Proof. exact pbo_plain. Qed.
Print Assumptions C66_phase_block_optimize.
(** With pre_optimize=True (the default): the same up to a global phase, and NOT gates are allowed. *)
Theorem C66_pre_optimize : forall sh hist c, 2 <= cqubits c <= 499 -> (forall k l, Permutation (sh k l) l) -> Forall (ogate (cqubits c)) (cgates c) -> Forall q4 (cgates c) ->
  exists c', phase_block_optimize sh hist true c = Ok c' /\ cqubits c' = cqubits c /\ Forall (pgate (cqubits c)) (cgates c') /\
    eq_phase (cden (cgates c')) (cden (cgates c)) /\ tcnt (cgates c') <= tcnt (cgates c).
Proof. exact pbo_pre. Qed.
Print Assumptions C66_pre_optimize.
(** a gate or a phase that is not supported is rejected with TypeError *)
Theorem C66_rejects : forall sh hist c l1 g l2, cgates c = l1 ++ g :: l2 -> Forall (bgate (cqubits c)) l1 -> rejected g -> phase_block_optimize sh hist false c = Err TypeError.
Proof. exact pbo_rejects. Qed.
Print Assumptions C66_rejects.
(** every circuit on one qubit with at least one gate is refused with AssertionError *)
Theorem C66_one_qubit_refuted : forall sh hist c, cqubits c = 1 -> (forall k l, Permutation (sh k l) l) -> Forall (bgate 1) (cgates c) -> cgates c <> [] ->
  phase_block_optimize sh hist false c = Err AssertionError.
Proof. exact pbo_one. Qed.
Print Assumptions C66_one_qubit_refuted.
Definition pb_ex : circuit := mkCirc 3
  [Tg 0 false; GHAD 1; GCZ 0 1; GHAD 1; Tg 1 false; GCNOT 0 1; Tg 1 true; GCNOT 0 1; GHAD 2; Tg 2 false; GCNOT 2 0; GHAD 0; Tg 0 false; Tg 0 false; GHAD 1; GHAD 1; Tg 1 false].
Lemma bg_t : forall n t b, t < n -> bgate n (Tg t b). Proof. intros n t b H. split; auto. destruct b; [exists (-1)%Z|exists 1%Z]; reflexivity. Qed.
Lemma q4_t : forall t b, q4 (Tg t b). Proof. intros t b. destruct b; [exists (-1)%Z|exists 1%Z]; reflexivity. Qed.
Lemma bg_h : forall n t, t < n -> bgate n (GHAD t). Proof. auto. Qed.
Lemma bg_2 : forall n c t, c < n /\ t < n /\ c <> t -> bgate n (GCNOT c t) /\ bgate n (GCZ c t). Proof. auto. Qed.
Ltac bg := repeat (first [apply Forall_nil | apply Forall_cons; [first [apply bg_t; lia | apply bg_h; lia | apply bg_2; lia]|]]).
Ltac bq := repeat (first [apply Forall_nil | apply Forall_cons; [first [apply q4_t | exact Logic.I]|]]).
Example C66_case : Forall (bgate 3) (cgates pb_ex) /\ tcnt (cgates pb_ex) = 7 /\
  exists c', phase_block_optimize (fun _ => shid) (fun _ => []) false pb_ex = Ok c' /\ tcnt (cgates c') = 3 /\ length (cgates c') = 11.
Proof. split; [bg|]. split; [reflexivity|]. vm_compute. eexists. repeat split. Qed.
Example C66_case_pre : Forall (ogate 3) (NOTg 1 :: cgates pb_ex) /\ Forall q4 (NOTg 1 :: cgates pb_ex) /\
  exists c', phase_block_optimize (fun _ => shid) (fun _ => []) true (mkCirc 3 (NOTg 1 :: cgates pb_ex)) = Ok c' /\ tcnt (cgates c') = 3.
Proof.
  split; [repeat constructor; try lia; discriminate|]. split; [bq|].
  vm_compute. eexists. repeat split.
Qed.
Example C66_case_rejects : rejected (GSWAP 0 1) /\ rejected (GZ KZPhase 0 (frac 1 8)).
Proof.
  split; [exact Logic.I|]. intros [z E]. apply (f_equal (fun p => Qden (this p))) in E. destruct (den124 z) as [H|[H|H]]; rewrite H in E; discriminate.
Qed.
Example C66_case_one : Forall (bgate 1) [GHAD 0] /\ phase_block_optimize (fun _ => shid) (fun _ => []) false (mkCirc 1 [GHAD 0]) = Err AssertionError.
Proof. split; [repeat constructor|reflexivity]. Qed.

(** ** C67: greedy_consume_gates *)
(** The loop ends.  It splits the gates into a block without Hadamards, Hadamards on distinct qubits
    and a rest (whose gates are what is left in the dictionary), in this order; the map is unchanged,
    and the number of T gates as well.  Unless the circuit is empty the rest has fewer gates. *)
Theorem C67_greedy_consume_gates : forall n gs, Forall (bgate n) gs ->
  exists G G' block hads rest, load n gs = Ok G /\ greedy_consume_gates G = Ok (G', block, hads) /\ tab n rest G' /\ wf n rest /\
    Forall (todd_gate n) (map snd block) /\ hads_ok n (map snd hads) /\ (gs <> [] -> length rest < length gs) /\
    (forall s, cden gs s = cden (map snd block ++ map snd hads ++ map snd rest) s) /\ tcnt gs = tcnt (map snd block ++ map snd rest).
Proof. exact greedy_gates. Qed.
Print Assumptions C67_greedy_consume_gates.
(** the CZ moves past the first Hadamard and joins the block as a CNOT; the CNOT behind it cannot *)
Definition gc_ex : list gate := [GHAD 1; GCZ 0 1; GCNOT 1 2; Tg 0 false; GHAD 1; Tg 1 false].
Example C67_case : Forall (bgate 3) gc_ex /\
  (let* G := load 3 gc_ex in let* r := greedy_consume_gates G in Ok (map snd (snd (fst r)), map snd (snd r), map (map snd) (fst (fst r)))) =
  Ok ([Tg 0 false; GCNOT 0 1], [GHAD 1], [[]; [GCNOT 1 2; GHAD 1; Tg 1 false]; [GCNOT 1 2]]).
Proof. split; [bg|]. vm_compute. reflexivity. Qed.

(** ** C68: basic_optimization and T gates *)
(** On circuits of NOT, HAD, CNOT, CZ and phase gates with multiples of pi/4, basic_optimization gives
    phases that are multiples of pi/4, and no more T gates (odd multiples of pi/4) than before. *)
Theorem C68_basic_optimization_tcount : forall sw c, Forall (ogate (cqubits c)) (cgates c) -> Forall q4 (cgates c) ->
  exists c', basic_optimization sw c = Ok c' /\ Forall q4 (cgates c') /\ tcnt (cgates c') <= tcnt (cgates c).
Proof. exact basic_opt4. Qed.
Print Assumptions C68_basic_optimization_tcount.
Example C68_case : Forall (ogate 3) (cgates pb_ex) /\ Forall q4 (cgates pb_ex) /\ exists c', basic_optimization true pb_ex = Ok c' /\ tcnt (cgates pb_ex) = 7 /\ tcnt (cgates c') <= 5.
Proof.
  split; [repeat constructor; try lia; discriminate|]. split; [bq|].
  vm_compute. eexists. repeat split; repeat constructor.
Qed.
