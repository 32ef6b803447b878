(** Property theorems C63 to C65: the TODD optimiser.  Statements only; proofs are in ToddSig,
    ToddPoly, ToddNet, ToddSem, ToddProofs and ToddCases. *)
From Coq Require Import ZArith QArith Qcanon List Bool Arith Lia Permutation.
From Verif Require Import CNum Base ScalarModel LinModel LinProofs LinAlg GateModel ToddModel ToddSig ToddPoly ToddNet ToddSem ToddProofs ToddCases.
From Verif Require Import GraphSem CircSpec.
Import ListNotations.
Open Scope nat_scope.

(** ** C63: todd_simp *)
(** On ZPhase gates with multiples of pi/4, CZ and CNOT gates over 2 to 499 qubits, whatever
    random.shuffle does, todd_simp returns without an error, with the identity permutation and
    gates of the same kind; their map is that of the given gates (global phase included), and
    there are no more T gates than before. *)
Theorem C63_todd_simp : forall n sh hist gates, 2 <= n <= 499 -> Forall (todd_gate n) gates -> (forall l, Permutation (sh l) l) ->
  exists gates', todd_simp sh hist gates n = Ok (gates', map (fun i => (i, i)) (seq 0 n)) /\ Forall (todd_gate n) gates' /\
    (forall s, cden gates' s = cden gates s) /\ tcnt gates' <= tcnt gates.
Proof. exact todd_simp_ok. Qed.
Print Assumptions C63_todd_simp.
(** with a single qubit it always raises AssertionError *)
Theorem C63_one_qubit_refuted : forall sh hist gates, Forall (todd_gate 1) gates -> (forall l, Permutation (sh l) l) -> todd_simp sh hist gates 1 = Err AssertionError.
Proof. exact todd_simp_1. Qed.
Print Assumptions C63_one_qubit_refuted.
(** a SWAP gate, which is no gate it can handle, is not rejected but taken for a CZ *)
Theorem C63_swap_refuted : exists gates gates' perm, Forall gate_ok gates /\ todd_simp shid [] gates 2 = Ok (gates', perm) /\ ~ (forall s, cden gates' s = cden gates s).
Proof. exact todd_swap_refuted. Qed.
Print Assumptions C63_swap_refuted.
(** nor is a phase of pi/8 *)
Theorem C63_small_phase_refuted : exists gates gates' perm, Forall gate_ok gates /\ todd_simp shid [] gates 2 = Ok (gates', perm) /\ ~ (forall s, cden gates' s = cden gates s).
Proof. exact todd_eighth_refuted. Qed.
Print Assumptions C63_small_phase_refuted.
Example C63_case : Forall (todd_gate 3) td_four /\ tcnt td_four = 4 /\ exists gs, todd_simp shid [] td_four 3 = Ok (gs, [(0, 0); (1, 1); (2, 2)]) /\ tcnt gs = 2.
Proof. exact td_four_run. Qed.
Example C63_case_ccz : Forall (todd_gate 3) td_ccz /\ exists gs, todd_simp shid [] td_ccz 3 = Ok (gs, [(0, 0); (1, 1); (2, 2)]) /\ tcnt td_ccz = 7 /\ tcnt gs <= 7.
Proof. exact td_ccz_run. Qed.
Example C63_case_shuffle : forall l : list (list bool), Permutation (shid l) l. Proof. exact shid_perm. Qed.

(** ** C64: todd_iter and the Clifford correction *)
(** [cs] are the columns of the parity matrix: one per T gate.  todd_iter ends, with no zero column,
    no two equal columns and no more columns than before, and keeps the third-order signature
    tensor. *)
Theorem C64_todd_iter : forall n sh cs h, colsok n cs -> n <> 0 -> (forall l, Permutation (sh l) l) ->
  exists cs' h', todd_iter sh h (transpose cs) = Ok (transpose cs', h') /\
    colsok n cs' /\ sig_eq n cs cs' /\ nontrivial cs' /\ exists cs0, remove_trivial_cols cs = Ok cs0 /\ length cs' <= length cs0.
Proof. exact todd_iter_ok. Qed.
Print Assumptions C64_todd_iter.
(** When the signature tensors agree, to_clifford does not raise, and its S, Z, S-dagger and CZ gates
    make up for the difference of the phase polynomials, in units of pi/4 modulo 8. *)
Theorem C64_to_clifford : forall n cs cs', colsok n cs -> colsok n cs' -> sig_eq n cs cs' ->
  exists gs, to_clifford (fold_left (add_parity true) cs' (fold_left (add_parity false) cs (mkML [] [] []))) = Ok gs /\
    Forall cl_gate gs /\ Forall (gate_below n) gs /\ forall x, cong8 (cl_sum x gs) (phs cs x - phs cs' x).
Proof. exact to_clifford_ok. Qed.
Print Assumptions C64_to_clifford.
(** all fifteen non-zero columns of four qubits, one of them twice: fewer than eight are left *)
Definition td_all4 : list (list bool) :=
  map (fun k => map (fun j => Nat.testbit k j) (seq 0 4)) (seq 1 15) ++ [[true; false; false; false]].
Example C64_case : colsok 4 td_all4 /\ exists h m, todd_iter shid [] (transpose td_all4) = Ok (m, h) /\ length td_all4 = 16 /\ cols m < 8.
Proof.
  split.
  - intros c H. cbn in H. repeat destruct H as [<-|H]; try reflexivity. destruct H.
  - vm_compute. do 2 eexists. split; [reflexivity|]. split; [reflexivity|]. repeat constructor.
Qed.

(** ** C65: parity_network *)
(** The algorithm ends, its CNOTs are on two different qubits of the circuit, and every non-zero
    parity asked for is on some qubit after some of the CNOTs. *)
Theorem C65_parity_network : forall n s, colsok n s -> exists c, parity_network n s = Ok c /\ cnok n c /\
  forall p, In p s -> existsb (fun b => b) p = true -> realised n p c.
Proof. exact parity_network_ok. Qed.
Print Assumptions C65_parity_network.
Example C65_case : let s := [[true; true; false]; [false; true; true]; [true; true; true]; [true; false; true]] in
  colsok 3 s /\ exists c, parity_network 3 s = Ok c /\ 3 <= length c.
Proof.
  cbn zeta. split.
  - intros c H. cbn in H. repeat destruct H as [<-|H]; try reflexivity. destruct H.
  - vm_compute. eexists. split; [reflexivity|]. repeat constructor.
Qed.
