(** Property theorems: mbqc.cluster_state (C81, C82). *)
From Coq Require Import Reals ZArith QArith Qcanon List Bool Arith Lia Permutation.
From Verif Require Import CNum Base ScalarModel GraphModel GraphSem GraphProofs RulesModel RuleLemmas PivotMatch InvProofs MbqcModel MbqcProofs MbqcPauli ClusterModel ClusterProofs ClusterEnd.
Import ListNotations.
Open Scope nat_scope.

(** cluster_state m n inputs, for any size and any list of places: it does not raise; O (q, r) is
    the output of row q and column r, I (q, r) the input there.  Outputs and inputs are listed row
    by row, they are distinct, and they are all the boundary vertices.  The map is the product over
    all places of 1/sqrt 2 times the controlled sign with the place below and with the place to the
    right, and a wire from the input where one is asked for.  The output of every place is the only
    vertex where measure and apply_pauli look for it, on a plain wire to the Z spider of that place;
    the input hangs on the same spider, on its other side. *)
Theorem C81_cluster : forall m n ins, exists g O I, cluster_state m n ins = Ok g /\ wfg g /\ noloop g /\
  goutputs g = map O (list_prod (seq 0 m) (seq 0 n)) /\ NoDup (goutputs g) /\
  ginputs g = map I (filter (isinp ins) (list_prod (seq 0 m) (seq 0 n))) /\ NoDup (ginputs g) /\ (forall v, In v (ginputs g) -> ~ In v (goutputs g)) /\
  (forall v, In v (vertices g) -> (vty g v = BOUNDARY <-> In v (ginputs g) \/ In v (goutputs g))) /\
  (forall b, sem g b = cprod (factor m n ins O I b) (list_prod (seq 0 m) (seq 0 n))) /\
  forall q r, q < m -> r < n -> here (Z.of_nat q, Z.of_nat r) g (O (q, r)) /\
    exists w, (neighbors g (O (q, r)) = [w] /\ edge_type g (O (q, r)) w = Some SIMPLE /\ vty g w = ZSP) /\ (qubit g w = Qcz (2 * Z.of_nat q) /\ row g w = Qcz (2 * Z.of_nat r)) /\
      (isinp ins (q, r) = true -> neighbors g (I (q, r)) = [w] /\ edge_type g (I (q, r)) w = Some SIMPLE /\ qubit g (I (q, r)) = (Qcz (2 * Z.of_nat q) + frac 4 5)%Qc /\ row g (I (q, r)) = (Qcz (2 * Z.of_nat r) - frac 4 5)%Qc).
Proof. exact cluster_ok. Qed.
Print Assumptions C81_cluster.
(** every qubit of a cluster state can be measured, at any angle *)
Theorem C81_measure : forall m n ins q r p, q < m -> r < n -> exists g g' v, cluster_state m n ins = Ok g /\ here (Z.of_nat q, Z.of_nat r) g v /\ In v (goutputs g) /\
  measure (Z.of_nat q, Z.of_nat r) ZSP p g = Ok g' /\ ginputs g' = ginputs g /\ goutputs g' = filter (fun u => negb (Nat.eqb u v)) (goutputs g) /\
  forall b, sem g' b = (sem g (upd b v false) + cexp p * sem g (upd b v true))%C.
Proof. exact cluster_measure. Qed.
Print Assumptions C81_measure.
(** and a Pauli Z on it negates the value at 1 *)
Theorem C81_pauli_z : forall m n ins q r, q < m -> r < n -> exists g g' v, cluster_state m n ins = Ok g /\ here (Z.of_nat q, Z.of_nat r) g v /\ In v (goutputs g) /\
  apply_pauli (Z.of_nat q, Z.of_nat r) ZSP 1 g = Ok g' /\ ginputs g' = ginputs g /\ goutputs g' = goutputs g /\ forall b, sem g' b = (sgn (b v) * sem g b)%C.
Proof. exact cluster_pauli_z. Qed.
Print Assumptions C81_pauli_z.

(** two rows and two columns, with an input at row 0, column 1 *)
Example C81_ex : exists g, cluster_state 2 2 [(0, 1)] = Ok g /\ vertices g = seq 0 9 /\ goutputs g = [4; 5; 7; 8] /\ ginputs g = [6] /\
  neighbors g 0 = [2; 1; 4] /\ edge_type g 0 2 = Some HADAMARD /\ edge_type g 0 3 = None /\ edge_type g 1 6 = Some SIMPLE /\ edge_type g 1 5 = Some SIMPLE.
Proof. eexists. split; [vm_compute; reflexivity|]. repeat split; vm_compute; reflexivity. Qed.
(** its map: four Hadamard wires, so 1/4, with the sign of two qubits set side by side *)
Example C81_ex_map : exists g O I, cluster_state 2 2 [(0, 1)] = Ok g /\ forall b, sem g b =
  (sq2p (-1) * sgn (b (O (0, 0)) && b (O (1, 0))) * (sq2p (-1) * sgn (b (O (0, 0)) && b (O (0, 1)))) * (sq2p (-1) * sgn (b (O (0, 1)) && b (O (1, 1)))) * dlt (b (O (0, 1))) (b (I (0, 1))) * (sq2p (-1) * sgn (b (O (1, 0)) && b (O (1, 1)))))%C.
Proof.
  destruct (cluster_ok 2 2 [(0, 1)]) as [g [O [I [A [_ [_ [_ [_ [_ [_ [_ [_ [S _]]]]]]]]]]]]]. exists g, O, I. split; auto. intros b. rewrite S.
  cbn [list_prod seq map app cprod factor Nat.ltb Nat.leb plus existsb fst snd Nat.eqb andb orb]. cbn. ring.
Qed.
(** the same in the X basis *)
Theorem C81_measure_x : forall m n ins q r p, q < m -> r < n -> exists g g' v, cluster_state m n ins = Ok g /\ here (Z.of_nat q, Z.of_nat r) g v /\ In v (goutputs g) /\
  measure (Z.of_nat q, Z.of_nat r) XSP p g = Ok g' /\ ginputs g' = ginputs g /\ goutputs g' = filter (fun u => negb (Nat.eqb u v)) (goutputs g) /\
  forall b, sem g' b = (sq2p (-1) * ((C1 + cexp p) * sem g (upd b v false) + (C1 - cexp p) * sem g (upd b v true)))%C.
Proof. exact cluster_measure_x. Qed.
Print Assumptions C81_measure_x.
(** a Pauli X flips the bit *)
Theorem C81_pauli_x : forall m n ins q r, q < m -> r < n -> exists g g' v, cluster_state m n ins = Ok g /\ here (Z.of_nat q, Z.of_nat r) g v /\ In v (goutputs g) /\
  apply_pauli (Z.of_nat q, Z.of_nat r) XSP 1 g = Ok g' /\ ginputs g' = ginputs g /\ goutputs g' = goutputs g /\ forall b, sem g' b = sem g (upd b v (negb (b v))).
Proof. exact cluster_pauli_x. Qed.
Print Assumptions C81_pauli_x.
(** The stabilizers: at a place without an input, flipping the bit of the qubit multiplies the map
    by the signs of its neighbours in the grid, that is, X there and Z on the neighbours change nothing. *)
Theorem C82_stabilizer : forall m n ins, exists g O, cluster_state m n ins = Ok g /\ goutputs g = map O (list_prod (seq 0 m) (seq 0 n)) /\
  forall q r, q < m -> r < n -> isinp ins (q, r) = false -> forall b, let v := O (q, r) in
    sem g (upd b v (negb (b v))) = ((if Nat.ltb (q + 1) m then sgn (b (O ((q + 1)%nat, r))) else C1) * (if Nat.ltb 0 q then sgn (b (O ((q - 1)%nat, r))) else C1) *
      (if Nat.ltb (r + 1) n then sgn (b (O (q, (r + 1)%nat))) else C1) * (if Nat.ltb 0 r then sgn (b (O (q, (r - 1)%nat))) else C1) * sem g b)%C.
Proof. exact cluster_stab. Qed.
Print Assumptions C82_stabilizer.
(** the corner of a grid of two by two has two neighbours; the map is not zero *)
Example C82_ex : exists g O, cluster_state 2 2 [(0, 1)] = Ok g /\ sem g (fun _ => false) <> C0 /\
  forall b, sem g (upd b (O (1, 0)) (negb (b (O (1, 0))))) = (sgn (b (O (0, 0))) * sgn (b (O (1, 1))) * sem g b)%C.
Proof.
  destruct (cluster_stab 2 2 [(0, 1)]) as [g [O [A [_ S]]]]. exists g, O. split; auto. split.
  - destruct C81_ex_map as [g1 [O1 [I1 [A1 S1]]]]. rewrite A in A1. injection A1 as <-. rewrite S1. cbn [andb]. change (sgn false) with C1. change (dlt false false) with C1. repeat apply Cmult_neq0; try exact C1_neq_C0; apply sq2p_neq0.
  - intros b. assert (H := S 1 0 ltac:(lia) ltac:(lia) eq_refl b). cbv zeta in H. rewrite H. cbn [Nat.ltb Nat.leb plus Nat.sub]. ring.
Qed.
