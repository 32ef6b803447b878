(** Property theorems: conversions between circuits and diagrams, and circuit equality (C26, C27, C49). *)
From Coq Require Import Reals ZArith QArith Qcanon List Bool Arith Lia Permutation.
From Verif Require Import CNum Base ScalarModel GraphModel GraphSem TotalProofs RunEx SimpModel RedFacts ZXFacts GateModel CircSpec GateProofs GateDecomp GateAdj GateMask
  CircGraphModel CircGraphProofs CircGraphFacts VerifyModel VerifyProofs.
Import ListNotations.
Close Scope Qc_scope. Close Scope Q_scope. Close Scope R_scope. Open Scope nat_scope.

(** The value of the diagram at boundary bits b is the amplitude <y|C|i>, where i are
    the bits of b on the inputs and y those on the outputs; output number j belongs to
    the j-th label in the iteration order of the label set. *)
Theorem C26_circuit_to_graph : forall so compress c, is_perm_oracle so -> (forall k, In k (cgates c) -> no_hbox k /\ gate_in (cqubits c) k) ->
  exists g z, circuit_to_graph so compress c = Ok g /\ unitc z /\ (Forall prim (cgates c) -> z = C1) /\ zinv g /\
    length (ginputs g) = cqubits c /\ length (goutputs g) = cqubits c /\ NoDup (ginputs g ++ goutputs g) /\
    forall b y, (forall j, j < cqubits c -> y (nth j (so (seq 0 (cqubits c))) 0) = b (nth j (goutputs g) 0)) ->
      (sem g b = z * cden (cgates c) (basis (cqubits c) (fun q => b (nth q (ginputs g) 0%nat))) y)%C.
Proof. exact circuit_graph_ok. Qed.
Print Assumptions C26_circuit_to_graph.
Theorem C26_to_graph : forall so compress c, is_perm_oracle so -> circ_ok c ->
  exists g z, to_graph so false compress c = Ok g /\ unitc z /\ zinv g /\
    length (ginputs g) = cqubits c /\ length (goutputs g) = cqubits c /\ NoDup (ginputs g ++ goutputs g) /\
    forall b y, (forall j, j < cqubits c -> y (nth j (so (seq 0 (cqubits c))) 0) = b (nth j (goutputs g) 0)) ->
      (sem g b = z * cden (cgates c) (basis (cqubits c) (fun q => b (nth q (ginputs g) 0%nat))) y)%C.
Proof. exact to_graph_ok. Qed.
Print Assumptions C26_to_graph.
Definition exg : circuit := mkCirc 3 [GHAD 1; GCNOT 0 2; GZ KZPhase 1 (frac 1 4); GXCX 2 1; GFSim 0 1 (frac 1 2) (frac 1 3); GCZ 1 2; GX KXPhase 0 (frac 2 5)].
Definition exg2 : circuit := mkCirc 3 [GTof 0 2 1; GCRY 0 2 (frac 1 3); GU3 1 (frac 1 5) (frac 2 7) (frac (-3) 4); GSWAP 1 2].
Ltac circ_tac := intros g H; repeat (destruct H as [<-|H]; [split; [split; [repeat constructor; simpl; intuition congruence|split; [discriminate|first [exact I | reflexivity]]]|simpl; intros q Hq; repeat (destruct Hq as [<-|Hq]; [lia|]); contradiction]|]); destruct H.
Lemma exg_ok : circ_ok exg. Proof. circ_tac. Qed.
Lemma exg2_ok : circ_ok exg2. Proof. circ_tac. Qed.
Example C26_case : is_perm_oracle (@rev nat) /\ (forall k, In k (cgates exg) -> no_hbox k /\ gate_in (cqubits exg) k) /\ Forall prim (cgates exg) /\ circ_ok exg2 /\
  (exists g, circuit_to_graph (@rev nat) false exg = Ok g /\ length (vertices g) = 21) /\
  (exists g, to_graph (@rev nat) false true exg2 = Ok g /\ length (vertices g) = 48).
Proof.
  split; [intros l; apply Permutation_sym, Permutation_rev|]. split.
  - intros k Hk. split; [|apply exg_ok; auto]. repeat (destruct Hk as [<-|Hk]; [exact I|]). destruct Hk.
  - split; [repeat constructor; try (left; exact I); right; exact I|]. split; [exact exg2_ok|]. split; eexists; (split; [vm_compute; reflexivity|vm_compute; reflexivity]).
Qed.

(** The label set of the target mapper is iterated in increasing order. *)
Theorem C27_verify_equality : forall so c d, is_perm_oracle so -> so (seq 0 (cqubits c)) = seq 0 (cqubits c) -> circ_ok c -> circ_ok d -> (forall g, In g (cgates c) -> adj_good g) ->
  verify_equality so false c d (Ok true) ->
  cqubits d = cqubits c /\ exists k, k <> C0 /\ forall s x, (cden (cgates d) s x = k * cden (cgates c) s x)%C.
Proof. exact verify_sound_id. Qed.
Print Assumptions C27_verify_equality.
Theorem C27_verify_up_to_swaps : forall so sw c d, is_perm_oracle so -> so (seq 0 (cqubits c)) = seq 0 (cqubits c) -> circ_ok c -> circ_ok d -> (forall g, In g (cgates c) -> adj_good g) ->
  verify_equality so sw c d (Ok true) ->
  cqubits d = cqubits c /\
  exists p k, (forall q, q < cqubits c -> p q < cqubits c) /\ (forall q q', q < cqubits c -> q' < cqubits c -> p q = p q' -> q = q') /\
    (sw = false -> forall q, q < cqubits c -> p q = q) /\ k <> C0 /\
    forall s x, (cden (cgates d) s x = k * cden (cgates c) s (fun q => if Nat.ltb q (cqubits c) then x (p q) else x q))%C.
Proof. exact verify_sound. Qed.
Print Assumptions C27_verify_up_to_swaps.
Theorem C27_verify_returns : forall so sw c d r, is_perm_oracle so -> circ_ok c -> circ_ok d -> verify_equality so sw c d r ->
  if Nat.eqb (cqubits c) (cqubits d) then exists a, r = Ok a else r = Err TypeError.
Proof. exact verify_total. Qed.
Print Assumptions C27_verify_returns.
(** CNOT with a T gate against its Hadamard-CZ form; and a pair equal up to a swap *)
Definition exv1 : circuit := mkCirc 2 [GHAD 1; GCZ 0 1; Tg 0 false; GHAD 1].
Definition exv2 : circuit := mkCirc 2 [GCNOT 0 1; Tg 0 false].
Definition exv3 : circuit := mkCirc 2 [GCNOT 0 1; Tg 0 false; GSWAP 0 1].
Ltac vrun c d := unfold verify_equality; destruct (let* e := c_add (c_adjoint c) d in to_graph (fun l => l) false true e) as [g|] eqn:E; [|vm_compute in E; discriminate];
  destruct (exec_full 30 g) as [[u g']|] eqn:X;
  [exists (Ok (u, g')); split; [apply (exec_full_run 30); exact X|]; vm_compute in E; injection E as <-; vm_compute in X; injection X as _ <-; vm_compute; reflexivity
  |exfalso; vm_compute in E; injection E as <-; vm_compute in X; discriminate].
Example C27_case : is_perm_oracle (fun l => l) /\ circ_ok exv1 /\ circ_ok exv2 /\ circ_ok exv3 /\ (forall g, In g (cgates exv1) -> adj_good g) /\
  verify_equality (fun l => l) false exv1 exv2 (Ok true) /\ verify_equality (fun l => l) true exv1 exv3 (Ok true) /\ verify_equality (fun l => l) false exv1 exv3 (Ok false).
Proof.
  split; [intros l; apply Permutation_refl|]. split; [circ_tac|]. split; [circ_tac|]. split; [circ_tac|].
  split; [intros g H; repeat (destruct H as [<-|H]; [exact I|]); destruct H|]. split; [vrun exv1 exv2|]. split; [vrun exv1 exv3|vrun exv1 exv3].
Qed.
(** with a U2 gate in the first circuit the answer True can be wrong *)
Theorem C27_verify_equality_refuted : exists c d, circ_ok c /\ circ_ok d /\ verify_equality (fun l => l) false c d (Ok true) /\
  ~ exists k, forall s x, (cden (cgates d) s x = k * cden (cgates c) s x)%C.
Proof. exact verify_adjoint_refuted. Qed.
Print Assumptions C27_verify_equality_refuted.

Theorem C49_is_id : forall g, zinv g -> NoDup (ginputs g ++ goutputs g) -> (forall u v e, edge_type g u v = Some e -> e = SIMPLE) -> is_id g = true ->
  length (goutputs g) = length (ginputs g) /\
  forall b, (sem g b = to_number (gscalar g) * cprod (fun vw => dlt (b (fst vw)) (b (snd vw))) (combine (ginputs g) (goutputs g)))%C.
Proof. exact is_id_wires. Qed.
Print Assumptions C49_is_id.
Definition ex_wires : graph := mkgraph [(BOUNDARY, 0%Qc); (BOUNDARY, 0%Qc); (BOUNDARY, 0%Qc); (BOUNDARY, 0%Qc)] [(0, 3, SIMPLE); (2, 1, SIMPLE)] [0; 2] [3; 1].
Example C49_case : zinv ex_wires /\ NoDup (ginputs ex_wires ++ goutputs ex_wires) /\ is_id ex_wires = true.
Proof. split; [apply zinvb_ok; vm_compute; reflexivity|]. split; [repeat constructor; simpl; intuition congruence|vm_compute; reflexivity]. Qed.
(** edge types are not looked at: a Hadamard wire is called an identity *)
Theorem C49_is_id_refuted : exists g, zinv g /\ NoDup (ginputs g ++ goutputs g) /\ is_id g = true /\
  exists b, b (nth 0 (ginputs g) 0) <> b (nth 0 (goutputs g) 0) /\ sem g b <> C0.
Proof. exists hwire. exact is_id_hadamard. Qed.
Print Assumptions C49_is_id_refuted.
