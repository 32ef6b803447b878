(** Property theorems: Circuit.from_graph (C69), the round trip through diagrams (C70), circuits
    keep the norm (C71), and what C71 adds to C27, C35 and C59. *)
From Coq Require Import Reals ZArith QArith Qcanon List Bool Arith Lia Permutation.
From Verif Require Import LinModel CNum Base ScalarModel GraphModel GraphSem SpiderProofs GraphProofs TotalProofs SimpModel RunEx RedFacts ZXFacts GateModel CircSpec GateProofs GateDecomp GateMask GraphAlgProofs
  CircGraphModel CircGraphFacts VerifyModel VerifyProofs IsoExact ExtractModel ExtractMap ExtractRound ExtractFinish ExtractKeys ExtractFacts ExtractEx TensorModel CircTensor
  BackModel BackSem BackProofs BackRound BackNorm BackPhase.
Import ListNotations.
Close Scope Qc_scope. Close Scope Q_scope. Close Scope R_scope. Open Scope nat_scope.

(** [circuit_like n g]: a ZX diagram with n inputs and n outputs, the i-th of each on qubit i; the
    inputs are in a row before all other vertices and not joined to each other; every vertex has at
    most one wire to later rows.  [two_count]: the number of two-qubit gates. *)
Theorem C69_from_graph : forall split n g c, circuit_like n g -> graph_to_circuit split g = Ok c ->
  cqubits c = n /\ circ_ok c /\
  forall b, (sem g b = to_number (gscalar g) * sq2p (- Z.of_nat (two_count (cgates c))) *
    cden (cgates c) (basis n (fun q => b (nth q (ginputs g) 0%nat))) (fun q => b (nth q (goutputs g) 0%nat)))%C.
Proof. exact graph_to_circuit_ok. Qed.
Print Assumptions C69_from_graph.
(** [wired g]: every vertex that is not an input has exactly one wire from an earlier row, from a
    vertex on the same qubit; wires inside a row are Hadamard wires between two Z spiders or plain
    wires between a Z and an X spider; the qubits are natural numbers. *)
Theorem C69_succeeds : forall split n g, circuit_like n g -> wired g -> exists c, graph_to_circuit split g = Ok c.
Proof. exact graph_to_circuit_total. Qed.
Print Assumptions C69_succeeds.
Theorem C69_only_if : forall split n g c, circuit_like n g -> graph_to_circuit split g = Ok c -> wired g.
Proof. exact graph_to_circuit_only. Qed.
Print Assumptions C69_only_if.
Definition ex_c69 : circuit := mkCirc 2 [GHAD 0; GCNOT 0 1; Tg 1 false; XPhase 0 (frac 1 3); GCZ 0 1; NOTg 1].
Definition back (r : res graph) : res circuit := match r with Ok g => graph_to_circuit true g | Err e => Err e end.
Lemma back_ok : forall r g x, r = Ok g -> back r = x -> graph_to_circuit true g = x.
Proof. intros r g x -> H. exact H. Qed.
Lemma ex_c69_back : back (circuit_to_graph (fun l => l) false ex_c69) = Ok (mkCirc 2 [GHAD 0; GCNOT 0 1; Tg 1 false; XPhase 0 (frac 1 3); GCZ 1 0; NOTg 1]).
Proof. vm_compute. reflexivity. Qed.
Definition ex_xxc : circuit := mkCirc 2 [GXCX 0 1].
Lemma ex_xx_back : back (circuit_to_graph (fun l => l) false ex_xxc) = Err KeyError.
Proof. vm_compute. reflexivity. Qed.
Lemma ex_fs_back : back (to_graph (fun l => l) false false ex_fs) = Err TypeError.
Proof. vm_compute. reflexivity. Qed.
Definition is_ok {A} (r : res A) : bool := match r with Ok _ => true | Err _ => false end.
Lemma is_ok_ex : forall A (r : res A), is_ok r = true -> exists a, r = Ok a.
Proof. intros A [a|e] H; [eauto|discriminate]. Qed.
Example C69_case : exists g, circuit_to_graph (fun l => l) false ex_c69 = Ok g /\ circuit_like 2 g /\ wired g /\
  graph_to_circuit true g = Ok (mkCirc 2 [GHAD 0; GCNOT 0 1; Tg 1 false; XPhase 0 (frac 1 3); GCZ 1 0; NOTg 1]).
Proof.
  destruct (is_ok_ex _ (circuit_to_graph (fun l => l) false ex_c69)) as [g E]; [vm_compute; reflexivity|].
  exists g. split; [exact E|]. assert (X : circuit_like (cqubits ex_c69) g /\ wired g).
  { apply (drawn_circuit (fun l => l) false ex_c69 g); [reflexivity| |exact E].
    intros k Hk. cbn [cgates cqubits ex_c69] in *. repeat (destruct Hk as [<-|Hk]; [split; [exact I|split; [split; [repeat constructor; simpl; intuition discriminate|split; [discriminate|exact I]]|simpl; intros q Hq; lia]]|]). destruct Hk. }
  destruct X as [X1 X2]. split; [exact X1|]. split; [exact X2|]. exact (back_ok _ _ _ E ex_c69_back).
Qed.
(** Two X spiders joined by a vertical Hadamard wire, which the code means to read as a "CX" gate,
    raise KeyError (graphparser.py 80). *)
Theorem C69_xx_refuted : circ_ok ex_xxc /\ exists g, circuit_to_graph (fun l => l) false ex_xxc = Ok g /\ graph_to_circuit true g = Err KeyError.
Proof.
  split.
  - intros k [<-|[]]. split; [split; [repeat constructor; simpl; intuition discriminate|split; [discriminate|exact I]]|simpl; intros q Hq; lia].
  - destruct (is_ok_ex _ (circuit_to_graph (fun l => l) false ex_xxc)) as [g E]; [vm_compute; reflexivity|]. exists g. split; [exact E|exact (back_ok _ _ _ E ex_xx_back)].
Qed.
Print Assumptions C69_xx_refuted.

(** The label set is iterated in increasing order, as CPython does for small integers. *)
Theorem C70_round_trip : forall so compress split c, (forall l, so l = l) -> circ_ok c -> (forall k, In k (cgates c) -> not_fsim k) ->
  exists g c', to_graph so false compress c = Ok g /\ graph_to_circuit split g = Ok c' /\ cqubits c' = cqubits c /\ circ_ok c' /\ eq_phase (cden (cgates c')) (cden (cgates c)).
Proof. exact round_trip. Qed.
Print Assumptions C70_round_trip.
Example C70_case : circ_ok ex_rt /\ (forall k, In k (cgates ex_rt) -> not_fsim k) /\
  match to_graph (fun l => l) false true ex_rt with Ok g => match graph_to_circuit true g with Ok c' => (length (vertices g), length (cgates c')) | _ => (0, 0) end | _ => (0, 0) end = (44, 26).
Proof.
  split; [|split].
  - intros k Hk. cbn [cgates cqubits ex_rt] in *. repeat (destruct Hk as [<-|Hk]; [split; [split; [repeat constructor; simpl; intuition discriminate|split; [discriminate|exact I]]|simpl; intros q Hq; lia]|]). destruct Hk.
  - intros k Hk. cbn [cgates ex_rt] in Hk. repeat (destruct Hk as [<-|Hk]; [exact I|]). destruct Hk.
  - vm_compute. reflexivity.
Qed.
Theorem C70_fsim_refuted : circ_ok ex_fs /\ exists g, to_graph (fun l => l) false false ex_fs = Ok g /\ graph_to_circuit true g = Err TypeError.
Proof.
  split.
  - intros k [<-|[]]. split; [split; [repeat constructor; simpl; intuition discriminate|split; [discriminate|reflexivity]]|simpl; intros q Hq; lia].
  - destruct (is_ok_ex _ (to_graph (fun l => l) false false ex_fs)) as [g E]; [vm_compute; reflexivity|]. exists g. split; [exact E|]. exact (back_ok _ _ _ E ex_fs_back).
Qed.
Print Assumptions C70_fsim_refuted.

(** [nrm n s]: the sum of the squared moduli of the amplitudes of s over all 2^n bit strings *)
Theorem C71_norm : forall c s, circ_ok c -> nrm (cqubits c) (cden (cgates c) s) = nrm (cqubits c) s.
Proof. exact circuit_norm. Qed.
Print Assumptions C71_norm.
Theorem C71_basis : forall n i, nrm n (basis n i) = C1.
Proof. exact nrm_basis. Qed.
Print Assumptions C71_basis.
Theorem C71_proportional : forall c d, cqubits d = cqubits c -> circ_ok c -> circ_ok d ->
  (exists k, k <> C0 /\ forall s x, (cden (cgates d) s x = k * cden (cgates c) s x)%C) -> eq_phase (cden (cgates d)) (cden (cgates c)).
Proof. exact proportional_phase. Qed.
Print Assumptions C71_proportional.
Example C71_case : circ_ok ex_rt /\ circ_ok ex_fs.
Proof. split; [exact (proj1 C70_case)|exact (proj1 C70_fsim_refuted)]. Qed.
Theorem C27_verify_phase : forall so c d, is_perm_oracle so -> so (seq 0 (cqubits c)) = seq 0 (cqubits c) -> circ_ok c -> circ_ok d -> (forall g, In g (cgates c) -> GateAdj.adj_good g) ->
  verify_equality so false c d (Ok true) -> cqubits d = cqubits c /\ eq_phase (cden (cgates d)) (cden (cgates c)).
Proof. exact verify_phase. Qed.
Print Assumptions C27_verify_phase.
Theorem C35_extract_phase : forall opt g c0 c g', circ_ok c0 -> gok g -> hubs_ok g -> hubs_sep g -> denotes g (cqubits c0) (cgates c0) -> run (extract_circuit false opt false) g (Ok (c, g')) ->
  cqubits c = cqubits c0 /\ circ_ok c /\ eq_phase (cden (cgates c)) (cden (cgates c0)).
Proof. exact extract_phase. Qed.
Print Assumptions C35_extract_phase.
Theorem C35_full_reduce_phase : forall so compress opt c g0 u g d g',
  is_perm_oracle so -> so (seq 0 (cqubits c)) = seq 0 (cqubits c) -> circ_ok c ->
  to_graph so false compress c = Ok g0 -> run (full_reduce AllC) g0 (Ok (u, g)) -> hubs_ok g -> hubs_sep g -> run (extract_circuit false opt false) g (Ok (d, g')) ->
  cqubits d = cqubits c /\ circ_ok d /\ eq_phase (cden (cgates d)) (cden (cgates c)).
Proof. exact full_phase. Qed.
Print Assumptions C35_full_reduce_phase.
Theorem C35_clifford_simp_phase : forall so compress opt c g0 u g d g',
  is_perm_oracle so -> so (seq 0 (cqubits c)) = seq 0 (cqubits c) -> circ_ok c ->
  to_graph so false compress c = Ok g0 -> run (clifford_simp AllC) g0 (Ok (u, g)) -> hubs_ok g -> hubs_sep g -> run (extract_circuit false opt false) g (Ok (d, g')) ->
  cqubits d = cqubits c /\ circ_ok d /\ eq_phase (cden (cgates d)) (cden (cgates c)).
Proof. exact clifford_phase. Qed.
Print Assumptions C35_clifford_simp_phase.
