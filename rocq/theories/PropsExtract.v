(** Property theorems: circuit extraction (C35). *)
From Coq Require Import Reals ZArith QArith Qcanon List Bool Arith Lia Permutation.
From Verif Require Import LinModel CNum Base ScalarModel GraphModel GraphSem SpiderProofs GraphProofs TotalProofs SimpModel RunEx RedFacts ZXFacts GateModel CircSpec GateProofs GateMask GraphAlgProofs
  CircGraphModel CircGraphFacts VerifyProofs IsoExact ExtractModel ExtractMap ExtractRound ExtractFinish ExtractKeys ExtractFacts ExtractEx.
Import ListNotations.
Close Scope Qc_scope. Close Scope Q_scope. Close Scope R_scope. Open Scope nat_scope.

(** [denotes g n l]: the diagram has n inputs and n outputs and its matrix is that
    of the gate list l up to a non-zero factor. [hubs_ok]: a spider with a spider of
    degree one hanging on it has phase 0 or pi and only spiders as neighbours.
    [hubs_sep]: no two such spiders are connected. The result holds for every order
    of the sets and every choice of CNOTs. *)
Theorem C35_extract_circuit : forall opt g n l c g', gok g -> hubs_ok g -> hubs_sep g -> denotes g n l -> run (extract_circuit false opt false) g (Ok (c, g')) ->
  cqubits c = n /\ circ_ok c /\ exists k, k <> C0 /\ forall s x, (cden (cgates c) s x = k * cden l s x)%C.
Proof. exact extract_denotes. Qed.
Print Assumptions C35_extract_circuit.
Theorem C35_extract_up_to_perm : forall opt up g n l c g', gok g -> hubs_ok g -> hubs_sep g -> denotes g n l -> run (extract_circuit false opt up) g (Ok (c, g')) ->
  cqubits c = n /\ circ_ok c /\ exists k sg, k <> C0 /\ qperm n sg /\ (up = false -> forall q, sg q = q) /\
    forall i y, (cden (cgates c) (basis n (fun q => i (sg q))) y = k * cden l (basis n i) y)%C.
Proof. exact extract_denotes_perm. Qed.
Print Assumptions C35_extract_up_to_perm.
(** any diagram whose matrix is invertible *)
Theorem C35_extract_invertible : forall opt up g c g', gok g -> inv_map g -> hubs_ok g -> hubs_sep g -> run (extract_circuit false opt up) g (Ok (c, g')) ->
  nin g = nout g /\ cqubits c = nout g /\ Forall (gate_in (nout g)) (cgates c) /\
  exists z sg, z <> C0 /\ qperm (nout g) sg /\ (up = false -> forall q, sg q = q) /\
    forall i y, (val g i y = z * cden (cgates c) (basis (nout g) (fun q => i (sg q))) y)%C.
Proof. exact extract_code_ok. Qed.
Print Assumptions C35_extract_invertible.
(** circuit -> to_graph -> simplify -> extract_circuit *)
Theorem C35_after_full_reduce : forall so compress opt c g0 u g d g',
  is_perm_oracle so -> so (seq 0 (cqubits c)) = seq 0 (cqubits c) -> circ_ok c ->
  to_graph so false compress c = Ok g0 -> run (full_reduce AllC) g0 (Ok (u, g)) -> hubs_ok g -> hubs_sep g -> run (extract_circuit false opt false) g (Ok (d, g')) ->
  cqubits d = cqubits c /\ circ_ok d /\ exists k, k <> C0 /\ forall s x, (cden (cgates d) s x = k * cden (cgates c) s x)%C.
Proof. exact optimise_full. Qed.
Print Assumptions C35_after_full_reduce.
Theorem C35_after_clifford_simp : forall so compress opt c g0 u g d g',
  is_perm_oracle so -> so (seq 0 (cqubits c)) = seq 0 (cqubits c) -> circ_ok c ->
  to_graph so false compress c = Ok g0 -> run (clifford_simp AllC) g0 (Ok (u, g)) -> hubs_ok g -> hubs_sep g -> run (extract_circuit false opt false) g (Ok (d, g')) ->
  cqubits d = cqubits c /\ circ_ok d /\ exists k, k <> C0 /\ forall s x, (cden (cgates d) s x = k * cden (cgates c) s x)%C.
Proof. exact optimise_clifford. Qed.
Print Assumptions C35_after_clifford_simp.

(** full_reduce leaves gadgets (counted) and extraction goes through all its steps *)
Example C35_case : circ_ok exq /\ exists g0 u g d g', to_graph (fun l => l) false false exq = Ok g0 /\ run (full_reduce AllC) g0 (Ok (u, g)) /\
  hubs_ok g /\ hubs_sep g /\ length (fold_left (gadget_init g) (vertices g) []) >= 4 /\ gok g /\ denotes g 3 (cgates exq) /\ run (extract_circuit false true false) g (Ok (d, g')) /\ length (cgates d) >= 20.
Proof.
  assert (OK : circ_ok exq) by circ_tac. split; auto.
  destruct (to_graph_denotes (fun l => l) false exq (fun l => Permutation_refl l) eq_refl OK) as [g0 [E0 [Z [IO D]]]]. exists g0.
  destruct (exec_full 25 g0) as [[u g]|] eqn:E1; [|exfalso; vm_compute in E0; injection E0 as <-; vm_compute in E1; discriminate].
  assert (R := exec_full_run 25 _ _ _ E1). exists u, g.
  destruct (exec_extract true false 45 g) as [[d g']|] eqn:E2; [|exfalso; vm_compute in E0; injection E0 as <-; vm_compute in E1; injection E1 as <- <-; vm_compute in E2; discriminate].
  exists d, g'. split; auto. split; auto.
  destruct (full_reduce_correct g0 Z _ R) as [u' [g2 [Y [[Z' GL] [MK _]]]]]. injection Y as <- <-.
  assert (DG := denotes_upto _ _ _ _ D MK). assert (IO' : io_ok g) by (unfold io_ok in *; destruct MK as [-> [-> _]]; auto).
  assert (X : hubs_okb g = true /\ hubs_sepb g = true /\ length (fold_left (gadget_init g) (vertices g) []) >= 4 /\ length (cgates d) >= 20).
  { clear - E0 E1 E2. vm_compute in E0. injection E0 as <-. vm_compute in E1. injection E1 as <- <-. vm_compute in E2. injection E2 as <- <-.
    split; [vm_compute; reflexivity|]. split; [vm_compute; reflexivity|]. split; vm_compute; lia. }
  destruct X as [X1 [X2 [X3 X4]]]. split; [apply hubs_okb_ok; auto; intros; apply nbr_in; auto|]. split; [apply hubs_sepb_ok; auto; intros; apply nbr_in; auto|].
  split; auto. split; [constructor; auto|]. split; auto. split; [apply (exec_extract_run _ _ 45); auto|auto].
Qed.

(** The premise [hubs_ok] is needed: a spider of phase pi/2 hangs on an identity wire and
    carries a spider of phase 0, so that the two amount to a scalar; extract_circuit
    returns a circuit that flips the bit. *)
Theorem C35_phase_on_hub_refuted : exists g l c g', gok g /\ hubs_sep g /\ denotes g 1 l /\ run (extract_circuit false true false) g (Ok (c, g')) /\
  ~ exists k, k <> C0 /\ forall s x, (cden (cgates c) s x = k * cden l s x)%C.
Proof. exact phase_on_hub_refuted. Qed.
Print Assumptions C35_phase_on_hub_refuted.
