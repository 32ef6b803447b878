(** Property theorems: gadget_extract.gadgetize (C78), mbqc.measure (C79), mbqc.apply_pauli (C80). *)
From Coq Require Import Reals ZArith QArith Qcanon List Bool Arith Lia Permutation.
From Verif Require Import CNum Base ScalarModel GraphModel GraphSem GraphProofs RulesModel RuleLemmas PivotMatch InvProofs BfixProofs TotalProofs RunEx ZXFacts GadgetizeModel GadgetizeProofs MbqcModel MbqcProofs MbqcPauli MbqcEx.
Import ListNotations.
Open Scope nat_scope.

(** gadgetize on any diagram without self-loops: it does not raise, keeps the map exactly, and
    afterwards every Z spider with more than one neighbour has a multiple of pi/2 as its phase. *)
Theorem C78_gadgetize : forall g, wfg g -> noloop g ->
  exists g', gadgetize g = Ok g' /\ wfg g' /\ noloop g' /\ ginputs g' = ginputs g /\ goutputs g' = goutputs g /\ (forall b, sem g' b = sem g b) /\
    forall w, In w (vertices g') -> vty g' w = ZSP -> 1 < length (neighbors g' w) -> (qden (phase g' w) <= 2)%Z.
Proof. exact gadgetize_ok. Qed.
Print Assumptions C78_gadgetize.
(** a second run changes nothing *)
Theorem C78_gadgetize_again : forall g g', wfg g -> noloop g -> gadgetize g = Ok g' -> gadgetize g' = Ok g'.
Proof. exact gadgetize_again. Qed.
Print Assumptions C78_gadgetize_again.
(** a spider with pi/4 on a wire, joined by plain wires to an X spider and to an output: the phase moves to a leaf *)
Definition ex_gdz : graph := mkgraph [(BOUNDARY, 0%Qc); (XSP, frac 1 4); (ZSP, frac 1 4); (BOUNDARY, 0%Qc)] [(0, 1, SIMPLE); (1, 2, SIMPLE); (2, 3, HADAMARD)] [0] [3].
Example C78_ex : wfg ex_gdz /\ noloop ex_gdz /\ exists g', gadgetize ex_gdz = Ok g' /\ vertices g' = [0;1;2;3;4;5] /\ phase g' 2 = 0%Qc /\ phase g' 5 = frac 1 4 /\ neighbors g' 5 = [4] /\ neighbors g' 4 = [2; 5].
Proof.
  split; [apply zx_wf, zi_zx, zinvb_ok; vm_compute; reflexivity|]. split; [apply zinvb_ok; vm_compute; reflexivity|]. eexists. split; [vm_compute; reflexivity|].
  repeat split; try (vm_compute; reflexivity); apply Qc_is_canon; vm_compute; reflexivity.
Qed.

(** measure in the Z basis: the output is replaced by <0| + e^(i pi p) <1| *)
Theorem C79_measure_z : forall pos p g v l1 l2, wfg g -> noloop g -> here pos g v -> vty g v = BOUNDARY -> goutputs g = l1 ++ v :: l2 -> ~ In v l1 ->
  exists g', measure pos ZSP p g = Ok g' /\ wfg g' /\ noloop g' /\ ginputs g' = ginputs g /\ goutputs g' = l1 ++ l2 /\ vertices g' = vertices g /\
    forall b, sem g' b = (sem g (upd b v false) + cexp p * sem g (upd b v true))%C.
Proof. exact measure_z_ok. Qed.
Print Assumptions C79_measure_z.
(** measure in the X basis: the output is replaced by <+| + e^(i pi p) <-| *)
Theorem C79_measure_x : forall pos p g v w l1 l2, wfg g -> noloop g -> here pos g v -> vty g v = BOUNDARY -> neighbors g v = [w] -> goutputs g = l1 ++ v :: l2 -> ~ In v l1 ->
  exists g', measure pos XSP p g = Ok g' /\ wfg g' /\ noloop g' /\ ginputs g' = ginputs g /\ goutputs g' = l1 ++ l2 /\ vertices g' = vertices g /\
    forall b, sem g' b = (sq2p (-1) * ((C1 + cexp p) * sem g (upd b v false) + (C1 - cexp p) * sem g (upd b v true)))%C.
Proof. exact measure_x_ok. Qed.
Print Assumptions C79_measure_x.
(** a second measurement of the same qubit is refused *)
Theorem C79_measure_twice : forall pos t t' p p' g v, wfg g -> here pos g v -> NoDup (goutputs g) -> In v (goutputs g) ->
  exists g', measure pos t p g = Ok g' /\ measure pos t' p' g' = Err ValueError.
Proof. exact measure_twice. Qed.
Print Assumptions C79_measure_twice.
(** so is a measurement where there is no vertex *)
Theorem C79_measure_nowhere : forall pos t p g, (forall u, In u (vertices g) -> ~ lies pos g u) -> measure pos t p g = Err ValueError.
Proof. exact measure_nowhere. Qed.
Print Assumptions C79_measure_nowhere.

(** apply_pauli: Z on an output that hangs on a Z spider by a plain wire *)
Theorem C80_z_on_z : forall pos g v w, wfg g -> noloop g -> here pos g v -> vty g v = BOUNDARY -> In v (goutputs g) -> neighbors g v = [w] -> edge_type g v w = Some SIMPLE -> vty g w = ZSP ->
  exists g', apply_pauli pos ZSP 1 g = Ok g' /\ wfg g' /\ noloop g' /\ ginputs g' = ginputs g /\ goutputs g' = goutputs g /\ forall b, sem g' b = (sgn (b v) * sem g b)%C.
Proof. exact pauli_zz. Qed.
Print Assumptions C80_z_on_z.
(** X on an output that hangs on an X spider by a plain wire *)
Theorem C80_x_on_x : forall pos g v w, wfg g -> noloop g -> here pos g v -> vty g v = BOUNDARY -> In v (goutputs g) -> neighbors g v = [w] -> edge_type g v w = Some SIMPLE -> vty g w = XSP ->
  exists g', apply_pauli pos XSP 1 g = Ok g' /\ wfg g' /\ noloop g' /\ ginputs g' = ginputs g /\ goutputs g' = goutputs g /\ forall b, sem g' b = sem g (upd b v (negb (b v))).
Proof. exact pauli_xx. Qed.
Print Assumptions C80_x_on_x.
(** X on an output that hangs on a Z spider or on another boundary by a plain wire *)
Theorem C80_x_on_z : forall pos g v w, wfg g -> noloop g -> here pos g v -> vty g v = BOUNDARY -> In v (goutputs g) -> neighbors g v = [w] -> edge_type g v w = Some SIMPLE -> vty g w = ZSP \/ vty g w = BOUNDARY ->
  exists g', apply_pauli pos XSP 1 g = Ok g' /\ wfg g' /\ noloop g' /\ ginputs g' = ginputs g /\ goutputs g' = goutputs g /\ forall b, sem g' b = sem g (upd b v (negb (b v))).
Proof. exact pauli_xz. Qed.
Print Assumptions C80_x_on_z.
(** Z on an output behind an X spider with one more plain wire, to a Z spider: up to the factor e^(-i pi p) *)
Theorem C80_z_on_x : forall pos g v w w1, wfg g -> noloop g -> here pos g v -> vty g v = BOUNDARY -> In v (goutputs g) -> neighbors g v = [w] -> edge_type g v w = Some SIMPLE -> vty g w = XSP ->
  filter (fun n => negb (Nat.eqb n v)) (neighbors g w) = [w1] -> vty g w1 = ZSP -> edge_type g w w1 = Some SIMPLE ->
  exists g', apply_pauli pos ZSP 1 g = Ok g' /\ wfg g' /\ noloop g' /\ ginputs g' = ginputs g /\ goutputs g' = goutputs g /\ forall b, sem g' b = (cexp (- phase g w)%Qc * sgn (b v) * sem g b)%C.
Proof. exact pauli_zx. Qed.
Print Assumptions C80_z_on_x.
(** Z on a bare wire is refused *)
Theorem C80_bare : forall pos g v w, wfg g -> here pos g v -> In v (goutputs g) -> neighbors g v = [w] -> vty g w = BOUNDARY -> neighbors g w = [v] -> apply_pauli pos ZSP 1 g = Err ValueError.
Proof. exact pauli_bare. Qed.
Print Assumptions C80_bare.
(** phases other than 1; a place without a vertex; a measured qubit *)
Theorem C80_phase : forall pos t p g, (p = 0%Qc -> apply_pauli pos t p g = Ok g) /\ (p <> 0%Qc -> p <> 1%Qc -> apply_pauli pos t p g = Err ValueError).
Proof. exact pauli_phase. Qed.
Print Assumptions C80_phase.
Theorem C80_nowhere : forall pos t g, (forall u, In u (vertices g) -> ~ lies pos g u) -> apply_pauli pos t 1 g = Err ValueError.
Proof. exact pauli_nowhere. Qed.
Print Assumptions C80_nowhere.
Theorem C80_measured : forall pos t g v, wfg g -> here pos g v -> ~ In v (goutputs g) -> apply_pauli pos t 1 g = Err ValueError.
Proof. exact pauli_measured. Qed.
Print Assumptions C80_measured.
(** behind a Hadamard wire neither Pauli comes out right, not even up to a factor *)
Theorem C80_z_hadamard_refuted : exists pos g v w g', zinv g /\ here pos g v /\ vty g v = BOUNDARY /\ In v (goutputs g) /\ neighbors g v = [w] /\ vty g w = ZSP /\ apply_pauli pos ZSP 1 g = Ok g' /\
  forall k, exists b, sem g' b <> (k * (sgn (b v) * sem g b))%C.
Proof. exact pauli_z_had_fails. Qed.
Print Assumptions C80_z_hadamard_refuted.
Theorem C80_x_hadamard_refuted : exists pos g v w g', zinv g /\ here pos g v /\ vty g v = BOUNDARY /\ In v (goutputs g) /\ neighbors g v = [w] /\ vty g w = ZSP /\ apply_pauli pos XSP 1 g = Ok g' /\
  forall k, exists b, sem g' b <> (k * sem g (upd b v (negb (b v))))%C.
Proof. exact pauli_x_had_fails. Qed.
Print Assumptions C80_x_hadamard_refuted.

(** two linked qubits; the second output lies behind an X spider with pi/4, the bare wire 5-6 at (1,1) *)
Definition ex_mb : graph := place 6 (1, 1)%Z (place 3 (0, 1)%Z (place 2 (0, 0)%Z
  (mkgraph [(ZSP, 0%Qc); (ZSP, frac 1 4); (BOUNDARY, 0%Qc); (BOUNDARY, 0%Qc); (XSP, frac 1 4); (BOUNDARY, 0%Qc); (BOUNDARY, 0%Qc)]
    [(0, 1, HADAMARD); (0, 2, SIMPLE); (1, 4, SIMPLE); (3, 4, SIMPLE); (5, 6, SIMPLE)] [5] [2; 3; 6]))).
Example C79_ex : zinv ex_mb /\ here (0, 0)%Z ex_mb 2 /\ vty ex_mb 2 = BOUNDARY /\ neighbors ex_mb 2 = [0] /\ goutputs ex_mb = [] ++ 2 :: [3; 6] /\ NoDup (goutputs ex_mb) /\
  (exists g', measure (0, 0)%Z XSP (frac 1 4) ex_mb = Ok g' /\ goutputs g' = [3; 6] /\ vty g' 2 = XSP) /\ measure (5, 5)%Z ZSP 0 ex_mb = Err ValueError.
Proof.
  split; [apply zinvb_ok; vm_compute; reflexivity|]. split; [apply hereb_ok; vm_compute; reflexivity|]. split; [reflexivity|]. split; [reflexivity|]. split; [reflexivity|].
  split; [repeat constructor; simpl; intuition discriminate|]. split; [|vm_compute; reflexivity]. eexists. split; [vm_compute; reflexivity|]. split; reflexivity.
Qed.
Example C80_ex : here (0, 0)%Z ex_mb 2 /\ edge_type ex_mb 2 0 = Some SIMPLE /\ vty ex_mb 0 = ZSP /\
  here (0, 1)%Z ex_mb 3 /\ neighbors ex_mb 3 = [4] /\ edge_type ex_mb 3 4 = Some SIMPLE /\ vty ex_mb 4 = XSP /\ filter (fun n => negb (Nat.eqb n 3)) (neighbors ex_mb 4) = [1] /\ vty ex_mb 1 = ZSP /\ edge_type ex_mb 4 1 = Some SIMPLE /\
  here (1, 1)%Z ex_mb 6 /\ neighbors ex_mb 6 = [5] /\ vty ex_mb 5 = BOUNDARY /\ neighbors ex_mb 5 = [6] /\
  exists g', apply_pauli (0, 0)%Z XSP 1 ex_mb = Ok g' /\ neighbors g' 2 = [7] /\ neighbors g' 7 = [0; 2].
Proof.
  repeat (split; [first [apply hereb_ok; vm_compute; reflexivity|reflexivity]|]). eexists. split; [vm_compute; reflexivity|]. split; reflexivity.
Qed.
