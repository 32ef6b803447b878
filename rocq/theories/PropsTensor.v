(** Property theorems about tensorfy (C57), the functions on tensors (C58) and
    Circuit.to_tensor (C59). *)
From Coq Require Import Reals ZArith QArith Qcanon List Bool Arith.
From Verif Require Import CNum Base ScalarModel GraphModel GraphSem TotalProofs GraphAlgProofs TensorModel TensorNp TensorStep TensorProofs TensorOps TensorUse GateModel CircSpec GateDecomp CircGraphFacts CircTensorModel CircTensor.
Import ListNotations.
Open Scope nat_scope.

(** ** C57 *)
(** For every diagram of Z and X spiders, tensorfy returns an array with one axis of size 2 for each
    output and then for each input, whose entries are the values of the diagram. *)
Theorem C57_correct : forall g up, zinv g -> io_ok g -> no_iso_x g -> layout g ->
  exists T, tensorfy g true up = Ok T /\ tshape T = repeat 2 (length (goutputs g) + length (ginputs g)) /\ forall i y, tent T (at_bits g y i) = val g i y.
Proof. exact tensorfy_val. Qed.
Print Assumptions C57_correct.
(** With preserve_scalar=False, the same up to the scalar and a positive factor. *)
Theorem C57_unscaled : forall g up, zinv g -> io_ok g -> no_iso_x g -> layout g ->
  exists T q, tensorfy g false up = Ok T /\ tshape T = repeat 2 (length (goutputs g) + length (ginputs g)) /\ (0 < q)%R /\
    forall i y, (to_number (gscalar g) * tent T (at_bits g y i))%C = (RtoC q * val g i y)%C.
Proof. exact tensorfy_unscaled. Qed.
Print Assumptions C57_unscaled.
(** The positions of the vertices, and so the order of the contractions, do not matter. *)
Theorem C57_positions : forall g g' up up' T T', zinv g -> io_ok g -> no_iso_x g -> layout g -> zinv g' -> io_ok g' -> no_iso_x g' -> layout g' ->
  gadj g' = gadj g -> gty g' = gty g -> gphase g' = gphase g -> gscalar g' = gscalar g -> ginputs g' = ginputs g -> goutputs g' = goutputs g ->
  tensorfy g true up = Ok T -> tensorfy g' true up' = Ok T' -> teq (length (goutputs g) + length (ginputs g)) T T'.
Proof. exact tensorfy_rows. Qed.
Print Assumptions C57_positions.
(** tensor_to_matrix of the tensor is the matrix of the diagram, rows and columns numbered with the first qubit most significant. *)
Theorem C57_matrix : forall g up T bi bo, zinv g -> io_ok g -> no_iso_x g -> layout g -> tensorfy g true up = Ok T -> length bi = length (ginputs g) -> length bo = length (goutputs g) ->
  let M := tensor_to_matrix T (length (ginputs g)) (length (goutputs g)) in
  length M = 2 ^ length (goutputs g) /\ (forall r, In r M -> length r = 2 ^ length (ginputs g)) /\
  nth (bval bi) (nth (bval bo) M []) C0 = val g (fun j => nth j bi false) (fun j => nth j bo false).
Proof. exact matrix_val. Qed.
Print Assumptions C57_matrix.
(** Diagrams on which tensorfy raises: an isolated X spider; an input to the right of its neighbour. *)
Theorem C57_isolated_x_refuted : exists g, zinv g /\ io_ok g /\ layout g /\ forall up, tensorfy g true up = Err ValueError.
Proof. exact iso_x_raises. Qed.
Print Assumptions C57_isolated_x_refuted.
Theorem C57_late_input_refuted : exists g, zinv g /\ io_ok g /\ no_iso_x g /\ forall up, tensorfy g true up = Err ValueError.
Proof. exact late_raises. Qed.
Print Assumptions C57_late_input_refuted.
(** A CNOT with a T gate and a Hadamard, in two layouts. *)
Example C57_case : forall rs, rs = rows1 \/ rs = rows2 -> zinv (ex_tensor rs) /\ io_ok (ex_tensor rs) /\ no_iso_x (ex_tensor rs) /\ layout (ex_tensor rs).
Proof. exact ex_tensor_ok. Qed.

(** ** C58 *)
(** compose_tensors is the product of the matrices. *)
Theorem C58_compose : forall t1 t2 q, tshape t1 = repeat 2 (q + q) -> tshape t2 = repeat 2 (q + q) -> exists t', compose_tensors t1 t2 = Ok t' /\ tshape t' = repeat 2 (q + q) /\
  forall o i, length o = q -> length i = q -> tent t' (o ++ i) = bitsum q (fun m => (tent t2 (o ++ m) * tent t1 (m ++ i))%C).
Proof. exact compose_ok. Qed.
Print Assumptions C58_compose.
(** adjoint is the conjugate transpose. *)
Theorem C58_adjoint : forall t q, tshape t = repeat 2 (q + q) -> exists t', t_adjoint t = Ok t' /\ tshape t' = repeat 2 (q + q) /\
  forall o i, length o = q -> length i = q -> tent t' (o ++ i) = Cconj (tent t (i ++ o)).
Proof. exact adjoint_ok. Qed.
Print Assumptions C58_adjoint.
(** compare_tensors on the tensors of two diagrams with as many inputs and outputs decides whether their maps
    are equal, or proportional; the latter check raises only if the first map is zero. *)
Theorem C58_compare : forall g1 g2 up1 up2 T1 T2, zinv g1 -> io_ok g1 -> no_iso_x g1 -> layout g1 -> zinv g2 -> io_ok g2 -> no_iso_x g2 -> layout g2 ->
  length (ginputs g1) = length (ginputs g2) -> length (goutputs g1) = length (goutputs g2) -> tensorfy g1 true up1 = Ok T1 -> tensorfy g2 true up2 = Ok T2 ->
  (exists b, compare_tensors T1 T2 true = Ok b /\ (b = true <-> forall i y, val g1 i y = val g2 i y)) /\
  (((forall i y, val g1 i y = C0) /\ compare_tensors T1 T2 false = Err ValueError) \/
   exists b, compare_tensors T1 T2 false = Ok b /\ (b = true <-> exists c, c <> C0 /\ forall i y, val g1 i y = (c * val g2 i y)%C)).
Proof. exact compare_diagrams. Qed.
Print Assumptions C58_compare.
(** find_scalar_correction returns the factor between proportional tensors. *)
Theorem C58_find_scalar : forall t1 t2 n c, rank t1 = n -> rank t2 = n -> (forall ix, length ix = n -> tent t1 ix = (c * tent t2 ix)%C) ->
  exists z, find_scalar_correction t1 t2 = Ok z /\ (forall ix, length ix = n -> tent t1 ix = (z * tent t2 ix)%C) /\ (~ tzero n t2 -> z = c).
Proof. exact find_ok. Qed.
Print Assumptions C58_find_scalar.
(** Diagrams with different numbers of outputs can compare equal, because the arrays are broadcast. *)
Theorem C58_broadcast_refuted : exists g1 g2, zinv g1 /\ io_ok g1 /\ no_iso_x g1 /\ layout g1 /\ zinv g2 /\ io_ok g2 /\ no_iso_x g2 /\ layout g2 /\ length (goutputs g1) <> length (goutputs g2) /\
  forall up1 up2 T1 T2, tensorfy g1 true up1 = Ok T1 -> tensorfy g2 true up2 = Ok T2 -> compare_tensors T1 T2 true = Ok true.
Proof. exact broadcast_equal. Qed.
Print Assumptions C58_broadcast_refuted.
(** is_unitary answers True for a diagram with no input and one output. *)
Theorem C58_unitary_refuted : exists g, zinv g /\ io_ok g /\ no_iso_x g /\ layout g /\ length (ginputs g) <> length (goutputs g) /\ forall up1 up2, is_unitary up1 up2 g = Ok true.
Proof. exact unitary_state. Qed.
Print Assumptions C58_unitary_refuted.
(** The hypotheses of C58_compare for two layouts of the same diagram. *)
Example C58_case : length (ginputs (ex_tensor rows1)) = length (ginputs (ex_tensor rows2)) /\ length (goutputs (ex_tensor rows1)) = 2 /\
  exists T1 T2, tensorfy (ex_tensor rows1) true (fun _ _ => false) = Ok T1 /\ tensorfy (ex_tensor rows2) true (fun _ _ => false) = Ok T2 /\ tshape T1 = [2; 2; 2; 2] /\ tshape T2 = [2; 2; 2; 2].
Proof.
  do 2 (split; [reflexivity|]). destruct (ex_tensor_ok rows1 (or_introl eq_refl)) as [A [B [C D]]], (ex_tensor_ok rows2 (or_intror eq_refl)) as [A' [B' [C' D']]].
  destruct (tensorfy_val _ (fun _ _ => false) A B C D) as [T1 [E1 [S1 _]]], (tensorfy_val _ (fun _ _ => false) A' B' C' D') as [T2 [E2 [S2 _]]]. exists T1, T2. do 2 (split; [auto|]). split; auto.
Qed.

(** ** C59 *)
(** to_tensor of a circuit does not raise; its entries are the entries of the circuit's
    unitary, up to a phase that is 1 when no gate has to be decomposed. *)
Theorem C59_tensor : forall so up c, is_perm_oracle so -> circ_ok c -> exists T z, c_to_tensor so up true c = Ok T /\ unitc z /\ (Forall basic (cgates c) -> z = C1) /\
  tshape T = repeat 2 (cqubits c + cqubits c) /\
  forall i y, tent T (map (fun j => y (nth j (so (seq 0 (cqubits c))) 0)) (seq 0 (cqubits c)) ++ map i (seq 0 (cqubits c))) = (z * cden (cgates c) (basis (cqubits c) i) y)%C.
Proof. exact c_tensor_ok. Qed.
Print Assumptions C59_tensor.
(** The same for to_matrix: the column is the number written by the input bits, the row
    the number written by the output bits. *)
Theorem C59_matrix : forall so up c, is_perm_oracle so -> circ_ok c -> exists M z, c_to_matrix so up true c = Ok M /\ unitc z /\ (Forall basic (cgates c) -> z = C1) /\
  length M = 2 ^ cqubits c /\ (forall r, In r M -> length r = 2 ^ cqubits c) /\
  forall i y, nth (bval (map i (seq 0 (cqubits c)))) (nth (bval (map (fun j => y (nth j (so (seq 0 (cqubits c))) 0)) (seq 0 (cqubits c)))) M []) C0 =
    (z * cden (cgates c) (basis (cqubits c) i) y)%C.
Proof. exact c_matrix_ok. Qed.
Print Assumptions C59_matrix.
(** compare_tensors on two circuits never raises and answers True exactly when the unitaries
    are proportional. *)
Theorem C59_compare : forall so up1 up2 c1 c2, is_perm_oracle so -> circ_ok c1 -> circ_ok c2 -> cqubits c1 = cqubits c2 ->
  exists b, compare_circuits so up1 up2 false c1 c2 = Ok b /\
    (b = true <-> exists z, z <> C0 /\ forall i y, cden (cgates c1) (basis (cqubits c1) i) y = (z * cden (cgates c2) (basis (cqubits c2) i) y)%C).
Proof. exact c_compare_ok. Qed.
Print Assumptions C59_compare.
Theorem C59_compare_scalar : forall so up1 up2 c1 c2, is_perm_oracle so -> circ_ok c1 -> circ_ok c2 -> cqubits c1 = cqubits c2 ->
  exists b z1 z2, compare_circuits so up1 up2 true c1 c2 = Ok b /\ unitc z1 /\ unitc z2 /\ (Forall basic (cgates c1) -> z1 = C1) /\ (Forall basic (cgates c2) -> z2 = C1) /\
    (b = true <-> forall i y, (z1 * cden (cgates c1) (basis (cqubits c1) i) y = z2 * cden (cgates c2) (basis (cqubits c2) i) y)%C).
Proof. exact c_compare_scalar. Qed.
Print Assumptions C59_compare_scalar.
(** A circuit with a Hadamard, a CNOT, a T gate, a SWAP and a controlled S; sets in ascending order *)
Example C59_case : is_perm_oracle (fun l => l) /\ circ_ok ex_circ /\ exists T, c_to_tensor (fun l => l) (fun _ _ => false) true ex_circ = Ok T /\ tshape T = [2; 2; 2; 2].
Proof.
  assert (P : is_perm_oracle (fun l => l)) by (intros l; apply Permutation.Permutation_refl). split; auto. split; [exact ex_circ_ok|].
  destruct (c_tensor_ok (fun l => l) (fun _ _ => false) ex_circ P ex_circ_ok) as (T & z & E & _ & _ & S & _). exists T. auto.
Qed.
