(** Model of Circuit.to_tensor and Circuit.to_matrix (pyzx/circuit/__init__.py
    273-278), of compare_tensors on circuits (pyzx/tensor.py 208-232) and of
    is_unitary (tensor.py 304-309).
    [so] is the iteration order of the set of qubit labels, [up] as in TensorModel. *)
From Coq Require Import ZArith QArith Qcanon List.
From Verif Require Import CNum Base GraphModel GateModel CircGraphModel GraphAlgModel TensorModel.
Import ListNotations.

(** 273-275: [self.to_graph().to_tensor(preserve_scalar)]; graph/base.py 476-478 *)
Definition c_to_tensor (so : list nat -> list nat) (up : nat -> TensorModel.tensor -> bool) (ps : bool) (c : circuit) : res TensorModel.tensor :=
  let* g := to_graph so false true c in tensorfy g ps up.
(** 276-278: [self.to_graph().to_matrix(preserve_scalar)]; graph/base.py 479-481 *)
Definition c_to_matrix (so : list nat -> list nat) (up : nat -> TensorModel.tensor -> bool) (ps : bool) (c : circuit) : res (list (list C)) :=
  let* g := to_graph so false true c in
  let* T := tensorfy g ps up in
  Ok (tensor_to_matrix T (length (ginputs g)) (length (goutputs g))).
(** tensor.py 219-222, when both arguments are circuits *)
Definition compare_circuits (so : list nat -> list nat) (up1 up2 : nat -> TensorModel.tensor -> bool) (ps : bool) (c1 c2 : circuit) : res bool :=
  let* t1 := c_to_tensor so up1 ps c1 in
  let* t2 := c_to_tensor so up2 ps c2 in
  compare_tensors t1 t2 ps.

(** generate.identity, generate.py 50-70 *)
Definition identity_step (depth : Qc) (st : graph * (list nat * list nat)) (i : nat) : res (graph * (list nat * list nat)) :=
  let '(g, (ins, outs)) := st in
  let (g, v) := add_vertex BOUNDARY (crd i) (crd 0) None g in
  let (g, w) := add_vertex BOUNDARY (crd i) depth None g in
  let* g := add_edge v w SIMPLE g in
  Ok (g, (ins ++ [v], outs ++ [w])).
Definition identity (qubits : nat) (depth : Qc) : res graph :=
  let* st := foldM (identity_step depth) (seq 0 qubits) (empty_graph, ([], [])) in
  let '(g, (ins, outs)) := st in
  Ok (set_outputs outs (set_inputs ins g)).
(** tensor.py 304-309 *)
Definition is_unitary (up1 up2 : nat -> TensorModel.tensor -> bool) (g : graph) : res bool :=
  let* adj := g_adjoint g in
  let* adj := compose adj g in
  let* t1 := tensorfy adj true up1 in
  let* id := identity (length (ginputs g)) (crd 2) in
  let* t2 := tensorfy id true up2 in
  compare_tensors t1 t2 false.
