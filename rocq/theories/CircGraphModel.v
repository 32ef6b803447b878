(** Model of circuit_to_graph (pyzx/circuit/graphparser.py) with the [to_graph]
    methods of pyzx/circuit/gates.py.  Only definitions.

    Simplifications: circuits without classical bits, so the mapper [c_mapper]
    stays empty and its [max_row] is 0; no InitAncilla/PostSelect/DiscardBit/
    Measurement gates; the backend is GraphS ([ground] is always False). *)
From Coq Require Import ZArith QArith Qcanon List Bool Arith.
From Verif Require Import CNum Base ScalarModel GraphModel GateModel.
Import ListNotations.

(** TargetMapper, gates.py 33-45: three dicts keyed by labels *)
Record mapper := mkM { mqubits : dict nat; mrows : dict nat; mprev : dict nat }.
Definition mapper_init := mkM [] [] [].
(** 53-57 to_qubit, 65-69 next_row, 103-107 prev_vertex *)
Definition to_qubit (m : mapper) (l : nat) : res nat := of_opt KeyError (dget l (mqubits m)).
Definition next_row (m : mapper) (l : nat) : res nat := of_opt KeyError (dget l (mrows m)).
Definition prev_vertex (m : mapper) (l : nat) : res nat := of_opt KeyError (dget l (mprev m)).
(** 59-63 set_qubit, 71-75 set_next_row, 109-113 set_prev_vertex *)
Definition m_set_qubit l q m := mkM (dset l q (mqubits m)) (mrows m) (mprev m).
Definition set_next_row l r m := mkM (mqubits m) (dset l r (mrows m)) (mprev m).
Definition set_prev_vertex l v m := mkM (mqubits m) (mrows m) (dset l v (mprev m)).
(** 77-81 advance_next_row *)
Definition advance_next_row l m : res mapper := let* r := next_row m l in Ok (set_next_row l (r + 1)%nat m).
(** 83-88 shift_all_rows, 90-95 set_all_rows *)
Definition shift_all_rows n m := mkM (mqubits m) (map (fun kr : nat * nat => (fst kr, snd kr + n)%nat) (mrows m)) (mprev m).
Definition set_all_rows n m := mkM (mqubits m) (map (fun kr : nat * nat => (fst kr, n)) (mrows m)) (mprev m).
(** 97-101 max_row *)
Definition max_row m : nat := list_max (map snd (mrows m)).
(** 47-51 labels: the keys in the iteration order [so] of the set *)
Definition labels (so : list nat -> list nat) m : list nat := so (dkeys (mqubits m)).

Definition crd (n : nat) : Qc := Qcz (Z.of_nat n).
Definition gm := (graph * mapper)%type.

(** graph_add_node, 293-304 *)
Definition graph_add_node (t : vtype) (l r : nat) (p : Qc) (et : etype) (s : gm) : res (gm * nat) :=
  let (g, m) := s in
  let* q := to_qubit m l in
  let (g, v) := add_vertex t (crd q) (crd r) (Some p) g in
  let* u := prev_vertex m l in
  let* g := add_edge u v et g in
  Ok ((g, set_prev_vertex l v m), v).

(** ZPhase.to_graph 315-317, XPhase.to_graph 400-402 *)
Definition phase_to_graph (ty : vtype) (t : nat) (p : Qc) (s : gm) : res gm :=
  let* r := next_row (snd s) t in
  let* sv := graph_add_node ty t r p SIMPLE s in
  let '((g, m), _) := sv in
  let* m := advance_next_row t m in Ok (g, m).
(** HAD.to_graph 541-545 *)
Definition had_to_graph (t : nat) (s : gm) : res gm :=
  let (g, m) := s in
  let* q := to_qubit m t in
  let* r := next_row m t in
  let (g, v) := add_vertex ZSP (crd q) (crd r) (Some 0%Qc) g in
  let* u := prev_vertex m t in
  let* g := add_edge u v HADAMARD g in
  let* m := advance_next_row t (set_prev_vertex t v m) in Ok (g, m).
(** CNOT.to_graph 558-565, CZ.to_graph 600-607, XCX.to_graph 622-629: two nodes
    joined by an edge *)
Definition two_to_graph (tyt tyc : vtype) (et : etype) (c t : nat) (s : gm) : res gm :=
  let* rt := next_row (snd s) t in
  let* rc := next_row (snd s) c in
  let r := Nat.max rt rc in
  let* st := graph_add_node tyt t r 0%Qc SIMPLE s in
  let* sc := graph_add_node tyc c r 0%Qc SIMPLE (fst st) in
  let (g, m) := fst sc in
  let* g := add_edge (snd st) (snd sc) et g in
  let m := set_next_row c (r + 1)%nat (set_next_row t (r + 1)%nat m) in
  Ok (on_scalar (s_add_power 1) g, m).
(** FSim.to_graph 857-884 *)
Definition fsim_to_graph (c t : nat) (phi : Qc) (s : gm) : res gm :=
  let* rt := next_row (snd s) t in
  let* rc := next_row (snd s) c in
  let r := Nat.max rt rc in
  let qmin := (crd (Nat.min t c) + frac 1 2)%Qc in
  let* sc0 := graph_add_node ZSP c r 0%Qc SIMPLE s in
  let* st0 := graph_add_node ZSP t r 0%Qc SIMPLE (fst sc0) in
  let '((g, m), t0) := st0 in
  let c0 := snd sc0 in
  let (g, cv) := add_vertex ZSP (crd c) (crd (r + 1)) (Some 0%Qc) g in
  let (g, tv) := add_vertex ZSP (crd t) (crd (r + 1)) (Some 0%Qc) g in
  let* g := add_edge c0 tv SIMPLE g in
  let* g := add_edge t0 cv SIMPLE g in
  let m := set_prev_vertex t tv (set_prev_vertex c cv m) in
  let (g, pg0) := add_vertex ZSP qmin (crd (r + 2)) (Some 0%Qc) g in
  let (g, pg1) := add_vertex ZSP qmin (crd (r + 3)) (Some 0%Qc) g in
  let g := set_phase cv (frac (-1) 2 * phi)%Qc g in
  let g := set_phase tv (frac (-1) 2 * phi)%Qc g in
  let g := set_phase pg1 (frac 1 2 * phi - frac 1 2)%Qc g in
  let* g := add_edge cv pg0 HADAMARD g in
  let* g := add_edge tv pg0 HADAMARD g in
  let* g := add_edge pg0 pg1 HADAMARD g in
  Ok (on_scalar (s_add_power 1) g, shift_all_rows 4 m).
(** CCZ.to_graph 976-992: an H-box joined to three Z nodes *)
Definition ccz_to_graph (c1 c2 t : nat) (s : gm) : res gm :=
  let* rt := next_row (snd s) t in
  let* r1 := next_row (snd s) c1 in
  let* r2 := next_row (snd s) c2 in
  let r := Nat.max rt (Nat.max r1 r2) in
  let qmin := (crd (Nat.min t (Nat.min c1 c2)) + frac 1 2)%Qc in
  let* st := graph_add_node ZSP t r 0%Qc SIMPLE s in
  let* s1 := graph_add_node ZSP c1 r 0%Qc SIMPLE (fst st) in
  let* s2 := graph_add_node ZSP c2 r 0%Qc SIMPLE (fst s1) in
  let (g, m) := fst s2 in
  let (g, h) := add_vertex HBOX qmin (crd r + frac 1 2)%Qc None g in
  let* g := add_edge (snd st) h SIMPLE g in
  let* g := add_edge (snd s1) h SIMPLE g in
  let* g := add_edge (snd s2) h SIMPLE g in
  Ok (g, set_next_row c2 (r + 1)%nat (set_next_row c1 (r + 1)%nat (set_next_row t (r + 1)%nat m))).

(** the classes whose [to_graph] does not go through [to_basic_gates] *)
Definition prim_to_graph (g : gate) (s : gm) : res gm :=
  match g with
  | GZ _ t p => phase_to_graph ZSP t p s
  | GX _ t p => phase_to_graph XSP t p s
  | GHAD t => had_to_graph t s
  | GCNOT c t => two_to_graph XSP ZSP SIMPLE c t s
  | GCZ c t => two_to_graph ZSP ZSP HADAMARD c t s
  | GXCX c t => two_to_graph XSP XSP HADAMARD c t s
  | GFSim c t _ phi => fsim_to_graph c t phi s
  | GCCZ c1 c2 t => ccz_to_graph c1 c2 t s
  (* Tofolli 1021-1025 *)
  | GTof c1 c2 t => let* s := had_to_graph t s in let* s := ccz_to_graph c1 c2 t s in had_to_graph t s
  | _ => Err NotImplementedError
  end.
(** Gate.to_graph 283-291 and the overriding methods: all other classes do
    [for gate in self.to_basic_gates(): gate.to_graph(...)] (466-468, 492-494, 520-522,
    644-646, 664-666, 683-685, 709-711, 731-733, 770-772, 804-806, 1045-1047, 1064-1066,
    1086-1088, 1111-1113, 1135-1137); the basic gates are all of the classes above *)
Definition gate_to_graph (g : gate) (s : gm) : res gm :=
  match g with
  | GZ _ _ _ | GX _ _ _ | GHAD _ | GCNOT _ _ | GCZ _ _ | GXCX _ _ | GFSim _ _ _ _ | GCCZ _ _ _ | GTof _ _ _ => prim_to_graph g s
  | _ => let* bs := to_basic_gates g in foldM (fun s b => prim_to_graph b s) bs s
  end.

(** circuit_to_graph, graphparser.py 89-156.  Inputs: 100-105 *)
Definition add_input (si : gm * list nat) (i : nat) : gm * list nat :=
  let '((g, m), ins) := si in
  let (g, v) := add_vertex BOUNDARY (crd i) (crd 0) (Some 0%Qc) g in
  ((g, m_set_qubit i i (set_next_row i 1 (set_prev_vertex i v m))), ins ++ [v]).
(** 112-142, a gate that is not InitAncilla or PostSelect *)
Definition level_rows (compress : bool) (s : gm) : gm :=
  if compress then s else (fst s, set_all_rows (max_row (snd s)) (snd s)).
Definition add_one_gate (compress : bool) (s : gm) (g : gate) : res gm :=
  let* s := gate_to_graph g (level_rows compress s) in Ok (level_rows compress s).
(** 144-151, one output *)
Definition add_output (r : nat) (m : mapper) (so : graph * list nat) (l : nat) : res (graph * list nat) :=
  let (g, outs) := so in
  let* o := to_qubit m l in
  let (g, v) := add_vertex BOUNDARY (crd o) (crd r) (Some 0%Qc) g in
  let* u := prev_vertex m l in
  let* g := add_edge u v SIMPLE g in
  Ok (g, outs ++ [v]).
Definition circuit_to_graph (so : list nat -> list nat) (compress : bool) (c : circuit) : res graph :=
  let (s, ins) := fold_left add_input (seq 0 (cqubits c)) ((empty_graph, mapper_init), []) in
  let* s := foldM (add_one_gate compress) (cgates c) s in
  let (g, m) := s in
  let* go := foldM (add_output (max_row m) m) (labels so m) (g, []) in
  Ok (set_outputs (snd go) (set_inputs ins (fst go))).
(** Circuit.to_graph, circuit/__init__.py 264-271 *)
Definition to_graph (so : list nat -> list nat) (zh compress : bool) (c : circuit) : res graph :=
  let* c := if zh then Ok c else c_basic c in circuit_to_graph so compress c.
