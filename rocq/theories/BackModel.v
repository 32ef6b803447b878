(** Model of [graph_to_circuit], pyzx/circuit/graphparser.py 25-86, which is
    [Circuit.from_graph], pyzx/circuit/__init__.py 255-262.  Only definitions.

    Simplification: a gate can only be put on a qubit that is a natural number; for
    other qubit positions, where the code makes a gate with a strange label, the model
    stops with [ValueError]. *)
From Coq Require Import ZArith QArith Qcanon List Bool Arith.
From Verif Require Import CNum Base ScalarModel GraphModel GateModel GflowModel TensorModel.
Import ListNotations.

Definition qnat (q : Qc) : res nat :=
  match Qden (this q) with 1%positive => if Z.leb 0 (Qnum (this q)) then Ok (Z.to_nat (Qnum (this q))) else Err ValueError | _ => Err ValueError end.

(** 35-40: the dictionary of the rows, sorted by its keys; the vertices of a row are
    in the order of [g.vertices()] *)
Definition not_input (g : graph) (v : nat) : bool := negb (memb v (ginputs g)).
Definition row_items (g : graph) : list (Qc * list nat) :=
  map (fun r => (r, filter (has_row g r) (filter (not_input g) (vertices g))))
      (sorted qltb (nodup Qc_eq_dec (map (row g) (filter (not_input g) (vertices g))))).

(** 54-69: the gates of a spider that is not a boundary *)
Definition spider_gates (split : bool) (t : vtype) (q : nat) (p : Qc) : list gate :=
  let z := vtype_eqb t ZSP in
  if negb (qeqb p 0%Qc) && negb split then [if z then ZPhase q p else XPhase q p]
  else if z && Pos.eqb (Qden (this p)) 2 then [Sg q (Z.eqb (Qnum (this p)) 3)]
  else if z && Pos.eqb (Qden (this p)) 4 then
    (if Z.eqb (Qnum (this p)) 1 || Z.eqb (Qnum (this p)) 7 then [Tg q (Z.eqb (Qnum (this p)) 7)] else []) ++
    (if Z.eqb (Qnum (this p)) 3 || Z.eqb (Qnum (this p)) 5 then [Zg q; Tg q (Z.eqb (Qnum (this p)) 3)] else [])
  else if qeqb p 1%Qc then [if z then Zg q else NOTg q]
  else if negb (qeqb p 0%Qc) then [if z then ZPhase q p else XPhase q p]
  else [].
(** 72-85: one vertical edge; "CX" is not a key of gate_types (gates.py 1226-1266) *)
Definition side_gate (g : graph) (v : nat) (t : vtype) (q : nat) (gs : list gate) (n : nat) : res (list gate) :=
  let* t2 := of_opt KeyError (dget n (gty g)) in
  let* q2 := of_opt KeyError (dget n (gqindex g)) in
  let* k := qnat q2 in
  if vtype_eqb t t2 then
    match edge_type g v n with
    | Some HADAMARD => if vtype_eqb t ZSP then Ok (gs ++ [GCZ k q]) else Err KeyError
    | _ => Err TypeError
    end
  else
    match edge_type g v n with
    | Some SIMPLE => Ok (gs ++ [if vtype_eqb t ZSP then GCNOT q k else GCNOT k q])
    | _ => Err TypeError
    end.
(** rs[w] *)
Definition row_get (g : graph) (w : nat) : res Qc := of_opt KeyError (dget w (grindex g)).
(** 42-85: one vertex in row r *)
Definition vertex_gates (split : bool) (g : graph) (r : Qc) (gs : list gate) (v : nat) : res (list gate) :=
  let* q := of_opt KeyError (dget v (gqindex g)) in
  let* p := of_opt KeyError (dget v (gphase g)) in
  let* t := of_opt KeyError (dget v (gty g)) in
  let* nb := neighbors_r g v in
  let* prev := filterM (fun w => let* x := row_get g w in Ok (qltb x r)) nb in
  match prev with
  | [n] =>
    let* qn := of_opt KeyError (dget n (gqindex g)) in
    if negb (qeqb qn q) then Err TypeError else
    let* k := qnat q in
    let gs := gs ++ (match edge_type g n v with Some HADAMARD => [GHAD k] | _ => [] end) in
    if vtype_eqb t BOUNDARY then Ok gs else
    let* side := filterM (fun w => let* x := row_get g w in Ok (qeqb x r && Nat.ltb w v)) nb in
    foldM (side_gate g v t k) side (gs ++ spider_gates split t k p)
  | _ => Err TypeError
  end.
(** 41-85: the loops over the rows and their vertices *)
Definition graph_to_circuit (split : bool) (g : graph) : res circuit :=
  let* gs := foldM (fun gs e => foldM (vertex_gates split g (fst e)) (snd e) gs) (row_items g) [] in
  Ok (mkCirc (length (ginputs g)) gs).
