(** Model of pyzx/basicrules.py: the interactive rewrite rules, which take a
    vertex or a pair of vertices, apply the rule and return True, or return
    False.  The graphs have no Z-boxes, W vertices or ground symbols, so
    fuse_w (lines 222-239) and the Z-box branches of fuse (199-204) and of
    check_remove_id (244-245) are left out. *)
From Coq Require Import ZArith QArith Qcanon List Bool Arith.
From Verif Require Import Base ScalarModel GraphModel RulesModel SimpModel.
Import ListNotations.
Open Scope nat_scope.

(** basicrules.py 65-69 *)
Definition check_color_change (v : nat) (g : graph) : res bool :=
  let* t := vtype_r g v in Ok (vertex_is_zx t).
(** basicrules.py 71-79 *)
Definition color_change (v : nat) (g : graph) : res (bool * graph) :=
  let* t := vtype_r g v in
  if negb (vertex_is_zx t) then Ok (false, g) else
  let g := set_type v (toggle_vertex t) g in
  let* g := toggle_edges (incident_edges g v) g in
  Ok (true, g).
(** basicrules.py 56-63, the loop body *)
Definition color_step (g : graph) (v : nat) : res graph :=
  let* t := vtype_r g v in
  if vtype_eqb t BOUNDARY then
    let* ns := neighbors_r g v in
    if negb (Nat.eqb (length ns) 1) then Err ValueError
    else toggle_edges (incident_edges g v) g
  else
    let* b := check_color_change v g in
    if b then let* r := color_change v g in Ok (snd r) else Ok g.
(** basicrules.py 54-63 *)
Definition color_change_diagram (g : graph) : res graph := foldM color_step (vertices g) g.

(** basicrules.py 81-89 *)
Definition check_strong_comp (v1 v2 : nat) (g : graph) : res bool :=
  let* t1 := vtype_r g v1 in
  let* t2 := vtype_r g v2 in
  Ok (((vtype_eqb t1 XSP && vtype_eqb t2 ZSP) || (vtype_eqb t1 ZSP && vtype_eqb t2 XSP))
      && is_pauli (phase g v1) && is_pauli (phase g v2)
      && match edge_type g v1 v2 with Some SIMPLE => true | _ => false end).
(** basicrules.py 99-106: a new vertex of the kind of b on the wire from a to
    its neighbour vn *)
Definition sc_leg (a b : nat) (st : graph * list nat) (vn : nat) : res (graph * list nat) :=
  let (g, nhd) := st in
  if Nat.eqb vn b then Ok st else
  let q := (frac 2 5 * qubit g vn + frac 3 5 * qubit g a)%Qc in
  let r := (frac 2 5 * row g vn + frac 3 5 * row g a)%Qc in
  let* t := vtype_r g b in
  let (g, newv) := add_vertex t q r None g in
  let* et := of_opt KeyError (edge_type g a vn) in
  let* g := add_edge newv vn et g in
  let g := set_phase newv (phase g b) g in
  Ok (g, nhd ++ [newv]).
(** basicrules.py 91-119 *)
Definition strong_comp (v1 v2 : nat) (g : graph) : res (bool * graph) :=
  let* ok := check_strong_comp v1 v2 g in
  if negb ok then Ok (false, g) else
  let* ns := neighbors_r g v1 in
  let* (g, n1) := foldM (sc_leg v1 v2) ns (g, []) in
  let* ns := neighbors_r g v2 in
  let* (g, n2) := foldM (sc_leg v2 v1) ns (g, []) in
  let* g := foldM (fun g (e : nat * nat) => add_edge (fst e) (snd e) SIMPLE g) (list_prod n1 n2) g in
  let g := on_scalar (s_add_power ((Z.of_nat (length n1) - 1) * (Z.of_nat (length n2) - 1))) g in
  let g := if qeqb (phase g v1) 1%Qc && qeqb (phase g v2) 1%Qc then on_scalar (s_add_phase 1%Qc) g else g in
  let* g := remove_vertices [v1] g in
  let* g := remove_vertices [v2] g in
  Ok (true, g).

(** basicrules.py 121-130 *)
Definition check_copy_X (v : nat) (g : graph) : res bool :=
  let* ns := neighbors_r g v in
  let* t := vtype_r g v in
  if negb (Nat.eqb (length ns) 1 && vtype_eqb t XSP && is_pauli (phase g v)) then Ok false else
  match ns with
  | [] => Err StopIteration
  | nv :: _ =>
    let* tn := vtype_r g nv in
    Ok (vtype_eqb tn ZSP && match edge_type g v nv with Some SIMPLE => true | _ => false end)
  end.
(** basicrules.py 132-137 *)
Definition copy_X (v : nat) (g : graph) : res (bool * graph) :=
  let* ok := check_copy_X v g in
  if negb ok then Ok (false, g) else
  let* ns := neighbors_r g v in
  match ns with
  | [] => Err StopIteration
  | nv :: _ => let* r := strong_comp v nv g in Ok (true, snd r)
  end.
(** basicrules.py 173-177; 179-183 *)
Definition check_copy_Z (v : nat) (g : graph) : res (bool * graph) :=
  let* g := color_change_diagram g in
  let* b := check_copy_X v g in
  let* g := color_change_diagram g in
  Ok (b, g).
Definition copy_Z (v : nat) (g : graph) : res (bool * graph) :=
  let* g := color_change_diagram g in
  let* (b, g) := copy_X v g in
  let* g := color_change_diagram g in
  Ok (b, g).

(** basicrules.py 139-140 *)
Definition check_pi_commute_Z (v : nat) (g : graph) : res bool :=
  let* t := vtype_r g v in Ok (vtype_eqb t ZSP).
(** basicrules.py 146-151: the loop body for a neighbour that takes up the pi.
    For the other neighbours (lines 152-158) the code changes the dictionary
    over which it iterates ([g.neighbors(v)] is a view of it), and what follows
    depends on the interpreter; the model stops there. *)
Definition pi_step (v : nat) (g : graph) (w : nat) : res graph :=
  let* et := of_opt KeyError (edge_type g v w) in
  let* t := vtype_r g w in
  if (vtype_eqb t ZSP && etype_eqb et HADAMARD) || (vtype_eqb t XSP && etype_eqb et SIMPLE)
  then Ok (add_to_phase w 1%Qc g)
  else Err NotImplementedError.
(** basicrules.py 142-159 *)
Definition pi_commute_Z (v : nat) (g : graph) : res (bool * graph) :=
  let* ok := check_pi_commute_Z v g in
  if negb ok then Ok (false, g) else
  let g := set_phase v (- phase g v)%Qc g in
  let* ns := neighbors_r g v in
  let* g := foldM (pi_step v) ns g in
  Ok (true, g).
(** basicrules.py 167-171 *)
Definition pi_commute_X (v : nat) (g : graph) : res (bool * graph) :=
  let* g := color_change_diagram g in
  let* (b, g) := pi_commute_Z v g in
  let* g := color_change_diagram g in
  Ok (b, g).

(** basicrules.py 185-193 *)
Definition check_fuse (v1 v2 : nat) (g : graph) : res bool :=
  let* t1 := vtype_r g v1 in
  if negb (connected g v1 v2) then Ok false else
  let* t2 := vtype_r g v2 in
  Ok (((vtype_eqb t1 XSP && vtype_eqb t2 XSP) || (vertex_is_z_like t1 && vertex_is_z_like t2))
      && match edge_type g v1 v2 with Some SIMPLE => true | _ => false end).
(** basicrules.py 207-218, the loop body *)
Definition fuse_step (v1 v2 : nat) (g : graph) (e : nat * nat) : res graph :=
  let (source, target) := e in
  let other := if negb (Nat.eqb source v2) then source else if negb (Nat.eqb target v2) then target else v1 in
  let* et := of_opt KeyError (edge_type g source target) in
  if Nat.eqb other v1 && etype_eqb et SIMPLE then Ok g
  else add_edge v1 other et g.
(** basicrules.py 195-220 *)
Definition fuse (v1 v2 : nat) (g : graph) : res (bool * graph) :=
  let* ok := check_fuse v1 v2 g in
  if negb ok then Ok (false, g) else
  let g := add_to_phase v1 (phase g v2) g in
  let* g := foldM (fuse_step v1 v2) (incident_edges g v2) g in
  let* g := remove_vertices [v2] g in
  Ok (true, g).

(** basicrules.py 241-248 *)
Definition check_remove_id (v : nat) (g : graph) : res bool :=
  let* ns := neighbors_r g v in
  Ok (Nat.eqb (length ns) 2 && qeqb (phase g v) 0%Qc).
(** basicrules.py 250-260 *)
Definition remove_id (v : nat) (g : graph) : res (bool * graph) :=
  let* ok := check_remove_id v g in
  if negb ok then Ok (false, g) else
  let* ns := neighbors_r g v in
  match ns with
  | [v1; v2] =>
    let* e1 := of_opt KeyError (edge_type g v v1) in
    let* e2 := of_opt KeyError (edge_type g v v2) in
    let* g := add_edge v1 v2 (if etype_eqb e1 e2 then SIMPLE else HADAMARD) g in
    let* g := remove_vertices [v] g in
    Ok (true, g)
  | _ => Err ValueError
  end.
