(** Model of the methods of pyzx/graph/base.py (class BaseGraph) that build one
    diagram from others: copy, adjoint, compose, tensor, merge,
    subgraph_from_vertices, and of apply_state / apply_effect.  Only definitions.

    Simplifications besides those of GraphModel.v: both graphs use the GraphS
    backend; a graph object and its copy never share mutable state, so an
    operation that reads [other] while changing [self] takes two graphs. *)
From Coq Require Import ZArith QArith Qcanon List Bool Arith Ascii.
From Verif Require Import CNum Base ScalarModel GraphModel GateModel.
Import ListNotations.

(** Python's builtin max/min of a non-empty sequence and its default *)
Definition qmax (a b : Qc) : Qc := if Qlt_le_dec a b then b else a.
Definition qmin (a b : Qc) : Qc := if Qlt_le_dec b a then b else a.
Definition max_default (d : Qc) (l : list Qc) : Qc := match l with [] => d | a :: l => fold_left qmax l a end.
Definition min_default (d : Qc) (l : list Qc) : Qc := match l with [] => d | a :: l => fold_left qmin l a end.

(** graph_s.py 71-74, depth *)
Definition depth_rows (g : graph) : Qc := max_default (- (1))%Qc (map snd (grindex g)).

(** a dictionary from old to new vertex names and [vtab[v]] *)
Notation vtab := (dict nat) (only parsing).
Definition vget (tab : vtab) (v : nat) : res nat := of_opt KeyError (dget v tab).

(** The edge loops of copy (187-189), tensor (335-337), merge (387-390),
    subgraph_from_vertices (415-418) and compose (308-311) add the edges [es] of [h] *)
Definition graft_edge (h : graph) (tab : vtab) (g : graph) (e : nat * nat) : res graph :=
  let* s := vget tab (fst e) in
  let* t := vget tab (snd e) in
  let* et := of_opt KeyError (edge_type h (fst e) (snd e)) in
  add_edge s t et g.
Definition graft_edges (h : graph) (tab : vtab) (es : list (nat * nat)) (g : graph) : res graph :=
  foldM (graft_edge h tab) es g.

(** base.py 166-172, body of the vertex loop of copy *)
Definition copy_vertex (adjoint : bool) (maxr : Qc) (self : graph) (st : graph * vtab) (v : nat) : res (graph * vtab) :=
  let (g, tab) := st in
  let* t := of_opt KeyError (dget v (gty self)) in
  let* p := of_opt KeyError (dget v (gphase self)) in
  let (g, i) := add_vertex t (- (1))%Qc (- (1))%Qc (Some (if adjoint then (- p)%Qc else p)) g in
  let g := match dget v (gqindex self) with Some q => set_qubit i q g | None => g end in
  let g := match dget v (grindex self) with
           | Some r => set_row i (if adjoint then maxr - r else r)%Qc g
           | None => g end in
  Ok (g, dset v i tab).
(** base.py 127-191, copy *)
Definition g_copy (adjoint : bool) (self : graph) : res graph :=
  let g := with_scalar (scalar_copy adjoint (gscalar self)) empty_graph in
  let maxr := depth_rows self in
  let* st := foldM (copy_vertex adjoint maxr self) (vertices self) (g, []) in
  let (g, tab) := st in
  let* new_inputs := mapM (vget tab) (ginputs self) in
  let* new_outputs := mapM (vget tab) (goutputs self) in
  let g := if adjoint then set_outputs new_inputs (set_inputs new_outputs g)
           else set_outputs new_outputs (set_inputs new_inputs g) in
  graft_edges self tab (edges self) g.
(** base.py 193-195, adjoint *)
Definition g_adjoint (self : graph) : res graph := g_copy true self.

(** base.py 275-286: how output [o] of self meets input [i] of other *)
Definition plug (self other : graph) (oi : nat * nat) : res (nat * nat * etype) :=
  let (o, i) := oi in
  let* n1 := neighbors_r self o in
  match n1 with
  | [no] =>
    let* n2 := neighbors_r other i in
    match n2 with
    | [ni] =>
      let* e1 := of_opt KeyError (edge_type self no o) in
      let* e2 := of_opt KeyError (edge_type other i ni) in
      Ok (no, ni, if etype_eqb e1 e2 then SIMPLE else HADAMARD)
    | _ => Err ValueError
    end
  | _ => Err ValueError
  end.
(** base.py 299-307, body of the vertex loop of compose *)
Definition compose_vertex (offset : Qc) (other : graph) (st : graph * vtab) (v : nat) : res (graph * vtab) :=
  let (g, tab) := st in
  let* t := vtype_r other v in
  let (g, w) := add_vertex t (qubit other v) (offset + row other v)%Qc (Some (phase other v)) g in
  Ok (g, dset v w tab).
(** base.py 313-314 *)
Definition add_plug (tab : vtab) (g : graph) (p : nat * nat * etype) : res graph :=
  let '(no, ni, et) := p in
  let* w := vget tab ni in
  add_edge no w et g.
Definition inb (v : nat) (l : list nat) : bool := existsb (Nat.eqb v) l.
Definition nb_rows (g : graph) : list Qc :=
  map (row g) (filter (fun v => negb (vtype_eqb (vty g v) BOUNDARY)) (vertices g)).
(** base.py 269-315: compose after [other = other.copy()] *)
Definition compose_with (self other : graph) : res graph :=
  let outs := goutputs self in
  let ins := ginputs other in
  if negb (Nat.eqb (length outs) (length ins)) then Err TypeError else
  let* plugs := mapM (plug self other) (combine outs ins) in
  let g := on_scalar (fun s => mult_with_scalar s (gscalar other)) self in
  let offset := (max_default 0 (nb_rows self) - min_default 0 (nb_rows other) + 1)%Qc in
  let* g := foldM (fun g v => remove_vertices [v] g) outs g in
  let* st := foldM (compose_vertex offset other) (filter (fun v => negb (inb v ins)) (vertices other)) (g, []) in
  let (g, tab) := st in
  let* g := graft_edges other tab (filter (fun e : nat * nat => negb (inb (fst e) ins) && negb (inb (snd e) ins)) (edges other)) g in
  let* g := foldM (add_plug tab) plugs g in
  let* new_outputs := mapM (vget tab) (goutputs other) in
  Ok (set_outputs new_outputs g).
(** base.py 265-315, compose: the new value of self *)
Definition compose (self other : graph) : res graph :=
  let* other := g_copy false other in compose_with self other.
(** base.py 358-361, __add__; 363-367, __mul__ *)
Definition g_plus (self other : graph) : res graph := let* g := g_copy false self in compose g other.
Definition g_times (self other : graph) : res graph := let* g := g_copy false other in compose g self.

(** the vertex loops of tensor 331-334 (with [dq] = height), merge 384-386 and
    subgraph_from_vertices 412-414 (with [dq] = 0) *)
Definition dict_vertex (dq : Qc) (other : graph) (st : graph * vtab) (v : nat) : res (graph * vtab) :=
  let (g, tab) := st in
  let* t := of_opt KeyError (dget v (gty other)) in
  let* q := of_opt KeyError (dget v (gqindex other)) in
  let* r := of_opt KeyError (dget v (grindex other)) in
  let* p := of_opt KeyError (dget v (gphase other)) in
  let (g, w) := add_vertex t (q + dq)%Qc r (Some p) g in
  Ok (g, dset v w tab).
Definition set_rows (vs : list nat) (r : Qc) (g : graph) : graph := fold_left (fun g v => set_row v r g) vs g.
(** base.py 319-352, tensor *)
Definition tensor (self other : graph) : res graph :=
  let* g := g_copy false self in
  let g := on_scalar (fun s => mult_with_scalar s (gscalar other)) g in
  let height := (max_default 0 (map snd (gqindex self)) + 1)%Qc in
  let* st := foldM (dict_vertex height other) (vertices other) (g, []) in
  let (g, tab) := st in
  let* g := graft_edges other tab (edges other) g in
  let* oi := mapM (vget tab) (ginputs other) in
  let* oo := mapM (vget tab) (goutputs other) in
  let ins := ginputs g ++ oi in
  let outs := goutputs g ++ oo in
  let g := set_outputs outs (set_inputs ins g) in
  let minr := min_default 1 (map (row g) ins) in
  let g := set_rows ins minr g in
  let maxr := max_default 1 (map (row g) outs) in
  Ok (set_rows outs maxr g).
(** base.py 372-392, merge: the new value of self and the returned vertex list *)
Definition merge (self other : graph) : res (graph * list nat) :=
  let* st := foldM (dict_vertex 0 other) (vertices other) (self, []) in
  let (g, tab) := st in
  let* g := graft_edges other tab (edges other) g in
  Ok (g, map snd tab).
(** base.py 394-420, subgraph_from_vertices *)
Definition subgraph_from_vertices (self : graph) (verts : list nat) : res graph :=
  let es := filter (fun e : nat * nat => inb (fst e) verts && inb (snd e) verts) (edges self) in
  let* st := foldM (dict_vertex 0 self) verts (empty_graph, []) in
  let (g, tab) := st in
  graft_edges self tab es g.

(** base.py 430-446 and 457-473, one character of apply_state / apply_effect:
    the list under construction and the graph *)
Definition apply_char (st : list nat * graph) (cv : ascii * nat) : res (list nat * graph) :=
  let (acc, g) := st in
  let (c, v) := cv in
  if Ascii.eqb c "/"%char then Ok (acc ++ [v], g)
  else if Ascii.eqb c "0"%char || Ascii.eqb c "1"%char then
    let g := set_type v XSP (on_scalar (s_add_power (-1)) g) in
    Ok (acc, if Ascii.eqb c "1"%char then set_phase v 1%Qc g else g)
  else if Ascii.eqb c "+"%char || Ascii.eqb c "-"%char then
    let g := set_type v ZSP (on_scalar (s_add_power (-1)) g) in
    Ok (acc, if Ascii.eqb c "-"%char then set_phase v 1%Qc g else g)
  else Err TypeError.
(** base.py 422-447, apply_state; 449-474, apply_effect *)
Definition apply_state (state : list ascii) (g : graph) : res graph :=
  if Nat.ltb (length (ginputs g)) (length state) then Err TypeError else
  let* st := foldM apply_char (combine state (ginputs g)) ([], g) in
  let (acc, g) := st in Ok (set_inputs acc g).
Definition apply_effect (effect : list ascii) (g : graph) : res graph :=
  if Nat.ltb (length (goutputs g)) (length effect) then Err TypeError else
  let* st := foldM apply_char (combine effect (goutputs g)) ([], g) in
  let (acc, g) := st in Ok (set_outputs acc g).
