(** The difference of two graphs (pyzx/graph/diff.py, class GraphDiff), for the
    GraphS backend and numeric phases.  [vdata], grounds and [variable_types]
    are not modelled.  Python sets are iterated in an arbitrary order: the
    orders [so] (sets of vertices) and [eo] (sets of edges) are parameters.
    The dictionaries are filled with distinct keys, so they are written as the
    lists of their items in order of insertion. *)
From Coq Require Import QArith Qcanon List Bool Arith.
From Verif Require Import CNum Base ScalarModel GraphModel RulesModel.
Import ListNotations.
Open Scope nat_scope.

Definition edge_eqb (e f : nat * nat) : bool := Nat.eqb (fst e) (fst f) && Nat.eqb (snd e) (snd f).
Definition emem (e : nat * nat) (l : list (nat * nat)) : bool := existsb (edge_eqb e) l.

(** diff.py 28-37, the fields of a GraphDiff *)
Record gdiff := mkdiff {
  d_remv : list nat;
  d_newv : list nat;
  d_reme : list (nat * nat);
  d_newe : list ((nat * nat) * etype);
  d_types : dict vtype;
  d_etypes : list ((nat * nat) * etype);
  d_phases : dict Qc;
  d_pos : dict (Qc * Qc)
}.

(** graph_s.py 272-278, edge_type(e) of an edge of the graph *)
Definition ety (g : graph) (e : nat * nat) : etype :=
  match edge_type g (fst e) (snd e) with Some t => t | None => SIMPLE end.

(** diff.py 67-85, what the loop over the vertices of g2 records for v *)
Definition diff_type (g1 g2 : graph) (v : nat) : list (nat * vtype) :=
  if nmem v (vertices g1) then if vtype_eqb (vty g1 v) (vty g2 v) then [] else [(v, vty g2 v)]
  else if vtype_eqb (vty g2 v) ZSP then [] else [(v, vty g2 v)].
Definition diff_phase (g1 g2 : graph) (v : nat) : list (nat * Qc) :=
  if nmem v (vertices g1) then if qeqb (phase g1 v) (phase g2 v) then [] else [(v, phase g2 v)]
  else if qeqb (phase g2 v) 0%Qc then [] else [(v, phase g2 v)].
Definition diff_pos (g1 g2 : graph) (v : nat) : list (nat * (Qc * Qc)) :=
  if nmem v (vertices g1) then
    if qeqb (qubit g1 v) (qubit g2 v) && qeqb (row g1 v) (row g2 v) then [] else [(v, (qubit g2 v, row g2 v))]
  else [(v, (qubit g2 v, row g2 v))].
(** diff.py 87-93 *)
Definition diff_etype (g1 g2 : graph) (e : nat * nat) : list ((nat * nat) * etype) :=
  if emem e (edges g1) then if etype_eqb (ety g1 e) (ety g2 e) then [] else [(e, ety g2 e)]
  else if etype_eqb (ety g2 e) HADAMARD then [] else [(e, ety g2 e)].

(** diff.py 42-93, calculate_diff *)
Definition calculate_diff (so : list nat -> list nat) (eo : list (nat * nat) -> list (nat * nat)) (g1 g2 : graph) : gdiff :=
  mkdiff (so (filter (fun v => negb (nmem v (vertices g2))) (vertices g1)))
    (so (filter (fun v => negb (nmem v (vertices g1))) (vertices g2)))
    (eo (filter (fun e => negb (emem e (edges g2))) (edges g1)))
    (map (fun e => (e, ety g2 e)) (eo (filter (fun e => negb (emem e (edges g1))) (edges g2))))
    (flat_map (diff_type g1 g2) (so (vertices g2)))
    (flat_map (diff_etype g1 g2) (eo (edges g2)))
    (flat_map (diff_phase g1 g2) (so (vertices g2)))
    (flat_map (diff_pos g1 g2) (so (vertices g2))).

(** base.py 957-960, set_position *)
Definition set_position (v : nat) (p : Qc * Qc) (g : graph) : graph := set_row v (snd p) (set_qubit v (fst p) g).

(** diff.py 99-109, one new vertex *)
Definition diff_add (d : gdiff) (g : graph) (v : nat) : res graph :=
  let* g := add_vertex_indexed v g in
  let* p := of_opt KeyError (dget v (d_pos d)) in
  let g := set_position v p g in
  let g := set_type v (match dget v (d_types d) with Some t => t | None => ZSP end) g in
  Ok (match dget v (d_phases d) with Some a => set_phase v a g | None => g end).

(** diff.py 95-132, apply_diff (the argument is deep-copied first: the
    functional model never changes it) *)
Definition apply_diff (d : gdiff) (g : graph) : res graph :=
  let* g := remove_edges (d_reme d) g in
  let* g := remove_vertices (d_remv d) g in
  let* g := foldM (diff_add d) (d_newv d) g in
  let* g := foldM (fun g (et : (nat * nat) * etype) => add_edge (fst (fst et)) (snd (fst et)) (snd et) g) (d_newe d) g in
  let g := fold_left (fun g (vp : nat * (Qc * Qc)) => if nmem (fst vp) (d_newv d) then g else set_position (fst vp) (snd vp) g) (d_pos d) g in
  let g := fold_left (fun g (vt : nat * vtype) => if nmem (fst vt) (d_newv d) then g else set_type (fst vt) (snd vt) g) (d_types d) g in
  let g := fold_left (fun g (va : nat * Qc) => if nmem (fst va) (d_newv d) then g else set_phase (fst va) (snd va) g) (d_phases d) g in
  foldM (fun g (et : (nat * nat) * etype) => set_edge_type (fst (fst et)) (snd (fst et)) (snd et) g) (d_etypes d) g.
