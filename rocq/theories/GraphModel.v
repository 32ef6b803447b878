(** Model of pyzx/graph/graph_s.py (class GraphS) and of the generic methods of
    pyzx/graph/base.py used by the rewrite engine.  Only definitions.

    Simplifications, valid for the whole file:
    - vertex types W_INPUT, W_OUTPUT and Z_BOX and edge type W_IO do not occur;
    - the ground set, vdata, phase tracking (track_phases) and the cached
      _maxq/_maxr are omitted (is_ground is constantly False);
    - phases are Fractions, positions (qubit/row) are rationals;
    - when an operation raises, the partially mutated graph is dropped. *)
From Coq Require Import ZArith QArith Qcanon List Bool Arith.
From Verif Require Import CNum Base ScalarModel.
Import ListNotations.

(** pyzx/utils.py 30-38, VertexType *)
Inductive vtype := BOUNDARY | ZSP | XSP | HBOX.
(** pyzx/utils.py 76-80, EdgeType *)
Inductive etype := SIMPLE | HADAMARD.

Definition vtype_eqb (a b : vtype) : bool :=
  match a, b with
  | BOUNDARY, BOUNDARY | ZSP, ZSP | XSP, XSP | HBOX, HBOX => true
  | _, _ => false
  end.
Definition etype_eqb (a b : etype) : bool :=
  match a, b with SIMPLE, SIMPLE | HADAMARD, HADAMARD => true | _, _ => false end.

(** pyzx/utils.py 82-84 *)
Definition toggle_edge (e : etype) : etype :=
  match e with SIMPLE => HADAMARD | HADAMARD => SIMPLE end.
(** pyzx/utils.py 40-42 *)
Definition vertex_is_zx (t : vtype) : bool := vtype_eqb t ZSP || vtype_eqb t XSP.
(** pyzx/utils.py 44-48 *)
Definition toggle_vertex (t : vtype) : vtype :=
  if negb (vertex_is_zx t) then t else if vtype_eqb t XSP then ZSP else XSP.
(** pyzx/utils.py 50-52 *)
Definition vertex_is_z_like (t : vtype) : bool := vtype_eqb t ZSP.
(** pyzx/utils.py 54-56 *)
Definition vertex_is_zx_like (t : vtype) : bool := vertex_is_z_like t || vtype_eqb t XSP.

(** pyzx/utils.py 111-121, on Fractions *)
Definition phase_is_clifford (p : Qc) : bool :=
  qeqb p 0%Qc || qeqb p (frac 1 2) || qeqb p 1%Qc || qeqb p (frac 3 2).
Definition phase_is_pauli (p : Qc) : bool := qeqb p 0%Qc || qeqb p 1%Qc.

(** graph_s.py 30-45, GraphS.__init__ *)
Record graph := mkG {
  gadj : dict (dict etype);    (* self.graph *)
  gvindex : nat;               (* self._vindex *)
  gnedges : Z;                 (* self.nedges *)
  gty : dict vtype;            (* self.ty *)
  gphase : dict Qc;            (* self._phase *)
  gqindex : dict Qc;           (* self._qindex *)
  grindex : dict Qc;           (* self._rindex *)
  ginputs : list nat;          (* self._inputs *)
  goutputs : list nat;         (* self._outputs *)
  gscalar : scalar             (* self.scalar *)
}.
Definition empty_graph : graph := mkG [] 0 0%Z [] [] [] [] [] [] scalar_init.

Definition with_adj a g := mkG a (gvindex g) (gnedges g) (gty g) (gphase g) (gqindex g) (grindex g) (ginputs g) (goutputs g) (gscalar g).
Definition with_vindex n g := mkG (gadj g) n (gnedges g) (gty g) (gphase g) (gqindex g) (grindex g) (ginputs g) (goutputs g) (gscalar g).
Definition with_nedges n g := mkG (gadj g) (gvindex g) n (gty g) (gphase g) (gqindex g) (grindex g) (ginputs g) (goutputs g) (gscalar g).
Definition with_ty t g := mkG (gadj g) (gvindex g) (gnedges g) t (gphase g) (gqindex g) (grindex g) (ginputs g) (goutputs g) (gscalar g).
Definition with_phase p g := mkG (gadj g) (gvindex g) (gnedges g) (gty g) p (gqindex g) (grindex g) (ginputs g) (goutputs g) (gscalar g).
Definition with_qindex q g := mkG (gadj g) (gvindex g) (gnedges g) (gty g) (gphase g) q (grindex g) (ginputs g) (goutputs g) (gscalar g).
Definition with_rindex r g := mkG (gadj g) (gvindex g) (gnedges g) (gty g) (gphase g) (gqindex g) r (ginputs g) (goutputs g) (gscalar g).
(** graph_s.py 86-87, set_inputs; 95-96, set_outputs *)
Definition set_inputs i g := mkG (gadj g) (gvindex g) (gnedges g) (gty g) (gphase g) (gqindex g) (grindex g) i (goutputs g) (gscalar g).
Definition set_outputs o g := mkG (gadj g) (gvindex g) (gnedges g) (gty g) (gphase g) (gqindex g) (grindex g) (ginputs g) o (gscalar g).
(** assignment to / in-place update of g.scalar *)
Definition with_scalar s g := mkG (gadj g) (gvindex g) (gnedges g) (gty g) (gphase g) (gqindex g) (grindex g) (ginputs g) (goutputs g) s.
Definition on_scalar (f : scalar -> scalar) g := with_scalar (f (gscalar g)) g.

(** ** Observers *)
(** graph_s.py 209-210, vertices *)
Definition vertices (g : graph) : list nat := dkeys (gadj g).
(** graph_s.py 202-203 *)
Definition num_vertices (g : graph) : nat := length (vertices g).
(** graph_s.py 272-277, edge_type: None stands for the returned 0 *)
Definition edge_type (g : graph) (s t : nat) : option etype :=
  match dget s (gadj g) with Some d => dget t d | None => None end.
(** graph_s.py 260-261, neighbors (KeyError when the vertex is absent) *)
Definition neighbors_r (g : graph) (v : nat) : res (list nat) :=
  match dget v (gadj g) with Some d => Ok (dkeys d) | None => Err KeyError end.
(** the same for a vertex known to be present *)
Definition neighbors (g : graph) (v : nat) : list nat :=
  match dget v (gadj g) with Some d => dkeys d | None => [] end.
(** graph_s.py 263-264 *)
Definition vertex_degree (g : graph) (v : nat) : nat := length (neighbors g v).
(** graph_s.py 253-254, edge; a normalised pair *)
Definition mkedge (s t : nat) : nat * nat := if Nat.ltb s t then (s, t) else (t, s).
(** graph_s.py 266-267 *)
Definition incident_edges (g : graph) (v : nat) : list (nat * nat) :=
  map (fun v1 => if Nat.ltb v v1 then (v, v1) else (v1, v)) (neighbors g v).
(** graph_s.py 220-229, edges() without arguments *)
Definition edges (g : graph) : list (nat * nat) :=
  flat_map (fun vd : nat * dict etype => let (v0, d) := vd in
     map (fun v1 => (v0, v1)) (filter (fun v1 => Nat.ltb v0 v1) (dkeys d))) (gadj g).
(** graph_s.py 269-270 *)
Definition connected (g : graph) (v1 v2 : nat) : bool :=
  match edge_type g v1 v2 with Some _ => true | None => false end.
(** graph_s.py 284-285, type(v) raises KeyError on unknown vertices *)
Definition vtype_r (g : graph) (v : nat) : res vtype := of_opt KeyError (dget v (gty g)).
Definition vty (g : graph) (v : nat) : vtype :=
  match dget v (gty g) with Some t => t | None => BOUNDARY end.
(** graph_s.py 291-292, phase(v): default Fraction(1) *)
Definition phase (g : graph) (v : nat) : Qc :=
  match dget v (gphase g) with Some p => p | None => 1%Qc end.
(** graph_s.py 314-315, row(v): default -1; 306-307 qubit(v) *)
Definition row (g : graph) (v : nat) : Qc :=
  match dget v (grindex g) with Some p => p | None => (- (1))%Qc end.
Definition qubit (g : graph) (v : nat) : Qc :=
  match dget v (gqindex g) with Some p => p | None => (- (1))%Qc end.

(** ** Mutators *)
(** graph_s.py 98-104 loop body for one index *)
Definition add_one_vertex (v : nat) (g : graph) : graph :=
  with_phase (dset v 0%Qc (gphase g)) (with_ty (dset v BOUNDARY (gty g)) (with_adj (dset v [] (gadj g)) g)).
(** graph_s.py 98-104, add_vertices *)
Definition add_vertices (n : nat) (g : graph) : graph * list nat :=
  let ids := seq (gvindex g) n in
  (with_vindex (gvindex g + n) (fold_left (fun g v => add_one_vertex v g) ids g), ids).
(** graph_s.py 105-114, add_vertex_indexed *)
Definition add_vertex_indexed (v : nat) (g : graph) : res graph :=
  if dmem v (gadj g) then Err ValueError
  else
    let g := if Nat.leb (gvindex g) v then with_vindex (v + 1) g else g in
    Ok (add_one_vertex v g).
(** graph_s.py 288-289 *)
Definition set_type (v : nat) (t : vtype) (g : graph) : graph := with_ty (dset v t (gty g)) g.
(** graph_s.py 295-299 (numeric phases: % never raises) *)
Definition set_phase (v : nat) (p : Qc) (g : graph) : graph := with_phase (dset v (qmod2 p) (gphase g)) g.
(** graph_s.py 300-305 *)
Definition add_to_phase (v : nat) (p : Qc) (g : graph) : graph :=
  with_phase (dset v (qmod2 (phase g v + p)%Qc) (gphase g)) g.
(** graph_s.py 310-312 and 318-320 (without the _maxq/_maxr caches) *)
Definition set_qubit (v : nat) (q : Qc) (g : graph) : graph := with_qindex (dset v q (gqindex g)) g.
Definition set_row (v : nat) (r : Qc) (g : graph) : graph := with_rindex (dset v r (grindex g)) g.
(** base.py 675-700, add_vertex *)
Definition add_vertex (t : vtype) (q r : Qc) (p : option Qc) (g : graph) : graph * nat :=
  let v := gvindex g in
  let g := fst (add_vertices 1 g) in
  let g := set_type v t g in
  let p := match p with Some p => p | None => if vtype_eqb t HBOX then 1%Qc else 0%Qc end in
  let g := set_row v r (set_qubit v q g) in
  let g := if qeqb p 0%Qc then g else set_phase v p g in
  (g, v).

(** [self.graph[s][t] = et] *)
Definition adj_set (s t : nat) (et : etype) (a : dict (dict etype)) : res (dict (dict etype)) :=
  match dget s a with
  | None => Err KeyError
  | Some d => Ok (dset s (dset t et d) a)
  end.
(** [del self.graph[s][t]] *)
Definition adj_del (s t : nat) (a : dict (dict etype)) : res (dict (dict etype)) :=
  match dget s a with
  | None => Err KeyError
  | Some d => if dmem t d then Ok (dset s (ddel t d) a) else Err KeyError
  end.

(** graph_s.py 279-282, set_edge_type *)
Definition set_edge_type (s t : nat) (et : etype) (g : graph) : res graph :=
  let* a1 := adj_set s t et (gadj g) in
  let* a2 := adj_set t s et a1 in
  Ok (with_adj a2 g).
(** graph_s.py 116-120, add_edges *)
Definition add_edges (es : list (nat * nat)) (et : etype) (g : graph) : res graph :=
  foldM (fun g (e : nat * nat) => let (s, t) := e in
           set_edge_type s t et (with_nedges (gnedges g + 1)%Z g)) es g.
(** graph_s.py 193-197, body of remove_edges *)
Definition remove_edge (s t : nat) (g : graph) : res graph :=
  let* a1 := adj_del s t (gadj g) in
  let* a2 := adj_del t s a1 in
  Ok (with_adj a2 (with_nedges (gnedges g - 1)%Z g)).
Definition remove_edges (es : list (nat * nat)) (g : graph) : res graph :=
  foldM (fun g (e : nat * nat) => let (s, t) := e in remove_edge s t g) es g.

(** graph_s.py 122-162, add_edge *)
Definition add_edge (s t : nat) (et : etype) (g : graph) : res graph :=
  match dget s (gadj g) with
  | None => Err KeyError
  | Some ds =>
    match dget t ds with
    | None => set_edge_type s t et (with_nedges (gnedges g + 1)%Z g)
    | Some et1 =>
      let* t1 := vtype_r g s in
      let* t2 := vtype_r g t in
      if vertex_is_zx_like t1 && vertex_is_zx_like t2 then
        let (fuse, hopf) :=
          if Bool.eqb (vertex_is_z_like t1) (vertex_is_z_like t2)
          then (SIMPLE, HADAMARD) else (HADAMARD, SIMPLE) in
        if etype_eqb et fuse && etype_eqb et1 fuse then Ok g
        else if (etype_eqb et fuse && etype_eqb et1 hopf) || (etype_eqb et hopf && etype_eqb et1 fuse) then
          let* g := set_edge_type s t fuse g in
          let g := add_to_phase s 1%Qc g in
          Ok (on_scalar (s_add_power (-1)) g)
        else if etype_eqb et hopf && etype_eqb et1 hopf then
          let* g := remove_edge s t g in
          Ok (on_scalar (s_add_power (-2)) g)
        else Err ValueError
      else Err ValueError
    end
  end.

(** Keys (s,t) with [#simple, #hadamard] edges to add; a Python dict keyed by
    pairs, insertion ordered. *)
Notation etab := (list ((nat * nat) * (nat * nat))) (only parsing).

Fixpoint iterM {A} (n : nat) (f : A -> res A) (a : A) : res A :=
  match n with O => Ok a | S n => let* a' := f a in iterM n f a' end.

(** base.py 717-726, add_edge_table *)
Definition add_edge_table (tab : etab) (g : graph) : res graph :=
  foldM (fun g (e : (nat * nat) * (nat * nat)) =>
    let '((s, t), (ns, nh)) := e in
    let* g := iterM ns (add_edge s t SIMPLE) g in
    iterM nh (add_edge s t HADAMARD) g) tab g.

(** graph_s.py 164-187, one round of the remove_vertices loop *)
Definition remove_one_vertex (v : nat) (g : graph) : res graph :=
  let* vs := neighbors_r g v in
  let* g := foldM (fun g v1 =>
      let* a1 := adj_del v v1 (gadj g) in
      let* a2 := adj_del v1 v a1 in
      Ok (with_adj a2 (with_nedges (gnedges g - 1)%Z g))) vs g in
  if negb (dmem v (gty g)) then Err KeyError else
  if negb (dmem v (gphase g)) then Err KeyError else
  let g := with_adj (ddel v (gadj g)) g in
  let g := with_ty (ddel v (gty g)) g in
  let g := with_phase (ddel v (gphase g)) g in
  let g := set_inputs (filter (fun u => negb (Nat.eqb u v)) (ginputs g)) g in
  let g := set_outputs (filter (fun u => negb (Nat.eqb u v)) (goutputs g)) g in
  let g := with_qindex (ddel v (gqindex g)) g in
  let g := with_rindex (ddel v (grindex g)) g in
  Ok g.
(** graph_s.py 164-188, remove_vertices *)
Definition remove_vertices (vs : list nat) (g : graph) : res graph :=
  let* g := foldM (fun g v => remove_one_vertex v g) vs g in
  Ok (with_vindex (list_max (vertices g) + 1) g).

(** base.py 769-806, remove_isolated_vertices: loop body.  The state is the
    list [rem] and the graph (only its scalar changes before the final call). *)
Definition isolated_step (st : list nat * graph) (v : nat) : res (list nat * graph) :=
  let (rem, g) := st in
  let* ns := neighbors_r g v in
  match ns with
  | [] =>
    let rem := rem ++ [v] in
    let* t := vtype_r g v in
    match t with
    | BOUNDARY => Err TypeError
    | HBOX => Ok (rem, on_scalar (s_add_phase (phase g v)) g)
    | _ => Ok (rem, on_scalar (s_add_node (phase g v)) g)
    end
  | [w] =>
    if existsb (Nat.eqb v) rem then Ok (rem, g) else
    let* t := vtype_r g v in
    if vtype_eqb t BOUNDARY then Ok (rem, g) else
    let* nw := neighbors_r g w in
    if Nat.ltb 1 (length nw) then Ok (rem, g) else
    let* tw := vtype_r g w in
    if vtype_eqb tw BOUNDARY then Ok (rem, g) else
    let rem := rem ++ [v; w] in
    let* et := of_opt KeyError (edge_type g v w) in
    let t1 := if vtype_eqb t HBOX then ZSP else t in
    let t2 := if vtype_eqb tw HBOX then ZSP else tw in
    let f := if vtype_eqb t1 t2
      then match et with
           | SIMPLE => s_add_node (phase g v + phase g w)%Qc
           | HADAMARD => add_spider_pair (phase g v) (phase g w) end
      else match et with
           | SIMPLE => add_spider_pair (phase g v) (phase g w)
           | HADAMARD => s_add_node (phase g v + phase g w)%Qc end in
    Ok (rem, on_scalar f g)
  | _ => Ok (rem, g)
  end.
Definition remove_isolated_vertices (g : graph) : res graph :=
  let* (rem, g) := foldM isolated_step (vertices g) ([], g) in
  remove_vertices rem g.
