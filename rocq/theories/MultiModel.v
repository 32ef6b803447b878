(** Model of pyzx/graph/multigraph.py (class Multigraph).  Only definitions.

    The entries graph[s][t] and graph[t][s] are one and the same mutable Edge
    object: the adjacency holds references, the objects live in a heap that is
    passed along.  Simplifications: no W nodes, Z-boxes and W-IO edges, no
    grounds, vdata, phase tracking and cached maxima; when an operation raises,
    the partially mutated state is dropped. *)
From Coq Require Import ZArith QArith Qcanon List Bool Arith.
From Verif Require Import CNum Base ScalarModel GraphModel.
Import ListNotations.
Open Scope Z_scope.

(** multigraph.py 26-36, Edge (without w_io) *)
Record medge := mkE { es : Z; eh : Z }.
(** multigraph.py 38-47, Edge.add; 49-50 remove is add of the negatives *)
Definition e_add (s h : Z) (e : medge) : res medge :=
  let e' := mkE (es e + s) (eh e + h) in
  if (es e' <? 0) || (eh e' <? 0) then Err ValueError else Ok e'.
(** multigraph.py 52-53 *)
Definition e_empty (e : medge) : bool := (es e =? 0) && (eh e =? 0).

(** the Edge objects created so far; a reference is a position *)
Definition heap := list medge.
Definition hget (h : heap) (r : nat) : medge := nth r h (mkE 0 0).
Fixpoint hset (h : heap) (r : nat) (e : medge) : heap :=
  match h, r with
  | [], _ => []
  | _ :: h', O => e :: h'
  | a :: h', S r' => a :: hset h' r' e
  end.

(** multigraph.py 66-82, Multigraph.__init__ *)
Record mgraph := mkM {
  madj : dict (dict nat);     (* self.graph, values are references *)
  mauto : bool;               (* self._auto_simplify *)
  mvindex : nat;              (* self._vindex *)
  mnedges : Z;                (* self.nedges *)
  mty : dict vtype;           (* self.ty *)
  mphase : dict Qc;           (* self._phase *)
  minputs : list nat;         (* self._inputs *)
  moutputs : list nat;        (* self._outputs *)
  mscalar : scalar            (* self.scalar *)
}.
Definition mempty : mgraph := mkM [] true 0 0 [] [] [] [] scalar_init.
Definition m_with_adj a g := mkM a (mauto g) (mvindex g) (mnedges g) (mty g) (mphase g) (minputs g) (moutputs g) (mscalar g).
Definition m_with_nedges n g := mkM (madj g) (mauto g) (mvindex g) n (mty g) (mphase g) (minputs g) (moutputs g) (mscalar g).
Definition m_with_vindex n g := mkM (madj g) (mauto g) n (mnedges g) (mty g) (mphase g) (minputs g) (moutputs g) (mscalar g).
Definition m_with_ty t g := mkM (madj g) (mauto g) (mvindex g) (mnedges g) t (mphase g) (minputs g) (moutputs g) (mscalar g).
Definition m_with_phase p g := mkM (madj g) (mauto g) (mvindex g) (mnedges g) (mty g) p (minputs g) (moutputs g) (mscalar g).
Definition m_with_scalar s g := mkM (madj g) (mauto g) (mvindex g) (mnedges g) (mty g) (mphase g) (minputs g) (moutputs g) s.
(** multigraph.py 107-109 *)
Definition m_set_auto (b : bool) g := mkM (madj g) b (mvindex g) (mnedges g) (mty g) (mphase g) (minputs g) (moutputs g) (mscalar g).

(** multigraph.py 142-148, add_vertices *)
Definition m_add_one (v : nat) (g : mgraph) : mgraph :=
  m_with_phase (dset v 0%Qc (mphase g)) (m_with_ty (dset v BOUNDARY (mty g)) (m_with_adj (dset v [] (madj g)) g)).
Definition m_add_vertices (n : nat) (g : mgraph) : mgraph * list nat :=
  let ids := seq (mvindex g) n in
  (m_with_vindex (mvindex g + n) (fold_left (fun g v => m_add_one v g) ids g), ids).
(** multigraph.py 358-359 set_type; 361-362 phase; 365-375 set_phase, add_to_phase *)
Definition m_set_type (v : nat) (t : vtype) (g : mgraph) : mgraph := m_with_ty (dset v t (mty g)) g.
Definition m_phase (g : mgraph) (v : nat) : Qc := match dget v (mphase g) with Some p => p | None => 1%Qc end.
Definition m_set_phase (v : nat) (p : Qc) (g : mgraph) : mgraph := m_with_phase (dset v (qmod2 p) (mphase g)) g.
Definition m_add_to_phase (v : nat) (p : Qc) (g : mgraph) : mgraph := m_with_phase (dset v (qmod2 (m_phase g v + p)%Qc) (mphase g)) g.

(** graph[s][t] *)
Definition m_ref (g : mgraph) (s t : nat) : res nat :=
  let* d := of_opt KeyError (dget s (madj g)) in of_opt KeyError (dget t d).
(** graph[s][t] = r; del graph[s][t] *)
Definition m_put (s t r : nat) (g : mgraph) : res mgraph :=
  let* d := of_opt KeyError (dget s (madj g)) in Ok (m_with_adj (dset s (dset t r d) (madj g)) g).
Definition m_del (s t : nat) (g : mgraph) : res mgraph :=
  let* d := of_opt KeyError (dget s (madj g)) in
  if dmem t d then Ok (m_with_adj (dset s (ddel t d) (madj g)) g) else Err KeyError.

(** multigraph.py 181-189: the simplification of a self-loop on a spider *)
Definition m_simp_loop (s : nat) (e : medge) (g : mgraph) : medge * mgraph :=
  let g := if eh e mod 2 =? 1 then m_add_to_phase s 1%Qc g else g in
  (mkE 0 0, m_with_scalar (s_add_power (- eh e) (mscalar g)) g).
(** 190-198: parallel wires between two spiders *)
Definition m_simp_pair (t1 t2 : vtype) (e : medge) (g : mgraph) : medge * mgraph :=
  if vtype_eqb t1 t2 then
    (mkE (if es e >? 0 then 1 else 0) (eh e mod 2), m_with_scalar (s_add_power (-2 * (eh e - eh e mod 2)) (mscalar g)) g)
  else
    (mkE (es e mod 2) (if eh e >? 0 then 1 else 0), m_with_scalar (s_add_power (-2 * (es e - es e mod 2)) (mscalar g)) g).

(** multigraph.py 163-203, add_edge *)
Definition m_add_edge (s t : nat) (ty : etype) (st : heap * mgraph) : res (heap * mgraph) :=
  let (h, g) := st in
  let g := m_with_nedges (mnedges g + 1) g in
  let* d := of_opt KeyError (dget s (madj g)) in
  let* x := (match dget t d with
             | Some r => Ok (h, g, r)
             | None =>
               let r := length h in
               let* g := m_put s t r g in
               let* g := m_put t s r g in
               Ok (h ++ [mkE 0 0], g, r)
             end) in
  let '(h, g, r) := x in
  let* e := (match ty with SIMPLE => e_add 1 0 (hget h r) | HADAMARD => e_add 0 1 (hget h r) end) in
  let h := hset h r e in
  if mauto g then
    let* t1 := of_opt KeyError (dget s (mty g)) in
    let* t2 := of_opt KeyError (dget t (mty g)) in
    let '(e, g) :=
      if vertex_is_zx_like t1 && vertex_is_zx_like t2 then
        (if Nat.eqb s t then m_simp_loop s e g else m_simp_pair t1 t2 e g)
      else (e, g) in
    let h := hset h r e in
    if e_empty e then
      let* g := m_del s t g in
      let* g := m_del t s g in
      Ok (h, g)
    else Ok (h, g)
  else Ok (h, g).

(** multigraph.py 239-250, remove_edge *)
Definition m_remove_edge (s t : nat) (ty : etype) (st : heap * mgraph) : res (heap * mgraph) :=
  let (h, g) := st in
  let* r := m_ref g s t in
  let* e := (match ty with SIMPLE => e_add (-1) 0 (hget h r) | HADAMARD => e_add 0 (-1) (hget h r) end) in
  let h := hset h r e in
  let* g := (if e_empty e then
               let* g := m_del s t g in
               if Nat.eqb s t then Ok g else m_del t s g
             else Ok g) in
  Ok (h, m_with_nedges (mnedges g - 1) g).

(** multigraph.py 342-352, set_edge_type *)
Definition m_set_edge_type (s t : nat) (ty ty' : etype) (st : heap * mgraph) : res (heap * mgraph) :=
  let (h, g) := st in
  if etype_eqb ty ty' then Ok (h, g)
  else
    let* r := m_ref g s t in
    let* e := (match ty with SIMPLE => e_add (-1) 0 (hget h r) | HADAMARD => e_add 0 (-1) (hget h r) end) in
    let* e := (match ty' with SIMPLE => e_add 1 0 e | HADAMARD => e_add 0 1 e end) in
    Ok (hset h r e, g).

(** multigraph.py 270-277, edges() without arguments *)
Definition m_edges (h : heap) (g : mgraph) : list (nat * nat * etype) :=
  flat_map (fun vd : nat * dict nat => let (v0, d) := vd in
    flat_map (fun vr : nat * nat => let (v1, r) := vr in
      if Nat.leb v0 v1 then repeat (v0, v1, SIMPLE) (Z.to_nat (es (hget h r))) ++ repeat (v0, v1, HADAMARD) (Z.to_nat (eh (hget h r))) else []) d) (madj g).

(** multigraph.py 84-105, clone: the inner dictionaries are copied, the Edge
    objects are not; _auto_simplify keeps its initial value *)
Definition m_clone (g : mgraph) : mgraph :=
  mkM (madj g) true (mvindex g) (mnedges g) (mty g) (mphase g) (minputs g) (moutputs g) (mscalar g).
