(** GraphS objects with explicit references (pyzx/graph/graph_s.py).  Only
    definitions.

    The other files treat a graph as a value.  Here every dictionary, set,
    Scalar and list that a GraphS object holds is a cell of a heap, so that
    sharing between a graph and its clone can be expressed.  An operation takes
    the heap and the object and returns them changed; when it raises, the
    partially mutated state is dropped.  Phase tracking, the cached maxima and
    merge_vdata are left out; vdata values are integers and their keys numbers. *)
From Coq Require Import ZArith QArith Qcanon List Bool Arith.
From Verif Require Import CNum Base ScalarModel GraphModel.
Import ListNotations.

Inductive cell :=
| CAdj (d : dict nat)                                       (* graph: vertex -> reference of its inner dict *)
| CNb (d : dict etype)                                      (* an inner dict of graph *)
| CTy (d : dict vtype)
| CQc (d : dict Qc)                                         (* _phase, _qindex, _rindex *)
| CSet (l : list nat)                                       (* _grounds *)
| CVars (d : dict bool)                                     (* variable_types *)
| CVo (d : dict nat)                                        (* _vdata: vertex -> reference of its inner dict *)
| CVi (d : dict Z)                                          (* an inner dict of _vdata *)
| CSc (pw : Z) (ph : Qc) (nodes : nat) (fl : C) (un ze : bool)   (* Scalar, with the reference of its phasenodes *)
| CList (l : list Qc).                                      (* phasenodes *)
Definition cells := list cell.
Fixpoint cput (H : cells) (r : nat) (c : cell) : cells :=
  match H, r with [], _ => [] | _ :: H', O => c :: H' | a :: H', S r' => a :: cput H' r' c end.

(** graph_s.py 30-45, base.py 87-102: the attributes of the object *)
Record obj := mkO {
  o_adj : nat; o_ty : nat; o_ph : nat; o_q : nat; o_r : nat; o_gr : nat; o_vt : nat; o_vd : nat; o_sc : nat;
  o_vindex : nat; o_nedges : Z; o_in : list nat; o_out : list nat }.
Definition st := (cells * obj)%type.
Definition o_with_vindex n (o : obj) := mkO (o_adj o) (o_ty o) (o_ph o) (o_q o) (o_r o) (o_gr o) (o_vt o) (o_vd o) (o_sc o) n (o_nedges o) (o_in o) (o_out o).
Definition o_with_nedges n (o : obj) := mkO (o_adj o) (o_ty o) (o_ph o) (o_q o) (o_r o) (o_gr o) (o_vt o) (o_vd o) (o_sc o) (o_vindex o) n (o_in o) (o_out o).
Definition o_with_in l (o : obj) := mkO (o_adj o) (o_ty o) (o_ph o) (o_q o) (o_r o) (o_gr o) (o_vt o) (o_vd o) (o_sc o) (o_vindex o) (o_nedges o) l (o_out o).
Definition o_with_out l (o : obj) := mkO (o_adj o) (o_ty o) (o_ph o) (o_q o) (o_r o) (o_gr o) (o_vt o) (o_vd o) (o_sc o) (o_vindex o) (o_nedges o) (o_in o) l.

(** ** What can be observed of an object *)
Record obs := mkObs { og : graph; ogr : list nat; ovt : dict bool; ovd : dict (dict Z) }.
Fixpoint rd_in (H : cells) (a : dict nat) : option (dict (dict etype)) :=
  match a with
  | [] => Some []
  | (v, r) :: a' => match nth_error H r, rd_in H a' with Some (CNb d), Some l => Some ((v, d) :: l) | _, _ => None end
  end.
Fixpoint rd_vd (H : cells) (a : dict nat) : option (dict (dict Z)) :=
  match a with
  | [] => Some []
  | (v, r) :: a' => match nth_error H r, rd_vd H a' with Some (CVi d), Some l => Some ((v, d) :: l) | _, _ => None end
  end.
Definition observe (s : st) : option obs :=
  let (H, o) := s in
  match nth_error H (o_adj o), nth_error H (o_ty o), nth_error H (o_ph o), nth_error H (o_q o), nth_error H (o_r o), nth_error H (o_gr o), nth_error H (o_vt o), nth_error H (o_vd o), nth_error H (o_sc o) with
  | Some (CAdj a), Some (CTy ty), Some (CQc ph), Some (CQc q), Some (CQc r), Some (CSet gr), Some (CVars vt), Some (CVo vo), Some (CSc pw sp nr fl un ze) =>
    match rd_in H a, rd_vd H vo, nth_error H nr with
    | Some adj, Some vd, Some (CList nodes) =>
      Some (mkObs (mkG adj (o_vindex o) (o_nedges o) ty ph q r (o_in o) (o_out o) (mkS pw sp nodes fl un ze)) gr vt vd)
    | _, _, _ => None
    end
  | _, _, _, _, _, _, _, _, _ => None
  end.

(** ** Statements of the methods; TypeError stands for a cell of the wrong kind *)
(** self.ty[...] = ..., del self.ty[...] and so on *)
Definition on_ty (f : dict vtype -> dict vtype) (s : st) : res st :=
  let (H, o) := s in match nth_error H (o_ty o) with Some (CTy d) => Ok (cput H (o_ty o) (CTy (f d)), o) | _ => Err TypeError end.
Definition on_qc (r : obj -> nat) (f : dict Qc -> dict Qc) (s : st) : res st :=
  let (H, o) := s in match nth_error H (r o) with Some (CQc d) => Ok (cput H (r o) (CQc (f d)), o) | _ => Err TypeError end.
Definition on_gr (f : list nat -> list nat) (s : st) : res st :=
  let (H, o) := s in match nth_error H (o_gr o) with Some (CSet d) => Ok (cput H (o_gr o) (CSet (f d)), o) | _ => Err TypeError end.
Definition on_vt (f : dict bool -> dict bool) (s : st) : res st :=
  let (H, o) := s in match nth_error H (o_vt o) with Some (CVars d) => Ok (cput H (o_vt o) (CVars (f d)), o) | _ => Err TypeError end.
Definition on_vo (f : dict nat -> dict nat) (s : st) : res st :=
  let (H, o) := s in match nth_error H (o_vd o) with Some (CVo d) => Ok (cput H (o_vd o) (CVo (f d)), o) | _ => Err TypeError end.
(** an in-place change of self.scalar and of its list of phasenodes *)
Definition on_sc (f : scalar -> scalar) (s : st) : res st :=
  let (H, o) := s in
  match nth_error H (o_sc o) with
  | Some (CSc pw ph nr fl un ze) =>
    match nth_error H nr with
    | Some (CList l) =>
      let s' := f (mkS pw ph l fl un ze) in
      Ok (cput (cput H (o_sc o) (CSc (power2 s') (sphase s') nr (floatfactor s') (is_unknown s') (is_zero s'))) nr (CList (phasenodes s')), o)
    | _ => Err TypeError
    end
  | _ => Err TypeError
  end.
Definition on_obj (f : obj -> obj) (s : st) : res st := let (H, o) := s in Ok (H, f o).
(** self.graph[v] *)
Definition get_nb (v : nat) (s : st) : res (dict etype) :=
  let (H, o) := s in
  match nth_error H (o_adj o) with
  | Some (CAdj a) => match dget v a with None => Err KeyError | Some r => match nth_error H r with Some (CNb d) => Ok d | _ => Err TypeError end end
  | _ => Err TypeError
  end.
(** a change of the dictionary self.graph[v] *)
Definition on_nb (v : nat) (f : dict etype -> dict etype) (s : st) : res st :=
  let (H, o) := s in
  match nth_error H (o_adj o) with
  | Some (CAdj a) => match dget v a with None => Err KeyError | Some r => match nth_error H r with Some (CNb d) => Ok (cput H r (CNb (f d)), o) | _ => Err TypeError end end
  | _ => Err TypeError
  end.
(** self.graph[v] = dict(); del self.graph[v] *)
Definition new_nb (v : nat) (s : st) : res st :=
  let (H, o) := s in
  match nth_error H (o_adj o) with
  | Some (CAdj a) => Ok (cput (H ++ [CNb []]) (o_adj o) (CAdj (dset v (length H) a)), o)
  | _ => Err TypeError
  end.
Definition del_nb (v : nat) (s : st) : res st :=
  let (H, o) := s in
  match nth_error H (o_adj o) with
  | Some (CAdj a) => Ok (cput H (o_adj o) (CAdj (ddel v a)), o)
  | _ => Err TypeError
  end.
Definition get_ty (s : st) : res (dict vtype) := let (H, o) := s in match nth_error H (o_ty o) with Some (CTy d) => Ok d | _ => Err TypeError end.
Definition get_ph (s : st) : res (dict Qc) := let (H, o) := s in match nth_error H (o_ph o) with Some (CQc d) => Ok d | _ => Err TypeError end.
Definition get_keys (s : st) : res (list nat) := let (H, o) := s in match nth_error H (o_adj o) with Some (CAdj a) => Ok (dkeys a) | _ => Err TypeError end.

(** ** The methods *)
(** graph_s.py 98-104, loop body, and add_vertices *)
Definition a_add_one (v : nat) (s : st) : res st :=
  let* s := new_nb v s in
  let* s := on_ty (dset v BOUNDARY) s in
  on_qc o_ph (dset v 0%Qc) s.
Definition a_add_vertices (n : nat) (s : st) : res st :=
  let* s' := foldM (fun s v => a_add_one v s) (seq (o_vindex (snd s)) n) s in
  on_obj (fun o => o_with_vindex (o_vindex o + n) o) s'.
(** graph_s.py 105-114 *)
Definition a_add_vertex_indexed (v : nat) (s : st) : res st :=
  let* ks := get_keys s in
  if existsb (Nat.eqb v) ks then Err ValueError
  else
    let* s := on_obj (fun o => if Nat.leb (o_vindex o) v then o_with_vindex (v + 1) o else o) s in
    a_add_one v s.
(** graph_s.py 279-282 *)
Definition a_set_edge_type (x y : nat) (et : etype) (s : st) : res st :=
  let* s := on_nb x (dset y et) s in
  on_nb y (dset x et) s.
(** graph_s.py 116-120 *)
Definition a_add_edges (es : list (nat * nat)) (et : etype) (s : st) : res st :=
  foldM (fun s (e : nat * nat) => let (x, y) := e in
    let* s := on_obj (fun o => o_with_nedges (o_nedges o + 1)%Z o) s in a_set_edge_type x y et s) es s.
(** del self.graph[x][y] *)
Definition a_del (x y : nat) (s : st) : res st :=
  let* d := get_nb x s in
  if dmem y d then on_nb x (ddel y) s else Err KeyError.
(** graph_s.py 193-197 *)
Definition a_remove_edge (x y : nat) (s : st) : res st :=
  let* s := a_del x y s in
  let* s := a_del y x s in
  on_obj (fun o => o_with_nedges (o_nedges o - 1)%Z o) s.
Definition a_remove_edges (es : list (nat * nat)) (s : st) : res st :=
  foldM (fun s (e : nat * nat) => let (x, y) := e in a_remove_edge x y s) es s.
(** graph_s.py 300-305 *)
Definition a_add_to_phase (v : nat) (p : Qc) (s : st) : res st :=
  let* d := get_ph s in
  on_qc o_ph (dset v (qmod2 ((match dget v d with Some q => q | None => 1%Qc end) + p)%Qc)) s.
(** graph_s.py 122-162 *)
Definition a_add_edge (x y : nat) (et : etype) (s : st) : res st :=
  let* dx := get_nb x s in
  match dget y dx with
  | None =>
    let* s := on_obj (fun o => o_with_nedges (o_nedges o + 1)%Z o) s in
    a_set_edge_type x y et s
  | Some et1 =>
    let* ty := get_ty s in
    let* t1 := of_opt KeyError (dget x ty) in
    let* t2 := of_opt KeyError (dget y ty) in
    if vertex_is_zx_like t1 && vertex_is_zx_like t2 then
      let (fuse, hopf) := if Bool.eqb (vertex_is_z_like t1) (vertex_is_z_like t2) then (SIMPLE, HADAMARD) else (HADAMARD, SIMPLE) in
      if etype_eqb et fuse && etype_eqb et1 fuse then Ok s
      else if (etype_eqb et fuse && etype_eqb et1 hopf) || (etype_eqb et hopf && etype_eqb et1 fuse) then
        let* s := a_set_edge_type x y fuse s in
        let* s := a_add_to_phase x 1%Qc s in
        on_sc (s_add_power (-1)) s
      else if etype_eqb et hopf && etype_eqb et1 hopf then
        let* s := a_remove_edge x y s in
        on_sc (s_add_power (-2)) s
      else Err ValueError
    else Err ValueError
  end.
(** graph_s.py 164-188 *)
Definition a_remove_one (v : nat) (s : st) : res st :=
  let* d := get_nb v s in
  let* s := foldM (fun s v1 =>
      let* s := a_del v v1 s in
      let* s := a_del v1 v s in
      on_obj (fun o => o_with_nedges (o_nedges o - 1)%Z o) s) (dkeys d) s in
  let* ty := get_ty s in
  if negb (dmem v ty) then Err KeyError else
  let* ph := get_ph s in
  if negb (dmem v ph) then Err KeyError else
  let* s := del_nb v s in
  let* s := on_ty (ddel v) s in
  let* s := on_qc o_ph (ddel v) s in
  let* s := on_obj (fun o => o_with_in (filter (fun u => negb (Nat.eqb u v)) (o_in o)) o) s in
  let* s := on_obj (fun o => o_with_out (filter (fun u => negb (Nat.eqb u v)) (o_out o)) o) s in
  let* s := on_qc o_q (ddel v) s in
  let* s := on_qc o_r (ddel v) s in
  let* s := on_gr (filter (fun u => negb (Nat.eqb u v))) s in
  on_vo (ddel v) s.
Definition a_remove_vertices (vs : list nat) (s : st) : res st :=
  let* s := foldM (fun s v => a_remove_one v s) vs s in
  let* ks := get_keys s in
  on_obj (o_with_vindex (list_max ks + 1)) s.

(** the edits of a graph *)
Inductive edit :=
| EAddVertices (n : nat) | EAddVertexIndexed (v : nat) | EAddEdges (es : list (nat * nat)) (et : etype) | EAddEdge (x y : nat) (et : etype)
| ERemoveVertices (vs : list nat) | ERemoveEdges (es : list (nat * nat)) | ESetEdgeType (x y : nat) (et : etype)
| ESetType (v : nat) (t : vtype) | ESetPhase (v : nat) (p : Qc) | EAddToPhase (v : nat) (p : Qc) | ESetQubit (v : nat) (q : Qc) | ESetRow (v : nat) (r : Qc)
| ESetInputs (l : list nat) | ESetOutputs (l : list nat) | EScalar (f : scalar -> scalar)
| ESetGround (v : nat) (b : bool) | EVarType (x : nat) (b : bool).
Definition set_add (v : nat) (l : list nat) : list nat := if existsb (Nat.eqb v) l then l else l ++ [v].
Definition set_discard (v : nat) (l : list nat) : list nat := filter (fun u => negb (Nat.eqb u v)) l.
Definition a_edit (e : edit) (s : st) : res st :=
  match e with
  | EAddVertices n => a_add_vertices n s
  | EAddVertexIndexed v => a_add_vertex_indexed v s
  | EAddEdges es et => a_add_edges es et s
  | EAddEdge x y et => a_add_edge x y et s
  | ERemoveVertices vs => a_remove_vertices vs s
  | ERemoveEdges es => a_remove_edges es s
  | ESetEdgeType x y et => a_set_edge_type x y et s
  | ESetType v t => on_ty (dset v t) s                          (* graph_s.py 288-289 *)
  | ESetPhase v p => on_qc o_ph (dset v (qmod2 p)) s            (* 295-299 *)
  | EAddToPhase v p => a_add_to_phase v p s
  | ESetQubit v q => on_qc o_q (dset v q) s                     (* 310-312 *)
  | ESetRow v r => on_qc o_r (dset v r) s                       (* 318-320 *)
  | ESetInputs l => on_obj (o_with_in l) s                      (* 86-87 *)
  | ESetOutputs l => on_obj (o_with_out l) s                    (* 95-96 *)
  | EScalar f => on_sc f s
  | ESetGround v b => on_gr (if b then set_add v else set_discard v) s   (* 326-330 *)
  | EVarType x b => on_vt (dset x b) s
  end.
(** graph_s.py 339-343, set_vdata *)
Definition a_set_vdata (v k : nat) (z : Z) (s : st) : res st :=
  let (H, o) := s in
  match nth_error H (o_vd o) with
  | Some (CVo d) =>
    match dget v d with
    | Some r => match nth_error H r with Some (CVi i) => Ok (cput H r (CVi (dset k z i)), o) | _ => Err TypeError end
    | None => Ok (cput (H ++ [CVi [(k, z)]]) (o_vd o) (CVo (dset v (length H) d)), o)
    end
  | _ => Err TypeError
  end.

(** graph_s.py 47-68, clone.  The inner dictionaries of graph are copied one by
    one; _vdata.copy() copies the outer dictionary only; _grounds and
    variable_types keep the empty values of the new object. *)
Fixpoint copy_in (H : cells) (a : dict nat) : res (cells * dict nat) :=
  match a with
  | [] => Ok (H, [])
  | (v, r) :: a' =>
    match nth_error H r with
    | Some (CNb d) => let* x := copy_in (H ++ [CNb d]) a' in let (H', l) := x in Ok (H', (v, length H) :: l)
    | _ => Err TypeError
    end
  end.
Definition a_clone (s : st) : res (cells * obj) :=
  let (H, o) := s in
  match nth_error H (o_adj o), nth_error H (o_ty o), nth_error H (o_ph o), nth_error H (o_q o), nth_error H (o_r o), nth_error H (o_vd o), nth_error H (o_sc o) with
  | Some (CAdj a), Some (CTy ty), Some (CQc ph), Some (CQc q), Some (CQc r), Some (CVo vo), Some (CSc pw sp nr fl un ze) =>
    match nth_error H nr with
    | Some (CList nodes) =>
      let* x := copy_in H a in
      let (H1, a') := x in
      let n := length H1 in
      Ok (H1 ++ [CAdj a'; CTy ty; CQc ph; CQc q; CQc r; CSet []; CVars []; CVo vo; CSc pw sp (n + 9) fl un ze; CList nodes],
          mkO n (n + 1) (n + 2) (n + 3) (n + 4) (n + 5) (n + 6) (n + 7) (n + 8) (o_vindex o) (o_nedges o) (o_in o) (o_out o))
    | _ => Err TypeError
    end
  | _, _, _, _, _, _, _ => Err TypeError
  end.
