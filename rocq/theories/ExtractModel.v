(** Model of pyzx/extract.py: extract_circuit and graph_to_swaps.  Only definitions.

    Simplifications:
    - the bare [Exception("No extractable vertex found")] is [Err ValueError];
    - printing and the returned counts (CZs saved, vertices extracted) are left out;
    - which CNOTs are tried when no vertex is directly extractable (extract.py
      666-701: greedy_reduction, column_optimal_swap, Mat2.to_cnots and
      filter_duplicate_cnots) is left open: any order of the neighbours and any
      list of CNOTs between different rows may be chosen, see [pick_ok];
    - the iteration order of Python sets is left open ([so], [ord]);
    - [strict] is not in the code: [strict = true] stops the run when a new spider
      gets the number of a vertex that is a key of [gadgets] (the key of a phase
      gadget that was deleted from the graph in the meantime).  [strict = false]
      is the code. *)
From Coq Require Import ZArith QArith Qcanon List Bool Arith Permutation.
From Verif Require Import CNum Base ScalarModel GraphModel RulesModel SimpModel LinModel GateModel GflowModel PermModel.
Import ListNotations.
Open Scope nat_scope.

(** qubit_map, frontier, c.gates (in the order in which they are appended) and gadgets *)
Record xst := mkX { x_qm : dict nat; x_fr : list nat; x_gs : list gate; x_gad : dict nat }.

(** [list.remove]: the first occurrence *)
Fixpoint lremove (v : nat) (l : list nat) : res (list nat) :=
  match l with
  | [] => Err ValueError
  | u :: l => if Nat.eqb u v then Ok l else let* r := lremove v l in Ok (u :: r)
  end.
(** [[w for w in g.neighbors(v) if w in outputs][0]], extract.py 477, 503 *)
Definition out_of (outs : list nat) (g : graph) (v : nat) : res nat :=
  let* ns := neighbors_r g v in
  match filter (fun w => nmem w outs) ns with [] => Err IndexError | b :: _ => Ok b end.

(** ** clean_frontier, extract.py 492-538 *)
(** extract.py 501-510, one frontier vertex *)
Definition clean_one (qm : dict nat) (st : graph * list gate) (v : nat) : res (graph * list gate) :=
  let (g, gs) := st in
  let* q := of_opt KeyError (dget v qm) in
  let* b := out_of (goutputs g) g v in
  let* et := of_opt KeyError (edge_type g v b) in
  let* (g, gs) := match et with
    | HADAMARD => let* g := set_edge_type v b SIMPLE g in Ok (g, gs ++ [GHAD q])
    | SIMPLE => Ok (g, gs) end in
  let* p := of_opt KeyError (dget v (gphase g)) in
  Ok (if qeqb p 0%Qc then (g, gs) else (set_phase v 0%Qc g, gs ++ [ZPhase q p])).
(** [m.data[i][j] = b] *)
Definition mput (i j : nat) (b : bool) (m : mat) : res mat :=
  if Nat.ltb i (length m) && Nat.ltb j (length (LinModel.row m i)) then Ok (upd i (upd j b (LinModel.row m i)) m) else Err IndexError.
(** extract.py 514-518, one neighbour [w] of the frontier vertex [v] *)
Definition cz_nbr (qm : dict nat) (fr : list nat) (v : nat) (st : graph * mat) (w : nat) : res (graph * mat) :=
  let (g, cz) := st in
  if nmem w fr then
    let* i := of_opt KeyError (dget v qm) in
    let* j := of_opt KeyError (dget w qm) in
    let* cz := mput i j true cz in
    let* cz := mput j i true cz in
    let* g := remove_edge v w g in
    Ok (g, cz)
  else Ok st.
(** extract.py 513-518, one frontier vertex *)
Definition cz_one (qm : dict nat) (fr : list nat) (st : graph * mat) (v : nat) : res (graph * mat) :=
  let* ns := neighbors_r (fst st) v in
  foldM (cz_nbr qm fr v) ns st.

Definition b2n (b : bool) : nat := if b then 1 else 0.
Definition rsum (r : list bool) : nat := list_sum (map b2n r).
(** extract.py 351-383, max_overlap: one pair of rows (366-382); the state is the
    best pair and its common columns *)
Definition overlap_pair (cz : mat) (N : nat) (st : (nat * nat) * list nat) (ij : nat * nat) : (nat * nat) * list nat :=
  let (i, j) := ij in
  let common := filter (fun k => get cz i k && get cz j k) (seq 0 N) in
  if Nat.ltb (length (snd st)) (length common)
  then ((if Nat.ltb (list_sum (map (fun k => b2n (get cz i k)) (seq 0 N))) (list_sum (map (fun k => b2n (get cz j k)) (seq 0 N))) then (j, i) else (i, j)), common)
  else st.
(** the initial pair (-1, -1) is never used with a nonempty list *)
Definition max_overlap (cz : mat) : res ((nat * nat) * list nat) :=
  match cz with
  | [] => Err IndexError
  | r :: _ =>
    let N := length r in
    Ok (fold_left (overlap_pair cz N) (flat_map (fun i => map (fun j => (i, j)) (seq (i + 1) (N - (i + 1)))) (seq 0 N)) ((0, 0), []))
  end.
(** extract.py 526-531, one common qubit *)
Definition share_one (i j : nat) (st : mat * list gate) (qb : nat) : res (mat * list gate) :=
  let (cz, gs) := st in
  let* cz := mput i qb false cz in
  let* cz := mput j qb false cz in
  let* cz := mput qb i false cz in
  let* cz := mput qb j false cz in
  Ok (cz, gs ++ [GCZ j qb]).
(** extract.py 521-533, the while loop *)
Fixpoint share_loop (fuel : nat) (st : mat * list gate) : res (mat * list gate) :=
  let (cz, gs) := st in
  let* (ij, common) := max_overlap cz in
  if Nat.ltb 2 (length common) then
    match fuel with
    | O => Err OutOfFuel
    | S fuel =>
      let (i, j) := ij in
      let* (cz, gs) := foldM (share_one i j) common (cz, gs ++ [GCNOT i j]) in
      share_loop fuel (cz, gs ++ [GCNOT i j])
    end
  else Ok st.
(** extract.py 535-538 *)
Definition cz_gates (n : nat) (cz : mat) : list gate :=
  flat_map (fun i => flat_map (fun j => if get cz i j then [GCZ i j] else []) (seq (i + 1) (n - (i + 1)))) (seq 0 n).
Definition clean_frontier (optimize_czs : bool) (st : xst) (g : graph) : res (graph * list gate) :=
  let n := length (goutputs g) in
  let* (g, gs) := foldM (clean_one (x_qm st)) (x_fr st) (g, x_gs st) in
  let* (g, cz) := foldM (cz_one (x_qm st) (x_fr st)) (x_fr st) (g, mat_zeros n n) in
  let* (cz, gs) := if optimize_czs then share_loop (n * n) (cz, gs) else Ok (cz, gs) in
  Ok (g, gs ++ cz_gates n cz).

(** ** neighbors_of_frontier, extract.py 541-571 *)
Definition nadd (l : list nat) (v : nat) : list nat := if nmem v l then l else l ++ [v].
(** extract.py 552-570, one vertex *)
Definition nf_one (strict : bool) (gad : dict nat) (st : graph * list nat * list nat) (v : nat) : res (graph * list nat * list nat) :=
  let '(g, fr, nset) := st in
  let* ns := neighbors_r g v in
  let d := filter (fun w => negb (nmem w (goutputs g))) ns in
  match filter (fun w => nmem w (ginputs g)) d with
  | [] => Ok (g, fr, fold_left nadd d nset)
  | b :: _ =>
    if Nat.eqb (length d) 1 then let* fr := lremove v fr in Ok (g, fr, nset)
    else
      let* q := of_opt KeyError (dget b (gqindex g)) in
      let* r := of_opt KeyError (dget b (grindex g)) in
      let (g, w) := add_vertex ZSP q (r + 1)%Qc (Some 0%Qc) g in
      if strict && dmem w gad then Err AssertionError else
      let* et := of_opt KeyError (edge_type g v b) in
      let* g := remove_edge v b g in
      let* g := add_edge v w HADAMARD g in
      let* g := add_edge w b (toggle_edge et) g in
      let* d := lremove b d in
      Ok (g, fr, fold_left nadd (d ++ [w]) nset)
  end.
Definition neighbors_of_frontier (strict : bool) (gad : dict nat) (fr : list nat) (g : graph) : res (graph * list nat * list nat) :=
  foldM (nf_one strict gad) fr (g, fr, []).

(** ** remove_gadget, extract.py 574-590 *)
(** extract.py 579-589, one neighbour [w] *)
Definition rg_one (so : list nat -> list nat) (st : graph * xst * bool) (w : nat) : res (graph * xst * bool) :=
  let '(g, s, removed) := st in
  if negb (dmem w (x_gad s)) then Ok st else
  let* ns := neighbors_r g w in
  match filter (fun v => nmem v (x_fr s)) ns with
  | [] => Ok st
  | v :: _ =>
    let* nv := neighbors_r g v in
    let* o := pivot so [((w, v), ([], filter (fun o => nmem o (goutputs g)) nv))] g in
    let* g := apply_rw o in
    let* fr := lremove v (x_fr s) in
    let* q := of_opt KeyError (dget v (x_qm s)) in
    Ok (g, mkX (dset w q (x_qm s)) (fr ++ [w]) (x_gs s) (ddel w (x_gad s)), true)
  end.
Definition remove_gadget (so : list nat -> list nat) (nset : list nat) (s : xst) (g : graph) : res (graph * xst * bool) :=
  foldM (rg_one so) nset (g, s, false).

(** ** apply_cnots, extract.py 452-489 *)
(** extract.py 40-53, connectivity_from_biadj for one entry *)
Definition conn_one (m : mat) (left right : list nat) (g : graph) (ij : nat * nat) : res graph :=
  let (i, j) := ij in
  let* r := of_opt IndexError (nth_error right i) in
  let* l := of_opt IndexError (nth_error left j) in
  if get m i j then (if connected g r l then Ok g else add_edge r l HADAMARD g)
  else (if connected g r l then remove_edge r l g else Ok g).
Definition connectivity_from_biadj (m : mat) (left right : list nat) (g : graph) : res graph :=
  foldM (conn_one m left right) (list_prod (seq 0 (length right)) (seq 0 (length left))) g.
(** extract.py 459-461, one CNOT (control, target) of row numbers *)
Definition cnot_one (qm : dict nat) (fr : list nat) (st : mat * list gate) (ct : nat * nat) : res (mat * list gate) :=
  let (m, cn) := st in
  let (c, t) := ct in
  if negb (Nat.ltb c (length m) && Nat.ltb t (length m)) then Err IndexError else
  let* vc := of_opt IndexError (nth_error fr c) in
  let* vt := of_opt IndexError (nth_error fr t) in
  let* qc := of_opt KeyError (dget vc qm) in
  let* qt := of_opt KeyError (dget vt qm) in
  Ok (row_add t c m, cn ++ [GCNOT qc qt]).
(** extract.py 464-469, one row *)
Definition good_one (m : mat) (nbrs fr : list nat) (gv : dict nat) (i : nat) : res (dict nat) :=
  let r := LinModel.row m i in
  if Nat.eqb (rsum r) 1 then
    let* v := of_opt IndexError (nth_error fr i) in
    match filter (fun j => nth j r false) (seq 0 (length r)) with
    | [] => Err IndexError
    | j :: _ => let* w := of_opt IndexError (nth_error nbrs j) in Ok (dset v w gv)
    end
  else Ok gv.
(** extract.py 474-482, one extracted vertex *)
Definition take_one (outs : list nat) (st : graph * dict nat * list nat * list gate) (vw : nat * nat) : res (graph * dict nat * list nat * list gate) :=
  let '(g, qm, fr, hads) := st in
  let (v, w) := vw in
  let* q := of_opt KeyError (dget v qm) in
  let qm := dset w q qm in
  let* b := out_of outs g v in
  let* g := remove_vertices [v] g in
  let* g := add_edge w b SIMPLE g in
  let* fr := lremove v fr in
  Ok (g, qm, fr ++ [w], hads ++ [GHAD q]).
Definition apply_cnots (cnots : list (nat * nat)) (m : mat) (nbrs : list nat) (s : xst) (g : graph) : res (graph * xst) :=
  let* (m, cn) := foldM (cnot_one (x_qm s) (x_fr s)) cnots (m, []) in
  let* g := match cnots with [] => Ok g | _ => connectivity_from_biadj m nbrs (x_fr s) g end in
  let* gv := foldM (good_one m nbrs (x_fr s)) (seq 0 (length m)) [] in
  match gv with
  | [] => Err ValueError
  | _ =>
    let* (g, qm, fr, hads) := foldM (take_one (goutputs g)) gv (g, x_qm s, x_fr s, []) in
    Ok (g, mkX qm fr (x_gs s ++ cn ++ hads) (x_gad s))
  end.

(** ** extract_circuit, extract.py 593-710 *)
(** what is left open in one round: the order of the sets and the CNOTs *)
Record choice := mkCh { ch_so : list nat -> list nat; ch_ord : list nat -> list nat;
  ch_pick : list nat -> mat -> list nat * list (nat * nat) }.
Definition pick_ok (p : list nat -> mat -> list nat * list (nat * nat)) : Prop :=
  forall ns m, Permutation (fst (p ns m)) ns /\ forall c t, In (c, t) (snd (p ns m)) -> c <> t.
Definition choice_ok (g : graph) (c : choice) : Prop := set_order (ch_so c) /\ set_order (ch_ord c) /\ pick_ok (ch_pick c).

(** extract.py 645-703, one round *)
Definition round (strict optimize_czs : bool) (s : xst) (c : choice) (g : graph) : res ((xst * bool) * graph) :=
  let* (g, gs) := clean_frontier optimize_czs s g in
  let* (g, fr, nset) := neighbors_of_frontier strict (x_gad s) (x_fr s) g in
  let s := mkX (x_qm s) fr gs (x_gad s) in
  match fr with
  | [] => Ok ((s, false), g)
  | _ =>
    let nbrs := ch_ord c nset in
    let* (g, s, removed) := remove_gadget (ch_so c) nbrs s g in
    if (removed : bool) then Ok ((s, true), g) else
    let m := bi_adj g nbrs fr in
    let* (g, s) :=
      if forallb (fun r => negb (Nat.eqb (rsum r) 1)) m then
        let (nbrs, cnots) := ch_pick c nbrs m in
        apply_cnots cnots (bi_adj g nbrs fr) nbrs s g
      else apply_cnots [] m nbrs s g in
    Ok ((s, true), g)
  end.
(** extract.py 618-641: the gadgets, the qubit map and the frontier *)
Definition gadget_init (g : graph) (gad : dict nat) (v : nat) : dict nat :=
  match neighbors g v with
  | [n] => if nmem v (ginputs g) || nmem v (goutputs g) then gad else dset n v gad
  | _ => gad
  end.
Definition frontier_init (g : graph) (st : dict nat * list nat) (io : nat * nat) : res (dict nat * list nat) :=
  let (qm, fr) := st in
  let (i, o) := io in
  let* ns := neighbors_r g o in
  match ns with
  | [] => Err IndexError
  | v :: _ => if nmem v (ginputs g) then Ok st else Ok (dset v i qm, fr ++ [v])
  end.
Definition extract_init (g : graph) : res xst :=
  let gad := fold_left (gadget_init g) (vertices g) [] in
  let* (qm, fr) := foldM (frontier_init g) (combine (seq 0 (length (goutputs g))) (goutputs g)) ([], []) in
  Ok (mkX qm fr [] gad).

(** ** graph_to_swaps, extract.py 782-807 *)
(** extract.py 793-803, one output; the state is the graph, c.gates, swap_map and leftover_swaps *)
Definition swaps_one (st : graph * list gate * list (nat * nat) * bool) (qv : nat * nat) : res (graph * list gate * list (nat * nat) * bool) :=
  let '(g, gs, sm, lo) := st in
  let (q, v) := qv in
  let* ns := neighbors_r g v in
  match ns with
  | [] => Err IndexError
  | inp :: _ =>
    if negb (nmem inp (ginputs g)) then Err TypeError else
    let* et := of_opt KeyError (edge_type g v inp) in
    let* (g, gs) := match et with
      | HADAMARD => let* g := set_edge_type v inp SIMPLE g in Ok (g, GHAD q :: gs)
      | SIMPLE => Ok (g, gs) end in
    let* q2 := index_of inp (ginputs g) in
    Ok (g, gs, dput q q2 sm, lo || negb (Nat.eqb q2 q))
  end.
Definition graph_to_swaps (no_swaps : bool) (g : graph) : res (circuit * graph) :=
  let* (g, gs, sm, lo) := foldM swaps_one (combine (seq 0 (length (goutputs g))) (goutputs g)) (g, [], [], false) in
  if negb no_swaps && lo then
    let* sw := permutation_as_swaps sm in
    Ok (mkCirc (length (ginputs g)) (fold_left (fun gs tt0 => GSWAP (fst tt0) (snd tt0) :: gs) sw gs), g)
  else Ok (mkCirc (length (ginputs g)) gs, g).

(** extract.py 705-710 *)
Definition finish (up_to_perm : bool) (s : xst) (g : graph) : res (circuit * graph) :=
  let n := length (goutputs g) in
  let* (c, g) := graph_to_swaps up_to_perm g in
  let* c := c_add c (mkCirc n (rev (x_gs s))) in
  Ok (c, g).
Definition extract_circuit (strict optimize_czs up_to_perm : bool) : proc circuit :=
  do s <- pdo (fun g => let* s := extract_init g in Ok (s, g)) ;;
  do s <- ploop (fun s => pchoose choice_ok (round strict optimize_czs s)) s ;;
  do i <- id_simp AllC ;;
  pdo (finish up_to_perm s).
