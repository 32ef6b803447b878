(** Model of the architecture-aware Gaussian elimination: pyzx/routing/steiner.py 27-330 and the
    parts of pyzx/routing/architecture.py it uses.  Only definitions.

    An architecture is seen through the methods that are called: the vertices, edges and
    neighbours of its graph in the order in which the backend lists them, [qubit_map] and
    [vertex2qubit].  [so] is the order in which a Python set is iterated.  Trackers [x], [y] get
    the row operations in order, as in LinModel.  The generators do not look at the matrix, so
    they are modelled by the list of the values they yield; [next] on an exhausted generator
    raises StopIteration.  The printing of warnings is left out. *)
From Coq Require Import List Bool Arith.
From Verif Require Import Base LinModel.
Import ListNotations.

Definition edge := (nat * nat)%type.
Record arch := mkArch { a_vs : list nat; a_es : list edge; a_nb : nat -> list nat; a_map : list nat; a_qub : nat -> nat }.
Definition memb (x : nat) (l : list nat) : bool := existsb (Nat.eqb x) l.
Definition eeqb (e f : edge) : bool := Nat.eqb (fst e) (fst f) && Nat.eqb (snd e) (snd f).
Definition ememb (e : edge) (l : list edge) : bool := existsb (eeqb e) l.
(** architecture.py 115-117, qubit2vertex *)
Definition q2v (A : arch) (q : nat) : res nat := of_opt IndexError (nth_error (a_map A) q).
Fixpoint mapR {A B} (f : A -> res B) (l : list A) : res (list B) :=
  match l with [] => Ok [] | a :: l => let* b := f a in let* bs := mapR f l in Ok (b :: bs) end.

(** ** architecture.py 282-318, floyd_warshall *)
Definition dists := list (edge * (nat * list edge)).
Fixpoint pget (k : edge) (d : dists) : option (nat * list edge) :=
  match d with [] => None | (k', v) :: d => if eeqb k k' then Some v else pget k d end.
Fixpoint pset (k : edge) (v : nat * list edge) (d : dists) : dists :=
  match d with [] => [(k, v)] | (k', v') :: d => if eeqb k k' then (k', v) :: d else (k', v') :: pset k v d end.
(** 294-303 *)
Definition fw_edge (A : arch) (vs rec : list nat) (upper : bool) (d : dists) (e : edge) : dists :=
  let '(src, tgt) := e in
  if memb src vs && memb tgt vs then
    if upper || (memb src rec && memb tgt rec) then pset (tgt, src) (1, [(tgt, src)]) (pset (src, tgt) (1, [(src, tgt)]) d)
    else if Nat.ltb (a_qub A tgt) (a_qub A src) then pset (src, tgt) (1, [(src, tgt)]) d
    else pset (tgt, src) (1, [(tgt, src)]) d
  else d.
(** 309-317: the body of the three loops *)
Definition fw_step (upper : bool) (v0 v1 : nat) (d : dists) (v2 : nat) : res dists :=
  match pget (v0, v1) d, pget (v1, v2) d with
  | Some (n1, p1), Some (n2, p2) =>
    let shorter := match pget (v0, v2) d with None => true | Some (n, _) => Nat.ltb (n1 + n2) n end in
    if shorter then
      let d := pset (v0, v2) (n1 + n2, p1 ++ p2) d in
      if upper then
        let* a := of_opt KeyError (pget (v0, v1) d) in
        let* b := of_opt KeyError (pget (v1, v2) d) in
        let* x := of_opt KeyError (pget (v2, v1) d) in
        let* y := of_opt KeyError (pget (v1, v0) d) in
        Ok (pset (v2, v0) (fst a + fst b, snd x ++ snd y) d)
      else Ok d
    else Ok d
  | _, _ => Ok d
  end.
Definition floyd_warshall (A : arch) (vs : list nat) (upper : bool) (rec : list nat) : res dists :=
  let d := fold_left (fw_edge A vs rec upper) (a_es A) [] in
  let d := fold_left (fun d v => pset (v, v) (0, []) d) vs d in
  foldM (fun d v0 => foldM (fun d v1 => foldM (fw_step upper v0 v1) vs d) vs d) (vs ++ vs) d.

(** ** architecture.py 344-426, steiner_tree *)
Fixpoint min_by {X} (key : X -> nat) (best : X) (l : list X) : X :=
  match l with [] => best | x :: l => min_by key (if Nat.ltb (key x) (key best) then x else best) l end.
Definition set_add (v : nat) (s : list nat) : list nat := if memb v s then s else s ++ [v].
(** 382-389 *)
Definition candidates (so : list nat -> list nat) (d : dists) (remaining tree : list nat) : list (nat * (nat * list edge)) :=
  flat_map (fun node => flat_map (fun v => match pget (v, node) d with Some x => [(node, x)] | None => [] end) (so tree)) (so remaining).
(** 380-403; [steiner_pnts] is always part of [tree_vertices] *)
Fixpoint prim (so : list nat -> list nat) (fuel : nat) (d : dists) (remaining tree : list nat) : res (list nat) :=
  match remaining with
  | [] => Ok tree
  | _ =>
    match fuel with
    | O => Err OutOfFuel
    | S fuel =>
      match candidates so d remaining tree with
      | [] => Err ValueError
      | c :: cs =>
        let b := min_by (fun c => fst (snd c)) c cs in
        prim so fuel d (filter (fun n => negb (Nat.eqb n (fst b))) remaining)
          (fold_left (fun t e => set_add (snd e) t) (snd (snd b)) (set_add (fst b) tree))
      end
    end
  end.
(** 407-420: breadth first search among the tree vertices, through all edges of the architecture *)
Fixpoint bfs (A : arch) (fuel : nat) (tree visited queue : list nat) (out : list edge) : res (list edge) :=
  match queue with
  | [] => Ok out
  | node :: queue =>
    match fuel with
    | O => Err OutOfFuel
    | S fuel =>
      let ns := filter (fun v => memb v tree && negb (memb v visited)) (a_nb A node) in
      bfs A fuel tree (visited ++ ns) (queue ++ ns) (out ++ map (fun v => (a_qub A node, a_qub A v)) ns)
    end
  end.
Definition steiner_tree (so : list nat -> list nat) (A : arch) (start : nat) (qs : list nat) (upper : bool) : res (list (option edge)) :=
  let* root := q2v A start in
  let* ts := mapR (q2v A) qs in
  let ts := nodup Nat.eq_dec ts in
  if negb (forallb (fun n => if upper then Nat.leb root n else Nat.leb n root) ts) then Err AssertionError else
  if negb (Nat.eqb (length qs) (length (nodup Nat.eq_dec qs))) then Err AssertionError else
  if negb (Nat.ltb root (length (a_vs A))) then Err IndexError else
  (* 123-133, pre_calc_distances *)
  let* d := if upper then floyd_warshall A (skipn root (a_vs A)) true [] else floyd_warshall A (firstn (S root) (a_vs A)) false [] in
  let remaining := filter (fun n => negb (Nat.eqb n root)) ts in
  let* tree := prim so (length remaining) d remaining [root] in
  let* es := bfs A (S (length tree)) tree [root] [root] [] in
  Ok (map Some es ++ [None] ++ map Some (rev es) ++ [None]).

(** ** steiner.py 27-149, steiner_gauss *)
(** reading an entry *)
Definition rd (m : mat) (i j : nat) : res bool :=
  let* r := of_opt IndexError (nth_error m i) in of_opt IndexError (nth_error r j).
(** 45-52 *)
Definition radd (s : gst) (e : edge) : res gst :=
  if Nat.ltb (fst e) (rows (fst s)) && Nat.ltb (snd e) (rows (fst s)) then Ok (g_add (fst e) (snd e) s) else Err IndexError.
(** the values up to the next None *)
Fixpoint take_none (l : list (option edge)) : res (list edge * list (option edge)) :=
  match l with
  | [] => Err StopIteration
  | None :: l => Ok ([], l)
  | Some e :: l => let* r := take_none l in Ok (e :: fst r, snd r)
  end.
(** 60-64 *)
Fixpoint find_zeros (m : mat) (col : nat) (es : list edge) : res (list edge) :=
  match es with
  | [] => Ok []
  | e :: es => let* b := rd m (fst e) col in let* z := find_zeros m col es in Ok (if b then z else e :: z)
  end.
(** 66-68 *)
Definition fill_zero (col : nat) (s : gst) (e : edge) : res gst :=
  let* b := rd (fst s) (fst e) col in if b then Ok s else radd s (snd e, fst e).
(** 54-93; after 60-64 [next_check] is None, so 71-81 do nothing; when [upper] is false only one
    value is taken before line 85 *)
Definition steiner_reduce (so : list nat -> list nat) (A : arch) (col root : nat) (nodes : list nat) (upper : bool) (s : gst) : res gst :=
  let* t := steiner_tree so A root nodes upper in
  if upper then
    let* r := take_none t in
    let* z := find_zeros (fst s) col (fst r) in
    let* s := foldM (fill_zero col) (rev z) s in
    let* r2 := take_none (snd r) in
    foldM radd (fst r2) s
  else
    match t with
    | [] => Err StopIteration
    | _ :: t => let* r2 := take_none t in foldM radd (fst r2) s
    end.
(** 105 *)
Fixpoint ones (m : mat) (col : nat) (rs : list nat) : res (list nat) :=
  match rs with [] => Ok [] | r :: rs => let* b := rd m r col in let* l := ones m col rs in Ok (if b then r :: l else l) end.
(** 104-110: the next pivot column and the rows with a one *)
Fixpoint find_pivot (m : mat) (current pivot k : nat) : res (option (nat * list nat)) :=
  match k with
  | O => Ok None
  | S k => let* l := ones m pivot (seq current (rows m - current)) in
           match l with [] => find_pivot m current (S pivot) k | _ => Ok (Some (pivot, l)) end
  end.
(** 101-118; [None] stands for the break *)
Definition down_row (so : list nat -> list nat) (A : arch) (ncols : nat) (st : gst * option nat * list nat) (current : nat) : res (gst * option nat * list nat) :=
  let '(s, piv, pcols) := st in
  match piv with
  | None => Ok st
  | Some pivot =>
    let* f := find_pivot (fst s) current pivot (ncols - pivot) in
    match f with
    | None => Ok (s, None, pcols)
    | Some (p, nodes) =>
      let nodes := match nodes with n :: _ => if Nat.eqb n current then nodes else current :: nodes | [] => nodes end in
      let* s := steiner_reduce so A p current nodes true s in
      Ok (s, Some (S p), pcols ++ [p])
    end
  end.
(** 134-139 *)
Definition up_row (so : list nat -> list nat) (A : arch) (pcols : list nat) (s : gst) (current : nat) : res gst :=
  let* p := of_opt IndexError (nth_error pcols current) in
  let* nodes := ones (fst s) p (seq 0 current) in
  match nodes with [] => Ok s | _ => steiner_reduce so A p current (nodes ++ [current]) false s end.
Definition steiner_gauss (so : list nat -> list nat) (A : arch) (full : bool) (m : mat) : res (gst * nat) :=
  let* st := foldM (down_row so A (cols m)) (seq 0 (rows m)) ((m, []), Some 0, []) in
  let '(s, _, pcols) := st in
  let* s := if full then foldM (up_row so A pcols) (rev (seq 0 (length pcols))) s else Ok s in
  Ok (s, length pcols).

(** ** architecture.py 428-477, rec_steiner_tree *)
Definition edge_dec : forall a b : edge, {a = b} + {a <> b}.
Proof. decide equality; apply Nat.eq_dec. Defined.
(** [nodes.remove(x)] *)
Fixpoint rem_first (x : nat) (l : list nat) : list nat :=
  match l with [] => [] | y :: l => if Nat.eqb x y then l else y :: rem_first x l end.
(** 442-452 *)
Fixpoint rec_prim (fuel : nat) (d : dists) (nodes vertices : list nat) (edges : list edge) (pnts : list nat) : res (list nat * list edge * list nat) :=
  match nodes with
  | [] => Ok (vertices, edges, pnts)
  | _ =>
    match fuel with
    | O => Err OutOfFuel
    | S fuel =>
      match flat_map (fun node => flat_map (fun v => match pget (v, node) d with Some x => [(node, x)] | None => [] end) (vertices ++ pnts)) nodes with
      | [] => Err ValueError
      | c :: cs =>
        let b := min_by (fun c => fst (snd c)) c cs in
        let vertices := vertices ++ [fst b] in
        rec_prim fuel d (rem_first (fst b) nodes) vertices (edges ++ snd (snd b))
          (pnts ++ filter (fun v => negb (memb v vertices)) (flat_map (fun e => [fst e; snd e]) (snd (snd b))))
      end
    end
  end.
(** 455-465; the set [vs] is iterated in the order [so] *)
Fixpoint yield_down (so : list nat -> list nat) (fuel : nat) (edges : list edge) (vs : list nat) (yielded out : list edge) : res (list edge) :=
  if Nat.leb (length edges) (length yielded) then Ok out else
  match fuel with
  | O => Err OutOfFuel
  | S fuel =>
    let es := flat_map (fun e => flat_map (fun v => if Nat.eqb (fst e) v then [e] else []) (so vs)) edges in
    let vs' := fold_left (fun t e => set_add (snd e) t) es vs in
    yield_down so fuel edges (filter (fun v => negb (memb v vs)) vs')
      (fold_left (fun y e => if ememb e y then y else y ++ [e]) es yielded) (out ++ es)
  end.
(** 468-476 *)
Definition leaf_step (st : list edge * list edge) (v : nat) : list edge * list edge :=
  let '(edges, out) := st in
  let es := filter (fun e => Nat.eqb (snd e) v) edges in
  (filter (fun e => negb (Nat.eqb (snd e) v)) edges, out ++ es).
Fixpoint yield_up (fuel : nat) (vertices pnts : list nat) (edges out : list edge) : res (list edge) :=
  match edges with
  | [] => Ok out
  | _ =>
    match fuel with
    | O => Err OutOfFuel
    | S fuel =>
      let free := fun v => negb (memb v (map fst edges)) in
      let '(edges, out) := fold_left leaf_step (filter free vertices ++ filter free pnts) (edges, out) in
      yield_up fuel vertices pnts edges out
    end
  end.
Definition qedge (A : arch) (e : edge) : edge := (a_qub A (fst e), a_qub A (snd e)).
(** [eo]: the order of [list(set(edges))], 453 *)
Definition rec_steiner_tree (so : list nat -> list nat) (eo : list edge -> list edge) (fuel : nat) (A : arch) (start : nat) (terms usable rec : list nat) (upper : bool)
  : res (list edge * list edge) :=
  if negb (forallb (fun q => memb q usable) terms) then Err ValueError else
  let* start := q2v A start in
  let* us := mapR (q2v A) usable in
  let* nodes := mapR (q2v A) terms in
  let* rec := mapR (q2v A) rec in
  let* d := floyd_warshall A us upper rec in
  let* r := rec_prim (length nodes) d nodes [start] [] [] in
  let '(vertices, edges, pnts) := r in
  let edges := eo (nodup edge_dec edges) in
  let* down := yield_down so fuel edges [start] [] [] in
  let* up := yield_up fuel vertices pnts edges [] in
  Ok (map (qedge A) down, map (qedge A) up).

(** ** steiner.py 275-330, steiner_reduce_column: the CNOTs for a column [col] *)
Definition cget (col : list bool) (i : nat) : res bool := of_opt IndexError (nth_error col i).
Definition cadd (col : list bool) (a b : nat) : res (list bool) :=
  let* x := cget col a in let* y := cget col b in Ok (upd b (xorb y x) col).
Fixpoint col_zeros (col : list bool) (es : list edge) : res (list edge) :=
  match es with [] => Ok [] | e :: es => let* b := cget col (fst e) in let* z := col_zeros col es in Ok (if b then z else e :: z) end.
(** 298-302 *)
Definition col_fill (st : list bool * list edge) (e : edge) : res (list bool * list edge) :=
  let '(col, out) := st in
  let* b := cget col (fst e) in
  if b then Ok st else let* col := cadd col (snd e) (fst e) in Ok (col, out ++ [(snd e, fst e)]).
(** 312-317 *)
Definition col_down (st : list bool * list edge) (e : edge) : res (list bool * list edge) :=
  let '(col, out) := st in
  let* b := cget col (snd e) in
  if b then Ok st else let* col := cadd col (fst e) (snd e) in Ok (col, out ++ [e]).
(** 321-326 *)
Definition col_up (st : list bool * list edge) (e : edge) : res (list bool * list edge) :=
  let '(col, out) := st in let* col := cadd col (fst e) (snd e) in Ok (col, out ++ [e]).
Definition steiner_reduce_column (so : list nat -> list nat) (eo : list edge -> list edge) (fuel : nat) (A : arch) (col : list bool) (root : nat) (nodes usable rec : list nat) (upper : bool)
  : res (list edge) :=
  let* t := rec_steiner_tree so eo fuel A root nodes usable rec upper in
  let* st := if upper then let* z := col_zeros col (fst t) in foldM col_fill (rev z) (col, []) else foldM col_down (fst t) (col, []) in
  let* st := foldM col_up (snd t) st in
  Ok (snd st).
(** ** architecture.py 320-342, shortest_path (all qubits may be used); a stack is used, so the path
    is found by depth first search *)
Fixpoint dfs (A : arch) (fuel : nat) (goal : nat) (stack : list (nat * list nat)) (visited : list nat) : res (option (list nat)) :=
  match stack with
  | [] => Ok None
  | (node, path) :: stack =>
    if Nat.eqb node goal then Ok (Some path) else
    match fuel with
    | O => Err OutOfFuel
    | S fuel =>
      let ns := flat_map (fun e => filter (fun n => negb (Nat.eqb n node) && memb n (a_vs A)) [fst e; snd e])
                         (filter (fun e => Nat.eqb node (fst e) || Nat.eqb node (snd e)) (a_es A)) in
      let '(stack, visited) := fold_left (fun st n => let '(stack, visited) := st in
         if memb n visited then st else ((n, path ++ [n]) :: stack, visited ++ [n])) ns (stack, visited) in
      dfs A fuel goal stack visited
    end
  end.
Definition shortest_path (A : arch) (a b : nat) : res (option (list nat)) :=
  let* s := q2v A a in let* e := q2v A b in dfs A (S (length (a_vs A))) e [(s, [s])] [s].

(** ** steiner.py 152-272, rec_steiner_gauss; [permutation] is None *)
(** 222 and 258 *)
Definition nodes_of (m : mat) (c : nat) (rs : list nat) : res (list nat) :=
  foldM (fun l r => if Nat.eqb c r then Ok (l ++ [r]) else let* b := rd m r c in Ok (if b then l ++ [r] else l)) rs [].
(** 177-184 and 186-213; the bare [Exception] of 188 and 209 is [ValueError] here *)
Definition rec_reduce (so : list nat -> list nat) (eo : list edge -> list edge) (fuel : nat) (A : arch) (col root : nat) (nodes usable rec : list nat) (upper : bool) (s : gst) : res gst :=
  if negb (forallb (fun q => memb q usable) nodes) then Err ValueError else
  let* column := mapR (fun r => of_opt IndexError (nth_error r col)) (fst s) in
  let* cn := steiner_reduce_column so eo fuel A column root nodes usable rec upper in
  foldM (fun s e => if memb (fst e) (usable ++ rec) && memb (snd e) (usable ++ rec) then radd s e else Err ValueError) cn s.
Fixpoint insert (x : nat) (l : list nat) : list nat := match l with [] => [x] | y :: l' => if Nat.leb x y then x :: l else y :: insert x l' end.
Definition sort (l : list nat) : list nat := fold_right insert [] l.
(** 219-224: the columns of [pivots] from left to right *)
Fixpoint rec_down (so : list nat -> list nat) (eo : list edge -> list edge) (fuel : nat) (A : arch) (pivots : list nat) (s : gst) : res gst :=
  match pivots with
  | [] => Ok s
  | c :: rest => let* nodes := nodes_of (fst s) c pivots in
                 let* s := rec_reduce so eo fuel A c c nodes pivots [] true s in rec_down so eo fuel A rest s
  end.
(** 215-269; the check of 226-236 only prints *)
Fixpoint rec_step (so : list nat -> list nat) (eo : list edge -> list edge) (full : bool) (A : arch) (fuel : nat) (order : list nat) (s : gst) : res gst :=
  match fuel with
  | O => Err OutOfFuel
  | S fuel =>
    let* s := rec_down so eo (S fuel) A (sort order) s in
    if full then
      (fix up (order : list nat) (s : gst) : res gst :=
         match order with
         | [] => Ok s
         | c :: rest =>
           let* path := shortest_path A c (fold_right Nat.max 0 order) in
           match path with
           | None => Err ValueError
           | Some p =>
             let recq := map (a_qub A) p in
             let* nodes := nodes_of (fst s) c order in
             let* s := if Nat.ltb 1 (length nodes) then rec_reduce so eo (S fuel) A c c nodes order recq false s else Ok s in
             let* s := if Nat.ltb 1 (length recq) then rec_step so eo full A fuel (rev recq) s else Ok s in
             up rest s
           end
         end) order s
    else Ok s
  end.

(** 272; [order] is [architecture.reduce_order] *)
Definition rec_steiner_gauss (so : list nat -> list nat) (eo : list edge -> list edge) (fuel : nat) (A : arch) (order : list nat) (full : bool) (m : mat) : res gst :=
  rec_step so eo full A fuel order (m, []).
