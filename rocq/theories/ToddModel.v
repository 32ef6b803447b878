(** Model of pyzx/todd.py (the TODD algorithm on phase polynomials) and of
    pyzx/parity_network.py.  Only definitions.

    Simplifications: a set of qubits (ParitySingle.par, and the sorted tuples
    that are keys of ParityPolynomial.terms) is its characteristic vector, a list
    of [qubits] booleans; lists that Python indexes by a qubit number are assumed
    to be that long.  [random.shuffle] is a parameter [sh].
    settings.topt_command is None, so call_topt is left out, as are printing and
    todd_on_graph.  [hist] is the content of the default argument [pivot_cols] of
    Mat2.gauss, as in LinModel.  A CNOT made by parity_network is the pair
    (control, target). *)
From Coq Require Import ZArith QArith Qcanon List Bool Arith.
From Verif Require Import CNum Base ScalarModel LinModel GateModel.
Import ListNotations.
Open Scope nat_scope.

(** dictionaries with keys of any type, in order of insertion *)
Section AList.
  Context {K V : Type} (keq : K -> K -> bool).
  Fixpoint aget (d : list (K * V)) (k : K) : option V :=
    match d with [] => None | (k', v) :: d => if keq k k' then Some v else aget d k end.
  Fixpoint aset (d : list (K * V)) (k : K) (v : V) : list (K * V) :=
    match d with [] => [(k, v)] | (k', w) :: d => if keq k k' then (k', v) :: d else (k', w) :: aset d k v end.
  Fixpoint adel (d : list (K * V)) (k : K) : list (K * V) :=
    match d with [] => [] | (k', w) :: d => if keq k k' then d else (k', w) :: adel d k end.
End AList.

(** [l[i]] *)
Definition nth_err {A} (l : list A) (i : nat) : res A := match nth_error l i with Some x => Ok x | None => Err IndexError end.
(** [l.pop(i)] *)
Definition pop_at {A} (i : nat) (l : list A) : res (list A) :=
  if Nat.ltb i (length l) then Ok (firstn i l ++ skipn (S i) l) else Err IndexError.

(** ** ParityPolynomial *)
Definition par := list bool.
Definition terms := list (par * Z).
(** todd.py 69-75: add_term *)
Definition add_term (p : par) (v : Z) (t : terms) : terms :=
  let nv := match aget beql t p with Some w => ((w + v) mod 8)%Z | None => (v mod 8)%Z end in
  if Z.eqb nv 0 then adel beql t p else aset beql t p nv.
(** todd.py 86-92: to_par_matrix *)
Definition to_par_matrix (t : terms) : mat := transpose (flat_map (fun pv => repeat (fst pv) (Z.to_nat (snd pv))) t).

(** [int(float(q))]: truncation towards zero *)
Definition qtrunc (q : Qc) : Z := Z.quot (Qnum (this q)) (Zpos (Qden (this q))).
(** todd.py 185-203: one gate of phase_gates_to_poly.  [isinstance(g, CZ)] also
    holds for the subclasses XCX and SWAP of CZ (gates.py 616, 634) *)
Definition poly_gate (st : terms * mat) (g : gate) : res (terms * mat) :=
  let (t, ex) := st in
  match g with
  | GZ _ tgt p => let* r := nth_err ex tgt in Ok (add_term r (qtrunc (p * Qcz 4)) t, ex)
  | GCZ ctrl tgt | GXCX ctrl tgt | GSWAP ctrl tgt =>
    let* p1 := nth_err ex tgt in let* p2 := nth_err ex ctrl in
    Ok (add_term (xorl p1 p2) 6 (add_term p2 2 (add_term p1 2 t)), ex)
  | GCNOT ctrl tgt =>
    let* p1 := nth_err ex tgt in let* p2 := nth_err ex ctrl in
    Ok (t, upd tgt (xorl p2 p1) ex)
  | _ => Err TypeError
  end.
(** todd.py 177-205: phase_gates_to_poly *)
Definition phase_gates_to_poly (gates : list gate) (qubits : nat) : res (terms * mat) :=
  foldM poly_gate gates ([], mat_id qubits).

(** ** MultiLinearPoly *)
Record mlp := mkML { ml_l : list (nat * Z); ml_q : list ((nat * nat) * Z); ml_c : list (nat * nat * nat) }.
Definition pair_eqb (a b : nat * nat) : bool := Nat.eqb (fst a) (fst b) && Nat.eqb (snd a) (snd b).
Definition triple_eqb (a b : nat * nat * nat) : bool := pair_eqb (fst a) (fst b) && Nat.eqb (snd a) (snd b).
Definition mult (subtract : bool) : Z := if subtract then (-1)%Z else 1%Z.
(** todd.py 125-126 *)
Definition add_l (sub : bool) (v : nat) (m : mlp) : mlp :=
  mkML (aset Nat.eqb (ml_l m) v (match aget Nat.eqb (ml_l m) v with None => mult sub | Some w => ((w + mult sub) mod 8)%Z end)) (ml_q m) (ml_c m).
(** todd.py 130-131 *)
Definition add_q (sub : bool) (v1 v2 : nat) (m : mlp) : mlp :=
  mkML (ml_l m) (aset pair_eqb (ml_q m) (v1, v2) (match aget pair_eqb (ml_q m) (v1, v2) with
     None => if sub then 1%Z else 3%Z | Some w => ((w - mult sub) mod 4)%Z end)) (ml_c m).
(** todd.py 135-136 *)
Definition add_c (v1 v2 v3 : nat) (m : mlp) : mlp :=
  mkML (ml_l m) (ml_q m)
    (if existsb (triple_eqb (v1, v2, v3)) (ml_c m) then filter (fun t => negb (triple_eqb (v1, v2, v3) t)) (ml_c m)
     else ml_c m ++ [(v1, v2, v3)]).
(** todd.py 118-136: add_parity; the loops run over the positions after the current one *)
Fixpoint par_c (v1 v2 : nat) (p : list nat) (m : mlp) : mlp :=
  match p with [] => m | v3 :: p => par_c v1 v2 p (add_c v1 v2 v3 m) end.
Fixpoint par_b (sub : bool) (v1 : nat) (p : list nat) (m : mlp) : mlp :=
  match p with [] => m | v2 :: p => par_b sub v1 p (par_c v1 v2 p (add_q sub v1 v2 m)) end.
Fixpoint par_a (sub : bool) (p : list nat) (m : mlp) : mlp :=
  match p with [] => m | v1 :: p => par_a sub p (par_b sub v1 p (add_l sub v1 m)) end.
Definition support (c : list bool) : list nat := filter (fun i => nth i c false) (seq 0 (length c)).
Definition add_parity (sub : bool) (m : mlp) (c : list bool) : mlp := par_a sub (support c) m.
(** todd.py 138-140: add_par_matrix *)
Definition add_par_matrix (sub : bool) (a : mat) (m : mlp) : mlp := fold_left (add_parity sub) (transpose a) m.
(** todd.py 142-162: to_clifford *)
Definition cliff_l (gs : list gate) (tv : nat * Z) : res (list gate) :=
  let (t, v) := tv in
  if Z.eqb v 2 then Ok (gs ++ [Sg t false])
  else if Z.eqb v 4 then Ok (gs ++ [Zg t])
  else if Z.eqb v 6 then Ok (gs ++ [Sg t true])
  else if Z.eqb v 0 then Ok gs else Err ValueError.
Definition cliff_q (gs : list gate) (tv : (nat * nat) * Z) : res (list gate) :=
  let '((t1, t2), v) := tv in
  if Z.eqb v 2 then Ok (gs ++ [GCZ t1 t2])
  else if Z.eqb v 0 then Ok gs else Err ValueError.
Definition to_clifford (m : mlp) : res (list gate) :=
  let* gs := foldM cliff_l (ml_l m) [] in
  let* gs := foldM cliff_q (ml_q m) gs in
  match ml_c m with [] => Ok gs | _ => Err ValueError end.

(** ** The TODD step *)
Definition andl (a b : list bool) : list bool := map (fun p => fst p && snd p) (combine a b).
(** todd.py 215-246: the row of xi for alpha < beta < gamma, if there is one *)
Definition xi_row (m : mat) (z : list bool) (al be ga : nat) : list (list bool) :=
  let ra := row m al in let rb := row m be in let rg := row m ga in
  let rab := andl ra rb in
  if nth al z false then
    let rbg := andl rb rg in
    if negb (nth be z false) then
      if negb (nth ga z false) then [rbg] else [xorl rbg rab]
    else
      let rag := andl ra rg in
      if negb (nth ga z false) then [xorl rbg rag] else [xorl (xorl rab rag) rbg]
  else if nth be z false then
    let rag := andl ra rg in
    if nth ga z false then [xorl rab rag] else [rag]
  else if nth ga z false then [rab] else [].
(** todd.py 209-248: xi *)
Definition xi (m : mat) (z : list bool) : mat :=
  let n := rows m in
  flat_map (fun al => flat_map (fun be => flat_map (fun ga => xi_row m z al be ga)
    (seq (be + 1) (n - (be + 1)))) (seq (al + 1) (n - (al + 1)))) (seq 0 n) ++ m.
(** todd.py 257-265: the sum of columns a and b *)
Definition col_diff (m : mat) (a b : nat) : list bool :=
  map (fun r => if nth a r false then negb (nth b r false) else nth b r false) m.
(** todd.py 251-273: find_todd_match *)
Definition todd_pairs (nc : nat) : list (nat * nat) :=
  flat_map (fun a => map (fun b => (a, b)) (seq (a + 1) (nc - (a + 1)))) (seq 0 nc).
Fixpoint find_loop (m : mat) (ps : list (nat * nat)) (hist : list nat)
  : res (option (nat * nat * list bool * list bool) * list nat) :=
  match ps with
  | [] => Ok (None, hist)
  | (a, b) :: ps =>
    let z := col_diff m a b in
    let* o := nullspace hist (xi m z) in
    match find (fun y => xorb (nth a y false) (nth b y false)) (fst o) with
    | Some y => Ok (Some (a, b, z, y), snd o)
    | None => find_loop m ps (snd o)
    end
  end.
Definition find_todd_match (hist : list nat) (m : mat) := find_loop m (todd_pairs (cols m)) hist.

(** todd.py 281-295: one round of remove_trivial_cols; [None] when there is nothing to remove *)
Fixpoint rm_dup (c : list bool) (cs : list (list bool)) : option (list (list bool)) :=
  match cs with [] => None | d :: cs => if beql c d then Some cs else option_map (cons d) (rm_dup c cs) end.
Fixpoint rt_step (cs : list (list bool)) : option (list (list bool)) :=
  match cs with
  | [] => None
  | c :: cs =>
    if negb (existsb (fun b => b) c) then Some cs
    else match rm_dup c cs with Some cs => Some cs | None => option_map (cons c) (rt_step cs) end
  end.
(** todd.py 276-296: remove_trivial_cols *)
Fixpoint rt_loop (fuel : nat) (cs : list (list bool)) : res (list (list bool)) :=
  match rt_step cs with
  | None => Ok cs
  | Some cs => match fuel with O => Err OutOfFuel | S f => rt_loop f cs end
  end.
Definition remove_trivial_cols (cs : list (list bool)) : res (list (list bool)) := rt_loop (length cs) cs.
(** todd.py 306-309 *)
Definition flip_cols (z y : list bool) (cs : list (list bool)) : list (list bool) :=
  map (fun iy => if nth (fst iy) y false then map (fun vz : bool * bool => if snd vz then negb (fst vz) else fst vz) (combine (snd iy) z) else snd iy)
    (combine (seq 0 (length cs)) cs).
Definition nones (y : list bool) : nat := length (filter (fun b => b) y).
(** todd.py 298-317: do_todd_single *)
Definition do_todd_single (hist : list nat) (m : mat) : res ((mat * Z) * list nat) :=
  let* o := find_todd_match hist m in
  match fst o with
  | None => Ok ((m, 0%Z), snd o)
  | Some (a, b, z, y) =>
    let cs := flip_cols z y (transpose m) in
    let cs := if Nat.odd (nones y) then cs ++ [z] else cs in
    let* cs := pop_at b cs in
    let* cs := pop_at a cs in
    let* cs := remove_trivial_cols cs in
    Ok ((transpose cs, (Z.of_nat (cols m) - Z.of_nat (length cs))%Z), snd o)
  end.
(** todd.py 330-335 *)
Fixpoint todd_loop (fuel : nat) (hist : list nat) (m : mat) : res (mat * list nat) :=
  match fuel with
  | O => Err OutOfFuel
  | S f =>
    let* o := do_todd_single hist m in
    if Z.eqb (snd (fst o)) 0 then Ok (fst (fst o), snd o) else todd_loop f (snd o) (fst (fst o))
  end.
(** todd.py 319-335: todd_iter *)
Definition todd_iter (sh : list (list bool) -> list (list bool)) (hist : list nat) (m : mat) : res (mat * list nat) :=
  let* cs := remove_trivial_cols (transpose m) in
  let m := transpose (sh cs) in
  if Nat.eqb (cols m) 0 || Nat.eqb (rows m) 0 then Ok (m, hist)
  else todd_loop (S (cols m)) hist m.

(** ** parity_network.py *)
(** an entry of the stack; [None] is the target -1 *)
Definition entry := (list (list bool) * list nat * option nat)%type.
(** parity_network.py 39: [y[j] = (y[i]+y[j])%2] *)
Definition pn_add (i j : nat) (y : list bool) : list bool := upd j (xorb (nth i y false) (nth j y false)) y.
Definition pn_ent (f : list bool -> list bool) (e : entry) : entry := let '(s, is, i) := e in (map f s, is, i).
(** parity_network.py 32-42: the inner loop; the stack is kept with its top first *)
Fixpoint pn_inner (fuel n i : nat) (s : list (list bool)) (q : list entry) (c : list (nat * nat))
  : res (list (list bool) * list entry * list (nat * nat)) :=
  match find (fun j => negb (Nat.eqb j i) && forallb (fun y => nth j y false) s) (seq 0 n) with
  | None => Ok (s, q, c)
  | Some j =>
    match fuel with
    | O => Err OutOfFuel
    | S f => pn_inner f n i (map (pn_add i j) s) (map (pn_ent (pn_add i j)) q) (c ++ [(j, i)])
    end
  end.
(** parity_network.py 43: the key, and the first element of I with the largest key *)
Definition pn_key (s : list (list bool)) (j : nat) : nat :=
  Nat.max (length (filter (fun y => negb (nth j y false)) s)) (length (filter (fun y => nth j y false) s)).
Definition pn_max (s : list (list bool)) (j0 : nat) (is : list nat) : nat :=
  fold_left (fun b j => if Nat.ltb (pn_key s b) (pn_key s j) then j else b) is j0.
(** parity_network.py 28-51: the outer loop *)
Fixpoint pn_loop (fuel n : nat) (q : list entry) (c : list (nat * nat)) : res (list (nat * nat)) :=
  match q with
  | [] => Ok c
  | (s, is, i) :: q =>
    match fuel with
    | O => Err OutOfFuel
    | S f =>
      match s, is with
      | [], _ | _, [] => pn_loop f n q c
      | _, i0 :: is' =>
        let* r := match i with Some t => pn_inner n n t s q c | None => Ok (s, q, c) end in
        let '(s, q, c) := r in
        let j := pn_max s i0 is' in
        let s0 := filter (fun y => negb (nth j y false)) s in
        let s1 := filter (fun y => nth j y false) s in
        let ip := filter (fun k => negb (Nat.eqb k j)) is in
        let e1 := match i with
                  | None => (s1, ip, Some j)
                  | Some t => (s1, filter (fun k => negb (Nat.eqb k t)) is, Some t)
                  end in
        pn_loop f n ((s0, ip, i) :: e1 :: q) c
      end
    end
  end.
(** a number of rounds that is always enough (theorem) *)
Definition pn_fuel (n : nat) (s : list (list bool)) : nat := S (2 * (2 * length s * (n + 1) + n)).
(** parity_network.py 22-52 *)
Definition parity_network (n : nat) (s : list (list bool)) : res (list (nat * nat)) :=
  pn_loop (pn_fuel n s) n [(s, seq 0 n, None)] [].

(** ** todd_simp *)
(** todd.py 397-403: columns of weight one become T gates, the others are kept *)
Definition split_cols (n : nat) (cs : list (list bool)) : res (list gate * list (list bool)) :=
  foldM (fun st col =>
    if Nat.eqb (nones col) 1 then
      match find (fun i => nth i col false) (seq 0 n) with
      | Some i => Ok (fst st ++ [Tg i false], snd st)
      | None => Err StopIteration
      end
    else Ok (fst st, snd st ++ [col])) cs ([], []).
Definition inb (p : list bool) (l : list (list bool)) : bool := existsb (beql p) l.
Fixpoint index_of (p : list bool) (l : list (list bool)) : nat :=
  match l with [] => 0 | d :: l => if beql p d then 0 else S (index_of p l) end.
(** [list.remove] of an element that is there *)
Fixpoint rm_first (p : list bool) (l : list (list bool)) : list (list bool) :=
  match l with [] => [] | d :: l => if beql p d then l else d :: rm_first p l end.
(** todd.py 429-436 *)
Definition place_step (st : list gate * mat * list (list bool)) (cn : nat * nat) : list gate * mat * list (list bool) :=
  let '(gs, m, ps) := st in
  let gs := gs ++ [GCNOT (fst cn) (snd cn)] in
  let m := row_add (fst cn) (snd cn) m in
  match find (fun p => inb p m) ps with
  | Some p => (gs ++ [Tg (index_of p m) false], m, rm_first p ps)
  | None => (gs, m, ps)
  end.
Definition cnots_mat (n : nat) (cn : list (nat * nat)) : mat := fold_left (fun m c => row_add (fst c) (snd c) m) cn (mat_id n).
(** todd.py 386-441: todd_simp; the returned dictionary is the identity *)
Definition todd_simp (sh : list (list bool) -> list (list bool)) (hist : list nat) (gates : list gate) (qubits : nat)
  : res (list gate * list (nat * nat)) :=
  let* pp := phase_gates_to_poly gates qubits in
  let m := to_par_matrix (fst pp) in
  let* o := todd_iter sh hist m in
  let (m2, hist) := o in
  let* sp := split_cols qubits (transpose m2) in
  let (newgates, parities) := sp in
  let p := add_par_matrix true m2 (add_par_matrix false m (mkML [] [] [])) in
  let* cl := to_clifford p in
  let newgates := newgates ++ cl in
  let* cnots := parity_network qubits parities in
  let* inv := inverse hist (cnots_mat qubits cnots) in
  let* mi := match fst inv with Some i => Ok i | None => Err AttributeError end in
  let* cl := to_cnots true false (snd inv) (mat_mul (snd pp) mi) in
  let cnots := cnots ++ map (fun c => (snd c, fst c)) (rev (fst cl)) in
  let '(newgates, _, parities) := fold_left place_step cnots (newgates, mat_id qubits, parities) in
  match parities with
  | [] => Ok (newgates, map (fun i => (i, i)) (seq 0 qubits))
  | _ => Err ValueError
  end.
