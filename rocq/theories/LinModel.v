(** Model of pyzx/linalg.py: matrices over Z2 with the chunked Gaussian
    elimination and what is built on it.

    A [Mat2] is its [data], a list of rows; entries are only ever tested for
    truth and set to 0 or 1, so they are booleans.  Rows of one matrix are
    assumed to have equal length (Python would raise IndexError or read a row
    partially otherwise).  Trackers [x] and [y] passed to [gauss] do not
    influence it, so [gauss] is modelled as computing the list of row operations;
    [x] receives [row_add(a,b)] and [y] receives [col_add(b,a)] for each
    operation [(a,b)] in order.  [math.ceil(cols / blocksize)] is computed with
    integers (Python uses a float quotient, exact below 2^53). *)
From Coq Require Import List Bool Arith NArith Lia.
From Verif Require Import Base.
Import ListNotations.

Definition mat := list (list bool).

(** reading [self.data[i][j]] *)
Definition row (m : mat) (i : nat) : list bool := nth i m [].
Definition get (m : mat) (i j : nat) : bool := nth j (row m i) false.
(** replacing entry [i] of a list: [l[i] = x] *)
Fixpoint upd {A} (i : nat) (x : A) (l : list A) {struct l} : list A :=
  match l, i with
  | [], _ => []
  | _ :: l, O => x :: l
  | y :: l, S i => y :: upd i x l
  end.

(** linalg.py 36-48: id, zeros, unit_vector *)
Definition mat_id (n : nat) : mat := map (fun i => map (fun j => Nat.eqb i j) (seq 0 n)) (seq 0 n).
Definition mat_zeros (m n : nat) : mat := map (fun _ => map (fun _ => false) (seq 0 n)) (seq 0 m).
Definition unit_vector (d i : nat) : mat := map (fun j => [Nat.eqb j i]) (seq 0 d).
(** linalg.py 110-113: rows, cols *)
Definition rows (m : mat) : nat := length m.
Definition cols (m : mat) : nat := match m with [] => 0 | r :: _ => length r end.
(** sums modulo 2 *)
Fixpoint xsum (f : nat -> bool) (n : nat) : bool :=
  match n with O => false | S n => xorb (xsum f n) (f n) end.
(** linalg.py 51-53: __mul__ *)
Definition mat_mul (a b : mat) : mat :=
  map (fun i => map (fun j => xsum (fun k => get a i k && get b k j) (length b)) (seq 0 (cols b))) (seq 0 (length a)).
(** linalg.py 108-109: transpose *)
Definition transpose (m : mat) : mat := map (fun j => map (fun i => get m i j) (seq 0 (rows m))) (seq 0 (cols m)).
(** linalg.py 114-120: row_add(r0, r1), adding row r0 to row r1 *)
Fixpoint xorl (r1 r2 : list bool) : list bool :=
  match r1, r2 with
  | [], _ => r2
  | _, [] => []
  | v :: r1, w :: r2 => (if v then negb w else w) :: xorl r1 r2
  end.
Definition row_add (r0 r1 : nat) (m : mat) : mat := upd r1 (xorl (row m r0) (row m r1)) m.
(** linalg.py 121-126: col_add(c0, c1) *)
Definition col_add (c0 c1 : nat) (m : mat) : mat :=
  map (fun d => if nth c0 d false then upd c1 (negb (nth c1 d false)) d else d) m.
(** linalg.py 127-137: row_swap, col_swap *)
Definition row_swap (r0 r1 : nat) (m : mat) : mat := let r := row m r0 in upd r1 r (upd r0 (row m r1) m).
Definition col_swap (c0 c1 : nat) (m : mat) : mat :=
  map (fun d => let v := nth c0 d false in upd c1 v (upd c0 (nth c1 d false) d)) m.
(** linalg.py 139-144: permute_rows, permute_cols *)
Definition permute_rows (p : list nat) (m : mat) : mat := map (fun i => row m i) p.
Definition permute_cols (p : list nat) (m : mat) : mat := map (fun i => map (fun j => get m i j) p) (seq 0 (rows m)).

(** ** Gaussian elimination, linalg.py 146-248 *)
(** the matrix being reduced and the row operations done so far, newest last *)
Definition gst := (mat * list (nat * nat))%type.
(** linalg.py 188-191 and its repetitions: row_add on the matrix and trackers *)
Definition g_add (a b : nat) (s : gst) : gst := (row_add a b (fst s), snd s ++ [(a, b)]).
(** the slice [data[r][i0:i1]] *)
Definition slice (i0 i1 : nat) (r : list bool) : list bool := firstn (i1 - i0) (skipn i0 r).
Fixpoint beql (a b : list bool) : bool :=
  match a, b with
  | [], [] => true
  | x :: a, y :: b => Bool.eqb x y && beql a b
  | _, _ => false
  end.
(** lookup in the dictionary [chunks] *)
Fixpoint chunk_find (t : list bool) (ch : list (list bool * nat)) : option nat :=
  match ch with
  | [] => None
  | (t', r) :: ch => if beql t t' then Some r else chunk_find t ch
  end.
(** linalg.py 182-193 and 226-237: the search for duplicate chunks over the rows [rs] *)
Definition chunk_step (i0 i1 : nat) (st : gst * list (list bool * nat)) (r : nat) : gst * list (list bool * nat) :=
  let (s, ch) := st in
  let t := slice i0 i1 (row (fst s) r) in
  if negb (existsb (fun b => b) t) then (s, ch)
  else match chunk_find t ch with
       | Some r' => (g_add r' r s, ch)
       | None => (s, ch ++ [(t, r)])
       end.
Definition chunk_phase (i0 i1 : nat) (rs : list nat) (s : gst) : gst :=
  fst (fold_left (chunk_step i0 i1) rs (s, [])).
(** linalg.py 204-209: clearing column [p] below the pivot row *)
Definition clear_step (piv p : nat) (s : gst) (r1 : nat) : gst :=
  if negb (Nat.eqb piv r1) && get (fst s) r1 p then g_add piv r1 s else s.
(** linalg.py 197-213: one column; [None] when no row from the pivot row on has a one there *)
Definition find_row (m : mat) (p piv nrows : nat) : option nat :=
  find (fun r0 => get m r0 p) (seq piv (nrows - piv)).
(** state of the first pass: matrix and operations, pivot row, pivot columns *)
Definition fst_state := (gst * nat * list nat)%type.
Definition col_step (nrows : nat) (st : fst_state) (p : nat) : fst_state :=
  let '(s, piv, pcs) := st in
  match find_row (fst s) p piv nrows with
  | None => (s, piv, pcs)
  | Some r0 =>
    let s := if Nat.eqb r0 piv then s else g_add r0 piv s in
    let s := fold_left (clear_step piv p) (seq (piv + 1) (nrows - (piv + 1))) s in
    (s, piv + 1, pcs ++ [p])
  end.
(** linalg.py 178-214: one section of columns *)
Definition sec_step (nrows ncols bs : nat) (st : fst_state) (sec : nat) : fst_state :=
  let '(s, piv, pcs) := st in
  let i0 := sec * bs in
  let i1 := Nat.min ncols ((sec + 1) * bs) in
  let s := chunk_phase i0 i1 (seq piv (nrows - piv)) s in
  fold_left (col_step nrows) (seq i0 (i1 - i0)) (s, piv, pcs).
Definition nsec (ncols bs : nat) : nat := (ncols + bs - 1) / bs.
(** linalg.py 239-246: the [while] loop popping pivot columns of this section;
    the stack is kept with its top first; [piv] is the pivot row plus one (so
    that it may reach -1), and stays 0 from then on, where it is only used as
    the end of an empty range *)
Definition up_clear (piv pcol : nat) (s : gst) (r : nat) : gst :=
  if get (fst s) r pcol then g_add piv r s else s.
Fixpoint pop_loop (i0 i1 : nat) (stack : list nat) (piv1 : nat) (s : gst) : list nat * nat * gst :=
  match stack with
  | [] => ([], piv1, s)
  | pcol :: stack' =>
    if Nat.leb i0 pcol && Nat.ltb pcol i1 then
      let s := match piv1 with O => s | S piv => fold_left (up_clear piv pcol) (seq 0 piv) s end in
      pop_loop i0 i1 stack' (piv1 - 1) s
    else (stack, piv1, s)
  end.
(** linalg.py 222-246: one section of the second pass; rows [pivot_row] down to 0 *)
Definition up_sec (ncols bs : nat) (st : gst * nat * list nat) (sec : nat) : gst * nat * list nat :=
  let '(s, piv1, stack) := st in
  let i0 := sec * bs in
  let i1 := Nat.min ncols ((sec + 1) * bs) in
  let s := chunk_phase i0 i1 (rev (seq 0 piv1)) s in
  let '(stack, piv1, s) := pop_loop i0 i1 stack piv1 s in
  (s, piv1, stack).

Record gauss_out := mkGO {
  go_mat : mat;                 (* self.data afterwards *)
  go_ops : list (nat * nat);    (* calls x.row_add(a,b) / y.col_add(b,a) *)
  go_rank : nat;                (* the returned value *)
  go_pcs : list nat             (* the list pivot_cols afterwards *)
}.
(** linalg.py 173-177: start of the first pass *)
Definition gauss_start (pcs0 : list nat) (m : mat) : fst_state := ((m, []), 0, pcs0).
(** linalg.py 146-248; [pcs0] is the list passed as (or left in) [pivot_cols] *)
Definition gauss (full : bool) (bs : nat) (pcs0 : list nat) (m : mat) : res gauss_out :=
  match bs with
  | O => Err ZeroDivisionError
  | _ =>
    let nr := rows m in
    let nc := cols m in
    let '(s, piv, pcs) := fold_left (sec_step nr nc bs) (seq 0 (nsec nc bs)) (gauss_start pcs0 m) in
    let s := if full then fst (fst (fold_left (up_sec nc bs) (rev (seq 0 (nsec nc bs))) (s, piv, rev pcs))) else s in
    Ok (mkGO (fst s) (snd s) piv pcs)
  end.

(** what the trackers become: [x] any object with row_add, [y] any with col_add *)
Definition track_x {X} (radd : nat -> nat -> X -> X) (ops : list (nat * nat)) (x : X) : X :=
  fold_left (fun x ab => radd (fst ab) (snd ab) x) ops x.
Definition track_y {Y} (cadd : nat -> nat -> Y -> Y) (ops : list (nat * nat)) (y : Y) : Y :=
  fold_left (fun y ab => cadd (snd ab) (fst ab) y) ops y.

(** ** Users of gauss. [hist] is the content of the default [pivot_cols] list,
    left behind by the previous calls; each function also returns its new content. *)
(** linalg.py 250-253 *)
Definition rank (hist : list nat) (m : mat) : res (nat * list nat) :=
  let* o := gauss false 6 hist m in Ok (go_rank o, go_pcs o).
(** linalg.py 255-273 *)
Definition factor (hist : list nat) (m : mat) : res ((mat * mat) * list nat) :=
  let* o := gauss false 6 hist m in
  let m0 := track_y col_add (go_ops o) (mat_id (rows m)) in
  let r := go_rank o in
  Ok ((map (fun row => map (fun i => nth i row false) (seq 0 r)) m0, map (fun i => row (go_mat o) i) (seq 0 r)), go_pcs o).
(** linalg.py 275-282 *)
Definition inverse (hist : list nat) (m : mat) : res (option mat * list nat) :=
  if negb (Nat.eqb (rows m) (cols m)) then Ok (None, hist)
  else
    let* o := gauss true 6 hist m in
    let inv := track_x row_add (go_ops o) (mat_id (rows m)) in
    Ok (if Nat.ltb (go_rank o) (rows m) then None else Some inv, go_pcs o).
(** the first non-zero position of a row *)
Fixpoint lead (r : list bool) : option nat :=
  match r with
  | [] => None
  | true :: _ => Some 0
  | false :: r => option_map S (lead r)
  end.
(** linalg.py 284-304; [b] is a column *)
Fixpoint solve_loop (rws : mat) (b : mat) (x : mat) : option mat :=
  match rws with
  | [] => Some x
  | r :: rws =>
    let bi := nth 0 (nth 0 b []) false in
    match lead r with
    | Some j => solve_loop rws (tl b) (upd j [bi] x)
    | None => if bi then None else solve_loop rws (tl b) x
    end
  end.
Definition solve (hist : list nat) (m b : mat) : res (option mat * list nat) :=
  let* o := gauss true 6 hist m in
  let b1 := track_x row_add (go_ops o) b in
  Ok (solve_loop (go_mat o) b1 (mat_zeros (cols (go_mat o)) 1), go_pcs o).
(** linalg.py 316-344, without the optional C extension *)
Fixpoint remove_first (j : nat) (l : list nat) : res (list nat) :=
  match l with
  | [] => Err ValueError
  | x :: l => if Nat.eqb x j then Ok l else let* l := remove_first j l in Ok (x :: l)
  end.
Definition ns_scan (m : mat) (nonp : list nat) : res (list nat * list nat) :=
  foldM (fun st r => match lead r with
                     | None => Ok st
                     | Some j => let* np := remove_first j (fst st) in Ok (np, snd st ++ [j])
                     end) m (nonp, []).
Definition ns_vector (m : mat) (pivots : list nat) (nc n : nat) : list bool :=
  fold_left (fun v rp => if nth n (fst rp) false then upd (snd rp) true v else v)
    (combine m pivots) (upd n true (repeat false nc)).
Definition nullspace (hist : list nat) (m : mat) : res (list (list bool) * list nat) :=
  let* o := gauss true 6 hist m in
  let nc := cols m in
  let* st := ns_scan (go_mat o) (seq 0 nc) in
  Ok (map (ns_vector (go_mat o) (snd st) nc) (fst st), go_pcs o).
(** linalg.py 346-374 and CNOTMaker: a CNOT as (control, target) *)
Definition cnot_of (ab : nat * nat) : nat * nat := (snd ab, fst ab).
Definition best_cnots (m : mat) (st : (N * option (list (nat * nat))) * list nat) (size : nat)
  : res ((N * option (list (nat * nat))) * list nat) :=
  let '((best, bc), hist) := st in
  let* o := gauss true size hist m in
  let cn := map cnot_of (go_ops o) in
  let len := N.of_nat (length cn) in
  Ok ((if N.ltb len best then (len, Some cn) else (best, bc)), go_pcs o).
Definition to_cnots (optimize logbs : bool) (hist : list nat) (m : mat) : res (list (nat * nat) * list nat) :=
  if negb optimize then
    let* bs := (if logbs then match rows m with O => Err ValueError | n => Ok (Nat.log2 n) end else Ok 5) in
    let* o := gauss true bs hist m in Ok (map cnot_of (go_ops o), go_pcs o)
  else
    let* st := foldM (best_cnots m) (seq 1 (rows m - 1)) ((1000000%N, None), hist) in
    match snd (fst st) with
    | None => Err AssertionError
    | Some cn => Ok (cn, snd st)
    end.
