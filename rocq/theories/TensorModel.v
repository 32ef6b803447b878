(** Model of pyzx/tensor.py 48-309: numpy arrays, tensorfy, tensor_to_matrix,
    compose_tensors and adjoint.  Only definitions.

    Simplifications:
    - entries are exact complex numbers; an array is a shape and a function of the index;
      the index along an axis of size 2 is a bit, along an axis of size 1 it does not matter;
    - W nodes, Z boxes, symbolic phases and ground vertices do not occur (as in GraphModel);
    - with preserve_scalar=False the array is now and then multiplied by 10^4 (lines 174-176):
      when that happens is left open (argument [up]). *)
From Coq Require Import Reals ZArith QArith Qcanon List Bool Arith.
From Verif Require Import CNum Base ScalarModel GraphModel RulesModel.
Import ListNotations.
Open Scope nat_scope.

(** ** numpy *)
Record tensor := mkT { tshape : list nat; tent : list bool -> C }.
Definition rank (t : tensor) : nat := length (tshape t).
(** sum over all indices of k axes of size 2 *)
Fixpoint bitsum (k : nat) (F : list bool -> C) : C :=
  match k with
  | O => F []
  | S k => (bitsum k (fun l => F (false :: l)) + bitsum k (fun l => F (true :: l)))%C
  end.
(** position of an axis in a list of axes *)
Fixpoint pos (p : nat) (l : list nat) : option nat :=
  match l with [] => None | q :: l => if Nat.eqb q p then Some 0 else option_map S (pos p l) end.
Fixpoint distinct (l : list nat) : bool := match l with [] => true | a :: l => negb (nmem a l) && distinct l end.
(** the axes that are not in the list, in order *)
Definition free (n : nat) (axes : list nat) : list nat := filter (fun p => negb (nmem p axes)) (seq 0 n).
(** the index with [cs] at the listed axes and [fs] at the others *)
Definition fill (n : nat) (axes : list nat) (cs fs : list bool) : list bool :=
  map (fun p => match pos p axes with
                | Some j => nth j cs false
                | None => match pos p (free n axes) with Some j => nth j fs false | None => false end
                end) (seq 0 n).
(** legal axes: different ones, of size 2 (axes of size 1 are never contracted in tensor.py) *)
Definition axes_ok (t : tensor) (axes : list nat) : bool :=
  distinct axes && forallb (fun p => Nat.eqb (nth p (tshape t) 0) 2) axes.
Definition shape_at (t : tensor) (axes : list nat) : list nat := map (fun p => nth p (tshape t) 0) axes.
(** np.tensordot(a, b, axes=(ca, cb)) *)
Definition tensordot (a b : tensor) (ca cb : list nat) : res tensor :=
  if axes_ok a ca && axes_ok b cb && Nat.eqb (length ca) (length cb) then
    let fa := free (rank a) ca in
    let fb := free (rank b) cb in
    Ok (mkT (shape_at a fa ++ shape_at b fb)
          (fun ix => bitsum (length ca) (fun cs => (tent a (fill (rank a) ca cs (firstn (length fa) ix)) * tent b (fill (rank b) cb cs (skipn (length fa) ix)))%C)))
  else Err ValueError.
(** np.transpose(t, perm) *)
Definition transpose (t : tensor) (perm : list nat) : res tensor :=
  if Nat.eqb (length perm) (rank t) && distinct perm && forallb (fun p => Nat.ltb p (rank t)) perm then
    Ok (mkT (shape_at t perm) (fun ix => tent t (fill (rank t) perm ix [])))
  else Err ValueError.
Definition tscale (z : C) (t : tensor) : tensor := mkT (tshape t) (fun ix => (z * tent t ix)%C).
Definition bits2 (f : bool -> bool -> C) : tensor := mkT [2; 2] (fun ix => f (nth 0 ix false) (nth 1 ix false)).
(** lines 122-124 *)
Definition t_had : tensor := bits2 (fun a b => (sq2p (-1) * sgn (a && b))%C).
Definition t_id2 : tensor := bits2 dlt.
Definition t_one : tensor := mkT [] (fun _ => C1).

(** ** spiders *)
(** lines 48-58 *)
Definition Z_to_tensor (arity : nat) (p : Qc) : tensor :=
  mkT (repeat 2 arity) (fun ix =>
    if Nat.eqb arity 0 then (C1 + cexp p)%C
    else if forallb (fun b => b) ix then cexp p
    else if forallb negb ix then C1 else C0).
(** lines 60-70.  np.ones(2**0) has one axis, of size 1, and is returned as it is. *)
Definition X_to_tensor (arity : nat) (p : Qc) : tensor :=
  if Nat.eqb arity 0 then mkT [1] (fun _ => (C1 + cexp p)%C)
  else mkT (repeat 2 arity) (fun ix =>
    (sq2p (- Z.of_nat arity) * (if Nat.even (length (filter (fun b => b) ix)) then C1 + cexp p else C1 - cexp p))%C).
(** lines 72-75 *)
Definition H_to_tensor (arity : nat) (p : Qc) : tensor :=
  mkT (repeat 2 arity) (fun ix => if forallb (fun b => b) ix && negb (qeqb p 0%Qc) then cexp p else C1).

(** ** sorting *)
Fixpoint ins {A} (lt : A -> A -> bool) (x : A) (l : list A) : list A :=
  match l with [] => [x] | y :: l' => if lt x y then x :: l else y :: ins lt x l' end.
Definition sorted {A} (lt : A -> A -> bool) (l : list A) : list A := fold_right (ins lt) [] l.
Definition qltb (a b : Qc) : bool := negb (Qle_bool (this b) (this a)).

(** ** pop_and_shift, lines 87-98 *)
Definition pop (v : nat) (ind : dict (list nat)) : res (nat * dict (list nat)) :=
  let* l := of_opt KeyError (dget v ind) in
  match rev l with [] => Err IndexError | i :: r => Ok (i, dset v (rev r) ind) end.
Fixpoint pops (verts : list nat) (ind : dict (list nat)) : res (list nat * dict (list nat)) :=
  match verts with
  | [] => Ok ([], ind)
  | v :: verts => let* p := pop v ind in let* q := pops verts (snd p) in Ok (fst p :: fst q, snd q)
  end.
Definition shift (i : nat) (ind : dict (list nat)) : dict (list nat) :=
  map (fun wl => (fst wl, map (fun j => if Nat.ltb i j then j - 1 else j) (snd wl))) ind.
Definition pop_and_shift (verts : list nat) (ind : dict (list nat)) : res (list nat * dict (list nat)) :=
  let* p := pops verts ind in
  Ok (fst p, fold_left (fun ind i => shift i ind) (rev (sorted Nat.ltb (fst p))) (snd p)).

(** ** tensorfy, lines 100-185 *)
(** lines 109-113 and 132-133: the rows in increasing order, with their vertices in increasing order *)
Definition has_row (g : graph) (r : Qc) (v : nat) : bool := qeqb (row g v) r.
Definition row_list (g : graph) : list (list nat) :=
  map (fun r => sorted Nat.ltb (filter (has_row g r) (vertices g))) (sorted qltb (nodup Qc_eq_dec (map (row g) (vertices g)))).
(** line 164 *)
Definition before (g : graph) (n v : nat) : bool := qltb (row g n) (row g v) || (qeqb (row g n) (row g v) && Nat.ltb n v).
(** lines 137-163: d and t *)
Definition vertex_tensor (g : graph) (v d : nat) : res (nat * tensor) :=
  let* ty := vtype_r g v in
  if nmem v (goutputs g) then
    if negb (Nat.eqb d 1) then Err ValueError
    else if negb (vtype_eqb ty BOUNDARY) then Err ValueError
    else Ok (2, t_id2)
  else
    let* p := of_opt KeyError (dget v (gphase g)) in
    match ty with
    | ZSP => Ok (d, Z_to_tensor d p)
    | XSP => Ok (d, X_to_tensor d p)
    | HBOX => Ok (d, H_to_tensor d p)
    | BOUNDARY => Err ValueError
    end.
Definition hads (n : nat) (t : tensor) : res tensor := foldM (fun t _ => tensordot t t_had [0] [0]) (repeat tt n) t.
Definition is_had (g : graph) (v n : nat) : bool := match edge_type g v n with Some HADAMARD => true | _ => false end.
(** lines 133-172 *)
Definition tensor_step (g : graph) (st : tensor * dict (list nat)) (v : nat) : res (tensor * dict (list nat)) :=
  let '(T, ind) := st in
  let* neigh := neighbors_r g v in
  if nmem v (ginputs g) then
    let* ty := vtype_r g v in
    if negb (vtype_eqb ty BOUNDARY) then Err ValueError else Ok st
  else
    let* dt := vertex_tensor g v (length neigh) in
    let d := fst dt in
    let nn := filter (fun n => before g n v) neigh in
    let nh := filter (is_had g v) nn in
    let nn := filter (fun n => negb (is_had g v n)) nn ++ nh in
    let* t := hads (length nh) (snd dt) in
    let* ci := pop_and_shift nn ind in
    let k := length (fst ci) in
    let* T := tensordot T t (fst ci) (seq (rank t - k) k) in
    Ok (T, dset v (seq (rank T + k - d) (d - k)) (snd ci)). (* line 172 in integers: rank T - d + k *)
Definition tensor_row (g : graph) (ps : bool) (up : nat -> tensor -> bool) (i : nat) (st : tensor * dict (list nat)) (v : nat) : res (tensor * dict (list nat)) :=
  let* st' := tensor_step g st v in
  if negb (nmem v (ginputs g)) && negb ps && Nat.eqb (Nat.modulo i 10) 0 && up i (fst st')
  then Ok (tscale (RtoC (10 ^ 4)) (fst st'), snd st') else Ok st'.
Fixpoint tensor_rows (g : graph) (ps : bool) (up : nat -> tensor -> bool) (i : nat) (rs : list (list nat)) (st : tensor * dict (list nat)) : res (tensor * dict (list nat)) :=
  match rs with
  | [] => Ok st
  | vs :: rs => let* st := foldM (tensor_row g ps up i) vs st in tensor_rows g ps up (S i) rs st
  end.
(** lines 124-130 *)
Definition tensor_start (g : graph) : res (tensor * dict (list nat)) :=
  let n := length (ginputs g) in
  let* T := foldM (fun T _ => tensordot T t_id2 [] []) (seq 0 n) t_one in
  Ok (T, fold_left (fun ind iv => dset (snd iv) [1 + 2 * fst iv] ind) (combine (seq 0 n) (ginputs g)) []).
Definition tensorfy (g : graph) (ps : bool) (up : nat -> tensor -> bool) : res tensor :=
  if existsb (fun v => match dget v (grindex g) with None => true | _ => false end) (vertices g) then Err KeyError
  else if Nat.eqb (length (ginputs g)) 0 && Nat.eqb (length (goutputs g)) 0 && existsb (fun v => vtype_eqb (vty g v) BOUNDARY) (vertices g) then Err ValueError
  else
    let* st := tensor_start g in
    let* st := tensor_rows g ps up 0 (row_list g) st in
    let* os := foldM (fun l o => let* x := of_opt KeyError (dget o (snd st)) in let* i := of_opt IndexError (nth_error x 0) in Ok (l ++ [i])) (goutputs g) [] in
    let* T := transpose (fst st) (os ++ seq 0 (length (ginputs g))) in
    Ok (if ps then tscale (to_number (gscalar g)) T else T).

(** ** Operations on tensors *)
(** lines 187-206: entry (r, c) of the matrix, most significant bit first *)
Fixpoint zbin (n x : nat) : list bool := match n with O => [] | S n => zbin n (Nat.div2 x) ++ [Nat.odd x] end.
Definition tensor_to_matrix (t : tensor) (inputs outputs : nat) : list (list C) :=
  map (fun r => map (fun c => tent t (zbin outputs r ++ zbin inputs c)) (seq 0 (2 ^ inputs))) (seq 0 (2 ^ outputs)).
(** lines 257-282 *)
Definition compose_tensors (t1 t2 : tensor) : res tensor :=
  if negb (Nat.eqb (rank t1) (rank t2)) then Err TypeError
  else
    let q := Nat.div2 (rank t1) in
    let* t := tensordot t1 t2 (seq 0 q) (seq q q) in
    transpose t (seq q q ++ seq 0 q).
(** lines 285-301 *)
Definition t_adjoint (t : tensor) : res tensor :=
  let q := Nat.div2 (rank t) in
  transpose (mkT (tshape t) (fun ix => Cconj (tent t ix))) (seq q q ++ seq 0 q).
(** ** Comparing tensors *)
(** all indices of n axes of size 2, in the order of t.flat *)
Fixpoint all_ix (n : nat) : list (list bool) :=
  match n with O => [[]] | S n => map (cons false) (all_ix n) ++ map (cons true) (all_ix n) end.
(** numpy's broadcasting for arrays whose axes have size 2: missing leading axes are repeated *)
Definition bc (t : tensor) (ix : list bool) : C := tent t (skipn (length ix - rank t) ix).
(** np.allclose, with exact comparison in place of the tolerances *)
Definition allclose (t1 t2 : tensor) : bool :=
  forallb (fun ix => if C_eq_dec (bc t1 ix) (bc t2 ix) then true else false) (all_ix (Nat.max (rank t1) (rank t2))).
(** the first i with t.flat[i] not zero (lines 226-229, 249-250; epsilon is taken as zero) *)
Fixpoint first_nz (t : tensor) (i : nat) (l : list (list bool)) : option (nat * C) :=
  match l with [] => None | ix :: l => if C_eq_dec (tent t ix) C0 then first_nz t (S i) l else Some (i, tent t ix) end.
(** t.flat[i] *)
Definition flat (t : tensor) (i : nat) : res C := let* ix := of_opt IndexError (nth_error (all_ix (rank t)) i) in Ok (tent t ix).
(** lines 208-232 *)
Definition compare_tensors (t1 t2 : tensor) (ps : bool) : res bool :=
  if allclose t1 t2 then Ok true
  else if ps then Ok false
  else match first_nz t1 0 (all_ix (rank t1)) with
       | None => Err ValueError
       | Some (i, a) => let* b := flat t2 i in
           if C_eq_dec b C0 then Ok false else Ok (allclose (tscale (/ a) t1) (tscale (/ b) t2))
       end.
(** lines 234-254 *)
Definition find_scalar_correction (t1 t2 : tensor) : res C :=
  match first_nz t1 0 (all_ix (rank t1)) with
  | None => Ok C0
  | Some (i, a) => let* b := flat t2 i in if C_eq_dec b C0 then Ok C0 else Ok (a / b)%C
  end.
