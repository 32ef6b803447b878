(** Model of the greedy row reductions of pyzx/extract.py 164-347 *)
From Coq Require Import List Bool Arith ZArith NArith.
From Verif Require Import Base LinModel.
Import ListNotations.

(** [sum(row)] *)
Definition weight (r : list bool) : nat := length (filter (fun b => b) r).
(** extract.py 184: [[0 if v1 == v2 else 1 for v1, v2 in zip(a, b)]] *)
Fixpoint zipx (a b : list bool) : list bool :=
  match a, b with
  | x :: a, y :: b => xorb x y :: zipx a b
  | _, _ => []
  end.
(** extract.py 164-165 *)
Definition xor_rows (l1 l2 : list bool) : res (list bool) :=
  if Nat.ltb (length l2) (length l1) then Err IndexError else Ok (zipx l1 l2).

(** ** find_minimal_sums, extract.py 168-198 *)
(** the dictionary [combs]: its keys are never repeated, so writes append *)
Definition combsT := list (list nat * list bool).
Definition maxl (l : list nat) : nat := fold_left Nat.max l 0.
(** extract.py 182 *)
Definition krange (rv : bool) (mx r : nat) : list nat :=
  let l := seq (mx + 1) (r - (mx + 1)) in if rv then rev l else l.
(** extract.py 183-191: [inl] is the early return *)
Fixpoint fms_inner (d : mat) (idx : list nat) (l : list bool) (ks : list nat) (acc : combsT) (it : N) : list nat + (combsT * N) :=
  match ks with
  | [] => inr (acc, it)
  | k :: ks =>
    let rw := zipx l (row d k) in
    if Nat.eqb (weight rw) 1 then inl (idx ++ [k])
    else fms_inner d idx l ks (acc ++ [(idx ++ [k], rw)]) (it + 1)%N
  end.
(** extract.py 180-193 *)
Fixpoint fms_outer (rv : bool) (d : mat) (r : nat) (cs : combsT) (acc : combsT) (it : N) : option (list nat) + (combsT * N) :=
  match cs with
  | [] => inr (acc, it)
  | (idx, l) :: cs =>
    match fms_inner d idx l (krange rv (maxl idx) r) acc it with
    | inl x => inl (Some x)
    | inr (acc, it) => if N.ltb 100000 it then inl None else fms_outer rv d r cs acc it
    end
  end.
(** extract.py 178-198: the [while True] loop, with fuel *)
Fixpoint fms_loop (fuel : nat) (rv : bool) (d : mat) (r : nat) (cs : combsT) (it : N) : res (option (list nat)) :=
  match fuel with
  | O => Err OutOfFuel
  | S f =>
    match fms_outer rv d r cs [] it with
    | inl x => Ok x
    | inr ([], _) => Ok None
    | inr (cs, it) => fms_loop f rv d r cs it
    end
  end.
Definition find_minimal_sums (rv : bool) (m : mat) : res (option (list nat)) :=
  if existsb (fun r => Nat.eqb (weight r) 1) m then Ok (Some [])
  else fms_loop (S (rows m)) rv m (rows m) (map (fun i => ([i], row m i)) (seq 0 (rows m))) 0%N.

(** ** greedy_reduction, extract.py 201-229 *)
Definition look {V} (k : nat) (d : dict V) : res V := match dget k d with Some v => Ok v | None => Err KeyError end.
(** extract.py 217-225: the body of the double loop; [None] is [(-1, -1)] *)
Definition bp_step (rws : dict (list bool)) (wts : dict Z) (st : option (nat * nat) * Z) (ij : nat * nat) : res (option (nat * nat) * Z) :=
  let (i, j) := ij in
  if Nat.leb j i then Ok st
  else
    let* ri := look i rws in
    let* rj := look j rws in
    let* x := xor_rows ri rj in
    let w := Z.of_nat (weight x) in
    let* wi := look i wts in
    let st := if Z.ltb (snd st) (wi - w) then (Some (j, i), wi - w)%Z else st in
    let* wj := look j wts in
    Ok (if Z.ltb (snd st) (wj - w) then (Some (i, j), wj - w)%Z else st).
Definition best_pair (rws : dict (list bool)) (wts : dict Z) (indices : list nat) : res (option (nat * nat) * Z) :=
  foldM (bp_step rws wts) (list_prod indices indices) (None, (-10000)%Z).
(** extract.py 212-229 *)
Fixpoint greedy_loop (fuel : nat) (indices : list nat) (rws : dict (list bool)) (wts : dict Z) (result : list (nat * nat)) : res (list (nat * nat)) :=
  match fuel with
  | O => Err OutOfFuel
  | S f =>
    if Nat.leb (length indices) 1 then Ok result
    else
      let* b := best_pair rws wts indices in
      match fst b with
      | None => Err KeyError
      | Some (control, target) =>
        let* rc := look control rws in
        let* rt := look target rws in
        let* x := xor_rows rc rt in
        let* wt := look target wts in
        let* indices := remove_first control indices in
        greedy_loop f indices (dset target x rws) (dset target (wt - snd b)%Z wts) (result ++ [(control, target)])
      end
  end.
Definition init_rows (m : mat) (idx : list nat) : dict (list bool) := fold_left (fun d i => dset i (row m i) d) idx [].
Definition init_weights (m : mat) (idx : list nat) : dict Z := fold_left (fun d i => dset i (Z.of_nat (weight (row m i))) d) idx [].
Definition greedy_reduction (m : mat) : res (option (list (nat * nat))) :=
  let* o := find_minimal_sums false m in
  match o with
  | None => Ok None
  | Some idx =>
    let* l := greedy_loop (S (length idx)) idx (init_rows m idx) (init_weights m idx) [] in
    Ok (Some l)
  end.

(** ** flat_indices, extract.py 232-271; the index -1 for no rows is [None] *)
Fixpoint flat_loop (fuel : nat) (indices next : list nat) (rws : dict (list bool)) (wts : dict Z) (result : list (nat * nat)) : res (list (nat * nat) * list nat) :=
  match fuel with
  | O => Err OutOfFuel
  | S f =>
    if Nat.leb (length indices) 1 then Ok (result, indices)
    else
      let* b := best_pair rws wts indices in
      match fst b with
      | None => Err KeyError
      | Some (control, target) =>
        let* rc := look control rws in
        let* rt := look target rws in
        let* x := xor_rows rc rt in
        let* wt := look target wts in
        let rws := dset target x rws in
        let wts := dset target (wt - snd b)%Z wts in
        let* indices := remove_first control indices in
        let* indices := remove_first target indices in
        let next := next ++ [target] in
        let (indices, next) := match indices with
                               | [] => (next, [])
                               | [i] => (next ++ [i], [])
                               | _ => (indices, next)
                               end in
        flat_loop f indices next rws wts (result ++ [(control, target)])
      end
  end.
Definition flat_indices (m : mat) (indices : list nat) : res (list (nat * nat) * option nat) :=
  match indices with
  | [] => Ok ([], None)
  | _ =>
    let* o := flat_loop (S (length indices)) indices [] (init_rows m indices) (init_weights m indices) [] in
    match snd o with
    | [] => Err IndexError
    | i :: _ => Ok (fst o, Some i)
    end
  end.
(** extract.py 274-284 *)
Definition greedy_reduction_flat (m : mat) : res (option (list (nat * nat))) :=
  let* o := find_minimal_sums true m in
  match o with
  | None => Ok None
  | Some idx => let* l := flat_indices m idx in Ok (Some (fst l))
  end.

(** ** find_2_minimal_sums, extract.py 286-312 *)
Definition sum2T := (option (list nat) * combsT * N)%type.
Fixpoint f2_inner (d : mat) (idx : list nat) (l : list bool) (ks : list nat) (s1 : option (list nat)) (acc : combsT) (it : N)
  : (list nat * list nat) + sum2T :=
  match ks with
  | [] => inr (s1, acc, it)
  | k :: ks =>
    let rw := zipx l (row d k) in
    if Nat.eqb (weight rw) 1 then
      match s1 with
      | Some x => inl (x, idx ++ [k])
      | None => f2_inner d idx l ks (Some (idx ++ [k])) (acc ++ [(idx ++ [k], rw)]) (it + 1)%N
      end
    else f2_inner d idx l ks s1 (acc ++ [(idx ++ [k], rw)]) (it + 1)%N
  end.
Fixpoint f2_outer (d : mat) (r : nat) (cs : combsT) (s1 : option (list nat)) (acc : combsT) (it : N)
  : option (list nat * list nat) + sum2T :=
  match cs with
  | [] => inr (s1, acc, it)
  | (idx, l) :: cs =>
    match f2_inner d idx l (krange false (maxl idx) r) s1 acc it with
    | inl x => inl (Some x)
    | inr (s1, acc, it) => if N.ltb 100000 it then inl None else f2_outer d r cs s1 acc it
    end
  end.
Fixpoint f2_loop (fuel : nat) (d : mat) (r : nat) (cs : combsT) (s1 : option (list nat)) (it : N) : res (option (list nat * list nat)) :=
  match fuel with
  | O => Err OutOfFuel
  | S f =>
    match f2_outer d r cs s1 [] it with
    | inl x => Ok x
    | inr (_, [], _) => Ok None
    | inr (s1, cs, it) => f2_loop f d r cs s1 it
    end
  end.
Definition find_2_minimal_sums (m : mat) : res (option (list nat * list nat)) :=
  f2_loop (S (rows m)) m (rows m) (map (fun i => ([i], row m i)) (seq 0 (rows m))) None 0%N.

(** ** greedy_two_reduction, extract.py 314-347.  [so] gives the order in which
    Python lists a set of integers *)
Definition memb (x : nat) (l : list nat) : bool := existsb (Nat.eqb x) l.
Definition subset (a b : list nat) : bool := forallb (fun x => memb x b) a.
Definition sdiff (a b : list nat) : list nat := filter (fun x => negb (memb x b)) a.
Definition sinter (a b : list nat) : list nat := filter (fun x => memb x b) a.
Definition greedy_two_reduction (so : list nat -> list nat) (m : mat) : res (option (list (nat * nat))) :=
  let* o := find_2_minimal_sums m in
  match o with
  | None => Ok None
  | Some (s1, s2) =>
    let (s1, s2) := if subset s2 s1 then (s2, s1) else (s1, s2) in
    if subset s1 s2 then
      let* a := flat_indices m (so s1) in
      let* b := flat_indices m (so (sdiff s2 s1)) in
      match snd b, snd a with
      | None, _ => Ok None
      | Some r1, Some r0 => Ok (Some (fst a ++ fst b ++ [(r0, r1)]))
      | Some _, None => Err IndexError  (* not reached: [s1] is not empty *)
      end
    else
      let* a := flat_indices m (so (sinter s1 s2)) in
      let* b := flat_indices m (so (sdiff s1 s2)) in
      let* c := flat_indices m (so (sdiff s2 s1)) in
      let res0 := fst a ++ fst b ++ fst c in
      match snd a with
      | None => Ok (Some res0)
      | Some r0 =>
        match snd b, snd c with
        | Some r1, Some r2 => Ok (Some (res0 ++ [(r0, r1); (r0, r2)]))
        | _, _ => Err IndexError  (* not reached: neither set contains the other *)
        end
      end
  end.
