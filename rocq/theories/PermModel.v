(** Model of [permutation_as_swaps], pyzx/extract.py 64-82 *)
From Coq Require Import List Bool Arith Lia.
From Verif Require Import Base LinModel.
Import ListNotations.

(** a dictionary of integers as its list of items in insertion order *)
Fixpoint dlook (k : nat) (d : list (nat * nat)) : res nat :=
  match d with
  | [] => Err KeyError
  | (k', v) :: d => if Nat.eqb k k' then Ok v else dlook k d
  end.
Fixpoint dput (k v : nat) (d : list (nat * nat)) : list (nat * nat) :=
  match d with
  | [] => [(k, v)]
  | (k', v') :: d => if Nat.eqb k k' then (k', v) :: d else (k', v') :: dput k v d
  end.
(** extract.py 71: [{v: k for k, v in perm.items()}] *)
Definition dinv (d : list (nat * nat)) : list (nat * nat) := fold_left (fun acc kv => dput (snd kv) (fst kv) acc) d [].
(** extract.py 70 and 72: [[d[i] for i in range(len(d))]] *)
Fixpoint dlist (d : list (nat * nat)) (is : list nat) : res (list nat) :=
  match is with
  | [] => Ok []
  | i :: is => let* v := dlook i d in let* l := dlist d is in Ok (v :: l)
  end.
(** list reads and writes: negative indices do not occur *)
Definition lget (i : nat) (l : list nat) : res nat := match nth_error l i with Some v => Ok v | None => Err IndexError end.
Definition lput (i v : nat) (l : list nat) : res (list nat) := if Nat.ltb i (length l) then Ok (upd i v l) else Err IndexError.
(** extract.py 73-81, one iteration *)
Definition swap_step (st : (list nat * list nat) * list (nat * nat)) (i : nat) : res ((list nat * list nat) * list (nat * nat)) :=
  let '((l, linv), swaps) := st in
  let* t1 := lget i l in
  if Nat.eqb t1 i then Ok st
  else
    let* t2 := lget i linv in
    let* l := lput t2 t1 l in
    let* linv := lput t1 t2 linv in
    Ok ((l, linv), swaps ++ [(i, t2)]).
(** extract.py 64-82 *)
Definition permutation_as_swaps (perm : list (nat * nat)) : res (list (nat * nat)) :=
  let* l := dlist perm (seq 0 (length perm)) in
  let pinv := dinv perm in
  let* linv := dlist pinv (seq 0 (length pinv)) in
  let* st := foldM swap_step (seq 0 (length perm)) ((l, linv), []) in
  Ok (snd st).
