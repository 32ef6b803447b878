(** Model of tcount (pyzx/simplify.py) and of SumGraph and find_stabilizer_decomp
    (pyzx/simulate.py).  Only definitions. *)
From Coq Require Import ZArith QArith Qcanon List Bool Arith.
From Verif Require Import CNum Base ScalarModel GraphModel RulesModel SimpModel MagicModel.
Import ListNotations.
Open Scope nat_scope.

(** simplify.py 304-313, tcount of a graph *)
Definition tcount_r (g : graph) : res nat :=
  foldM (fun c v => let* p := of_opt KeyError (dget v (gphase g)) in
                    Ok (if negb (qeqb p 0%Qc) && Z.ltb 2 (ScalarModel.qden p) then c + 1 else c)) (vertices g) 0.

(** simulate.py 68-76 and 78-86, SumGraph.full_reduce and SumGraph.reduce_scalar: every
    term is simplified by [p] and dropped when its scalar is flagged zero.  The terms are
    taken to be different objects. *)
Inductive sum_reduce {A} (p : proc A) : list graph -> res (list graph) -> Prop :=
| SR_nil : sum_reduce p [] (Ok [])
| SR_err : forall g gs e, run p g (Err e) -> sum_reduce p (g :: gs) (Err e)
| SR_keep : forall g gs a g' ts, run p g (Ok (a, g')) -> is_zero (gscalar g') = false -> sum_reduce p gs (Ok ts) -> sum_reduce p (g :: gs) (Ok (g' :: ts))
| SR_drop : forall g gs a g' ts, run p g (Ok (a, g')) -> is_zero (gscalar g') = true -> sum_reduce p gs (Ok ts) -> sum_reduce p (g :: gs) (Ok ts)
| SR_later : forall g gs a g' e, run p g (Ok (a, g')) -> sum_reduce p gs (Err e) -> sum_reduce p (g :: gs) (Err e).
(** simulate.py 297-305, find_stabilizer_decomp, as the set of possible outcomes; [None]
    stands for the bare Exception of replace_magic_states *)
Inductive find_stab : graph -> option (res (list graph)) -> Prop :=
| FS_count : forall g e, tcount_r g = Err e -> find_stab g (Some (Err e))
| FS_zero : forall g, tcount_r g = Ok 0 -> find_stab g (Some (Ok [g]))
| FS_none : forall g n, tcount_r g = Ok (S n) -> replace_magic_states true g None -> find_stab g None
| FS_replace : forall g n e, tcount_r g = Ok (S n) -> replace_magic_states true g (Some (Err e)) -> find_stab g (Some (Err e))
| FS_reduce : forall g n hs e, tcount_r g = Ok (S n) -> replace_magic_states true g (Some (Ok hs)) -> sum_reduce reduce_scalar hs (Err e) -> find_stab g (Some (Err e))
| FS_go : forall g n hs ts r, tcount_r g = Ok (S n) -> replace_magic_states true g (Some (Ok hs)) -> sum_reduce reduce_scalar hs (Ok ts) -> find_stabs ts r -> find_stab g r
with find_stabs : list graph -> option (res (list graph)) -> Prop :=
| FL_nil : find_stabs [] (Some (Ok []))
| FL_skip : forall h ts r, is_zero (gscalar h) = true -> find_stabs ts r -> find_stabs (h :: ts) r
| FL_none : forall h ts, is_zero (gscalar h) = false -> find_stab h None -> find_stabs (h :: ts) None
| FL_err : forall h ts e, is_zero (gscalar h) = false -> find_stab h (Some (Err e)) -> find_stabs (h :: ts) (Some (Err e))
| FL_go : forall h ts l l', is_zero (gscalar h) = false -> find_stab h (Some (Ok l)) -> find_stabs ts (Some (Ok l')) -> find_stabs (h :: ts) (Some (Ok (l ++ l')))
| FL_later : forall h ts l, is_zero (gscalar h) = false -> find_stab h (Some (Ok l)) -> find_stabs ts None -> find_stabs (h :: ts) None
| FL_later_err : forall h ts l e, is_zero (gscalar h) = false -> find_stab h (Some (Ok l)) -> find_stabs ts (Some (Err e)) -> find_stabs (h :: ts) (Some (Err e)).
(** simulate.py 307-316, max_terms_needed *)
Definition max_terms (v : nat) : nat :=
  let count := 7 ^ (v / 6) in
  let v := v - 6 * (v / 6) in
  if Nat.eqb v 5 then count * 8 else if Nat.eqb v 4 || Nat.eqb v 3 then count * 4 else if Nat.eqb v 2 || Nat.eqb v 1 then count * 2 else count.
Definition max_terms_needed (g : graph) : res nat := let* v := tcount_r g in Ok (max_terms v).
