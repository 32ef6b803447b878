(** Model of pyzx/gflow.py.  Only definitions.
    Python sets are duplicate-free lists; [sp k] and [sc k] are the orders in which
    round k iterates the two set differences that become lists.  Grounds are not
    modelled (g.grounds() is empty).  [h] is the mutable default argument of
    Mat2.gauss, threaded through every call (see LinModel). *)
From Coq Require Import QArith Qcanon List Bool Arith.
From Verif Require Import Base LinModel GraphModel GateModel.
Import ListNotations.
Open Scope nat_scope.

Definition memb (v : nat) (l : list nat) : bool := existsb (Nat.eqb v) l.
Fixpoint filterM {A} (f : A -> res bool) (l : list A) : res (list A) :=
  match l with
  | [] => Ok []
  | x :: l => let* b := f x in let* r := filterM f l in Ok (if b then x :: r else r)
  end.
(** [any(f(w) for w in g.neighbors(v))] *)
Definition any_nb (g : graph) (f : nat -> bool) (v : nat) : res bool := let* ns := neighbors_r g v in Ok (existsb f ns).
(** extract.py 35-38, bi_adj *)
Definition bi_adj (g : graph) (vs ws : list nat) : mat := map (fun w => map (fun v => connected g v w) vs) ws.
(** gflow.py 75-79, the loop body *)
Definition pat_in (g : graph) (acc : list nat) (inp : nat) : res (list nat) :=
  let* t := vtype_r g inp in
  match t with
  | BOUNDARY => let* ns := neighbors_r g inp in Ok (acc ++ ns)
  | _ => Ok (acc ++ [inp])
  end.
(** candidates.index(u) *)
Fixpoint index_of (u : nat) (l : list nat) : res nat :=
  match l with
  | [] => Err ValueError
  | x :: l => if Nat.eqb x u then Ok 0 else let* i := index_of u l in Ok (S i)
  end.
Record gstate := mkgs { gl : dict nat; gc : dict (list nat); ghist : list nat; gcorr : list nat }.
(** gflow.py 102-109, one candidate *)
Definition try_cand (m : mat) (pp cands : list nat) (k : nat) (st : gstate) (u : nat) : res gstate :=
  let* i := index_of u cands in
  let vu := upd i [true] (map (fun _ => [false]) cands) in
  let* (x, h) := solve (ghist st) m vu in
  match x with
  | Some x =>
    let* c := mapM (fun i => of_opt IndexError (nth_error pp i)) (filter (fun i => get x i 0) (seq 0 (rows x))) in
    Ok (mkgs (dset u k (gl st)) (dset u c (gc st)) h (gcorr st ++ [u]))
  | None => Ok (mkgs (gl st) (gc st) h (gcorr st))
  end.
(** the equality of two sets *)
Definition set_eqb (a b : list nat) : bool := forallb (fun v => memb v b) a && forallb (fun v => memb v a) b.
Definition diff (a b : list nat) : list nat := filter (fun v => negb (memb v b)) a.
(** gflow.py 85-117, the while loop *)
Fixpoint gflow_loop (sp sc : nat -> list nat -> list nat) (g : graph) (pin : list nat) (fuel : nat)
    (l : dict nat) (c : dict (list nat)) (h : list nat) (processed : list nat) (k : nat) : res (option (dict nat * dict (list nat) * nat) * list nat) :=
  match fuel with
  | O => Err OutOfFuel
  | S fuel =>
    let* pp := filterM (any_nb g (fun w => negb (memb w processed))) (sp k (diff processed pin)) in
    let* cands := filterM (any_nb g (fun w => memb w pp)) (sc k (diff (vertices g) processed)) in
    let m := bi_adj g pp cands in
    let* st := foldM (try_cand m pp cands k) cands (mkgs l c h []) in
    match gcorr st with
    | [] => Ok (if set_eqb (diff (vertices g) processed) (diff (ginputs g) pin) then Some (gl st, gc st, k) else None, ghist st)
    | correct => gflow_loop sp sc g pin fuel (gl st) (gc st) (ghist st) (processed ++ correct) (S k)
    end
  end.
(** gflow.py 60-117, gflow *)
Definition gflow (sp sc : nat -> list nat -> list nat) (h : list nat) (g : graph) : res (option (dict nat * dict (list nat) * nat) * list nat) :=
  let processed := nodup Nat.eq_dec (goutputs g) in
  let* pin := foldM (pat_in g) (ginputs g) [] in
  let l := fold_left (fun l v => dset v 0 l) processed [] in
  gflow_loop sp sc g pin (S (length (vertices g))) l [] h processed 1.
