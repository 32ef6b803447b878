(** Circuit.verify_equality and BaseGraph.is_id. *)
From Coq Require Import ZArith QArith Qcanon List Bool Arith.
From Verif Require Import Base ScalarModel GraphModel RulesModel SimpModel GateModel CircGraphModel.
Import ListNotations.

(** the test on the reduced diagram, circuit/__init__.py 96-103 *)
Definition wires_check (n : nat) (up_to_swaps : bool) (g : graph) : bool :=
  Nat.eqb (num_vertices g) (n * 2) &&
  forallb (fun e => match edge_type g (fst e) (snd e) with Some SIMPLE => true | _ => false end) (edges g) &&
  (up_to_swaps || forallb (fun vw => connected g (fst vw) (snd vw)) (combine (ginputs g) (goutputs g))).
(** circuit/__init__.py 72-103, circuits without classical bits; [r] is a possible
    outcome.  full_reduce may make choices (which element a set pops), so the outcome is
    a relation. *)
Definition verify_equality (so : list nat -> list nat) (up_to_swaps : bool) (self other : circuit) (r : res bool) : Prop :=
  match (let* c := c_add (c_adjoint self) other in to_graph so false true c) with
  | Err e => r = Err e
  | Ok g => exists r', run (full_reduce AllC) g r' /\
      r = (let* ug := r' in Ok (wires_check (cqubits self) up_to_swaps (snd ug)))
  end.
(** graph/base.py 527-540; num_edges counts the edge set (graph_s.py 205-207) *)
Definition is_id (g : graph) : bool :=
  let inputs := ginputs g in let outputs := goutputs g in
  if negb (Nat.eqb (length inputs) (length outputs)) || negb (Nat.eqb (num_vertices g) (2 * length inputs)) || negb (Nat.eqb (length (edges g)) (length inputs))
  then false
  else forallb (fun vw => connected g (fst vw) (snd vw)) (combine inputs outputs).
