(** Model of mbqc.py: cluster_state.  Positions such as 2*q-0.8 are exact rationals; the
    grid places in [inputs] are natural numbers (a negative one never matches). *)
From Coq Require Import ZArith QArith Qcanon List Bool Arith.
From Verif Require Import CNum Base ScalarModel GraphModel RulesModel.
Import ListNotations.
Open Scope nat_scope.

Definition even (k : nat) : Qc := Qcz (2 * Z.of_nat k).
(** mbqc.py 14, [[g.add_vertex(...) for r in range(n)] for q in range(m)] *)
Definition grid_row (n q : nat) (g : graph) : graph * list nat :=
  fold_left (fun (st : graph * list nat) r => let (g, v) := add_vertex ZSP (even q) (even r) None (fst st) in (g, snd st ++ [v])) (seq 0 n) (g, []).
Definition grid (m n : nat) (g : graph) : graph * list (list nat) :=
  fold_left (fun (st : graph * list (list nat)) q => let (g, l) := grid_row n q (fst st) in (g, snd st ++ [l])) (seq 0 m) (g, []).
(** vs[q][r] *)
Definition cell (vs : list (list nat)) (q r : nat) : res nat :=
  let* l := of_opt IndexError (nth_error vs q) in of_opt IndexError (nth_error l r).
(** mbqc.py 21-23 and 26-28: a boundary joined to v by a plain wire *)
Definition attach (v : nat) (q r : Qc) (g : graph) : res (graph * nat) :=
  let (g, o) := add_vertex BOUNDARY q r None g in
  let* g := add_edge v o SIMPLE g in
  Ok (g, o).
(** mbqc.py 19-28, the body of the loops *)
Definition cluster1 (m n : nat) (ins : list (nat * nat)) (vs : list (list nat)) (st : graph * list nat * list nat) (qr : nat * nat) : res (graph * list nat * list nat) :=
  let '(g, inp, outp) := st in
  let (q, r) := qr in
  let* g := if Nat.ltb (q + 1) m then let* a := cell vs q r in let* b := cell vs (q + 1) r in add_edge a b HADAMARD g else Ok g in
  let* g := if Nat.ltb (r + 1) n then let* a := cell vs q r in let* b := cell vs q (r + 1) in add_edge a b HADAMARD g else Ok g in
  let* v := cell vs q r in
  let* (g, o) := attach v (even q - frac 4 5)%Qc (even r + frac 4 5)%Qc g in
  let outp := outp ++ [o] in
  if existsb (fun p : nat * nat => Nat.eqb (fst p) q && Nat.eqb (snd p) r) ins then
    let* (g, i) := attach v (even q + frac 4 5)%Qc (even r - frac 4 5)%Qc g in
    Ok (g, inp ++ [i], outp)
  else Ok (g, inp, outp).
(** mbqc.py 10-32, cluster_state *)
Definition cluster_state (m n : nat) (ins : list (nat * nat)) : res graph :=
  let (g, vs) := grid m n empty_graph in
  let* (gi, outp) := foldM (cluster1 m n ins vs) (list_prod (seq 0 m) (seq 0 n)) (g, [], []) in
  Ok (set_outputs outp (set_inputs (snd gi) (fst gi))).
