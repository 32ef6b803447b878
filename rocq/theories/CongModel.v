(** Model of pyzx/local_search/congruences.py: the random moves of the local
    search (genetic.py, simulated_annealing.py). *)
From Coq Require Import ZArith QArith Qcanon List Bool Arith.
From Verif Require Import CNum Base ScalarModel GraphModel RulesModel.
Import ListNotations.
Open Scope nat_scope.

(** graph_s.py 253-254, edge: the smaller end first *)
Definition gedge (s t : nat) : edge := if Nat.ltb s t then (s, t) else (t, s).
Definition add_e (s t : nat) (et : etype) (g : graph) : res graph := let (a, b) := gedge s t in add_edge a b et g.
Definition rem_e (s t : nat) (g : graph) : res graph := let (a, b) := gedge s t in remove_edge a b g.

(** congruences.py 36-41 *)
Definition toggle_conn (v1 v2 : nat) (g : graph) : res graph :=
  if connected g v1 v2 then rem_e v1 v2 g else add_e v1 v2 HADAMARD g.
(** congruences.py 43-47 (the list of pairs is list_prod) and the loop over
    itertools.combinations in 109-110 *)
Definition toggle_all (es : list edge) (g : graph) : res graph :=
  foldM (fun g (e : edge) => toggle_conn (fst e) (snd e) g) es g.
Definition toggle_subsets (vs1 vs2 : list nat) (g : graph) : res graph := toggle_all (list_prod vs1 vs2) g.
(** itertools.combinations(l, 2) *)
Fixpoint combinations (l : list nat) : list edge :=
  match l with [] => [] | a :: l' => map (fun b => (a, b)) l' ++ combinations l' end.

(** congruences.py 52-80, unfuse *)
Definition unfuse_one (v nv : nat) (g : graph) (b : nat) : res graph :=
  let* et := of_opt KeyError (edge_type g v b) in
  let* g := rem_e v b g in
  add_e nv b et g.
Definition unfuse (v : nat) (g : graph) : res (graph * nat) :=
  let p := phase g v in
  let bs := filter (fun b => vtype_eqb (vty g b) BOUNDARY) (neighbors g v) in
  let (g, nv) := add_vertex ZSP (Qcz (-1)) (Qcz (-1)) (Some p) g in
  let g := set_phase v 0%Qc g in
  let* g := add_e v nv SIMPLE g in
  let* g := foldM (unfuse_one v nv) bs g in
  Ok (g, nv).

(** congruences.py 86-97, is_lc_vertex *)
Definition is_lc_vertex (g : graph) (v : nat) : bool :=
  if Nat.ltb (length (neighbors g v)) 2 || negb (vtype_eqb (vty g v) ZSP) then false
  else forallb (fun n => negb (vtype_eqb (vty g n) BOUNDARY)) (neighbors g v).
(** congruences.py 101-124, lc_cong *)
Definition lc_cong (v : nat) (g : graph) : res graph :=
  let ns := filter (fun n => vtype_eqb (vty g n) ZSP) (neighbors g v) in
  let* g := toggle_all (combinations ns) g in
  let g := add_phases ns (frac 1 2) g in
  let (g, nv) := add_vertex ZSP (qubit g v - 1)%Qc (row g v) (Some (phase g v + frac 1 2)%Qc) g in
  let g := set_phase v (frac 1 2) g in
  add_e v nv HADAMARD g.
(** congruences.py 127-141, lc_cong2.  Stored phases lie in [0,2), so the test
    against -1/2 never succeeds. *)
Definition lc_cong2 (v : nat) (g : graph) : res graph :=
  let p := phase g v in
  if negb (qeqb p (frac 1 2)) && negb (qeqb p (frac (-1) 2)) then
    let (g, v1) := add_vertex ZSP (qubit g v - (1 + 1))%Qc (row g v) (Some (phase g v + frac 1 2)%Qc) g in
    let (g, v2) := add_vertex ZSP (qubit g v - 1)%Qc (row g v) (Some 0%Qc) g in
    let* g := add_e v1 v2 HADAMARD g in
    let* g := add_e v2 v HADAMARD g in
    Ok (set_phase v (frac (-1) 2) g)
  else Ok g.
(** congruences.py 146-152, apply_rand_lc: [r] is a possible result; with no
    candidate uniform_weights divides by zero *)
Definition rand_lc (g : graph) (r : res graph) : Prop :=
  let vs := filter (is_lc_vertex g) (vertices g) in
  (vs = [] /\ r = Err ZeroDivisionError) \/ exists v, In v vs /\ r = lc_cong2 v g.

(** congruences.py 160-164 *)
Definition is_pivot_edge (g : graph) (e : edge) : bool := vtype_eqb (vty g (fst e)) ZSP && vtype_eqb (vty g (snd e)) ZSP.
(** congruences.py 166-199, pivot_cong; [so] orders the elements of a set *)
Definition zorb (g : graph) (v : nat) : bool := vtype_eqb (vty g v) ZSP || vtype_eqb (vty g v) BOUNDARY.
Definition pivot_cong (so : list nat -> list nat) (v1 v2 : nat) (g : graph) : res graph :=
  let nhd1 := neighbors g v1 in
  let nhd2 := neighbors g v2 in
  if negb (forallb (zorb g) nhd1) || negb (forallb (zorb g) nhd2) then Err AssertionError else
  let vs1 := filter (fun v => vtype_eqb (vty g v) ZSP) nhd1 in
  let vs2 := filter (fun v => vtype_eqb (vty g v) ZSP) nhd2 in
  let shared := so (setinter vs1 vs2) in
  let only1 := so (setminus vs1 (vs2 ++ [v2])) in
  let only2 := so (setminus vs2 (vs1 ++ [v1])) in
  let* g := toggle_subsets shared only1 g in
  let* g := toggle_subsets shared only2 g in
  let* g := toggle_subsets only1 only2 g in
  let g := add_phases shared 1%Qc g in
  let* (g, n1) := unfuse v1 g in
  let* (g, n2) := unfuse v2 g in
  let* g := rem_e v1 n1 g in
  let* g := rem_e v2 n2 g in
  let* g := add_e v1 n2 HADAMARD g in
  add_e v2 n1 HADAMARD g.
(** congruences.py 204-213, apply_rand_pivot *)
Definition rand_pivot (so : list nat -> list nat) (g : graph) (r : res graph) : Prop :=
  let es := filter (is_pivot_edge g) (edges g) in
  (es = [] /\ r = Err ZeroDivisionError) \/ exists e, In e es /\ r = pivot_cong so (fst e) (snd e) g.
