(** Model of gadget_extract.py: gadgetize and is_clifford. *)
From Coq Require Import ZArith QArith Qcanon List Bool Arith.
From Verif Require Import CNum Base ScalarModel GraphModel RulesModel.
Import ListNotations.
Open Scope nat_scope.

(** gadget_extract.py 15-16, is_clifford *)
Definition is_clifford (g : graph) (v : nat) : bool := Z.leb (qden (phase g v)) 2.
(** gadget_extract.py 37-46, the body of the loop *)
Definition gadgetize1 (g : graph) (v : nat) : res graph :=
  if vtype_eqb (vty g v) ZSP && Nat.ltb 1 (length (neighbors g v)) && negb (is_clifford g v) then
    let r := row g v in
    let (g, v1) := add_vertex ZSP (Qcz (-1)) (r + 1)%Qc None g in
    let (g, v2) := add_vertex ZSP (Qcz (-2)) (r + 1)%Qc None g in
    let* g := add_edge v v1 HADAMARD g in
    let* g := add_edge v1 v2 HADAMARD g in
    let g := set_phase v2 (phase g v) g in
    Ok (set_phase v 0%Qc g)
  else Ok g.
(** gadget_extract.py 35-46, gadgetize: the list of vertices is taken before the loop *)
Definition gadgetize (g : graph) : res graph := foldM gadgetize1 (vertices g) g.
