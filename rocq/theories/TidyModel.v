(** Model of to_graph_like and is_graph_like (pyzx/simplify.py).  Only
    definitions.  The constants 0.3, 0.5, 0.7 of the new positions are exact
    rationals here. *)
From Coq Require Import ZArith QArith Qcanon List Bool Arith.
From Verif Require Import CNum Base ScalarModel GraphModel RulesModel SimpModel.
Import ListNotations.
Open Scope nat_scope.

(** itertools.combinations(l, 2) *)
Fixpoint pairs (l : list nat) : list (nat * nat) :=
  match l with [] => [] | a :: l => map (fun b => (a, b)) l ++ pairs l end.

(** simplify.py 410-450, is_graph_like *)
Definition is_graph_like (strict : bool) (g : graph) : bool :=
  if negb (forallb (fun v => vtype_eqb (vty g v) ZSP || vtype_eqb (vty g v) BOUNDARY) (vertices g)) then false else
  if negb (forallb (fun p => let '(v1, v2) := p in
       if negb (connected g v1 v2) then true else
       negb (vtype_eqb (vty g v1) ZSP && vtype_eqb (vty g v2) ZSP
             && negb (match edge_type g v1 v2 with Some e => etype_eqb e HADAMARD | None => false end)))
       (pairs (vertices g))) then false else
  if existsb (fun v => connected g v v) (vertices g) then false else
  if strict then
    if negb (forallb (fun b => Nat.eqb (vertex_degree g b) 1
         && match neighbors g b with n :: _ => vtype_eqb (vty g n) ZSP | [] => false end)
         (filter (fun v => vtype_eqb (vty g v) BOUNDARY) (vertices g))) then false else
    forallb (fun z => Nat.leb (length (filter (fun n => vtype_eqb (vty g n) BOUNDARY) (neighbors g z))) 1)
      (filter (fun v => vtype_eqb (vty g v) ZSP) (vertices g))
  else true.

(** base.py 675: add_vertex(ty=t) without position puts the vertex at (-1,-1) *)
Definition new_spider (g : graph) : graph * nat := add_vertex ZSP (Qcz (-1)) (Qcz (-1)) None g.

(** simplify.py 475-491, one neighbour n of a boundary v that has no Z
    neighbour.  Note that the type of the edge v-n is not looked at. *)
Definition bnd_nbr (v : nat) (g : graph) (n : nat) : res graph :=
  let* t := vtype_r g n in
  if vtype_eqb t BOUNDARY then
    let (g, z1) := new_spider g in
    let (g, z2) := new_spider g in
    let (g, z3) := new_spider g in
    let* g := remove_edge v n g in
    let* g := add_edge v z1 SIMPLE g in
    let* g := add_edge z1 z2 HADAMARD g in
    let* g := add_edge z2 z3 HADAMARD g in
    add_edge z3 n SIMPLE g
  else if vtype_eqb t HBOX then
    let (g, z) := new_spider g in
    let* g := remove_edge v n g in
    let* g := add_edge v z SIMPLE g in
    add_edge z n SIMPLE g
  else Err AssertionError.
(** simplify.py 466-491, body of the loop over the boundaries *)
Definition bnd_step (g : graph) (v : nat) : res graph :=
  let* ns := neighbors_r g v in
  if existsb (fun n => vtype_eqb (vty g n) ZSP) ns then Ok g else foldM (bnd_nbr v) ns g.

(** simplify.py 503-515, one boundary neighbour b of a spider v *)
Definition dummy_step (v : nat) (g : graph) (b : nat) : res graph :=
  let mix a c x y := (a * x + c * y)%Qc in
  match edge_type g v b with
  | Some SIMPLE =>
    let (g, z1) := add_vertex ZSP (mix (frac 3 10) (frac 7 10) (qubit g v) (qubit g b))
                     (mix (frac 3 10) (frac 7 10) (row g v) (row g b)) None g in
    let (g, z2) := add_vertex ZSP (mix (frac 7 10) (frac 3 10) (qubit g v) (qubit g b))
                     (mix (frac 7 10) (frac 3 10) (row g v) (row g b)) None g in
    let* g := remove_edge v b g in
    let* g := add_edge z1 z2 HADAMARD g in
    let* g := add_edge b z1 SIMPLE g in
    add_edge z2 v HADAMARD g
  | Some HADAMARD =>
    let (g, z) := add_vertex ZSP (mix (frac 1 2) (frac 1 2) (qubit g v) (qubit g b))
                    (mix (frac 1 2) (frac 1 2) (row g v) (row g b)) None g in
    let* g := remove_edge v b g in
    let* g := add_edge b z SIMPLE g in
    add_edge z v HADAMARD g
  | None => Ok g
  end.
(** simplify.py 494-515, body of the loop over the spiders *)
Definition spider_tidy (g : graph) (v : nat) : res graph :=
  let* t := vtype_r g v in
  if negb (vtype_eqb t ZSP) then Ok g else
  let* ns := neighbors_r g v in
  let bs := filter (fun n => vtype_eqb (vty g n) BOUNDARY) ns in
  if Nat.leb (length bs) 1 then Ok g else foldM (dummy_step v) (removelast bs) g.

(** simplify.py 463-517, after fusion *)
Definition tidy (g : graph) : res graph :=
  let* g := foldM bnd_step (filter (fun v => vtype_eqb (vty g v) BOUNDARY) (vertices g)) g in
  let* g := foldM spider_tidy (vertices g) g in
  if is_graph_like true g then Ok g else Err AssertionError.

(** simplify.py 454-517, to_graph_like *)
Definition to_graph_like : proc unit :=
  pbind p_to_gh (fun _ =>
  pbind (spider_simp AllC) (fun _ =>
  pdo (fun g => let* g := tidy g in Ok (tt, g)))).
