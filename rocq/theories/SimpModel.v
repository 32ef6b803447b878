(** Model of pyzx/simplify.py: simplification strategies.  Only definitions.

    The matchers pop Python sets, so that one call of a simplifier can have
    several outcomes.  A procedure is therefore a relation between the graph it
    is called on and its outcome (the exception raised, or the returned value
    and the mutated graph), together with the predicate "every execution stops".
    Printing, [quiet] and [stats] are not modelled. *)
From Coq Require Import ZArith QArith Qcanon List Bool Arith Permutation.
From Verif Require Import CNum Base ScalarModel GraphModel RulesModel.
Import ListNotations.
Open Scope nat_scope.

Record proc (A : Type) := mkProc {
  run : graph -> res (A * graph) -> Prop;
  halts : graph -> Prop
}.
Arguments mkProc {A}. Arguments run {A}. Arguments halts {A}.

Definition pret {A} (a : A) : proc A := mkProc (fun g r => r = Ok (a, g)) (fun _ => True).
(** a deterministic, terminating step *)
Definition pdo {A} (f : graph -> res (A * graph)) : proc A := mkProc (fun g r => r = f g) (fun _ => True).
Definition pbind {A B} (p : proc A) (k : A -> proc B) : proc B := mkProc
  (fun g r => (exists e, run p g (Err e) /\ r = Err e) \/ exists a g1, run p g (Ok (a, g1)) /\ run (k a) g1 r)
  (fun g => halts p g /\ forall a g1, run p g (Ok (a, g1)) -> halts (k a) g1).
Notation "'do' x <- p ;; k" := (pbind p (fun x => k)) (at level 200, x name, p at level 100, k at level 200, right associativity).

(** [while True]: the body returns the new loop state and whether to go on *)
Inductive loop_run {A} (body : A -> proc (A * bool)) : A -> graph -> res (A * graph) -> Prop :=
| LR_err : forall a g e, run (body a) g (Err e) -> loop_run body a g (Err e)
| LR_stop : forall a g a' g', run (body a) g (Ok ((a', false), g')) -> loop_run body a g (Ok (a', g'))
| LR_go : forall a g a1 g1 r, run (body a) g (Ok ((a1, true), g1)) -> loop_run body a1 g1 r -> loop_run body a g r.
Inductive loop_halts {A} (body : A -> proc (A * bool)) : A -> graph -> Prop :=
| LH : forall a g, halts (body a) g ->
    (forall a1 g1, run (body a) g (Ok ((a1, true), g1)) -> loop_halts body a1 g1) -> loop_halts body a g.
Definition ploop {A} (body : A -> proc (A * bool)) (a : A) : proc A :=
  mkProc (loop_run body a) (loop_halts body a).

(** one matching order: a choice [c] allowed by [okc] *)
Definition pchoose {C A} (okc : graph -> C -> Prop) (f : C -> graph -> res (A * graph)) : proc A :=
  mkProc (fun g r => exists c, okc g c /\ r = f c g) (fun _ => True).

(** simplify.py 86-101: one iteration of [simp]; the result tells whether
    there were matches *)
Definition simp_once {M} (mt : graph -> res (list M * graph)) (rw : list M -> graph -> res rwout) (g : graph)
  : res (bool * graph) :=
  let* (ms, g) := mt g in
  match ms with
  | [] => Ok (false, g)
  | _ => let* o := rw ms g in let* g := apply_rw o in Ok (true, g)
  end.
(** simplify.py 56-106, simp; returns the number of iterations *)
Definition simp {C M} (okc : graph -> C -> Prop) (mt : C -> graph -> res (list M * graph))
    (rw : C -> list M -> graph -> res rwout) : proc nat :=
  ploop (fun i => do b <- pchoose okc (fun c => simp_once (mt c) (rw c)) ;;
                  pret (if b then i + 1 else i, b)) 0.

(** The candidates: without [matchf] all edges (vertices) in some order; with
    [matchf] some of them. *)
Inductive mode := AllC | Filtered.
Definition cand_ok {A} (md : mode) (all cands : list A) : Prop :=
  match md with AllC => Permutation cands all | Filtered => NoDup cands /\ incl cands all end.
(** iteration orders of sets *)
Definition set_order (so : list nat -> list nat) : Prop := forall l, Permutation (so l) l.

Definition ok_edges (md : mode) (g : graph) (c : list edge) : Prop := cand_ok md (edges g) c.
Definition ok_vertices (md : mode) (g : graph) (c : list nat) : Prop := cand_ok md (vertices g) c.
Definition ok_edges_so (md : mode) (g : graph) (c : list edge * (list nat -> list nat)) : Prop :=
  cand_ok md (edges g) (fst c) /\ set_order (snd c).
Definition ok_vertices_so (md : mode) (g : graph) (c : list nat * (list nat -> list nat)) : Prop :=
  cand_ok md (vertices g) (fst c) /\ set_order (snd c).

(** simplify.py 108-109 *)
Definition pivot_simp (md : mode) : proc nat :=
  simp (ok_edges_so md) (fun c g => Ok (match_pivot_parallel (fst c) None g, g)) (fun c => pivot (snd c)).
(** simplify.py 111-112 *)
Definition pivot_gadget_simp (md : mode) : proc nat :=
  simp (ok_edges_so md) (fun c g => match_pivot_gadget (fst c) None g) (fun c => pivot (snd c)).
(** simplify.py 114-115 *)
Definition pivot_boundary_simp (md : mode) : proc nat :=
  simp (ok_vertices_so md) (fun c g => match_pivot_boundary (fst c) None g) (fun c => pivot (snd c)).
(** simplify.py 117-118 *)
Definition lcomp_simp (md : mode) : proc nat :=
  simp (ok_vertices md) (fun c g => Ok (match_lcomp_parallel c None g, g)) (fun _ => lcomp).
(** simplify.py 120-121 *)
Definition bialg_simp : proc nat :=
  simp (ok_edges AllC) (fun c g => Ok (match_bialg_parallel c None g, g)) (fun _ => bialg).
(** simplify.py 123-124 *)
Definition spider_simp (md : mode) : proc nat :=
  simp (ok_edges md) (fun c g => Ok (match_spider_parallel c None g, g)) (fun _ => spider).
(** simplify.py 126-127 *)
Definition id_simp (md : mode) : proc nat :=
  simp (ok_vertices md) (fun c g => Ok (match_ids_parallel c None g, g)) (fun _ => remove_ids).
(** simplify.py 129-130 *)
Definition gadget_simp (md : mode) : proc nat :=
  simp (ok_vertices md) (fun c g => match_phase_gadgets c g) (fun _ => merge_phase_gadgets).
(** simplify.py 132-133 *)
Definition supplementarity_simp : proc nat :=
  simp (ok_vertices_so AllC) (fun c g => Ok (match_supplementarity (snd c) (fst c) g, g)) (fun _ => apply_supplementarity).
(** simplify.py 135-138 *)
Definition copy_simp : proc nat :=
  simp (ok_vertices AllC) (fun c g => Ok (match_copy c g, g)) (fun _ => apply_copy).
(** simplify.py 140-145 *)
Definition phase_free_simp : proc nat :=
  do i1 <- spider_simp AllC ;; do i2 <- bialg_simp ;; pret (i1 + i2).

(** simplify.py 276-284, to_gh: body of the loop over [g.vertices()] *)
Definition toggle_edges (es : list edge) (g : graph) : res graph :=
  foldM (fun g (e : edge) => let (s, t) := e in
    let* et := of_opt KeyError (edge_type g s t) in set_edge_type s t (toggle_edge et) g) es g.
Definition to_gh_one (g : graph) (v : nat) : res graph :=
  let* t := vtype_r g v in
  if vtype_eqb t XSP then toggle_edges (incident_edges g v) (set_type v ZSP g) else Ok g.
Definition to_gh (g : graph) : res graph := foldM to_gh_one (vertices g) g.
(** simplify.py 286-302, to_rg with a given predicate; [rg_default] is the
    default one, evaluated on the graph at the time of the call *)
Definition count_edges (g : graph) (v : nat) (et : etype) : nat :=
  length (filter (fun e => match edge_type g (fst e) (snd e) with Some x => etype_eqb x et | None => false end) (incident_edges g v)).
Definition rg_default (g : graph) (v : nat) : bool := Nat.ltb (count_edges g v SIMPLE) (count_edges g v HADAMARD).
Definition to_rg_one (select : graph -> nat -> bool) (g : graph) (v : nat) : res graph :=
  if select g v then
    let* t := vtype_r g v in
    if vertex_is_zx t then toggle_edges (incident_edges g v) (set_type v (toggle_vertex t) g) else Ok g
  else Ok g.
Definition to_rg (select : graph -> nat -> bool) (g : graph) : res graph := foldM (to_rg_one select) (vertices g) g.
Definition p_to_gh : proc unit := pdo (fun g => let* g := to_gh g in Ok (tt, g)).

(** simplify.py 147-160, interior_clifford_simp *)
Definition interior_clifford_simp (md : mode) : proc nat :=
  do i0 <- spider_simp md ;;
  do u <- p_to_gh ;;
  ploop (fun i =>
    do i1 <- id_simp md ;;
    do i2 <- spider_simp md ;;
    do i3 <- pivot_simp md ;;
    do i4 <- lcomp_simp md ;;
    if Nat.eqb (i1 + i2 + i3 + i4) 0 then pret (i, false) else pret (i + 1, true)) 0.
(** simplify.py 162-171, clifford_simp *)
Definition clifford_simp (md : mode) : proc nat :=
  ploop (fun i =>
    do k <- interior_clifford_simp md ;;
    do i2 <- pivot_boundary_simp md ;;
    pret (i + k, negb (Nat.eqb i2 0))) 0.
(** simplify.py 173-193, reduce_scalar *)
Definition reduce_scalar : proc nat :=
  ploop (fun i =>
    do i1 <- id_simp AllC ;;
    do i2 <- spider_simp AllC ;;
    do i3 <- pivot_simp AllC ;;
    do i4 <- lcomp_simp AllC ;;
    if negb (Nat.eqb (i1 + i2 + i3 + i4) 0) then pret (i + 1, true) else
    do i5 <- pivot_gadget_simp AllC ;;
    do i6 <- gadget_simp AllC ;;
    if negb (Nat.eqb (i5 + i6) 0) then pret (i + 1, true) else
    do i7 <- supplementarity_simp ;;
    if Nat.eqb i7 0 then pret (i, false) else pret (i + 1, true)) 0.
(** simplify.py 196-210, full_reduce *)
Definition full_reduce (md : mode) : proc unit :=
  do u <- pdo (fun g => if existsb (fun v => vtype_eqb (vty g v) HBOX) (vertices g) then Err ValueError else Ok (tt, g)) ;;
  do i <- interior_clifford_simp md ;;
  do j <- pivot_gadget_simp md ;;
  ploop (fun _ =>
    do k <- clifford_simp md ;;
    do i <- gadget_simp md ;;
    do l <- interior_clifford_simp md ;;
    do j <- pivot_gadget_simp md ;;
    pret (tt, negb (Nat.eqb (i + j) 0))) tt.
