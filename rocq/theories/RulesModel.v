(** Model of pyzx/rules.py: matchers and rewrites.  Only definitions.

    Conventions, valid for the whole file:
    - A Python [set] of candidates is popped in an unspecified order.  Every
      matcher takes that order as an extra argument [cands]: elements are
      processed from left to right and an element that has been discarded in
      the meantime is skipped.  Theorems quantify over [cands].
    - [num] is [None] for the default -1.
    - Candidates are edges (vertices) of the graph, so that the lookups
      types[v], phases[v] do not raise; they are modelled by the total
      observers [vty] and [phase].
    - ground vertices, Z-boxes, symbolic phases and phase tracking are not
      modelled (is_ground is constantly False, update_phase_index and
      fuse_phases are no-ops). *)
From Coq Require Import ZArith QArith Qcanon List Bool Arith.
From Verif Require Import CNum Base ScalarModel GraphModel.
Import ListNotations.
Open Scope nat_scope.

Notation edge := (nat * nat)%type (only parsing).
Definition ekeq (e f : edge) : bool := Nat.eqb (fst e) (fst f) && Nat.eqb (snd e) (snd f).
Definition emem (e : edge) (l : list edge) : bool := existsb (ekeq e) l.
Definition nmem (v : nat) (l : list nat) : bool := existsb (Nat.eqb v) l.

(** Dictionary operations on the edge table (keys are ordered pairs). *)
Fixpoint etab_get (e : edge) (tab : etab) : option (nat * nat) :=
  match tab with
  | [] => None
  | (f, c) :: tab => if ekeq e f then Some c else etab_get e tab
  end.
Fixpoint etab_set (e : edge) (c : nat * nat) (tab : etab) : etab :=
  match tab with
  | [] => [(e, c)]
  | (f, d) :: tab => if ekeq e f then (f, c) :: tab else (f, d) :: etab_set e c tab
  end.
(** [if e not in etab: etab[e] = [0,0]; etab[e][et-1] += 1] *)
Definition etab_add (e : edge) (et : etype) (tab : etab) : etab :=
  let '(ns, nh) := match etab_get e tab with Some c => c | None => (0, 0) end in
  etab_set e (match et with SIMPLE => (ns + 1, nh) | HADAMARD => (ns, nh + 1) end) tab.
(** [nhe = etab.get(e, (0,0))[1]; etab[e] = [0, nhe+1]] *)
Definition etab_had (e : edge) (tab : etab) : etab :=
  let nh := match etab_get e tab with Some c => snd c | None => 0 end in
  etab_set e (0, nh + 1) tab.

(** RewriteOutputType (rules.py 61) together with the mutated graph. *)
Record rwout := mkRw {
  rw_graph : graph; rw_etab : etab; rw_verts : list nat; rw_edges : list edge; rw_check : bool }.

(** rules.py 65-78, apply_rule, after the call of [rewrite]; the same four
    lines are in simplify.py 97-100 *)
Definition apply_rw (o : rwout) : res graph :=
  let* g := add_edge_table (rw_etab o) (rw_graph o) in
  let* g := remove_edges (rw_edges o) g in
  let* g := remove_vertices (rw_verts o) g in
  if rw_check o then remove_isolated_vertices g else Ok g.

Definition lim_reached (num : option nat) (i : nat) : bool :=
  match num with None => false | Some n => Nat.leb n i end.

(** ** Spider fusion *)
(** incident edges of all neighbours of v: what the inner discard loops remove *)
Definition nbr_edges (g : graph) (v : nat) : list edge :=
  flat_map (incident_edges g) (neighbors g v).

(** rules.py 154-191, match_spider_parallel *)
Fixpoint match_spider_loop (g : graph) (num : option nat) (i : nat) (cands disc : list edge) : list edge :=
  match cands with
  | [] => []
  | e :: cands =>
    if lim_reached num i then [] else
    if emem e disc then match_spider_loop g num i cands disc else
    match edge_type g (fst e) (snd e) with
    | Some SIMPLE =>
      let (v0, v1) := e in
      if Nat.eqb v0 v1 then match_spider_loop g num i cands disc else
      let v0t := vty g v0 in
      let v1t := vty g v1 in
      if (vtype_eqb v0t v1t && vertex_is_zx v0t) || (vertex_is_z_like v0t && vertex_is_z_like v1t) then
        (v0, v1) :: match_spider_loop g num (i + 1) cands (disc ++ nbr_edges g v0 ++ nbr_edges g v1)
      else match_spider_loop g num i cands disc
    | _ => match_spider_loop g num i cands disc
    end
  end.
Definition match_spider_parallel (cands : list edge) (num : option nat) (g : graph) : list edge :=
  match_spider_loop g num 0 cands [].

(** rules.py 228-238: table entries for the edges of v1 *)
Definition spider_edges (g : graph) (v0 v1 : nat) (tab : etab) : etab :=
  fold_left (fun tab (e : edge) =>
    let (source, target) := e in
    let other := if negb (Nat.eqb source v1) then source
                 else if negb (Nat.eqb target v1) then target else v0 in
    match edge_type g source target with
    | Some et => etab_add (v0, other) et tab
    | None => tab (* impossible: e is an edge of g *)
    end) (incident_edges g v1) tab.
(** rules.py 199-239, body of the loop of [spider]; line 239 raises KeyError
    when the entry (v0,v0) is missing *)
Definition spider_one (st : graph * etab * list nat) (m : edge) : res (graph * etab * list nat) :=
  let '(g, tab, rem) := st in
  let (v0, v1) := if qeqb (row g (fst m)) 0%Qc then (snd m, fst m) else (fst m, snd m) in
  let g := add_to_phase v0 (phase g v1) g in
  let rem := rem ++ [v1] in
  let tab := spider_edges g v0 v1 tab in
  match etab_get (v0, v0) tab with
  | None => Err KeyError
  | Some (_, nh) => Ok (g, etab_set (v0, v0) (0, nh) tab, rem)
  end.
(** rules.py 194-240, spider *)
Definition spider (ms : list edge) (g : graph) : res rwout :=
  let* (g, tab, rem) := foldM spider_one ms (g, [], []) in
  Ok (mkRw g tab rem [] true).

(** ** Identity removal *)
(** rules.py 767-807, match_ids_parallel *)
Fixpoint match_ids_loop (g : graph) (num : option nat) (i : nat) (cands disc : list nat)
  : list (nat * nat * nat * etype) :=
  match cands with
  | [] => []
  | v :: cands =>
    if lim_reached num i then [] else
    if nmem v disc then match_ids_loop g num i cands disc else
    if negb (qeqb (phase g v) 0%Qc) || negb (vertex_is_zx (vty g v)) then match_ids_loop g num i cands disc else
    match neighbors g v with
    | [v0; v1] =>
      let same := match edge_type g v v0, edge_type g v v1 with
                  | Some a, Some b => etype_eqb a b | _, _ => false end in
      (v, v0, v1, if same then SIMPLE else HADAMARD)
        :: match_ids_loop g num (i + 1) cands (disc ++ [v0; v1])
    | _ => match_ids_loop g num i cands disc
    end
  end.
Definition match_ids_parallel (cands : list nat) (num : option nat) (g : graph) :=
  match_ids_loop g num 0 cands [].
(** rules.py 809-820, remove_ids *)
Definition remove_ids (ms : list (nat * nat * nat * etype)) (g : graph) : res rwout :=
  let '(tab, rem) := fold_left (fun (st : etab * list nat) m =>
      let '(tab, rem) := st in
      let '(v, v0, v1, et) := m in
      (etab_add (v0, v1) et tab, rem ++ [v])) ms ([], []) in
  Ok (mkRw g tab rem [] false).

(** ** Local complementation *)
(** rules.py 688-734, match_lcomp_parallel (check_edge_types=True).  The
    counter i is never incremented, so num only matters when it is 0. *)
Definition lim_zero (num : option nat) : bool := lim_reached num 0.
Fixpoint match_lcomp_loop (g : graph) (num : option nat) (cands disc : list nat) : list (nat * list nat) :=
  match cands with
  | [] => []
  | v :: cands =>
    if lim_zero num then [] else
    if nmem v disc then match_lcomp_loop g num cands disc else
    if negb (vtype_eqb (vty g v) ZSP) then match_lcomp_loop g num cands disc else
    if negb (qeqb (phase g v) (frac 1 2) || qeqb (phase g v) (frac 3 2)) then match_lcomp_loop g num cands disc else
    if negb (forallb (fun n => match edge_type g v n with Some HADAMARD => true | _ => false end) (neighbors g v))
    then match_lcomp_loop g num cands disc else
    let vn := neighbors g v in
    if negb (forallb (fun n => vtype_eqb (vty g n) ZSP) vn) then match_lcomp_loop g num cands disc else
    (v, vn) :: match_lcomp_loop g num cands (disc ++ vn)
  end.
Definition match_lcomp_parallel (cands : list nat) (num : option nat) (g : graph) :=
  match_lcomp_loop g num cands [].

(** rules.py 753-758: for i, for j > i, table entry for (m[1][i], m[1][j]) *)
Fixpoint lcomp_pairs (l : list nat) (tab : etab) : etab :=
  match l with
  | [] => tab
  | a :: l' => lcomp_pairs l' (fold_left (fun tab b => etab_had (a, b) tab) l' tab)
  end.
(** rules.py 743-758, body of the loop of [lcomp].  [-1] on the numerator: the
    phase is 1/2 or 3/2. *)
Definition lcomp_one (st : graph * etab * list nat) (m : nat * list nat) : graph * etab * list nat :=
  let '(g, tab, rem) := st in
  let (v, vn) := m in
  let a := phase g v in
  let g := on_scalar (s_add_phase (if Z.eqb (qnum a) 1 then frac 1 4 else frac 7 4)) g in
  let n := Z.of_nat (length vn) in
  let g := on_scalar (s_add_power (((n - 2) * (n - 1)) / 2)%Z) g in
  let g := fold_left (fun g u => add_to_phase u (- a)%Qc g) vn g in
  (g, lcomp_pairs vn tab, rem ++ [v]).
(** rules.py 736-759, lcomp *)
Definition lcomp (ms : list (nat * list nat)) (g : graph) : res rwout :=
  let '(g, tab, rem) := fold_left lcomp_one ms (g, [], []) in
  Ok (mkRw g tab rem [] true).

(** ** Pivoting *)
Definition is_pauli (p : Qc) : bool := qeqb p 0%Qc || qeqb p 1%Qc.
(** rules.py 424-432: scan of the neighbours of v; None when an invalid edge
    is met, else the boundary neighbours *)
Fixpoint pivot_scan (g : graph) (v : nat) (ns : list nat) : option (list nat) :=
  match ns with
  | [] => Some []
  | n :: ns =>
    if vtype_eqb (vty g n) ZSP && (match edge_type g v n with Some HADAMARD => true | _ => false end)
    then pivot_scan g v ns
    else if vtype_eqb (vty g n) BOUNDARY
    then match pivot_scan g v ns with Some bs => Some (n :: bs) | None => None end
    else None
  end.
Notation pmatch := ((nat * nat) * (list nat * list nat))%type (only parsing).
(** rules.py 386-459, match_pivot_parallel (check_edge_types=True) *)
Fixpoint match_pivot_loop (g : graph) (num : option nat) (i : nat) (cands disc : list edge) : list pmatch :=
  match cands with
  | [] => []
  | (v0, v1) :: cands =>
    if lim_reached num i then [] else
    if emem (v0, v1) disc then match_pivot_loop g num i cands disc else
    match edge_type g v0 v1 with
    | Some HADAMARD =>
      if negb (vtype_eqb (vty g v0) ZSP && vtype_eqb (vty g v1) ZSP) then match_pivot_loop g num i cands disc else
      if negb (is_pauli (phase g v0) && is_pauli (phase g v1)) then match_pivot_loop g num i cands disc else
      match pivot_scan g v0 (neighbors g v0), pivot_scan g v1 (neighbors g v1) with
      | Some b0, Some b1 =>
        if Nat.ltb 1 (length b0 + length b1) then match_pivot_loop g num i cands disc else
        ((v0, v1), (b0, b1))
          :: match_pivot_loop g num (i + 1) cands (disc ++ nbr_edges g v0 ++ nbr_edges g v1)
      | _, _ => match_pivot_loop g num i cands disc
      end
    | _ => match_pivot_loop g num i cands disc
    end
  end.
Definition match_pivot_parallel (cands : list edge) (num : option nat) (g : graph) :=
  match_pivot_loop g num 0 cands [].

(** Python sets of neighbours: [so] is the unspecified iteration order of a set. *)
Definition setminus (a b : list nat) : list nat := filter (fun v => negb (nmem v b)) a.
Definition setinter (a b : list nat) : list nat := filter (fun v => nmem v b) a.
(** [set.remove]: KeyError when absent *)
Definition set_remove (v : nat) (l : list nat) : res (list nat) :=
  if nmem v l then Ok (filter (fun u => negb (Nat.eqb u v)) l) else Err KeyError.

Definition pivot_sets (so : list nat -> list nat) (g : graph) (m : pmatch)
  : res (list nat * list nat * list nat) :=
  let '((v0, v1), (b0, b1)) := m in
  let* a0 := neighbors_r g v0 in
  let* a1 := neighbors_r g v1 in
  let* a0 := set_remove v1 a0 in
  let* a0 := match b0 with [b] => set_remove b a0 | _ => Ok a0 end in
  let* a1 := set_remove v0 a1 in
  let* a1 := match b1 with [b] => set_remove b a1 | _ => Ok a1 end in
  let n2 := so (setinter a0 a1) in
  Ok (so (setminus a0 n2), so (setminus a1 n2), n2).

Definition add_phases (vs : list nat) (a : Qc) (g : graph) : graph :=
  fold_left (fun g v => add_to_phase v a g) vs g.

(** rules.py 649-671: one side i of the pivot; [v] is m[0][i], [w] is m[0][1-i],
    [b] is m[1][i], [nw] is n[1-i] *)
Definition pivot_side (v w : nat) (b : list nat) (nw n2 : list nat)
    (st : graph * etab * list nat * list edge) : graph * etab * list nat * list edge :=
  let '(g, tab, rem, reme) := st in
  let a := phase g v in
  let g := if qeqb a 0%Qc then g else add_phases n2 a (add_phases nw a g) in
  match b with
  | [] => (g, tab, rem ++ [w], reme)
  | u :: _ =>
    let '(ns, nh) := match etab_get (w, u) tab with Some c => c | None => (0, 0) end in
    let c := match edge_type g v u with
             | Some SIMPLE => (ns, nh + 1)
             | Some HADAMARD => (ns + 1, nh)
             | None => (ns, nh) end in
    (g, etab_set (w, u) c tab, rem, reme ++ [mkedge v u])
  end.

(** rules.py 621-677, body of the loop of [pivot] *)
Definition pivot_one (so : list nat -> list nat) (st : graph * etab * list nat * list edge) (m : pmatch)
  : res (graph * etab * list nat * list edge) :=
  let '(g, tab, rem, reme) := st in
  let '((v0, v1), (b0, b1)) := m in
  let* (n0, n1, n2) := pivot_sets so g m in
  let es := list_prod n0 n1 ++ list_prod n1 n2 ++ list_prod n0 n2 in
  let k0 := Z.of_nat (length n0) in
  let k1 := Z.of_nat (length n1) in
  let k2 := Z.of_nat (length n2) in
  let g := on_scalar (s_add_power (k0 * k2 + k1 * k2 + k0 * k1)%Z) g in
  let g := add_phases n2 1%Qc g in
  let g := if negb (qeqb (phase g v0) 0%Qc) && negb (qeqb (phase g v1) 0%Qc)
           then on_scalar (s_add_phase 1%Qc) g else g in
  let g := match b0, b1 with
           | [], [] => on_scalar (s_add_power (- (k0 + k1 + 2 * k2 - 1))%Z) g
           | [], _ => on_scalar (s_add_power (- (k1 + k2))%Z) g
           | _, _ => on_scalar (s_add_power (- (k0 + k2))%Z) g
           end in
  let st := pivot_side v0 v1 b0 n1 n2 (g, tab, rem, reme) in
  let st := pivot_side v1 v0 b1 n0 n2 st in
  let '(g, tab, rem, reme) := st in
  Ok (g, fold_left (fun tab e => etab_had e tab) es tab, rem, reme).
(** rules.py 606-680, pivot *)
Definition pivot (so : list nat -> list nat) (ms : list pmatch) (g : graph) : res rwout :=
  let* (g, tab, rem, reme) := foldM (pivot_one so) ms (g, [], [], []) in
  Ok (mkRw g tab rem reme true).

(** [rs[v]] where rs = g.rows(): KeyError when no row was set *)
Definition row_r (g : graph) (v : nat) : res Qc := of_opt KeyError (dget v (grindex g)).

(** rules.py 493-509: [i] ranges over 0 (neighbours of v0) and 1 (of v1);
    None for a bad match, else the edges to discard *)
Fixpoint gadget_scan (g : graph) (first : bool) (e : edge) (ns : list nat) : option (list edge) :=
  match ns with
  | [] => Some []
  | n :: ns =>
    if negb (vtype_eqb (vty g n) ZSP) then None else
    let ne := incident_edges g n in
    if first && (match ne with [f] => negb (ekeq e f) | _ => false end) then None else
    match gadget_scan g first e ns with Some l => Some (ne ++ l) | None => None end
  end.
(** rules.py 461-530, match_pivot_gadget; threads the graph, which the matcher
    mutates.  The loop variable [i] is overwritten by the inner enumerate (it
    holds 1 after a scan that reached the second list, 0 otherwise) and then
    incremented, exactly as below. *)
Fixpoint match_pivot_gadget_loop (num : option nat) (i : nat) (cands disc : list edge)
    (el : list edge) (g : graph) : res (list pmatch * list edge * graph) :=
  match cands with
  | [] => Ok ([], el, g)
  | e :: cands =>
    if lim_reached num i then Ok ([], el, g) else
    if emem e disc then match_pivot_gadget_loop num i cands disc el g else
    let (v0, v1) := e in
    if negb (vtype_eqb (vty g v0) ZSP && vtype_eqb (vty g v1) ZSP)
    then match_pivot_gadget_loop num i cands disc el g else
    let v0a := phase g v0 in
    let v1a := phase g v1 in
    let sel := if negb (is_pauli v0a) then (if is_pauli v1a then Some (v1, v0, v0a) else None)
               else if is_pauli v1a then None else Some (v0, v1, v1a) in
    match sel with
    | None => match_pivot_gadget_loop num i cands disc el g
    | Some (v0, v1, v1a) =>
      let v0n := neighbors g v0 in
      let v1n := neighbors g v1 in
      if Nat.eqb (length v1n) 1 then match_pivot_gadget_loop num i cands disc el g else
      match gadget_scan g true e v0n with
      | None => match_pivot_gadget_loop num 0 cands disc el g
      | Some d0 =>
        match gadget_scan g false e v1n with
        | None => match_pivot_gadget_loop num 1 cands disc el g
        | Some d1 =>
          let* r := row_r g v0 in
          let (g, v) := add_vertex ZSP (Qcz (-2)) r (Some v1a) g in
          let g := set_phase v1 0%Qc g in
          let g := set_qubit v0 (Qcz (-1)) g in
          let* (ms, el, g) := match_pivot_gadget_loop num 2 cands (disc ++ d0 ++ d1) (el ++ [(v, v1)]) g in
          Ok (((v0, v1), ([], [v])) :: ms, el, g)
        end
      end
    end
  end.
Definition match_pivot_gadget (cands : list edge) (num : option nat) (g : graph) : res (list pmatch * graph) :=
  let* (ms, el, g) := match_pivot_gadget_loop num 0 cands [] [] g in
  let* g := add_edges el SIMPLE g in
  Ok (ms, g).

(** rules.py 556-588: scan of the neighbours of v.  The state is (w, bound);
    None when [good_vert] becomes False.  Line 566 tests
    [g.is_ground(n) in consumed_vertices], i.e. [False in consumed_vertices],
    which Python answers like [0 in consumed_vertices].  Line 584 tests
    [not w], which is also true for w = 0. *)
Fixpoint boundary_scan (g : graph) (consumed : list nat) (ns : list nat) (wb : option (nat * nat))
  : option (option (nat * nat)) :=
  match ns with
  | [] => Some wb
  | n :: ns =>
    if negb (vtype_eqb (vty g n) ZSP) then None else
    if Nat.eqb (length (neighbors g n)) 1 then None else
    if nmem n consumed then None else
    if nmem 0 consumed then None else
    let boundaries := filter (fun b => vtype_eqb (vty g b) BOUNDARY) (neighbors g n) in
    let wrong := existsb (fun b => negb (vtype_eqb (vty g b) BOUNDARY) && negb (vtype_eqb (vty g b) ZSP)) (neighbors g n) in
    match boundaries, wrong with
    | [b], false =>
      let wb := if negb (qeqb (phase g n) 0%Qc) && Z.eqb (qden (phase g n)) 2 then Some (n, b) else wb in
      let wb := match wb with None => Some (n, b) | Some (O, _) => Some (n, b) | _ => wb end in
      boundary_scan g consumed ns wb
    | _, _ => boundary_scan g consumed ns wb
    end
  end.
(** rules.py 532-604, match_pivot_boundary *)
Fixpoint match_pivot_boundary_loop (num : option nat) (i : nat) (cands disc consumed : list nat)
    (el : list edge) (g : graph) : res (list pmatch * list edge * graph) :=
  match cands with
  | [] => Ok ([], el, g)
  | v :: cands =>
    if lim_reached num i then Ok ([], el, g) else
    if nmem v disc then match_pivot_boundary_loop num i cands disc consumed el g else
    if negb (vtype_eqb (vty g v) ZSP) || negb (is_pauli (phase g v))
    then match_pivot_boundary_loop num i cands disc consumed el g else
    match boundary_scan g consumed (neighbors g v) None with
    | None | Some None => match_pivot_boundary_loop num i cands disc consumed el g
    | Some (Some (w, bound)) =>
      let md := if nmem bound (ginputs g) then frac 1 2 else frac (-1) 2 in
      let* r := row_r g w in
      let (g, v1) := add_vertex ZSP (Qcz (-2)) (r + md)%Qc (Some (phase g w)) g in
      let* r := row_r g w in
      let (g, v2) := add_vertex ZSP (Qcz (-1)) (r + md)%Qc (Some 0%Qc) g in
      let g := set_phase w 0%Qc g in
      let el := el ++ [(w, v2); (v1, v2)] in
      let nb := neighbors g v ++ neighbors g w in
      let* (ms, el, g) := match_pivot_boundary_loop num (i + 1) cands (disc ++ nb) (consumed ++ nb) el g in
      Ok (((v, w), ([], [bound])) :: ms, el, g)
    end
  end.
Definition match_pivot_boundary (cands : list nat) (num : option nat) (g : graph) : res (list pmatch * graph) :=
  let* (ms, el, g) := match_pivot_boundary_loop num 0 cands [] [] [] g in
  let* g := add_edges el HADAMARD g in
  Ok (ms, g).

(** ** Phase gadgets *)
(** [phases[v] != 0 and phases[v].denominator > 2] *)
Definition non_clifford (p : Qc) : bool := negb (qeqb p 0%Qc) && Z.ltb 2 (qden p).
(** equality of Python (frozen)sets given as duplicate-free lists *)
Definition set_eqb (a b : list nat) : bool :=
  forallb (fun v => nmem v b) a && forallb (fun v => nmem v a) b.
(** dictionaries keyed by frozensets *)
Fixpoint par_append (k : list nat) (n : nat) (d : list (list nat * list nat)) : list (list nat * list nat) :=
  match d with
  | [] => [(k, [n])]
  | (k', l) :: d => if set_eqb k k' then (k', l ++ [n]) :: d else (k', l) :: par_append k n d
  end.
(** rules.py 842-853, first loop *)
Definition gadget_collect (g : graph) (st : dict nat * list (list nat * list nat)) (v : nat)
  : dict nat * list (list nat * list nat) :=
  let (gadgets, parities) := st in
  if non_clifford (phase g v) then
    match neighbors g v with
    | [n] =>
      if negb (is_pauli (phase g n)) then st else
      if dmem n gadgets then st else
      if nmem n (ginputs g) || nmem n (goutputs g) then st else
      (dset n v gadgets,
       par_append (filter (fun u => negb (Nat.eqb u v)) (neighbors g n)) n parities)
    | _ => st
    end
  else st.
Notation gmatch := (nat * nat * Qc * list nat * list nat)%type (only parsing).
(** [gadgets[n]] *)
Definition gad_r (gadgets : dict nat) (n : nat) : res nat := of_opt KeyError (dget n gadgets).
Definition sumq (l : list Qc) : Qc := fold_left Qcplus l 0%Qc.
(** rules.py 855-871, second loop *)
Definition gadget_emit (gadgets : dict nat) (st : list gmatch * graph) (pg : list nat * list nat)
  : res (list gmatch * graph) :=
  let (ms, g) := st in
  let (par, gad) := pg in
  match gad with
  | [n] =>
    let* v := gad_r gadgets n in
    if qeqb (phase g n) 0%Qc then Ok st else
    let g := on_scalar (s_add_phase (phase g v)) g in
    Ok (ms ++ [(v, n, (- phase g v)%Qc, [], [])], g)
  | _ =>
    let* leaves := foldM (fun l n => let* v := gad_r gadgets n in Ok (l ++ [(n, v)])) gad [] in
    let tot := qmod2 (sumq (map (fun nv : nat * nat => let (n, v) := nv in
                 if qeqb (phase g n) 0%Qc then phase g v else (- phase g v)%Qc) leaves)) in
    let g := fold_left (fun g (nv : nat * nat) => let (n, v) := nv in
               if qeqb (phase g n) 0%Qc then g else on_scalar (s_add_phase (phase g v)) g) leaves g in
    let g := on_scalar (s_add_power (- ((Z.of_nat (length par) - 1) * (Z.of_nat (length gad) - 1)))%Z) g in
    match rev leaves with
    | [] => Err IndexError
    | (n, v) :: others =>
      let others := rev others in
      Ok (ms ++ [(v, n, tot, map fst others, map snd others)], g)
    end
  end.
(** rules.py 824-872, match_phase_gadgets *)
Definition match_phase_gadgets (cands : list nat) (g : graph) : res (list gmatch * graph) :=
  let (gadgets, parities) := fold_left (gadget_collect g) cands ([], []) in
  foldM (gadget_emit gadgets) parities ([], g).
(** rules.py 874-886, merge_phase_gadgets *)
Definition merge_phase_gadgets (ms : list gmatch) (g : graph) : res rwout :=
  let '(g, rem) := fold_left (fun (st : graph * list nat) m =>
      let '(g, rem) := st in
      let '(v, n, p, og, ot) := m in
      (set_phase n 0%Qc (set_phase v p g), rem ++ og ++ ot)) ms (g, []) in
  Ok (mkRw g [] rem [] false).

(** ** Supplementarity *)
Notation smatch := (nat * nat * bool * list nat)%type (only parsing). (* v, w, type is 2, neighbourhood *)
Fixpoint par_get (k : list nat) (d : list (list nat * list nat)) : option (list nat) :=
  match d with
  | [] => None
  | (k', l) :: d => if set_eqb k k' then Some l else par_get k d
  end.
Definition odd_pi (p : Qc) : bool := qeqb (qmod2 p) 1%Qc.
Definition even_pi (p : Qc) : bool := qeqb (qmod2 p) 0%Qc.
(** length of the symmetric difference of two sets *)
Definition symdiff_len (a b : list nat) : nat := length (setminus a b) + length (setminus b a).
(** rules.py 890-931, match_supplementarity.  [so] orders the iteration over
    the set [neigh]. *)
Fixpoint match_supp_loop (so : list nat -> list nat) (g : graph) (cands disc taken : list nat)
    (parities : list (list nat * list nat)) : list smatch :=
  match cands with
  | [] => []
  | v :: cands =>
    if nmem v disc then match_supp_loop so g cands disc taken parities else
    if negb (non_clifford (phase g v)) then match_supp_loop so g cands disc taken parities else
    let neigh := neighbors g v in
    if existsb (fun u => nmem u taken) neigh then match_supp_loop so g cands disc taken parities else
    let first := match par_get neigh parities with
      | Some l => find (fun w => odd_pi (phase g v - phase g w)%Qc || odd_pi (phase g v + phase g w)%Qc) l
      | None => None end in
    match first with
    | Some w =>
      (v, w, false, neigh)
        :: match_supp_loop so g cands (disc ++ neigh) (taken ++ [v; w] ++ neigh) parities
    | None =>
      let parities := par_append neigh v parities in
      if (match par_get neigh parities with Some (_ :: _ :: _) => nmem v taken | _ => false end)
      then match_supp_loop so g cands disc taken parities else
      let second := find (fun w =>
          non_clifford (phase g w) && negb (nmem w taken)
          && Nat.eqb (symdiff_len neigh (neighbors g w)) 2
          && (even_pi (phase g v + phase g w)%Qc || odd_pi (phase g v - phase g w)%Qc)) (so neigh) in
      match second with
      | Some w =>
        (v, w, true, filter (fun u => negb (Nat.eqb u w)) neigh)
          :: match_supp_loop so g cands (disc ++ neigh) (taken ++ [v; w] ++ neigh) parities
      | None => match_supp_loop so g cands disc taken parities
      end
    end
  end.
Definition match_supplementarity (so : list nat -> list nat) (cands : list nat) (g : graph) : list smatch :=
  match_supp_loop so g cands [] [] [].
(** rules.py 939-960, body of the loop of apply_supplementarity *)
Definition supp_one (st : graph * list nat) (m : smatch) : graph * list nat :=
  let '(g, rem) := st in
  let '(v, w, two, neigh) := m in
  let rem := rem ++ [v; w] in
  let alpha := phase g v in
  let beta := phase g w in
  let g := on_scalar (s_add_power (-2 * Z.of_nat (length neigh))%Z) g in
  if negb two then
    let g := on_scalar (s_add_node (Qcz 2 * alpha + 1)%Qc) g in
    if odd_pi (alpha + beta)%Qc then
      (add_phases neigh 1%Qc (on_scalar (s_add_phase (- alpha + 1)%Qc) g), rem)
    else (g, rem)
  else
    let g := on_scalar (s_add_power (-1)) g in
    let g := on_scalar (s_add_node (Qcz 2 * alpha)%Qc) g in
    if even_pi (alpha + beta)%Qc then
      (add_phases neigh 1%Qc (on_scalar (s_add_phase (- alpha)%Qc) g), rem)
    else (g, rem).
(** rules.py 933-961, apply_supplementarity *)
Definition apply_supplementarity (ms : list smatch) (g : graph) : res rwout :=
  let '(g, rem) := fold_left supp_one ms (g, []) in
  Ok (mkRw g [] rem [] true).

(** ** Copy rule *)
Notation cmatch := (nat * nat * Qc * Qc * list nat)%type (only parsing).
(** rules.py 965-989, match_copy *)
Fixpoint match_copy_loop (g : graph) (cands disc : list nat) : list cmatch :=
  match cands with
  | [] => []
  | v :: cands =>
    if nmem v disc then match_copy_loop g cands disc else
    if negb (is_pauli (phase g v)) || negb (vtype_eqb (vty g v) ZSP) then match_copy_loop g cands disc else
    match neighbors g v with
    | [w] =>
      if negb (vtype_eqb (vty g w) ZSP) then match_copy_loop g cands disc else
      let neigh := filter (fun n => negb (Nat.eqb n v)) (neighbors g w) in
      (v, w, phase g v, phase g w, neigh) :: match_copy_loop g cands (disc ++ [w] ++ neigh)
    | _ => match_copy_loop g cands disc
    end
  end.
Definition match_copy (cands : list nat) (g : graph) : list cmatch := match_copy_loop g cands [].
(** rules.py 1000-1008, inner loop over neigh *)
Definition copy_nbr (w : nat) (a : Qc) (g : graph) (n : nat) : res graph :=
  let* tn := vtype_r g n in
  let* g := (if vtype_eqb tn BOUNDARY then
      let r := if nmem n (goutputs g) then (row g n - 1)%Qc else (row g n + 1)%Qc in
      let (g, u) := add_vertex ZSP (qubit g n) r (Some a) g in
      let* et := of_opt KeyError (edge_type g w n) in
      add_edge n u (toggle_edge et) g
    else Ok g) in
  Ok (add_to_phase n a g).
(** rules.py 991-1009, apply_copy *)
Definition copy_one (st : graph * list nat) (m : cmatch) : res (graph * list nat) :=
  let '(g, rem) := st in
  let '(v, w, a, alpha, neigh) := m in
  let g := on_scalar (s_add_power (- Z.of_nat (length neigh) + 1)%Z) g in
  let g := if qeqb a 0%Qc then g else on_scalar (s_add_phase alpha) g in
  let* g := foldM (copy_nbr w a) neigh g in
  Ok (g, rem ++ [v; w]).
Definition apply_copy (ms : list cmatch) (g : graph) : res rwout :=
  let* (g, rem) := foldM copy_one ms (g, []) in
  Ok (mkRw g [] rem [] true).

(** ** Bialgebra *)
(** rules.py 94-130, match_bialg_parallel.  Discarding starts from the
    neighbours v0n, v1n (without v0, v1 themselves). *)
Fixpoint match_bialg_loop (g : graph) (num : option nat) (i : nat) (cands disc : list edge)
  : list (nat * nat * list nat * list nat) :=
  match cands with
  | [] => []
  | e :: cands =>
    if lim_reached num i then [] else
    if emem e disc then match_bialg_loop g num i cands disc else
    let (v0, v1) := e in
    let t0 := vty g v0 in
    let t1 := vty g v1 in
    if qeqb (phase g v0) 0%Qc && qeqb (phase g v1) 0%Qc
       && ((vtype_eqb t0 ZSP && vtype_eqb t1 XSP) || (vtype_eqb t0 XSP && vtype_eqb t1 ZSP)) then
      let v0n := filter (fun n => negb (Nat.eqb n v1)) (neighbors g v0) in
      let v1n := filter (fun n => negb (Nat.eqb n v0)) (neighbors g v1) in
      if forallb (fun n => vtype_eqb (vty g n) t1 && qeqb (phase g n) 0%Qc) v0n
         && forallb (fun n => vtype_eqb (vty g n) t0 && qeqb (phase g n) 0%Qc) v1n then
        (v0, v1, v0n, v1n)
          :: match_bialg_loop g num (i + 1) cands
               (disc ++ flat_map (incident_edges g) v0n ++ flat_map (incident_edges g) v1n)
      else match_bialg_loop g num i cands disc
    else match_bialg_loop g num i cands disc
  end.
Definition match_bialg_parallel (cands : list edge) (num : option nat) (g : graph) :=
  match_bialg_loop g num 0 cands [].
(** rules.py 133-147, bialg *)
Definition bialg (ms : list (nat * nat * list nat * list nat)) (g : graph) : res rwout :=
  let '(tab, rem) := fold_left (fun (st : etab * list nat) m =>
      let '(tab, rem) := st in
      let '(v0, v1, n0, n1) := m in
      (fold_left (fun tab e => etab_add e SIMPLE tab) (list_prod n0 n1) tab, rem ++ [v0; v1])) ms ([], []) in
  Ok (mkRw g tab rem [] true).

(** ** Unfusing *)
(** rules.py 242-272, unspider, with m = [u, ns, p?]; qubit and row as given
    (-1 means: those of u). *)
Definition unspider (u : nat) (ns : list nat) (p : option Qc) (q r : Qc) (g : graph) : res (graph * nat) :=
  let* t := vtype_r g u in
  let (g, v) := add_vertex t (Qcz (-1)) (Qcz (-1)) None g in
  let g := set_qubit v (if qeqb q (Qcz (-1)) then qubit g u else q) g in
  let g := set_row v (if qeqb r (Qcz (-1)) then row g u else r) g in
  let* g := add_edge u v SIMPLE g in
  let* g := foldM (fun g n =>
      let* et := of_opt KeyError (edge_type g u n) in
      let* g := add_edge v n et g in
      remove_edge u n g) ns g in
  match p with
  | Some p => Ok (add_to_phase u (0 - p)%Qc (add_to_phase v p g), v)
  | None => Ok (set_phase u 0%Qc (set_phase v (phase g u) g), v)
  end.
