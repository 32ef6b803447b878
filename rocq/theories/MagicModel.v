(** Model of the magic state decompositions of pyzx/simulate.py and of the sums
    of diagrams they produce.  Only definitions.

    Floating-point constants are the exact numbers they stand for.  The two lists
    [boundary] and [internal] and the list [gadgets] built by replace_magic_states
    (329-331) are never read and are left out. *)
From Coq Require Import Reals ZArith QArith Qcanon List Bool Arith.
From Verif Require Import CNum Base ScalarModel GraphModel GateModel GraphAlgModel.
Import ListNotations.

(** simulate.py 24, 37-43 *)
Definition csq2 : C := sq2p 1.
Definition cz (z : Z) : C := RtoC (IZR z).
Definition MAGIC_GLOBAL : C := (- ((cz 7 + cz 5 * csq2) * Cinv (cz 2 + cz 2 * Ci)))%C.
Definition MAGIC_B60 : C := (cz (-16) + cz 12 * csq2)%C.
Definition MAGIC_B66 : C := (cz 96 - cz 68 * csq2)%C.
Definition MAGIC_E6 : C := (cz 10 - cz 7 * csq2)%C.
Definition MAGIC_O6 : C := (cz (-14) + cz 10 * csq2)%C.
Definition MAGIC_K6 : C := (cz 7 - cz 5 * csq2)%C.
Definition MAGIC_PHI : C := (cz 10 - cz 7 * csq2)%C.

Definition qneg1 : Qc := (- (1))%Qc.
Definition half : Qc := frac 1 2.
Definition mquarter : Qc := frac (-1) 4.
(** the loops that add a phase to each vertex of a list *)
Definition shift_all (p : Qc) (vs : list nat) (g : graph) : graph := fold_left (fun g v => add_to_phase v p g) vs g.
Definition sum_rows (vs : list nat) (g : graph) : Qc := fold_left (fun a v => (a + row g v)%Qc) vs 0%Qc.

(** simulate.py 380-385 *)
Definition replace_B60 (g : graph) (verts : list nat) : res graph :=
  let g := on_scalar (s_add_float MAGIC_B60) g in
  let g := on_scalar (s_add_power (-6)) g in
  Ok (shift_all mquarter verts g).
(** simulate.py 387-394 *)
Definition replace_B66 (g : graph) (verts : list nat) : res graph :=
  let g := on_scalar (s_add_float MAGIC_B66) g in
  let g := on_scalar (s_add_power (-6)) g in
  let g := on_scalar (s_add_phase 1%Qc) g in
  Ok (fold_left (fun g v => add_to_phase v 1%Qc (add_to_phase v mquarter g)) verts g).
(** simulate.py 396-407 *)
Definition replace_E6 (g : graph) (verts : list nat) : res graph :=
  let g := on_scalar (s_add_float MAGIC_E6) g in
  let g := on_scalar (s_add_power 4) g in
  let g := on_scalar (s_add_phase half) g in
  let av := sum_rows verts g in
  let g := fold_left (fun g v => add_to_phase v half (add_to_phase v mquarter g)) verts g in
  let (g, w) := add_vertex ZSP qneg1 (av / Qcz 6)%Qc (Some 1%Qc) g in
  add_edges (map (fun v => (v, w)) verts) HADAMARD g.
(** simulate.py 409-420 *)
Definition replace_O6 (g : graph) (verts : list nat) : res graph :=
  let g := on_scalar (s_add_float MAGIC_O6) g in
  let g := on_scalar (s_add_power 4) g in
  let g := on_scalar (s_add_phase half) g in
  let av := sum_rows verts g in
  let g := fold_left (fun g v => add_to_phase v half (add_to_phase v mquarter g)) verts g in
  let (g, w) := add_vertex ZSP qneg1 (av / Qcz 6)%Qc (Some 0%Qc) g in
  add_edges (map (fun v => (v, w)) verts) HADAMARD g.
(** simulate.py 422-432 *)
Definition replace_K6 (g : graph) (verts : list nat) : res graph :=
  let g := on_scalar (s_add_float MAGIC_K6) g in
  let g := on_scalar (s_add_power 5) g in
  let g := on_scalar (s_add_phase (frac 1 4)) g in
  let av := sum_rows verts g in
  let g := shift_all mquarter verts g in
  let (g, w) := add_vertex ZSP qneg1 (av / Qcz 6)%Qc (Some (frac 3 2)) g in
  add_edges (map (fun v => (v, w)) verts) SIMPLE g.
(** simulate.py 434-449; [verts[5]], [verts[:-1]] and the unpacking of [ws] *)
Definition phi_leg (w6 : nat) (st : graph * list nat) (v : nat) : res (graph * list nat) :=
  let (g, ws) := st in
  let g := add_to_phase v mquarter g in
  let (g, w) := add_vertex ZSP qneg1 (row g v + half)%Qc None g in
  let* g := add_edges [(w6, w); (v, w)] HADAMARD g in
  Ok (g, ws ++ [w]).
Definition replace_phi1 (g : graph) (verts : list nat) : res graph :=
  let g := on_scalar (s_add_float MAGIC_PHI) g in
  let g := on_scalar (s_add_power 9) g in
  let g := on_scalar (s_add_phase (frac 3 2)) g in
  let* v5 := of_opt IndexError (nth_error verts 5) in
  let (g, w6) := add_vertex ZSP qneg1 (row g v5 + half)%Qc (Some 1%Qc) g in
  let g := add_to_phase v5 mquarter g in
  let* g := add_edge v5 w6 SIMPLE g in
  let* st := foldM (phi_leg w6) (removelast verts) (g, []) in
  let (g, ws) := st in
  match ws with
  | [w1; w2; w3; w4; w5] => add_edges [(w1, w3); (w1, w4); (w2, w4); (w2, w5); (w3, w5)] HADAMARD g
  | _ => Err ValueError
  end.
(** simulate.py 451-454 *)
Definition replace_phi2 (g : graph) (verts : list nat) : res graph :=
  match verts with
  | [v1; v2; v3; v4; v5; v6] => replace_phi1 g [v1; v2; v4; v5; v6; v3]
  | _ => Err ValueError
  end.
(** simulate.py 457-461 *)
Definition replace_2_S (g : graph) (verts : list nat) : res graph :=
  let* v0 := of_opt IndexError (nth_error verts 0) in
  let* v1 := of_opt IndexError (nth_error verts 1) in
  let (g, w) := add_vertex ZSP (qubit g v0 - half)%Qc (row g v0 - half)%Qc (Some half) g in
  let* g := add_edges [(v0, w); (v1, w)] SIMPLE g in
  Ok (shift_all mquarter verts g).
(** simulate.py 464-469 *)
Definition replace_2_N (g : graph) (verts : list nat) : res graph :=
  let g := on_scalar (s_add_phase (frac 1 4)) g in
  let* v0 := of_opt IndexError (nth_error verts 0) in
  let* v1 := of_opt IndexError (nth_error verts 1) in
  let (g, w) := add_vertex ZSP (qubit g v0 - half)%Qc (row g v0 - half)%Qc (Some 1%Qc) g in
  let* g := add_edges [(v0, w); (v1, w)] HADAMARD g in
  Ok (shift_all mquarter verts g).
(** simulate.py 471-476 *)
Definition replace_1_0 (g : graph) (verts : list nat) : res graph :=
  let g := on_scalar (s_add_power (-1)) g in
  let* v0 := of_opt IndexError (nth_error verts 0) in
  let (g, w) := add_vertex ZSP (qubit g v0 - half)%Qc (row g v0 - half)%Qc (Some 0%Qc) g in
  let* g := add_edge v0 w HADAMARD g in
  Ok (shift_all mquarter verts g).
(** simulate.py 478-484 *)
Definition replace_1_1 (g : graph) (verts : list nat) : res graph :=
  let g := on_scalar (s_add_phase (frac 1 4)) g in
  let g := on_scalar (s_add_power (-1)) g in
  let* v0 := of_opt IndexError (nth_error verts 0) in
  let (g, w) := add_vertex ZSP (qubit g v0 - half)%Qc (row g v0 - half)%Qc (Some 1%Qc) g in
  let* g := add_edge v0 w HADAMARD g in
  Ok (shift_all mquarter verts g).

(** simulate.py 332-350: the T-like spiders and their ranks *)
Definition rank_step (g : graph) (rk : dict nat) (v : nat) : res (dict nat) :=
  let* p := of_opt KeyError (dget v (gphase g)) in
  if qeqb p 0%Qc || negb (Z.eqb (ScalarModel.qden p) 4) then Ok rk else
  let* ns := neighbors_r g v in
  let* deg := match ns with
              | [w] => let* t := vtype_r g w in
                       if vtype_eqb t ZSP then let* nw := neighbors_r g w in Ok (length nw - 1)%nat else Ok (length ns)
              | _ => Ok (length ns)
              end in
  Ok (dset v deg rk).
Definition ranking (g : graph) : res (dict nat) := foldM (rank_step g) (vertices g) [].
(** simulate.py 353-356; [None] stands for the bare Exception of line 356 *)
Definition num_replace (rk : dict nat) : option nat :=
  let n := length rk in
  if Nat.leb 6 n then Some 6%nat else if Nat.leb 2 n then Some 2%nat else if Nat.eqb n 1 then Some 1%nat else None.
(** simulate.py 359, sorted(..., reverse=True): stable, largest rank first *)
Fixpoint ins_desc (v r : nat) (l : list (nat * nat)) : list (nat * nat) :=
  match l with
  | [] => [(v, r)]
  | (w, s) :: l' => if Nat.ltb s r then (v, r) :: l else (w, s) :: ins_desc v r l'
  end.
Definition sorted_desc (rk : dict nat) : list nat := map fst (fold_left (fun l e => ins_desc (fst e) (snd e) l) rk []).
(** simulate.py 358-363: the candidates; random.sample may return any list of
    that length of different keys *)
Definition picked (pick_random : bool) (rk : dict nat) (k : nat) (cands : list nat) : Prop :=
  if pick_random then NoDup cands /\ incl cands (dkeys rk) /\ length cands = k
  else cands = firstn k (sorted_desc rk).
(** simulate.py 365-378 *)
Definition replace_functions (k : nat) : list (graph -> list nat -> res graph) :=
  if Nat.eqb k 6 then [replace_B60; replace_B66; replace_E6; replace_O6; replace_K6; replace_phi1; replace_phi2]
  else if Nat.eqb k 2 then [replace_2_S; replace_2_N]
  else [replace_1_0; replace_1_1].
Definition replace_terms (g : graph) (k : nat) (cands : list nat) : res (list graph) :=
  mapM (fun f : graph -> list nat -> res graph =>
    let* c := g_copy false g in
    let* h := f c cands in
    Ok (if Nat.eqb k 6 then on_scalar (s_add_float MAGIC_GLOBAL) h else h)) (replace_functions k).
(** simulate.py 319-378, as the set of possible outcomes; [None] stands for the
    Exception "No magic states to replace" *)
Definition replace_magic_states (pick_random : bool) (g : graph) (r : option (res (list graph))) : Prop :=
  match g_copy false g with
  | Err e => r = Some (Err e)
  | Ok c =>
    match ranking c with
    | Err e => r = Some (Err e)
    | Ok rk => match num_replace rk with
               | None => r = None
               | Some k => exists cands, picked pick_random rk k cands /\ r = Some (replace_terms c k cands)
               end
    end
  end.
