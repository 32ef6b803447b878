(** Model of [basic_optimization] and of the class [Optimizer],
    pyzx/optimize.py 43-517.  Only definitions.

    A gate object is its index together with its class and attributes.  The
    objects in [gates] and [available] are shared; an index belongs to one object
    only, so changing an object is changing its entry in both.  The dictionaries
    with keys range(qubits) are functions; they are only read and written at keys
    that [perm_inv] has found.  [available_indices] is a list without repetitions.
    Left out: printing, and the attribute [index] of the gates of the input and of
    the result (parse_gate overwrites the first, parse_circuit resets the second). *)
From Coq Require Import ZArith QArith Qcanon List Bool Arith.
From Verif Require Import CNum Base ScalarModel GateModel LinModel PermModel.
Import ListNotations.
Open Scope nat_scope.

Definition igate := (nat * gate)%type.
Definition qc_dec : forall p q : Qc, {p = q} + {p <> q} := Qc_eq_dec.
Definition gate_dec : forall a b : gate, {a = b} + {a <> b}.
Proof. repeat (decide equality; try apply qc_dec). Defined.
(** Gate.__eq__, circuit/gates.py 168-177, and CZ.__eq__, 590-598 *)
Definition gate_eqb (a b : gate) : bool :=
  match a, b with
  | GCZ c t, GCZ c' t' => (Nat.eqb t t' && Nat.eqb c c') || (Nat.eqb t c' && Nat.eqb c t')
  | _, _ => if gate_dec a b then true else false
  end.
Definition ig_eqb (a b : igate) : bool := Nat.eqb (fst a) (fst b) && gate_eqb (snd a) (snd b).
Definition ig_mem (a : igate) (l : list igate) : bool := existsb (ig_eqb a) l.
(** list.remove *)
Fixpoint ig_remove (a : igate) (l : list igate) : res (list igate) :=
  match l with
  | [] => Err ValueError
  | b :: l => if ig_eqb b a then Ok l else let* r := ig_remove a l in Ok (b :: r)
  end.
Definition nmem (a : nat) (l : list nat) : bool := existsb (Nat.eqb a) l.
Fixpoint nremove (a : nat) (l : list nat) : list nat :=
  match l with [] => [] | b :: l => if Nat.eqb b a then l else b :: nremove a l end.
Definition nremove_r (a : nat) (l : list nat) : res (list nat) := if nmem a l then Ok (nremove a l) else Err ValueError.
(** list.insert(-k, x) *)
Definition insert_end {A} (k : nat) (x : A) (l : list A) : list A := firstn (length l - k) l ++ x :: skipn (length l - k) l.
(** l[:-k] *)
Definition upto_end {A} (k : nat) (l : list A) : list A := if Nat.eqb k 0 then [] else firstn (length l - k) l.

(** optimize.py 59-61 *)
Definition toggle_element (l : list nat) (e : nat) : list nat := if nmem e l then nremove e l else l ++ [e].
(** optimize.py 63-69 *)
Definition swap_element (l : list nat) (e1 e2 : nat) : list nat :=
  if nmem e1 l && negb (nmem e2 l) then nremove e1 l ++ [e2]
  else if nmem e2 l && negb (nmem e1 l) then nremove e2 l ++ [e1]
  else l.

Definition fset {A} (f : nat -> A) (k : nat) (v : A) : nat -> A := fun q => if Nat.eqb q k then v else f q.

(** the attributes an Optimizer has during a pass, optimize.py 155-162;
    [o_two q] says that availty[q] is 2 (it is 1 otherwise) *)
Record ostate := mkO {
  o_gates : nat -> list igate; o_avail : nat -> list igate; o_two : nat -> bool;
  o_hads : list nat; o_nots : list nat; o_zs : list nat; o_perm : nat -> nat; o_count : nat }.
Definition o_start : ostate := mkO (fun _ => []) (fun _ => []) (fun _ => false) [] [] [] (fun i => i) 0.

Definition set_gates st v := mkO v (o_avail st) (o_two st) (o_hads st) (o_nots st) (o_zs st) (o_perm st) (o_count st).
Definition set_avail st v := mkO (o_gates st) v (o_two st) (o_hads st) (o_nots st) (o_zs st) (o_perm st) (o_count st).
Definition set_two st v := mkO (o_gates st) (o_avail st) v (o_hads st) (o_nots st) (o_zs st) (o_perm st) (o_count st).
Definition set_hads st v := mkO (o_gates st) (o_avail st) (o_two st) v (o_nots st) (o_zs st) (o_perm st) (o_count st).
Definition set_nots st v := mkO (o_gates st) (o_avail st) (o_two st) (o_hads st) v (o_zs st) (o_perm st) (o_count st).
Definition set_zs st v := mkO (o_gates st) (o_avail st) (o_two st) (o_hads st) (o_nots st) v (o_perm st) (o_count st).
Definition set_perm st v := mkO (o_gates st) (o_avail st) (o_two st) (o_hads st) (o_nots st) (o_zs st) v (o_count st).
Definition set_count st v := mkO (o_gates st) (o_avail st) (o_two st) (o_hads st) (o_nots st) (o_zs st) (o_perm st) v.
(** self.gates[q].append(g) and the like *)
Definition gates_app st q g := set_gates st (fset (o_gates st) q (o_gates st q ++ [g])).
Definition avail_app st q g := set_avail st (fset (o_avail st) q (o_avail st q ++ [g])).
Definition gates_rem st q g : res ostate := let* l := ig_remove g (o_gates st q) in Ok (set_gates st (fset (o_gates st) q l)).
Definition avail_rem st q g : res ostate := let* l := ig_remove g (o_avail st q) in Ok (set_avail st (fset (o_avail st) q l)).
(** self.available[q] = list(); self.availty[q] = b *)
Definition reset st q b := set_two (set_avail st (fset (o_avail st) q [])) (fset (o_two st) q b).
Definition tick st := set_count st (S (o_count st)).

(** optimize.py 239-247 *)
Definition add_hadamard (t : nat) (st : ostate) : res ostate :=
  let h := (o_count st, GHAD t) in
  let st := gates_app (tick st) t h in
  let* hs := nremove_r t (o_hads st) in
  Ok (reset (set_hads st hs) t false).
(** optimize.py 249-254 *)
Definition add_gate (t : nat) (g : gate) (st : ostate) : ostate :=
  let g := (o_count st, g) in avail_app (gates_app (tick st) t g) t g.

(** g.name == 'CNOT' and g.control == c and g.target == t, and likewise for CZ *)
Definition is_cnot (c t : nat) (g : igate) : bool := match snd g with GCNOT c' t' => Nat.eqb c' c && Nat.eqb t' t | _ => false end.
Definition is_cz (c t : nat) (g : igate) : bool := match snd g with GCZ c' t' => Nat.eqb c' c && Nat.eqb t' t | _ => false end.
Definition is_cnot_to (t : nat) (g : igate) : bool := match snd g with GCNOT _ t' => Nat.eqb t' t | _ => false end.
Definition is_zphase (g : igate) : bool := match snd g with GZ _ _ _ => true | _ => false end.
Definition is_xphase (g : igate) : bool := match snd g with GX _ _ _ => true | _ => false end.

(** optimize.py 275-280: [l] is gates[t] without the last len(available[t]) entries, reversed *)
Fixpoint reach (g : igate) (t : nat) (l : list igate) : bool :=
  match l with
  | [] => false
  | h :: l => if is_cnot_to t h then if ig_eqb h g then true else reach g t l else false
  end.
(** optimize.py 264-281, for one pair (c, t) *)
Definition cz_usable (st : ostate) (c t : nat) (g : igate) : bool :=
  is_cnot c t g &&
  (if o_two st t then ig_mem g (o_avail st t)
   else reach g t (rev (upto_end (length (o_avail st t)) (o_gates st t)))).
Definition cz_search (st : ostate) (t1 t2 : nat) : option (nat * nat * igate) :=
  match find (cz_usable st t1 t2) (o_avail st t1) with
  | Some g => Some (t1, t2, g)
  | None => match find (cz_usable st t2 t1) (o_avail st t2) with Some g => Some (t2, t1, g) | None => None end
  end.
(** optimize.py 283-312.  Line 286 compares where an assignment is meant, so
    availty[t] stays 2. *)
Definition cz_absorb (c t : nat) (g : igate) (st : ostate) : res ostate :=
  let st := if o_two st t then set_avail st (fset (o_avail st) t []) else st in
  let* st := gates_rem st t g in
  let* st := gates_rem st c g in
  let* st := avail_rem st c g in
  let s1 := (o_count st, Sg t true) in
  let st := tick st in
  let k := length (o_avail st t) in
  let st := if Nat.eqb k 0 then gates_app (gates_app st t s1) t g
            else let st := set_gates st (fset (o_gates st) t (insert_end k s1 (o_gates st t))) in
                 set_gates st (fset (o_gates st) t (insert_end k g (o_gates st t))) in
  let s2 := (o_count st, Sg t false) in
  let st := avail_app (gates_app (tick st) t s2) t s2 in
  let s3 := (o_count st, Sg c false) in
  let st := tick st in
  Ok (gates_app (gates_app (avail_app (avail_app st c g) c s3) c g) c s3).

(** optimize.py 256-341; [mz] is minimize_czs *)
Definition add_cz (mz : bool) (c t : nat) (st : ostate) : res ostate :=
  match (if mz then cz_search st c t else None) with
  | Some (c', t', g) => cz_absorb c' t' g st
  | None =>
    let st := if o_two st c then reset st c false else st in
    let st := if o_two st t then reset st t false else st in
    let add := let g := (o_count st, GCZ c t) in
               avail_app (avail_app (gates_app (gates_app (tick st) c g) t g) c g) t g in
    match find (is_cz c t) (rev (o_avail st c)) with
    | Some g =>
        if ig_mem g (o_avail st t) then
          let* st := avail_rem st c g in
          let* st := gates_rem st c g in
          let* st := avail_rem st t g in
          gates_rem st t g
        else Ok add
    | None => Ok add
    end
  end.

(** optimize.py 343-400; [sw] is do_swaps *)
Definition cnot_plain (c t : nat) (st : ostate) : res ostate :=
  let st := if o_two st t then st else reset st t true in
  let add := let g := (o_count st, GCNOT c t) in
             avail_app (avail_app (gates_app (gates_app (tick st) c g) t g) c g) t g in
  match find (is_cnot c t) (rev (o_avail st c)) with
  | Some g =>
      if ig_mem g (o_avail st t) then
        let* st := avail_rem st c g in
        let* st := gates_rem st c g in
        let* st := avail_rem st t g in
        gates_rem st t g
      else Ok add
  | None => Ok add
  end.
Definition cnot_swap (c t : nat) (g : igate) (st : ostate) : res ostate :=
  let* st := gates_rem st c g in
  let* st := gates_rem st t g in
  let st := set_two st (fset (fset (o_two st) c false) t true) in
  let x := (o_count st, GCNOT c t) in
  let st := gates_app (gates_app (tick st) c x) t x in
  let st := set_avail st (fset (fset (o_avail st) c [x]) t [x]) in
  let a := o_perm st c in
  let b := o_perm st t in
  let st := set_perm st (fset (fset (o_perm st) c b) t a) in
  Ok (set_zs (set_nots (set_hads st (swap_element (o_hads st) t c)) (swap_element (o_nots st) t c)) (swap_element (o_zs st) t c)).
Definition add_cnot (sw : bool) (c t : nat) (st : ostate) : res ostate :=
  if o_two st c then
    match (if o_two st t then None else find (is_cnot t c) (rev (o_avail st c))) with
    | Some g => if sw && ig_mem g (o_avail st t) then cnot_swap c t g st else cnot_plain c t (reset st c false)
    | None => cnot_plain c t (reset st c false)
    end
  else cnot_plain c t st.

(** optimize.py 408 and 411: next(i for i in self.permutation if self.permutation[i] == q) *)
Definition perm_inv (n : nat) (st : ostate) (q : nat) : res nat :=
  of_opt StopIteration (find (fun i => Nat.eqb (o_perm st i) q) (seq 0 n)).

(** optimize.py 413-435 *)
Definition parse_had (t : nat) (st : ostate) : ostate :=
  let st := if nmem t (o_nots st) && negb (nmem t (o_zs st)) then set_zs (set_nots st (nremove t (o_nots st))) (o_zs st ++ [t])
            else if nmem t (o_zs st) && negb (nmem t (o_nots st)) then set_nots (set_zs st (nremove t (o_zs st))) (o_nots st ++ [t])
            else st in
  let tog := set_hads st (toggle_element (o_hads st) t) in
  match rev (o_gates st t) with
  | (i2, GZ k t2 p) :: (ih, GHAD th) :: r =>
      if Pos.eqb (GateModel.qden p) 2 then
        let zp := (o_count st, ZPhase t (qmod2 (- p)%Qc)) in
        let k' := match k with KS a => KS (if (1 <? GateModel.qnum (qmod2 (- p)%Qc))%Z then true else a) | _ => k end in
        let g2 := (i2, GZ k t2 p) in
        let g2' := (i2, GZ k' t2 (qmod2 (- p)%Qc)) in
        let st := tick st in
        let st := set_gates st (fset (o_gates st) t (rev r ++ [zp; (ih, GHAD th); g2'])) in
        set_avail st (fset (o_avail st) t (map (fun x => if ig_eqb x g2 then g2' else x) (o_avail st t)))
      else tog
  | _ => tog
  end.
(** optimize.py 438-468 *)
Definition parse_zphase (t : nat) (p : Qc) (st : ostate) : res ostate :=
  let p := if nmem t (o_zs st) then qmod2 (p + 1)%Qc else p in
  let st := if nmem t (o_zs st) then set_zs st (nremove t (o_zs st)) else st in
  if qeqb p 0%Qc then Ok st
  else
    let p := if nmem t (o_nots st) then qmod2 (- p)%Qc else p in
    if qeqb p 1%Qc then Ok (set_zs st (toggle_element (o_zs st) t))
    else
      let* st := if nmem t (o_hads st) then add_hadamard t st else Ok st in
      match (if o_two st t then None else find is_zphase (o_avail st t)) with
      | Some (i2, GZ k t2 p2) =>
          let g2 := (i2, GZ k t2 p2) in
          let* st := avail_rem st t g2 in
          let* st := gates_rem st t g2 in
          let ph := qmod2 (p + p2)%Qc in
          if qeqb ph 1%Qc then Ok (set_zs st (toggle_element (o_zs st) t))
          else if qeqb ph 0%Qc then Ok st
          else Ok (add_gate t (ZPhase t ph) st)
      | _ =>
          let st := if o_two st t then reset st t false else st in
          Ok (add_gate t (ZPhase t p) st)
      end.
(** optimize.py 469-492 *)
Definition parse_cz (mz sw : bool) (t1 t2 : nat) (st : ostate) : res ostate :=
  let st := if nmem t1 (o_nots st) then set_zs st (toggle_element (o_zs st) t2) else st in
  let st := if nmem t2 (o_nots st) then set_zs st (toggle_element (o_zs st) t1) else st in
  let* st := if nmem t1 (o_hads st) && nmem t2 (o_hads st) then let* st := add_hadamard t1 st in add_hadamard t2 st else Ok st in
  if negb (nmem t1 (o_hads st)) && negb (nmem t2 (o_hads st)) then
    if Nat.ltb t2 t1 then add_cz mz t2 t1 st else add_cz mz t1 t2 st
  else if nmem t1 (o_hads st) then add_cnot sw t2 t1 st
  else add_cnot sw t1 t2 st.
(** optimize.py 494-514 *)
Definition parse_cnot (mz sw : bool) (c t : nat) (st : ostate) : res ostate :=
  let st := if nmem c (o_nots st) then set_nots st (toggle_element (o_nots st) t) else st in
  let st := if nmem t (o_zs st) then set_zs st (toggle_element (o_zs st) c) else st in
  if nmem c (o_hads st) && nmem t (o_hads st) then add_cnot sw t c st
  else if negb (nmem c (o_hads st)) && negb (nmem t (o_hads st)) then add_cnot sw c t st
  else if nmem t (o_hads st) then add_cz mz (if Nat.ltb c t then c else t) (if Nat.ltb t c then c else t) st
  else let* st := add_hadamard c st in add_cnot sw c t st.
(** the attribute [target], which ParityPhase does not have *)
Definition gate_target (g : gate) : res nat :=
  match g with
  | GZ _ t _ | GX _ t _ | GY _ t _ | GHAD t | GCNOT _ t | GCZ _ t | GXCX _ t | GSWAP _ t | GCY _ t | GCSX _ t | GCHAD _ t
  | GCRX _ t _ | GCRY _ t _ | GCRZ _ t _ | GCPhase _ t _ | GRXX _ t _ | GRZZ _ t _ _ | GCCZ _ _ t | GTof _ _ t | GCSWAP _ _ t
  | GU2 t _ _ | GU3 t _ _ _ | GCU3 _ t _ _ _ | GCU _ t _ _ _ _ | GFSim _ t _ _ => Ok t
  | GParity _ _ => Err AttributeError
  end.
(** optimize.py 402-517 *)
Definition parse_gate (n : nat) (mz sw : bool) (st : ostate) (g : gate) : res ostate :=
  let* t0 := gate_target g in
  let* t := perm_inv n st t0 in
  match g with
  | GHAD _ => Ok (parse_had t st)
  | GX KNOT _ _ => Ok (set_nots st (toggle_element (o_nots st) t))
  | GZ _ _ p => parse_zphase t p st
  | GCZ c0 _ => let* c := perm_inv n st c0 in parse_cz mz sw c t st
  | GCNOT c0 _ => let* c := perm_inv n st c0 in parse_cnot mz sw c t st
  | _ => Err TypeError
  end.

(** ** topological_sort_gates, optimize.py 195-236 *)
Definition two_qubit (g : igate) : option (nat * nat) := match snd g with GCNOT c t | GCZ c t => Some (c, t) | _ => None end.
(** q2 = g.target if q == g.control else g.control *)
Definition other_end (q c t : nat) : nat := if Nat.eqb q c then t else c.
Definition av_add (i : nat) (av : list nat) : list nat := if nmem i av then av else i :: av.
(** line 213 (and 221-222): the gate acts like a Z rotation on qubit q *)
Definition z_end (q : nat) (g : igate) : bool := match snd g with GCZ _ _ => true | GCNOT c _ => Nat.eqb c q | _ => false end.
Definition x_end (q : nat) (g : igate) : bool := match snd g with GCNOT _ t => Nat.eqb t q | _ => false end.
Record sortst := mkS { s_gates : nat -> list igate; s_out : list igate; s_av : list nat }.
Definition take_pair (q : nat) (g : igate) (ct : nat * nat) (st : sortst) : res sortst :=
  let q2 := other_end q (fst ct) (snd ct) in
  let* l := ig_remove g (s_gates st q2) in
  Ok (mkS (fset (s_gates st) q2 l) (s_out st ++ [g]) (nremove (fst g) (s_av st))).
(** lines 215-234: the list gs[1:]; returns what is left of it *)
Fixpoint behind (q : nat) (z : bool) (gs : list igate) (st : sortst) : res (list igate * sortst) :=
  match gs with
  | [] => Ok ([], st)
  | g :: r =>
      if (z && is_zphase g) || (negb z && is_xphase g) then behind q z r (mkS (s_gates st) (s_out st ++ [g]) (s_av st))
      else match two_qubit g with
           | None => Ok (gs, st)
           | Some ct =>
               if (z && z_end q g) || (negb z && x_end q g) then
                 if nmem (fst g) (s_av st) then let* st := take_pair q g ct st in behind q z r st
                 else let* rs := behind q z r (mkS (s_gates st) (s_out st) (av_add (fst g) (s_av st))) in Ok (g :: fst rs, snd rs)
               else Ok (gs, st)
           end
  end.
(** lines 203-235: the loop [while gs] *)
Fixpoint front (q : nat) (gs : list igate) (st : sortst) : res (list igate * sortst) :=
  match gs with
  | [] => Ok ([], st)
  | g :: r =>
      match two_qubit g with
      | None => front q r (mkS (s_gates st) (s_out st ++ [g]) (s_av st))
      | Some ct =>
          if nmem (fst g) (s_av st) then let* st := take_pair q g ct st in front q r st
          else let* rs := behind q (z_end q g) r (mkS (s_gates st) (s_out st) (av_add (fst g) (s_av st))) in Ok (g :: fst rs, snd rs)
      end
  end.
Definition sort_qubit (st : sortst) (q : nat) : res sortst :=
  let* rs := front q (s_gates st q) st in Ok (mkS (fset (s_gates (snd rs)) q (fst rs)) (s_out (snd rs)) (s_av (snd rs))).
Definition sort_round (n : nat) (G : nat -> list igate) (out : list igate) : res sortst :=
  foldM sort_qubit (seq 0 n) (mkS G out []).
Definition any_left (n : nat) (G : nat -> list igate) : bool := existsb (fun q => negb (Nat.eqb (length (G q)) 0)) (seq 0 n).
Fixpoint sort_loop (fuel n : nat) (G : nat -> list igate) (out : list igate) : res (list igate) :=
  if any_left n G then
    match fuel with
    | O => Err OutOfFuel
    | S fuel => let* st := sort_round n G out in sort_loop fuel n (s_gates st) (s_out st)
    end
  else Ok out.
Definition total_len (n : nat) (G : nat -> list igate) : nat := fold_right (fun q k => length (G q) + k) 0 (seq 0 n).
Definition topological_sort_gates (n : nat) (G : nat -> list igate) : res (list gate) :=
  let* out := sort_loop (total_len n G) n G [] in Ok (map snd out).

(** optimize.py 153-193; returns c.gates and the correction *)
Definition parse_forward (n : nat) (mz sw : bool) (gs : list gate) : res (list gate * list gate) :=
  let* st := foldM (parse_gate n mz sw) gs o_start in
  let* st := foldM (fun st t => add_hadamard t st) (o_hads st) st in
  let st := fold_left (fun st t => gates_app (tick st) t (o_count st, Zg t)) (o_zs st) st in
  let* out := topological_sort_gates n (o_gates st) in
  let* swaps := permutation_as_swaps (map (fun i => (i, o_perm st i)) (seq 0 n)) in
  Ok (out, map NOTg (o_nots st) ++ map (fun ab => GSWAP (fst ab) (snd ab)) swaps).

(** optimize.py 71-82 *)
Definition phase_not_pi (g : gate) : res bool :=
  match g with
  | GZ _ _ p | GX _ _ p | GY _ _ p | GCRX _ _ p | GCRY _ _ p | GCRZ _ _ p | GCPhase _ _ p | GRXX _ _ p | GParity p _ | GRZZ _ _ _ p => Ok (negb (qeqb p 1%Qc))
  | _ => Err AttributeError
  end.
Definition stats_step (s : nat * nat * nat) (g : gate) : res (nat * nat * nat) :=
  let '(h, tq, np) := s in
  match g with
  | GCZ _ _ | GCNOT _ _ => Ok (h, S tq, np)
  | GHAD _ => Ok (S h, tq, np)
  | GX KNOT _ _ => Ok s
  | _ => let* b := phase_not_pi g in Ok (if b then (h, tq, S np) else s)
  end.
Definition stats (gs : list gate) : res (nat * nat * nat) := foldM stats_step gs (0, 0, 0).
Definition stats_le (a b : nat * nat * nat) : bool :=
  let '(h, tq, np) := a in let '(h', tq', np') := b in Nat.leb h h' && Nat.leb tq tq' && Nat.leb np np'.
(** for g in correction: gates.extend(g.to_basic_gates()) *)
Definition extend_basic (gs cor : list gate) : res (list gate) :=
  foldM (fun acc g => let* b := to_basic_gates g in Ok (acc ++ b)) cor gs.
(** optimize.py 132-145 *)
Fixpoint opt_loop (fuel n : nat) (sw : bool) (maxit i : nat) (mz : bool) (count : nat * nat * nat) (gs : list gate) : res (list gate * list gate) :=
  match fuel with
  | O => Err OutOfFuel
  | S fuel =>
      let* p1 := parse_forward n mz sw (rev gs) in
      let* g1 := extend_basic (fst p1) (snd p1) in
      let* p2 := parse_forward n mz sw (rev g1) in
      let i := S i in
      let* s := stats (fst p2) in
      if mz && (stats_le count s || Nat.leb maxit i) then Ok p2
      else let* g2 := extend_basic (fst p2) (snd p2) in opt_loop fuel n sw maxit i true s g2
  end.
(** optimize.py 112-151: the gates and the correction it returns when separate_correction is set *)
Definition parse_circuit_sep (sw : bool) (maxit : nat) (c : circuit) : res (circuit * list gate) :=
  let n := cqubits c in
  let* p0 := parse_forward n false sw (cgates c) in
  let* count := stats (fst p0) in
  let* g0 := extend_basic (fst p0) (snd p0) in
  let* p := opt_loop (S (S maxit)) n sw maxit 0 false count g0 in
  Ok (mkCirc n (fst p), snd p).
Definition parse_circuit (sw : bool) (maxit : nat) (c : circuit) : res circuit :=
  let* p := parse_circuit_sep sw maxit c in
  let* gs := extend_basic (cgates (fst p)) (snd p) in
  Ok (mkCirc (cqubits (fst p)) gs).
(** optimize.py 43-57 *)
Definition basic_optimization (sw : bool) (c : circuit) : res circuit := parse_circuit sw 1000 c.
