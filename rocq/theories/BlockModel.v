(** Model of [greedy_consume_gates] and [phase_block_optimize], pyzx/optimize.py
    522-778.  Only definitions.

    A gate object is its index together with its class and attributes, as in
    OptModel.  The dictionary [gates], with keys range(qubits) in this order, is the
    list of its values.  Only phase gates, HAD, CNOT and CZ are modelled in
    [greedy_consume_gates]: phase_block_optimize raises TypeError on all others.
    The renaming after [todd_simp] (optimize.py 755-768) is by the dictionary that
    [todd_simp] returns; ToddModel shows that it is the identity, so it changes
    nothing; the model keeps the lookups and drops the assignments of equal values.
    A plain [Exception] is [AssertionError].  [sh] and [hist] give, for every call of
    [todd_simp], the random shuffle and the state of the linear algebra module.
    Left out: printing, and the external program TOpt. *)
From Coq Require Import ZArith QArith Qcanon List Bool Arith.
From Verif Require Import CNum Base ScalarModel GateModel LinModel PermModel OptModel ToddModel.
Import ListNotations.
Open Scope nat_scope.

Definition table := list (list igate).
(** gates[q], and the assignment of a changed list *)
Definition tget (q : nat) (G : table) : res (list igate) := match nth_error G q with Some l => Ok l | None => Err KeyError end.
Fixpoint tset (q : nat) (l : list igate) (G : table) : table :=
  match G, q with [], _ => [] | _ :: G, O => l :: G | m :: G, S q => m :: tset q l G end.
(** gates[q].append(g) *)
Definition tapp (q : nat) (g : igate) (G : table) : res table := let* l := tget q G in Ok (tset q (l ++ [g]) G).
(** gates[q].remove(g) *)
Definition tremove (q : nat) (g : igate) (G : table) : res table :=
  let* l := tget q G in let* l' := ig_remove g l in Ok (tset q l' G).
(** the part of the list after the first object equal to [h]; optimize.py 580-581 *)
Fixpoint after (h : igate) (l : list igate) : res (list igate) :=
  match l with [] => Err ValueError | b :: l => if ig_eqb b h then Ok l else after h l end.

(** ** The first pass, optimize.py 531-574 *)
(** had_blocked, to_be_appended, available *)
Definition pstate := (list (nat * igate) * list igate * list nat)%type.
(** optimize.py 541-547: the commutation type of the first gate *)
Definition first_ty (q : nat) (g : gate) : nat :=
  match g with GZ _ _ _ | GCZ _ _ => 1 | GCNOT c _ => if Nat.eqb c q then 1 else 2 | _ => 0 end.
(** optimize.py 555-557 and 566-568: a gate on two qubits *)
Definition avail2 (g : igate) (st : pstate) : pstate :=
  let '(hb, tba, av) := st in
  if nmem (fst g) av then (hb, tba ++ [g], av) else (hb, tba, av ++ [fst g]).
(** optimize.py 548-568 *)
Fixpoint scan1 (q ty : nat) (gs : list igate) (st : pstate) : pstate :=
  match gs with
  | [] => st
  | g :: gs' =>
    match snd g with
    | GHAD _ => let '(hb, tba, av) := st in (hb ++ [(q, g)], tba, av)
    | GZ _ _ _ => if Nat.eqb ty 1 then let '(hb, tba, av) := st in scan1 q ty gs' (hb, tba ++ [g], av) else st
    | GCZ _ _ => if Nat.eqb ty 1 then scan1 q ty gs' (avail2 g st) else st
    | GCNOT c t => if (Nat.eqb ty 1 && Nat.eqb t q) || (Nat.eqb ty 2 && Nat.eqb c q) then st else scan1 q ty gs' (avail2 g st)
    | _ => st
    end
  end.
(** optimize.py 535-568, for one qubit; the second component is gatetype *)
Definition step1 (a : pstate * list nat) (ql : nat * list igate) : pstate * list nat :=
  let '(st, tys) := a in
  let '(q, gs) := ql in
  match gs with
  | [] => (st, tys ++ [0])
  | g :: _ =>
    match snd g with
    | GHAD _ => let '(hb, tba, av) := st in ((hb ++ [(q, g)], tba, av), tys ++ [0])
    | _ => let ty := first_ty q (snd g) in (scan1 q ty gs st, tys ++ [ty])
    end
  end.
Definition pass1 (G : table) : pstate * list nat :=
  fold_left step1 (combine (seq 0 (length G)) G) (([], [], []), []).
(** optimize.py 571-573 *)
Definition consume (G : table) (g : igate) : res table :=
  match snd g with
  | GZ _ t _ => tremove t g G
  | GCZ c t | GCNOT c t => let* G := tremove t g G in tremove c g G
  | _ => Err AttributeError
  end.

(** ** The gates behind Hadamards, optimize.py 577-649 *)
(** optimize.py 598-612 *)
Definition addcand (g : igate) (cands : list igate) : list igate := if ig_mem g cands then cands else cands ++ [g].
Fixpoint scan2 (q rt : nat) (gs : list igate) (st : list nat * list igate) : list nat * list igate :=
  match gs with
  | [] => st
  | g :: gs' =>
    let '(av, cands) := st in
    match snd g with
    | GHAD _ => st
    | GZ _ _ _ => if Nat.eqb rt 1 then scan2 q rt gs' st else st
    | GCZ _ _ =>
      if Nat.eqb rt 2 then st
      else scan2 q rt gs' (if nmem (fst g) av then (av, addcand g cands) else st)
    | GCNOT c _ =>
      if (if Nat.eqb c q then Nat.eqb rt 2 else Nat.eqb rt 1) then st
      else scan2 q rt gs' (if nmem (fst g) av then (av, addcand g cands) else (av ++ [fst g], cands))
    | _ => st
    end
  end.
(** optimize.py 579-612; the result is the table after the removal of two Hadamards,
    or the candidates *)
Fixpoint hpass (tys : list nat) (hbs : list (nat * igate)) (G : table) (st : list nat * list igate) : res (table + list igate) :=
  match hbs with
  | [] => Ok (inr (snd st))
  | (q, h) :: hbs =>
    let* l := tget q G in
    let* gs := after h l in
    match gs with
    | [] => hpass tys hbs G st
    | g :: _ =>
      match snd g with
      | GHAD _ => let* G := tremove q h G in let* G := tremove q g G in Ok (inl G)
      | _ =>
        let zty := match snd g with GCNOT c _ => Nat.eqb c q | _ => true end in
        let ty := nth q tys 0 in
        let left_ty := if zty then (if Nat.eqb ty 0 then 2 else ty) else (if Nat.eqb ty 0 then 1 else ty) in
        let right_ty := if zty then 1 else 2 in
        if Nat.eqb left_ty right_ty then hpass tys hbs G st
        else hpass tys hbs G (scan2 q right_ty gs st)
      end
    end
  end.
(** q in had_blocked and index > had_blocked[q].index *)
Definition behind (hb : list (nat * igate)) (q i : nat) : bool :=
  match find (fun e => Nat.eqb (fst e) q) hb with Some e => Nat.ltb (fst (snd e)) i | None => false end.
(** optimize.py 615-647, for one candidate *)
Definition cand_step (hb : list (nat * igate)) (a : table * list igate * bool) (g : igate) : res (table * list igate * bool) :=
  let '(G, block, added) := a in
  let i := fst g in
  match snd g with
  | GCZ c t =>
    let q := if behind hb t i then t else c in
    let q2 := if Nat.eqb c q then t else c in
    if behind hb q2 i then Err AssertionError else
    let* G := tremove q g G in
    let* G := tremove q2 g G in
    Ok (G, block ++ [(i, GCNOT q2 q)], true)
  | GCNOT c t =>
    if behind hb t i && behind hb c i then
      let* G := tremove t g G in
      let* G := tremove c g G in
      Ok (G, block ++ [(i, GCNOT t c)], true)
    else if behind hb t i then
      let* G := tremove t g G in
      let* G := tremove c g G in
      Ok (G, block ++ [(i, GCZ c t)], true)
    else Ok a
  | _ => Ok a
  end.

(** ** greedy_consume_gates *)
(** optimize.py 530-649: the loop *)
Fixpoint greedy_loop (fuel : nat) (G : table) (block : list igate) : res (table * list igate) :=
  match fuel with
  | O => Err OutOfFuel
  | S f =>
    let '((hb, tba, av), tys) := pass1 G in
    match tba with
    | _ :: _ => let* G := foldM consume tba G in greedy_loop f G (block ++ tba)
    | [] =>
      let* r := hpass tys hb G (av, []) in
      match r with
      | inl G => greedy_loop f G block
      | inr cands =>
        let* a := foldM (cand_step hb) cands (G, block, false) in
        let '(G, block, added) := a in
        if added : bool then greedy_loop f G block else Ok (G, block)
      end
    end
  end.
(** optimize.py 651-654: the Hadamards in front *)
Definition pop_had (l : list igate) : list igate * list igate :=
  match l with g :: l' => match snd g with GHAD _ => ([g], l') | _ => ([], l) end | [] => ([], []) end.
(** every round removes an entry, so this number of rounds is enough (theorem) *)
Definition entries (G : table) : nat := length (concat G).
(** optimize.py 522-655; the first component is the changed dictionary *)
Definition greedy_consume_gates (G : table) : res (table * list igate * list igate) :=
  let* r := greedy_loop (S (entries G)) G [] in
  let (G, block) := r in
  Ok (map (fun l => snd (pop_had l)) G, block, concat (map (fun l => fst (pop_had l)) G)).

(** ** phase_block_optimize *)
(** optimize.py 686-695: the postponed gates *)
Definition corr_step (a : list (nat * nat) * list gate) (g : gate) : res (list (nat * nat) * list gate) :=
  let (perm, nots) := a in
  match g with
  | GSWAP c t =>
    let* x := dlook c perm in
    let* y := dlook t perm in
    Ok (dput t x (dput c y perm), nots)
  | GX KNOT _ _ => Ok (perm, nots ++ [g])
  | _ => Err TypeError
  end.
(** optimize.py 699-714 *)
Definition load_step (G : table) (ig : igate) : res table :=
  match snd ig with
  | GCNOT c t | GCZ c t => let* G := tapp c ig G in tapp t ig G
  | GHAD t => tapp t ig G
  | GZ _ t p => match Qden (this p) with 1%positive | 2%positive | 4%positive => tapp t ig G | _ => Err TypeError end
  | _ => Err TypeError
  end.
Definition enumerate (l : list gate) : list igate := combine (seq 0 (length l)) l.
Definition load (n : nat) (gs : list gate) : res table := foldM load_step (enumerate gs) (repeat [] n).
(** optimize.py 722-733 *)
Definition rload_step (G : table) (ig : igate) : res table :=
  match snd ig with
  | GCNOT c t | GCZ c t => let* G := tapp t ig G in tapp c ig G
  | GHAD t | GZ _ t _ => tapp t ig G
  | _ => Err AttributeError
  end.
Definition rload (n : nat) (gs : list gate) : res table := foldM rload_step (enumerate gs) (repeat [] n).
(** optimize.py 739-746: the gates that are left, by decreasing index *)
Definition collect (G : table) : list igate :=
  fst (fold_left (fun a g => let '(l, ix) := a in if nmem (fst g) ix then a else (l ++ [g], ix ++ [fst g])) (concat G) ([], [])).
Fixpoint insert_desc (g : igate) (l : list igate) : list igate :=
  match l with [] => [g] | h :: r => if Nat.leb (fst h) (fst g) then g :: l else h :: insert_desc g r end.
Definition sort_desc (l : list igate) : list igate := fold_right insert_desc [] l.
Definition is_nil {A} (l : list A) : bool := match l with [] => true | _ => false end.
(** optimize.py 720-768: the loop; consumed, block, hadamards *)
Fixpoint block_loop (fuel k : nat) (sh : nat -> list (list bool) -> list (list bool)) (hist : nat -> list nat) (n : nat)
    (G : table) (perm : list (nat * nat)) (consumed block hads : list gate) : res (list gate * list gate * list gate * list (nat * nat)) :=
  if forallb is_nil G then Ok (consumed, block, hads, perm) else
  match fuel with
  | O => Err OutOfFuel
  | S f =>
    let* R := rload n (hads ++ rev block) in
    let* r := greedy_consume_gates R in
    let '(R, revblock, had2) := r in
    if negb (Nat.eqb (length hads) (length had2)) then Err AssertionError else
    let consumed := consumed ++ map snd (sort_desc (collect R)) ++ map snd had2 in
    let* r := greedy_consume_gates G in
    let '(G, newblock, hads) := r in
    let* td := todd_simp (sh k) (hist k) (rev (map snd revblock) ++ map snd newblock) n in
    let (block, permute) := td in
    let* perm := mapM (fun i => let* j := dlook i permute in let* v := dlook j perm in Ok (i, v)) (seq 0 n) in
    block_loop f (S k) sh hist n G perm consumed block (map snd hads)
  end.
(** optimize.py 684-778: the circuit and its postponed gates *)
Definition phase_block (sh : nat -> list (list bool) -> list (list bool)) (hist : nat -> list nat) (n : nat) (gs cor : list gate) : res circuit :=
  let* a := foldM corr_step cor (map (fun i => (i, i)) (seq 0 n), []) in
  let (perm, nots) := a in
  let perm := dinv perm in
  let* G := load n gs in
  let* r := block_loop (entries G) 0 sh hist n G perm [] [] [] in
  let '(consumed, block, hads, perm) := r in
  let* sw := permutation_as_swaps perm in
  Ok (mkCirc n (consumed ++ block ++ hads ++ nots ++ map (fun ab => GSWAP (fst ab) (snd ab)) sw)).
(** optimize.py 658-778; [parse_circuit] is called with its default arguments
    max_iterations=1000 and do_swaps=True *)
Definition phase_block_optimize (sh : nat -> list (list bool) -> list (list bool)) (hist : nat -> list nat) (pre_optimize : bool) (c : circuit) : res circuit :=
  if pre_optimize then
    let* r := parse_circuit_sep true 1000 c in
    phase_block sh hist (cqubits c) (cgates (fst r)) (snd r)
  else phase_block sh hist (cqubits c) (cgates c) [].
