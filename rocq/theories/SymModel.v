(** Symbolic phases (pyzx/symbolic.py).  Variables are numbers ordered like
    their names; [isb] says which of them are Boolean (symbolic.py 63-67: within
    a graph one name has one type).  Coefficients are rationals (ints and
    Fractions; floats idealised, complex coefficients not modelled), exponents
    are natural numbers (division, which can make negative ones, is not
    modelled).  Hashes, by which terms and polynomials are compared, are
    idealised as free of collisions. *)
From Coq Require Import ZArith QArith Qround Qcanon List Bool Arith.
From Verif Require Import CNum Base ScalarModel.
Import ListNotations.
Open Scope nat_scope.

(** symbolic.py 89-93, Term: variables with exponents *)
Definition term := list (nat * nat).
(** symbolic.py 149-153, Poly *)
Definition poly := list (Qc * term).

(** Python's q % 1 *)
Definition qmod1 (q : Qc) : Qc := (q - Qcz (Qfloor (this q)))%Qc.

Section Sym.
  Variable isb : nat -> bool.

  (** symbolic.py 58-61, the order of variables, extended to pairs with exponents *)
  Definition vle (a b : nat * nat) : bool :=
    if Nat.eqb (fst a) (fst b) then Nat.leb (snd a) (snd b)
    else if Bool.eqb (isb (fst a)) (isb (fst b)) then Nat.ltb (fst a) (fst b)
    else negb (isb (fst a)).
  Fixpoint vins (a : nat * nat) (l : term) : term :=
    match l with [] => [a] | b :: l' => if vle a b then a :: l else b :: vins a l' end.
  Definition vsort (t : term) : term := fold_right vins [] t.
  Fixpoint leqb (s t : term) : bool :=
    match s, t with
    | [], [] => true
    | a :: s', b :: t' => Nat.eqb (fst a) (fst b) && Nat.eqb (snd a) (snd b) && leqb s' t'
    | _, _ => false
    end.
  (** symbolic.py 121-125, Term.__hash__ and __eq__ *)
  Definition term_eqb (s t : term) : bool := leqb (vsort s) (vsort t).

  (** symbolic.py 113-118, one step of Term.__mul__ *)
  Definition tmul_step (vs : dict nat) (vc : nat * nat) : dict nat :=
    let (v, c) := vc in
    let vs := match dget v vs with None => dset v c vs | Some c' => dset v (c' + c) vs end in
    if isb v && Nat.ltb 1 c then dset v 1 vs else vs.
  (** symbolic.py 111-119, Term.__mul__ *)
  Definition tmul (s t : term) : term := fold_left tmul_step (s ++ t) [].

  Definition tbool (t : term) : bool := forallb (fun vc : nat * nat => isb (fst vc)) t.
  (** symbolic.py 172-174, coefficients of Boolean monomials are reduced modulo 2 *)
  Definition cred (t : term) (c : Qc) : Qc :=
    if Nat.ltb 0 (length t) && tbool t then qmod2 c else c.
  (** symbolic.py 169-174, one step of Poly.__add__ on the dictionary [counter] *)
  Fixpoint count (c : Qc) (t : term) (l : list (term * Qc)) : list (term * Qc) :=
    match l with
    | [] => [(t, cred t c)]
    | (t', c') :: l' => if term_eqb t t' then (t', cred t (c' + c)%Qc) :: l' else (t', c') :: count c t l'
    end.
  (** symbolic.py 165-180, Poly.__add__ of two polynomials *)
  Definition padd (p q : poly) : poly :=
    let counter := fold_left (fun l (ct : Qc * term) => count (fst ct) (snd ct) l) (p ++ q) [] in
    map (fun tc : term * Qc => (snd tc, fst tc)) (filter (fun tc : term * Qc => negb (qeqb (snd tc) 0%Qc)) counter).
  (** symbolic.py 166-167, 333-334: a number as a polynomial *)
  Definition new_const (c : Qc) : poly := [(c, [])].
  (** symbolic.py 330-331 *)
  Definition new_var (v : nat) : poly := [(1%Qc, [(v, 1)])].
  (** symbolic.py 184-185, 187-188 *)
  Definition pneg (p : poly) : poly := map (fun ct : Qc * term => ((- fst ct)%Qc, snd ct)) p.
  Definition psub (p q : poly) : poly := padd p (pneg q).
  (** symbolic.py 193-200, Poly.__mul__ *)
  Definition pmul (p q : poly) : poly :=
    fold_left (fun acc (ct1 : Qc * term) =>
      fold_left (fun acc (ct2 : Qc * term) => padd acc [((fst ct1 * fst ct2)%Qc, tmul (snd ct1) (snd ct2))]) q acc) p [].
  (** symbolic.py 220-227, Poly.__pow__ for exponents that are not negative *)
  Fixpoint ppow (p : poly) (n : nat) : poly :=
    match n with O => new_const 1%Qc | S m => match m with O => p | S _ => pmul p (ppow p m) end end.
  (** symbolic.py 229-230, Poly.__mod__ with 2 *)
  Definition pmod2 (p : poly) : poly := map (fun ct : Qc * term => (qmod2 (fst ct), snd ct)) p.
  (** symbolic.py 135-146, Term.substitute; the values are rationals *)
  Definition tsubst_step (s : dict Qc) (acc : Qc * term) (vc : nat * nat) : Qc * term :=
    match dget (fst vc) s with
    | Some x => ((fst acc * Qcpower x (snd vc))%Qc, snd acc)
    | None => (fst acc, snd acc ++ [vc])
    end.
  Definition tsubst (s : dict Qc) (t : term) : Qc * term := fold_left (tsubst_step s) t (1%Qc, []).
  (** symbolic.py 322-328, Poly.substitute *)
  Definition psubst (s : dict Qc) (p : poly) : poly :=
    fold_left (fun acc (ct : Qc * term) => let (k, t) := tsubst s (snd ct) in padd acc [((fst ct * k)%Qc, t)]) p [].
  (** symbolic.py 246-253, Poly.__eq__ of two polynomials *)
  Definition citem_eqb (a b : Qc * term) : bool := qeqb (fst a) (fst b) && term_eqb (snd a) (snd b).
  Definition peqb (p q : poly) : bool :=
    forallb (fun a => existsb (citem_eqb a) q) p && forallb (fun a => existsb (citem_eqb a) p) q.
  (** symbolic.py 246-251, Poly.__eq__ with a number *)
  Definition peqc (p : poly) (c : Qc) : bool := peqb p (if qeqb c 0%Qc then [] else new_const c).
  (** symbolic.py 285-294, is_pauli *)
  Definition p_is_pauli (p : poly) : bool := forallb (fun ct : Qc * term => tbool (snd ct) && qeqb (qmod1 (fst ct)) 0%Qc) p.
  (** symbolic.py 296-309, is_clifford *)
  Definition p_is_clifford (p : poly) : bool :=
    forallb (fun ct : Qc * term => tbool (snd ct) &&
      match snd ct with [] => qeqb (qmod1 (fst ct * Qcz 2)%Qc) 0%Qc | _ => qeqb (qmod1 (fst ct)) 0%Qc end) p.

  (** ** phases stored in a graph: numbers or polynomials *)
  Inductive sphase := Num (q : Qc) | Sym (p : poly).
  Definition sadd (a b : sphase) : sphase :=
    match a, b with
    | Num p, Num q => Num (p + q)%Qc
    | Sym p, Num q => Sym (padd p (new_const q))
    | Num p, Sym q => Sym (padd q (new_const p))
    | Sym p, Sym q => Sym (padd p q)
    end.
  Definition smod2 (a : sphase) : sphase := match a with Num q => Num (qmod2 q) | Sym p => Sym (pmod2 p) end.
  (** graph_s.py 291-292, phase(v) *)
  Definition sphase_of (d : dict sphase) (v : nat) : sphase := match dget v d with Some p => p | None => Num 1%Qc end.
  (** graph_s.py 295-299, set_phase (% never raises on numbers and polynomials) *)
  Definition set_sphase (v : nat) (p : sphase) (d : dict sphase) : dict sphase := dset v (smod2 p) d.
  (** graph_s.py 300-305, add_to_phase *)
  Definition add_to_sphase (v : nat) (p : sphase) (d : dict sphase) : dict sphase := dset v (smod2 (sadd (sphase_of d v) p)) d.
End Sym.
