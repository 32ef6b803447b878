(** Property theorems about symbolic phases (C40, C33). *)
From Coq Require Import Reals ZArith QArith Qcanon Qreals List Bool Arith Lia Lra Permutation.
From Verif Require Import CNum Base ScalarModel ScalarProofs SymModel SymProofs SymFacts.
Import ListNotations.
Open Scope R_scope.

(** ** C40: symbolic arithmetic and evaluation *)
(** Sum, difference, negation and product, for every assignment that gives
    Boolean variables the values 0 and 1 and the others any real number. *)
Theorem C40_arithmetic : forall isb r p q, asg isb r ->
  cong2 (ev r (padd isb p q)) (ev r p + ev r q) /\ cong2 (ev r (psub isb p q)) (ev r p - ev r q) /\ ev r (pneg p) = - ev r p /\
  cong2 (ev r (pmul isb p q)) (ev r p * ev r q) /\ (forall c, ev r (new_const c) = Q2R c) /\ (forall v, ev r (new_var v) = r v).
Proof. exact sym_arith. Qed.
Print Assumptions C40_arithmetic.
(** Substituting numbers for some of the variables (also non-Boolean numbers for Boolean ones). *)
Theorem C40_substitute : forall isb r s p, asg isb r -> cong2 (ev r (psubst isb s p)) (ev (fun v => match dget v s with Some x => Q2R x | None => r v end) p).
Proof. exact (fun isb r s p A => psubst_val isb r A s p). Qed.
Print Assumptions C40_substitute.
(** Powers up to 2, and all powers of polynomials with is_pauli. *)
Theorem C40_power : forall isb r p n, asg isb r -> (n <= 2)%nat \/ p_is_pauli isb p = true -> cong2 (ev r (ppow isb p n)) (ev r p ^ n).
Proof. exact sym_pow. Qed.
Print Assumptions C40_power.
(** Higher powers are wrong in general: factors are reduced modulo 2 too early. *)
Theorem C40_power_refuted : exists isb r p n, asg isb r /\ ~ cong2 (ev r (ppow isb p n)) (ev r p ^ n).
Proof. exact pow_wrong. Qed.
Print Assumptions C40_power_refuted.
(** Polynomials reported as Pauli or Clifford are multiples of pi or pi/2 under every assignment. *)
Theorem C40_pauli_clifford : forall isb r p, asg isb r ->
  (p_is_pauli isb p = true -> exists n, ev r p = IZR n) /\ (p_is_clifford isb p = true -> exists n, 2 * ev r p = IZR n).
Proof. exact (fun isb r p A => conj (pauli_val isb r A p) (clifford_val isb r A p)). Qed.
Print Assumptions C40_pauli_clifford.
(** Polynomials without repeated monomials that compare equal have equal values; sums never repeat a monomial. *)
Theorem C40_equality : forall isb p q, (ndt isb p -> ndt isb q -> peqb isb p q = true -> forall r, ev r p = ev r q) /\ ndt isb (padd isb p q).
Proof. exact (fun isb p q => conj (fun Np Nq E r => peqb_val isb r p q Np Nq E) (padd_nd isb p q)). Qed.
Print Assumptions C40_equality.
(** The converse fails: b * b and b have the same values but do not compare equal. *)
Theorem C40_equality_refuted : exists isb p q, (forall r, asg isb r -> ev r p = ev r q) /\ peqb isb p q = false /\ p = pmul isb q q.
Proof. exact eq_incomplete. Qed.
Print Assumptions C40_equality_refuted.

(** ** C33: symbolic phases stored in a graph *)
Theorem C33_symbolic_set : forall isb r v p d, asg isb r -> smod_safe isb p ->
  cong2 (sev r (sphase_of (set_sphase v p d) v)) (sev r p) /\ forall u, u <> v -> sphase_of (set_sphase v p d) u = sphase_of d u.
Proof. exact set_sphase_ok. Qed.
Print Assumptions C33_symbolic_set.
Theorem C33_symbolic_add : forall isb r v p d, asg isb r -> smod_safe isb (sadd isb (sphase_of d v) p) ->
  cong2 (sev r (sphase_of (add_to_sphase isb v p d) v)) (sev r (sphase_of d v) + sev r p) /\ forall u, u <> v -> sphase_of (add_to_sphase isb v p d) u = sphase_of d u.
Proof. exact add_to_sphase_ok. Qed.
Print Assumptions C33_symbolic_add.
(** With numbers and Boolean variables only the premises above hold in every reachable store. *)
Theorem C33_symbolic_boolean : forall isb d v p, (forall u, sbool isb (sphase_of d u)) -> sbool isb p ->
  smod_safe isb p /\ smod_safe isb (sadd isb (sphase_of d v) p) /\ (forall u, sbool isb (sphase_of (set_sphase v p d) u)) /\ (forall u, sbool isb (sphase_of (add_to_sphase isb v p d) u)).
Proof. exact sbool_store. Qed.
Print Assumptions C33_symbolic_boolean.
(** With continuous variables coefficients are reduced modulo 2: adding x to x stores 0. *)
Theorem C33_symbolic_refuted : exists isb r v d p, asg isb r /\ smod_safe isb p /\ smod_safe isb (sphase_of d v) /\
  ~ cong2 (sev r (sphase_of (add_to_sphase isb v p d) v)) (sev r (sphase_of d v) + sev r p).
Proof. exact store_wrong. Qed.
Print Assumptions C33_symbolic_refuted.

(** b is variable 0 (Boolean), x is variable 1 (continuous) *)
Definition shown (p : poly) : list (Q * term) := map (fun ct : Qc * term => (this (fst ct), snd ct)) p.
Example C40_case : asg bvar half_asg /\
  shown (padd bvar [(frac 3 2, [(0%nat, 1%nat)]); (frac 1 2, [])] [(1%Qc, [(0%nat, 1%nat)]); (frac 3 2, []); (1%Qc, [(1%nat, 1%nat)])]) = [((1 # 2)%Q, [(0%nat, 1%nat)]); ((2 # 1)%Q, []); ((1 # 1)%Q, [(1%nat, 1%nat)])] /\
  shown (pmul bvar [(frac 3 2, [(0%nat, 1%nat)]); (1%Qc, [])] [(frac 3 2, [(0%nat, 1%nat)]); (1%Qc, [(1%nat, 1%nat)])]) =
    [((1 # 4)%Q, [(0%nat, 2%nat)]); ((3 # 2)%Q, [(0%nat, 1%nat); (1%nat, 1%nat)]); ((3 # 2)%Q, [(0%nat, 1%nat)]); ((1 # 1)%Q, [(1%nat, 1%nat)])] /\
  shown (psubst bvar [(1%nat, frac 1 2)] [(frac 3 1, [(0%nat, 1%nat); (1%nat, 2%nat)])]) = [((3 # 4)%Q, [(0%nat, 1%nat)])] /\
  p_is_clifford bvar [(frac 3 1, [(0%nat, 1%nat)]); (frac 1 2, [])] = true /\ p_is_pauli bvar [(frac 3 1, [(0%nat, 1%nat)]); (frac 1 2, [])] = false /\
  peqb bvar [(1%Qc, [(0%nat, 1%nat); (1%nat, 2%nat)]); (frac 1 2, [])] [(frac 1 2, []); (1%Qc, [(1%nat, 2%nat); (0%nat, 1%nat)])] = true.
Proof. split; [exact half_asg_ok|]. repeat (split; [vm_compute; reflexivity|]). vm_compute. reflexivity. Qed.
Example C33_symbolic_case : (forall u, sbool bvar (sphase_of [(0%nat, Sym [(frac 3 2, [(0%nat, 1%nat)])]); (1%nat, Num (frac 1 2))] u)) /\
  add_to_sphase bvar 0 (Num (frac 5 2)) [(0%nat, Sym [(frac 3 2, [(0%nat, 1%nat)])]); (1%nat, Num (frac 1 2))] = [(0%nat, Sym [(frac 3 2, [(0%nat, 1%nat)]); (frac 1 2, [])]); (1%nat, Num (frac 1 2))] /\
  add_to_sphase bvar 1 (Sym [(frac 3 2, [(0%nat, 1%nat)])]) [(1%nat, Num (frac 1 2))] = [(1%nat, Sym [(frac 3 2, [(0%nat, 1%nat)]); (frac 1 2, [])])].
Proof.
  split; [|split; vm_compute; reflexivity]. intros u. unfold sphase_of. cbn [dget]. destruct (Nat.eqb u 0); [|destruct (Nat.eqb u 1); exact I]. intros c t [E|[]]. injection E as _ <-. reflexivity.
Qed.
