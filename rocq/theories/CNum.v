(** Complex numbers over the standard library's reals, with the few constants
    the ZX-calculus needs.  Pure mathematics, no Python code is mirrored. *)
From Coq Require Import Reals Lra Lia ZArith QArith Qcanon Qreals Bool List Ring Field.
Import ListNotations.
Open Scope R_scope.

Definition C : Type := (R * R)%type.

Declare Scope C_scope.
Delimit Scope C_scope with C.
Bind Scope C_scope with C.

Definition C0 : C := (0, 0).
Definition C1 : C := (1, 0).
Definition Ci : C := (0, 1).
Definition RtoC (r : R) : C := (r, 0).
Definition Cplus (a b : C) : C := (fst a + fst b, snd a + snd b).
Definition Copp (a : C) : C := (- fst a, - snd a).
Definition Cminus (a b : C) : C := Cplus a (Copp b).
Definition Cmult (a b : C) : C :=
  (fst a * fst b - snd a * snd b, fst a * snd b + snd a * fst b).
Definition Cnorm2 (a : C) : R := fst a * fst a + snd a * snd a.
Definition Cinv (a : C) : C := (fst a / Cnorm2 a, - snd a / Cnorm2 a).
Definition Cdiv (a b : C) : C := Cmult a (Cinv b).
Definition Cconj (a : C) : C := (fst a, - snd a).

Infix "+" := Cplus : C_scope.
Infix "*" := Cmult : C_scope.
Notation "- x" := (Copp x) : C_scope.
Infix "-" := Cminus : C_scope.
Infix "/" := Cdiv : C_scope.
Notation "/ x" := (Cinv x) : C_scope.

Lemma C_eq : forall a b : C, fst a = fst b -> snd a = snd b -> a = b.
Proof. intros [a1 a2] [b1 b2]; simpl; intros; subst; reflexivity. Qed.

Ltac cring := intros; apply C_eq; unfold Cminus, Cdiv, Cplus, Cmult, Copp, Cconj, C0, C1, Ci, RtoC in *; simpl; ring.

Lemma C_ring_theory : ring_theory C0 C1 Cplus Cmult Cminus Copp eq.
Proof. constructor; cring. Qed.

Lemma Cnorm2_pos : forall a, a <> C0 -> 0 < Cnorm2 a.
Proof.
  intros [a b] H. unfold Cnorm2; simpl.
  assert (a <> 0 \/ b <> 0).
  { destruct (Req_dec a 0); destruct (Req_dec b 0); subst; auto; exfalso; apply H; reflexivity. }
  destruct H0 as [Ha|Hb].
  - pose proof (Rsqr_pos_lt a Ha) as H1. unfold Rsqr in H1. pose proof (Rle_0_sqr b) as H2. unfold Rsqr in H2. lra.
  - pose proof (Rsqr_pos_lt b Hb) as H1. unfold Rsqr in H1. pose proof (Rle_0_sqr a) as H2. unfold Rsqr in H2. lra.
Qed.

Lemma Cinv_l : forall a, a <> C0 -> Cmult (Cinv a) a = C1.
Proof.
  intros a H. pose proof (Cnorm2_pos a H) as Hp. destruct a as [a b].
  unfold Cinv, Cmult, C1; simpl. unfold Cnorm2 in *; simpl in *.
  apply C_eq; simpl; field; lra.
Qed.

Lemma C1_neq_C0 : C1 <> C0.
Proof. intro H. inversion H. lra. Qed.

Lemma C_field_theory : field_theory C0 C1 Cplus Cmult Cminus Copp Cdiv Cinv eq.
Proof.
  constructor.
  - apply C_ring_theory.
  - apply C1_neq_C0.
  - reflexivity.
  - apply Cinv_l.
Qed.

Add Field C_field : C_field_theory.

Open Scope C_scope.

Lemma Cplus_comm : forall a b, a + b = b + a. Proof. intros; ring. Qed.
Lemma Cplus_assoc : forall a b c, a + (b + c) = a + b + c. Proof. intros; ring. Qed.
Lemma Cmult_comm : forall a b, a * b = b * a. Proof. intros; ring. Qed.
Lemma Cmult_assoc : forall a b c, a * (b * c) = a * b * c. Proof. intros; ring. Qed.
Lemma Cmult_1_l : forall a, C1 * a = a. Proof. intros; ring. Qed.
Lemma Cmult_1_r : forall a, a * C1 = a. Proof. intros; ring. Qed.
Lemma Cmult_0_l : forall a, C0 * a = C0. Proof. intros; ring. Qed.
Lemma Cmult_0_r : forall a, a * C0 = C0. Proof. intros; ring. Qed.
Lemma Cplus_0_l : forall a, C0 + a = a. Proof. intros; ring. Qed.
Lemma Cplus_0_r : forall a, a + C0 = a. Proof. intros; ring. Qed.

Lemma C_eq_dec : forall a b : C, {a = b} + {a <> b}.
Proof.
  intros [a1 a2] [b1 b2].
  destruct (Req_EM_T a1 b1) as [->|H].
  - destruct (Req_EM_T a2 b2) as [->|H].
    + left; reflexivity.
    + right; intro E; inversion E; contradiction.
  - right; intro E; inversion E; contradiction.
Qed.

Lemma Cmult_integral : forall a b, a * b = C0 -> a = C0 \/ b = C0.
Proof.
  intros a b H. destruct (C_eq_dec a C0) as [Ha|Ha]; auto.
  right. assert (b = Cinv a * (a * b)) as ->.
  { rewrite Cmult_assoc, Cinv_l, Cmult_1_l; auto. }
  rewrite H. ring.
Qed.

Lemma Cmult_neq0 : forall a b, a <> C0 -> b <> C0 -> a * b <> C0.
Proof. intros a b Ha Hb H. destruct (Cmult_integral a b H); contradiction. Qed.

Lemma Cmult_cancel_l : forall a b c, a <> C0 -> a * b = a * c -> b = c.
Proof.
  intros a b c Ha H.
  assert (Cinv a * (a * b) = Cinv a * (a * c)) by (rewrite H; reflexivity).
  rewrite !Cmult_assoc, Cinv_l, !Cmult_1_l in H0 by auto. exact H0.
Qed.

Lemma Cinv_neq0 : forall a, a <> C0 -> Cinv a <> C0.
Proof.
  intros a Ha H. apply C1_neq_C0. rewrite <- (Cinv_l a Ha), H. ring.
Qed.

Lemma Cconj_mult : forall a b, Cconj (a * b) = Cconj a * Cconj b. Proof. cring. Qed.
Lemma Cconj_plus : forall a b, Cconj (a + b) = Cconj a + Cconj b. Proof. cring. Qed.
Lemma Cconj_opp : forall a, Cconj (- a) = - Cconj a. Proof. cring. Qed.
Lemma Cconj_invol : forall a, Cconj (Cconj a) = a. Proof. cring. Qed.
Lemma Cconj_1 : Cconj C1 = C1. Proof. cring. Qed.
Lemma Cconj_0 : Cconj C0 = C0. Proof. cring. Qed.
Lemma Cconj_RtoC : forall r, Cconj (RtoC r) = RtoC r. Proof. cring. Qed.
Lemma RtoC_mult : forall a b, RtoC (a * b) = RtoC a * RtoC b. Proof. cring. Qed.
Lemma RtoC_plus : forall a b, RtoC (a + b) = RtoC a + RtoC b. Proof. cring. Qed.
Lemma RtoC_neq0 : forall r, r <> 0%R -> RtoC r <> C0.
Proof. intros r H E. inversion E. contradiction. Qed.
Lemma RtoC_inv : forall r, r <> 0%R -> RtoC (/ r) = / RtoC r.
Proof. intros. apply C_eq; unfold Cinv, Cnorm2, RtoC; simpl; field; auto. Qed.

(** ** Powers of sqrt 2 *)
Definition sq2 : C := RtoC (sqrt 2).

Lemma sqrt2_neq0 : sqrt 2 <> 0%R.
Proof. intro H. assert (0 < sqrt 2)%R by (apply sqrt_lt_R0; lra). lra. Qed.
Lemma sq2_neq0 : sq2 <> C0.
Proof. apply RtoC_neq0, sqrt2_neq0. Qed.
Lemma sq2_sq : sq2 * sq2 = C1 + C1.
Proof.
  unfold sq2. rewrite <- RtoC_mult, sqrt_sqrt by lra. cring.
Qed.

(** [sq2p n] is sqrt(2)^n for an integer n. *)
Definition sq2p (n : Z) : C := RtoC (powerRZ (sqrt 2) n).

Lemma sq2p_0 : sq2p 0 = C1. Proof. reflexivity. Qed.
Lemma sq2p_1 : sq2p 1 = sq2.
Proof. unfold sq2p, sq2; simpl. f_equal. ring. Qed.
Lemma sq2p_add : forall a b, sq2p (a + b) = sq2p a * sq2p b.
Proof.
  intros. unfold sq2p. rewrite powerRZ_add by apply sqrt2_neq0. apply RtoC_mult.
Qed.
Lemma sq2p_neq0 : forall n, sq2p n <> C0.
Proof. intros. apply RtoC_neq0, powerRZ_NOR, sqrt2_neq0. Qed.
Lemma sq2p_2 : sq2p 2 = C1 + C1.
Proof. change 2%Z with (1+1)%Z. rewrite sq2p_add, sq2p_1. apply sq2_sq. Qed.
Lemma sq2p_opp_r : forall n, sq2p n * sq2p (- n) = C1.
Proof. intros. rewrite <- sq2p_add, Z.add_opp_diag_r. reflexivity. Qed.
Lemma sq2p_m1 : sq2p (-1) = / sq2.
Proof.
  apply (Cmult_cancel_l sq2); [apply sq2_neq0|].
  rewrite <- sq2p_1 at 1. rewrite sq2p_opp_r. field. apply sq2_neq0.
Qed.
Lemma Cconj_sq2p : forall n, Cconj (sq2p n) = sq2p n.
Proof. intros; apply Cconj_RtoC. Qed.

(** ** e^{i pi q} for rational q *)
Definition cexpR (r : R) : C := (cos (PI * r), sin (PI * r)).
Definition cexp (q : Qc) : C := cexpR (Q2R (this q)).

Lemma cexpR_add : forall a b, cexpR (a + b) = cexpR a * cexpR b.
Proof.
  intros. unfold cexpR, Cmult; simpl. rewrite Rmult_plus_distr_l, cos_plus, sin_plus.
  apply C_eq; simpl; ring.
Qed.
Lemma cexpR_0 : cexpR 0 = C1.
Proof. unfold cexpR. rewrite Rmult_0_r, cos_0, sin_0. reflexivity. Qed.
Lemma cexpR_1 : cexpR 1 = - C1.
Proof. unfold cexpR. rewrite Rmult_1_r, cos_PI, sin_PI. cring. Qed.
Lemma cexpR_neq0 : forall r, cexpR r <> C0.
Proof.
  intros r H. assert (cexpR r * cexpR (-r) = C1).
  { rewrite <- cexpR_add, Rplus_opp_r. apply cexpR_0. }
  rewrite H in H0. apply C1_neq_C0. rewrite <- H0. ring.
Qed.
Lemma cexpR_conj : forall r, Cconj (cexpR r) = cexpR (- r).
Proof.
  intros. unfold cexpR, Cconj; simpl.
  rewrite Ropp_mult_distr_r_reverse, cos_neg, sin_neg. reflexivity.
Qed.

Lemma Q2R_Qc_add : forall a b : Qc, Q2R (this (a + b)%Qc) = (Q2R (this a) + Q2R (this b))%R.
Proof. intros. rewrite <- Q2R_plus. apply Qeq_eqR. apply Qred_correct. Qed.
Lemma Q2R_Qc_mult : forall a b : Qc, Q2R (this (a * b)%Qc) = (Q2R (this a) * Q2R (this b))%R.
Proof. intros. rewrite <- Q2R_mult. apply Qeq_eqR. apply Qred_correct. Qed.
Lemma Q2R_Qc_opp : forall a : Qc, Q2R (this (- a)%Qc) = (- Q2R (this a))%R.
Proof. intros. rewrite <- Q2R_opp. apply Qeq_eqR. apply Qred_correct. Qed.
Lemma Q2R_Qc_Q2Qc : forall q : Q, Q2R (this (Q2Qc q)) = Q2R q.
Proof. intros. apply Qeq_eqR. apply Qred_correct. Qed.
Lemma Q2R_IZR : forall z : Z, Q2R (inject_Z z) = IZR z.
Proof. intros. unfold Q2R, inject_Z; simpl. field. Qed.

Lemma cexp_add : forall a b, cexp (a + b)%Qc = cexp a * cexp b.
Proof. intros. unfold cexp. rewrite Q2R_Qc_add. apply cexpR_add. Qed.
Lemma cexp_0 : cexp 0%Qc = C1.
Proof. unfold cexp. rewrite Q2R_Qc_Q2Qc. unfold Q2R; simpl. rewrite Rmult_0_l. apply cexpR_0. Qed.
Lemma cexp_1 : cexp 1%Qc = - C1.
Proof.
  unfold cexp. rewrite Q2R_Qc_Q2Qc. unfold Q2R; simpl. rewrite Rmult_1_l, Rinv_1. apply cexpR_1.
Qed.
Lemma cexp_neq0 : forall q, cexp q <> C0.
Proof. intros; apply cexpR_neq0. Qed.
Lemma cexp_opp : forall q, cexp (- q)%Qc = Cconj (cexp q).
Proof. intros. unfold cexp. rewrite Q2R_Qc_opp, cexpR_conj. reflexivity. Qed.
Lemma cexp_opp_r : forall q, cexp q * cexp (- q)%Qc = C1.
Proof. intros. rewrite <- cexp_add. rewrite Qcplus_opp_r. apply cexp_0. Qed.

Definition Qcz (z : Z) : Qc := Q2Qc (inject_Z z).

Lemma Qcz_add : forall a b, Qcz (a + b) = (Qcz a + Qcz b)%Qc.
Proof.
  intros. apply Qc_is_canon. unfold Qcz, Qcplus, Qcopp, Q2Qc; cbn [this]. rewrite !Qred_correct.
  rewrite inject_Z_plus. reflexivity.
Qed.
Lemma Qcz_opp : forall a, Qcz (- a) = (- Qcz a)%Qc.
Proof. intros. apply Qc_is_canon. unfold Qcz, Qcplus, Qcopp, Q2Qc; cbn [this]. rewrite !Qred_correct. reflexivity. Qed.

Lemma cexpR_2nat : forall n : nat, cexpR (2 * INR n) = C1.
Proof.
  induction n.
  - simpl. rewrite Rmult_0_r. apply cexpR_0.
  - rewrite S_INR. replace (2 * (INR n + 1))%R with (2 * INR n + (1 + 1))%R by ring.
    rewrite !cexpR_add, IHn, cexpR_1. ring.
Qed.
Lemma cexpR_2Z : forall n : Z, cexpR (2 * IZR n) = C1.
Proof.
  intros. destruct n.
  - simpl. rewrite Rmult_0_r. apply cexpR_0.
  - rewrite <- (positive_nat_Z p), <- INR_IZR_INZ. apply cexpR_2nat.
  - change (IZR (Z.neg p)) with (- IZR (Z.pos p))%R.
    rewrite Ropp_mult_distr_r_reverse, <- cexpR_conj.
    rewrite <- (positive_nat_Z p), <- INR_IZR_INZ, cexpR_2nat. apply Cconj_1.
Qed.
Lemma cexp_even : forall n : Z, cexp (Qcz (2 * n)) = C1.
Proof.
  intros. unfold cexp, Qcz. rewrite Q2R_Qc_Q2Qc, Q2R_IZR, mult_IZR. apply cexpR_2Z.
Qed.

(** ** Signs and Kronecker deltas *)
Definition sgn (b : bool) : C := if b then - C1 else C1.
Definition dlt (a b : bool) : C := if Bool.eqb a b then C1 else C0.

Lemma sgn_xorb : forall a b, sgn (xorb a b) = sgn a * sgn b.
Proof. intros [] []; simpl; ring. Qed.
Lemma sgn_sq : forall a, sgn a * sgn a = C1.
Proof. intros []; simpl; ring. Qed.

(** ** Finite products over lists *)
Fixpoint cprod {A} (f : A -> C) (l : list A) : C :=
  match l with [] => C1 | a :: l' => f a * cprod f l' end.

Lemma cprod_app : forall A (f : A -> C) l1 l2, cprod f (l1 ++ l2) = cprod f l1 * cprod f l2.
Proof. induction l1; simpl; intros; [ring|]. rewrite IHl1. ring. Qed.
Lemma cprod_ext : forall A (f g : A -> C) l, (forall a, In a l -> f a = g a) -> cprod f l = cprod g l.
Proof.
  induction l; simpl; intros; auto. rewrite H by auto. rewrite IHl; auto.
Qed.
Lemma cprod_mult : forall A (f g : A -> C) l, cprod (fun a => f a * g a) l = cprod f l * cprod g l.
Proof. induction l; simpl; [ring|]. rewrite IHl. ring. Qed.
Lemma cprod_1 : forall A (f : A -> C) l, (forall a, In a l -> f a = C1) -> cprod f l = C1.
Proof.
  induction l; simpl; intros; auto. rewrite H by auto. rewrite IHl by auto. ring.
Qed.
Lemma cprod_map : forall A B (f : B -> C) (h : A -> B) l, cprod f (map h l) = cprod (fun a => f (h a)) l.
Proof. induction l; simpl; auto. rewrite IHl; auto. Qed.
Lemma cprod_neq0 : forall A (f : A -> C) l, (forall a, In a l -> f a <> C0) -> cprod f l <> C0.
Proof.
  induction l; simpl; intros. apply C1_neq_C0. apply Cmult_neq0; auto.
Qed.
Lemma cprod_conj : forall A (f : A -> C) l, Cconj (cprod f l) = cprod (fun a => Cconj (f a)) l.
Proof. induction l; simpl. apply Cconj_1. rewrite Cconj_mult, IHl. reflexivity. Qed.

Require Import Permutation.
Lemma cprod_perm : forall A (f : A -> C) l1 l2, Permutation l1 l2 -> cprod f l1 = cprod f l2.
Proof.
  induction 1; simpl; auto.
  - rewrite IHPermutation; auto.
  - ring.
  - congruence.
Qed.
