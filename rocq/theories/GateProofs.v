(** Gate decompositions, adjoints and phase splitting denote the right maps. *)
From Coq Require Import Reals ZArith QArith Qcanon List Bool Arith Lia FunctionalExtensionality.
From Verif Require Import CNum Base ScalarModel ScalarProofs GraphSem SumLemmas GateModel CircSpec.
Import ListNotations.
Open Scope C_scope.

(** ** arithmetic *)
Ltac qcomp := apply Qc_is_canon; reflexivity.
Lemma Ci2 : Ci * Ci = - C1. Proof. unfold Ci, C1, Copp, Cmult; simpl; f_equal; ring. Qed.
Lemma Ci_neq0 : Ci <> C0.
Proof. intros E. assert (I := Ci2). rewrite E in I. apply C1_neq_C0. transitivity (- (- C1)); [ring|rewrite <- I; ring]. Qed.
Lemma Ci_inv : / Ci = - Ci.
Proof. assert (I := Ci2). apply Cmult_cancel_l with Ci; [apply Ci_neq0|]. transitivity C1; [field; apply Ci_neq0|transitivity (- (Ci * Ci)); [rewrite I; ring|ring]]. Qed.
Lemma two_neq0 : C1 + C1 <> C0.
Proof. rewrite <- sq2p_2. apply sq2p_neq0. Qed.
Lemma cexp_half_add : forall p, cexp p = cexp (half p) * cexp (half p).
Proof. intros. rewrite <- cexp_add. f_equal. unfold half. assert (E : (frac 1 2 + frac 1 2 = 1)%Qc) by qcomp. rewrite <- Qcmult_plus_distr_r, E. ring. Qed.
Lemma half_opp : forall p, half (- p) = (- half p)%Qc.
Proof. intros. unfold half. ring. Qed.
Lemma half_add : forall p q, half (p + q) = (half p + half q)%Qc.
Proof. intros. unfold half. ring. Qed.
Lemma cexp_inv : forall p, cexp (- p) = / cexp p.
Proof. intros. apply Cmult_cancel_l with (cexp p); [apply cexp_neq0|]. rewrite cexp_opp_r. field. apply cexp_neq0. Qed.
Lemma cexpR_half1 : cexpR (1/2) = Ci.
Proof. unfold cexpR, Ci. replace (PI * (1/2))%R with (PI/2)%R by field. rewrite cos_PI2, sin_PI2. reflexivity. Qed.
Lemma cexp_12 : cexp (frac 1 2) = Ci.
Proof. unfold cexp. replace (Q2R (this (frac 1 2))) with (1/2)%R; [apply cexpR_half1|]. unfold frac. rewrite Q2R_Qc_Q2Qc. unfold Q2R. simpl. field. Qed.
Lemma cexp_m12 : cexp (frac (-1) 2) = - Ci.
Proof. replace (frac (-1) 2) with (- frac 1 2)%Qc by qcomp. rewrite cexp_opp, cexp_12. unfold Cconj, Ci, Copp. simpl. f_equal. ring. Qed.
Lemma cexp_14_sq : cexp (frac 1 4) * cexp (frac 1 4) = Ci.
Proof. rewrite <- cexp_add, <- cexp_12. f_equal. qcomp. Qed.
Lemma cexp_m14 : cexp (frac (-1) 4) = / cexp (frac 1 4).
Proof. rewrite <- cexp_inv. f_equal. Qed.
Lemma cos_exp : forall p, cosh_ p = (cexp (half p) + / cexp (half p)) * / (C1 + C1).
Proof.
  intros. rewrite <- cexp_inv, cexp_opp. unfold cosh_, cexp, cexpR. replace (Q2R (this (half p))) with (Q2R (this p) / 2)%R.
  - set (a := (PI * (Q2R (this p) / 2))%R). apply Cmult_cancel_l with (C1 + C1); [apply two_neq0|].
    transitivity ((cos a, sin a) + Cconj (cos a, sin a)); [|field; apply two_neq0].
    unfold RtoC, Cplus, Cmult, Cconj, C1. simpl. f_equal; ring.
  - unfold half. rewrite Q2R_Qc_mult. unfold frac. rewrite Q2R_Qc_Q2Qc. unfold Q2R at 3. simpl. field.
Qed.
Lemma sin_exp : forall p, sinh_ p = - Ci * (cexp (half p) - / cexp (half p)) * / (C1 + C1).
Proof.
  intros. rewrite <- cexp_inv, cexp_opp. unfold sinh_, cexp, cexpR. replace (Q2R (this (half p))) with (Q2R (this p) / 2)%R.
  - set (a := (PI * (Q2R (this p) / 2))%R). apply Cmult_cancel_l with (C1 + C1); [apply two_neq0|].
    transitivity (- Ci * ((cos a, sin a) - Cconj (cos a, sin a))); [|field; apply two_neq0].
    unfold RtoC, Cplus, Cminus, Copp, Cmult, Cconj, C1, Ci. simpl. f_equal; ring.
  - unfold half. rewrite Q2R_Qc_mult. unfold frac. rewrite Q2R_Qc_Q2Qc. unfold Q2R at 3. simpl. field.
Qed.
Lemma unit_cexp : forall p, unitc (cexp p).
Proof. intros. unfold unitc. rewrite <- cexp_opp. apply cexp_opp_r. Qed.
Lemma unit_1 : unitc C1.
Proof. unfold unitc. rewrite Cconj_1. ring. Qed.
Lemma unit_mult : forall a b, unitc a -> unitc b -> unitc (a * b).
Proof. unfold unitc. intros a b A B. rewrite Cconj_mult. transitivity ((a * Cconj a) * (b * Cconj b)); [ring|rewrite A, B; ring]. Qed.
Lemma unit_neq0 : forall z, unitc z -> z <> C0.
Proof. intros z H E. rewrite E in H. unfold unitc in H. rewrite Cmult_0_l in H. apply C1_neq_C0. auto. Qed.

(** ** states *)
Lemma state_ext : forall (f f' : state), (forall x, f x = f' x) -> f = f'.
Proof. intros. apply functional_extensionality. auto. Qed.
Lemma gden_scale : forall g z s, gden g (fun x => z * s x) = fun x => z * gden g s x.
Proof.
  intros g z s. apply state_ext. intros x. destruct g; unfold gden, ctrl, op1, scale2; try ring; repeat (match goal with |- context [if ?b then _ else _] => destruct b end); ring.
Qed.
Lemma cden_app : forall a b s, cden (a ++ b) s = cden b (cden a s).
Proof. intros. apply fold_left_app. Qed.
Lemma cden_cons : forall g l s, cden (g :: l) s = cden l (gden g s).
Proof. reflexivity. Qed.
Lemma cden_scale : forall l z s, cden l (fun x => z * s x) = fun x => z * cden l s x.
Proof. induction l as [|g l IH]; intros z s; auto. rewrite !cden_cons, gden_scale. apply IH. Qed.

(** ** matrices *)
Definition mmul (m n : mat2) : mat2 := fun i j => m i false * n false j + m i true * n true j.
Definition mI : mat2 := mk2 C1 C0 C0 C1.
Definition mX : mat2 := mk2 C0 C1 C1 C0.
Definition meq (m n : mat2) : Prop := forall i j, m i j = n i j.
Lemma op1_op1 : forall m n t s, op1 m t (op1 n t s) = op1 (mmul m n) t s.
Proof. intros. apply state_ext. intros x. unfold op1, mmul. rewrite !upd_same, !upd_shadow. ring. Qed.
Lemma op1_ext : forall m n t s, meq m n -> op1 m t s = op1 n t s.
Proof. intros. apply state_ext. intros x. unfold op1. rewrite !H. reflexivity. Qed.
Lemma op1_scale : forall z m t s, op1 (scale2 z m) t s = fun x => z * op1 m t s x.
Proof. intros. apply state_ext. intros x. unfold op1, scale2. ring. Qed.
Lemma op1_I : forall t s, op1 mI t s = s.
Proof. intros. apply state_ext. intros x. unfold op1, mI, mk2. destruct (x t) eqn:E; rewrite <- E, upd_id; ring. Qed.
(** block-diagonal maps: [m0] on t when c is 0, [m1] when c is 1 *)
Definition cond (c : nat) (m0 m1 : mat2) (t : nat) (s : state) : state := fun x => op1 (if x c then m1 else m0) t s x.
Section Cond.
  Variables (c t : nat).
  Hypothesis N : c <> t.
  Lemma cond_cond : forall m0 m1 n0 n1 s, cond c m0 m1 t (cond c n0 n1 t s) = cond c (mmul m0 n0) (mmul m1 n1) t s.
  Proof. intros. apply state_ext. intros x. unfold cond, op1. rewrite !(upd_other x t _ c) by auto. rewrite !upd_same, !upd_shadow. unfold mmul. destruct (x c); cbv beta iota; ring. Qed.
  Lemma cond_ext : forall m0 m1 n0 n1 s, meq m0 n0 -> meq m1 n1 -> cond c m0 m1 t s = cond c n0 n1 t s.
  Proof. intros. apply state_ext. intros x. unfold cond, op1. destruct (x c); rewrite ?H, ?H0; reflexivity. Qed.
  Lemma cond_scale : forall z m0 m1 s, cond c (scale2 z m0) (scale2 z m1) t s = fun x => z * cond c m0 m1 t s x.
  Proof. intros. apply state_ext. intros x. unfold cond, op1, scale2. destruct (x c); ring. Qed.
  Lemma op1_cond : forall m s, op1 m t s = cond c m m t s.
  Proof. intros. apply state_ext. intros x. unfold cond. destruct (x c); reflexivity. Qed.
  Lemma ctrl_cond : forall m s, ctrl c (op1 m t) s = cond c mI m t s.
  Proof. intros. apply state_ext. intros x. unfold cond, ctrl. destruct (x c); auto. rewrite op1_I. reflexivity. Qed.
  Lemma cnot_cond : forall s, gden (GCNOT c t) s = cond c mI mX t s.
  Proof.
    intros. apply state_ext. intros x. simpl. unfold cond. destruct (x c); [|rewrite op1_I, xorb_false_r, upd_id; reflexivity].
    unfold op1, mX, mk2. destruct (x t); simpl; ring.
  Qed.
  Lemma cphase_cond : forall p s, op1 (mP p) c s = cond c mI (scale2 (cexp p) mI) t s.
  Proof.
    intros. apply state_ext. intros x. unfold cond. assert (D : op1 (mP p) c s x = (if x c then cexp p else C1) * s x).
    { unfold op1, mP, mk2. destruct (x c) eqn:E; rewrite <- E, upd_id; ring. }
    rewrite D. destruct (x c); [rewrite op1_scale, op1_I|rewrite op1_I]; ring.
  Qed.
End Cond.
Lemma op1_P : forall p t s x, op1 (mP p) t s x = (if x t then cexp p else C1) * s x.
Proof. intros. unfold op1, mP, mk2. destruct (x t) eqn:E; rewrite <- E, upd_id; ring. Qed.

(** expand the entries of products of matrices and normalise *)
Ltac nz := repeat split; try apply cexp_neq0; try apply two_neq0; try apply sq2_neq0; try apply Ci_neq0; try exact C1_neq_C0.
Ltac mexpand := unfold mmul, scale2, mI, mX, mP, mH, mXP, mY, mRX, mRY, mRZ, mU3, mU2, mk2.
Global Hint Rewrite cexp_qmod2 cexp_add half_opp half_add cexp_inv cexp_m12 cexp_12 cexp_m14 cos_exp sin_exp cexp_0 cexp_1 : ex.
Ltac expn := autorewrite with ex.

Definition zu3 (th : Qc) : C := cexp (half th) * Ci.
Lemma cexp_3 : cexp (Qcz 3) = - C1.
Proof. replace (Qcz 3) with (1 + Qcz (2 * 1))%Qc by qcomp. rewrite cexp_add, cexp_even, cexp_1. ring. Qed.
Lemma u3_den : forall t th ph rho s, cden (u3_basic t th ph rho) s = fun x => zu3 th * op1 (mU3 th ph rho) t s x.
Proof.
  intros. unfold u3_basic. rewrite !cden_cons. simpl gden. unfold cden, fold_left. rewrite !op1_op1. rewrite <- op1_scale. apply op1_ext. intros i j.
  mexpand. unfold Qcminus. expn. rewrite (cexp_half_add th), cexp_3. assert (I := Ci2). assert (W := cexp_neq0 (half th)). unfold zu3. generalize dependent (cexp (half th)). intros w W.
  destruct i, j; field [I]; nz; auto.
Qed.
Lemma u2_den : forall t th ph s, cden (u2_basic t th ph) s = fun x => cexp (frac 1 4) * op1 (mU2 th ph) t s x.
Proof.
  intros. unfold u2_basic. rewrite !cden_cons. simpl gden. unfold cden, fold_left. rewrite !op1_op1. rewrite <- op1_scale. apply op1_ext. intros i j.
  mexpand. unfold Qcminus. expn. assert (I := Ci2). assert (H := cexp_14_sq).
  assert (E : cexp (frac 1 4) * / sq2 = (C1 + Ci) * / (C1 + C1)).
  { assert (Z : cexp (frac 1 4) = (C1 + Ci) * / sq2).
    { unfold cexp. replace (Q2R (this (frac 1 4))) with (1/4)%R by (unfold frac; rewrite Q2R_Qc_Q2Qc; unfold Q2R; simpl; field).
      unfold cexpR. replace (PI * (1/4))%R with (PI/4)%R by field. rewrite cos_PI4, sin_PI4. unfold sq2. rewrite <- RtoC_inv by apply sqrt2_neq0.
      unfold C1, Ci, RtoC, Cplus, Cmult. simpl. f_equal; field; apply sqrt2_neq0. }
    rewrite Z. assert (Q := sq2_sq). field [Q]; nz. }
  destruct i, j.
  - transitivity (cexp (frac 1 4) * / sq2 * (cexp th * cexp ph)); [|ring]. rewrite E. field [I]; nz.
  - transitivity (cexp (frac 1 4) * / sq2 * (cexp th)); [|ring]. rewrite E. field [I]; nz.
  - transitivity (cexp (frac 1 4) * / sq2 * (- cexp ph)); [|ring]. rewrite E. field [I]; nz.
  - rewrite E. field [I]; nz.
Qed.
Lemma y_den : forall t p s, cden (yphase_basic t p) s = fun x => / cexp (half p) * op1 (mRY p) t s x.
Proof.
  intros. unfold yphase_basic. rewrite !cden_cons. simpl gden. unfold cden, fold_left. rewrite !op1_op1. rewrite <- op1_scale. apply op1_ext. intros i j.
  mexpand. expn. rewrite (cexp_half_add p). assert (I := Ci2). assert (W := cexp_neq0 (half p)). generalize dependent (cexp (half p)). intros w W.
  rewrite Ci_inv. destruct i, j; field [I]; nz; auto.
Qed.

Lemma u3_op : forall t th ph rho s, cden (u3_basic t th ph rho) s = op1 (scale2 (zu3 th) (mU3 th ph rho)) t s.
Proof. intros. rewrite u3_den, op1_scale. reflexivity. Qed.
Lemma u2_op : forall t th ph s, cden (u2_basic t th ph) s = op1 (scale2 (cexp (frac 1 4)) (mU2 th ph)) t s.
Proof. intros. rewrite u2_den, op1_scale. reflexivity. Qed.
Lemma y_op : forall t p s, cden (yphase_basic t p) s = op1 (scale2 (/ cexp (half p)) (mRY p)) t s.
Proof. intros. rewrite y_den, op1_scale. reflexivity. Qed.

Section Controlled.
  Variables (c t : nat).
  Hypothesis N : c <> t.
  Notation tocond := (fun s => s) (only parsing).
  Ltac conds := rewrite ?cden_app, ?cden_cons; simpl gden; fold (gden (GCNOT c t)); unfold cden, fold_left.
  Lemma w_neq : forall p, cexp p <> C0. Proof. apply cexp_neq0. Qed.
  (** replace every factor by a block-diagonal map and multiply out *)
  Ltac norm := rewrite ?(cphase_cond c t), ?(op1_cond c t); rewrite ?(cond_cond c t N).
  Lemma cnot_fold : forall s, (fun x => s (upd x t (xorb (x t) (x c)))) = cond c mI mX t s.
  Proof. intros. exact (cnot_cond c t s). Qed.
  Ltac go := rewrite ?cden_app, ?cden_cons; cbn [gden]; rewrite ?cnot_fold, ?(ctrl_cond c t); unfold cden, fold_left; norm.
  Lemma crz_den : forall p s, cden [ZPhase t (qmod2 (half p)); GCNOT c t; ZPhase t (qmod2 (half (- p))); GCNOT c t] s = gden (GCRZ c t p) s.
  Proof.
    intros. unfold ZPhase. go. apply (cond_ext c t); intros i j; mexpand; expn; destruct i, j; field; nz.
  Qed.
  Lemma cphase_den : forall p s, cden (cphase_basic c t p) s = gden (GCPhase c t p) s.
  Proof.
    intros. unfold cphase_basic, ZPhase. go. transitivity (cond c mI (mP p) t s).
    - apply (cond_ext c t); intros i j; mexpand; expn; rewrite ?(cexp_half_add p); destruct i, j; field; nz.
    - apply state_ext. intros x. unfold cond. simpl. destruct (x c); simpl; [apply op1_P|rewrite op1_I; ring].
  Qed.
  Lemma cy_den : forall s, cden [Sg t true; GCNOT c t; Sg t false] s = gden (GCY c t) s.
  Proof.
    intros. unfold Sg. go. assert (I := Ci2). apply (cond_ext c t); intros i j; mexpand; expn; destruct i, j; ring [I].
  Qed.
  Lemma had_sq : meq (mmul mH mH) mI.
  Proof. assert (Q := sq2_sq). intros i j. mexpand. destruct i, j; field [Q]; nz. Qed.
  Lemma csx_den : forall s, cden ([GHAD t] ++ cphase_basic c t (frac 1 2) ++ [GHAD t]) s = gden (GCSX c t) s.
  Proof.
    intros. rewrite !cden_app, cphase_den.
    assert (E : forall s, gden (GCPhase c t (frac 1 2)) s = cond c mI (mP (frac 1 2)) t s).
    { intros s0. apply state_ext. intros x. unfold cond. simpl. destruct (x c); simpl; [rewrite op1_P; reflexivity|rewrite op1_I; ring]. }
    rewrite E. go. assert (Q := sq2_sq). apply (cond_ext c t); intros i j; mexpand; expn; destruct i, j; field [Q]; nz.
  Qed.
  Lemma cexp_14 : cexp (frac 1 4) = (C1 + Ci) * / sq2.
  Proof.
    unfold cexp. replace (Q2R (this (frac 1 4))) with (1/4)%R by (unfold frac; rewrite Q2R_Qc_Q2Qc; unfold Q2R; simpl; field).
    unfold cexpR. replace (PI * (1/4))%R with (PI/4)%R by field. rewrite cos_PI4, sin_PI4. unfold sq2. rewrite <- RtoC_inv by apply sqrt2_neq0.
    unfold C1, Ci, RtoC, Cplus, Cmult. simpl. f_equal; field; apply sqrt2_neq0.
  Qed.
  Lemma chad_den : forall s, cden [GHAD t; Sg t true; GCNOT c t; GHAD t; Tg t false; GCNOT c t; Tg t false; GHAD t; Sg t false; NOTg t; Sg c false] s
    = fun x => cexp (frac 1 4) * gden (GCHAD c t) s x.
  Proof.
    intros. unfold Sg, Tg, NOTg. go. rewrite <- (cond_scale c t). assert (Q := sq2_sq). assert (I := Ci2).
    apply (cond_ext c t); intros i j; mexpand; expn; rewrite ?cexp_14; destruct i, j; field [Q I]; nz.
  Qed.
  Lemma crx_den : forall p s, cden ([ZPhase t (frac 1 2); GCNOT c t] ++ u3_basic t (half (- p)) 0 0 ++ [GCNOT c t] ++ u3_basic t (half p) (frac (-1) 2) 0) s
    = fun x => (- C1) * gden (GCRX c t p) s x.
  Proof.
    intros. unfold ZPhase. rewrite !cden_app, !u3_op. go. rewrite <- (cond_scale c t). assert (I := Ci2).
    apply (cond_ext c t); intros i j; mexpand; unfold zu3; expn; rewrite ?(cexp_half_add (half p)); destruct i, j; field [I]; nz.
  Qed.
  Lemma cry_den : forall p s, cden (yphase_basic t (half p) ++ [GCNOT c t] ++ yphase_basic t (half (- p)) ++ [GCNOT c t]) s = gden (GCRY c t p) s.
  Proof.
    intros. rewrite !cden_app, !y_op. go. assert (I := Ci2).
    apply (cond_ext c t); intros i j; mexpand; expn; rewrite ?(cexp_half_add (half p)); destruct i, j; field [I]; nz.
  Qed.
  Lemma cu3_den : forall th ph rho s, cden (cu3_basic c t th ph rho) s = fun x => (- C1) * gden (GCU3 c t th ph rho) s x.
  Proof.
    intros. unfold cu3_basic, ZPhase. rewrite !cden_app, !u3_op. go. rewrite <- (cond_scale c t). assert (I := Ci2).
    apply (cond_ext c t); intros i j; mexpand; unfold zu3, Qcminus; expn; rewrite ?(cexp_half_add (half th)), ?(cexp_half_add ph), ?(cexp_half_add rho); destruct i, j; field [I]; nz.
  Qed.
  Lemma cu_den : forall th ph rho ga s, cden ([ZPhase c ga] ++ cu3_basic c t th ph rho) s = fun x => (- C1) * gden (GCU c t th ph rho ga) s x.
  Proof.
    intros. rewrite cden_app, cu3_den. apply state_ext. intros x. f_equal. unfold ZPhase. rewrite cden_cons. cbn [gden]. change (cden [] ?s) with s.
    rewrite (cphase_cond c t), !(ctrl_cond c t), (cond_cond c t N). apply (f_equal (fun f => f x)).
    apply (cond_ext c t); intros i j; mexpand; destruct i, j; ring.
  Qed.
End Controlled.
