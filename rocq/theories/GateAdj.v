(** Adjoints and phase splitting of gates. *)
From Coq Require Import Reals ZArith QArith Qcanon List Bool Arith Lia FunctionalExtensionality.
From Verif Require Import CNum Base ScalarModel ScalarProofs GraphSem SumLemmas GateModel CircSpec GateProofs GateDecomp.
Import ListNotations.
Open Scope C_scope.

(** ** adjoint *)
(** the classes whose angles are not in an attribute called [phase] and which are
    not their own inverse *)
Definition adj_good (g : gate) : Prop :=
  match g with GU2 _ _ _ | GU3 _ _ _ _ | GCU3 _ _ _ _ _ | GCU _ _ _ _ _ _ | GFSim _ _ _ _ | GCSX _ _ => False | _ => True end.
Lemma op1_inv : forall m n t s, meq (mmul m n) mI -> op1 m t (op1 n t s) = s.
Proof. intros. rewrite op1_op1, (op1_ext _ mI); auto. apply op1_I. Qed.
Lemma ctrl_inv : forall m n c t s, c <> t -> meq (mmul m n) mI -> ctrl c (op1 m t) (ctrl c (op1 n t) s) = s.
Proof.
  intros m n c t s N H. apply state_ext. intros x. assert (E := f_equal (fun f => f x) (op1_inv m n t s H)). cbv beta in E. unfold ctrl at 1. destruct (x c) eqn:X.
  - rewrite <- E. unfold op1 at 1 2, ctrl. rewrite !(upd_other x t _ c), X by auto. reflexivity.
  - unfold ctrl. rewrite X. reflexivity.
Qed.
Ltac mat_inv := intros i j; mexpand; expn; destruct i, j; try ring.
Lemma mP_inv : forall p, meq (mmul (mP (- p)) (mP p)) mI.
Proof. intros p. mat_inv. field. nz. Qed.
Lemma mXP_inv : forall p, meq (mmul (mXP (- p)) (mXP p)) mI.
Proof. intros p. mat_inv; field; nz. Qed.
Lemma mRY_inv : forall p, meq (mmul (mRY (- p)) (mRY p)) mI.
Proof. intros p. assert (I := Ci2). mat_inv; field [I]; nz. Qed.
Lemma mRX_inv : forall p, meq (mmul (mRX (- p)) (mRX p)) mI.
Proof. intros p. assert (I := Ci2). mat_inv; field [I]; nz. Qed.
Lemma mRZ_inv : forall p, meq (mmul (mRZ (- p)) (mRZ p)) mI.
Proof. intros p. mat_inv; field; nz. Qed.
Lemma mH_inv : meq (mmul mH mH) mI.
Proof. assert (I := sq2_sq). mat_inv; field [I]; nz. Qed.
Lemma mY_inv : meq (mmul mY mY) mI.
Proof. assert (I := Ci2). mat_inv; ring [I]. Qed.
Lemma inv_cexp : forall b : bool, forall p, (if b then cexp (- p) else C1) * (if b then cexp p else C1) = C1.
Proof. intros [] p; rewrite ?cexp_inv; [field; nz|ring]. Qed.
Lemma cexp_q0 : cexp 0 = C1. Proof. apply cexp_0. Qed.
Lemma flip_flip : forall x t, flip (flip x t) t = x.
Proof. intros. unfold flip. rewrite upd_same, upd_shadow, negb_involutive, upd_id. reflexivity. Qed.
Lemma flip_comm : forall x a b, a <> b -> flip (flip x a) b = flip (flip x b) a.
Proof. intros. unfold flip. rewrite !upd_other by auto. apply upd_comm. auto. Qed.
Lemma swapq_swapq : forall x a b, a <> b -> swapq (swapq x a b) a b = x.
Proof.
  intros x a b N. apply functional_extensionality. intros i. unfold swapq, upd. rewrite !Nat.eqb_refl.
  destruct (Nat.eqb_spec b a); [congruence|]. destruct (Nat.eqb_spec a b); [congruence|]. destruct (Nat.eqb_spec i b); [subst; auto|]. destruct (Nat.eqb_spec i a); subst; auto.
Qed.
Theorem adj_inv : forall g s, gate_ok g -> adj_good g -> gden (to_adjoint g) (gden g s) = s.
Proof.
  intros g s [ND [NE EX]] A.
  assert (D2 : forall c t, gate_qubits g = [c; t] -> c <> t).
  { intros c t E. rewrite E in ND. inversion ND as [|? ? X _]; subst. intros ->. apply X. left. auto. }
  assert (D3 : forall a b t, gate_qubits g = [a; b; t] -> a <> b /\ a <> t /\ b <> t).
  { intros a b t E. rewrite E in ND. inversion ND as [|? ? X Y]; subst. inversion Y as [|? ? X' _]; subst. simpl in *. intuition; subst; tauto. }
  destruct g; try contradiction; cbn [gate_qubits] in *; try (assert (NN := D2 _ _ eq_refl)); try (destruct (D3 _ _ _ eq_refl) as [N1 [N2 N3]]); clear D2 D3; cbn [to_adjoint gden];
    try (apply op1_inv; (apply mP_inv || apply mXP_inv || apply mRY_inv || apply mH_inv));
    try (apply ctrl_inv; [assumption|]; (apply mY_inv || apply mH_inv || apply mRX_inv || apply mRY_inv || apply mRZ_inv));
    apply state_ext; intros x.
  - rewrite upd_same, upd_shadow, !upd_other by auto. rewrite xorb_assoc, xorb_nilpotent, xorb_false_r, upd_id. reflexivity.
  - unfold sgn. destruct (x control && x target); ring.
  - (* XCX *) assert (E1 : flip (flip x target) control = flip (flip x control) target) by (apply flip_comm; auto).
    assert (E2 : flip (flip (flip x control) target) control = flip x target) by (rewrite <- E1; apply flip_flip).
    rewrite !flip_flip, E2, E1, !flip_flip. field. nz.
  - rewrite swapq_swapq by auto. reflexivity.
  - rewrite Cmult_assoc, inv_cexp. ring.
  - (* RXX *) assert (E1 : flip (flip x target) control = flip (flip x control) target) by (apply flip_comm; auto).
    assert (E2 : flip (flip (flip (flip x control) target) control) target = x) by (rewrite <- E1, flip_flip; apply flip_flip).
    rewrite E2. assert (I := Ci2). expn. field [I]. nz.
  - rewrite Cmult_assoc, inv_cexp. ring.
  - rewrite half_opp, Qcopp_involutive. rewrite Cmult_assoc. destruct (xorb (x control) (x target)); rewrite !cexp_inv; field; nz.
  - unfold sgn. destruct (x ctrl1 && x ctrl2 && x target); ring.
  - rewrite upd_same, upd_shadow, !upd_other by auto. rewrite xorb_assoc, xorb_nilpotent, xorb_false_r, upd_id. reflexivity.
  - destruct (x ctrl1) eqn:E; [|reflexivity]. unfold swapq at 1. rewrite !upd_other, E by auto. rewrite swapq_swapq by auto. reflexivity.
Qed.
Theorem circ_adj : forall l s, (forall g, In g l -> gate_ok g /\ adj_good g) -> cden (map to_adjoint (rev l)) (cden l s) = s.
Proof.
  induction l as [|g l IH]; intros s H; auto. cbn [rev]. rewrite map_app, cden_app, cden_cons. rewrite IH; [|intros; apply H; right; auto].
  cbn [map]. rewrite cden_cons, cden_nil. apply adj_inv; apply H; left; auto.
Qed.

(** ** witnesses for the classes that [to_adjoint] leaves unchanged *)
Definition ket (a b : bool) : state := fun x => if Bool.eqb (x 0%nat) a && Bool.eqb (x 1%nat) b then C1 else C0.
Definition pt (a b : bool) : assignment := fun i => match i with 0%nat => a | _ => b end.
Lemma C1_n_C0 : C1 <> C0. Proof. exact C1_neq_C0. Qed.
Lemma noeq : forall (f : state -> state) a b a' b', (a <> a' \/ b <> b') -> f (ket a b) (pt a' b') <> C0 -> ~ eq_phase f (fun s => s).
Proof.
  intros f a b a' b' D H [z [U E]]. apply H. rewrite E. unfold ket, pt. destruct a, b, a', b'; simpl; try ring; destruct D as [D|D]; congruence.
Qed.
Lemma half12_sq : cexp (half (frac 1 2)) * cexp (half (frac 1 2)) = Ci.
Proof. rewrite <- cexp_add, <- cexp_12. f_equal. qcomp. Qed.
Lemma cs12 : (C1 + C1) * (cosh_ (frac 1 2) * sinh_ (frac 1 2)) = C1.
Proof.
  assert (H := half12_sq). assert (I := Ci2). rewrite cos_exp, sin_exp. assert (W := cexp_neq0 (half (frac 1 2))). generalize dependent (cexp (half (frac 1 2))). intros w H W.
  transitivity (- Ci * (w * w - / (w * w)) * / (C1 + C1)); [field; nz; auto|]. rewrite H, Ci_inv. field [I]. nz.
Qed.
Definition bad_adjoint : list gate :=
  [GU2 0 0%Qc 0%Qc; GU3 0 (frac 1 2) 0%Qc 0%Qc; GCU3 0 1 (frac 1 2) 0%Qc 0%Qc; GCU 0 1 (frac 1 2) 0%Qc 0%Qc 0%Qc; GFSim 0 1 (frac 1 2) 0%Qc; GCSX 0 1].
Ltac evalk := cbn [to_adjoint gden]; unfold ctrl, op1, ket, pt, upd, scale2; cbn [Nat.eqb Bool.eqb andb]; mexpand.
Lemma bad_u2 : ~ eq_phase (fun s => gden (to_adjoint (GU2 0 0%Qc 0%Qc)) (gden (GU2 0 0%Qc 0%Qc) s)) (fun s => s).
Proof. apply (noeq _ false false true false); [left; discriminate|]. evalk. expn. assert (I := sq2_sq). intros E. apply C1_neq_C0. rewrite <- E. field [I]. nz. Qed.
Lemma bad_u3 : ~ eq_phase (fun s => gden (to_adjoint (GU3 0 (frac 1 2) 0%Qc 0%Qc)) (gden (GU3 0 (frac 1 2) 0%Qc 0%Qc) s)) (fun s => s).
Proof. apply (noeq _ false false true false); [left; discriminate|]. evalk. rewrite !cexp_add, cexp_0. assert (I := cs12). intros E. apply C1_neq_C0. rewrite <- E. ring [I]. Qed.
Lemma bad_cu3 : ~ eq_phase (fun s => gden (to_adjoint (GCU3 0 1 (frac 1 2) 0%Qc 0%Qc)) (gden (GCU3 0 1 (frac 1 2) 0%Qc 0%Qc) s)) (fun s => s).
Proof. apply (noeq _ true false true true); [right; discriminate|]. evalk. rewrite !cexp_add, cexp_0. assert (I := cs12). intros E. apply C1_neq_C0. rewrite <- E. ring [I]. Qed.
Lemma bad_cu : ~ eq_phase (fun s => gden (to_adjoint (GCU 0 1 (frac 1 2) 0%Qc 0%Qc 0%Qc)) (gden (GCU 0 1 (frac 1 2) 0%Qc 0%Qc 0%Qc) s)) (fun s => s).
Proof. apply (noeq _ true false true true); [right; discriminate|]. evalk. rewrite !cexp_add, cexp_0. assert (I := cs12). intros E. apply C1_neq_C0. rewrite <- E. ring [I]. Qed.
Lemma bad_csx : ~ eq_phase (fun s => gden (to_adjoint (GCSX 0 1)) (gden (GCSX 0 1) s)) (fun s => s).
Proof. apply (noeq _ true false true true); [right; discriminate|]. evalk. rewrite !cexp_12. assert (I := Ci2). intros E. apply C1_neq_C0. rewrite <- E. field [I]. nz. Qed.
Lemma bad_fsim : ~ eq_phase (fun s => gden (to_adjoint (GFSim 0 1 (frac 1 2) 0%Qc)) (gden (GFSim 0 1 (frac 1 2) 0%Qc) s)) (fun s => s).
Proof.
  intros [z [U E]]. assert (Z : z = C1).
  { assert (H := E (ket false false) (pt false false)). cbn [to_adjoint gden] in H. unfold ket, pt, swapq, upd in H. cbn in H. transitivity (z * C1); [ring|]. rewrite <- H. ring. }
  assert (H := E (ket false true) (pt false true)). cbn [to_adjoint gden] in H. unfold ket, pt, swapq, upd in H. cbn in H. rewrite Z in H.
  replace (frac 1 2 + frac 1 2)%Qc with 1%Qc in H by qcomp.
  assert (S : sinh_ 1 = C1). { rewrite sin_exp. replace (half 1) with (frac 1 2) by qcomp. rewrite cexp_12, Ci_inv. assert (I := Ci2). field [I]. nz. }
  assert (S' : cosh_ 1 = C0). { rewrite cos_exp. replace (half 1) with (frac 1 2) by qcomp. rewrite cexp_12, Ci_inv. field. nz. }
  rewrite S, S' in H. assert (I := Ci2). apply two_neq0. assert (J : - C1 = C1 * C1) by (rewrite <- H; ring [I]). transitivity (C1 * C1 - - C1); [ring|]. rewrite J. ring.
Qed.

(** ** split_phases *)
Lemma qc_parts : forall p k d m, qden p = d -> qnum p = (k + 2 * Z.pos d * m)%Z -> p = (frac k d + Qcz (2 * m))%Qc.
Proof.
  intros p k d m D N. apply Qc_is_canon. unfold Qcplus, frac, Qcz. cbn [this Q2Qc]. rewrite !Qred_correct. unfold qden, qnum in *. destruct (this p) as [a b]. cbn [Qnum Qden] in *. subst a b.
  unfold Qeq. cbn [Qnum Qden Qplus inject_Z]. rewrite !Pos2Z.inj_mul. ring.
Qed.
Lemma cexp_parts : forall p k d m, qden p = d -> qnum p = (k + 2 * Z.pos d * m)%Z -> cexp p = cexp (frac k d).
Proof. intros p k d m D N. rewrite (qc_parts p k d m D N), cexp_add, cexp_even. ring. Qed.
Lemma qnum_odd : forall p d, qden p = (2 * d)%positive -> Z.modulo (qnum p) 2 = 1%Z.
Proof.
  intros p d D. unfold qnum, qden in *. assert (H := canon p). destruct (this p) as [a b]. cbn [Qnum Qden] in *. subst b.
  assert (G := Qred_identity2 _ H). unfold Qnum, Qden in G.
  destruct (Z.mod_pos_bound a 2 ltac:(lia)) as [L U]. destruct (Z.eq_dec (a mod 2) 0) as [E|E]; [|lia]. exfalso.
  assert (X : (2 | Z.gcd a (Zpos (2 * d)))%Z).
  { apply Z.gcd_greatest; [apply Z.mod_divide; lia|]. exists (Z.pos d). lia. }
  rewrite G in X. destruct X as [y Y]. lia.
Qed.
Lemma cexp_den2 : forall p, qden p = 2%positive -> cexp p = cexp (if (qnum p mod 4 =? 1)%Z then frac 1 2 else frac (-1) 2).
Proof.
  intros p D. assert (O := qnum_odd p 1 D). assert (M := Z.div_mod (qnum p) 4 ltac:(lia)). assert (B := Z.mod_pos_bound (qnum p) 4 ltac:(lia)).
  assert (X : (qnum p mod 4 = 1 \/ qnum p mod 4 = 3)%Z).
  { assert (Y : ((qnum p mod 4) mod 2 = 1)%Z); [|assert (Z.modulo (qnum p) 4 = 0 \/ Z.modulo (qnum p) 4 = 1 \/ Z.modulo (qnum p) 4 = 2 \/ Z.modulo (qnum p) 4 = 3)%Z as [Z0|[Z0|[Z0|Z0]]] by lia; rewrite Z0 in Y |- *; auto; discriminate].
    rewrite M in O. rewrite <- O. rewrite Z.add_comm, Z.mul_comm. replace (qnum p / 4 * 4)%Z with ((qnum p / 4 * 2) * 2)%Z by ring. rewrite Z.mod_add by lia. reflexivity. }
  destruct (Z.eqb_spec (qnum p mod 4) 1) as [E|E].
  - apply (cexp_parts p 1 2 (qnum p / 4)); auto. rewrite E in M. lia.
  - apply (cexp_parts p (-1) 2 (qnum p / 4 + 1)); auto. lia.
Qed.
Lemma mP_mP : forall p q, meq (mmul (mP p) (mP q)) (mP (p + q)).
Proof. intros p q i j. mexpand. rewrite cexp_add. destruct i, j; ring. Qed.
Lemma mP_ext : forall p q t s, cexp p = cexp q -> op1 (mP p) t s = op1 (mP q) t s.
Proof. intros. apply op1_ext. intros i j. unfold mP. rewrite H. reflexivity. Qed.
Lemma mod8 : forall p, qden p = 4%positive -> (qnum p mod 8 = 1 \/ qnum p mod 8 = 3 \/ qnum p mod 8 = 5 \/ qnum p mod 8 = 7)%Z.
Proof.
  intros p D. assert (O := qnum_odd p 2 D). assert (M := Z.div_mod (qnum p) 8 ltac:(lia)). assert (B := Z.mod_pos_bound (qnum p) 8 ltac:(lia)).
  assert (Y : ((qnum p mod 8) mod 2 = 1)%Z).
  { rewrite M in O. rewrite <- O. rewrite Z.add_comm, Z.mul_comm. replace (qnum p / 8 * 8)%Z with ((qnum p / 8 * 4) * 2)%Z by ring. rewrite Z.mod_add by lia. reflexivity. }
  assert (X : (qnum p mod 8 = 0 \/ qnum p mod 8 = 1 \/ qnum p mod 8 = 2 \/ qnum p mod 8 = 3 \/ qnum p mod 8 = 4 \/ qnum p mod 8 = 5 \/ qnum p mod 8 = 6 \/ qnum p mod 8 = 7)%Z) by lia.
  destruct X as [E|[E|[E|[E|[E|[E|[E|E]]]]]]]; rewrite E in Y |- *; try discriminate; auto.
Qed.
Lemma split4_den : forall t p s, qden p = 4%positive -> cden (split4 t p) s = op1 (mP p) t s.
Proof.
  intros t p s D. assert (M := Z.div_mod (qnum p) 8 ltac:(lia)). unfold split4. destruct (mod8 p D) as [E|[E|[E|E]]]; rewrite E in M |- *; cbn -[op1 frac]; rewrite ?op1_op1, ?(op1_ext _ _ t s (mP_mP _ _)); apply mP_ext; symmetry.
  - apply (cexp_parts p 1 4 (qnum p / 8)); auto. lia.
  - rewrite (cexp_parts p 3 4 (qnum p / 8)); [f_equal; qcomp|auto|lia].
  - rewrite (cexp_parts p 5 4 (qnum p / 8)); [f_equal; qcomp|auto|lia].
  - apply (cexp_parts p (-1) 4 (qnum p / 8 + 1)); auto. lia.
Qed.
Lemma sden : forall t p s, qden p = 2%positive -> cden [Sg t (negb (Z.modulo (qnum p) 4 =? 1)%Z)] s = op1 (mP p) t s.
Proof. intros t p s D. unfold Sg. cbn -[op1 frac Z.modulo Z.eqb]. apply mP_ext. rewrite (cexp_den2 p D). destruct (qnum p mod 4 =? 1)%Z; reflexivity. Qed.
Lemma mP_0 : meq (mP 0) mI.
Proof. intros i j. unfold mP, mI. rewrite cexp_0. reflexivity. Qed.
Lemma zsplit_den : forall k t p s, cden (zsplit k t p) s = op1 (mP p) t s.
Proof.
  intros k t p s. unfold zsplit. destruct (qeqb p 0) eqn:E0; [apply qeqb_eq in E0; subst; rewrite (op1_ext _ mI), op1_I; auto; apply mP_0|].
  destruct (qeqb p 1) eqn:E1; [apply qeqb_eq in E1; subst; reflexivity|].
  destruct (qden p =? 2)%positive eqn:E2; [apply Pos.eqb_eq in E2; apply sden; auto|].
  destruct (qden p =? 4)%positive eqn:E4; [apply Pos.eqb_eq in E4; apply split4_den; auto|]. reflexivity.
Qed.
Lemma mXP_H : forall p, meq (mmul (mmul mH (mP p)) mH) (mXP p).
Proof. intros p i j. assert (I := sq2_sq). mexpand. destruct i, j; field [I]; nz. Qed.
Lemma xsplit_den : forall t p s, cden (xsplit t p) s = op1 (mXP p) t s.
Proof.
  intros t p s. unfold xsplit. destruct (qeqb p 0) eqn:E0.
  { apply qeqb_eq in E0; subst. rewrite (op1_ext _ mI), op1_I; auto. intros i j. mexpand. rewrite cexp_0. destruct i, j; field; nz. }
  destruct (qeqb p 1) eqn:E1; [apply qeqb_eq in E1; subst; reflexivity|].
  set (mid := if (qden p =? 2)%positive then _ else _).
  assert (X : forall s, cden mid s = op1 (mP p) t s).
  { intros s0. subst mid. destruct (qden p =? 2)%positive eqn:E2; [apply Pos.eqb_eq in E2; apply sden; auto|].
    destruct (qden p =? 4)%positive eqn:E4; [apply Pos.eqb_eq in E4; apply split4_den; auto|]. reflexivity. }
  rewrite !cden_app, X, !cden_cons, !cden_nil. cbn [gden]. rewrite !op1_op1. apply op1_ext. apply mXP_H.
Qed.
Theorem split_den : forall g s, cden (split_gate g) s = gden g s.
Proof. intros [] s; try reflexivity; [apply zsplit_den|apply xsplit_den]. Qed.
Theorem c_split_den : forall c s, cden (cgates (c_split c)) s = cden (cgates c) s.
Proof.
  intros [n gs] s. unfold c_split. cbn [cgates]. revert s. induction gs as [|g gs IH]; intros s; auto. cbn [flat_map]. rewrite cden_app, split_den, cden_cons. apply IH.
Qed.
