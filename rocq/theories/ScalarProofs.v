(** Proofs about the Scalar model. *)
From Coq Require Import Reals Lra Lia ZArith QArith Qcanon Qround Qreals List Bool Ring Field.
From Verif Require Import CNum Base ScalarModel.
Import ListNotations.
Open Scope C_scope.

Lemma qeqb_spec : forall a b, reflect (a = b) (qeqb a b).
Proof.
  intros. unfold qeqb. destruct (Qeq_bool a b) eqn:E; constructor.
  - apply Qc_is_canon. apply Qeq_bool_eq; auto.
  - intro H; subst. rewrite (proj2 (Qeq_bool_iff b b)) in E; [discriminate|reflexivity].
Qed.
Lemma qeqb_refl : forall a, qeqb a a = true.
Proof. intros. destruct (qeqb_spec a a); congruence. Qed.
Lemma qeqb_eq : forall a b, qeqb a b = true <-> a = b.
Proof. intros. destruct (qeqb_spec a b); split; congruence. Qed.

Lemma cexp_qmod2 : forall q, cexp (qmod2 q) = cexp q.
Proof.
  intros. unfold qmod2, Qcminus. rewrite cexp_add, cexp_opp, cexp_even, Cconj_1. ring.
Qed.

Lemma this_plus : forall a b : Qc, this (a + b)%Qc == (this a + this b)%Q.
Proof. intros. apply Qred_correct. Qed.
Lemma this_opp : forall a : Qc, this (- a)%Qc == (- this a)%Q.
Proof. intros. apply Qred_correct. Qed.
Lemma this_mult : forall a b : Qc, this (a * b)%Qc == (this a * this b)%Q.
Proof. intros. apply Qred_correct. Qed.
Lemma this_minus : forall a b : Qc, this (a - b)%Qc == (this a - this b)%Q.
Proof. intros. unfold Qcminus. rewrite this_plus, this_opp. reflexivity. Qed.
Lemma this_Q2Qc : forall q, this (Q2Qc q) == q.
Proof. intros. apply Qred_correct. Qed.
Lemma this_Qcz : forall z, this (Qcz z) == inject_Z z.
Proof. intros. apply Qred_correct. Qed.
Lemma this_frac : forall n d, this (frac n d) == (n # d)%Q.
Proof. intros. apply Qred_correct. Qed.

Lemma qmod2_range : forall q, (0 <= this (qmod2 q))%Q /\ (this (qmod2 q) < 2)%Q.
Proof.
  intros. unfold qmod2. rewrite this_minus, this_Qcz.
  pose proof (Qfloor_le (q / 2)) as H1. pose proof (Qlt_floor (q / 2)) as H2.
  set (n := Qfloor (q/2)) in *.
  rewrite inject_Z_plus in H2. rewrite inject_Z_mult.
  assert (this q == 2 * (this q / 2))%Q as E by (field).
  split.
  - apply (Qplus_le_l _ _ (inject_Z 2 * inject_Z n)). ring_simplify.
    rewrite E. change (inject_Z 2) with 2%Q. apply Qmult_le_l; [reflexivity|auto].
  - apply (Qplus_lt_l _ _ (inject_Z 2 * inject_Z n)). ring_simplify.
    rewrite E at 1. change (inject_Z 2) with 2%Q.
    setoid_replace (2 * inject_Z n + 2)%Q with (2 * (inject_Z n + inject_Z 1))%Q by (change (inject_Z 1) with 1%Q; ring).
    apply Qmult_lt_l; [reflexivity|auto].
Qed.

Lemma qmod2_diff : forall q, exists n, q = (qmod2 q + Qcz (2 * n))%Qc.
Proof. intros. exists (Qfloor (this q / 2)). unfold qmod2. ring. Qed.

Lemma qmod2_id : forall q, (0 <= this q)%Q -> (this q < 2)%Q -> qmod2 q = q.
Proof.
  intros. unfold qmod2.
  assert (Qfloor (q / 2) = 0%Z) as ->.
  { assert (0 <= Qfloor (q/2))%Z.
    { rewrite <- (Qfloor_Z 0). apply Qfloor_resp_le. change (inject_Z 0) with 0%Q.
      apply Qle_shift_div_l; [reflexivity|]. ring_simplify. auto. }
    assert (Qfloor (q/2) < 1)%Z.
    { rewrite Zlt_Qlt. eapply Qle_lt_trans; [apply Qfloor_le|].
      apply Qlt_shift_div_r; [reflexivity|]. change (inject_Z 1) with 1%Q. ring_simplify. auto. }
    lia. }
  change (2*0)%Z with 0%Z. assert (Qcz 0 = 0%Qc) as -> by (apply Qc_is_canon; reflexivity). ring.
Qed.

Lemma qmod2_shift : forall q n, qmod2 (q + Qcz (2 * n))%Qc = qmod2 q.
Proof.
  intros. unfold qmod2.
  assert (Qfloor ((q + Qcz (2*n))%Qc / 2) = (Qfloor (q / 2) + n)%Z) as ->.
  { assert (((q + Qcz (2*n))%Qc / 2) == (q / 2 + inject_Z n))%Q as ->.
    { rewrite this_plus, this_Qcz, inject_Z_mult. change (inject_Z 2) with 2%Q. field. }
    unfold Qplus, Qfloor. destruct (q/2)%Q as [a b]. simpl.
    rewrite Z.mul_1_r, Pos.mul_1_r. rewrite Z.div_add by lia. reflexivity. }
  rewrite Z.mul_add_distr_l, Qcz_add. ring.
Qed.

Lemma qmod2_eq_iff : forall p q, qmod2 p = qmod2 q <-> exists n, p = (q + Qcz (2*n))%Qc.
Proof.
  intros. split.
  - intros H. destruct (qmod2_diff p) as [a Ha]. destruct (qmod2_diff q) as [b Hb].
    exists (a - b)%Z. rewrite Ha, H. rewrite Hb at 2.
    replace (2*(a-b))%Z with (2*a + - (2*b))%Z by ring. rewrite Qcz_add, Qcz_opp. ring.
  - intros [n ->]. apply qmod2_shift.
Qed.

Lemma qmod2_idem : forall q, qmod2 (qmod2 q) = qmod2 q.
Proof. intros. apply qmod2_id; apply qmod2_range. Qed.
Lemma qmod2_0 : qmod2 0%Qc = 0%Qc.
Proof. apply qmod2_id. discriminate. reflexivity. Qed.

(** ** to_number is a homomorphism *)
Lemma cexp2_sq2p : cexp (Qcz 0) = C1.
Proof. apply (cexp_even 0). Qed.

Lemma add_power_number : forall n s, to_number (s_add_power n s) = sq2p n * to_number s.
Proof.
  intros. unfold to_number; simpl. destruct (is_zero s); [ring|]. rewrite sq2p_add. ring.
Qed.
Lemma add_phase_number : forall p s, to_number (s_add_phase p s) = cexp p * to_number s.
Proof.
  intros. unfold to_number; simpl. destruct (is_zero s); [ring|]. rewrite cexp_qmod2, cexp_add. ring.
Qed.
Lemma add_node_number : forall p s, to_number (s_add_node p s) = (C1 + cexp p) * to_number s.
Proof.
  intros. unfold s_add_node, to_number.
  destruct (qeqb_spec p 1%Qc) as [H1|H1]; destruct (qeqb_spec p 0%Qc) as [H0|H0]; cbn [is_zero sphase phasenodes power2 floatfactor].
  - subst. discriminate H0.
  - subst. rewrite cexp_1. destruct (is_zero s); ring.
  - subst. destruct (is_zero s); [ring|]. rewrite sq2p_add, cexp_0, sq2p_2. ring.
  - destruct (is_zero s); [ring|]. rewrite cprod_app. simpl. ring.
Qed.
Lemma add_float_number : forall f s, to_number (s_add_float f s) = f * to_number s.
Proof.
  intros. unfold s_add_float, to_number; simpl.
  destruct (C_eq_dec f C0); [subst; ring|]. destruct (is_zero s); ring.
Qed.
Lemma mult_with_scalar_number : forall s o,
  to_number (mult_with_scalar s o) = to_number s * to_number o.
Proof.
  intros. unfold to_number; simpl. destruct (is_zero o); [destruct (is_zero s); ring|].
  destruct (is_zero s); [ring|]. rewrite cexp_qmod2, cexp_add, sq2p_add, cprod_app. ring.
Qed.
Lemma copy_number : forall s, to_number (scalar_copy false s) = to_number s.
Proof. intros [] ; reflexivity. Qed.
Lemma conj_number : forall s, to_number (scalar_copy true s) = Cconj (to_number s).
Proof.
  intros. unfold to_number; simpl. destruct (is_zero s); [symmetry; apply Cconj_0|].
  rewrite !Cconj_mult, cexp_opp, Cconj_sq2p, cprod_map, cprod_conj.
  f_equal. f_equal. f_equal. apply cprod_ext. intros. rewrite cexp_opp, Cconj_plus, Cconj_1. reflexivity.
Qed.

(** ** constants *)
Lemma cexp_frac : forall n d, cexp (frac n d) = cexpR (IZR n / IZR (Zpos d)).
Proof. intros. unfold cexp, frac. rewrite Q2R_Qc_Q2Qc. reflexivity. Qed.

Lemma cexp_half : cexp (frac 1 2) = Ci.
Proof.
  rewrite cexp_frac. unfold cexpR. replace (PI * (1/2))%R with (PI/2)%R by field.
  rewrite cos_PI2, sin_PI2. reflexivity.
Qed.
Lemma cexp_quarter : cexp (frac 1 4) = (C1 + Ci) * sq2p (-1).
Proof.
  rewrite cexp_frac. unfold cexpR. replace (PI * (1/4))%R with (PI/4)%R by field.
  rewrite cos_PI4, sin_PI4, sq2p_m1. unfold sq2. rewrite <- RtoC_inv by apply sqrt2_neq0.
  apply C_eq; simpl; field; apply sqrt2_neq0.
Qed.
Lemma frac_add : forall a b d, (frac a d + frac b d)%Qc = frac (a + b) d.
Proof.
  intros. apply Qc_is_canon. rewrite this_plus, !this_frac.
  unfold Qeq; simpl. rewrite Pos2Z.inj_mul. ring.
Qed.
Lemma frac_2z : forall z, cexp (frac (8*z) 4) = C1.
Proof.
  intros. rewrite <- (cexp_even z). f_equal. apply Qc_is_canon. rewrite this_frac, this_Qcz.
  unfold Qeq, inject_Z; cbn [Qnum Qden]. lia.
Qed.
Lemma sq2p_m1_sq : sq2p (-1) * sq2p (-1) * (C1 + C1) = C1.
Proof. rewrite <- sq2p_2. rewrite <- !sq2p_add. reflexivity. Qed.
Lemma Ci_sq : Ci * Ci = - C1.
Proof. cring. Qed.

Definition w8 := cexp (frac 1 4).
Lemma w8_sq : w8 * w8 = Ci.
Proof. unfold w8. rewrite <- cexp_add. rewrite frac_add. rewrite <- cexp_half. f_equal. apply Qc_is_canon; reflexivity. Qed.
Lemma cexp_3half : cexp (frac 3 2) = - Ci.
Proof.
  replace (frac 3 2) with (frac 1 2 + 1)%Qc by (apply Qc_is_canon; reflexivity).
  rewrite cexp_add, cexp_half, cexp_1. ring.
Qed.
Lemma cexp_7quarter : cexp (frac 7 4) = (C1 - Ci) * sq2p (-1).
Proof.
  replace (frac 7 4) with (frac 3 2 + frac 1 4)%Qc by (apply Qc_is_canon; reflexivity).
  rewrite cexp_add, cexp_3half, cexp_quarter. ring_simplify. 
  replace (Ci*Ci) with (- C1) by cring. 
  apply C_eq; simpl; ring.
Qed.
Lemma cexp_3quarter : cexp (frac 3 4) = (Ci - C1) * sq2p (-1).
Proof.
  replace (frac 3 4) with (frac 1 2 + frac 1 4)%Qc by (apply Qc_is_canon; reflexivity).
  rewrite cexp_add, cexp_half, cexp_quarter. apply C_eq; simpl; ring.
Qed.
Lemma cexp_5quarter : cexp (frac 5 4) = (- C1 - Ci) * sq2p (-1).
Proof.
  replace (frac 5 4) with (1 + frac 1 4)%Qc by (apply Qc_is_canon; reflexivity).
  rewrite cexp_add, cexp_1, cexp_quarter. ring.
Qed.

(** ** the connected pair of spiders *)
(** Specification: the value of two one-legged spiders joined by a Hadamard. *)
Definition spider_pair_value (p1 p2 : Qc) : C :=
  (C1 + cexp p1 + cexp p2 - cexp (p1 + p2)%Qc) * sq2p (-1).

Definition in02 (p : Qc) : Prop := (0 <= this p)%Q /\ (this p < 2)%Q.
Definition quarter (p : Qc) : Prop := exists z, p = frac z 4.

Lemma quarter_cases : forall p, in02 p -> quarter p ->
  p = 0%Qc \/ p = frac 1 4 \/ p = frac 1 2 \/ p = frac 3 4 \/ p = 1%Qc \/ p = frac 5 4 \/ p = frac 3 2 \/ p = frac 7 4.
Proof.
  intros p [H1 H2] [z ->]. rewrite this_frac in *.
  unfold Qle, Qlt in *; simpl in *.
  assert (z = 0 \/ z = 1 \/ z = 2 \/ z = 3 \/ z = 4 \/ z = 5 \/ z = 6 \/ z = 7)%Z by lia.
  destruct H as [->|[->|[->|[->|[->|[->|[->| ->]]]]]]].
  - left; apply Qc_is_canon; reflexivity.
  - auto.
  - do 2 right; left; apply Qc_is_canon; reflexivity.
  - do 3 right; left; apply Qc_is_canon; reflexivity.
  - do 4 right; left; apply Qc_is_canon; reflexivity.
  - do 5 right; left; apply Qc_is_canon; reflexivity.
  - do 6 right; left; apply Qc_is_canon; reflexivity.
  - do 7 right; apply Qc_is_canon; reflexivity.
Qed.

Lemma spider_pair_sym : forall a b, spider_pair_value a b = spider_pair_value b a.
Proof. intros. unfold spider_pair_value. rewrite (Qcplus_comm a b). ring. Qed.

Lemma quarter_frac : forall n, quarter (frac n 4). Proof. intros; exists n; reflexivity. Qed.
Lemma quarter_add : forall a b, quarter a -> quarter b -> quarter (a + b)%Qc.
Proof. intros a b [x ->] [y ->]. exists (x+y)%Z. apply frac_add. Qed.
Lemma quarter_opp : forall a, quarter a -> quarter (- a)%Qc.
Proof.
  intros a [x ->]. exists (-x)%Z. apply Qc_is_canon. rewrite this_opp, !this_frac. reflexivity.
Qed.
Lemma quarter_z : forall n, quarter (Qcz n).
Proof.
  intros n. exists (4*n)%Z. apply Qc_is_canon. rewrite this_Qcz, this_frac.
  unfold Qeq, inject_Z; cbn [Qnum Qden]. lia.
Qed.
Lemma quarter_0 : quarter 0%Qc. Proof. exists 0%Z. apply Qc_is_canon. reflexivity. Qed.
Lemma quarter_1 : quarter 1%Qc. Proof. exists 4%Z. apply Qc_is_canon. reflexivity. Qed.
Lemma quarter_mod2 : forall a, quarter a -> quarter (qmod2 a).
Proof. intros. unfold qmod2, Qcminus. apply quarter_add; auto. apply quarter_opp, quarter_z. Qed.

Lemma qmod2_zero_sum : forall p1 p2, qmod2 (p1 + p2)%Qc = 0%Qc -> exists n, p2 = (- p1 + Qcz (2 * n))%Qc.
Proof.
  intros. rewrite <- qmod2_0 in H. apply qmod2_eq_iff in H. destruct H as [n H].
  exists n. rewrite <- (Qcplus_0_l (Qcz (2*n))), <- H. ring.
Qed.

Lemma asp_half : forall p, spider_pair_value (frac 1 2) p = cexp (frac 1 4) * (C1 + cexp (qmod2 (p - frac 1 2)%Qc)).
Proof.
  intros. unfold spider_pair_value. rewrite cexp_qmod2. unfold Qcminus.
  rewrite !cexp_add, cexp_opp, cexp_half, cexp_quarter.
  destruct (cexp p). apply C_eq; simpl; ring.
Qed.
Lemma asp_3half : forall p, spider_pair_value (frac 3 2) p = cexp (frac 7 4) * (C1 + cexp (qmod2 (p - frac 3 2)%Qc)).
Proof.
  intros. unfold spider_pair_value. rewrite cexp_qmod2. unfold Qcminus.
  rewrite !cexp_add, cexp_opp, cexp_3half, cexp_7quarter.
  destruct (cexp p). apply C_eq; simpl; ring.
Qed.

(** The general result: right up to a factor, which is 1 unless the cosine
    branch is reached with a phase that is not a multiple of pi/4. *)
Definition pair_bad (p1 p2 : Qc) : Prop :=
  qmod2 (p1 + p2)%Qc = 0%Qc /\ ~ quarter p1.

Lemma pair_bad_sym : forall a b, pair_bad a b -> pair_bad b a.
Proof.
  intros a b [H1 H2]. split; [rewrite Qcplus_comm; auto|].
  intro Hq. apply H2. destruct (qmod2_zero_sum _ _ H1) as [n Hn].
  assert (a = (- b + Qcz (2*n))%Qc) as -> by (rewrite Hn; ring).
  apply quarter_add; [apply quarter_opp; auto|apply quarter_z].
Qed.

Lemma cexp_sum0 : forall p1 p2, qmod2 (p1+p2)%Qc = 0%Qc -> cexp (p1+p2)%Qc = C1 /\ cexp p2 = Cconj (cexp p1).
Proof.
  intros. split.
  - rewrite <- cexp_qmod2, H. apply cexp_0.
  - destruct (qmod2_zero_sum _ _ H) as [n ->]. rewrite cexp_add, cexp_even, cexp_opp. ring.
Qed.

Lemma sum0_value : forall p1 p2, qmod2 (p1+p2)%Qc = 0%Qc ->
  spider_pair_value p1 p2 = sq2p 1 * RtoC (cos (PI * Q2R (this p1))).
Proof.
  intros. destruct (cexp_sum0 _ _ H) as [E1 E2]. unfold spider_pair_value. rewrite E1, E2.
  unfold cexp, cexpR, Cconj; simpl.
  replace (sq2p 1) with (sq2p 2 * sq2p (-1)) by (rewrite <- sq2p_add; reflexivity).
  rewrite sq2p_2. apply C_eq; simpl; ring.
Qed.

Lemma q_den_quarter_odd : qden (frac 1 4) = 4%Z /\ qden (frac 3 4) = 4%Z /\ qden (frac 5 4) = 4%Z /\ qden (frac 7 4) = 4%Z.
Proof. repeat split; reflexivity. Qed.

Lemma den4_quarter : forall p, qden p = 4%Z -> quarter p.
Proof.
  intros p H. exists (Qnum (this p)). apply Qc_is_canon. rewrite this_frac.
  unfold qden in H. destruct (this p) as [n d]; simpl in *. inversion H. reflexivity.
Qed.
Lemma den2_half : forall p, in02 p -> qden p = 2%Z -> p = frac 1 2 \/ p = frac 3 2.
Proof.
  intros p [H1 H2] H. unfold qden in H.
  assert (p = frac (Qnum (this p)) 2) as E.
  { apply Qc_is_canon. rewrite this_frac. destruct (this p) as [n d]; simpl in *. inversion H. reflexivity. }
  destruct (this p) as [n d] eqn:Ep; simpl in *. inversion H; subst d.
  unfold Qle, Qlt in *; simpl in *.
  assert (n = 0 \/ n = 1 \/ n = 2 \/ n = 3)%Z by lia.
  destruct H0 as [->|[->|[->| ->]]]; auto.
  - exfalso. rewrite E in Ep. vm_compute in Ep. discriminate.
  - exfalso. rewrite E in Ep. vm_compute in Ep. discriminate.
Qed.

Lemma add_spider_pair_number : forall p1 p2 s, in02 p1 -> in02 p2 -> ~ pair_bad p1 p2 ->
  to_number (add_spider_pair p1 p2 s) = spider_pair_value p1 p2 * to_number s.
Proof.
  intros p1 p2 s R1 R2 Hb. unfold add_spider_pair.
  set (sw := qeqb p2 0%Qc || qeqb p2 1%Qc).
  assert (exists q1 q2, (if sw then (p2, p1) else (p1, p2)) = (q1, q2) /\ in02 q1 /\ in02 q2 /\ ~ pair_bad q1 q2
           /\ spider_pair_value p1 p2 = spider_pair_value q1 q2 /\ (q1 <> 0%Qc -> q1 <> 1%Qc -> q2 <> 0%Qc /\ q2 <> 1%Qc)) as
    [q1 [q2 [E [Q1 [Q2 [Hbq [Hv Hne]]]]]]].
  { subst sw. destruct (qeqb_spec p2 0%Qc); [|destruct (qeqb_spec p2 1%Qc)]; simpl.
    - exists p2, p1. repeat split; auto; try apply spider_pair_sym; try (intros; congruence); try apply R1; try apply R2.
      intro Hx; apply Hb, pair_bad_sym; auto.
    - exists p2, p1. repeat split; auto; try apply spider_pair_sym; try (intros; congruence); try apply R1; try apply R2.
      intro Hx; apply Hb, pair_bad_sym; auto.
    - exists p1, p2. repeat split; auto; try apply R1; try apply R2. }
  rewrite E, Hv. clear E Hv sw Hb R1 R2 p1 p2. rename q1 into p1, q2 into p2.
  destruct (qeqb_spec p1 0%Qc) as [->|N0].
  { rewrite add_power_number. unfold spider_pair_value. rewrite Qcplus_0_l, cexp_0.
    replace (sq2p 1) with (sq2p 2 * sq2p (-1)) by (rewrite <- sq2p_add; reflexivity). rewrite sq2p_2. ring. }
  destruct (qeqb_spec p1 1%Qc) as [->|N1].
  { rewrite add_phase_number, add_power_number. unfold spider_pair_value. rewrite cexp_add, cexp_1.
    replace (sq2p 1) with (sq2p 2 * sq2p (-1)) by (rewrite <- sq2p_add; reflexivity). rewrite sq2p_2. ring. }
  destruct (Hne N0 N1) as [M0 M1]. clear Hne.
  set (sw := Z.eqb (qden p2) 2).
  assert (exists q1 q2, (if sw then (p2, p1) else (p1, p2)) = (q1, q2) /\ in02 q1 /\ in02 q2 /\ ~ pair_bad q1 q2
           /\ spider_pair_value p1 p2 = spider_pair_value q1 q2 /\ q1 <> 0%Qc /\ q1 <> 1%Qc ) as
    [q1 [q2 [E [R1 [R2 [Hb [Hv [L0 L1]]]]]]]].
  { destruct sw; [exists p2, p1|exists p1, p2]; repeat split; auto; try apply spider_pair_sym; try apply Q1; try apply Q2.
    intro Hx; apply Hbq, pair_bad_sym; auto. }
  rewrite E, Hv. clear E Hv sw Hbq Q1 Q2 N0 N1 M0 M1 p1 p2. rename q1 into p1, q2 into p2.
  destruct (qeqb_spec p1 (frac 1 2)) as [->|NH].
  { rewrite add_node_number, add_phase_number, asp_half. ring. }
  destruct (qeqb_spec p1 (frac 3 2)) as [->|NH3].
  { rewrite add_node_number, add_phase_number, asp_3half. ring. }
  destruct (qeqb_spec (qmod2 (p1+p2)%Qc) 0%Qc) as [Hs|Hs].
  - destruct (Z.eqb_spec (qden p1) 4) as [Hd|Hd].
    + pose proof (den4_quarter _ Hd) as Hq.
      destruct (cexp_sum0 _ _ Hs) as [E1 E2]. unfold spider_pair_value. rewrite E1, E2.
      destruct (quarter_cases _ R1 Hq) as [->|[->|[->|[->|[->|[->|[->| ->]]]]]]]; try congruence; cbn [qnum]; simpl (Z.eqb _ _); simpl.
      * rewrite cexp_quarter, Cconj_mult, Cconj_sq2p, Cconj_plus, Cconj_1.
        replace (Cconj Ci) with (- Ci) by cring.
        transitivity (sq2p (-1) * sq2p (-1) * (C1 + C1) * to_number s); [rewrite sq2p_m1_sq; ring|ring].
      * rewrite add_phase_number, cexp_1, cexp_3quarter, Cconj_mult, Cconj_sq2p. unfold Cminus. rewrite Cconj_plus, Cconj_opp, Cconj_1.
        replace (Cconj Ci) with (- Ci) by cring.
        transitivity (- (sq2p (-1) * sq2p (-1) * (C1 + C1)) * to_number s); [rewrite sq2p_m1_sq; ring|ring].
      * rewrite add_phase_number, cexp_1, cexp_5quarter, Cconj_mult, Cconj_sq2p. unfold Cminus. rewrite Cconj_plus, !Cconj_opp, Cconj_1.
        replace (Cconj Ci) with (- Ci) by cring.
        transitivity (- (sq2p (-1) * sq2p (-1) * (C1 + C1)) * to_number s); [rewrite sq2p_m1_sq; ring|ring].
      * rewrite cexp_7quarter, Cconj_mult, Cconj_sq2p. unfold Cminus. rewrite Cconj_plus, !Cconj_opp, Cconj_1.
        replace (Cconj Ci) with (- Ci) by cring.
        transitivity ((sq2p (-1) * sq2p (-1) * (C1 + C1)) * to_number s); [rewrite sq2p_m1_sq; ring|ring].
    + exfalso. apply Hb. split; auto. intro Hq.
      destruct (quarter_cases _ R1 Hq) as [->|[->|[->|[->|[->|[->|[->| ->]]]]]]]; try congruence; apply Hd; reflexivity.
  - rewrite add_float_number, add_power_number. unfold spider_pair_value. ring.
Qed.
