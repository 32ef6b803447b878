(** add_spider_pair: its cosine branch is wrong by a factor, but never by the
    factor zero. *)
From Coq Require Import Reals ZArith QArith Qcanon Qround Qreals List Bool Lia Lra.
From Verif Require Import CNum Base ScalarModel ScalarProofs GraphModel GraphSem SumLemmas GraphProofs GraphOps
  RulesModel RuleLemmas IsoProofs PiIrr.
Import ListNotations.
Open Scope C_scope.

Lemma not_quarter_neq : forall p, ~ quarter p -> p <> 0%Qc /\ p <> 1%Qc /\ p <> frac 1 2 /\ p <> frac 3 2 /\ qden p <> 4%Z.
Proof.
  intros p H. repeat split; intros E; apply H; rewrite ?E.
  - exact quarter_0.
  - exact quarter_1.
  - exists 2%Z. apply Qc_is_canon. rewrite !this_frac. reflexivity.
  - exists 6%Z. apply Qc_is_canon. rewrite !this_frac. reflexivity.
  - apply den4_quarter; auto.
Qed.
Lemma cos_pi_neq0 : forall p, ~ quarter p -> cos (PI * Q2R (this p)) <> 0%R.
Proof.
  intros p H E. apply cos_eq_0_0 in E. destruct E as [k Hk]. apply H. exists (4 * k + 2)%Z.
  apply Qc_is_canon. rewrite this_frac. apply eqR_Qeq.
  assert (P := PI_neq0). apply (Rmult_eq_reg_l PI); auto. rewrite Hk. unfold Q2R. cbn [Qnum Qden].
  rewrite plus_IZR, mult_IZR. field.
Qed.

Lemma bad_pair_code : forall p1 p2 s, in02 p1 -> in02 p2 -> pair_bad p1 p2 ->
  to_number (add_spider_pair p1 p2 s) = sq2p 1 * RtoC (cos (Q2R (this p1))) * to_number s.
Proof.
  intros p1 p2 s R1 R2 Hb. destruct (not_quarter_neq p1 (proj2 Hb)) as [A0 [A1 [A2 [A3 A4]]]].
  destruct (not_quarter_neq p2 (proj2 (pair_bad_sym _ _ Hb))) as [B0 [B1 [B2 [B3 B4]]]].
  unfold add_spider_pair.
  destruct (qeqb_spec p2 0%Qc); [contradiction|]. destruct (qeqb_spec p2 1%Qc); [contradiction|]. cbn [orb].
  destruct (qeqb_spec p1 0%Qc); [contradiction|]. destruct (qeqb_spec p1 1%Qc); [contradiction|].
  destruct (Z.eqb_spec (qden p2) 2) as [D|D]; [destruct (den2_half p2 R2 D); contradiction|].
  destruct (qeqb_spec p1 (frac 1 2)); [contradiction|]. destruct (qeqb_spec p1 (frac 3 2)); [contradiction|].
  destruct (qeqb_spec (qmod2 (p1+p2)%Qc) 0%Qc) as [_|X]; [|exfalso; apply X, Hb].
  destruct (Z.eqb_spec (qden p1) 4) as [D4|D4]; [contradiction|].
  rewrite add_float_number, add_power_number. ring.
Qed.

Lemma pair_bad_dec : forall p q, in02 p -> pair_bad p q \/ ~ pair_bad p q.
Proof.
  intros p q I. unfold pair_bad. destruct (qeqb_spec (qmod2 (p + q)%Qc) 0%Qc); [|tauto].
  assert (D : quarter p \/ ~ quarter p).
  { unfold quarter. destruct (qeqb_spec (frac (Qround.Qfloor (this p * inject_Z 4)) 4) p) as [E|E]; [left; eauto|].
    right. intros [z Hz]. apply E. rewrite Hz. f_equal.
    assert (Q2 : this (frac z 4) * inject_Z 4 == inject_Z z) by (rewrite this_frac; unfold Qeq, Qmult, inject_Z; simpl; lia).
    rewrite Q2. apply Qfloor_Z. }
  tauto.
Qed.
Definition nonzero (k : C) : Prop := k <> C0.
Definition anyph (p : Qc) : Prop := True.
Theorem good_nonzero : good nonzero anyph.
Proof.
  split; [split; [exact C1_neq_C0|exact Cmult_neq0]|]. split; [repeat split|].
  intros p q I1 I2 _ _. destruct (pair_bad_dec p q I1) as [B|B].
  - exists (RtoC (cos (Q2R (this p)) / cos (PI * Q2R (this p)))). assert (N := cos_pi_neq0 p (proj2 B)). split.
    + apply RtoC_neq0. unfold Rdiv. apply Rmult_integral_contrapositive. split; [apply cos_rational|apply Rinv_neq_0_compat; auto].
    + intros s. rewrite bad_pair_code by auto. rewrite (sum0_value p q (proj1 B)).
      transitivity (sq2p 1 * (RtoC (cos (Q2R (this p)) / cos (PI * Q2R (this p))) * RtoC (cos (PI * Q2R (this p)))) * to_number s); [|ring].
      rewrite <- RtoC_mult. replace (cos (Q2R (this p)) / cos (PI * Q2R (this p)) * cos (PI * Q2R (this p)))%R with (cos (Q2R (this p))) by (field; auto).
      reflexivity.
  - exists C1. split; [exact C1_neq_C0|]. intros s. rewrite add_spider_pair_number; auto. ring.
Qed.

(** exactness fails: phases pi/3 and 5 pi/3 *)
Lemma third_bad : pair_bad (frac 1 3) (frac 5 3).
Proof.
  split; [apply Qc_is_canon; reflexivity|]. intros [z Hz].
  assert (E : this (frac 1 3) == this (frac z 4)) by (rewrite Hz; reflexivity).
  rewrite !this_frac in E. unfold Qeq in E. simpl in E. lia.
Qed.
Theorem add_spider_pair_refuted : exists p1 p2 s, in02 p1 /\ in02 p2 /\
  to_number (add_spider_pair p1 p2 s) <> (C1 + cexp p1 + cexp p2 - cexp (p1 + p2)%Qc) * sq2p (-1) * to_number s.
Proof.
  exists (frac 1 3), (frac 5 3), scalar_init.
  assert (I1 : in02 (frac 1 3)) by (split; unfold Qle, Qlt; simpl; lia).
  assert (I2 : in02 (frac 5 3)) by (split; unfold Qle, Qlt; simpl; lia).
  split; auto. split; auto. rewrite bad_pair_code by (auto using third_bad).
  change ((C1 + cexp (frac 1 3) + cexp (frac 5 3) - cexp (frac 1 3 + frac 5 3)%Qc) * sq2p (-1)) with (spider_pair_value (frac 1 3) (frac 5 3)).
  rewrite (sum0_value _ _ (proj1 third_bad)).
  assert (T : to_number scalar_init = C1).
  { unfold to_number, scalar_init. simpl. rewrite cexp_0, sq2p_0. ring. }
  rewrite T. intros E. rewrite !Cmult_1_r in E. apply Cmult_cancel_l in E; [|apply sq2p_neq0].
  apply (f_equal fst) in E. unfold RtoC in E. cbn [fst] in E.
  assert (P := PI2_1). assert (P3 := PI2_3_2). 
  assert (V : Q2R (this (frac 1 3)) = (1 / 3)%R) by (unfold Q2R; simpl; lra).
  rewrite V in E. 
  assert (L : (cos (PI * (1/3)) < cos (1/3))%R) by (apply cos_decreasing_1; lra).
  lra.
Qed.
