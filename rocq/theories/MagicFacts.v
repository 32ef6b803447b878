(** Each term of the decompositions, and their sum. *)
From Coq Require Import Reals ZArith QArith Qcanon List Bool Arith Lia.
From Verif Require Import CNum Base ScalarModel ScalarProofs GraphModel GateModel GraphSem SumLemmas GraphProofs GraphOps BfixProofs InvProofs ZXFacts RuleLemmas GadgetProofs TotalProofs GrowProofs GraphAlgModel GraphAlgProofs GraphAlgFacts MagicModel MagicAlg MagicProofs.
Import ListNotations.
Local Open Scope nat_scope.

(** ** Constants *)
Lemma cz_lin : forall a b, ev (a, b, 0, - b)%Z = (cz a + cz b * csq2)%C.
Proof.
  intros. unfold csq2. rewrite <- ev_r2. unfold ev, zr2. change (cz 0) with C0. rewrite cz_opp. replace (cz 1) with C1 by reflexivity. replace (cz (-1)) with (- C1)%C by (unfold cz; cring). ring.
Qed.
Lemma v_B60 : MAGIC_B60 = ev zB60. Proof. symmetry. exact (cz_lin (-16) 12). Qed.
Lemma v_B66 : MAGIC_B66 = ev zB66. Proof. transitivity (cz 96 + cz (- (68)) * csq2)%C; [rewrite (cz_opp 68); unfold MAGIC_B66; ring|symmetry; exact (cz_lin 96 (-68))]. Qed.
Lemma v_E6 : MAGIC_E6 = ev zE6. Proof. transitivity (cz 10 + cz (- (7)) * csq2)%C; [rewrite (cz_opp 7); unfold MAGIC_E6; ring|symmetry; exact (cz_lin 10 (-7))]. Qed.
Lemma v_O6 : MAGIC_O6 = ev zO6. Proof. symmetry. exact (cz_lin (-14) 10). Qed.
Lemma v_K6 : MAGIC_K6 = ev zK6. Proof. transitivity (cz 7 + cz (- (5)) * csq2)%C; [rewrite (cz_opp 5); unfold MAGIC_K6; ring|symmetry; exact (cz_lin 7 (-5))]. Qed.
Lemma v_PHI : MAGIC_PHI = ev zPHI. Proof. transitivity (cz 10 + cz (- (7)) * csq2)%C; [rewrite (cz_opp 7); unfold MAGIC_PHI; ring|symmetry; exact (cz_lin 10 (-7))]. Qed.
Lemma v_G : MAGIC_GLOBAL = (ev zG * sq2p (-3))%C.
Proof.
  unfold MAGIC_GLOBAL.
  assert (D : (cz 2 + cz 2 * Ci = sq2p 3 * w8)%C).
  { replace (cz 2 + cz 2 * Ci)%C with ((C1 + C1) * (C1 + Ci))%C by (unfold cz; cring). unfold w8. rewrite cexp_quarter, <- sq2p_2.
    transitivity (sq2p (3 + -1) * (C1 + Ci))%C; [reflexivity|]. rewrite sq2p_add. ring. }
  assert (NZ : (cz 2 + cz 2 * Ci)%C <> C0) by (rewrite D; apply Cmult_neq0; [apply sq2p_neq0|apply cexp_neq0]).
  apply (Cmult_cancel_l (cz 2 + cz 2 * Ci)%C); auto. unfold zG. rewrite ev_mul. replace (ev (-7, -5, 0, 5)%Z) with (- (cz 7 + cz 5 * csq2))%C.
  2:{ transitivity (cz (- (7)) + cz (- (5)) * csq2)%C; [rewrite (cz_opp 7), (cz_opp 5); ring|symmetry; exact (cz_lin (-7) (-5))]. }
  transitivity (- (cz 7 + cz 5 * csq2) * (Cinv (cz 2 + cz 2 * Ci) * (cz 2 + cz 2 * Ci)))%C; [ring|]. rewrite Cinv_l by auto. rewrite D, ev_wpow.
  transitivity (- (cz 7 + cz 5 * csq2) * ((sq2p 3 * sq2p (-3)) * (w8 * cexp (frac (-1) 4))))%C; [|ring].
  rewrite <- sq2p_add. change (3 + -3)%Z with 0%Z. rewrite sq2p_0. unfold w8. rewrite <- cexp_add, frac_add. change (1 + -1)%Z with 0%Z. rewrite frac_0, cexp_0. ring.
Qed.

(** ** The terms one by one *)
Definition term_ok (m : nat) (f : graph -> list nat -> res graph) (t : term) : Prop :=
  forall g vs, good g vs -> length vs = m -> exists h N, f g vs = Ok h /\ match t with (k, p, n, l) => length N = n /\ att g vs h N k p l end.
Lemma q_half : half = frac 2 4. Proof. apply Qc_is_canon. reflexivity. Qed.
Lemma q_3half : frac 3 2 = frac 6 4. Proof. apply Qc_is_canon. reflexivity. Qed.
Lemma q_one : 1%Qc = frac 4 4. Proof. apply Qc_is_canon. reflexivity. Qed.
Lemma q_zero : 0%Qc = frac 0 4. Proof. apply Qc_is_canon. reflexivity. Qed.
Lemma n_float : forall c z p, c = (ev z * sq2p p)%C -> forall s, to_number (s_add_float c s) = (ev z * sq2p p * to_number s)%C.
Proof. intros c z p -> s. apply add_float_number. Qed.
Lemma n_float0 : forall c z, c = ev z -> forall s, to_number (s_add_float c s) = (ev z * sq2p 0 * to_number s)%C.
Proof. intros c z -> s. rewrite add_float_number, sq2p_0. ring. Qed.
Lemma n_power : forall p s, to_number (s_add_power p s) = (ev z1 * sq2p p * to_number s)%C.
Proof. intros. rewrite add_power_number, ev_1. ring. Qed.
Lemma n_phase : forall q z, q = frac z 4 -> forall s, to_number (s_add_phase q s) = (ev (wpow z) * sq2p 0 * to_number s)%C.
Proof. intros q z -> s. rewrite add_phase_number, ev_wpow, sq2p_0. ring. Qed.
Lemma att_conv : forall g vs h N k p l k' p' l', att g vs h N k p l -> k = k' -> p = p' -> l = l' -> att g vs h N k' p' l'.
Proof. intros. subst. auto. Qed.

Ltac qz := first [reflexivity|apply q_half|apply q_3half|apply q_one|apply q_zero].
Ltac sF E := match goal with A : att ?g ?vs ?h ?N ?k ?p ?l |- _ => pose proof (att_scalar _ _ _ _ _ _ _ A _ _ _ (n_float0 _ _ E)); clear A end.
Ltac sW n := match goal with A : att ?g ?vs ?h ?N ?k ?p ?l |- _ => pose proof (att_scalar _ _ _ _ _ _ _ A _ _ _ (n_power n)); clear A end.
Ltac sH q z := match goal with A : att ?g ?vs ?h ?N ?k ?p ?l |- _ => pose proof (att_scalar _ _ _ _ _ _ _ A _ _ _ (n_phase q z ltac:(qz))); clear A end.
Ltac sP v q i z := match goal with G : good ?g ?vs, A : att ?g ?vs ?h ?N ?k ?p ?l |- _ =>
  pose proof (att_phase _ _ G _ _ _ _ _ A v q i z eq_refl ltac:(cbn; lia) ltac:(qz)); clear A end.
Ltac sV z := match goal with G : good ?g ?vs, A : att ?g ?vs ?h ?N ?k ?p ?l |- context [add_vertex ZSP ?q ?r ?pp ?h] =>
  let h' := fresh "h" in let w := fresh "w" in let E := fresh "E" in
  destruct (add_vertex ZSP q r pp h) as [h' w] eqn:E; pose proof (att_vertex _ _ G _ _ _ _ _ A _ _ _ _ _ z E ltac:(qz)); clear A E end.
Ltac sE e s t i j := match goal with G : good ?g ?vs, A : att ?g ?vs ?h ?N ?k ?p ?l |- _ =>
  let h' := fresh "h" in let E1 := fresh "E" in let E2 := fresh "E" in
  destruct (att_edge _ _ G _ _ _ _ _ A s t e i j eq_refl eq_refl ltac:(cbn; lia) ltac:(cbn; lia) ltac:(lia) ltac:(cbn; lia) eq_refl) as [h' [E1 [E2 ?]]];
  first [rewrite E1|rewrite E2]; clear A E1 E2; cbn [bind] end.
Ltac fin_t := match goal with A : att ?g ?vs ?h ?N ?k ?p ?l |- _ => exists h, N; split; [reflexivity|]; split; [reflexivity|]; refine (att_conv _ _ _ _ _ _ _ _ _ _ A _ _ _); vm_compute; reflexivity end.
Ltac six vs := destruct vs as [|v0 [|v1 [|v2 [|v3 [|v4 [|v5 [|]]]]]]]; try discriminate.

Lemma ok_B60 : term_ok 6 replace_B60 t_B60.
Proof.
  intros g vs G L. six vs. pose proof (att_nil _ _ G). unfold replace_B60, shift_all. cbn [fold_left].
  sF v_B60. sW (-6)%Z. sP v0 mquarter 0 (-1)%Z. sP v1 mquarter 1 (-1)%Z. sP v2 mquarter 2 (-1)%Z. sP v3 mquarter 3 (-1)%Z. sP v4 mquarter 4 (-1)%Z. sP v5 mquarter 5 (-1)%Z.
  fin_t.
Qed.
Lemma ok_B66 : term_ok 6 replace_B66 t_B66.
Proof.
  intros g vs G L. six vs. pose proof (att_nil _ _ G). unfold replace_B66. cbn [fold_left].
  sF v_B66. sW (-6)%Z. sH 1%Qc 4%Z. sP v0 mquarter 0 (-1)%Z. sP v0 1%Qc 0 4%Z. sP v1 mquarter 1 (-1)%Z. sP v1 1%Qc 1 4%Z. sP v2 mquarter 2 (-1)%Z. sP v2 1%Qc 2 4%Z.
  sP v3 mquarter 3 (-1)%Z. sP v3 1%Qc 3 4%Z. sP v4 mquarter 4 (-1)%Z. sP v4 1%Qc 4 4%Z. sP v5 mquarter 5 (-1)%Z. sP v5 1%Qc 5 4%Z.
  fin_t.
Qed.
Ltac e6 v0 v1 v2 v3 v4 v5 := sP v0 mquarter 0 (-1)%Z; sP v0 half 0 2%Z; sP v1 mquarter 1 (-1)%Z; sP v1 half 1 2%Z; sP v2 mquarter 2 (-1)%Z; sP v2 half 2 2%Z;
  sP v3 mquarter 3 (-1)%Z; sP v3 half 3 2%Z; sP v4 mquarter 4 (-1)%Z; sP v4 half 4 2%Z; sP v5 mquarter 5 (-1)%Z; sP v5 half 5 2%Z.
Ltac fan e v0 v1 v2 v3 v4 v5 w := sE e v0 w 0 6; sE e v1 w 1 6; sE e v2 w 2 6; sE e v3 w 3 6; sE e v4 w 4 6; sE e v5 w 5 6.
Lemma ok_E6 : term_ok 6 replace_E6 t_E6.
Proof.
  intros g vs G L. six vs. pose proof (att_nil _ _ G). unfold replace_E6, add_edges. cbn [fold_left map foldM].
  sF v_E6. sW 4%Z. sH half 2%Z. e6 v0 v1 v2 v3 v4 v5. sV 4%Z. fan HADAMARD v0 v1 v2 v3 v4 v5 w. fin_t.
Qed.
Lemma ok_O6 : term_ok 6 replace_O6 t_O6.
Proof.
  intros g vs G L. six vs. pose proof (att_nil _ _ G). unfold replace_O6, add_edges. cbn [fold_left map foldM].
  sF v_O6. sW 4%Z. sH half 2%Z. e6 v0 v1 v2 v3 v4 v5. sV 0%Z. fan HADAMARD v0 v1 v2 v3 v4 v5 w. fin_t.
Qed.
Lemma ok_K6 : term_ok 6 replace_K6 t_K6.
Proof.
  intros g vs G L. six vs. pose proof (att_nil _ _ G). unfold replace_K6, add_edges, shift_all. cbn [fold_left map foldM].
  sF v_K6. sW 5%Z. sH (frac 1 4) 1%Z. sP v0 mquarter 0 (-1)%Z. sP v1 mquarter 1 (-1)%Z. sP v2 mquarter 2 (-1)%Z. sP v3 mquarter 3 (-1)%Z. sP v4 mquarter 4 (-1)%Z. sP v5 mquarter 5 (-1)%Z.
  sV 6%Z. fan SIMPLE v0 v1 v2 v3 v4 v5 w. fin_t.
Qed.
Lemma ok_phi1 : term_ok 6 replace_phi1 t_phi1.
Proof.
  intros g vs G L. six vs. pose proof (att_nil _ _ G). unfold replace_phi1, add_edges. cbn [nth_error of_opt bind removelast].
  sF v_PHI. sW 9%Z. sH (frac 3 2) 6%Z. sV 4%Z. sP v5 mquarter 5 (-1)%Z. sE SIMPLE v5 w 5 6.
  unfold phi_leg, add_edges. cbn [foldM app].
  sP v0 mquarter 0 (-1)%Z. sV 0%Z. sE HADAMARD w w0 6 7. sE HADAMARD v0 w0 0 7.
  sP v1 mquarter 1 (-1)%Z. sV 0%Z. sE HADAMARD w w1 6 8. sE HADAMARD v1 w1 1 8.
  sP v2 mquarter 2 (-1)%Z. sV 0%Z. sE HADAMARD w w2 6 9. sE HADAMARD v2 w2 2 9.
  sP v3 mquarter 3 (-1)%Z. sV 0%Z. sE HADAMARD w w3 6 10. sE HADAMARD v3 w3 3 10.
  sP v4 mquarter 4 (-1)%Z. sV 0%Z. sE HADAMARD w w4 6 11. sE HADAMARD v4 w4 4 11.
  cbn [app foldM]. sE HADAMARD w0 w2 7 9. sE HADAMARD w0 w3 7 10. sE HADAMARD w1 w3 8 10. sE HADAMARD w1 w4 8 11. sE HADAMARD w2 w4 9 11.
  fin_t.
Qed.
Lemma ok_phi2 : term_ok 6 replace_phi2 t_phi2.
Proof.
  intros g vs G L. six vs. pose proof (att_nil _ _ G). unfold replace_phi2, replace_phi1, add_edges. cbn [nth_error of_opt bind removelast].
  sF v_PHI. sW 9%Z. sH (frac 3 2) 6%Z. sV 4%Z. sP v2 mquarter 2 (-1)%Z. sE SIMPLE v2 w 2 6.
  unfold phi_leg, add_edges. cbn [foldM app].
  sP v0 mquarter 0 (-1)%Z. sV 0%Z. sE HADAMARD w w0 6 7. sE HADAMARD v0 w0 0 7.
  sP v1 mquarter 1 (-1)%Z. sV 0%Z. sE HADAMARD w w1 6 8. sE HADAMARD v1 w1 1 8.
  sP v3 mquarter 3 (-1)%Z. sV 0%Z. sE HADAMARD w w2 6 9. sE HADAMARD v3 w2 3 9.
  sP v4 mquarter 4 (-1)%Z. sV 0%Z. sE HADAMARD w w3 6 10. sE HADAMARD v4 w3 4 10.
  sP v5 mquarter 5 (-1)%Z. sV 0%Z. sE HADAMARD w w4 6 11. sE HADAMARD v5 w4 5 11.
  cbn [app foldM]. sE HADAMARD w0 w2 7 9. sE HADAMARD w0 w3 7 10. sE HADAMARD w1 w3 8 10. sE HADAMARD w1 w4 8 11. sE HADAMARD w2 w4 9 11.
  fin_t.
Qed.
Lemma ok_2_S : term_ok 2 replace_2_S t_2_S.
Proof.
  intros g vs G L. destruct vs as [|v0 [|v1 [|]]]; try discriminate. pose proof (att_nil _ _ G). unfold replace_2_S, add_edges, shift_all. cbn [nth_error of_opt bind fold_left].
  sV 2%Z. cbn [foldM]. sE SIMPLE v0 w 0 2. sE SIMPLE v1 w 1 2. sP v0 mquarter 0 (-1)%Z. sP v1 mquarter 1 (-1)%Z. fin_t.
Qed.
Lemma ok_2_N : term_ok 2 replace_2_N t_2_N.
Proof.
  intros g vs G L. destruct vs as [|v0 [|v1 [|]]]; try discriminate. pose proof (att_nil _ _ G). unfold replace_2_N, add_edges, shift_all. cbn [nth_error of_opt bind fold_left].
  sH (frac 1 4) 1%Z. sV 4%Z. cbn [foldM]. sE HADAMARD v0 w 0 2. sE HADAMARD v1 w 1 2. sP v0 mquarter 0 (-1)%Z. sP v1 mquarter 1 (-1)%Z. fin_t.
Qed.
Lemma ok_1_0 : term_ok 1 replace_1_0 t_1_0.
Proof.
  intros g vs G L. destruct vs as [|v0 [|]]; try discriminate. pose proof (att_nil _ _ G). unfold replace_1_0, shift_all. cbn [nth_error of_opt bind fold_left].
  sW (-1)%Z. sV 0%Z. sE HADAMARD v0 w 0 1. sP v0 mquarter 0 (-1)%Z. fin_t.
Qed.
Lemma ok_1_1 : term_ok 1 replace_1_1 t_1_1.
Proof.
  intros g vs G L. destruct vs as [|v0 [|]]; try discriminate. pose proof (att_nil _ _ G). unfold replace_1_1, shift_all. cbn [nth_error of_opt bind fold_left].
  sH (frac 1 4) 1%Z. sW (-1)%Z. sV 4%Z. sE HADAMARD v0 w 0 1. sP v0 mquarter 0 (-1)%Z. fin_t.
Qed.
