(** Symbolic arithmetic respects evaluation modulo 2. *)
From Coq Require Import Reals ZArith QArith Qround Qcanon Qreals List Bool Arith Lia Lra Permutation.
From Verif Require Import CNum Base ScalarModel ScalarProofs SymModel.
Import ListNotations.
Open Scope R_scope.

(** ** evaluation (the specification) *)
Definition evt (r : nat -> R) (t : term) : R := fold_right (fun (vc : nat * nat) acc => r (fst vc) ^ snd vc * acc) 1 t.
Definition evc (r : nat -> R) (ct : Qc * term) : R := Q2R (fst ct) * evt r (snd ct).
Definition ev (r : nat -> R) (p : poly) : R := fold_right (fun (ct : Qc * term) acc => evc r ct + acc) 0 p.
(** assignments give Boolean variables Boolean values *)
Definition asg (isb : nat -> bool) (r : nat -> R) : Prop := forall v, isb v = true -> r v = 0 \/ r v = 1.
(** equality of angles, in units of pi *)
Definition cong2 (a b : R) : Prop := exists k : Z, a = b + 2 * IZR k.

Lemma cong2_refl : forall a, cong2 a a.
Proof. intros a. exists 0%Z. lra. Qed.
Lemma cong2_sym : forall a b, cong2 a b -> cong2 b a.
Proof. intros a b [k H]. exists (- k)%Z. rewrite opp_IZR. lra. Qed.
Lemma cong2_trans : forall a b c, cong2 a b -> cong2 b c -> cong2 a c.
Proof. intros a b c [k H] [l K]. exists (k + l)%Z. rewrite plus_IZR. lra. Qed.
Lemma cong2_add : forall a b c d, cong2 a b -> cong2 c d -> cong2 (a + c) (b + d).
Proof. intros a b c d [k H] [l K]. exists (k + l)%Z. rewrite plus_IZR. lra. Qed.
Lemma cong2_opp : forall a b, cong2 a b -> cong2 (- a) (- b).
Proof. intros a b [k H]. exists (- k)%Z. rewrite opp_IZR. lra. Qed.

Lemma qr_add : forall a b : Qc, Q2R (a + b)%Qc = Q2R a + Q2R b.
Proof. intros. rewrite <- Q2R_plus. apply Qeq_eqR. unfold Qcplus. apply Qred_correct. Qed.
Lemma qr_mul : forall a b : Qc, Q2R (a * b)%Qc = Q2R a * Q2R b.
Proof. intros. rewrite <- Q2R_mult. apply Qeq_eqR. unfold Qcmult. apply Qred_correct. Qed.
Lemma qr_opp : forall a : Qc, Q2R (- a)%Qc = - Q2R a.
Proof. intros. rewrite <- Q2R_opp. apply Qeq_eqR. unfold Qcopp. apply Qred_correct. Qed.
Lemma qr_z : forall n, Q2R (Qcz n) = IZR n.
Proof. intros. rewrite (Qeq_eqR (Qcz n) (inject_Z n)); [|apply this_Qcz]. unfold Q2R, inject_Z. simpl. field. Qed.
Lemma qr_0 : Q2R 0%Qc = 0. Proof. unfold Q2R. simpl. lra. Qed.
Lemma qr_1 : Q2R 1%Qc = 1. Proof. unfold Q2R. simpl. lra. Qed.
Lemma qr_mod2 : forall q, exists k, Q2R (qmod2 q) = Q2R q + 2 * IZR k.
Proof. intros q. destruct (qmod2_diff q) as [n H]. exists (- n)%Z. rewrite H at 2. rewrite qr_add, qr_z, mult_IZR, opp_IZR. lra. Qed.
Lemma qr_mod1 : forall q, qmod1 q = 0%Qc -> exists k, Q2R q = IZR k.
Proof.
  intros q H. exists (Qfloor (this q)). rewrite <- qr_z. unfold qmod1 in H. assert (E : q = Qcz (Qfloor q)). { transitivity (q - Qcz (Qfloor q) + Qcz (Qfloor q))%Qc; [ring|]. rewrite H. ring. }
  rewrite E at 1. reflexivity.
Qed.
Lemma qr_pow : forall (x : Qc) n, Q2R (Qcpower x n) = Q2R x ^ n.
Proof. induction n; [apply qr_1|]. change (Qcpower x (S n)) with (x * Qcpower x n)%Qc. rewrite qr_mul, IHn. reflexivity. Qed.

Lemma ev_cons : forall r a p, ev r (a :: p) = evc r a + ev r p.
Proof. reflexivity. Qed.
Lemma ev_app : forall r p q, ev r (p ++ q) = ev r p + ev r q.
Proof. induction p as [|a p IH]; intros q; simpl; [lra|]. rewrite IH. lra. Qed.
Lemma evt_app : forall r s t, evt r (s ++ t) = evt r s * evt r t.
Proof. induction s as [|a s IH]; intros t; simpl; [ring|]. rewrite IH. ring. Qed.
Lemma evt_perm : forall r s t, Permutation s t -> evt r s = evt r t.
Proof. intros r s t P. induction P; simpl; try rewrite IHP; auto; [ring|]. congruence. Qed.

Section Sym.
  Variable isb : nat -> bool.
  Variable r : nat -> R.
  Hypothesis A : asg isb r.

  Lemma pow_bit : forall x n, x = 0 \/ x = 1 -> (1 <= n)%nat -> x ^ n = x.
  Proof. intros x n [-> | ->] H; [apply pow_ne_zero; lia|apply pow1]. Qed.
  Lemma tbool_val : forall t, tbool isb t = true -> evt r t = 0 \/ evt r t = 1.
  Proof.
    induction t as [|[v c] t IH]; intros H; [right; reflexivity|]. cbn [tbool forallb fst] in H. apply andb_prop in H. destruct H as [H1 H2]. simpl.
    assert (B : r v ^ c = 0 \/ r v ^ c = 1). { destruct c; [right; reflexivity|]. rewrite pow_bit by (auto; lia). apply A. exact H1. }
    destruct (IH H2) as [E|E], B as [B|B]; rewrite E, B; [left|left|left|right]; ring.
  Qed.
  Lemma cred_cong : forall t c, cong2 (Q2R (cred isb t c) * evt r t) (Q2R c * evt r t).
  Proof.
    intros t c. unfold cred. destruct (Nat.ltb 0 (length t) && tbool isb t) eqn:E; [|apply cong2_refl]. apply andb_prop in E. destruct E as [_ E].
    destruct (qr_mod2 c) as [k ->]. destruct (tbool_val t E) as [-> | ->]; [exists 0%Z; lra|exists k; lra].
  Qed.
  Lemma vins_perm : forall a l, Permutation (vins isb a l) (a :: l).
  Proof. induction l as [|b l IH]; simpl; [reflexivity|]. destruct (vle isb a b); [reflexivity|]. rewrite IH. apply perm_swap. Qed.
  Lemma vsort_perm : forall t, Permutation (vsort isb t) t.
  Proof. induction t as [|a t IH]; simpl; [reflexivity|]. unfold vsort in *. rewrite vins_perm. constructor. exact IH. Qed.
  Lemma leqb_eq : forall s t, leqb s t = true <-> s = t.
  Proof.
    induction s as [|[a b] s IH]; intros [|[c d] t]; simpl; split; intros H; try congruence; auto.
    - apply andb_prop in H. destruct H as [H H1]. apply andb_prop in H. destruct H as [H2 H3]. apply Nat.eqb_eq in H2, H3. apply IH in H1. congruence.
    - injection H as -> -> ->. rewrite !Nat.eqb_refl. simpl. apply IH. reflexivity.
  Qed.
  Lemma term_eqb_perm : forall s t, term_eqb isb s t = true -> Permutation s t.
  Proof. intros s t H. unfold term_eqb in H. apply leqb_eq in H. rewrite <- (vsort_perm s), H. apply vsort_perm. Qed.
  Lemma term_eqb_val : forall s t, term_eqb isb s t = true -> evt r s = evt r t.
  Proof. intros s t H. apply evt_perm, term_eqb_perm, H. Qed.
  Lemma term_eqb_refl : forall s, term_eqb isb s s = true.
  Proof. intros s. unfold term_eqb. apply leqb_eq. reflexivity. Qed.
  Lemma term_eqb_sym : forall s t, term_eqb isb s t = term_eqb isb t s.
  Proof. intros s t. unfold term_eqb. destruct (leqb (vsort isb s) (vsort isb t)) eqn:E; [apply leqb_eq in E; rewrite E; symmetry; apply leqb_eq; reflexivity|]. destruct (leqb (vsort isb t) (vsort isb s)) eqn:F; [|reflexivity]. apply leqb_eq in F. rewrite F in E. rewrite (proj2 (leqb_eq _ _) eq_refl) in E. discriminate. Qed.
  Lemma term_eqb_trans : forall s t u, term_eqb isb s t = true -> term_eqb isb t u = true -> term_eqb isb s u = true.
  Proof. intros s t u H K. unfold term_eqb in *. apply leqb_eq in H, K. apply leqb_eq. congruence. Qed.

  Definition evk (l : list (term * Qc)) : R := fold_right (fun (tc : term * Qc) acc => Q2R (snd tc) * evt r (fst tc) + acc) 0 l.
  Lemma count_val : forall c t l, cong2 (evk (count isb c t l)) (evk l + Q2R c * evt r t).
  Proof.
    induction l as [|[t' c'] l IH]; cbn [count evk fold_right fst snd].
    - apply cong2_trans with (Q2R c * evt r t + 0); [apply cong2_add; [apply cred_cong|apply cong2_refl]|]. exists 0%Z. lra.
    - fold (evk l). destruct (term_eqb isb t t') eqn:E; cbn [evk fold_right fst snd].
      + fold (evk l). rewrite <- (term_eqb_val _ _ E). apply cong2_trans with (Q2R (c' + c)%Qc * evt r t + evk l); [apply cong2_add; [apply cred_cong|apply cong2_refl]|]. rewrite qr_add. exists 0%Z. lra.
      + fold (evk (count isb c t l)). destruct IH as [k ->]. exists k. lra.
  Qed.
  Lemma counts_val : forall p l, cong2 (evk (fold_left (fun l (ct : Qc * term) => count isb (fst ct) (snd ct) l) p l)) (evk l + ev r p).
  Proof.
    induction p as [|[c t] p IH]; intros l; cbn [fold_left ev fold_right fst snd]; [exists 0%Z; lra|]. eapply cong2_trans; [apply IH|]. fold (ev r p).
    unfold evc. cbn [fst snd]. apply cong2_trans with (evk l + Q2R c * evt r t + ev r p); [apply cong2_add; [apply count_val|apply cong2_refl]|]. exists 0%Z. lra.
  Qed.
  Lemma finish_val : forall l, ev r (map (fun tc : term * Qc => (snd tc, fst tc)) (filter (fun tc : term * Qc => negb (qeqb (snd tc) 0%Qc)) l)) = evk l.
  Proof.
    induction l as [|[t c] l IH]; [reflexivity|]. cbn [filter snd evk fold_right fst]. fold (evk l). destruct (qeqb_spec c 0%Qc) as [->|D]; cbn [negb].
    - rewrite IH, qr_0. lra.
    - rewrite map_cons. cbn [fst snd]. rewrite ev_cons, IH. reflexivity.
  Qed.
  Lemma padd_val : forall p q, cong2 (ev r (padd isb p q)) (ev r p + ev r q).
  Proof. intros p q. unfold padd. cbv zeta. rewrite finish_val, <- ev_app. eapply cong2_trans; [apply counts_val|]. exists 0%Z. simpl. lra. Qed.
  Lemma pneg_val : forall p, ev r (pneg p) = - ev r p.
  Proof. induction p as [|[c t] p IH]; [simpl; lra|]. change (pneg ((c, t) :: p)) with (((- c)%Qc, t) :: pneg p). rewrite !ev_cons, IH. unfold evc. cbn [fst snd]. rewrite qr_opp. lra. Qed.
  Lemma psub_val : forall p q, cong2 (ev r (psub isb p q)) (ev r p - ev r q).
  Proof. intros p q. unfold psub. eapply cong2_trans; [apply padd_val|]. rewrite pneg_val. apply cong2_refl. Qed.

  (** products of monomials *)
  Definition evd (d : dict nat) : R := evt r d.
  Lemma evt_dset_new : forall v c d, dget v d = None -> evt r (dset v c d) = evt r d * r v ^ c.
  Proof.
    induction d as [|[k x] d IH]; simpl; intros H; [ring|]. destruct (Nat.eqb_spec v k); [discriminate|]. simpl. rewrite IH by exact H. ring.
  Qed.
  Lemma evt_dset_old : forall v c c' d, dget v d = Some c' -> exists m, evt r d = r v ^ c' * m /\ evt r (dset v c d) = r v ^ c * m.
  Proof.
    induction d as [|[k x] d IH]; simpl; intros H; [discriminate|]. destruct (Nat.eqb_spec v k) as [->|D].
    - injection H as ->. exists (evt r d). simpl. auto.
    - destruct (IH H) as [m [E1 E2]]. exists (r k ^ x * m). simpl. rewrite E1, E2. split; ring.
  Qed.
  Lemma tmul_step_val : forall d vc, evt r (tmul_step isb d vc) = evt r d * r (fst vc) ^ snd vc.
  Proof.
    intros d [v c]. cbn [tmul_step fst snd]. set (d1 := match dget v d with None => dset v c d | Some c' => dset v (c' + c)%nat d end).
    assert (V1 : evt r d1 = evt r d * r v ^ c). { subst d1. destruct (dget v d) as [c'|] eqn:E; [|apply evt_dset_new; exact E]. destruct (evt_dset_old v (c' + c)%nat c' d E) as [m [-> ->]]. rewrite pow_add. ring. }
    destruct (isb v && Nat.ltb 1 c) eqn:B; [|exact V1]. apply andb_prop in B. destruct B as [B L]. apply Nat.ltb_lt in L.
    assert (G : exists k, dget v d1 = Some k /\ (1 <= k)%nat). { subst d1. destruct (dget v d) as [c'|]; rewrite dget_dset_eq; eexists; split; try reflexivity; lia. }
    destruct G as [k [G K]]. destruct (evt_dset_old v 1 k d1 G) as [m [E1 ->]]. rewrite <- V1, E1. rewrite (pow_bit (r v) 1), (pow_bit (r v) k) by (auto; apply A; exact B). reflexivity.
  Qed.
  Lemma tmul_val : forall s t, evt r (tmul isb s t) = evt r s * evt r t.
  Proof.
    intros s t. unfold tmul. rewrite <- evt_app. assert (G : forall l d, evt r (fold_left (tmul_step isb) l d) = evt r d * evt r l).
    { induction l as [|a l IH]; intros d; simpl; [ring|]. rewrite IH, tmul_step_val. ring. }
    rewrite G. simpl. ring.
  Qed.
  Lemma pmul_val : forall p q, cong2 (ev r (pmul isb p q)) (ev r p * ev r q).
  Proof.
    intros p q. unfold pmul.
    assert (G1 : forall ct1 q acc, cong2 (ev r (fold_left (fun acc (ct2 : Qc * term) => padd isb acc [((fst ct1 * fst ct2)%Qc, tmul isb (snd ct1) (snd ct2))]) q acc)) (ev r acc + evc r ct1 * ev r q)).
    { intros [c1 t1]. induction q0 as [|[c2 t2] q0 IH]; intros acc; cbn [fold_left]; [exists 0%Z; change (ev r []) with 0; lra|]. rewrite ev_cons. eapply cong2_trans; [apply IH|]. cbn [fst snd].
      apply cong2_trans with (ev r acc + ev r [((c1 * c2)%Qc, tmul isb t1 t2)] + evc r (c1, t1) * ev r q0); [apply cong2_add; [apply padd_val|apply cong2_refl]|].
      exists 0%Z. rewrite ev_cons. change (ev r []) with 0. unfold evc. cbn [fst snd]. rewrite qr_mul, tmul_val. ring. }
    assert (G : forall p acc, cong2 (ev r (fold_left (fun acc (ct1 : Qc * term) => fold_left (fun acc (ct2 : Qc * term) => padd isb acc [((fst ct1 * fst ct2)%Qc, tmul isb (snd ct1) (snd ct2))]) q acc) p acc)) (ev r acc + ev r p * ev r q)).
    { induction p0 as [|ct p0 IH]; intros acc; cbn [fold_left]; [exists 0%Z; change (ev r []) with 0; lra|]. rewrite ev_cons. eapply cong2_trans; [apply IH|].
      apply cong2_trans with (ev r acc + evc r ct * ev r q + ev r p0 * ev r q); [apply cong2_add; [apply G1|apply cong2_refl]|]. exists 0%Z. lra. }
    eapply cong2_trans; [apply G|]. exists 0%Z. change (ev r []) with 0. lra.
  Qed.

  (** substitution *)
  Definition over (s : dict Qc) (v : nat) : R := match dget v s with Some x => Q2R x | None => r v end.
  Lemma tsubst_val : forall s t, Q2R (fst (tsubst s t)) * evt r (snd (tsubst s t)) = evt (over s) t.
  Proof.
    intros s t. unfold tsubst. assert (G : forall t acc, Q2R (fst (fold_left (tsubst_step s) t acc)) * evt r (snd (fold_left (tsubst_step s) t acc)) = Q2R (fst acc) * evt r (snd acc) * evt (over s) t).
    { induction t0 as [|[v c] t0 IH]; intros acc; cbn [fold_left evt fold_right fst snd]; [ring|]. fold (evt (over s) t0). rewrite IH. unfold tsubst_step, over. cbn [fst snd]. destruct (dget v s) as [x|]; cbn [fst snd].
      - rewrite qr_mul, qr_pow. ring.
      - rewrite evt_app. simpl. ring. }
    rewrite G. cbn [fst snd evt fold_right]. rewrite qr_1. ring.
  Qed.
  Lemma psubst_val : forall s p, cong2 (ev r (psubst isb s p)) (ev (over s) p).
  Proof.
    intros s p. unfold psubst.
    assert (G : forall p acc, cong2 (ev r (fold_left (fun acc (ct : Qc * term) => let (k, t) := tsubst s (snd ct) in padd isb acc [((fst ct * k)%Qc, t)]) p acc)) (ev r acc + ev (over s) p)).
    { induction p0 as [|[c t] p0 IH]; intros acc; cbn [fold_left]; [exists 0%Z; change (ev (over s) []) with 0; lra|]. rewrite ev_cons. eapply cong2_trans; [apply IH|]. cbn [fst snd].
      pose proof (tsubst_val s t) as T. destruct (tsubst s t) as [k t']. cbn [fst snd] in T.
      apply cong2_trans with (ev r acc + ev r [((c * k)%Qc, t')] + ev (over s) p0); [apply cong2_add; [apply padd_val|apply cong2_refl]|].
      exists 0%Z. rewrite ev_cons. change (ev r []) with 0. unfold evc. cbn [fst snd]. rewrite qr_mul, <- T. ring. }
    eapply cong2_trans; [apply G|]. exists 0%Z. change (ev r []) with 0. lra.
  Qed.

  (** reducing all coefficients modulo 2 *)
  Definition mod_safe (p : poly) : Prop := forall c t, In (c, t) p -> tbool isb t = true \/ in02 c.
  Lemma pmod2_val : forall p, mod_safe p -> cong2 (ev r (pmod2 p)) (ev r p).
  Proof.
    induction p as [|[c t] p IH]; intros H; [apply cong2_refl|]. cbn [pmod2 map ev fold_right]. apply cong2_add; [|apply IH; intros c' t' I; apply (H c' t'); right; exact I].
    unfold evc. cbn [fst snd]. destruct (H c t (or_introl eq_refl)) as [B|[B1 B2]]; [|rewrite qmod2_id by assumption; apply cong2_refl].
    destruct (qr_mod2 c) as [k ->]. destruct (tbool_val t B) as [-> | ->]; [exists 0%Z; lra|exists k; lra].
  Qed.

  (** Pauli and Clifford polynomials *)
  Lemma pauli_val : forall p, p_is_pauli isb p = true -> exists n, ev r p = IZR n.
  Proof.
    induction p as [|[c t] p IH]; intros H; [exists 0%Z; reflexivity|]. cbn [p_is_pauli forallb fst snd] in H. apply andb_prop in H. destruct H as [H1 H2]. apply andb_prop in H1. destruct H1 as [H1 H3]. apply qeqb_eq in H3.
    destruct (IH H2) as [n E]. destruct (qr_mod1 c H3) as [k K]. cbn [ev fold_right]. fold (ev r p). rewrite E. unfold evc. cbn [fst snd]. rewrite K. destruct (tbool_val t H1) as [-> | ->]; [exists n; ring|exists (k + n)%Z; rewrite plus_IZR; ring].
  Qed.
  Lemma clifford_val : forall p, p_is_clifford isb p = true -> exists n, 2 * ev r p = IZR n.
  Proof.
    induction p as [|[c t] p IH]; intros H; [exists 0%Z; cbn [ev fold_right]; lra|]. cbn [p_is_clifford forallb fst snd] in H. apply andb_prop in H. destruct H as [H1 H2]. apply andb_prop in H1. destruct H1 as [H1 H3].
    destruct (IH H2) as [n E]. cbn [ev fold_right]. fold (ev r p). unfold evc. cbn [fst snd]. destruct t as [|a t].
    - apply qeqb_eq in H3. destruct (qr_mod1 _ H3) as [k K]. rewrite qr_mul, qr_z in K. exists (k + n)%Z. rewrite plus_IZR. simpl. lra.
    - apply qeqb_eq in H3. destruct (qr_mod1 c H3) as [k K]. rewrite K. destruct (tbool_val _ H1) as [-> | ->]; [exists n; lra|exists (2 * k + n)%Z; rewrite plus_IZR, mult_IZR; lra].
  Qed.
  Lemma ppow_pauli : forall p n, p_is_pauli isb p = true -> cong2 (ev r (ppow isb p n)) (ev r p ^ n).
  Proof.
    intros p n H. destruct (pauli_val p H) as [z Z]. induction n as [|n IH]; [exists 0%Z; cbn [ppow new_const ev fold_right]; unfold evc; cbn [fst snd evt fold_right]; rewrite qr_1; simpl; lra|].
    cbn [ppow]. destruct n; [exists 0%Z; simpl; ring|]. eapply cong2_trans; [apply pmul_val|]. destruct IH as [k ->]. rewrite Z. exists (z * k)%Z. rewrite mult_IZR. simpl. ring.
  Qed.
  Lemma ppow_two : forall p n, (n <= 2)%nat -> cong2 (ev r (ppow isb p n)) (ev r p ^ n).
  Proof.
    intros p n H. destruct n as [|[|[|n]]]; [| | |lia].
    - exists 0%Z; cbn [ppow new_const ev fold_right]; unfold evc; cbn [fst snd evt fold_right]; rewrite qr_1; simpl; lra.
    - exists 0%Z; simpl; ring.
    - cbn [ppow]. eapply cong2_trans; [apply pmul_val|]. exists 0%Z. simpl. ring.
  Qed.

  (** equality *)
  Definition ndt (p : poly) : Prop := ForallOrdPairs (fun a b : Qc * term => term_eqb isb (snd a) (snd b) = false) p.
  Lemma count_keys : forall c t l a, In a (count isb c t l) -> (exists c', In (fst a, c') l) \/ a = (t, cred isb t c).
  Proof.
    induction l as [|[t' c'] l IH]; intros a H; cbn [count] in H; [destruct H as [<-|[]]; auto|]. destruct (term_eqb isb t t') eqn:E.
    - destruct H as [<-|H]; [left; exists c'; simpl; auto|]. left. destruct a as [x y]. exists y. right. exact H.
    - destruct H as [<-|H]; [left; exists c'; simpl; auto|]. destruct (IH a H) as [[x X]|X]; [left; exists x; right; exact X|auto].
  Qed.
  Definition ndk (l : list (term * Qc)) : Prop := ForallOrdPairs (fun a b : term * Qc => term_eqb isb (fst a) (fst b) = false) l.
  Lemma count_nd : forall c t l, ndk l -> ndk (count isb c t l).
  Proof.
    induction l as [|[t' c'] l IH]; intros H; cbn [count]; [constructor; [constructor|constructor]|]. inversion H as [|? ? F N]; subst. destruct (term_eqb isb t t') eqn:E; [constructor; [exact F|exact N]|].
    constructor; [|apply IH; exact N]. rewrite Forall_forall in *. intros a Ha. destruct (count_keys _ _ _ _ Ha) as [[x X]|X]; [exact (F _ X)|]. subst a. cbn [fst]. rewrite term_eqb_sym. exact E.
  Qed.
  Lemma ndk_filter : forall f l, ndk l -> ndk (filter f l).
  Proof. induction 1 as [|a l F N IH]; simpl; [constructor|]. destruct (f a); [|exact IH]. constructor; [|exact IH]. rewrite Forall_forall in *. intros x Hx. apply filter_In in Hx. apply F, Hx. Qed.
  Lemma ndk_map : forall l, ndk l -> ndt (map (fun tc : term * Qc => (snd tc, fst tc)) l).
  Proof. induction 1 as [|a l F N IH]; simpl; constructor; [|exact IH]. rewrite Forall_forall in *. intros x Hx. apply in_map_iff in Hx. destruct Hx as [y [<- Hy]]. cbn [snd]. apply F. exact Hy. Qed.
  Lemma padd_nd : forall p q, ndt (padd isb p q).
  Proof.
    intros p q. unfold padd. cbv zeta. apply ndk_map, ndk_filter. generalize (p ++ q). intros l. assert (G : forall l a, ndk a -> ndk (fold_left (fun l (ct : Qc * term) => count isb (fst ct) (snd ct) l) l a)).
    { induction l0 as [|x l0 IH]; intros a Ha; [exact Ha|]. cbn [fold_left]. apply IH, count_nd, Ha. }
    apply G. constructor.
  Qed.
  Lemma ndt_map : forall (f : Qc -> Qc) p, ndt p -> ndt (map (fun ct : Qc * term => (f (fst ct), snd ct)) p).
  Proof. induction 1 as [|a l F N IH]; simpl; constructor; [|exact IH]. rewrite Forall_forall in *. intros x Hx. apply in_map_iff in Hx. destruct Hx as [y [<- Hy]]. cbn [snd]. apply F. exact Hy. Qed.
  Lemma citem_val : forall a b, citem_eqb isb a b = true -> evc r a = evc r b.
  Proof. intros a b H. unfold citem_eqb in H. apply andb_prop in H. destruct H as [H1 H2]. apply qeqb_eq in H1. unfold evc. rewrite H1, (term_eqb_val _ _ H2). reflexivity. Qed.
  Lemma citem_sym : forall a b, citem_eqb isb a b = citem_eqb isb b a.
  Proof. intros [a s] [b t]. unfold citem_eqb. cbn [fst snd]. rewrite term_eqb_sym. f_equal. destruct (qeqb_spec a b), (qeqb_spec b a); congruence. Qed.
  Lemma citem_trans : forall a b c, citem_eqb isb a b = true -> citem_eqb isb b c = true -> citem_eqb isb a c = true.
  Proof. intros a b c H K. unfold citem_eqb in *. apply andb_prop in H, K. destruct H as [H1 H2], K as [K1 K2]. apply qeqb_eq in H1, K1. rewrite H1, K1, qeqb_refl. simpl. eapply term_eqb_trans; eauto. Qed.
  Lemma ndt_perm : forall p q, Permutation p q -> ndt p -> ndt q.
  Proof.
    intros p q P. induction P as [|a l l' P IH|a b l|l l' l'' P1 IH1 P2 IH2]; intros H; auto.
    - inversion H as [|? ? F N]; subst. constructor; [|apply IH; exact N]. rewrite Forall_forall in *. intros x Hx. apply F. eapply Permutation_in; [symmetry; exact P|exact Hx].
    - inversion H as [|? ? F N]; subst. inversion N as [|? ? F' N']; subst. constructor; [constructor; [rewrite term_eqb_sym; inversion F; assumption|exact F']|]. constructor; [inversion F; assumption|exact N'].
  Qed.
  Lemma ev_perm : forall p q, Permutation p q -> ev r p = ev r q.
  Proof. intros p q P. induction P; simpl; try rewrite IHP; auto; [ring|]. congruence. Qed.
  Lemma peqb_val : forall p q, ndt p -> ndt q -> peqb isb p q = true -> ev r p = ev r q.
  Proof.
    induction p as [|a p IH]; intros q Np Nq H; unfold peqb in H; apply andb_prop in H; destruct H as [H1 H2].
    - destruct q as [|b q]; [reflexivity|]. cbn [forallb existsb andb] in H2. discriminate.
    - cbn [forallb] in H1. apply andb_prop in H1. destruct H1 as [H1 H3]. apply existsb_exists in H1. destruct H1 as [b [Hb E]].
      apply in_split in Hb. destruct Hb as [q1 [q2 ->]]. assert (P : Permutation (q1 ++ b :: q2) (b :: q1 ++ q2)) by (symmetry; apply Permutation_middle).
      rewrite (ev_perm _ _ P). apply (ndt_perm _ _ P) in Nq. inversion Nq as [|? ? Fq Nq']; subst. inversion Np as [|? ? Fp Np']; subst. cbn [ev fold_right]. rewrite (citem_val _ _ E). f_equal. apply (IH (q1 ++ q2) Np' Nq').
      rewrite Forall_forall in Fp, Fq. rewrite forallb_forall in H2, H3. unfold peqb. apply andb_true_intro. split; apply forallb_forall; intros x Hx.
      + specialize (H3 x Hx). apply existsb_exists in H3. destruct H3 as [y [Hy Y]]. apply existsb_exists. exists y. split; [|exact Y]. apply (Permutation_in _ P) in Hy. destruct Hy as [<-|Hy]; [|exact Hy]. exfalso.
        specialize (Fp x Hx). assert (X : citem_eqb isb a x = true) by (eapply citem_trans; [exact E|rewrite citem_sym; exact Y]). unfold citem_eqb in X. apply andb_prop in X. destruct X as [_ X]. congruence.
      + specialize (H2 x (Permutation_in _ (Permutation_sym P) (or_intror Hx))). apply existsb_exists in H2. destruct H2 as [y [[<-|Hy] Y]]; [|apply existsb_exists; eauto]. exfalso.
        specialize (Fq x Hx). assert (X : citem_eqb isb b x = true) by (eapply citem_trans; [rewrite citem_sym; exact E|rewrite citem_sym; exact Y]). unfold citem_eqb in X. apply andb_prop in X. destruct X as [_ X]. congruence.
  Qed.

  (** stored phases *)
  Definition sev (a : sphase) : R := match a with Num q => Q2R q | Sym p => ev r p end.
  Definition smod_safe (a : sphase) : Prop := match a with Num _ => True | Sym p => mod_safe p end.
  Lemma const_val : forall q, ev r (new_const q) = Q2R q.
  Proof. intros q. unfold new_const. cbn [ev fold_right]. unfold evc. cbn [fst snd evt fold_right]. lra. Qed.
  Lemma sadd_val : forall a b, cong2 (sev (sadd isb a b)) (sev a + sev b).
  Proof.
    intros [p|p] [q|q]; cbn [sadd sev].
    - rewrite qr_add. apply cong2_refl.
    - eapply cong2_trans; [apply padd_val|]. rewrite const_val. exists 0%Z. lra.
    - eapply cong2_trans; [apply padd_val|]. rewrite const_val. apply cong2_refl.
    - apply padd_val.
  Qed.
  Lemma smod2_val : forall a, smod_safe a -> cong2 (sev (smod2 a)) (sev a).
  Proof. intros [q|p] H; cbn [smod2 sev]; [|apply pmod2_val; exact H]. destruct (qr_mod2 q) as [k ->]. exists k. reflexivity. Qed.
End Sym.
