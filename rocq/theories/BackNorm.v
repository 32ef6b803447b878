(** Every circuit keeps the norm of a state; the round trip from circuits to diagrams and back. *)
From Coq Require Import Reals ZArith QArith Qcanon List Bool Arith Lia Permutation Sorted FunctionalExtensionality.
From Verif Require Import CNum Base ScalarModel ScalarProofs GraphModel GraphSem SumLemmas GraphProofs GrowProofs GraphOps RulesModel RuleLemmas InvProofs BfixProofs TotalProofs
  GateModel CircSpec GateProofs GateDecomp GateAdj GateMask AmpProofs CircGraphModel CircGraphFacts GraphAlgProofs SuppProofs TensorModel TensorPos GflowModel GflowProofs VerifyProofs ExtractFacts BackModel CircGraphProofs CircTensor BackSem BackProofs BackRound GraphModel.
Import ListNotations.
Open Scope C_scope.

Definition zero_as : assignment := fun _ => false.
(** the squared norm of a state of n qubits *)
Definition nrm (n : nat) (s : state) : C := sumv (seq 0 n) (fun x => s x * Cconj (s x)) zero_as.
Lemma one_sum : forall n q z, (q < n)%nat -> exists L, ~ In q L /\ forall F, sumv (seq 0 n) F z = sumv L (fun y => F (upd y q false) + F (upd y q true)) z.
Proof.
  intros n q z Hq. destruct (seq_pick n q Hq) as (L & P & N & _). exists L. split; auto. intros F.
  rewrite (sumv_perm _ _ P) by apply seq_NoDup. cbn [sumv]. apply sumv_swap_gen; auto.
Qed.
Lemma two_sum : forall n c t z, (c < n)%nat -> (t < n)%nat -> c <> t -> exists L, forall F, sumv (seq 0 n) F z =
  sumv L (fun y => F (upd (upd y c false) t false) + F (upd (upd y c false) t true) + (F (upd (upd y c true) t false) + F (upd (upd y c true) t true))) z.
Proof.
  intros n c t z Hc Ht D. destruct (seq_pick n c Hc) as (L & P & N & _).
  assert (It : In t L). { assert (X : In t (c :: L)) by (eapply Permutation_in; [exact P|apply in_seq; lia]). destruct X; auto. congruence. }
  destruct (in_split t L It) as (L1 & L2 & ->). exists (L1 ++ L2). intros F.
  assert (Q : Permutation (seq 0 n) (c :: t :: L1 ++ L2)) by (eapply perm_trans; [exact P|]; constructor; symmetry; apply Permutation_middle).
  assert (ND : NoDup (c :: t :: L1 ++ L2)) by (eapply Permutation_NoDup; [exact Q|apply seq_NoDup]). apply NoDup_cons_iff in ND. destruct ND as [N1 ND]. apply NoDup_cons_iff in ND. destruct ND as [N2 ND].
  rewrite (sumv_perm _ _ Q) by apply seq_NoDup. cbn [sumv]. rewrite !(sumv_swap_gen t) by auto. rewrite (sumv_swap_gen c) by (intros X; apply N1; right; auto). reflexivity.
Qed.
Lemma nrm_op1 : forall (m : mat2) n q s, (q < n)%nat ->
  (forall a b, (m false false * a + m false true * b) * Cconj (m false false * a + m false true * b) + (m true false * a + m true true * b) * Cconj (m true false * a + m true true * b) = a * Cconj a + b * Cconj b) ->
  nrm n (op1 m q s) = nrm n s.
Proof.
  intros m n q s Hq U. unfold nrm. destruct (one_sum n q zero_as Hq) as (L & _ & E). rewrite !E. apply sumv_ext. intros y. unfold op1. rewrite !upd_same, !upd_shadow. apply U.
Qed.
Lemma conj_mul_swap : forall a b, (a * b) * Cconj (a * b) = (a * Cconj a) * (b * Cconj b).
Proof. intros. rewrite Cconj_mult. ring. Qed.
Lemma nrm_P : forall p n q s, (q < n)%nat -> nrm n (op1 (mP p) q s) = nrm n s.
Proof.
  intros. apply nrm_op1; auto. intros a b. unfold mP, mk2. cbn [Bool.eqb].
  transitivity (a * Cconj a + (cexp p * b) * Cconj (cexp p * b)); [replace (C1 * a + C0 * b) with a by ring; replace (C0 * a + cexp p * b) with (cexp p * b) by ring; reflexivity|]. rewrite conj_mul_swap, (unit_cexp p). ring.
Qed.
Lemma nrm_H : forall n q s, (q < n)%nat -> nrm n (op1 mH q s) = nrm n s.
Proof.
  intros. apply nrm_op1; auto. intros a b. unfold mH, mk2. cbn [Bool.eqb].
  assert (CS : Cconj (/ sq2) = / sq2) by (rewrite <- sq2p_m1; apply Cconj_sq2p). assert (S2 : / sq2 * / sq2 = / (C1 + C1)) by (rewrite <- sq2_sq; field; apply sq2_neq0).
  rewrite !Cconj_plus, !Cconj_mult, Cconj_opp, CS.
  transitivity ((/ sq2 * / sq2) * ((C1 + C1) * (a * Cconj a + b * Cconj b))); [ring|]. rewrite S2. field. apply two_neq0.
Qed.
Lemma nrm_X : forall p n q s, (q < n)%nat -> nrm n (op1 (mXP p) q s) = nrm n s.
Proof. intros. rewrite <- nodeop_X. unfold nodeop. cbn [hif xorb isH]. rewrite nrm_H, nrm_P, nrm_H; auto. Qed.
Lemma nrm_mod : forall n s s', (forall x, s x * Cconj (s x) = s' x * Cconj (s' x)) -> nrm n s = nrm n s'.
Proof. intros. apply sumv_ext. auto. Qed.
Lemma nrm_cnot : forall n c t s, (c < n)%nat -> (t < n)%nat -> c <> t -> nrm n (gden (GCNOT c t) s) = nrm n s.
Proof.
  intros n c t s Hc Ht D. unfold nrm. destruct (two_sum n c t zero_as Hc Ht D) as (L & E). rewrite !E. apply sumv_ext. intros y. cbn [gden].
  rewrite !upd_same, !upd_shadow, !(upd_other _ t _ c), !upd_same by auto. cbn [xorb]. ring.
Qed.
Lemma nrm_fsim : forall n c t p s, (c < n)%nat -> (t < n)%nat -> c <> t -> nrm n (gden (GFSim c t (frac 1 2) p) s) = nrm n s.
Proof.
  intros n c t p s Hc Ht D. unfold nrm. destruct (two_sum n c t zero_as Hc Ht D) as (L & E). rewrite !E. apply sumv_ext. intros y. rewrite !fsim_val.
  assert (SW : forall a b, swapq (upd (upd y c a) t b) c t = upd (upd y c b) t a).
  { intros a b. unfold swapq. apply functional_extensionality. intros v. unfold upd. rewrite !Nat.eqb_refl, (proj2 (Nat.eqb_neq c t)) by auto. destruct (Nat.eqb v t), (Nat.eqb v c); auto. }
  rewrite !SW. rewrite !upd_same, !(upd_other _ t _ c), !upd_same by auto. cbn [Bool.eqb].
  rewrite !conj_mul_swap. rewrite (unit_cexp (- p)). assert (I1 : - Ci * Cconj (- Ci) = C1) by (unfold Ci, Cconj, Copp, Cmult, C1, RtoC; cbn; f_equal; ring). rewrite !I1, Cconj_1. ring.
Qed.
Lemma gate_norm : forall n k s, basic k -> gate_in n k -> nrm n (gden k s) = nrm n s.
Proof.
  intros n k s B [[ND [_ TH]] Q]. destruct k; try destruct B; cbn [gate_qubits] in *.
  - cbn [gden]. apply nrm_P. apply Q; simpl; auto.
  - cbn [gden]. apply nrm_X. apply Q; simpl; auto.
  - cbn [gden]. apply nrm_H. apply Q; simpl; auto.
  - apply nrm_cnot; [apply Q; simpl; auto|apply Q; simpl; auto|]. intros ->. apply NoDup_cons_iff in ND. apply (proj1 ND). simpl; auto.
  - apply nrm_mod. intros x. cbn [gden]. rewrite conj_mul_swap, Cconj_sgn, sgn_sq. ring.
  - subst. apply nrm_fsim; [apply Q; simpl; auto|apply Q; simpl; auto|]. intros ->. apply NoDup_cons_iff in ND. apply (proj1 ND). simpl; auto.
Qed.
Lemma gates_norm : forall n l s, (forall k, In k l -> basic k /\ gate_in n k) -> nrm n (cden l s) = nrm n s.
Proof.
  induction l as [|k l IH]; intros s H; auto. rewrite cden_cons, IH by (intros; apply H; right; auto). destruct (H k (or_introl eq_refl)). apply gate_norm; auto.
Qed.
Lemma nrm_scal : forall n z s, nrm n (fun x => z * s x) = z * Cconj z * nrm n s.
Proof. intros. unfold nrm. rewrite <- sumv_scal. apply sumv_ext. intros x. apply conj_mul_swap. Qed.
(** every circuit keeps the norm *)
Theorem circuit_norm : forall c s, circ_ok c -> nrm (cqubits c) (cden (cgates c) s) = nrm (cqubits c) s.
Proof.
  intros c s H. destruct (c_basic_ok c H) as (c' & z & _ & N & B & U & D). rewrite <- (gates_norm (cqubits c) (cgates c') s).
  - rewrite (nrm_mod _ (cden (cgates c') s) (fun x => z * cden (cgates c) s x)) by (intros x; rewrite D; auto). rewrite nrm_scal, U. ring.
  - intros k Hk. rewrite <- N. apply B; auto.
Qed.
Lemma nrm_basis : forall n i, nrm n (basis n i) = C1.
Proof.
  intros n i. unfold nrm. transitivity (sumv (seq 0 n) (fun x => C1 * cprod (fun q => dlt (x q) (i q)) (seq 0 n)) zero_as).
  - apply sumv_ext. intros x. unfold basis. generalize (seq 0 n). intros L. rewrite Cmult_1_l. induction L as [|a L IH]; cbn [cprod]; [rewrite Cconj_1; ring|].
    rewrite conj_mul_swap, IH. f_equal. rewrite Cconj_dlt. destruct (i a), (x a); unfold dlt; cbn [Bool.eqb]; ring.
  - rewrite (sumv_point (seq 0 n) (fun _ => C1)) by apply seq_NoDup. auto.
Qed.
(** circuits whose maps are proportional agree up to a phase *)
Theorem proportional_unit : forall c d z z', cqubits d = cqubits c -> circ_ok c -> circ_ok d -> unitc z' ->
  (forall i x, z * cden (cgates c) (basis (cqubits c) i) x = z' * cden (cgates d) (basis (cqubits c) i) x) -> unitc z.
Proof.
  intros c d z z' Q Hc Hd U E. set (b := basis (cqubits c) zero_as).
  assert (X : nrm (cqubits c) (fun x => z * cden (cgates c) b x) = nrm (cqubits c) (fun x => z' * cden (cgates d) b x)) by (apply nrm_mod; intros x; unfold b; rewrite E; auto).
  rewrite !nrm_scal, U in X. rewrite circuit_norm in X by auto. rewrite <- Q in X. rewrite circuit_norm in X by auto. unfold b in X. rewrite Q, nrm_basis in X.
  unfold unitc. rewrite <- (Cmult_1_r (z * Cconj z)), X. ring.
Qed.
Definition not_fsim (k : gate) : Prop := match k with GFSim _ _ _ _ => False | _ => True end.
Lemma basic_five : forall k l, not_fsim k -> to_basic_gates k = Ok l -> forall h, In h l -> basic5 h.
Proof.
  assert (CC : forall ts h, In h (cnot_chain ts) -> basic5 h).
  { induction ts as [|a ts IH]; intros h H; [destruct H|]. destruct ts as [|b ts]; [destruct H|]. destruct H as [<-|H]; [exact I|]. apply IH; auto. }
  assert (PB : forall p ts l, parity_basic p ts = Ok l -> forall h, In h l -> basic5 h).
  { intros p [|t ts] l E h H; [discriminate|]. unfold parity_basic in E. assert (X : l = cnot_chain (t :: ts) ++ [ZPhase (last (t :: ts) t) p] ++ rev (cnot_chain (t :: ts))) by congruence. rewrite X, !in_app_iff in H. destruct H as [H|[[<-|[]]|H]]; [apply (CC _ _ H)|exact I|]. apply in_rev in H. apply (CC _ _ H). }
  intros k l N E h H. destruct k; try destruct N; try (eapply PB; eauto; fail); cbn in E; injection E as <-; revert H; apply Forall_forall; repeat constructor.
Qed.
Lemma c_basic_five : forall c c', (forall k, In k (cgates c) -> not_fsim k) -> c_basic c = Ok c' -> forall h, In h (cgates c') -> basic5 h.
Proof.
  intros [n gs] c' N E h H. unfold c_basic in E. cbn [cgates cqubits] in *. inv_bind E. injection E as <-. cbn [cgates] in H.
  revert a E0 H N. induction gs as [|k gs IH]; intros a E H N; cbn [mapM] in E; [injection E as <-; destruct H|]. inv_bind E. inv_bind E. injection E as <-. cbn [concat] in H. apply in_app_iff in H. destruct H as [H|H].
  - eapply basic_five; eauto. apply N; left; auto.
  - eapply IH; eauto. intros; apply N; right; auto.
Qed.
(** ** Circuit.to_graph followed by Circuit.from_graph *)
Theorem round_trip : forall so compress split c, (forall l, so l = l) -> circ_ok c -> (forall k, In k (cgates c) -> not_fsim k) ->
  exists g c', to_graph so false compress c = Ok g /\ graph_to_circuit split g = Ok c' /\ cqubits c' = cqubits c /\ circ_ok c' /\ eq_phase (cden (cgates c')) (cden (cgates c)).
Proof.
  intros so cr split c SO OK NF. assert (P : is_perm_oracle so) by (intros l; rewrite SO; auto).
  destruct (to_graph_ok so cr c P OK) as (g & z & E & U & Z & L1 & L2 & ND & H). exists g.
  assert (D : circuit_like (cqubits c) g /\ wired g).
  { unfold to_graph in E. inv_bind E. destruct (c_basic_ok c OK) as (c1 & z1 & E1 & N1 & B1 & _). rewrite E1 in E0. injection E0 as <-. rewrite <- N1. apply (drawn_circuit so cr c1 g SO); auto.
    intros k Hk. split; [eapply c_basic_five; eauto|apply B1; auto]. }
  destruct D as [CL WI]. destruct (graph_to_circuit_total split _ g CL WI) as [c' R]. exists c'. split; auto. split; auto.
  destruct (graph_to_circuit_ok split _ g c' CL R) as (Q & OK' & S). split; auto. split; auto.
  set (K := to_number (gscalar g) * sq2p (- Z.of_nat (two_count (cgates c')))) in *. set (n := cqubits c) in *.
  assert (EQ : forall i x, K * cden (cgates c') (basis n i) x = z * cden (cgates c) (basis n i) x).
  { intros i x. set (b := bits (ginputs g) (goutputs g) i x). assert (B1 : basis n (fun q => b (nth q (ginputs g) 0%nat)) = basis n i) by (apply VerifyProofs.basis_ext; intros q Hq; apply bits_in; auto; lia).
    assert (X := S b). rewrite (H b x) in X by (intros j Hj; rewrite SO, seq_nth by auto; unfold b; rewrite bits_out by (auto; lia); auto). rewrite B1 in X. rewrite X. f_equal.
    apply (cden_local n (cgates c') (basis n i)); [intros k Hk; rewrite <- Q; apply OK'; auto| |].
    - intros u v A. unfold basis. apply cprod_ext. intros q Hq. rewrite A; auto. apply in_seq in Hq. lia.
    - intros q Hq. unfold b. rewrite bits_out by (auto; lia). auto. }
  assert (UK : unitc K) by (apply (proportional_unit c' c K z); auto; rewrite Q; auto).
  exists (Cconj K * z). assert (UC : unitc (Cconj K)) by (unfold unitc in *; rewrite Cconj_invol, Cmult_comm; auto). split; [apply unit_mult; auto|]. intros s x.
  rewrite (cden_matrix n (cgates c') s x), (cden_matrix n (cgates c) s x) by (auto; rewrite <- Q; auto). rewrite <- sumv_scal. apply sumv_ext. intros i.
  transitivity (s i * ((K * Cconj K) * cden (cgates c') (basis n i) x)); [rewrite UK; ring|]. transitivity (s i * Cconj K * (K * cden (cgates c') (basis n i) x)); [ring|]. rewrite EQ. ring.
Qed.
Theorem proportional_phase : forall c d, cqubits d = cqubits c -> circ_ok c -> circ_ok d ->
  (exists k, k <> C0 /\ forall s x, cden (cgates d) s x = k * cden (cgates c) s x) -> eq_phase (cden (cgates d)) (cden (cgates c)).
Proof.
  intros c d Q Hc Hd [k [_ E]]. exists k. split; auto. assert (U : unitc C1) by (unfold unitc; rewrite Cconj_1; ring). apply (proportional_unit c d k C1); auto. intros i x. rewrite E. ring.
Qed.
Definition ex_fs : circuit := mkCirc 2 [GFSim 0 1 (frac 1 2) (frac 1 4)].
Definition ex_rt : circuit := mkCirc 3 [GHAD 0; GCNOT 0 1; Tg 1 false; GCZ 1 2; XPhase 2 (frac 1 3); GHAD 2; GCNOT 2 0; Sg 0 true; GTof 0 1 2; GSWAP 0 2].
