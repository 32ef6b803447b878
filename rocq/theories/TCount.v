(** The number of non-Clifford spiders never grows under a rewrite. *)
From Coq Require Import Reals ZArith QArith Qcanon List Bool Arith Lia Permutation.
From Verif Require Import CNum Base ScalarModel ScalarProofs GraphModel GraphSem SumLemmas GraphProofs GraphOps StoreProofs
  RulesModel RuleLemmas SpiderProofs IsoProofs IdProofs LcompProofs PivotProofs GrowProofs PivotMatch GadgetProofs
  SimpModel ColorProofs SimpProofs PairProofs RuleShape TermProofs InvProofs RoundProofs BfixProofs TotalProofs GrowTotal FullTotal.
Import ListNotations.
Open Scope nat_scope.

(** ** Multiples of 1/2 *)
Definition clif (p : Qc) : Prop := exists z, p = frac z 2.
Lemma nc_clif : forall p, non_clifford p = false <-> clif p.
Proof.
  intros p. unfold non_clifford, clif. split.
  - intros H. destruct (Z.ltb_spec 2 (qden p)) as [L|L].
    + apply andb_false_iff in H. destruct H as [H|H]; [|discriminate]. apply negb_false_iff, qeqb_eq in H. subst. exists 0%Z. apply Qc_is_canon. reflexivity.
    + destruct p as [[n d] C]. assert (L2 : (Zpos d <= 2)%Z) by exact L. assert (D : d = 1%positive \/ d = 2%positive) by lia. clear L L2.
      destruct D as [-> | ->]; [exists (2 * n)%Z|exists n]; apply Qc_is_canon; rewrite this_frac; cbn [this]; unfold Qeq; cbn [Qnum Qden]; lia.
  - intros [z ->]. apply andb_false_iff. right. apply Z.ltb_ge. unfold frac, Q2Qc, qden. cbn [this]. unfold Qred. cbn.
    destruct (Z.ggcd z 2) as [gg [a b]] eqn:E. cbn. pose proof (Z.ggcd_correct_divisors z 2) as D. rewrite E in D. destruct D as [D1 D2].
    pose proof (Z.ggcd_gcd z 2) as G. rewrite E in G. cbn in G. assert (0 < gg)%Z. { pose proof (Z.gcd_nonneg z 2). assert (Z.gcd z 2 <> 0)%Z by (intros X; apply Z.gcd_eq_0_r in X; lia). lia. }
    destruct b; cbn; try lia.
Qed.
Lemma clif_add : forall p q, clif p -> clif q -> clif (p + q)%Qc.
Proof. intros p q [a ->] [b ->]. exists (a + b)%Z. apply frac_add. Qed.
Lemma clif_opp : forall p, clif p -> clif (- p)%Qc.
Proof. intros p [a ->]. exists (- a)%Z. apply Qc_is_canon. change (this (- frac a 2)) with (Qred (- frac a 2)). rewrite Qred_correct, !this_frac. unfold Qeq. cbn. lia. Qed.
Lemma clif_Qcz : forall n, clif (Qcz n).
Proof. intros n. exists (2 * n)%Z. apply Qc_is_canon. rewrite this_frac, this_Qcz. unfold Qeq. cbn [Qnum Qden inject_Z]. lia. Qed.
Lemma clif_mod : forall p, clif (qmod2 p) <-> clif p.
Proof.
  intros p. destruct (qmod2_diff p) as [n E]. split; intros H.
  - rewrite E. apply clif_add; auto. apply clif_Qcz.
  - replace (qmod2 p) with (p + - Qcz (2 * n))%Qc by (rewrite E at 1; ring). apply clif_add; auto. apply clif_opp, clif_Qcz.
Qed.
Lemma clif_1 : clif 1%Qc. Proof. exists 2%Z. apply Qc_is_canon. reflexivity. Qed.
Lemma clif_pauli : forall p, is_pauli p = true -> clif p.
Proof. intros p H. apply nc_clif, pauli_clifford, H. Qed.
Lemma nc_true : forall p, non_clifford p = true <-> ~ clif p.
Proof. intros p. rewrite <- nc_clif. destruct (non_clifford p); split; congruence. Qed.
Lemma nc_iff : forall p q, (clif p <-> clif q) -> non_clifford p = non_clifford q.
Proof. intros p q H. rewrite <- !nc_clif in H. destruct (non_clifford p), (non_clifford q); intuition congruence. Qed.
Lemma nc_shift : forall p a, clif a -> non_clifford (qmod2 (p + a)%Qc) = non_clifford p.
Proof.
  intros p a A. apply nc_iff. rewrite clif_mod. split; intros H; [|apply clif_add; auto].
  replace p with ((p + a) + - a)%Qc by ring. apply clif_add; auto. apply clif_opp; auto.
Qed.
Lemma nc_mod : forall p, non_clifford (qmod2 p) = non_clifford p.
Proof. intros p. apply nc_iff, clif_mod. Qed.
Lemma nc_sum : forall p q, non_clifford (qmod2 (p + q)%Qc) = true -> non_clifford p = true \/ non_clifford q = true.
Proof. intros p q H. rewrite nc_true, clif_mod in H. destruct (non_clifford p) eqn:P; auto. destruct (non_clifford q) eqn:Q; auto. exfalso. apply H. apply nc_clif in P, Q. apply clif_add; auto. Qed.

(** ** Counting *)
Definition nc (g : graph) (v : nat) : bool := non_clifford (phase g v).
Definition tnum (g : graph) : nat := length (filter (nc g) (vertices g)).
Definition nceq (g g' : graph) : Prop := forall v, nc g' v = nc g v.
Lemma nceq_refl : forall g, nceq g g. Proof. intros g v; auto. Qed.
Lemma nceq_trans : forall a b c, nceq a b -> nceq b c -> nceq a c. Proof. intros a b c H1 H2 v. rewrite H2. apply H1. Qed.
Lemma nceq_ph : forall g g', gphase g' = gphase g -> nceq g g'. Proof. intros g g' E v. unfold nc, phase. rewrite E. auto. Qed.
Lemma nceq_add : forall v a g, clif a -> nceq g (add_to_phase v a g).
Proof. intros v a g A u. unfold nc. rewrite phase_add_to_phase. destruct (Nat.eqb_spec u v); auto. subst. apply nc_shift; auto. Qed.
Lemma nceq_adds : forall vs a g, clif a -> nceq g (add_phases vs a g).
Proof. induction vs as [|v vs IH]; intros a g A; [apply nceq_refl|]. cbn. eapply nceq_trans; [apply nceq_add; exact A|]. apply IH; auto. Qed.
(** what is left is no more than what was there *)
Definition les (g g' : graph) : Prop := NoDup (vertices g') /\ forall v, In v (vertices g') -> In v (vertices g) /\ (nc g' v = true -> nc g v = true).
Lemma les_trans : forall a b c, les a b -> les b c -> les a c.
Proof. intros a b c [_ H1] [N H2]. split; auto. intros v Hv. destruct (H2 v Hv) as [X1 X2]. destruct (H1 v X1) as [Y1 Y2]. auto. Qed.
Lemma les_tnum : forall g g', les g g' -> tnum g' <= tnum g.
Proof.
  intros g g' [N H]. unfold tnum. apply NoDup_incl_length; [apply NoDup_filter; auto|]. intros v Hv. apply filter_In in Hv. destruct Hv as [Hv T].
  destruct (H v Hv) as [X Y]. apply filter_In. auto.
Qed.
Lemma les_nceq : forall g g', NoDup (vertices g) -> vertices g' = vertices g -> nceq g g' -> les g g'.
Proof. intros g g' N V E. split; [congruence|]. rewrite V. intros v Hv. split; auto. rewrite (E v). auto. Qed.
Lemma les_removed : forall vs g g', wfg g -> removed vs g g' -> les g g'.
Proof.
  intros vs g g' W R. split; [apply (wf_nd g'), (rm_wf _ _ _ R)|]. rewrite (rm_vs _ _ _ R). intros v Hv. rewrite filter_In, negb_true_iff, mem_false in Hv. destruct Hv as [Hv N].
  split; auto. unfold nc. rewrite (rm_phase _ _ _ R) by auto. auto.
Qed.
Lemma add_edge_nceq : forall s t e g g', add_edge s t e g = Ok g' -> nceq g g'.
Proof.
  intros s t e g g' H. unfold add_edge in H. destruct (dget s (gadj g)) as [ds|]; [|discriminate].
  assert (S : forall s t e g g', set_edge_type s t e g = Ok g' -> gphase g' = gphase g) by (clear; intros; unfold set_edge_type in H; inv_bind H; inv_bind H; injection H as <-; reflexivity).
  destruct (dget t ds) as [et1|].
  - inv_bind H. inv_bind H. destruct (_ && _); [|discriminate]. destruct (if Bool.eqb _ _ then _ else _) as [fu ho].
    destruct (etype_eqb e fu && etype_eqb et1 fu); [injection H as <-; apply nceq_refl|]. match type of H with (if ?x then _ else _) = _ => destruct x end.
    + inv_bind H. injection H as <-. eapply nceq_trans; [apply nceq_ph; exact (S _ _ _ _ _ E1)|]. eapply nceq_trans; [apply (nceq_add s 1%Qc); exact clif_1|]. apply nceq_ph. reflexivity.
    + destruct (_ && _); [|discriminate]. inv_bind H. injection H as <-. unfold remove_edge in E1. inv_bind E1. inv_bind E1. injection E1 as <-. apply nceq_ph. reflexivity.
  - apply nceq_ph. rewrite (S _ _ _ _ _ H). reflexivity.
Qed.
Lemma table_nceq : forall tab g g', add_edge_table tab g = Ok g' -> nceq g g'.
Proof.
  intros tab g g' H. unfold add_edge_table in H. eapply (StoreProofs.foldM_inv _ _ _ (fun h => nceq g h)); [apply nceq_refl| |exact H].
  intros g0 [[s t] [ns nh]] g1 N _ E. inv_bind E.
  assert (IV : forall n e h h', nceq g h -> iterM n (add_edge s t e) h = Ok h' -> nceq g h').
  { intros n e h h' HI HE. eapply (iterM_inv _ _ (fun h => nceq g h)); [exact HI| |exact HE]. intros k k' K KE. eapply nceq_trans; [exact K|eapply add_edge_nceq; eauto]. }
  eapply IV; [eapply IV; [|exact E0]|exact E]; auto.
Qed.
Lemma remove_edges_phase : forall es g g', remove_edges es g = Ok g' -> gphase g' = gphase g.
Proof.
  intros es g g' H. unfold remove_edges in H. refine (StoreProofs.foldM_inv _ _ _ (fun h => gphase h = gphase g) es g g' eq_refl _ H).
  intros h [s t] h' E _ R. unfold remove_edge in R. inv_bind R. inv_bind R. injection R as <-. exact E.
Qed.
Lemma isolated_les : forall g g', wfg g -> remove_isolated_vertices g = Ok g' -> les g g'.
Proof.
  intros g g' W H. unfold remove_isolated_vertices in H. inv_bind H. destruct a as [rem g1]. destruct (isolated_fold_same _ _ _ E) as [s Hs]. cbn [snd] in Hs. subst g1.
  assert (W1 := on_scalar_wfg (fun _ => s) g W). apply (les_removed _ _ _ W1 (remove_vertices_spec _ _ _ W1 H)).
Qed.
(** the part of the diagram that a rewrite keeps *)
Definition tnumL (rem : list nat) (g : graph) : nat := length (filter (nc g) (keep rem g)).
Lemma apply_tnum : forall o g', wfg (rw_graph o) -> apply_rw o = Ok g' -> tnum g' <= tnumL (rw_verts o) (rw_graph o).
Proof.
  intros o g' W H. unfold apply_rw in H. inv_bind H. inv_bind H. inv_bind H.
  destruct (add_edge_table_bfix _ _ _ W E) as [W1 _]. destruct (remove_edges_bfix _ _ _ W1 E0) as [W2 _]. assert (R := remove_vertices_spec _ _ _ W2 E1).
  assert (V : vertices a0 = vertices (rw_graph o)) by (rewrite (proj2 (remove_edges_vertices _ _ _ W1 E0)); apply (add_edge_table_vertices _ _ _ W E)).
  assert (N : nceq (rw_graph o) a0) by (eapply nceq_trans; [eapply table_nceq; eauto|apply nceq_ph; eapply remove_edges_phase; eauto]).
  apply Nat.le_trans with (tnum a1).
  - apply les_tnum. destruct (rw_check o); [apply isolated_les; auto; apply R|injection H as <-; split; [apply (wf_nd a1), R|auto]].
  - unfold tnum, tnumL. apply NoDup_incl_length; [apply NoDup_filter, (wf_nd a1), R|]. intros v Hv. apply filter_In in Hv. destruct Hv as [Hv T]. rewrite (rm_vs _ _ _ R), filter_In, negb_true_iff, mem_false in Hv.
    destruct Hv as [Hv X]. apply filter_In. split; [apply in_keep; rewrite <- V; auto|]. rewrite <- (N v). unfold nc in *. rewrite <- (rm_phase _ _ _ R); auto.
Qed.
Lemma tnumL_le : forall rem g, wfg g -> tnumL rem g <= tnum g.
Proof. intros rem g W. unfold tnumL, tnum. apply NoDup_incl_length; [apply NoDup_filter, keep_nd; auto|]. intros v Hv. apply filter_In in Hv. destruct Hv as [Hv T]. apply in_keep in Hv. apply filter_In. tauto. Qed.
Lemma apply_les : forall g o g', wfg (rw_graph o) -> les g (rw_graph o) -> apply_rw o = Ok g' -> tnum g' <= tnum g.
Proof. intros g o g' W L H. eapply Nat.le_trans; [apply apply_tnum; eauto|]. eapply Nat.le_trans; [apply tnumL_le; auto|]. apply les_tnum; auto. Qed.
