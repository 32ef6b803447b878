(** Circuit extraction: clean_frontier, the gates next to the outputs. *)
From Coq Require Import Reals ZArith QArith Qcanon List Bool Arith Lia Permutation FunctionalExtensionality.
From Verif Require Import LinModel LinProofs CNum Base ScalarModel ScalarProofs GraphModel GraphSem SumLemmas GraphProofs GraphOps RulesModel RuleLemmas
  SpiderProofs IsoProofs IdProofs LcompProofs PivotProofs PivotMatch GrowProofs StoreProofs InvProofs BfixProofs TotalProofs GrowTotal
  GateModel CircSpec GateProofs GateMask AmpProofs CircGraphModel CircGraphProofs CircGraphFacts VerifyProofs GraphAlgModel GraphAlgProofs GraphAlgFacts
  ComposeProofs ApplyProofs ExtractModel ExtractSem ExtractMap.
Import ListNotations.
Open Scope C_scope.

Definition outv (g : graph) (q : nat) : nat := nth q (goutputs g) 0%nat.

Lemma of_opt_some : forall A e (o : option A) a, of_opt e o = Ok a -> o = Some a.
Proof. intros A e [x|] a H; simpl in H; congruence. Qed.

(** ** Keeping diagrams well-formed *)
Lemma gok_frame : forall g g', gok g -> wfg g' -> same_frame g g' ->
  (forall u, In u (vertices g) -> in02 (phase g' u)) -> (forall u, vty g u = BOUNDARY -> phase g' u = phase g u) ->
  (forall u w, vty g u = BOUNDARY -> (edge_type g' u w <> None <-> edge_type g u w <> None)) -> noloop g' ->
  (forall u w e, edge_type g' u w = Some e -> vty g u = ZSP -> vty g w = ZSP -> e = HADAMARD) -> gok g'.
Proof.
  intros g g' G W F P PB EB NL GL. destruct G as [[Z D BP R IO] N [G1 G2]]. destruct Z as [W0 _ ZX _ ZI].
  assert (T : forall u, vty g' u = vty g u) by (intros; apply same_frame_vty; auto).
  destruct F as [V [_ [I [O [_ [_ RI]]]]]].
  constructor.
  - constructor.
    + constructor; auto.
      * intros v Hv. rewrite T. apply ZX. rewrite <- V; auto.
      * intros v Hv. apply P. rewrite <- V; auto.
      * intros v Hv. rewrite I, O in Hv. unfold isB. rewrite V, T. apply ZI; auto.
    + intros b Hb Tb. rewrite T in Tb. rewrite V in Hb. destruct (D b Hb Tb) as [u Hu]. exists u. intros w. rewrite EB by auto. apply Hu.
    + intros b Hb Tb. rewrite T in Tb. rewrite V in Hb. rewrite PB by auto. apply BP; auto.
    + intros v Hv. rewrite RI. apply R. rewrite <- V; auto.
    + intros b Hb Tb. rewrite T in Tb. rewrite V in Hb. rewrite I, O. apply IO; auto.
  - unfold io_ok. rewrite I, O. auto.
  - split.
    + intros v Hv. rewrite T. apply G1. rewrite <- V; auto.
    + intros u v e E. rewrite !T. intros. eapply GL; eauto.
Qed.
Lemma edge_r : forall g u v e, wfg g -> edge_type g u v = Some e -> In v (vertices g).
Proof. intros g u v e W E. rewrite wf_sym in E by auto. eapply edge_in_l; eauto. Qed.

(** ** The frontier and the phase gadgets *)
Record frok (g : graph) (qm : dict nat) (fr : list nat) : Prop := mkfrok {
  fk_nd : NoDup fr;
  fk_v : forall v, In v fr -> exists q, dget v qm = Some q /\ (q < nout g)%nat /\ vty g v = ZSP /\ edge_type g v (outv g q) <> None }.
Definition gadok (g : graph) (gad : dict nat) : Prop := forall w, dmem w gad = true -> In w (vertices g) ->
  vty g w = ZSP /\ is_pauli (phase g w) = true /\ forall u, edge_type g w u <> None -> vty g u = ZSP.
(** edges may only disappear, and not those at the boundary; phases may only be cleared *)
Definition soft (g g' : graph) : Prop := same_frame g g' /\
  (forall u w, edge_type g' u w <> None -> edge_type g u w <> None) /\
  (forall u w, vty g u = BOUNDARY -> edge_type g u w <> None -> edge_type g' u w <> None) /\
  (forall u, phase g' u = phase g u \/ phase g' u = 0%Qc).
Lemma soft_refl : forall g, soft g g.
Proof. intros g. split; [apply same_frame_refl|]. auto. Qed.
Lemma soft_trans : forall a b c, soft a b -> soft b c -> soft a c.
Proof.
  intros a b c [F1 [A1 [B1 P1]]] [F2 [A2 [B2 P2]]]. split; [eapply same_frame_trans; eauto|]. split; [auto|]. split.
  - intros u w T E. apply B2; auto. rewrite (same_frame_vty a b); auto.
  - intros u. destruct (P2 u) as [->|]; auto.
Qed.
Lemma soft_out : forall g g' q, soft g g' -> outv g' q = outv g q.
Proof. intros g g' q [[_ [_ [_ [O _]]]] _]. unfold outv. rewrite O. auto. Qed.
Lemma soft_nout : forall g g', soft g g' -> nout g' = nout g.
Proof. intros g g' [[_ [_ [_ [O _]]]] _]. unfold nout. rewrite O. auto. Qed.
Lemma soft_ty : forall g g' v, soft g g' -> vty g' v = vty g v.
Proof. intros g g' v [F _]. apply same_frame_vty; auto. Qed.
Lemma frok_soft : forall g g' qm fr, gok g -> gok g' -> soft g g' -> frok g qm fr -> frok g' qm fr.
Proof.
  intros g g' qm fr G G' S [N H]. split; auto. intros v Hv. destruct (H v Hv) as [q [Q1 [Q2 [T E]]]]. exists q.
  rewrite (soft_nout g g' S), (soft_ty g g' v S), (soft_out g g' q S). split; auto. split; auto. split; auto.
  rewrite wf_sym by (apply gk_wf; auto). apply S; [apply (gk_out g G); auto|]. rewrite wf_sym by (apply gk_wf; auto). auto.
Qed.
Lemma gadok_soft : forall g g' gad, soft g g' -> gadok g gad -> gadok g' gad.
Proof.
  intros g g' gad S H w Dw Iw. assert (V : vertices g' = vertices g) by (apply S). rewrite V in Iw. destruct (H w Dw Iw) as [A [B C]].
  rewrite (soft_ty g g' w S). split; auto. split.
  - destruct S as [_ [_ [_ P]]]. destruct (P w) as [->| ->]; auto.
  - intros u E. rewrite (soft_ty g g' u S). apply C. apply S; auto.
Qed.
(** the qubit of a frontier spider is determined by the diagram *)
Lemma frok_inj : forall g qm fr u v q, gok g -> frok g qm fr -> In u fr -> In v fr -> dget u qm = Some q -> dget v qm = Some q -> u = v.
Proof.
  intros g qm fr u v q G [_ H] Hu Hv Qu Qv. destruct (H u Hu) as [q1 [E1 [L1 [_ X1]]]]. destruct (H v Hv) as [q2 [E2 [L2 [_ X2]]]].
  assert (q1 = q) by congruence. assert (q2 = q) by congruence. subst.
  destruct (gk_out g G q L1) as [I T]. destruct (gk_deg g G _ I T) as [w Hw]. fold (outv g q) in Hw.
  rewrite wf_sym in X1, X2 by (apply gk_wf; auto). apply Hw in X1, X2. congruence.
Qed.
Lemma out_of_spec : forall g v b qm fr q, gok g -> inv_map g -> frok g qm fr -> In v fr -> dget v qm = Some q -> out_of (goutputs g) g v = Ok b -> b = outv g q /\ (q < nout g)%nat.
Proof.
  intros g v b qm fr q G M [_ H] Hv Q E. destruct (H v Hv) as [q' [Q' [L [_ X]]]]. assert (q' = q) by congruence. subst q'. split; auto.
  unfold out_of in E. inv_bind E. apply neighbors_r_inv in E0. destruct E0 as [_ ->].
  destruct (filter _ _) as [|b' l] eqn:F in E; [discriminate|]. injection E as ->.
  assert (B : In b (neighbors g v) /\ nmem b (goutputs g) = true) by (apply (filter_In (fun w => nmem w (goutputs g))); rewrite F; simpl; auto).
  destruct B as [B1 B2]. apply neighbors_spec in B1. apply (one_outs g G M v); auto.
  - apply nmem_spec. auto. - apply nth_In. auto.
Qed.

(** ** Hadamards and phases next to the outputs *)
Definition clean (g : graph) (qm : dict nat) (v : nat) : Prop :=
  forall q, dget v qm = Some q -> edge_type g v (outv g q) = Some SIMPLE /\ phase g v = 0%Qc.
Lemma wtH : forall a c, wt (Some HADAMARD) a c = mH a c.
Proof. intros [] []; unfold wt, mH, mk2, sgn; simpl; rewrite sq2p_m1; ring. Qed.
Lemma had_gate : forall g g' q v, gok g -> gok g' -> (q < nout g)%nat -> ginputs g' = ginputs g -> goutputs g' = goutputs g ->
  edge_type g v (outv g q) = Some HADAMARD -> retip v (outv g q) g g' -> ext g g' [GHAD q].
Proof.
  intros g g' q v G G' Q I O E R. split; auto. split; auto. split.
  - constructor; auto. split; [split; [repeat constructor; simpl; tauto|split; [discriminate|exact Logic.I]]|]. intros x [<-|[]]. auto.
  - exists C1. split; [apply C1_neq_C0|]. intros i y. simpl. unfold cden. simpl. unfold op1.
    destruct (gk_out g G q Q) as [Io To]. unfold val at 1.
    rewrite (tip_split g g' v (outv g q) HADAMARD) ; auto; [|apply gk_wf; auto|apply gk_nl; auto|apply gk_deg; auto|apply gk_X; auto; eapply edge_in_l; eauto].
    assert (On : nout g' = nout g) by (unfold nout; rewrite O; auto).
    assert (Vu : forall c, sem g' (upd (bits (ginputs g) (goutputs g) i y) (outv g q) c) = val g' i (upd y q c)).
    { intros c. rewrite <- (val_upd g' G') by (rewrite On; auto). unfold outv. rewrite I, O. auto. }
    rewrite !Vu. unfold outv at 1 2. rewrite !(bits_out' g G) by auto. rewrite !wtH. ring.
Qed.
Lemma set_out_simple : forall g g' q v, gok g -> (q < nout g)%nat -> vty g v = ZSP -> edge_type g v (outv g q) <> None -> set_edge_type v (outv g q) SIMPLE g = Ok g' ->
  gok g' /\ soft g g' /\ retip v (outv g q) g g' /\ ginputs g' = ginputs g /\ goutputs g' = goutputs g /\
  (forall u w, vty g u = ZSP -> vty g w = ZSP -> edge_type g' u w = edge_type g u w) /\ (forall u, phase g' u = phase g u).
Proof.
  intros g g' q v G Q Tv E S. destruct (set_edge_type_spec _ _ _ _ _ (gk_wf g G) S) as [W [F [P [SC [_ [_ ET]]]]]].
  destruct (gk_out g G q Q) as [Io To]. fold (outv g q) in *.
  assert (Sup : forall u w, edge_type g' u w <> None <-> edge_type g u w <> None).
  { intros u w. rewrite ET. destruct (pair_hit v (outv g q) u w) eqn:X; [|tauto]. split; [intros _|congruence].
    unfold pair_hit in X. apply orb_true_iff in X. destruct X as [X|X]; apply andb_true_iff in X; destruct X as [X Y]; apply Nat.eqb_eq in X, Y; subst; auto.
    rewrite wf_sym; auto. apply gk_wf; auto. }
  assert (PH : forall u, phase g' u = phase g u) by (intros; unfold phase; rewrite P; auto).
  assert (ZZ : forall u w, vty g u = ZSP -> vty g w = ZSP -> edge_type g' u w = edge_type g u w).
  { intros u w Tu Tw. rewrite ET, pair_hit_false; auto; intros X; injection X as -> ->; congruence. }
  assert (NL : noloop g').
  { intros u. destruct (edge_type g' u u) eqn:X; auto. exfalso. apply (proj1 (Sup u u)); [congruence|apply gk_nl; auto]. }
  assert (G' : gok g').
  { apply (gok_frame g g' G W F); auto.
    - intros u Hu. rewrite PH. apply (zx_ph _ (zi_zx _ (gk_z _ G))); auto.
    - intros u w e Eu Tu Tw. rewrite ZZ in Eu by auto. apply (proj2 (gk_gl _ G) u w); auto. }
  split; auto. split; [split; auto; split; [apply Sup|]; split; [intros u w _; apply Sup|auto]|].
  split; [constructor; auto; [apply gk_deg; auto|apply F|intros; apply same_frame_vty; auto]|].
  split; [apply F|]. split; [apply F|]. auto.
Qed.
Lemma phase_gate : forall g q v p, gok g -> (q < nout g)%nat -> vty g v = ZSP -> edge_type g v (outv g q) = Some SIMPLE -> phase g v = p ->
  gok (set_phase v 0%Qc g) /\ soft g (set_phase v 0%Qc g) /\ ext g (set_phase v 0%Qc g) [ZPhase q p].
Proof.
  intros g q v p G Q Tv E P. assert (Iv : In v (vertices g)) by (eapply edge_in_l; eauto).
  assert (F := set_phase_frame v 0%Qc g). set (g' := set_phase v 0%Qc g) in *.
  assert (PH : forall u, phase g' u = if Nat.eqb u v then 0%Qc else phase g u).
  { intros u. unfold g'. rewrite phase_set_phase. destruct (Nat.eqb u v); auto. }
  assert (W : wfg g') by (apply set_phase_wfg; auto; apply gk_wf; auto).
  assert (R02 : forall u, In u (vertices g) -> in02 (phase g u)) by (apply (zx_ph _ (zi_zx _ (gk_z _ G)))).
  assert (ET : forall u w, edge_type g' u w = edge_type g u w) by reflexivity.
  assert (G' : gok g').
  { apply (gok_frame g g' G W F).
    - intros u Hu. rewrite PH. destruct (Nat.eqb u v); [split; simpl; unfold Qle, Qlt; simpl; lia|auto].
    - intros u Tu. rewrite PH. destruct (Nat.eqb_spec u v); auto. subst; congruence.
    - intros u w _. rewrite ET. tauto.
    - exact (gk_nl g G).
    - intros u w e. rewrite ET. apply (proj2 (gk_gl _ G)). }
  split; auto. split.
  { split; auto. split; auto. split; auto. intros u. rewrite PH. destruct (Nat.eqb u v); auto. }
  split; [reflexivity|]. split; [reflexivity|]. split.
  - constructor; auto. split; [split; [repeat constructor; simpl; tauto|split; [discriminate|exact Logic.I]]|]. intros x [<-|[]]. auto.
  - exists C1. split; [apply C1_neq_C0|]. intros i y. cbn [rev app cden fold_left gden ZPhase]. unfold val.
    destruct (gk_out g G q Q) as [Io To]. fold (outv g q) in *.
    rewrite (diag_step g g' v (outv g q) v (outv g q) (fun a _ => ephase p a)); auto.
    + unfold op1, mP, mk2. unfold outv. rewrite (bits_out' g G) by auto. change (ginputs g') with (ginputs g). change (goutputs g') with (goutputs g).
      assert (U : forall c, y q = c -> upd y q c = y).
      { intros c <-. apply functional_extensionality. intros j. unfold upd. destruct (Nat.eqb_spec j q); subst; auto. }
      unfold ephase. destruct (y q); rewrite (U _ eq_refl); ring.
    + apply gk_X; auto. + apply gk_X; auto. + intros ->. congruence. + intros ->; congruence.
    + intros x. change (vertices g') with (vertices g).
      transitivity (integL (vertices g) (add_to_phase v p g') x).
      * apply integL_ext; auto. intros u Hu. split; [reflexivity|]. rewrite phase_add_to_phase, !PH, Nat.eqb_refl. destruct (Nat.eqb_spec u v); auto.
        subst u. rewrite Qcplus_0_l. subst p. symmetry. apply qmod2_id; apply R02; auto.
      * rewrite integL_add_to_phase; [ring|apply (gk_wf g G)|auto|]. unfold isB, g'. change (vty (set_phase v 0%Qc g) v) with (vty g v). rewrite Tv. auto.
Qed.
Lemma clean_one_ok : forall qm fr g gs v g' gs', gok g -> inv_map g -> frok g qm fr -> In v fr -> clean_one qm (g, gs) v = Ok (g', gs') ->
  exists new, gs' = gs ++ new /\ ext g g' new /\ gok g' /\ soft g g' /\ clean g' qm v /\ (forall u, In u fr -> clean g qm u -> clean g' qm u).
Proof.
  intros qm fr g gs v g' gs' G M F Hv H. unfold clean_one in H. inv_bind H. apply of_opt_some in E. inv_bind H. inv_bind H. apply of_opt_some in E1.
  destruct (out_of_spec g v a0 qm fr a G M F Hv E E0) as [-> Q]. rename a into q. rename a1 into et.
  destruct (fk_v _ _ _ F v Hv) as [q' [Q' [_ [Tv X]]]]. assert (q' = q) by congruence. subst q'.
  inv_bind H. destruct a as [g1 gs1].
  assert (S1 : exists new, gs1 = gs ++ new /\ ext g g1 new /\ gok g1 /\ soft g g1 /\ edge_type g1 v (outv g q) = Some SIMPLE /\ (forall u, In u fr -> clean g qm u -> clean g1 qm u)).
  { destruct et.
    - injection E2 as <- <-. exists []. rewrite app_nil_r. split; auto. split; [apply ext_refl|]. split; auto. split; [apply soft_refl|]. auto.
    - inv_bind E2. injection E2 as <- <-. destruct (set_out_simple g a q v G Q Tv X E3) as [G1 [S1 [R1 [I1 [O1 [ZZ P1]]]]]].
      exists [GHAD q]. split; auto. split; [apply (had_gate g a q v); auto|]. split; auto. split; auto.
      split; [rewrite (rt_e _ _ _ _ R1), pair_hit_st; auto|].
      intros u Hu Cu q' Q2. destruct (Cu q' Q2) as [Y1 Y2]. rewrite (soft_out g a q' S1), P1. split; auto.
      rewrite (rt_e _ _ _ _ R1), Y1. destruct (pair_hit _ _ _ _); auto. }
  destruct S1 as [n1 [-> [X1 [G1 [S1 [E1' C1']]]]]].
  inv_bind H. apply of_opt_some in E3. assert (P : phase g1 v = a) by (unfold phase; rewrite E3; auto). 
  destruct (qeqb a 0%Qc) eqn:Z; injection H as <- <-.
  - apply qeqb_eq in Z. subst a. exists n1. split; auto. split; auto. split; auto. split; auto. split; auto.
    intros q' Q2. assert (q' = q) by congruence. subst q'. rewrite (soft_out g g1 q S1). split; auto; congruence.
  - assert (Q1 : (q < nout g1)%nat) by (rewrite (soft_nout g g1 S1); auto).
    assert (E1'' : edge_type g1 v (outv g1 q) = Some SIMPLE) by (rewrite (soft_out g g1 q S1); auto).
    destruct (phase_gate g1 q v a G1 Q1) as [G2 [S2 X2]]; auto; [rewrite (soft_ty g g1 v S1); auto|].
    exists (n1 ++ [ZPhase q a]). rewrite app_assoc. split; auto. split; [eapply ext_trans; eauto|]. split; auto. split; [eapply soft_trans; eauto|].
    assert (Keep : forall u q', edge_type g1 u (outv g1 q') = Some SIMPLE -> edge_type (set_phase v 0%Qc g1) u (outv (set_phase v 0%Qc g1) q') = Some SIMPLE) by auto.
    split.
    + intros q' Q2. assert (q' = q) by congruence. subst q'. split; [apply Keep; auto|]. rewrite phase_set_phase, Nat.eqb_refl. apply qmod2_0.
    + intros u Hu Cu q' Q2. destruct (C1' u Hu Cu q' Q2) as [Y1 Y2]. split; [apply Keep; auto|]. rewrite phase_set_phase. destruct (Nat.eqb u v); auto; apply qmod2_0.
Qed.
Lemma clean_all_ok : forall qm fr l g gs g' gs', incl l fr -> gok g -> inv_map g -> frok g qm fr -> foldM (clean_one qm) l (g, gs) = Ok (g', gs') ->
  exists new, gs' = gs ++ new /\ ext g g' new /\ gok g' /\ soft g g' /\ (forall v, In v l -> clean g' qm v) /\ (forall u, In u fr -> clean g qm u -> clean g' qm u).
Proof.
  induction l as [|v l IH]; intros g gs g' gs' I G M F H; cbn [foldM] in H.
  - injection H as <- <-. exists []. rewrite app_nil_r. split; auto. split; [apply ext_refl|]. split; auto. split; [apply soft_refl|]. split; auto. intros v [].
  - inv_bind H. destruct a as [g1 gs1]. destruct (clean_one_ok qm fr g gs v g1 gs1 G M F) as [n1 [-> [X1 [G1 [S1 [C1 K1]]]]]]; auto; [apply I; simpl; auto|].
    destruct (IH g1 (gs ++ n1) g' gs') as [n2 [-> [X2 [G2 [S2 [C2 K2]]]]]]; auto.
    + intros u Hu. apply I. simpl; auto.
    + exact (ext_inv g g1 n1 G1 X1 M).
    + exact (frok_soft g g1 qm fr G G1 S1 F).
    + exists (n1 ++ n2). rewrite app_assoc. split; auto. split; [eapply ext_trans; eauto|]. split; auto. split; [eapply soft_trans; eauto|].
      split; [|intros; auto]. intros u [<-|Hu]; auto. apply K2; auto. apply I; simpl; auto.
Qed.
