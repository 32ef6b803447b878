(** State copying: one round and the whole of copy_simp. *)
From Coq Require Import Reals ZArith QArith Qcanon List Bool Arith Lia Lra Permutation FunctionalExtensionality.
From Verif Require Import LinModel LinProofs CNum Base ScalarModel ScalarProofs GraphModel GraphSem SumLemmas GraphProofs GraphOps RulesModel RuleLemmas
  SpiderProofs IsoProofs IdProofs LcompProofs PivotProofs PivotMatch GrowProofs StoreProofs ColorProofs SimpModel SimpProofs PairProofs RuleShape TermProofs InvProofs RoundProofs BfixProofs TotalProofs GrowTotal
  Decide RunEx ZXFacts IsoExact RedFacts GateModel CircSpec GateProofs GateMask AmpProofs CircGraphModel CircGraphProofs CircGraphFacts VerifyProofs GraphAlgModel GraphAlgProofs GraphAlgFacts
  ComposeProofs ApplyProofs ExtractModel ExtractSem ExtractMap ExtractClean ExtractCz ExtractFront ExtractNbrs TidyModel TidySub CopyProofs.
Import ListNotations.
Open Scope nat_scope.

(** zinv without the condition on boundary phases, and graph-like *)
Record zcopy (g : graph) : Prop := mkzcopy { zc_zx : zxok g; zc_deg : bdeg g; zc_rows : rows_ok g; zc_io : bio g; zc_gl : glike g }.
Lemma zinv_zcopy : forall g, zinv g -> glike g -> zcopy g.
Proof. intros g Z G. constructor; auto; apply Z. Qed.

(** ** The matches found *)
Definition cmv (m : cmatch) : nat := let '(v, w, a, al, ns) := m in v.
Definition cmw (m : cmatch) : nat := let '(v, w, a, al, ns) := m in w.
Definition cmn (m : cmatch) : list nat := let '(v, w, a, al, ns) := m in ns.
Definition cmr (m : cmatch) : list nat := [cmv m; cmw m].
Definition cfar (m1 m2 : cmatch) : Prop := cmv m2 <> cmv m1 /\ cmv m2 <> cmw m1 /\ ~ In (cmv m2) (cmn m1).
Lemma match_copy_ok : forall g cands disc, wfg g -> noloop g -> NoDup cands -> incl cands (vertices g) ->
  (forall m, In m (match_copy_loop g cands disc) -> cm_ok g m /\ In (cmv m) cands /\ ~ In (cmv m) disc) /\ ForallOrdPairs cfar (match_copy_loop g cands disc).
Proof.
  intros g cands. induction cands as [|v cands IH]; intros disc W NL ND IC; [split; [intros m []|constructor]|].
  inversion ND as [|? ? Nv ND']; subst. assert (IC' : incl cands (vertices g)) by (intros z Hz; apply IC; simpl; auto).
  assert (SKIP : (forall m, In m (match_copy_loop g cands disc) -> cm_ok g m /\ In (cmv m) (v :: cands) /\ ~ In (cmv m) disc) /\ ForallOrdPairs cfar (match_copy_loop g cands disc)).
  { destruct (IH disc W NL ND' IC') as [H1 H2]. split; auto. intros m Hm. destruct (H1 m Hm) as [A [B D]]. simpl. auto. }
  cbn [match_copy_loop]. destruct (nmem v disc) eqn:M; [exact SKIP|]. destruct (negb (is_pauli (phase g v)) || negb (vtype_eqb (vty g v) ZSP)) eqn:PT; [exact SKIP|].
  apply orb_false_iff in PT. rewrite !negb_false_iff, vtype_eqb_eq in PT. destruct PT as [PA Tv].
  destruct (neighbors g v) as [|w [|]] eqn:NB; try exact SKIP. destruct (vtype_eqb (vty g w) ZSP) eqn:Tw; cbn [negb]; [|exact SKIP]. apply vtype_eqb_eq in Tw. clear SKIP.
  set (ns := filter (fun n => negb (Nat.eqb n v)) (neighbors g w)). destruct (IH (disc ++ [w] ++ ns) W NL ND' IC') as [H1 H2].
  assert (EV : forall u, edge_type g v u <> None <-> u = w). { intros u. rewrite <- neighbors_spec, NB. simpl. intuition. }
  assert (Evw : edge_type g v w <> None) by (apply EV; auto).
  split.
  - intros m [<-|Hm].
    + split; [|split; [simpl; auto|intros X; apply nmem_false in M; auto]]. unfold cm_ok. split; [apply IC; simpl; auto|]. split; [apply (edge_type_in_l g w v); rewrite (wf_sym g W); auto|].
      split; [intros ->; rewrite NL in Evw; congruence|]. split; auto. split; auto. split; auto. split; auto. split; auto. split; auto. split; [apply NoDup_filter, neighbors_nd; auto|].
      intros n. unfold ns. rewrite filter_In, neighbors_spec, negb_true_iff, Nat.eqb_neq. tauto.
    + destruct (H1 m Hm) as [A [B D]]. split; auto. split; [simpl; auto|]. intros X. apply D. apply in_app_iff; auto.
  - constructor; auto. apply Forall_forall. intros m Hm. destruct (H1 m Hm) as [A [B D]]. unfold cfar. cbn [cmv cmw cmn]. rewrite !in_app_iff in D. simpl in D.
    split; [intros X; rewrite X in B; contradiction|]. split; [intros X; apply D; right; left; auto|tauto].
Qed.

(** ** All matches of a round *)
Definition fits (g0 : graph) (P rem : list nat) (m : cmatch) : Prop :=
  ~ In (cmv m) P /\ ~ In (cmv m) rem /\ ~ In (cmw m) rem /\ forall n, In n (cmn m) -> vty g0 n = BOUNDARY -> ~ In n P.
Lemma cfar_facts : forall g m1 m2, wfg g -> cm_ok g m1 -> cm_ok g m2 -> cfar m1 m2 -> cmw m2 <> cmv m1 /\ cmw m2 <> cmw m1.
Proof.
  intros g [[[[v1 w1] a1] l1] n1] [[[[v2 w2] a2] l2] n2] W [I1 [J1 [D1 [T1 [U1 [E1 [_ [_ [_ [_ N1]]]]]]]]]] [I2 [J2 [D2 [T2 [U2 [E2 [_ [_ [_ [_ N2]]]]]]]]]] [F1 [F2 F3]].
  cbn [cmv cmw cmn] in *. assert (X : edge_type g w2 v2 <> None) by (rewrite (wf_sym g W); apply E2; auto). split.
  - intros ->. apply E1 in X. congruence.
  - intros ->. apply F3. apply N1. auto.
Qed.
Lemma copy_fold : forall ms g0 P g rem, zcopy g0 -> cst g0 P g -> (forall m, In m ms -> cm_ok g0 m /\ fits g0 P rem m) -> ForallOrdPairs cfar ms ->
  incl rem (vertices g0) -> (forall u, In u rem -> vty g0 u = ZSP) -> NoDup rem ->
  exists g' k, foldM copy_one ms (g, rem) = Ok (g', rem ++ flat_map cmr ms) /\ cst g0 (P ++ flat_map cmn ms) g' /\ k <> C0 /\
  NoDup (rem ++ flat_map cmr ms) /\
  ((forall m, In m ms -> ~ In (cmw m) P /\ forall n, In n (cmn m) -> ~ In n rem) -> (forall m1 m2, In m1 ms -> In m2 ms -> edge_type g0 (cmw m1) (cmw m2) = None) -> k = C1) /\
  forall y, semL (without (rem ++ flat_map cmr ms) (vertices g')) g' y = (k * semL (without rem (vertices g)) g y)%C.
Proof.
  induction ms as [|m ms IH]; intros g0 P g rem Z H HM FO IR RZ ND.
  - exists g, C1. cbn [flat_map]. rewrite !app_nil_r. split; [reflexivity|]. split; auto. split; [exact C1_neq_C0|]. split; auto. split; auto. intros y. ring.
  - assert (W0 := zx_wf _ (zc_zx _ Z)). assert (GL := zc_gl _ Z). destruct (HM m (or_introl eq_refl)) as [OK [F1 [F2 [F3 F4]]]]. inversion FO as [|? ? FA FO']; subst. rewrite Forall_forall in FA.
    assert (STEP := copy_one_ok g0 P g rem m H GL W0 OK). destruct m as [[[[v w] a] al] ns] eqn:Em. cbn [cmv cmw cmn] in *.
    destruct (STEP F1 F2 F3 F4 IR RZ) as [g1 [k1 [E1 [C' [K1 [X1 V1]]]]]]. clear STEP.
    cbn [foldM]. rewrite E1. cbn [bind]. destruct OK as [Iv [Iw [D [Tv [Tw [Ev [Ea [PA [Eal [NDn HN]]]]]]]]]].
    assert (OK : cm_ok g0 (v, w, a, al, ns)) by (unfold cm_ok; auto 12).
    destruct (IH g0 (P ++ ns) g1 (rem ++ [v; w]) Z C') as [g' [k2 [E2 [C2 [K2 [ND2 [X2 V2]]]]]]]; auto.
    + intros m' Hm'. destruct (HM m' (or_intror Hm')) as [OK' [G1 [G2 [G3 G4]]]]. split; auto. assert (CF := FA m' Hm'). destruct (cfar_facts g0 (v, w, a, al, ns) m' W0 OK OK' CF) as [Q1 Q2].
      destruct CF as [Q3 [Q4 Q5]]. cbn [cmv cmw cmn] in *. unfold fits. rewrite !in_app_iff. simpl. split; [tauto|]. split; [intuition congruence|]. split; [intuition congruence|].
      intros n Hn Tn. rewrite in_app_iff. intros [X|X]; [revert X; apply G4; auto|].
      destruct m' as [[[[v' w'] a'] al'] ns']. cbn [cmv cmw cmn] in *. destruct OK' as [_ [_ [_ [_ [_ [_ [_ [_ [_ [_ HN']]]]]]]]]]. apply HN in X. apply HN' in Hn.
      assert (In n (vertices g0)) by (apply (edge_type_in_l g0 n w); rewrite (wf_sym g0 W0); tauto).
      destruct (zc_deg _ Z n) as [u Hu]; auto. assert (w = u) by (apply Hu; rewrite (wf_sym g0 W0); tauto). assert (w' = u) by (apply Hu; rewrite (wf_sym g0 W0); tauto). congruence.
    + intros u Hu. apply in_app_iff in Hu. destruct Hu as [|[<-|[<-|[]]]]; auto.
    + intros u Hu. apply in_app_iff in Hu. destruct Hu as [|[<-|[<-|[]]]]; auto.
    + apply RuleLemmas.nodup_app; auto. { constructor; [simpl; intuition|constructor; [simpl; tauto|constructor]]. } intros u Hu [<-|[<-|[]]]; tauto.
    + exists g', (k2 * k1)%C. cbn [flat_map cmr cmv cmw cmn]. rewrite <- app_assoc in C2, E2, V2, ND2. change (([v; w] ++ flat_map cmr ms)) with (v :: w :: flat_map cmr ms) in *.
      split; [exact E2|]. split; [exact C2|]. split; [apply Cmult_neq0; auto|]. split; [exact ND2|]. split.
      * intros Y1 Y2. destruct (Y1 _ (or_introl eq_refl)) as [Y3 Y4]. cbn [cmw cmn] in *. rewrite X1, X2; auto; [ring| |].
        -- intros m' Hm'. destruct (Y1 m' (or_intror Hm')) as [Y5 Y6]. assert (Y7 := Y2 (v, w, a, al, ns) m' (or_introl eq_refl) (or_intror Hm')). cbn [cmw] in Y7.
           destruct (HM m' (or_intror Hm')) as [OK' _]. destruct (cfar_facts g0 (v, w, a, al, ns) m' W0 OK OK' (FA m' Hm')) as [Q1 Q2]. cbn [cmv cmw] in *.
           rewrite in_app_iff, HN, Y7. split; [tauto|]. intros n Hn. rewrite in_app_iff. simpl. intros [X|[X|[X|[]]]]; [revert X; apply Y6; auto| |].
           ++ subst n. destruct m' as [[[[v' w'] a'] al'] ns']. cbn [cmv cmw cmn] in *. destruct OK' as [_ [_ [_ [_ [_ [_ [_ [_ [_ [_ HN']]]]]]]]]]. apply HN' in Hn.
              destruct Hn as [Hn _]. rewrite (wf_sym g0 W0) in Hn. apply Ev in Hn. congruence.
           ++ subst n. destruct m' as [[[[v' w'] a'] al'] ns']. cbn [cmv cmw cmn] in *. destruct OK' as [_ [_ [_ [_ [_ [_ [_ [_ [_ [_ HN']]]]]]]]]]. apply HN' in Hn.
              destruct Hn as [Hn _]. rewrite (wf_sym g0 W0) in Hn. congruence.
        -- intros m1 m2 H1 H2. apply Y2; simpl; auto.
      * intros y. rewrite V2, V1. ring.
Qed.

(** ** One round *)
(** vertices that have a Z neighbour *)
Definition zmeas (g : graph) : nat := length (filter (fun v => vtype_eqb (vty g v) ZSP && existsb (fun u => vtype_eqb (vty g u) ZSP) (neighbors g v)) (vertices g)).
Lemma filter_len_lt : forall (f f' : nat -> bool) L L' a, NoDup L' -> (forall u, In u L' -> f' u = true -> In u L /\ f u = true /\ u <> a) -> In a L -> f a = true ->
  length (filter f' L') < length (filter f L).
Proof.
  intros f f' L L' a ND H Ia Fa. assert (X : NoDup (a :: filter f' L')).
  { constructor; [|apply NoDup_filter; auto]. intros Y. apply filter_In in Y. destruct Y as [Y1 Y2]. destruct (H a Y1 Y2) as [_ [_ Z]]. congruence. }
  apply (NoDup_incl_length X). intros u [<-|Hu]; apply filter_In; auto. apply filter_In in Hu. destruct Hu as [Hu Fu]. destruct (H u Hu Fu) as [A [B _]]. auto.
Qed.
Lemma zmeas_spec : forall g v, vtype_eqb (vty g v) ZSP && existsb (fun u => vtype_eqb (vty g u) ZSP) (neighbors g v) = true <-> vty g v = ZSP /\ exists u, edge_type g v u <> None /\ vty g u = ZSP.
Proof.
  intros g v. rewrite andb_true_iff, vtype_eqb_eq, existsb_exists. split; intros [A [u [B D]]]; split; auto; exists u; [rewrite neighbors_spec, vtype_eqb_eq in *|rewrite neighbors_spec, vtype_eqb_eq]; auto.
Qed.
Lemma copy_round : forall g ms, zcopy g -> (forall m, In m ms -> cm_ok g m) -> ForallOrdPairs cfar ms ->
  exists o g', apply_copy ms g = Ok o /\ apply_rw o = Ok g' /\ zcopy g' /\ (ms <> [] -> zmeas g' < zmeas g) /\ same_upto g g' /\
  ((forall m1 m2, In m1 ms -> In m2 ms -> edge_type g (cmw m1) (cmw m2) = None) -> map_kept g g').
Proof.
  intros g ms Z OK FO. assert (ZX := zc_zx _ Z). assert (W := zx_wf _ ZX). assert (GL := zc_gl _ Z).
  destruct (copy_fold ms g [] g [] Z) as [g1 [k [E [H [K [ND [EX V]]]]]]]; auto.
  { apply cst_refl; auto; [apply ZX|apply ZX|apply Z]. }
  { intros m Hm. split; auto. unfold fits. simpl. auto. }
  { intros u []. } { intros u []. } { constructor. }
  cbn [app] in *. set (P := flat_map cmn ms) in *. set (rem := flat_map cmr ms) in *.
  exists (mkRw g1 [] rem [] true). unfold apply_copy. rewrite E. cbn [bind].
  assert (RM : forall u, In u rem -> In u (vertices g) /\ vty g u = ZSP).
  { intros u Hu. apply in_flat_map in Hu. destruct Hu as [[[[[v w] a] al] ns] [Hm Hu]]. destruct (OK _ Hm) as [Iv [Iw [_ [Tv [Tw _]]]]]. destruct Hu as [<-|[<-|[]]]; auto. }
  assert (W1 := cs_wf _ _ _ H). destruct (remove_vertices_ok rem g1 W1 (cs_loop _ _ _ H) ND) as [g3 E3]. { intros u Hu. apply (cs_vs _ _ _ H), RM; auto. }
  assert (R := remove_vertices_spec _ _ _ W1 E3).
  assert (I3 : forall u, In u (vertices g3) <-> In u (vertices g1) /\ ~ In u rem) by (intros u; rewrite (rm_vs _ _ _ R), filter_In, negb_true_iff, mem_false; tauto).
  assert (T3 : forall u, In u (vertices g) -> ~ In u rem -> vty g3 u = vty g u) by (intros u Hu N; rewrite (rm_ty _ _ _ R), (cs_ty _ _ _ H); auto).
  assert (T3n : forall u, In u (vertices g3) -> ~ In u (vertices g) -> vty g3 u = ZSP). { intros u Hu N. apply I3 in Hu. rewrite (rm_ty _ _ _ R) by tauto. apply (cs_new _ _ _ H); tauto. }
  assert (B3 : forall u, In u (vertices g3) -> vty g3 u = BOUNDARY -> In u (vertices g) /\ vty g u = BOUNDARY).
  { intros u Hu T. destruct (in_dec Nat.eq_dec u (vertices g)) as [I|I]; [|rewrite T3n in T by auto; discriminate]. rewrite T3 in T; auto. apply I3 in Hu. tauto. }
  assert (IO3 : ginputs g3 = ginputs g /\ goutputs g3 = goutputs g).
  { rewrite (rm_inputs _ _ _ R), (rm_outputs _ _ _ R), (cs_i _ _ _ H), (cs_o _ _ _ H). split; apply filter_true; intros u Hu; apply negb_true_iff, mem_false; intros X; destruct (RM u X) as [_ T];
      destruct (zx_io g ZX u) as [_ B]; auto; unfold isB in B; rewrite T in B; discriminate. }
  destruct IO3 as [GI3 GO3].
  assert (Z3 : zxok g3).
  { constructor; [apply R|eapply removed_noloop; eauto; apply H| | |].
    - intros u Hu. destruct (in_dec Nat.eq_dec u (vertices g)) as [I|I]; [rewrite T3; auto; [apply ZX; auto|apply I3 in Hu; tauto]|]. rewrite T3n by auto. discriminate.
    - intros u Hu. apply I3 in Hu. rewrite (rm_phase _ _ _ R) by tauto. apply (cs_in02 _ _ _ H). tauto.
    - rewrite GI3, GO3. intros u Hu. destruct (zx_io g ZX u Hu) as [Iu Bu]. assert (N : ~ In u rem) by (intros X; destruct (RM u X) as [_ T]; unfold isB in Bu; rewrite T in Bu; discriminate).
      split; [apply I3; split; auto; apply (cs_vs _ _ _ H); auto|]. unfold isB. rewrite T3; auto. }
  assert (D3 : bdeg g3).
  { intros b Hb Tb. destruct (B3 b Hb Tb) as [Ib Tb0]. destruct (zc_deg _ Z b Ib Tb0) as [u0 Hu0]. assert (Nb : ~ In b rem) by (apply I3 in Hb; tauto).
    assert (I0 : In u0 (vertices g)). { apply (edge_type_in_l g u0 b). rewrite (wf_sym g W). apply Hu0; auto. }
    assert (OLD : forall t, edge_type g1 b t <> None -> In t (vertices g) -> t = u0). { intros t X It. rewrite (cs_old _ _ _ H) in X by auto. apply Hu0; auto. }
    destruct (in_dec Nat.eq_dec b P) as [Pb|Pb].
    - destruct (cs_b1 _ _ _ H b Ib Tb0 Pb) as [u [Nu Hu]]. exists u. intros t. rewrite (rm_edge _ _ _ R), (proj2 (mem_false _ _) Nb). cbn [orb].
      apply in_flat_map in Pb. destruct Pb as [[[[[v w] a] al] ns] [Hm Hn]]. cbn [cmn] in Hn. destruct (OK _ Hm) as [_ [_ [_ [_ [_ [_ [_ [_ [_ [_ HN]]]]]]]]]]. apply HN in Hn.
      assert (w = u0) by (apply Hu0; rewrite (wf_sym g W); tauto). assert (Rw : In u0 rem) by (subst w; apply in_flat_map; eexists; split; [exact Hm|simpl; auto]).
      destruct (mem t rem) eqn:M.
      + split; [congruence|]. intros ->. exfalso. apply mem_spec in M. apply RM in M. tauto.
      + destruct (in_dec Nat.eq_dec t (vertices g)) as [It|It]; [|apply Hu; auto]. split.
        * intros X. exfalso. apply mem_false in M. apply M. rewrite (OLD t X It). auto.
        * intros ->. contradiction.
    - exists u0. intros t. rewrite (rm_edge _ _ _ R), (proj2 (mem_false _ _) Nb). cbn [orb].
      assert (N0 : ~ In u0 rem).
      { intros X. apply in_flat_map in X. destruct X as [[[[[v w] a] al] ns] [Hm X]]. destruct (OK _ Hm) as [_ [_ [_ [Tv [Tw [Ev [_ [_ [_ [_ HN]]]]]]]]]].
        assert (Y : edge_type g u0 b <> None) by (rewrite (wf_sym g W); apply Hu0; auto). destruct X as [X|[X|[]]]; cbn [cmv cmw] in X; subst u0.
        - apply Ev in Y. congruence.
        - apply Pb. apply in_flat_map. exists (v, w, a, al, ns). split; auto. apply HN. split; auto. intros ->. congruence. }
      destruct (in_dec Nat.eq_dec t (vertices g)) as [It|It].
      + destruct (mem t rem) eqn:M; [split; [congruence|intros ->; apply mem_spec in M; contradiction]|]. rewrite (cs_old _ _ _ H) by auto. apply Hu0.
      + rewrite (cs_b0 _ _ _ H) by auto. destruct (mem t rem); split; try congruence; intros ->; contradiction. }
  destruct (remove_vertices_bfix _ _ _ W1 E3) as [_ BF3].
  assert (C3 : zcopy g3).
  { constructor; auto.
    - eapply bfix_rows; eauto. apply H.
    - intros b Hb Tb. rewrite GI3, GO3. destruct (B3 b Hb Tb). apply (zc_io _ Z); auto.
    - split.
      + intros u Hu. destruct (in_dec Nat.eq_dec u (vertices g)) as [I|I]; [rewrite T3; auto; [apply GL; auto|apply I3 in Hu; tauto]|]. left. apply T3n; auto.
      + intros u t e X Tu Tt. assert (Iu : In u (vertices g3)) by (apply (edge_type_in_l g3 u t); congruence). assert (It : In t (vertices g3)) by (apply (edge_type_in_l g3 t u); rewrite (wf_sym g3 (rm_wf _ _ _ R)); congruence).
        assert (Nu : ~ In u rem) by (apply I3 in Iu; tauto). assert (Nt : ~ In t rem) by (apply I3 in It; tauto).
        rewrite (rm_edge _ _ _ R), (proj2 (mem_false _ _) Nu), (proj2 (mem_false _ _) Nt) in X. cbn [orb] in X.
        destruct (in_dec Nat.eq_dec u (vertices g)) as [Ju|Ju].
        * destruct (in_dec Nat.eq_dec t (vertices g)) as [Jt|Jt].
          -- rewrite (cs_old _ _ _ H) in X by auto. rewrite T3 in Tu, Tt by auto. apply (proj2 GL u t); auto.
          -- rewrite (wf_sym g1 W1) in X. destruct (cs_ne _ _ _ H t u Jt) as [_ Y]; [congruence|]. rewrite T3 in Tu by auto. congruence.
        * destruct (cs_ne _ _ _ H u t Ju) as [Y1 Y2]; [congruence|]. rewrite T3 in Tt by auto. congruence. }
  assert (SM : forall y, sem g3 y = (k * sem g y)%C).
  { intros y. rewrite (semL_removed _ _ _ _ R), V, sem_semL. f_equal. f_equal. unfold without. apply filter_true. intros; auto. }
  destruct (isolated_ok g3 Z3 D3) as [g4 [rem4 [s4 [E4 [R4 [N4 C4]]]]]]. exists g4. split; [reflexivity|].
  assert (AR : apply_rw (mkRw g1 [] rem [] true) = Ok g4). { unfold apply_rw. cbn [rw_etab rw_graph rw_edges rw_verts rw_check add_edge_table remove_edges foldM]. cbn. rewrite E3. cbn [bind]. exact E4. }
  split; auto. destruct (isolated_bfix _ _ (zx_wf _ Z3) E4) as [W4 BF4].
  assert (S4 : step_k nonzero g3 g4) by (apply (remove_isolated_good nonzero anyph g3 g4); auto; [apply good_nonzero|apply zxi_any; auto]).
  destruct S4 as [Z4 [GI4 [GO4 [k4 [K4 S4]]]]].
  split; [|split; [|split]].
  - constructor; auto.
    + apply (closed_bdeg rem4 (with_scalar s4 g3)); auto; try exact (on_scalar_wfg (fun _ => s4) g3 (rm_wf _ _ _ R)).
    + eapply bfix_rows; eauto. apply C3.
    + eapply bfix_bio; eauto. apply C3.
    + apply (removed_glike rem4 (with_scalar s4 g3)); auto; try (apply glike_scalar; apply C3).
  - intros NE. destruct ms as [|[[[[v w] a] al] ns] ms]; [congruence|]. destruct (OK _ (or_introl eq_refl)) as [Iv [Iw [D [Tv [Tw [Ev _]]]]]].
    apply (filter_len_lt _ _ _ _ v); auto; [apply wf_nd; auto| |].
    + intros u Hu F. apply zmeas_spec in F. destruct F as [Tu [t [Et Tt]]]. assert (It : In t (vertices g4)) by (apply (edge_type_in_l g4 t u); rewrite (wf_sym g4 W4); auto).
      rewrite (bf_ty _ _ BF4) in Tu, Tt by auto. apply (bf_in _ _ BF4) in Hu, It. rewrite (rm_edge _ _ _ R4) in Et. destruct (mem u rem4 || mem t rem4); [congruence|].
      change (edge_type (with_scalar s4 g3) u t) with (edge_type g3 u t) in Et.
      assert (Nu : ~ In u rem) by (apply I3 in Hu; tauto). assert (Nt : ~ In t rem) by (apply I3 in It; tauto).
      rewrite (rm_edge _ _ _ R), (proj2 (mem_false _ _) Nu), (proj2 (mem_false _ _) Nt) in Et. cbn [orb] in Et.
      assert (Ju : In u (vertices g)).
      { destruct (in_dec Nat.eq_dec u (vertices g)) as [J|J]; auto. exfalso. destruct (cs_ne _ _ _ H u t J Et) as [Y1 Y2]. rewrite T3 in Tt by auto. congruence. }
      assert (Jt : In t (vertices g)).
      { destruct (in_dec Nat.eq_dec t (vertices g)) as [J|J]; auto. exfalso. rewrite (wf_sym g1 W1) in Et. destruct (cs_ne _ _ _ H t u J Et) as [Y1 Y2]. rewrite T3 in Tu by auto. congruence. }
      split; auto. rewrite T3 in Tu, Tt by auto. rewrite (cs_old _ _ _ H) in Et by auto. split; [apply zmeas_spec; split; auto; exists t; auto|]. intros ->. apply Nu. simpl; auto.
    + apply zmeas_spec. split; auto. exists w. split; auto. apply Ev; auto.
  - split; [congruence|]. split; [congruence|]. exists (k4 * k)%C. split; [apply Cmult_neq0; auto|]. intros b. rewrite S4, SM. ring.
  - intros NA. assert (K1 : k = C1). { apply EX; auto. }
    split.
    + split; [congruence|]. split; [congruence|]. exists (k4 * k)%C. split; [apply Cmult_neq0; auto|]. intros b. rewrite S4, SM. ring.
    + intros Q. destruct (remove_isolated_kept g3 g4 Z3 E4) as [_ [_ A3]]. destruct A3 as [_ [_ A3]]; [exact (allph_removed _ _ _ _ R (cs_q _ _ _ H Q))|].
      split; [congruence|]. split; [congruence|]. intros b. rewrite A3, SM, K1. ring.
Qed.

(** ** copy_simp *)
Lemma copy_once : forall g c, zcopy g -> ok_vertices AllC g c ->
  exists b g', simp_once (fun g => Ok (match_copy c g, g)) apply_copy g = Ok (b, g') /\ zcopy g' /\ (if b then zmeas g' < zmeas g else g' = g) /\ same_upto g g' /\
  ((forall m1 m2, In m1 (match_copy c g) -> In m2 (match_copy c g) -> edge_type g (cmw m1) (cmw m2) = None) -> map_kept g g').
Proof.
  intros g c Z Oc. assert (W := zx_wf _ (zc_zx _ Z)).
  destruct (match_copy_ok g c [] W (zx_noloop _ (zc_zx _ Z))) as [H1 H2]; [exact (cand_ok_nd _ _ _ _ Oc (wf_nd g W))|intros v Hv; exact (cand_ok_in _ _ _ _ _ Oc Hv)|].
  fold (match_copy c g) in H1, H2. unfold simp_once. cbn [bind]. destruct (match_copy c g) as [|m ms] eqn:EM.
  - exists false, g. split; auto. split; auto. split; auto. split; [apply same_upto_refl|]. intros _. split; [apply same_upto_refl|]. intros _. repeat split; auto.
  - rewrite <- EM in *. destruct (copy_round g (match_copy c g) Z) as [o [g' [E1 [E2 [Z' [M [S X]]]]]]]; auto; [intros m' Hm'; apply H1; auto|].
    rewrite E1. cbn [bind]. rewrite E2. cbn [bind]. exists true, g'. split; auto. split; auto. split; auto. apply M. congruence.
Qed.
Lemma same_upto_trans : forall a b c, same_upto a b -> same_upto b c -> same_upto a c.
Proof.
  intros a b c [I1 [O1 [k1 [K1 S1]]]] [I2 [O2 [k2 [K2 S2]]]]. split; [congruence|]. split; [congruence|]. exists (k2 * k1)%C. split; [apply Cmult_neq0; auto|]. intros y. rewrite S2, S1. ring.
Qed.
Theorem copy_simp_halts : forall g, zcopy g -> halts copy_simp g.
Proof.
  intros g Z. unfold copy_simp. apply (simp_halts _ _ _ zcopy zmeas); auto. intros c h b h' Zh Oc E. destruct (copy_once h c Zh Oc) as [b' [g' [E' [Z' [M _]]]]].
  rewrite E' in E. injection E as <- <-. auto.
Qed.
(** a state that can be copied *)
Definition copyable (g : graph) (v w : nat) : Prop := In v (vertices g) /\ vty g v = ZSP /\ is_pauli (phase g v) = true /\ vty g w = ZSP /\ forall u, edge_type g v u <> None <-> u = w.
Lemma copyable_none : forall g c, wfg g -> Permutation c (vertices g) -> match_copy c g = [] -> forall v w, ~ copyable g v w.
Proof.
  intros g c W PM E v w [Iv [Tv [Pv [Tw Ev]]]]. assert (Ic : In v c) by (eapply Permutation_in; [symmetry; exact PM|auto]).
  assert (X : neighbors g v = [w]).
  { assert (L : Permutation (neighbors g v) [w]) by (apply nodup_same_perm; [apply neighbors_nd; auto|constructor; [simpl; tauto|constructor]|]; intros u; rewrite neighbors_spec, Ev; simpl; intuition).
    symmetry in L. apply Permutation_length_1_inv in L. auto. }
  revert E. unfold match_copy. clear PM. induction c as [|u c IH]; [destruct Ic|]. cbn [match_copy_loop]. cbn [nmem existsb].
  destruct (Nat.eq_dec u v) as [->|D].
  - rewrite Pv, Tv, X, Tw. cbn. discriminate.
  - destruct Ic as [->|Ic]; [contradiction|]. destruct (negb _ || negb _); [apply IH; auto|]. destruct (neighbors g u) as [|w' [|]]; try (apply IH; auto). destruct (negb _); [apply IH; auto|discriminate].
Qed.
Theorem copy_simp_correct : forall g r, zcopy g -> run copy_simp g r ->
  exists n g', r = Ok (n, g') /\ zcopy g' /\ same_upto g g' /\ forall v w, ~ copyable g' v w.
Proof.
  intros g r Z R.
  assert (T : exists n g', r = Ok (n, g') /\ zcopy g' /\ same_upto g g').
  { refine (tot_loop _ _ (fun i g' => zcopy g' /\ same_upto g g') (fun i g' => zcopy g' /\ same_upto g g') _ 0 g r _ R); [|split; auto; apply same_upto_refl].
    intros i h r' [HI' S] [[e [[c [Oc E]] ->]]|[b [g1 [[c [Oc E]] R']]]].
    - destruct (copy_once h c HI' Oc) as [b [g' [E' _]]]. unfold simp_once in *. congruence.
    - destruct (copy_once h c HI' Oc) as [b' [g' [E' [Z' [M [S' _]]]]]]. unfold simp_once in *. rewrite E' in E. injection E as -> ->. exists (if b' then i + 1 else i, b'), g'.
      split; [exact R'|]. cbn [fst snd]. assert (same_upto g g') by (eapply same_upto_trans; eauto). destruct b'; auto. }
  destruct T as [n [g' [-> [Z' S]]]]. exists n, g'. split; auto. split; auto. split; auto.
  destruct (simp_result (ok_vertices AllC) (fun c g => Ok (match_copy c g, g)) (fun _ => apply_copy) zcopy zmeas) with (g := g) (n := n) (g' := g') (2 := Z) (3 := R) as [_ [_ [c [Oc E]]]].
  { intros c h b h' Zh Oc E. destruct (copy_once h c Zh Oc) as [b' [g2 [E' [Z2 [M _]]]]]. rewrite E' in E. injection E as <- <-. auto. }
  injection E as E. apply (copyable_none g' c); auto. apply Z'.
Qed.
(** exact when no two of the spiders to be removed are joined *)
Theorem copy_once_exact : forall g c b g', zcopy g -> Permutation c (vertices g) ->
  (forall v1 w1 v2 w2, copyable g v1 w1 -> copyable g v2 w2 -> edge_type g w1 w2 = None) ->
  simp_once (fun g => Ok (match_copy c g, g)) apply_copy g = Ok (b, g') -> map_kept g g'.
Proof.
  intros g c b g' Z Oc H E. assert (W := zx_wf _ (zc_zx _ Z)). destruct (copy_once g c Z Oc) as [b' [g2 [E' [_ [_ [_ X]]]]]]. rewrite E' in E. injection E as <- <-. apply X.
  destruct (match_copy_ok g c [] W (zx_noloop _ (zc_zx _ Z))) as [H1 _]; [exact (cand_ok_nd _ AllC _ _ Oc (wf_nd g W))|intros v Hv; exact (cand_ok_in _ AllC _ _ _ Oc Hv)|].
  intros m1 m2 M1 M2. destruct (H1 m1 M1) as [O1 _], (H1 m2 M2) as [O2 _]. destruct m1 as [[[[v1 w1] a1] l1] n1], m2 as [[[[v2 w2] a2] l2] n2]. cbn [cmw].
  destruct O1 as [A1 [A2 [A3 [A4 [A5 [A6 [A7 [A8 _]]]]]]]], O2 as [B1 [B2 [B3 [B4 [B5 [B6 [B7 [B8 _]]]]]]]]. subst a1 a2. apply (H v1 w1 v2 w2); unfold copyable; auto.
Qed.

Lemma live_copy : live copy_simp.
Proof. apply live_simp. intros g. apply (cand_ex _ AllC (vertices g)). Qed.
Theorem copy_simp_ok : forall g, zcopy g -> halts copy_simp g /\ (exists r, run copy_simp g r) /\
  forall r, run copy_simp g r -> exists n g', r = Ok (n, g') /\ zcopy g' /\ same_upto g g' /\ forall v w, ~ copyable g' v w.
Proof.
  intros g Z. assert (H := copy_simp_halts g Z). split; auto. split; [apply live_copy; auto|]. intros r R. apply copy_simp_correct; auto.
Qed.

(** ** Two states on joined spiders *)
Definition ex_two_copies : graph := mkgraph [(ZSP, 0%Qc); (ZSP, 0%Qc); (ZSP, 0%Qc); (ZSP, 0%Qc)] [(0,1,HADAMARD); (1,2,HADAMARD); (2,3,HADAMARD)] [] [].
Lemma two_copies_sem : forall b, sem ex_two_copies b = sq2p 1.
Proof.
  intros b. transitivity ((sq2p (-1) * sq2p (-1) * (C1 + C1)) * sq2p (-1) * (C1 + C1))%C.
  - unfold sem. replace (internal ex_two_copies) with [0;1;2;3] by reflexivity. unfold_sem. change {| this := 0; canon := Qred_involutive 0 |} with 0%Qc. rewrite ?cexp_0.
    unfold to_number. simpl. rewrite ?cexp_0, ?sq2p_0. ring.
  - rewrite <- sq2p_2, <- !sq2p_add. reflexivity.
Qed.
Theorem copy_simp_refuted : exists g n g', zinv g /\ glike g /\ allph quarter g /\ run copy_simp g (Ok (n, g')) /\ forall b, sem g' b <> sem g b.
Proof.
  assert (E : exists g', exec_copy 5 ex_two_copies = Some (1, g') /\ vertices g' = [] /\ to_number (gscalar g') = C1).
  { eexists. split; [vm_compute; reflexivity|]. split; [reflexivity|]. unfold to_number. simpl. rewrite ?cexp_0, ?sq2p_0. 
    change {| this := 0; canon := Qred_involutive 0 |} with 0%Qc. rewrite ?cexp_0. change (R1, R0) with C1. ring. }
  destruct E as [g' [E [V S]]]. exists ex_two_copies, 1, g'. assert (Z : zinv ex_two_copies) by (apply zinvb_ok; vm_compute; reflexivity).
  split; auto. split; [apply RedFacts.glikeb_ok; [apply Z| |]; vm_compute; reflexivity|]. split; [apply allqb_ok; vm_compute; reflexivity|]. split; [apply (exec_copy_run 5); exact E|].
  intros b. rewrite two_copies_sem, sem_nil, S by auto. intros H. rewrite sq2p_1 in H. apply (f_equal fst) in H. unfold sq2, C1, RtoC in H. simpl in H.
  assert (1 < sqrt 2)%R by (rewrite <- sqrt_1 at 1; apply sqrt_lt_1; lra). lra.
Qed.
