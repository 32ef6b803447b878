(** pivot_gadget_simp and pivot_boundary_simp return normally and keep the
    invariants of [zinv] and graph-likeness. *)
From Coq Require Import Reals ZArith QArith Qcanon List Bool Arith Lia Permutation.
From Verif Require Import CNum Base ScalarModel ScalarProofs GraphModel GraphSem SumLemmas GraphProofs GraphOps StoreProofs
  RulesModel RuleLemmas SpiderProofs IsoProofs IdProofs LcompProofs PivotProofs GrowProofs PivotMatch GadgetProofs
  SimpModel ColorProofs SimpProofs PairProofs RuleShape TermProofs InvProofs RoundProofs BfixProofs TotalProofs.
Import ListNotations.
Open Scope nat_scope.

(** ** the matchers raise nothing *)
Lemma row_r_ok : forall g v, rows_ok g -> In v (vertices g) -> exists r, row_r g v = Ok r.
Proof. intros g v R Hv. unfold row_r. destruct (dget v (grindex g)) as [r|] eqn:E; [exists r; reflexivity|exfalso; exact (R v Hv E)]. Qed.
Lemma add_vertex_rows : forall t q r p g g' v, wfg g -> rows_ok g -> add_vertex t q r (Some p) g = (g', v) ->
  wfg g' /\ rows_ok g' /\ vertices g' = vertices g ++ [v].
Proof.
  intros t q r p g g' v W R H. destruct (add_vertex_spec _ _ _ _ _ _ _ W H) as [Ev [W' [V' _]]]. split; auto. split; auto.
  unfold add_vertex in H. cbn [add_vertices fst seq fold_left] in H. injection H as H _.
  assert (RI : grindex g' = dset (gvindex g) r (grindex (fst (add_vertices 1 g)))) by (subst g'; destruct (qeqb p 0%Qc); reflexivity).
  intros u Hu. rewrite RI, dget_dset. destruct (Nat.eqb_spec u (gvindex g)); [discriminate|].
  assert (RI0 : dget u (grindex (fst (add_vertices 1 g))) = dget u (grindex g)) by reflexivity. rewrite RI0.
  apply R. rewrite V', in_app_iff in Hu. destruct Hu as [|[<-|[]]]; auto. congruence.
Qed.
Lemma set_phase_rows : forall v p g, rows_ok g -> In v (vertices g) -> rows_ok (set_phase v p g).
Proof. intros v p g R Hv u Hu. apply R. exact Hu. Qed.

Lemma mpg_total : forall num cands i disc el g, wfg g -> rows_ok g ->
  (forall e, In e cands -> In (fst e) (vertices g) /\ In (snd e) (vertices g)) ->
  exists ms el' g', match_pivot_gadget_loop num i cands disc el g = Ok (ms, el', g') /\ wfg g' /\ rows_ok g'.
Proof.
  intros num cands. induction cands as [|e cands IH]; intros i disc el g W R HC.
  - exists [], el, g. auto.
  - cbn [match_pivot_gadget_loop]. assert (HC' : forall e, In e cands -> In (fst e) (vertices g) /\ In (snd e) (vertices g)) by (intros; apply HC; right; auto).
    destruct (lim_reached num i); [exists [], el, g; auto|]. destruct (emem e disc); [apply IH; auto|]. destruct e as [e0 e1].
    destruct (HC _ (or_introl eq_refl)) as [I0 I1]. cbn [fst snd] in I0, I1.
    destruct (negb _); [apply IH; auto|].
    destruct (if negb (is_pauli (phase g e0)) then _ else _) as [[[v0 v1] p1]|] eqn:SEL; [|apply IH; auto].
    assert (X : In v0 (vertices g) /\ In v1 (vertices g)).
    { destruct (is_pauli (phase g e0)); cbn [negb] in SEL; destruct (is_pauli (phase g e1)); try discriminate; injection SEL as <- <- <-; auto. }
    destruct X as [J0 J1].
    destruct (Nat.eqb _ 1); [apply IH; auto|].
    destruct (gadget_scan g true _ _) as [d0|]; [|apply IH; auto]. destruct (gadget_scan g false _ _) as [d1|]; [|apply IH; auto].
    destruct (row_r_ok g v0 R J0) as [r ->]. cbn [bind].
    destruct (add_vertex ZSP (Qcz (-2)) r (Some p1) g) as [g1 v] eqn:AV.
    destruct (add_vertex_rows _ _ _ _ _ _ _ W R AV) as [W1 [R1 V1]].
    assert (J1' : In v1 (vertices g1)) by (rewrite V1, in_app_iff; auto).
    match goal with |- context [match_pivot_gadget_loop num 2 cands ?d ?l ?h] => destruct (IH 2 d l h) as [ms [el' [g' [-> [W' R']]]]] end.
    + assert (WP : wfg (set_phase v1 0%Qc g1)) by (apply set_phase_wfg; auto). destruct WP. constructor; auto.
    + intros u Hu. apply (R1 u). exact Hu.
    + intros f Hf. change (In (fst f) (vertices g1) /\ In (snd f) (vertices g1)). rewrite V1, !in_app_iff. destruct (HC' f Hf); auto.
    + cbn [bind]. eauto 10.
Qed.
Lemma mpb_total : forall num cands i disc consumed el g, wfg g -> rows_ok g ->
  (forall v, In v cands -> In v (vertices g)) ->
  exists ms el' g', match_pivot_boundary_loop num i cands disc consumed el g = Ok (ms, el', g') /\ wfg g' /\ rows_ok g'.
Proof.
  intros num cands. induction cands as [|v cands IH]; intros i disc consumed el g W R HC.
  - exists [], el, g. auto.
  - cbn [match_pivot_boundary_loop]. assert (HC' : forall v, In v cands -> In v (vertices g)) by (intros; apply HC; right; auto).
    destruct (lim_reached num i); [exists [], el, g; auto|]. destruct (nmem v disc); [apply IH; auto|].
    destruct (_ || _); [apply IH; auto|].
    destruct (boundary_scan g consumed (neighbors g v) None) as [[[w bound]|]|] eqn:BS; try (apply IH; auto; fail).
    destruct (boundary_scan_spec _ _ _ _ _ BS) as [_ S2]. destruct S2 as [S2|[w' [b' [S2 [S3 _]]]]]; [discriminate|]. injection S2 as <- <-.
    assert (Iw : In w (vertices g)) by (apply (neighbors_in g v); auto).
    destruct (row_r_ok g w R Iw) as [r ->]. cbn [bind].
    destruct (add_vertex ZSP (Qcz (-2)) _ (Some (phase g w)) g) as [g1 v1] eqn:A1.
    destruct (add_vertex_rows _ _ _ _ _ _ _ W R A1) as [W1 [R1 V1]].
    assert (Iw1 : In w (vertices g1)) by (rewrite V1, in_app_iff; auto).
    destruct (row_r_ok g1 w R1 Iw1) as [r2 ->]. cbn [bind].
    destruct (add_vertex ZSP (Qcz (-1)) _ (Some 0%Qc) g1) as [g2 v2] eqn:A2.
    destruct (add_vertex_rows _ _ _ _ _ _ _ W1 R1 A2) as [W2 [R2 V2]].
    match goal with |- context [match_pivot_boundary_loop num (i + 1) cands ?d ?c ?l ?h] => destruct (IH (i + 1) d c l h) as [ms [el' [g' [-> [W' R']]]]] end.
    + apply set_phase_wfg; auto. rewrite V2, in_app_iff; auto.
    + intros u Hu. apply (R2 u). exact Hu.
    + intros f Hf. change (In f (vertices g2)). rewrite V2, V1, !in_app_iff. auto.
    + cbn [bind]. eauto 10.
Qed.
Lemma add_edges_rindex : forall es et g g', add_edges es et g = Ok g' -> grindex g' = grindex g.
Proof.
  unfold add_edges. induction es as [|[s t] es IH]; intros et g g' H; [injection H as <-; reflexivity|].
  cbn [foldM] in H. inv_bind H. apply IH in H. rewrite H. unfold set_edge_type in E. inv_bind E. inv_bind E. injection E as <-. reflexivity.
Qed.
Lemma add_edges_ok : forall es et g, wfg g -> (forall s t, In (s, t) es -> In s (vertices g) /\ In t (vertices g)) -> exists g', add_edges es et g = Ok g'.
Proof.
  unfold add_edges. induction es as [|[s t] es IH]; intros et g W H; [eexists; reflexivity|].
  cbn [foldM]. destruct (H s t (or_introl eq_refl)) as [I1 I2].
  destruct (set_edge_type_ok s t et (with_nedges (gnedges g + 1) g) I1 I2) as [g1 E]. rewrite E. cbn [bind].
  apply set_edge_type_spec in E; [|apply wfg_nedges; auto]. destruct E as [W1 [F _]]. apply IH; auto. intros a b Hab. destruct F as [VV _].
  change (vertices (with_nedges (gnedges g + 1) g)) with (vertices g) in VV. rewrite VV. apply H. right; auto.
Qed.

(** what a matcher that splits off phases guarantees *)
Record grow_res (g g2 : graph) (ms : list pmatch) : Prop := mkgrow {
  gw_z : zinv g2;
  gw_step : step_ok g g2;
  gw_ph : forall P : Qc -> Prop, P 0%Qc -> allph P g -> allph P g2;
  gw_ok : forall m, In m ms -> pv_ok g2 m;
  gw_far : ForallOrdPairs (pv_far g2) ms;
  gw_gl : glikeL (keep (flat_map pv_rem ms) g2) g2;
  gw_leaf : forall m, In m ms -> pv_leaf g2 m;
  gw_nil : ms = [] -> g2 = g
}.

Lemma grown_zinv : forall g g1 mv g2, zinv g -> grown g g1 mv -> same_frame g1 g2 -> gphase g2 = gphase g1 -> zxok g2 -> rows_ok g2 ->
  (forall u v, In u (vertices g) -> In v (vertices g) -> edge_type g2 u v = edge_type g u v) ->
  (forall b v, In b (vertices g) -> vty g b = BOUNDARY -> ~ In v (vertices g) -> edge_type g2 b v = None) -> zinv g2.
Proof.
  intros g g1 mv g2 [ZX D P RW IO] G F PH Z2 R2 E1 E2.
  assert (T2 : forall u, In u (vertices g) -> vty g2 u = vty g u) by (intros; rewrite (same_frame_vty g1 g2) by auto; apply G; auto).
  assert (VV : forall b, In b (vertices g2) -> vty g2 b = BOUNDARY -> In b (vertices g) /\ vty g b = BOUNDARY).
  { intros b Hb T. rewrite (proj1 F), (gr_vs _ _ _ G), in_app_iff in Hb. destruct Hb as [Hb|Hb]; [rewrite T2 in T; auto|].
    rewrite (same_frame_vty g1 g2), (gr_tn _ _ _ G) in T by auto. discriminate. }
  constructor; auto.
  - intros b Hb T. destruct (VV b Hb T) as [Ib Tb]. destruct (D b Ib Tb) as [u Hu]. exists u. intros w.
    destruct (in_dec Nat.eq_dec w (vertices g)) as [Iw|Iw]; [rewrite E1 by auto; apply Hu|]. rewrite E2 by auto. split; [congruence|].
    intros ->. exfalso. apply Iw. apply (edge_type_in_l g u b). rewrite (wf_sym g (zx_wf g ZX)). apply Hu. auto.
  - intros b Hb T. destruct (VV b Hb T) as [Ib Tb]. unfold phase. rewrite PH. fold (phase g1 b). rewrite (gr_ph _ _ _ G); auto.
    intros X. apply in_map_iff in X. destruct X as [[w ns] [X1 X2]]. destruct (gr_mv _ _ _ G _ _ X2) as [_ [M _]]. cbn [fst] in X1. congruence.
  - intros b Hb T. destruct (VV b Hb T) as [Ib Tb]. destruct F as [_ [_ [F3 [F4 _]]]]. rewrite F3, F4, (gr_in _ _ _ G), (gr_out _ _ _ G). apply IO; auto.
Qed.

Lemma match_pivot_gadget_total : forall g cands num, zinv g -> glike g -> (forall e, In e cands -> In e (edges g)) ->
  exists ms g2, match_pivot_gadget cands num g = Ok (ms, g2) /\ grow_res g g2 ms.
Proof.
  intros g cands num Z GL HC. assert (ZX := zi_zx g Z). assert (W := zx_wf g ZX). assert (NL := zx_noloop g ZX).
  destruct (mpg_total num cands 0 [] [] g W (zi_rows g Z)) as [ms [el [g1 [E [W1 R1]]]]].
  { intros [a b] He. apply HC, in_edges in He; auto. destruct He as [_ He]. cbn [fst snd]. split; [apply (edge_type_in_l g a b)|apply (edge_type_in_l g b a); rewrite (wf_sym g W)]; auto. }
  assert (E' := E). apply mpg_loop with (g := g) (mv0 := []) in E'; auto; [|exact (zx_ph g ZX)|apply grown_refl; auto].
  destruct E' as [G [EL [OK FAR]]]. simpl in G, EL. subst el. set (mv := map gmv ms) in *.
  assert (SG : forall m, In m mv -> exists a, snd m = [a]).
  { intros m Hm. apply in_map_iff in Hm. destruct Hm as [[[v0 w] bb] [<- Hm]]. destruct (OK _ Hm) as [[_ [_ [_ [_ [_ [_ [a A]]]]]]] _].
    simpl in A. subst bb. exists a. reflexivity. }
  destruct (add_edges_ok (map gel mv) SIMPLE g1 W1) as [g2 E2].
  { intros s t Hst. apply in_map_iff in Hst. destruct Hst as [[w ns] [X Y]]. destruct (SG _ Y) as [a Ha]. simpl in Ha. subst ns. unfold gel in X. simpl in X. injection X as <- <-.
    rewrite (gr_vs _ _ _ G), !in_app_iff. split; [right; apply in_flat_map; exists (w, [a]); simpl; auto|left; apply (gr_mv _ _ _ G _ _ Y)]. }
  assert (EM : match_pivot_gadget cands num g = Ok (ms, g2)) by (unfold match_pivot_gadget; rewrite E; cbn [bind]; rewrite E2; reflexivity).
  exists ms, g2. split; auto.
  destruct (match_pivot_gadget_ok g cands num ms g2 ZX GL HC EM) as [S [A [OK2 FAR2]]].
  destruct (grow_gadget g g1 mv g2 ZX G SG E2) as [Z2 [SM [F [PH [E3 E4]]]]].
  assert (T2 : forall u, In u (vertices g) -> vty g2 u = vty g u) by (intros; rewrite (same_frame_vty g1 g2) by auto; apply G; auto).
  assert (W2 := zx_wf g2 Z2).
  assert (NEWE : forall v u, In v (vertices g2) -> ~ In v (vertices g) -> edge_type g2 u v <> None -> exists w, In (w,[v]) mv /\ u = w).
  { intros v u Hv Nv Hn. rewrite (proj1 F), (gr_vs _ _ _ G), in_app_iff in Hv. destruct Hv as [Hv|Hv]; [contradiction|].
    apply in_flat_map in Hv. destruct Hv as [[w ns] [X1 X2]]. destruct (SG _ X1) as [b Hb]. simpl in *. subst ns. destruct X2 as [<-|[]].
    exists w. split; auto. rewrite (wf_sym g2 W2), (E4 _ _ _ X1) in Hn. destruct (Nat.eqb_spec u w); congruence. }
  constructor; auto.
  - apply (grown_zinv g g1 mv g2); auto.
    + intros v Hv. rewrite (add_edges_rindex _ _ _ _ E2). apply R1. rewrite <- (proj1 F). auto.
    + intros b v Hb Tb Nv. destruct (edge_type g2 b v) eqn:X; auto. exfalso.
      destruct (NEWE v b) as [w [M ->]]; auto; [|congruence|].
      * apply (edge_type_in_l g2 v b). rewrite (wf_sym g2 W2). congruence.
      * destruct (gr_mv _ _ _ G _ _ M) as [_ [M2 _]]. congruence.
  - assert (MS : forall w a, In (w,[a]) mv -> In w (flat_map pv_rem ms)).
    { intros w a X. apply in_map_iff in X. destruct X as [m [X1 X2]]. apply in_flat_map. exists m. split; auto.
      destruct (OK m X2) as [O _]. destruct m as [[v0 v1] bb]. destruct O as [_ [_ [_ [_ [_ [_ [a' O]]]]]]]. simpl in O. subst bb. unfold gmv in X1. simpl in X1. injection X1 as <- <-. simpl. auto. }
    split.
    + intros v Hv. rewrite (proj1 F), (gr_vs _ _ _ G), in_app_iff in Hv. destruct Hv as [Hv|Hv]; [rewrite T2 by auto; apply GL; auto|].
      left. rewrite (same_frame_vty g1 g2) by auto. apply G; auto.
    + intros u v e Hu Hv Ee Tu Tv. apply in_keep in Hu, Hv. destruct Hu as [Hu Ru], Hv as [Hv Rv].
      destruct (in_dec Nat.eq_dec v (vertices g)) as [Iv|Iv].
      * destruct (in_dec Nat.eq_dec u (vertices g)) as [Iu|Iu].
        -- rewrite E3 in Ee by auto. rewrite T2 in Tu, Tv by auto. apply (proj2 GL u v); auto.
        -- exfalso. destruct (NEWE u v) as [w [M ->]]; auto; [rewrite (wf_sym g2 W2); congruence|]. apply Rv. eapply MS; eauto.
      * exfalso. destruct (NEWE v u) as [w [M ->]]; auto; [congruence|]. apply Ru. eapply MS; eauto.
  - intros m Hm. destruct (OK m Hm) as [O _]. destruct m as [[v0 v1] bb]. destruct O as [_ [_ [_ [_ [_ [_ [a O]]]]]]]. simpl in O. subst bb.
    assert (MV : In (v1,[a]) mv) by (apply in_map_iff; eexists; split; [|exact Hm]; reflexivity).
    split; [intros u []|]. intros u [<-|[]] _. rewrite (wf_sym g2 W2), (E4 _ _ _ MV), Nat.eqb_refl. reflexivity.
  - intros ->. simpl in mv. subst mv. cbn in E2. injection E2 as <-. 
    assert (NIL : forall num cands i disc el g el' g', match_pivot_gadget_loop num i cands disc el g = Ok ([], el', g') -> g' = g).
    { clear. intros num cands. induction cands as [|e cands IH]; intros i disc el g el' g' H; cbn [match_pivot_gadget_loop] in H; [congruence|].
      repeat (first [discriminate H | (eapply IH; eassumption) | (injection H as <- <-; reflexivity) | match type of H with context [match ?x with _ => _ end] => destruct x eqn:? end]).
      inv_bind H. inv_bind H. destruct a0 as [[? ?] ?]. discriminate. }
    eapply NIL; eauto.
Qed.
Lemma match_pivot_boundary_total : forall g cands num, zinv g -> glike g -> (forall v, In v cands -> In v (vertices g)) -> NoDup cands ->
  exists ms g2, match_pivot_boundary cands num g = Ok (ms, g2) /\ grow_res g g2 ms.
Proof.
  intros g cands num Z GL HC ND. assert (ZX := zi_zx g Z). assert (W := zx_wf g ZX). assert (NL := zx_noloop g ZX).
  destruct (mpb_total num cands 0 [] [] [] g W (zi_rows g Z)) as [ms [el [g1 [E [W1 R1]]]]]; auto.
  assert (E' := E). apply mpb_loop with (g := g) (mv0 := []) in E'; auto; [|exact (zx_ph g ZX)|apply grown_refl; auto].
  destruct E' as [mv [G [EL [MF [SG [OK FAR]]]]]]. simpl in G, EL. subst el.
  destruct (add_edges_ok (flat_map bel mv) HADAMARD g1 W1) as [g2 E2].
  { intros s t Hst. apply in_flat_map in Hst. destruct Hst as [[w ns] [Y X]]. destruct (SG _ Y) as [a [c Ha]]. simpl in Ha. subst ns. unfold bel in X. simpl in X.
    assert (Iw : In w (vertices g1)) by (rewrite (gr_vs _ _ _ G), in_app_iff; left; apply (gr_mv _ _ _ G _ _ Y)).
    assert (Ia : In a (vertices g1)) by (rewrite (gr_vs _ _ _ G), in_app_iff; right; apply in_flat_map; exists (w, [a;c]); simpl; auto).
    assert (Ic : In c (vertices g1)) by (rewrite (gr_vs _ _ _ G), in_app_iff; right; apply in_flat_map; exists (w, [a;c]); simpl; auto).
    destruct X as [X|[X|[]]]; injection X as <- <-; auto. }
  assert (EM : match_pivot_boundary cands num g = Ok (ms, g2)) by (unfold match_pivot_boundary; rewrite E; cbn [bind]; rewrite E2; reflexivity).
  exists ms, g2. split; auto.
  destruct (match_pivot_boundary_ok g cands num ms g2 ZX GL HC ND EM) as [S [A [OK2 FAR2]]].
  destruct (grow_boundary g g1 mv g2 ZX G SG E2) as [Z2 [SM [F [PH [E3 [E4 E5]]]]]].
  assert (T2 : forall u, In u (vertices g) -> vty g2 u = vty g u) by (intros; rewrite (same_frame_vty g1 g2) by auto; apply G; auto).
  assert (W2 := zx_wf g2 Z2).
  assert (NEWE : forall v u, In v (vertices g2) -> ~ In v (vertices g) -> edge_type g2 u v <> None -> edge_type g2 u v = Some HADAMARD /\ vty g2 u = ZSP).
  { intros v u Hv Nv Hn. rewrite (proj1 F), (gr_vs _ _ _ G), in_app_iff in Hv. destruct Hv as [Hv|Hv]; [contradiction|].
    apply in_flat_map in Hv. destruct Hv as [[w ns] [X1 X2]]. destruct (SG _ X1) as [a [c Hb]]. simpl in *. subst ns.
    assert (NT : forall z, In z [a;c] -> vty g2 z = ZSP).
    { intros z Hz. rewrite (same_frame_vty g1 g2) by auto. apply G. apply in_flat_map. exists (w,[a;c]). auto. }
    rewrite (wf_sym g2 W2) in Hn. rewrite (wf_sym g2 W2). destruct X2 as [<-|[<-|[]]].
    - rewrite (E4 _ _ _ _ X1) in *. destruct (Nat.eqb_spec u c); [|congruence]. subst. split; auto. apply NT. simpl; auto.
    - rewrite (E5 _ _ _ _ X1) in *. destruct (Nat.eqb_spec u a); [subst; split; auto; apply NT; simpl; auto|].
      destruct (Nat.eqb_spec u w); simpl in *; [|congruence]. subst. split; auto. destruct (gr_mv _ _ _ G _ _ X1) as [M1 [M2 _]]. rewrite T2; auto. }
  constructor; auto.
  - apply (grown_zinv g g1 mv g2); auto.
    + intros v Hv. rewrite (add_edges_rindex _ _ _ _ E2). apply R1. rewrite <- (proj1 F). auto.
    + intros b v Hb Tb Nv. destruct (edge_type g2 b v) eqn:X; auto. exfalso.
      destruct (NEWE v b) as [_ M]; auto; [|congruence|].
      * apply (edge_type_in_l g2 v b). rewrite (wf_sym g2 W2). congruence.
      * rewrite T2 in M; auto. congruence.
  - apply glike_L. split.
    + intros v Hv. rewrite (proj1 F), (gr_vs _ _ _ G), in_app_iff in Hv. destruct Hv as [Hv|Hv]; [rewrite T2 by auto; apply GL; auto|].
      left. rewrite (same_frame_vty g1 g2) by auto. apply G; auto.
    + intros u v e Ee Tu Tv.
      assert (Hu : In u (vertices g2)) by (apply (edge_type_in_l g2 u v); congruence).
      assert (Hv : In v (vertices g2)) by (apply (edge_type_in_l g2 v u); rewrite (wf_sym g2 W2); congruence).
      destruct (in_dec Nat.eq_dec v (vertices g)) as [Iv|Iv].
      * destruct (in_dec Nat.eq_dec u (vertices g)) as [Iu|Iu].
        -- rewrite E3 in Ee by auto. rewrite T2 in Tu, Tv by auto. apply (proj2 GL u v); auto.
        -- destruct (NEWE u v) as [X _]; auto; [rewrite (wf_sym g2 W2); congruence|]. rewrite (wf_sym g2 W2) in X. congruence.
      * destruct (NEWE v u) as [X _]; auto; congruence.
  - intros m Hm. destruct (OK m Hm) as [O _]. destruct m as [[v0 v1] [b0 b1]]. destruct O as [-> [b [-> [_ [_ [_ [_ BG]]]]]]].
    destruct BG as [Tb [Ib _]]. split; [intros u []|]. intros u [<-|[]] T. exfalso. rewrite T2 in T; [congruence|]. apply (neighbors_in g v1); auto.
  - intros ->. simpl in MF. apply map_eq_nil in MF. subst mv. cbn in E2. injection E2 as <-. 
    assert (NIL : forall num cands i disc cons el g el' g', match_pivot_boundary_loop num i cands disc cons el g = Ok ([], el', g') -> g' = g).
    { clear. intros num cands. induction cands as [|e cands IH]; intros i disc cons el g el' g' H; cbn [match_pivot_boundary_loop] in H; [congruence|].
      destruct (lim_reached num i); [congruence|]. destruct (nmem e disc); [eapply IH; eassumption|]. destruct (_ || _); [eapply IH; eassumption|].
      destruct (boundary_scan g cons (neighbors g e) None) as [[[w b]|]|]; try (eapply IH; eassumption).
      inv_bind H. destruct (add_vertex _ _ _ (Some (phase g w)) g) as [g1 v1]. destruct (row_r g1 w); [cbn [bind] in H|discriminate].
      destruct (add_vertex _ _ _ (Some 0%Qc) g1) as [g2 v2]. inv_bind H. destruct a1 as [[x y] z]. discriminate. }
    eapply NIL; eauto.
Qed.

(** ** one round, and the loops *)
Definition zg (g : graph) : Prop := zinv g /\ glike g.
Lemma once_grow : forall so g (mt : graph -> res (list pmatch * graph)) ms g2, so_ok so -> zg g -> mt g = Ok (ms, g2) -> grow_res g g2 ms ->
  exists b g', simp_once mt (pivot so) g = Ok (b, g') /\ zg g'.
Proof.
  intros so g mt ms g2 SO [Z GL] E G. unfold simp_once. rewrite E. cbn [bind]. destruct ms as [|m ms0] eqn:EM.
  - exists false, g2. split; auto. rewrite (gw_nil _ _ _ G eq_refl). split; auto.
  - rewrite <- EM in *. clear EM m ms0. destruct G as [Z2 S A OK FAR GL2 LF _]. assert (ZX := zi_zx g2 Z2).
    destruct (pivot_round so g2 ms SO ZX (zi_deg g2 Z2) OK FAR) as [o [g' [E1 [E2 [D GG]]]]]. rewrite E1. cbn [bind]. rewrite E2. cbn [bind]. exists true, g'. split; auto. split; auto.
    destruct (pivot_shape so g2 ms SO ZX OK FAR) as [o' [E1' [SH _]]]. rewrite E1 in E1'. injection E1' as <-.
    apply (keep_step nonzero anyph g2 o g'); auto; [apply SH|eapply pivot_bfix; eauto; apply ZX|].
    apply (pivot_step_matches so nonzero anyph g2 ms o g'); auto; [apply good_nonzero|]. apply zxi_any; auto.
Qed.
Theorem pivot_gadget_simp_tot : forall md, tot zg (pivot_gadget_simp md) (fun _ _ g' => zg g').
Proof.
  intros md. unfold pivot_gadget_simp. apply simp_tot. intros [c so] g [Z GL] [Oc SO]. cbn [fst snd] in *.
  destruct (match_pivot_gadget_total g c None Z GL) as [ms [g2 [E G]]]; [intros e He; exact (cand_ok_in _ _ _ _ _ Oc He)|].
  eapply once_grow; eauto. split; auto.
Qed.
Theorem pivot_boundary_simp_tot : forall md, tot zg (pivot_boundary_simp md) (fun _ _ g' => zg g').
Proof.
  intros md. unfold pivot_boundary_simp. apply simp_tot. intros [c so] g [Z GL] [Oc SO]. cbn [fst snd] in *.
  destruct (match_pivot_boundary_total g c None Z GL) as [ms [g2 [E G]]]; [intros e He; exact (cand_ok_in _ _ _ _ _ Oc He)|exact (cand_ok_nd _ _ _ _ Oc (wf_nd g (zx_wf g (zi_zx g Z))))|].
  eapply once_grow; eauto. split; auto.
Qed.
