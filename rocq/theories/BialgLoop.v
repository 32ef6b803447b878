(** bialg_simp and phase_free_simp. *)
From Coq Require Import Reals ZArith QArith Qcanon List Bool Arith Lia Permutation Ring.
From Verif Require Import CNum Base ScalarModel ScalarProofs GraphModel GraphSem SumLemmas GraphProofs GraphOps StoreProofs
  RulesModel RuleLemmas SpiderProofs IsoProofs IdProofs LcompProofs PivotProofs GrowProofs PivotMatch GadgetProofs
  SimpModel ColorProofs SimpProofs PairProofs RuleShape TermProofs InvProofs RoundProofs BfixProofs TotalProofs ZXFacts GraphAlgProofs Bialg.
Import ListNotations.
Open Scope nat_scope.

(** ** Plain wires stay plain *)
Lemma opp_zx : forall g u w, opp g u w -> vertex_is_zx (vty g u) = true /\ vertex_is_zx (vty g w) = true /\ vertex_is_z_like (vty g u) <> vertex_is_z_like (vty g w).
Proof. intros g u w [[A B]|[A B]]; rewrite A, B; cbn; repeat split; discriminate. Qed.
Lemma add_edge_opp : forall s t g g', wfg g -> s <> t -> opp g s t -> edge_type g s t = Some SIMPLE ->
  add_edge s t SIMPLE g = Ok g' -> edge_type g' s t = None.
Proof.
  intros s t g g' W D O N H. unfold add_edge in H. destruct (dget s (gadj g)) as [ds|] eqn:Es; [|discriminate].
  assert (N' := N). rewrite (edge_none_dget g s t ds Es) in N. rewrite N in H.
  assert (Is : In s (vertices g)) by (apply (edge_type_in_l g s t); congruence).
  assert (It : In t (vertices g)) by (apply (edge_type_in_l g t s); rewrite (wf_sym g W); congruence).
  rewrite !vtype_r_ok in H by auto. cbn [bind] in H.
  destruct O as [[Ts Tt]|[Ts Tt]]; rewrite Ts, Tt in H; cbn in H; inv_bind H; injection H as <-;
  destruct (remove_edge_spec _ _ _ _ W D E) as [_ [_ [_ [_ [_ [_ [_ X]]]]]]]; unfold edge_type in X; unfold edge_type, on_scalar; cbn [gadj with_scalar];
  rewrite X, pair_hit_st; reflexivity.
Qed.
Lemma frame_opp : forall g g' u w, same_frame g g' -> opp g' u w -> opp g u w.
Proof. intros g g' u w F O. unfold opp in *. rewrite !(same_frame_vty g g') in O by auto. exact O. Qed.
Lemma units_plain : forall us g g1, wfg g -> foldM add_u us g = Ok g1 -> (forall s t et, In (s, t, et) us -> s <> t /\ (opp g s t -> et = SIMPLE)) ->
  plain g -> plain g1 /\ wfg g1 /\ same_frame g g1.
Proof.
  induction us as [|[[s t] et] us IH]; intros g g1 W H HU P.
  - injection H as <-. split; auto. split; auto. apply same_frame_refl.
  - cbn [foldM add_u] in H. inv_bind H. destruct (HU s t et (or_introl eq_refl)) as [D U].
    destruct (add_edge_spec _ _ _ _ _ W D E) as [W1 [F1 [_ [_ [ET _]]]]].
    assert (PO : forall x y e, opp g x y -> edge_type g x y = Some e -> e = SIMPLE) by (intros x y e; apply plain_opp; auto).
    destruct (IH a g1 W1 H) as [P2 [W2 F2]].
    + intros x y e Hx. destruct (HU x y e (or_intror Hx)) as [D' U']. split; auto. intros O. apply U'. eapply frame_opp; eauto.
    + intros x y e Ee Tx Ty. rewrite (same_frame_vty g a) in Tx, Ty by auto.
      assert (O : opp g x y) by (left; auto).
      assert (CS : (x = s /\ y = t \/ x = t /\ y = s) \/ edge_type a x y = edge_type g x y).
      { destruct (Nat.eq_dec x s), (Nat.eq_dec y t), (Nat.eq_dec x t), (Nat.eq_dec y s); subst; try tauto; right; apply ET; congruence. }
      destruct CS as [CS|CS]; [|rewrite CS in Ee; apply (PO x y e); auto].
      assert (Ee' : edge_type a s t = Some e) by (destruct CS as [[-> ->]|[-> ->]]; auto; rewrite (wf_sym a W1); auto).
      assert (O' : opp g s t) by (destruct CS as [[-> ->]|[-> ->]]; auto; apply opp_sym; auto).
      rewrite (U O') in E. destruct (edge_type g s t) as [e0|] eqn:E0.
      * assert (e0 = SIMPLE) by (apply (PO s t); auto). subst e0. rewrite (add_edge_opp s t g a) in Ee'; auto. discriminate.
      * rewrite (add_edge_new s t SIMPLE g a) in Ee'; auto. congruence.
    + split; auto. split; auto. eapply same_frame_trans; eauto.
Qed.
Lemma removed_plain : forall rem g g', removed rem g g' -> plain g -> plain g'.
Proof.
  intros rem g g' R P u v e E Tu Tv. rewrite (rm_edge _ _ _ R) in E. destruct (mem u rem || mem v rem) eqn:M; [discriminate|].
  apply orb_false_iff in M. rewrite !mem_false in M. rewrite (rm_ty _ _ _ R) in Tu, Tv by tauto. eapply P; eauto.
Qed.
Lemma apply_plain : forall g rem o g', zxok g -> shape g rem o -> rw_edges o = [] -> plain g ->
  (forall s t, opp g s t -> snd (cnt (s, t) (rw_etab o)) = 0) ->
  (forall g1 g2 g3, add_edge_table (rw_etab o) (rw_graph o) = Ok g1 -> remove_edges (rw_edges o) g1 = Ok g2 ->
     remove_vertices (rw_verts o) g2 = Ok g3 -> zxok g3) ->
  apply_rw o = Ok g' -> plain g'.
Proof.
  intros g rem o g' Z S RE P HT Z3 H. unfold apply_rw in H. inv_bind H. inv_bind H. inv_bind H.
  assert (Z3' := Z3 _ _ _ E E0 E1). rewrite RE in E0. injection E0 as <-.
  assert (VT : forall v, vty (rw_graph o) v = vty g v) by (intros; apply same_frame_vty; apply (sh_fr _ _ _ S)).
  assert (ETh : forall u v, edge_type (rw_graph o) u v = edge_type g u v) by (intros; unfold edge_type; rewrite (sh_adj _ _ _ S); reflexivity).
  rewrite table_units in E.
  destruct (units_plain (units (rw_etab o)) (rw_graph o) a (sh_wf _ _ _ S) E) as [P1 [W1 F1]].
  { intros s t et Hu. split; [apply (units_tabL (keep rem g) (rw_etab o) s t et); auto; apply (sh_tab _ _ _ S)|].
    intros O. assert (X := units_cnt _ _ _ _ (proj1 (sh_tab _ _ _ S)) Hu). destruct et; auto. rewrite HT in X; [lia|]. unfold opp in *. rewrite !VT in O. exact O. }
  { intros u w e. rewrite ETh, !VT. apply P. }
  assert (P3 : plain a1) by (eapply removed_plain; [eapply remove_vertices_spec; [exact W1|exact E1]|exact P1]).
  destruct (rw_check o); [|injection H as <-; auto].
  destruct (remove_isolated_sound nonzero a1 g' Z3' (proj1 good_nonzero) (iso_good nonzero anyph a1 good_nonzero Z3' (fun _ _ => I)) H) as [_ [r [s [R _]]]].
  eapply removed_plain; [exact R|]. exact P3.
Qed.

(** ** One round of bialg *)
Lemma bialg_touch : forall b (es : list edge) tab, (forall e, In e es -> InvProofs.ehit b e = false) -> ttouch b (fold_left (fun tab e => etab_add e SIMPLE tab) es tab) = ttouch b tab.
Proof.
  induction es as [|e es IH]; intros tab H; cbn [fold_left]; auto. rewrite IH by (intros; apply H; simpl; auto). rewrite ttouch_add, H by (simpl; auto). lia.
Qed.
Lemma bialg_touch_fold : forall g b ms tab rem, vty g b = BOUNDARY -> (forall m, In m ms -> bi_ok g m) ->
  ttouch b (fst (fold_left b_step ms (tab, rem))) = ttouch b tab.
Proof.
  intros g b ms. induction ms as [|m ms IH]; intros tab rem T HO; [reflexivity|]. cbn [fold_left].
  assert (OK := HO m (or_introl eq_refl)). destruct m as [[[v0 v1] n0] n1]. cbn [b_step]. rewrite IH; auto; [|intros; apply HO; right; auto].
  apply bialg_touch. intros [s t] He. apply in_prod_iff in He. destruct He as [H0 H1].
  assert (O := bi_opp01 g _ s t OK H0 H1). apply ehit_false. cbn [fst snd]. split; intros ->; destruct O as [[]|[]]; congruence.
Qed.
Theorem bialg_round : forall g ms, zinv g -> plain g -> (forall m, In m ms -> bi_ok g m) -> ForallOrdPairs (fun m m' => far g (bv m) (bv m')) ms ->
  exists o g', bialg ms g = Ok o /\ apply_rw o = Ok g' /\ keepb g g' /\ plain g' /\ step_k nonzero g g' /\ (ms <> [] -> vlen g' < vlen g).
Proof.
  intros g ms ZI P HO HF. assert (Z := zi_zx g ZI). assert (W := zx_wf g Z).
  destruct (b_shape g ms Z HO HF) as [o [E [S [RE [HT RG]]]]]. exists o.
  assert (Z3 : forall g1 g2 g3, add_edge_table (rw_etab o) (rw_graph o) = Ok g1 -> remove_edges (rw_edges o) g1 = Ok g2 -> remove_vertices (rw_verts o) g2 = Ok g3 -> zxok g3).
  { intros g1 g2 g3 H1 H2 H3. exact (proj1 (bialg_core g ms Z HO HF o g1 g2 g3 E H1 H2 H3)). }
  destruct (apply_total g _ o Z (zi_deg g ZI) S) as [g' [E2 [B2 _]]]; auto.
  { intros b Hb Tb. assert (X := bialg_touch_fold g b ms [] [] Tb HO). unfold bialg in E.
    change (fold_left _ ms ([], [])) with (fold_left b_step ms ([], [])) in E. destruct (fold_left b_step ms ([], [])) as [tab rem]. injection E as <-.
    cbn [rw_etab fst] in *. rewrite X. symmetry. apply nadj_0. intros v Hv. apply in_flat_map in Hv. destruct Hv as [m [Hm Hv]]. apply bvs_in in Hv.
    assert (OK := HO m Hm). assert (O := bi_opp g m OK). destruct (edge_type g b v) as [e|] eqn:Eb; auto. exfalso.
    assert (Ev : edge_type g v b <> None) by (rewrite (wf_sym g W); congruence).
    assert (NB : b <> fst (bv m) /\ b <> snd (bv m)) by (split; intros ->; destruct O as [[]|[]]; congruence).
    destruct Hv as [->| ->].
    - assert (Hb' : In b (bn0 m)) by (apply (bi_n0 g m OK); tauto). destruct (bi_t0 g m OK b Hb') as [T _]. destruct O as [[]|[]]; congruence.
    - assert (Hb' : In b (bn1 m)) by (apply (bi_n1 g m OK); tauto). destruct (bi_t1 g m OK b Hb') as [T _]. destruct O as [[]|[]]; congruence. }
  { rewrite RE. split; [constructor|]. intros s t []. }
  exists g'. split; auto. split; auto.
  assert (SK : step_k nonzero (on_scalar (s_add_power (- bscal ms)) g) g' /\ allph anyph g').
  { apply (apply_rw_sound nonzero anyph _ o g' good_nonzero); auto. intros g1 g2 g3 H1 H2 H3. split; [|intros v _; exact I].
    apply (bialg_core g ms Z HO HF o g1 g2 g3); auto. }
  destruct SK as [[Z' [I' [O' [k [K1 K2]]]]] _].
  assert (SK : step_k nonzero g g').
  { split; auto. split; [exact I'|]. split; [exact O'|]. exists (k * sq2p (- bscal ms))%C. split; [apply Cmult_neq0; auto; apply sq2p_neq0|].
    intros b. rewrite K2, sem_power. ring. }
  split; [|split; [|split; auto]].
  - apply (keep_step nonzero anyph g o g'); auto; [apply S|rewrite RG; apply bfix_refl|]. split; auto. intros v _; exact I.
  - apply (apply_plain g _ o g' Z S RE P); auto.
  - intros NE. eapply shape_len; eauto. destruct ms as [|m ms]; [congruence|discriminate].
Qed.

(** ** The loops *)
Definition pinv (g : graph) : Prop := zinv g /\ plain g.
Lemma bialg_tonce : forall g c, pinv g -> ok_edges AllC g c ->
  exists b g', simp_once (fun g => Ok (match_bialg_parallel c None g, g)) bialg g = Ok (b, g') /\
    (pinv g' /\ keepb g g' /\ step_k nonzero g g') /\ (if b then vlen g' < vlen g else g' = g).
Proof.
  intros g c [ZI P] Oc. assert (Z := zi_zx g ZI). assert (W := zx_wf g Z).
  assert (HC : forall e, In e c -> In e (edges g)) by (intros e He; exact (cand_ok_in _ _ _ _ _ Oc He)).
  assert (ND := cand_ok_nd _ _ _ _ Oc (edges_nd g W)).
  assert (HO : forall m, In m (match_bialg_parallel c None g) -> bi_ok g m) by (intros m Hm; apply (match_bialg_in g None c 0 [] m W P HC Hm)).
  assert (HF := match_bialg_far g None c 0 [] W P HC ND). fold (match_bialg_parallel c None g) in HF.
  destruct (bialg_round g _ ZI P HO HF) as [o [g' [E1 [E2 [K [P' [SK L]]]]]]].
  unfold simp_once. cbn [bind]. destruct (match_bialg_parallel c None g) as [|m ms] eqn:Em.
  - exists false, g. split; auto. split; auto. split; [split; auto|]. split; [apply keepb_refl; auto|]. apply step_k_refl; auto. apply good_nonzero.
  - rewrite E1. cbn [bind]. rewrite E2. cbn [bind]. exists true, g'. split; auto. split; [split; [split; auto; apply K|auto]|]. apply L. discriminate.
Qed.
Theorem bialg_simp_total : forall g r, pinv g -> run bialg_simp g r -> exists n g', r = Ok (n, g') /\ pinv g' /\ keepb g g' /\ step_k nonzero g g'.
Proof.
  intros g r PI R.
  destruct (simp_tot (ok_edges AllC) (fun c g => Ok (match_bialg_parallel c None g, g)) (fun _ => bialg) (fun h => pinv h /\ keepb g h /\ step_k nonzero g h)) with (3 := R) as [n [g' [E H]]].
  - intros c h [Ph [Kh Sh]] Oc. destruct (bialg_tonce h c Ph Oc) as [b [h' [E [[A [B D]] _]]]]. exists b, h'. split; auto. split; auto. split.
    + eapply keepb_trans; eauto.
    + eapply step_k_trans; [apply good_nonzero|exact Sh|exact D].
  - split; auto. split; [apply keepb_refl, PI|]. apply step_k_refl; [apply good_nonzero|apply PI].
  - exists n, g'. auto.
Qed.
Theorem bialg_simp_halts : forall g, pinv g -> halts bialg_simp g.
Proof.
  intros g PI. apply (simp_halts _ _ _ pinv vlen); auto. intros c h b h' Ph Oc E.
  destruct (bialg_tonce h c Ph Oc) as [b1 [h1 [E1 [[A _] B]]]]. rewrite E in E1. injection E1 as <- <-. auto.
Qed.

(** spider_simp keeps plain wires plain *)
Definition hplain (g : graph) (tab : etab) : Prop := forall s t, opp g s t -> snd (cnt (s, t) tab) = 0.
Lemma hplain_add : forall g s t et tab, hplain g tab -> (opp g s t -> et = SIMPLE) -> hplain g (etab_add (s, t) et tab).
Proof.
  intros g s t et tab H U x y O. rewrite cnt_add. destruct (ekeq (x, y) (s, t)) eqn:X; [|apply H; auto].
  apply ekeq_eq in X. injection X as -> ->. rewrite (U O). unfold inc. cbn. apply H; auto.
Qed.
Lemma spider_edges_plain : forall g g1 v0 v1 tab, wfg g -> plain g -> gadj g1 = gadj g -> vty g v0 = vty g v1 -> hplain g tab -> hplain g (spider_edges g1 v0 v1 tab).
Proof.
  intros g g1 v0 v1 tab W P A T H. unfold spider_edges.
  assert (ET : forall x y, edge_type g1 x y = edge_type g x y) by (intros; unfold edge_type; rewrite A; reflexivity).
  assert (G : forall es tab, hplain g tab -> (forall s t, In (s, t) es -> s = v1 \/ t = v1) -> hplain g (fold_left (fun tab (e : edge) => let (source, target) := e in
      let other := if negb (Nat.eqb source v1) then source else if negb (Nat.eqb target v1) then target else v0 in
      match edge_type g1 source target with Some et => etab_add (v0, other) et tab | None => tab end) es tab)).
  { induction es as [|[s t] es IH]; intros tab0 H0 HE; cbn [fold_left]; auto. apply IH; [|intros; apply HE; right; auto].
    destruct (edge_type g1 s t) as [et|] eqn:E; auto. rewrite ET in E. apply hplain_add; auto. intros O.
    assert (O1 : forall x, opp g v0 x -> opp g v1 x) by (intros x Ox; unfold opp in *; rewrite <- T; auto).
    destruct (HE s t (or_introl eq_refl)) as [->| ->].
    - rewrite Nat.eqb_refl in O. cbn [negb] in O. destruct (Nat.eqb_spec t v1) as [->|]; cbn [negb] in O; [exfalso; exact (opp_ne _ _ _ O eq_refl)|].
      apply (plain_opp g v1 t et); auto.
    - destruct (Nat.eqb_spec s v1) as [->|]; cbn [negb] in O.
      + rewrite Nat.eqb_refl in O. cbn [negb] in O. exfalso; exact (opp_ne _ _ _ O eq_refl).
      + apply (plain_opp g s v1 et); auto. apply opp_sym; auto. }
  apply G; auto. intros s t Hs. unfold incident_edges in Hs. apply in_map_iff in Hs. destruct Hs as [u [Hu _]].
  destruct (Nat.ltb v1 u); injection Hu as <- <-; auto.
Qed.
Lemma spider_plain_fold : forall g ms h tab rem h' tab' rem', wfg g -> plain g -> (forall m, In m ms -> spider_ok g m) -> gadj h = gadj g -> 
  foldM spider_one ms (h, tab, rem) = Ok (h', tab', rem') -> hplain g tab -> hplain g tab'.
Proof.
  intros g ms. induction ms as [|m ms IH]; intros h tab rem h' tab' rem' W P HO A H T.
  - injection H as <- <- <-. auto.
  - cbn [foldM] in H. unfold spider_one at 1 in H. destruct (HO m (or_introl eq_refl)) as [_ [_ [TY _]]].
    assert (X : exists v0 v1, (if qeqb (row h (fst m)) 0%Qc then (snd m, fst m) else (fst m, snd m)) = (v0, v1) /\ vty g v0 = vty g v1)
      by (destruct (qeqb _ _); eexists; eexists; split; eauto).
    destruct X as [v0 [v1 [X TV]]]. rewrite X in H. clear X.
    set (h1 := add_to_phase v0 (phase h v1) h) in *.
    destruct (etab_get (v0, v0) (spider_edges h1 v0 v1 tab)) as [[c nh]|]; [|discriminate]. cbn [bind] in H.
    apply (IH _ _ _ _ _ _ W P (fun m Hm => HO m (or_intror Hm)) (A : gadj h1 = gadj g) H).
    intros s t O. rewrite cnt_set. destruct (ekeq (s, t) (v0, v0)) eqn:Q.
    + apply ekeq_eq in Q. injection Q as -> ->. exfalso. exact (opp_ne _ _ _ O eq_refl).
    + apply (spider_edges_plain g h1 v0 v1 tab W P A TV T s t O).
Qed.
Lemma spider_simp_plain : forall md g n g', zxok g -> plain g -> run (spider_simp md) g (Ok (n, g')) -> plain g'.
Proof.
  intros md g n g' Z P R.
  assert (X := simp_sound (ok_edges md) (fun c g => Ok (match_spider_parallel c None g, g)) (fun _ => spider) (fun h => zxok h /\ plain h) (fun _ _ => True)).
  destruct (X (fun _ _ => I) (fun _ _ _ _ _ => I)) with (g := g) (a := n) (g' := g') as [_ [_ Y]]; auto. clear X R.
  intros c h b h' [Zh Ph] Oc H. split; auto. assert (Z' := proj1 (spider_once md c h b h' Zh Oc H)). split; auto.
  apply simp_once_inv in H. destruct H as [ms [h1 [E H]]]. injection E as <- <-.
  destruct H as [[E [-> ->]]|[NE [-> [o [E1 E2]]]]]; auto.
  assert (HC : forall e, In e c -> In e (edges h)) by (intros e He; exact (cand_ok_in _ _ _ _ _ Oc He)).
  assert (W := zx_wf h Zh).
  assert (HO : forall m, In m (match_spider_parallel c None h) -> spider_ok h m) by (intros m Hm; apply match_spider_in in Hm; tauto).
  assert (HF : ForallOrdPairs (far h) (match_spider_parallel c None h)) by (apply match_spider_far; auto).
  destruct (spider_shape h _ Zh HO HF) as [o' [E1' S]]. rewrite E1 in E1'. injection E1' as <-.
  assert (E3 := E1). unfold spider in E3. inv_bind E3. destruct a as [[hh tab'] rem']. injection E3 as <-.
  apply (apply_plain h _ _ h' Zh S eq_refl Ph); auto.
  - exact (spider_plain_fold h _ h [] [] hh tab' rem' W Ph HO eq_refl E (fun s t _ => eq_refl)).
  - intros g1 g2 g3 H1 H2 H3. exact (proj1 (proj1 (spider_core anyph h _ _ g1 g2 g3 (proj1 (proj2 good_nonzero)) Zh (fun _ _ => I) HO HF E1 H1 H2 H3))).
Qed.

Theorem phase_free_total : forall g r, pinv g -> run phase_free_simp g r -> exists n g', r = Ok (n, g') /\ pinv g' /\ step_k nonzero g g'.
Proof.
  intros g r [ZI P] R. destruct R as [[e [R _]]|[n1 [g1 [R1 R2]]]].
  - destruct (spider_simp_tot AllC g _ ZI R) as [? [? [? _]]]. discriminate.
  - destruct (spider_simp_tot AllC g _ ZI R1) as [n1' [g1' [E1 [Z1 _]]]]. injection E1 as <- <-.
    assert (P1 := spider_simp_plain AllC g n1 g1 (zi_zx g ZI) P R1).
    destruct (spider_simp_sound nonzero anyph good_nonzero AllC g n1 g1) as [S1 _]; [split; [apply ZI|intros v _; exact I]|exact R1|].
    destruct R2 as [[e [R _]]|[n2 [g2 [R2 R3]]]].
    + destruct (bialg_simp_total g1 _ (conj Z1 P1) R) as [? [? [? _]]]. discriminate.
    + destruct (bialg_simp_total g1 _ (conj Z1 P1) R2) as [n2' [g2' [E2 [PI2 [_ S2]]]]]. injection E2 as <- <-.
      exists (n1 + n2), g2. split; [exact R3|]. split; auto. eapply step_k_trans; [apply good_nonzero|exact S1|exact S2].
Qed.
Theorem phase_free_halts : forall g, pinv g -> halts phase_free_simp g.
Proof.
  intros g [ZI P]. split; [apply spider_simp_halts; apply ZI|]. intros n1 g1 R1.
  destruct (spider_simp_tot AllC g _ ZI R1) as [n1' [g1' [E1 [Z1 _]]]]. injection E1 as <- <-.
  assert (P1 := spider_simp_plain AllC g n1 g1 (zi_zx g ZI) P R1).
  split; [apply bialg_simp_halts; split; auto|]. intros; exact I.
Qed.
