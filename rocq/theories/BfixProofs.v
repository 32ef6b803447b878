(** What a rewrite leaves alone: types of the surviving vertices, phases of
    boundaries and positions. *)
From Coq Require Import Reals ZArith QArith Qcanon List Bool Arith Lia Permutation.
From Verif Require Import CNum Base ScalarModel ScalarProofs GraphModel GraphSem SumLemmas GraphProofs GraphOps StoreProofs
  RulesModel RuleLemmas SpiderProofs IsoProofs IdProofs LcompProofs PivotProofs GrowProofs PivotMatch GadgetProofs
  SimpModel ColorProofs SimpProofs PairProofs RuleShape TermProofs InvProofs RoundProofs.
Import ListNotations.
Open Scope nat_scope.

Record bfix (g g' : graph) : Prop := mkbfix {
  bf_in : forall v, In v (vertices g') -> In v (vertices g);
  bf_ty : forall v, In v (vertices g') -> vty g' v = vty g v;
  bf_ph : forall v, In v (vertices g') -> vty g v = BOUNDARY -> phase g' v = phase g v;
  bf_row : forall v, In v (vertices g') -> dget v (grindex g') = dget v (grindex g)
}.
Lemma bfix_refl : forall g, bfix g g. Proof. constructor; auto. Qed.
Lemma bfix_trans : forall a b c, bfix a b -> bfix b c -> bfix a c.
Proof.
  intros a b c [A1 A2 A3 A4] [B1 B2 B3 B4]. constructor; intros v Hv; auto.
  - rewrite B2, A2; auto.
  - intros T. rewrite B3, A3; auto. rewrite A2; auto.
  - rewrite B4, A4; auto.
Qed.
Lemma bfix_frame : forall g g', same_frame g g' -> (forall v, vty g v = BOUNDARY -> phase g' v = phase g v) -> bfix g g'.
Proof.
  intros g g' F H. assert (V := proj1 F). constructor; intros v Hv; auto.
  - congruence.
  - apply same_frame_vty; auto.
  - destruct F as [_ [_ [_ [_ [_ [_ ->]]]]]]. reflexivity.
Qed.
Lemma set_edge_type_frame : forall s t e g g', set_edge_type s t e g = Ok g' -> same_frame g g' \/ vertices g' <> vertices g.
Proof. intros. destruct (list_eq_dec Nat.eq_dec (vertices g') (vertices g)) as [E|]; auto. left. unfold set_edge_type in H. inv_bind H. inv_bind H. injection H as <-.
  unfold same_frame. repeat split; auto. Qed.
Lemma add_edge_bfix : forall s t e g g', wfg g -> add_edge s t e g = Ok g' -> bfix g g'.
Proof.
  intros s t e g g' W H. destruct (add_edge_vertices _ _ _ _ _ W H) as [W' V].
  assert (FR : forall h h', vertices h = vertices g -> vertices h' = vertices g -> set_edge_type s t e h = Ok h' -> same_frame h h').
  { intros h h' Vh Vh' E. apply set_edge_type_frame in E. destruct E; auto. congruence. }
  unfold add_edge in H. destruct (dget s (gadj g)) as [ds|]; [|discriminate]. destruct (dget t ds) as [et1|].
  - unfold vtype_r in H. inv_bind H. inv_bind H. destruct (vertex_is_zx_like a && vertex_is_zx_like a0) eqn:ZL; [|discriminate].
    destruct (if Bool.eqb _ _ then _ else _) as [fu ho].
    destruct (etype_eqb e fu && etype_eqb et1 fu); [injection H as <-; apply bfix_refl|]. match type of H with (if ?x then _ else _) = _ => destruct x end.
    + inv_bind H. injection H as <-. destruct (set_edge_type_spec _ _ _ _ _ W E1) as [_ [F [P _]]]. apply bfix_frame.
      * eapply same_frame_trans; [exact F|]. unfold same_frame, on_scalar, with_scalar. cbn. repeat split; auto.
      * intros v T. change (phase (on_scalar (s_add_power (-1)) (add_to_phase s 1%Qc a1)) v) with (phase (add_to_phase s 1%Qc a1) v).
        rewrite phase_add_to_phase. destruct (Nat.eqb_spec v s) as [->|]; [|unfold phase; rewrite P; reflexivity]. exfalso.
        unfold vty in T. destruct (dget s (gty g)); [|discriminate]. cbn [of_opt] in E. injection E as ->. subst a. discriminate.
    + destruct (etype_eqb e ho && etype_eqb et1 ho); [|discriminate]. inv_bind H. injection H as <-. unfold remove_edge in E1. inv_bind E1. inv_bind E1. injection E1 as <-.
      apply bfix_frame; [|reflexivity]. unfold same_frame. cbn [ginputs goutputs gvindex gqindex grindex gty on_scalar with_scalar with_adj with_nedges]. rewrite V. repeat split; auto.
  - destruct (set_edge_type_spec _ _ _ _ _ (wfg_nedges _ _ W) H) as [_ [F [P _]]]. apply bfix_frame; [exact F|].
    intros v _. unfold phase. rewrite P. reflexivity.
Qed.
Lemma add_edge_table_bfix : forall tab g g', wfg g -> add_edge_table tab g = Ok g' -> wfg g' /\ bfix g g'.
Proof.
  intros tab g g' W H. unfold add_edge_table in H.
  eapply (foldM_inv _ _ _ (fun h => wfg h /\ bfix g h)); [split; [exact W|apply bfix_refl]| |exact H].
  intros g0 [[s t] [ns nh]] g1 [W0 V0] _ E. inv_bind E.
  assert (IV : forall n e h h', wfg h /\ bfix g h -> iterM n (add_edge s t e) h = Ok h' -> wfg h' /\ bfix g h').
  { intros n e h h' HI HE. eapply (iterM_inv _ _ (fun h => wfg h /\ bfix g h)); [exact HI| |exact HE].
    intros k k' [K1 K2] KE. destruct (add_edge_vertices _ _ _ _ _ K1 KE). split; auto. eapply bfix_trans; [exact K2|]. eapply add_edge_bfix; eauto. }
  eapply IV; [eapply IV; [|exact E0]|exact E]; auto.
Qed.
Lemma remove_edges_bfix : forall es g g', wfg g -> remove_edges es g = Ok g' -> wfg g' /\ bfix g g'.
Proof.
  intros es g g' W H. unfold remove_edges in H.
  eapply (foldM_inv _ _ _ (fun h => wfg h /\ bfix g h)); [split; [exact W|apply bfix_refl]| |exact H].
  intros g0 [s t] g1 [W0 V0] _ E. destruct (Nat.eq_dec s t) as [->|D]; [exfalso; eapply remove_edge_ss; eauto|].
  destruct (remove_edge_spec _ _ _ _ W0 D E) as [W1 [F1 [P1 _]]]. split; auto. eapply bfix_trans; [exact V0|]. apply bfix_frame; auto.
  intros v _. unfold phase. rewrite P1. reflexivity.
Qed.
Lemma nbrs_rindex : forall v vs g g', foldM (fun g v1 =>
      let* a1 := adj_del v v1 (gadj g) in
      let* a2 := adj_del v1 v a1 in
      Ok (with_adj a2 (with_nedges (gnedges g - 1)%Z g))) vs g = Ok g' -> grindex g' = grindex g.
Proof.
  intros v vs g g' H. eapply (foldM_inv _ _ _ (fun h => grindex h = grindex g)); [reflexivity| |exact H].
  intros a b a' HI _ E. inv_bind E. inv_bind E. injection E as <-. exact HI.
Qed.
Lemma remove_vertices_rindex : forall vs g g', remove_vertices vs g = Ok g' -> forall u, ~ In u vs -> dget u (grindex g') = dget u (grindex g).
Proof.
  intros vs g g' H. unfold remove_vertices in H. inv_bind H. injection H as <-. cbn [with_vindex grindex].
  revert g a E. induction vs as [|v vs IH]; intros g h E u Hu; cbn [foldM] in E; [injection E as <-; reflexivity|].
  inv_bind E. rewrite (IH _ _ E) by (intros X; apply Hu; right; auto). clear IH E.
  unfold remove_one_vertex in E0. inv_bind E0. inv_bind E0. apply nbrs_rindex in E1.
  destruct (negb _); [discriminate|]. destruct (negb _); [discriminate|]. injection E0 as <-. cbn.
  rewrite dget_ddel_neq by (intros ->; apply Hu; left; auto). rewrite E1. reflexivity.
Qed.
Lemma remove_vertices_bfix : forall vs g g', wfg g -> remove_vertices vs g = Ok g' -> wfg g' /\ bfix g g'.
Proof.
  intros vs g g' W H. assert (R := remove_vertices_spec _ _ _ W H). split; [apply R|].
  assert (X : forall v, In v (vertices g') -> In v (vertices g) /\ ~ In v vs).
  { intros v Hv. rewrite (rm_vs _ _ _ R) in Hv. apply filter_In in Hv. rewrite negb_true_iff, mem_false in Hv. exact Hv. }
  constructor; intros v Hv; destruct (X v Hv); auto.
  - apply (rm_ty _ _ _ R); auto.
  - intros _. apply (rm_phase _ _ _ R); auto.
  - apply (remove_vertices_rindex _ _ _ H); auto.
Qed.
Lemma isolated_fold_same : forall vs st st', foldM isolated_step vs st = Ok st' -> exists s, snd st' = with_scalar s (snd st).
Proof.
  intros vs [r h] st' H. cbn [snd]. refine (foldM_inv _ _ _ (fun x => exists s, snd x = with_scalar s h) vs (r, h) st' _ _ H); [exists (gscalar h); destruct h; reflexivity|].
  intros [r0 g0] v [r1 g2] [s Hs] _ E0. cbn [snd] in *. unfold isolated_step in E0. inv_bind E0.
  repeat match goal with
      | H : Ok _ = Ok _ |- _ => injection H as <- <-
      | H : Err _ = Ok _ |- _ => discriminate H
      | H : context [match ?l with [] => _ | _ => _ end] |- _ => destruct l
      | H : bind _ _ = Ok _ |- _ => inv_bind H
      | H : (if ?b then _ else _) = Ok _ |- _ => destruct b
      | H : context [match ?t with BOUNDARY => _ | ZSP => _ | XSP => _ | HBOX => _ end] |- _ => destruct t
      end; subst g0; try (exists s; reflexivity); eexists; reflexivity.
Qed.
Lemma isolated_bfix : forall g g', wfg g -> remove_isolated_vertices g = Ok g' -> wfg g' /\ bfix g g'.
Proof.
  intros g g' W H. unfold remove_isolated_vertices in H. inv_bind H. destruct a as [rem g1].
  destruct (isolated_fold_same _ _ _ E) as [s Hs]. cbn [snd] in Hs. subst g1.
  destruct (remove_vertices_bfix _ _ _ (on_scalar_wfg (fun _ => s) g W) H) as [W1 B]. split; auto. destruct B as [B1 B2 B3 B4]. constructor; assumption.
Qed.
Lemma apply_rw_bfix : forall o g', wfg (rw_graph o) -> apply_rw o = Ok g' -> bfix (rw_graph o) g'.
Proof.
  intros o g' W H. unfold apply_rw in H. inv_bind H. inv_bind H. inv_bind H.
  destruct (add_edge_table_bfix _ _ _ W E) as [W1 V1]. destruct (remove_edges_bfix _ _ _ W1 E0) as [W2 V2].
  destruct (remove_vertices_bfix _ _ _ W2 E1) as [W3 V3].
  assert (B : bfix a1 g') by (destruct (rw_check o); [apply isolated_bfix; auto|injection H as <-; apply bfix_refl]).
  eapply bfix_trans; [exact V1|]. eapply bfix_trans; [exact V2|]. eapply bfix_trans; eauto.
Qed.

(** ** the rules *)
Lemma add_to_phase_bfix : forall v a g, vty g v <> BOUNDARY -> bfix g (add_to_phase v a g).
Proof.
  intros v a g H. apply bfix_frame; [apply add_to_phase_frame|]. intros u T. rewrite phase_add_to_phase.
  destruct (Nat.eqb_spec u v) as [->|]; [congruence|reflexivity].
Qed.
Lemma add_to_phase_vty : forall v a g u, vty (add_to_phase v a g) u = vty g u.
Proof. reflexivity. Qed.
Lemma add_phases_bfix : forall vs a g, (forall v, In v vs -> vty g v <> BOUNDARY) -> bfix g (add_phases vs a g).
Proof.
  induction vs as [|v vs IH]; intros a g H; [apply bfix_refl|]. unfold add_phases. cbn [fold_left].
  eapply bfix_trans; [apply add_to_phase_bfix; apply H; left; auto|]. apply IH. intros u Hu. rewrite add_to_phase_vty. apply H; right; auto.
Qed.
Lemma add_phases_vty : forall vs a g u, vty (add_phases vs a g) u = vty g u.
Proof. induction vs as [|v vs IH]; intros a g u; [reflexivity|]. unfold add_phases in *. cbn [fold_left]. rewrite IH. reflexivity. Qed.
Lemma spider_bfix : forall g ms o, wfg g -> (forall m, In m ms -> spider_ok g m) -> spider ms g = Ok o -> bfix g (rw_graph o).
Proof.
  intros g ms o W HO H. unfold spider in H. inv_bind H. destruct a as [[g' tab'] rem']. injection H as <-. cbn [rw_graph].
  change g' with (fst (fst (g', tab', rem'))).
  refine (proj2 (foldM_inv _ _ _ (fun st => (grindex (fst (fst st)) = grindex g /\ forall u, vty (fst (fst st)) u = vty g u) /\ bfix g (fst (fst st))) ms (g, [], []) _ _ _ E)); [split; [split; reflexivity|apply bfix_refl]|].
  intros [[h tab] rem] m [[h2 tab2] rem2] [[R V] B] Hm Es. cbn [fst] in *. unfold spider_one in Es.
  replace (if qeqb (row h (fst m)) 0%Qc then (snd m, fst m) else (fst m, snd m)) with (sk g m) in Es by (unfold sk, row; rewrite R; reflexivity).
  assert (OK := spider_ok_sk g m W (HO m Hm)). destruct (sk g m) as [v0 v1].
  destruct (etab_get _ _) as [[? ?]|]; [|discriminate]. injection Es as <- _ _. split; [split; [exact R|exact V]|].
  eapply bfix_trans; [exact B|]. apply add_to_phase_bfix. rewrite V. destruct OK as [_ [_ [_ X]]]. cbn [fst] in X. intros Y. rewrite Y in X. discriminate.
Qed.
Lemma lcomp_bfix : forall g ms o, (forall m, In m ms -> lc_ok g m) -> lcomp ms g = Ok o -> bfix g (rw_graph o).
Proof.
  intros g ms o HO H. unfold lcomp in H. destruct (fold_left lcomp_one ms (g, [], [])) as [[g' tab'] rem'] eqn:E. injection H as <-. cbn [rw_graph].
  assert (X : forall ms st, (forall m, In m ms -> lc_ok g m) -> (forall u, vty (fst (fst st)) u = vty g u) -> bfix g (fst (fst st)) -> bfix g (fst (fst (fold_left lcomp_one ms st)))).
  { clear. induction ms as [|[v vn] ms IH]; intros [[h tab] rem] HO V B; [exact B|]. cbn [fold_left fst] in *. apply IH.
    - intros; apply HO; right; auto.
    - intros u. unfold lcomp_one. cbn [fst]. match goal with |- vty (fold_left _ vn ?x) u = _ => change (vty (add_phases vn (- phase h v)%Qc x) u = vty g u) end. rewrite add_phases_vty. exact (V u).
    - unfold lcomp_one. cbn [fst].
      match goal with |- bfix g (fold_left _ vn ?x) => change (bfix g (add_phases vn (- phase h v)%Qc x)); set (h1 := x) end.
      assert (B1 : bfix g h1) by (destruct B; constructor; auto).
      eapply bfix_trans; [exact B1|]. apply add_phases_bfix. intros u Hu. change (vty h u <> BOUNDARY). rewrite V. destruct (HO _ (or_introl eq_refl)) as [_ [_ [_ [_ Y]]]]. destruct (Y u Hu); congruence. }
  specialize (X ms (g, [], []) HO (fun _ => eq_refl) (bfix_refl g)). rewrite E in X. exact X.
Qed.
Lemma pivot_side_bfix : forall g v w bs nw n2 h tab rem reme, (forall u, vty h u = vty g u) -> (forall u, In u nw \/ In u n2 -> vty g u = ZSP) -> bfix g h ->
  let h' := fst (fst (fst (pivot_side v w bs nw n2 (h, tab, rem, reme)))) in bfix g h' /\ forall u, vty h' u = vty g u.
Proof.
  intros g v w bs nw n2 h tab rem reme V N B. unfold pivot_side.
  set (h1 := if qeqb (phase h v) 0%Qc then h else add_phases n2 (phase h v) (add_phases nw (phase h v) h)).
  assert (X : bfix g h1 /\ forall u, vty h1 u = vty g u).
  { unfold h1. destruct (qeqb _ _); [auto|]. split; [|intros u; rewrite !add_phases_vty; auto].
    eapply bfix_trans; [exact B|]. eapply bfix_trans; apply add_phases_bfix; intros u Hu; rewrite ?add_phases_vty, V, N; auto; discriminate. }
  destruct bs; [exact X|]. destruct (match etab_get (w, n) tab with Some c => c | None => (0, 0) end). exact X.
Qed.
Lemma pivot_bfix : forall so g ms o, so_ok so -> wfg g -> (forall m, In m ms -> pv_ok g m) -> pivot so ms g = Ok o -> bfix g (rw_graph o).
Proof.
  intros so g ms o SO W HO H. unfold pivot in H. inv_bind H. destruct a as [[[g' tab'] rem'] reme']. injection H as <-. cbn [rw_graph].
  change g' with (fst (fst (fst (g', tab', rem', reme')))).
  refine (proj2 (foldM_inv _ _ _ (fun st => (gadj (fst (fst (fst st))) = gadj g /\ forall u, vty (fst (fst (fst st))) u = vty g u) /\ bfix g (fst (fst (fst st)))) ms (g, [], [], []) _ _ _ E)); [split; [split; reflexivity|apply bfix_refl]|].
  intros [[[h tab] rem] reme] [[v0 v1] [b0 b1]] [[[h9 tab9] rem9] reme9] [[A V] B] Hm Es. cbn [fst] in *.
  assert (OK := HO _ Hm). assert (OK' := OK). destruct OK' as [D [T0 [T1 [E01 [_ [_ [S0 [S1 S9]]]]]]]].
  destruct (pivot_sets_spec so g h v0 v1 b0 b1 SO W A OK) as [n0 [n1 [n2 [PS [_ [_ [_ [_ [N2 [N0 N1]]]]]]]]]].
  unfold pivot_one in Es. rewrite PS in Es. cbn [bind] in Es.
  match type of Es with context [pivot_side v0 v1 b0 n1 n2 (?x, tab, rem, reme)] => set (h1 := x) in Es end.
  assert (ZN : forall x, In x n0 \/ In x n1 \/ In x n2 -> vty g x = ZSP).
  { intros x Hx. destruct S0 as [_ S0]. destruct S1 as [_ S1].
    rewrite N0, N1, N2 in Hx. destruct Hx as [[[X1 [X2 X3]] _]|[[[X1 [X2 X3]] _]|[[X1 [X2 X3]] _]]]; [apply S0|apply S1|apply S0]; auto; apply neighbors_spec; auto. }
  assert (X1 : gadj h1 = gadj g /\ (forall u, vty h1 u = vty g u) /\ bfix g h1).
  { set (k := add_phases n2 1%Qc (on_scalar (s_add_power (Z.of_nat (length n0) * Z.of_nat (length n2) + Z.of_nat (length n1) * Z.of_nat (length n2) + Z.of_nat (length n0) * Z.of_nat (length n1))) h)) in h1.
    assert (K : gadj k = gadj g /\ (forall u, vty k u = vty g u) /\ bfix g k).
    { unfold k. split; [rewrite add_phases_gadj; exact A|]. split; [intros u; rewrite add_phases_vty; exact (V u)|].
      eapply bfix_trans; [|apply add_phases_bfix; intros u Hu; change (vty h u <> BOUNDARY); rewrite V, ZN by auto; discriminate].
      destruct B; constructor; auto. }
    destruct K as [K1 [K2 [J1 J2 J3 J4]]]. unfold h1. destruct b0, b1; match goal with |- context [if ?x then _ else _] => destruct x end; (split; [exact K1|split; [exact K2|constructor; auto]]). }
  clearbody h1. destruct X1 as [A1 [V1 B1]].
  destruct (pivot_side v0 v1 b0 n1 n2 (h1, tab, rem, reme)) as [[[h2 tab2] rem2] reme2] eqn:P1.
  destruct (pivot_side v1 v0 b1 n0 n2 (h2, tab2, rem2, reme2)) as [[[h3 tab3] rem3] reme3] eqn:P2.
  assert (SA : forall v w bs nw h tab rem reme, gadj h = gadj g -> gadj (fst (fst (fst (pivot_side v w bs nw n2 (h, tab, rem, reme))))) = gadj g).
  { intros v w bs nw k tb rm re Ak. unfold pivot_side. set (k1 := if qeqb _ _ then _ else _). assert (gadj k1 = gadj g) by (unfold k1; destruct (qeqb _ _); rewrite ?add_phases_gadj; auto).
    destruct bs; auto. destruct (match etab_get (w, n) tb with Some c => c | None => (0, 0) end). auto. }
  assert (A2 := SA v0 v1 b0 n1 h1 tab rem reme A1). rewrite P1 in A2. cbn [fst] in A2. assert (A3 := SA v1 v0 b1 n0 h2 tab2 rem2 reme2 A2). rewrite P2 in A3. cbn [fst] in A3.
  destruct (pivot_side_bfix g v0 v1 b0 n1 n2 h1 tab rem reme V1 (fun u Hu => ZN u (or_intror Hu)) B1) as [Q1 Q2]. rewrite P1 in Q1, Q2. cbn [fst] in *.
  destruct (pivot_side_bfix g v1 v0 b1 n0 n2 h2 tab2 rem2 reme2 Q2) with (2 := Q1) as [Q3 Q4]; [intros u Hu; apply ZN; tauto|]. rewrite P2 in Q3, Q4. cbn [fst] in *.
  injection Es as <- _ _ _. auto.
Qed.

(** ** consequences *)
Definition noX (g : graph) : Prop := forall v, In v (vertices g) -> vty g v <> XSP.
Definition bphz (g : graph) : Prop := forall b, In b (vertices g) -> vty g b = BOUNDARY -> phase g b = 0%Qc.
Definition rows_ok (g : graph) : Prop := forall v, In v (vertices g) -> dget v (grindex g) <> None.
Definition bio (g : graph) : Prop := forall b, In b (vertices g) -> vty g b = BOUNDARY -> In b (ginputs g) \/ In b (goutputs g).
Lemma bfix_noX : forall g g', bfix g g' -> noX g -> noX g'.
Proof. intros g g' B H v Hv. rewrite (bf_ty _ _ B) by auto. apply H. apply (bf_in _ _ B); auto. Qed.
Lemma bfix_bphz : forall g g', bfix g g' -> bphz g -> bphz g'.
Proof. intros g g' B H v Hv T. rewrite (bf_ty _ _ B) in T by auto. rewrite (bf_ph _ _ B) by auto. apply H; auto. apply (bf_in _ _ B); auto. Qed.
Lemma bfix_rows : forall g g', bfix g g' -> rows_ok g -> rows_ok g'.
Proof. intros g g' B H v Hv. rewrite (bf_row _ _ B) by auto. apply H. apply (bf_in _ _ B); auto. Qed.
Lemma bfix_bio : forall g g', bfix g g' -> ginputs g' = ginputs g -> goutputs g' = goutputs g -> bio g -> bio g'.
Proof. intros g g' B I O H v Hv T. rewrite (bf_ty _ _ B) in T by auto. rewrite I, O. apply H; auto. apply (bf_in _ _ B); auto. Qed.
