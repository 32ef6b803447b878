(** remove_gadget (extract.py 574-590): pivoting a gadget hub with a frontier spider *)
From Coq Require Import Reals ZArith QArith Qcanon List Bool Arith Lia Permutation.
From Verif Require Import LinModel LinProofs CNum Base ScalarModel ScalarProofs GraphModel GraphSem SumLemmas GraphProofs GraphOps RulesModel RuleLemmas
  SpiderProofs IsoProofs IdProofs LcompProofs PivotProofs PivotMatch GrowProofs StoreProofs SimpModel ColorProofs SimpProofs PairProofs RuleShape InvProofs TermProofs BfixProofs RoundProofs TotalProofs GrowTotal
  GateModel CircSpec GateProofs GateMask AmpProofs CircGraphModel CircGraphProofs CircGraphFacts VerifyProofs GraphAlgModel GraphAlgProofs GraphAlgFacts
  ComposeProofs ApplyProofs ExtractModel ExtractSem ExtractMap ExtractClean ExtractCz ExtractFront ExtractNbrs ExtractCnot ExtractTake.
Import ListNotations.
Open Scope C_scope.

(** ** Pauli phases stay Pauli *)
Lemma pauli_cases : forall p, is_pauli p = true -> p = 0%Qc \/ p = 1%Qc.
Proof. intros p H. unfold is_pauli in H. apply orb_true_iff in H. rewrite !qeqb_eq in H. auto. Qed.
Lemma pauli_add : forall p a, is_pauli p = true -> is_pauli a = true -> is_pauli (qmod2 (p + a)%Qc) = true.
Proof. intros p a H1 H2. destruct (pauli_cases p H1) as [-> | ->], (pauli_cases a H2) as [-> | ->]; vm_compute; reflexivity. Qed.
Definition pm (g g' : graph) : Prop := forall u, In u (vertices g') -> In u (vertices g) /\ (is_pauli (phase g u) = true -> is_pauli (phase g' u) = true).
Lemma pm_refl : forall g, pm g g. Proof. intros g u H. auto. Qed.
Lemma pm_trans : forall a b c, pm a b -> pm b c -> pm a c.
Proof. intros a b c A B u H. destruct (B u H) as [B1 B2]. destruct (A u B1) as [A1 A2]. auto. Qed.
Lemma pm_frame : forall g g', vertices g' = vertices g -> gphase g' = gphase g -> pm g g'.
Proof. intros g g' V P u H. rewrite V in H. split; auto. unfold phase. rewrite P. auto. Qed.
Lemma pm_add : forall v a g, is_pauli a = true -> pm g (add_to_phase v a g).
Proof.
  intros v a g A u H. split; [exact H|]. intros P. rewrite phase_add_to_phase. destruct (Nat.eqb_spec u v) as [->|]; auto. apply pauli_add; auto.
Qed.
Lemma pm_adds : forall vs a g, is_pauli a = true -> pm g (add_phases vs a g).
Proof.
  unfold add_phases. induction vs as [|v vs IH]; intros a g A; simpl; [apply pm_refl|]. eapply pm_trans; [apply pm_add; exact A|apply IH; auto].
Qed.
Lemma pm_add_edge : forall s t e g g', wfg g -> add_edge s t e g = Ok g' -> pm g g'.
Proof.
  intros s t e g g' W H. destruct (add_edge_vertices _ _ _ _ _ W H) as [W' V].
  unfold add_edge in H. destruct (dget s (gadj g)) as [ds|]; [|discriminate]. destruct (dget t ds) as [et1|].
  - inv_bind H. inv_bind H. destruct (vertex_is_zx_like a && vertex_is_zx_like a0); [|discriminate].
    destruct (if Bool.eqb _ _ then _ else _) as [fu ho].
    destruct (etype_eqb e fu && etype_eqb et1 fu); [injection H as <-; apply pm_refl|]. match type of H with (if ?x then _ else _) = _ => destruct x end.
    + inv_bind H. injection H as <-. destruct (set_edge_type_spec _ _ _ _ _ W E1) as [_ [F [P _]]].
      eapply pm_trans; [apply (pm_frame g a1); [apply F|exact P]|]. eapply pm_trans; [apply (pm_add s 1%Qc a1); reflexivity|]. apply pm_frame; reflexivity.
    + destruct (etype_eqb e ho && etype_eqb et1 ho); [|discriminate]. inv_bind H. injection H as <-. unfold remove_edge in E1. inv_bind E1. inv_bind E1. injection E1 as <-.
      apply pm_frame; [exact V|reflexivity].
  - destruct (set_edge_type_spec _ _ _ _ _ (wfg_nedges _ _ W) H) as [_ [F [P _]]]. apply pm_frame; [apply F|exact P].
Qed.
Lemma pm_table : forall tab g g', wfg g -> add_edge_table tab g = Ok g' -> pm g g'.
Proof.
  intros tab g g' W H. unfold add_edge_table in H.
  refine (proj2 (foldM_inv _ _ _ (fun h => wfg h /\ pm g h) _ _ _ _ _ H)); [split; [exact W|apply pm_refl]|].
  intros g0 [[s t] [ns nh]] g1 [W0 V0] _ E. inv_bind E.
  assert (IV : forall n e h h', wfg h /\ pm g h -> iterM n (add_edge s t e) h = Ok h' -> wfg h' /\ pm g h').
  { intros n e h h' HI HE. eapply (iterM_inv _ _ (fun h => wfg h /\ pm g h)); [exact HI| |exact HE].
    intros k k' [K1 K2] KE. destruct (add_edge_vertices _ _ _ _ _ K1 KE). split; auto. eapply pm_trans; [exact K2|]. eapply pm_add_edge; eauto. }
  eapply IV; [eapply IV; [|exact E0]|exact E]; auto.
Qed.
Lemma pm_rem_edges : forall es g g', wfg g -> remove_edges es g = Ok g' -> pm g g'.
Proof.
  intros es g g' W H. unfold remove_edges in H.
  refine (proj2 (foldM_inv _ _ _ (fun h => wfg h /\ pm g h) _ _ _ _ _ H)); [split; [exact W|apply pm_refl]|].
  intros g0 [s t] g1 [W0 V0] _ E. destruct (Nat.eq_dec s t) as [->|D]; [exfalso; eapply remove_edge_ss; eauto|].
  destruct (remove_edge_spec _ _ _ _ W0 D E) as [W1 [F1 [P1 _]]]. split; auto. eapply pm_trans; [exact V0|]. apply pm_frame; auto. apply F1.
Qed.
Lemma pm_rem : forall vs g g', wfg g -> remove_vertices vs g = Ok g' -> pm g g'.
Proof.
  intros vs g g' W H u Hu. assert (R := remove_vertices_spec _ _ _ W H). rewrite (rm_vs _ _ _ R) in Hu. apply filter_In in Hu.
  rewrite negb_true_iff, mem_false in Hu. split; [tauto|]. rewrite (rm_phase _ _ _ R) by tauto. auto.
Qed.
Lemma pm_iso : forall g g', wfg g -> remove_isolated_vertices g = Ok g' -> pm g g'.
Proof.
  intros g g' W H. unfold remove_isolated_vertices in H. inv_bind H. destruct a as [rem g1].
  destruct (isolated_fold_same _ _ _ E) as [s Hs]. cbn [snd] in Hs. subst g1.
  eapply pm_trans; [apply (pm_frame g (with_scalar s g)); reflexivity|]. eapply pm_rem; [|exact H]. exact (on_scalar_wfg (fun _ => s) g W).
Qed.
Lemma pm_apply : forall o g', wfg (rw_graph o) -> apply_rw o = Ok g' -> pm (rw_graph o) g'.
Proof.
  intros o g' W H. unfold apply_rw in H. inv_bind H. inv_bind H. inv_bind H.
  destruct (add_edge_table_bfix _ _ _ W E) as [W1 _]. destruct (remove_edges_bfix _ _ _ W1 E0) as [W2 _].
  destruct (remove_vertices_bfix _ _ _ W2 E1) as [W3 _].
  eapply pm_trans; [eapply pm_table; [exact W|exact E]|]. eapply pm_trans; [eapply pm_rem_edges; [exact W1|exact E0]|].
  eapply pm_trans; [eapply pm_rem; [exact W2|exact E1]|]. destruct (rw_check o); [apply pm_iso; auto|injection H as <-; apply pm_refl].
Qed.
Lemma pm_side : forall v w bs nw n2 h tab rem reme, In v (vertices h) -> is_pauli (phase h v) = true ->
  pm h (fst (fst (fst (pivot_side v w bs nw n2 (h, tab, rem, reme))))).
Proof.
  intros v w bs nw n2 h tab rem reme I P. unfold pivot_side.
  set (h1 := if qeqb (phase h v) 0%Qc then h else add_phases n2 (phase h v) (add_phases nw (phase h v) h)).
  assert (X : pm h h1).
  { unfold h1. destruct (qeqb _ _); [apply pm_refl|]. eapply pm_trans; apply pm_adds; exact P. }
  destruct bs; [exact X|]. destruct (match etab_get (w, n) tab with Some c => c | None => (0%nat, 0%nat) end). exact X.
Qed.
Lemma side_vs : forall v w bs nw n2 h tab rem reme, vertices (fst (fst (fst (pivot_side v w bs nw n2 (h, tab, rem, reme))))) = vertices h.
Proof.
  intros. unfold pivot_side. set (h1 := if qeqb (phase h v) 0%Qc then h else add_phases n2 (phase h v) (add_phases nw (phase h v) h)).
  assert (X : vertices h1 = vertices h) by (unfold h1, vertices; destruct (qeqb _ _); rewrite ?add_phases_gadj; auto).
  destruct bs; [exact X|]. destruct (match etab_get (w, n) tab with Some c => c | None => (0%nat, 0%nat) end). exact X.
Qed.

(** ** The entries of the edge table *)
Lemma etab_set_key : forall e c tab f d, In (f, d) (etab_set e c tab) -> f = e \/ exists d', In (f, d') tab.
Proof.
  induction tab as [|[f0 d0] tab IH]; intros f d H; simpl in H.
  - destruct H as [H|[]]. injection H as <- _. auto.
  - destruct (ekeq e f0); destruct H as [H|H].
    + injection H as <- _. right. exists d0. simpl; auto.
    + right. exists d. simpl; auto.
    + injection H as <- _. right. exists d0. simpl; auto.
    + destruct (IH f d H) as [|[d' X]]; auto. right. exists d'. simpl; auto.
Qed.
Lemma etab_had_key : forall e tab f d, In (f, d) (etab_had e tab) -> f = e \/ exists d', In (f, d') tab.
Proof. intros e tab f d. unfold etab_had. apply etab_set_key. Qed.
Lemma had_keys : forall es tab f d, In (f, d) (fold_left (fun tab e => etab_had e tab) es tab) -> In f es \/ exists d', In (f, d') tab.
Proof.
  induction es as [|e es IH]; intros tab f d H; simpl in H; [eauto|].
  destruct (IH _ _ _ H) as [|[d' X]]; [simpl; auto|]. destruct (etab_had_key _ _ _ _ X) as [->|]; simpl; auto.
Qed.
Lemma units_key : forall tab s t et, In (s, t, et) (units tab) -> exists c, In ((s, t), c) tab.
Proof.
  intros tab s t et H. unfold units in H. apply in_flat_map in H. destruct H as [[[s' t'] [ns nh]] [H1 H2]].
  apply in_app_iff in H2. destruct H2 as [H2|H2]; apply repeat_spec in H2; injection H2 as -> -> _; eauto.
Qed.
Lemma pivot_one_out : forall so g w v o ro, so_ok so -> wfg g -> pv_ok g ((w, v), ([], [o])) -> vty g o = BOUNDARY -> In w (vertices g) -> In v (vertices g) ->
  pivot so [((w, v), ([], [o]))] g = Ok ro ->
  (forall x et, In (o, x, et) (units (rw_etab ro)) \/ In (x, o, et) (units (rw_etab ro)) -> x = w) /\ pm g (rw_graph ro).
Proof.
  intros so g w v o ro SO W OK To Iw Iv H. assert (OK' := OK). destruct OK' as [D [T0 [T1 [E01 [PP0 [PP1 [S0 [S1 S9]]]]]]]].
  destruct (pivot_sets_spec so g g w v [] [o] SO W eq_refl OK) as [n0 [n1 [n2 [PS [_ [_ [_ [_ [N2 [N0 N1]]]]]]]]]].
  unfold pivot in H. cbn [foldM] in H. unfold pivot_one in H. rewrite PS in H. cbn [bind] in H.
  set (k1 := add_phases n2 1%Qc _) in H.
  set (k2 := if _ && _ then _ else _) in H. set (k3 := on_scalar _ k2) in H.
  assert (X1 : pm g k1) by (apply (pm_adds n2 1%Qc); reflexivity).
  assert (V1 : vertices k1 = vertices g) by (unfold k1, vertices; rewrite add_phases_gadj; auto).
  assert (X2 : pm g k3 /\ vertices k3 = vertices g).
  { assert (Y : pm g k2 /\ vertices k2 = vertices g) by (unfold k2; destruct (_ && _); auto). destruct Y as [Y1 Y2].
    split; [|exact Y2]. eapply pm_trans; [exact Y1|apply pm_frame; reflexivity]. }
  destruct X2 as [X2 V2]. clearbody k1 k2 k3.
  assert (Q1 := pm_side w v [] n1 n2 k3 [] [] []). assert (Q2 := side_vs w v [] n1 n2 k3 [] [] []).
  destruct (pivot_side w v [] n1 n2 (k3, [], [], [])) as [[[k4 t4] r4] e4] eqn:P1.
  assert (t4 = []) by (unfold pivot_side in P1; injection P1; auto). subst t4. cbn [fst] in Q1, Q2.
  assert (X4 : pm g k4).
  { eapply pm_trans; [exact X2|]. apply Q1; [rewrite V2; auto|]. apply (X2 w); [rewrite V2; auto|auto]. }
  assert (V4 : vertices k4 = vertices g) by congruence.
  assert (Q3 := pm_side v w [o] n0 n2 k4 [] r4 e4).
  destruct (pivot_side v w [o] n0 n2 (k4, [], r4, e4)) as [[[k5 t5] r5] e5] eqn:P2. cbn [fst] in Q3.
  assert (X5 : pm g k5).
  { eapply pm_trans; [exact X4|]. apply Q3; [rewrite V4; auto|]. apply (X4 v); [rewrite V4; auto|auto]. }
  assert (K5 : forall f d, In (f, d) t5 -> f = (w, o)).
  { unfold pivot_side in P2. cbn [etab_get etab_set] in P2. injection P2 as _ <- _ _. intros f d [Y|[]]. injection Y; auto. }
  injection H as <-. cbn [rw_etab rw_graph]. split; [|exact X5].
  assert (ZN : forall x, In x n0 \/ In x n1 \/ In x n2 -> vty g x = ZSP).
  { intros x Hx. destruct S0 as [_ S0]. destruct S1 as [_ S1].
    rewrite N0, N1, N2 in Hx. destruct Hx as [[[Y1 [Y2 Y3]] _]|[[[Y1 [Y2 Y3]] _]|[[Y1 [Y2 Y3]] _]]]; [apply S0|apply S1|apply S0]; auto; apply neighbors_spec; auto. }
  assert (KE : forall s t, In (s, t) (list_prod n0 n1 ++ list_prod n1 n2 ++ list_prod n0 n2) -> vty g s = ZSP /\ vty g t = ZSP).
  { intros s t Y. rewrite !in_app_iff, !in_prod_iff in Y. split; apply ZN; tauto. }
  intros x et [Y|Y]; apply units_key in Y; destruct Y as [c Y]; apply had_keys in Y; destruct Y as [Y|[d Y]].
  - apply KE in Y. destruct Y; congruence.
  - apply K5 in Y. injection Y as -> ->. congruence.
  - apply KE in Y. destruct Y; congruence.
  - apply K5 in Y. injection Y as ->. auto.
Qed.

Lemma filter_one : forall (f : nat -> bool) l o, NoDup l -> (forall x, In x l /\ f x = true <-> x = o) -> filter f l = [o].
Proof.
  intros f l o N H. assert (N' := NoDup_filter f N). assert (K : forall x, In x (filter f l) <-> x = o) by (intros x; rewrite filter_In; apply H).
  destruct (filter f l) as [|a [|b l']].
  - exfalso. apply (K o). auto.
  - rewrite (proj1 (K a) (or_introl eq_refl)). auto.
  - exfalso. inversion N'; subst. apply H2. rewrite (proj1 (K a)), (proj1 (K b)); simpl; auto.
Qed.

(** ** One pivot of remove_gadget *)
Lemma pivot_front : forall so g w v o ro g', so_ok so -> gok g -> inv_map g -> vty g w = ZSP -> is_pauli (phase g w) = true ->
  (forall u, edge_type g w u <> None -> vty g u = ZSP) -> vty g v = ZSP -> is_pauli (phase g v) = true -> edge_type g w v <> None ->
  In o (goutputs g) -> edge_type g v o <> None -> (forall u, edge_type g v u <> None -> ~ In u (ginputs g)) ->
  pivot so [((w, v), ([], filter (fun x => nmem x (goutputs g)) (neighbors g v)))] g = Ok ro -> apply_rw ro = Ok g' ->
  gok g' /\ ext g g' [] /\ inv_map g' /\ (forall x, In x (vertices g') -> In x (vertices g) /\ vty g' x = vty g x /\ (is_pauli (phase g x) = true -> is_pauli (phase g' x) = true)) /\
  (forall b x, In b (vertices g) -> vty g b = BOUNDARY -> b <> o -> (edge_type g' b x <> None <-> edge_type g b x <> None)) /\
  (forall x, edge_type g' o x <> None <-> x = w).
Proof.
  intros so g w v o ro g' SO G M Tw Pw Hw Tv Pv Ewv Io Eo Ni H1 H2. assert (W := gk_wf g G). destruct (gk_outs g G o Io) as [Vo To].
  assert (Z := zi_zx _ (gk_z _ G)). assert (B := zi_deg _ (gk_z _ G)). assert (NL := zx_noloop g Z).
  rewrite (filter_one _ (neighbors g v) o) in H1.
  2:{ apply neighbors_nd; auto. }
  2:{ intros x. rewrite neighbors_spec, nmem_spec. split; [intros [X1 X2]; apply (one_outs g G M v); auto|intros ->; auto]. }
  assert (Hh : forall a b, vty g a = ZSP -> vty g b = ZSP -> edge_type g a b <> None -> edge_type g a b = Some HADAMARD).
  { intros a b A1 A2 A3. destruct (edge_type g a b) as [e|] eqn:E; [|congruence]. f_equal. eapply (proj2 (gk_gl _ G)); eauto. }
  assert (Iw : In w (vertices g)) by (apply (edge_type_in_l g w v); auto).
  assert (Iv : In v (vertices g)) by (apply (edge_type_in_l g v o); auto).
  assert (Dwo : edge_type g w o = None) by (destruct (edge_type g w o) eqn:E; auto; assert (vty g o = ZSP) by (apply Hw; congruence); congruence).
  assert (OK : pv_ok g ((w, v), ([], [o]))).
  { assert (ZV : forall n, In n (neighbors g v) -> ~ In n [o] -> vty g n = ZSP).
    { intros n Hn No. apply neighbors_spec in Hn. assert (In n (vertices g)) by (destruct (edge_type g v n) eqn:Y; [eapply edge_r; eauto|congruence]).
      destruct (proj1 (gk_gl _ G) n) as [T|T]; auto. exfalso.
      destruct (zi_io _ (gk_z _ G) n H T) as [Y|Y]; [apply (Ni n); auto|]. apply No. left. apply (one_outs g G M v); auto. }
    assert (ZW : forall n, In n (neighbors g w) -> vty g n = ZSP) by (intros n Hn; apply Hw, neighbors_spec; auto).
    split; [intros ->; apply Ewv, NL|]. split; auto. split; auto. split; auto. split; auto. split; auto. split; [|split; [|left; auto]].
    - split; auto. intros n Hn _ _. split; auto. apply Hh; auto. apply neighbors_spec; auto.
    - split; [right; exists o; split; auto; split; [intros ->; congruence|auto]|].
      intros n Hn _ No. split; auto. apply Hh; auto. apply neighbors_spec; auto. }
  assert (OKs : forall m, In m [((w, v), ([], [o]))] -> pv_ok g m) by (intros m [<-|[]]; auto).
  assert (FP : ForallOrdPairs (pv_far g) [((w, v), ([], [o]))]) by (repeat constructor).
  destruct (pivot_round_wired so g _ SO Z B OKs FP) as [ro' [g'' [A1 [A2 [A3 [A4 A5]]]]]].
  rewrite H1 in A1. injection A1 as <-. rewrite H2 in A2. injection A2 as <-.
  destruct (pivot_step_matches so nonzero anyph g _ ro g' SO good_nonzero Z (fun _ _ => I) OKs FP H1 H2) as [[Z' [I' [O' [k [K0 K]]]]] _].
  destruct (pivot_one_out so g w v o ro SO W OK To Iw Iv H1) as [U1 U2].
  assert (BF : bfix g g').
  { eapply bfix_trans; [eapply pivot_bfix; [exact SO|exact W|exact OKs|exact H1]|]. apply apply_rw_bfix; auto.
    destruct (pivot_shape so g _ SO Z OKs FP) as [ro' [A1 [S _]]]. rewrite H1 in A1. injection A1 as <-. apply (sh_wf _ _ _ S). }
  assert (WR : wfg (rw_graph ro)).
  { destruct (pivot_shape so g _ SO Z OKs FP) as [ro' [A1 [S _]]]. rewrite H1 in A1. injection A1 as <-. apply (sh_wf _ _ _ S). }
  assert (G' : gok g').
  { constructor.
    - apply (zinv_bfix g g'); auto. apply G.
    - unfold io_ok. rewrite I', O'. apply G.
    - apply A5; [apply glike_L; apply G|]. intros m [<-|[]]. split; intros u; [intros []|]. intros [<-|[]]. congruence. }
  assert (XE : ext g g' []).
  { apply ext_sem; auto. exists (/ k). assert (k <> C0) by exact K0. split.
    - intros Y. apply C1_neq_C0. rewrite <- (Cinv_l k H). rewrite Y. ring.
    - intros b. rewrite K, Cmult_assoc, Cinv_l by auto. ring. }
  split; auto. split; auto. split; [eapply ext_inv; eauto|]. split; [|split].
  - intros x Hx. assert (Y := pm_trans _ _ _ U2 (pm_apply _ _ WR H2) x Hx). destruct Y as [Y1 Y2]. split; auto. split; auto. apply BF; auto.
  - intros b x Hb Tb Db. destruct (B b Hb Tb) as [u Hu]. assert (Eu : edge_type g b u <> None) by (apply Hu; auto).
    assert (Y := A4 b u Hb Tb Eu). cbn [flat_map pv_rem app mem] in Y. assert (Du : u <> v).
    { intros ->. assert (Iob : In b (goutputs g)).
      { destruct (zi_io _ (gk_z _ G) b Hb Tb) as [Y'|Y']; auto. exfalso. apply (Ni b); auto. rewrite (wf_sym g W); auto. }
      apply Db. apply (one_outs g G M v); auto. rewrite (wf_sym g W); auto. }
    destruct (mem u [v]) eqn:Mu; [apply mem_spec in Mu; destruct Mu as [->|[]]; congruence|]. rewrite Y, Hu. tauto.
  - intros x. assert (Y := A4 o v Vo To). cbn [flat_map pv_rem app] in Y.
    destruct (mem v [v]) eqn:Mv; [|apply mem_false in Mv; exfalso; apply Mv; simpl; auto].
    destruct Y as [w0 [et [Y1 Y2]]]; [rewrite (wf_sym g W); auto|]. rewrite (U1 w0 et Y1) in Y2. apply Y2.
Qed.

(** ** The loop of remove_gadget *)
Record rginv (g0 g : graph) (s : xst) : Prop := mkrg {
  rg_x : xinv g0 g s;
  rg_p : forall v, In v (x_fr s) -> is_pauli (phase g v) = true /\ forall u, edge_type g v u <> None -> ~ In u (ginputs g) }.
Lemma fready_rg : forall g0 g s ns, gok g -> inv_map g -> ext g0 g (x_gs s) -> gadok g (x_gad s) -> fready g (x_qm s) (x_fr s) ns -> rginv g0 g s.
Proof.
  intros g0 g s ns G M X GD FY. destruct (fy_f _ _ _ _ FY) as [F CC FF]. constructor; [constructor; auto|].
  intros v Hv. destruct (fk_v _ _ _ F v Hv) as [q [Q _]]. destruct (CC v Hv q Q) as [_ P]. split; [rewrite P; reflexivity|].
  intros u E Iu. destruct (gk_ins g G u Iu) as [_ T]. destruct (fy_d _ _ _ _ FY v u Hv E) as [Y|Y].
  - destruct (fy_z _ _ _ _ FY u Y). congruence.
  - apply (gk_disj g G u); auto.
Qed.
Lemma ddel_mem : forall A (d : dict A) k x, NoDup (dkeys d) -> dmem x (ddel k d) = true -> dmem x d = true /\ x <> k.
Proof.
  intros A d k x N H. unfold dmem in *. rewrite dget_ddel in H by auto. destruct (Nat.eqb_spec x k); [discriminate|]. auto.
Qed.
Lemma rg_one_ok : forall so g0 g s r w g' s' r', so_ok so -> NoDup (dkeys (x_gad s)) -> rginv g0 g s -> rg_one so (g, s, r) w = Ok (g', s', r') ->
  (g' = g /\ s' = s /\ r' = r /\ (dmem w (x_gad s) = true -> forall v, In v (x_fr s) -> edge_type g w v = None)) \/
  (rginv g0 g' s' /\ r' = true /\ NoDup (dkeys (x_gad s'))).
Proof.
  intros so g0 g [qm fr gs gad] r w g' s' r' SO NG I H. unfold rg_one in H. cbn [x_qm x_fr x_gs x_gad] in *.
  destruct (dmem w gad) eqn:Dw; cbn [negb] in H; [|injection H as <- <- <-; left; repeat split; auto; discriminate].
  inv_bind H. apply neighbors_r_inv in E. destruct E as [Iw ->].
  destruct (filter (fun v => nmem v fr) (neighbors g w)) as [|v l] eqn:FE.
  { injection H as <- <- <-. left. repeat split; auto. intros _ v Hv. destruct (edge_type g w v) eqn:Ev; auto. exfalso.
    assert (Y : In v (filter (fun v => nmem v fr) (neighbors g w))) by (apply filter_In; split; [apply neighbors_spec; congruence|apply nmem_spec; auto]).
    rewrite FE in Y. destruct Y. }
  assert (Hv : In v (filter (fun v => nmem v fr) (neighbors g w))) by (rewrite FE; simpl; auto). clear FE.
  apply filter_In in Hv. rewrite neighbors_spec, nmem_spec in Hv. destruct Hv as [Ewv Hv].
  inv_bind H. apply neighbors_r_inv in E. destruct E as [Iv ->]. inv_bind H. inv_bind H. inv_bind H. inv_bind H. apply of_opt_some in E2. injection H as <- <- <-.
  rename a into ro. rename a0 into g'. rename a1 into fr1. rename a2 into q. right.
  destruct I as [[G M X F GD] RP]. cbn [x_qm x_fr x_gs x_gad] in *. assert (W := gk_wf g G).
  destruct (GD w Dw Iw) as [Tw [Pw Zw]]. destruct (RP v Hv) as [Pv Nv]. destruct (fk_v _ _ _ F v Hv) as [q' [Q [Lq [Tv Ev]]]].
  assert (q' = q) by congruence. subst q'.
  assert (Io : In (outv g q) (goutputs g)) by (apply nth_In; auto).
  destruct (pivot_front so g w v (outv g q) ro g' SO G M Tw Pw Zw Tv Pv Ewv Io Ev Nv E E0) as [G' [X' [M' [VS [BS OS]]]]].
  assert (W' := gk_wf g' G'). destruct X' as [I' [O' X'']]. assert (X' : ext g g' []) by (split; auto).
  assert (OV : forall q, outv g' q = outv g q) by (intros; unfold outv; rewrite O'; auto).
  assert (On : nout g' = nout g) by (unfold nout; rewrite O'; auto).
  apply lremove_perm in E1. assert (N' : NoDup (v :: fr1)) by (eapply Permutation_NoDup; [exact E1|apply F]). apply NoDup_cons_iff in N'. destruct N' as [N1 N2].
  assert (Hin : forall u, In u fr1 -> In u fr /\ u <> v).
  { intros u Hu. split; [eapply Permutation_in; [symmetry; exact E1|simpl; auto]|intros ->; contradiction]. }
  assert (NwO : forall x, In x (vertices g) -> vty g x = BOUNDARY -> edge_type g x w = None).
  { intros x Hx Tx. destruct (edge_type g x w) eqn:Y; auto. exfalso. assert (vty g x = ZSP) by (apply Zw; rewrite (wf_sym g W); congruence). congruence. }
  assert (Nw : ~ In w fr).
  { intros Y. destruct (fk_v _ _ _ F w Y) as [p [_ [Lp [_ Ep]]]]. apply Ep. rewrite (wf_sym g W). apply NwO; apply (gk_out g G p Lp). }
  assert (EV : forall u, In u fr1 -> forall p, dget u qm = Some p -> (p < nout g)%nat -> edge_type g u (outv g p) <> None -> edge_type g' (outv g p) u <> None).
  { intros u Hu p Qp Lp Ep. destruct (Hin u Hu) as [Fu Du]. destruct (gk_out g G p Lp) as [Vp Tp]. apply BS; auto.
    - intros Y. apply Du. destruct (zi_deg _ (gk_z _ G) (outv g p)) as [z Hz]; auto. transitivity z; [|symmetry]; apply Hz; [rewrite (wf_sym g W); auto|].
      rewrite Y, (wf_sym g W). auto.
    - rewrite (wf_sym g W). auto. }
  assert (FR : forall u, In u (fr1 ++ [w]) -> In u (vertices g') /\ (In u fr1 \/ u = w)).
  { intros u Hu. apply in_app_iff in Hu. destruct Hu as [Hu|[<-|[]]].
    - split; auto. destruct (Hin u Hu) as [Fu Du]. destruct (fk_v _ _ _ F u Fu) as [p [Qp [Lp [_ Ep]]]]. assert (Y := EV u Hu p Qp Lp Ep).
      apply (edge_type_in_l g' u (outv g p)). rewrite (wf_sym g' W'). auto.
    - split; auto. apply (edge_type_in_l g' w (outv g q)). rewrite (wf_sym g' W'). apply OS. auto. }
  split; [|split; auto].
  - constructor; cbn [x_qm x_fr x_gs x_gad].
    + constructor; cbn [x_qm x_fr x_gs x_gad]; auto.
      * rewrite <- (app_nil_r gs). eapply ext_trans; eauto.
      * constructor.
        -- apply RuleLemmas.nodup_app; auto; [repeat constructor; simpl; tauto|]. intros x Hx [<-|[]]. apply Nw. apply Hin; auto.
        -- intros u Hu. destruct (FR u Hu) as [Vu [Hu'|Eu]].
           ++ destruct (Hin u Hu') as [Fu Du]. destruct (fk_v _ _ _ F u Fu) as [p [Qp [Lp [Tu Ep]]]]. exists p.
              rewrite dget_dset. destruct (Nat.eqb_spec u w) as [->|_]; [contradiction|]. split; auto. rewrite On, OV. split; auto.
              destruct (VS u Vu) as [_ [-> _]]. split; auto. rewrite (wf_sym g' W'). apply EV; auto.
           ++ subst u. exists q. rewrite dget_dset, Nat.eqb_refl, On, OV. split; auto. split; auto. destruct (VS w Vu) as [_ [-> _]]. split; auto.
              rewrite (wf_sym g' W'). apply OS. auto.
      * intros u Du Iu. apply ddel_mem in Du; auto. destruct Du as [Du Dn]. destruct (VS u Iu) as [Vu [Tu Pu]].
        destruct (GD u Du Vu) as [K1 [K2 K3]]. rewrite Tu. split; auto. split; auto. intros x Ex.
        assert (Vx : In x (vertices g')) by (destruct (edge_type g' u x) eqn:Y; [eapply edge_r; eauto|congruence]).
        destruct (proj1 (gk_gl _ G') x Vx) as [Tx|Tx]; auto. exfalso. destruct (VS x Vx) as [Vx' [Tx' _]]. rewrite Tx' in Tx.
        rewrite (wf_sym g' W') in Ex. destruct (Nat.eq_dec x (outv g q)) as [->|Dx].
        -- apply OS in Ex. contradiction.
        -- apply BS in Ex; auto. assert (vty g x = ZSP) by (apply K3; rewrite (wf_sym g W); auto). congruence.
    + intros u Hu. destruct (FR u Hu) as [Vu Hu']. destruct (VS u Vu) as [_ [_ Pu]]. split.
      * apply Pu. destruct Hu' as [Hu'|Eu]; [apply RP; apply Hin; auto|subst; auto].
      * intros x Ex Ix. rewrite I' in Ix. destruct (gk_ins g G x Ix) as [Vx Tx]. rewrite (wf_sym g' W') in Ex. apply BS in Ex; auto.
        -- destruct Hu' as [Hu'|Eu]; [|subst u; rewrite NwO in Ex; auto].
           apply (proj2 (RP u (proj1 (Hin u Hu'))) x); auto. rewrite (wf_sym g W). auto.
        -- intros Y. rewrite Y in Ix. apply (gk_disj g G (outv g q)); auto.
  - cbn [x_gad]. apply nodup_ddel. auto.
Qed.
Lemma remove_gadget_loop : forall so g0 ns g s r g' s' r', so_ok so -> NoDup (dkeys (x_gad s)) -> rginv g0 g s ->
  foldM (rg_one so) ns (g, s, r) = Ok (g', s', r') ->
  rginv g0 g' s' /\ NoDup (dkeys (x_gad s')) /\
  (r' = false -> g' = g /\ s' = s /\ r = false /\ forall w, In w ns -> dmem w (x_gad s) = true -> forall v, In v (x_fr s) -> edge_type g w v = None).
Proof.
  intros so g0. induction ns as [|w ns IH]; intros g s r g' s' r' SO NG I H; cbn [foldM] in H.
  - injection H as <- <- <-. split; auto. split; auto. intros ->. repeat split; auto. intros w [].
  - inv_bind H. destruct a as [[g1 s1] r1]. destruct (rg_one_ok so g0 g s r w g1 s1 r1 SO NG I E) as [[-> [-> [-> K]]]|[I1 [-> N1]]].
    + destruct (IH _ _ _ _ _ _ SO NG I H) as [A [B C]]. split; auto. split; auto. intros R. destruct (C R) as [C1' [C2' [C3' C4']]].
      repeat split; auto. intros u [<-|Hu]; auto.
    + destruct (IH _ _ _ _ _ _ SO N1 I1 H) as [A [B C]]. split; auto. split; auto. intros R. destruct (C R) as [_ [_ [Y _]]]. discriminate.
Qed.
