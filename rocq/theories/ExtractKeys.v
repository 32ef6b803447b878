(** The vertices stored in [gadgets] stay in the graph during the extraction, so
    that a new spider never gets the number of one of them. *)
From Coq Require Import Reals ZArith QArith Qcanon List Bool Arith Lia Permutation.
From Verif Require Import LinModel LinProofs CNum Base ScalarModel ScalarProofs GraphModel GraphSem SumLemmas GraphProofs GraphOps RulesModel RuleLemmas
  SpiderProofs IsoProofs IdProofs LcompProofs PivotProofs PivotMatch GrowProofs StoreProofs SimpModel ColorProofs SimpProofs PairProofs RuleShape InvProofs TermProofs BfixProofs RoundProofs TotalProofs GrowTotal
  GateModel CircSpec GateProofs GateMask AmpProofs CircGraphModel CircGraphProofs CircGraphFacts VerifyProofs GraphAlgModel GraphAlgProofs GraphAlgFacts
  ComposeProofs ApplyProofs ExtractModel ExtractSem ExtractMap ExtractClean ExtractCz ExtractFront ExtractNbrs ExtractCnot ExtractTake ExtractPivot ExtractRound ExtractFinish.
Import ListNotations.
Open Scope C_scope.

(** ** The edges after one pivot *)
Lemma pair_hit_iff : forall s t a b, pair_hit s t a b = false <-> ~ (a = s /\ b = t) /\ ~ (a = t /\ b = s).
Proof.
  intros. split.
  - intros H. split; intros [-> ->]; [rewrite pair_hit_st in H|rewrite pair_hit_sym, pair_hit_st in H]; discriminate.
  - intros [A B]. apply pair_hit_false; intros Y; injection Y as -> ->; auto.
Qed.
Lemma add_units_other : forall us g g1, wfg g -> (forall s t et, In (s, t, et) us -> s <> t) -> foldM add_u us g = Ok g1 ->
  wfg g1 /\ same_frame g g1 /\ forall a b, (forall s t et, In (s, t, et) us -> pair_hit s t a b = false) -> edge_type g1 a b = edge_type g a b.
Proof.
  induction us as [|[[s t] et] us IH]; intros g g1 W D H; cbn [foldM] in H.
  - injection H as <-. split; auto. split; [apply same_frame_refl|auto].
  - inv_bind H. rename a into k. unfold add_u in E. assert (Dst : s <> t) by (apply (D s t et); simpl; auto).
    destruct (add_edge_spec _ _ _ _ _ W Dst E) as [W1 [F1 [_ [_ [ET _]]]]].
    destruct (IH k g1 W1) as [W2 [F2 E2]]; auto; [intros; eapply D; simpl; eauto|].
    split; auto. split; [eapply same_frame_trans; eauto|]. intros a b Hh. rewrite E2 by (intros; eapply Hh; simpl; eauto).
    assert (X := Hh s t et (or_introl eq_refl)). apply pair_hit_iff in X. apply ET; intros Y; injection Y as -> ->; tauto.
Qed.
Lemma add_units_one : forall us1 us2 a b g g1, wfg g -> (forall s t et, In (s, t, et) (us1 ++ (a, b, HADAMARD) :: us2) -> s <> t) ->
  (forall s t et, In (s, t, et) (us1 ++ us2) -> pair_hit s t a b = false) -> edge_type g a b = None ->
  foldM add_u (us1 ++ (a, b, HADAMARD) :: us2) g = Ok g1 -> edge_type g1 a b = Some HADAMARD.
Proof.
  intros us1 us2 a b g g1 W D Hh N H. rewrite foldM_app in H. inv_bind H. rename a0 into k. cbn [foldM] in H. inv_bind H. rename a0 into k1.
  destruct (add_units_other us1 g k W) as [W1 [_ E1]]; auto; [intros; eapply D; apply in_app_iff; eauto|].
  assert (Dab : a <> b) by (eapply D; apply in_app_iff; right; left; eauto). unfold add_u in E0.
  assert (X : edge_type k1 a b = Some HADAMARD).
  { apply (InvProofs.add_edge_new a b HADAMARD k k1); auto. rewrite E1; auto. intros; eapply Hh; apply in_app_iff; eauto. }
  destruct (add_edge_spec _ _ _ _ _ W1 Dab E0) as [W2 _].
  destruct (add_units_other us2 k1 g1 W2) as [_ [_ E2]]; auto; [intros; eapply D; apply in_app_iff; right; simpl; eauto|].
  rewrite E2; auto. intros; eapply Hh; apply in_app_iff; eauto.
Qed.
Lemma cnt_had_notin : forall es tab f, ~ In f es -> cnt f (fold_left (fun tab e => etab_had e tab) es tab) = cnt f tab.
Proof.
  induction es as [|e es IH]; intros tab f H; simpl; auto. rewrite IH by (simpl in H; tauto). unfold etab_had. rewrite cnt_set.
  rewrite ekeq_neq; auto. intros ->. apply H. simpl; auto.
Qed.
Lemma cnt_had_once : forall l1 l2 tab f, ~ In f l1 -> ~ In f l2 -> cnt f tab = (0, 0)%nat ->
  cnt f (fold_left (fun tab e => etab_had e tab) (l1 ++ f :: l2) tab) = (0, 1)%nat.
Proof.
  intros l1 l2 tab f H1 H2 H. rewrite fold_left_app. simpl. rewrite cnt_had_notin by auto. unfold etab_had. rewrite cnt_set, ekeq_refl.
  assert (X := cnt_had_notin l1 tab f H1). rewrite H in X. unfold cnt in X. destruct (etab_get f _) as [c|]; [rewrite X|]; reflexivity.
Qed.
Lemma units_split : forall tab f, tab_nd tab -> cnt f tab = (0, 1)%nat ->
  exists t1 t2, units tab = units t1 ++ (fst f, snd f, HADAMARD) :: units t2 /\ (forall e c, In (e, c) t1 \/ In (e, c) t2 -> e <> f /\ In (e, c) tab).
Proof.
  intros tab f ND H. unfold cnt in H. destruct (etab_get f tab) as [c|] eqn:E; [|discriminate]. subst c. apply etab_get_in in E.
  destruct (in_split _ _ E) as [t1 [t2 ->]]. exists t1, t2. split.
  - unfold units. rewrite flat_map_app. destruct f as [a b]. reflexivity.
  - unfold tab_nd in ND. rewrite map_app in ND. simpl in ND. apply NoDup_remove_2 in ND. intros e c Y. split.
    + intros ->. apply ND. apply in_app_iff. destruct Y as [Y|Y]; [left|right]; apply in_map_iff; exists (f, c); auto.
    + apply in_app_iff. simpl. tauto.
Qed.
Lemma in_units : forall tab s t et, In (s, t, et) (units tab) -> exists c, In ((s, t), c) tab.
Proof. exact units_key. Qed.
Lemma prod_split : forall (n0 n1 : list nat) a b, NoDup n0 -> NoDup n1 -> In a n0 -> In b n1 ->
  exists l1 l2, list_prod n0 n1 = l1 ++ (a, b) :: l2 /\ ~ In (a, b) l1 /\ ~ In (a, b) l2.
Proof.
  intros n0 n1 a b N0 N1 Ha Hb. induction n0 as [|x n0 IH]; [destruct Ha|]. apply NoDup_cons_iff in N0. destruct N0 as [N0 N0'].
  simpl. destruct Ha as [->|Ha].
  - destruct (in_split _ _ Hb) as [m1 [m2 ->]]. exists (map (fun y => (a, y)) m1), (map (fun y => (a, y)) m2 ++ list_prod n0 (m1 ++ b :: m2)).
    rewrite map_app. simpl. rewrite <- app_assoc. split; auto. apply NoDup_remove_2 in N1. rewrite in_app_iff in N1. split.
    + intros Y. apply in_map_iff in Y. destruct Y as [y [Y1 Y2]]. injection Y1 as ->. tauto.
    + intros Y. apply in_app_iff in Y. destruct Y as [Y|Y]; [apply in_map_iff in Y; destruct Y as [y [Y1 Y2]]; injection Y1 as ->; tauto|].
      apply in_prod_iff in Y. tauto.
  - destruct IH as [l1 [l2 [-> [A B]]]]; auto. exists (map (fun y => (x, y)) n1 ++ l1), l2. rewrite <- app_assoc. split; auto. split; auto.
    intros Y. apply in_app_iff in Y. destruct Y as [Y|Y]; auto. apply in_map_iff in Y. destruct Y as [y [Y1 Y2]]. injection Y1 as <- <-. auto.
Qed.

Lemma pivot_one_edges : forall so g w v o ro g1, so_ok so -> zxok g -> pv_ok g ((w, v), ([], [o])) -> vty g o = BOUNDARY ->
  pivot so [((w, v), ([], [o]))] g = Ok ro -> add_edge_table (rw_etab ro) (rw_graph ro) = Ok g1 ->
  exists n0 n1 n2,
   (forall u, In u n2 <-> (edge_type g w u <> None /\ u <> v) /\ (edge_type g v u <> None /\ u <> w /\ u <> o)) /\
   (forall u, In u n0 <-> (edge_type g w u <> None /\ u <> v) /\ ~ (edge_type g v u <> None /\ u <> w /\ u <> o)) /\
   (forall u, In u n1 <-> (edge_type g v u <> None /\ u <> w /\ u <> o) /\ ~ (edge_type g w u <> None /\ u <> v)) /\
   wfg g1 /\ same_frame g g1 /\
   (forall a b, (forall s t, (In s n0 /\ In t n1) \/ (In s n1 /\ In t n2) \/ (In s n0 /\ In t n2) -> pair_hit s t a b = false) ->
      pair_hit w o a b = false -> edge_type g1 a b = edge_type g a b) /\
   (forall a b, In a n0 -> In b n1 -> edge_type g a b = None -> edge_type g1 a b = Some HADAMARD).
Proof.
  intros so g w v o ro g1 SO Z OK To H A1. assert (W := zx_wf g Z). assert (NL := zx_noloop g Z).
  assert (OKs : forall m, In m [((w, v), ([], [o]))] -> pv_ok g m) by (intros m [<-|[]]; auto).
  assert (FP : ForallOrdPairs (pv_far g) [((w, v), ([], [o]))]) by (repeat constructor).
  destruct (pivot_shape so g _ SO Z OKs FP) as [ro' [E [S _]]]. rewrite H in E. injection E as <-.
  destruct (pivot_sets_spec so g g w v [] [o] SO W eq_refl OK) as [n0 [n1 [n2 [PS [_ [D0 [D1 [D2 [N2 [N0 N1]]]]]]]]]].
  exists n0, n1, n2.
  assert (NB : forall u : nat, ~ In u [] <-> True) by (simpl; tauto). assert (NO : forall u, ~ In u [o] <-> u <> o) by (intros u; simpl; split; [intros Y ->; auto|intros Y [X|[]]; auto]).
  split; [intros u; rewrite N2, NB, NO; tauto|]. split; [intros u; rewrite N0, NB, NO; tauto|]. split; [intros u; rewrite N1, NB, NO; tauto|].
  unfold pivot in H. cbn [foldM] in H. unfold pivot_one in H. rewrite PS in H. cbn [bind] in H.
  set (k1 := add_phases n2 1%Qc _) in H. set (k2 := if _ && _ then _ else _) in H. set (k3 := on_scalar _ k2) in H. clearbody k3.
  destruct (pivot_side w v [] n1 n2 (k3, [], [], [])) as [[[k4 t4] r4] e4] eqn:P1.
  assert (t4 = []) by (unfold pivot_side in P1; injection P1; auto). subst t4.
  destruct (pivot_side v w [o] n0 n2 (k4, [], r4, e4)) as [[[k5 t5] r5] e5] eqn:P2.
  assert (K5 : exists c, t5 = [((w, o), c)]).
  { unfold pivot_side in P2. cbn [etab_get etab_set] in P2. injection P2 as _ <- _ _. eauto. }
  destruct K5 as [c5 ->]. injection H as <-.
  set (es := list_prod n0 n1 ++ list_prod n1 n2 ++ list_prod n0 n2) in *.
  set (tab := fold_left (fun tab e => etab_had e tab) es [((w, o), c5)]) in *.
  cbn [rw_etab rw_graph] in *.
  assert (TL := sh_tab _ _ _ S). cbn [rw_etab] in TL.
  assert (UD : forall s t et, In (s, t, et) (units tab) -> s <> t) by (intros s t et Y; apply (units_tabL _ _ _ _ _ TL Y)).
  assert (UK : forall s t et, In (s, t, et) (units tab) -> In (s, t) es \/ (s, t) = (w, o)).
  { intros s t et Y. apply in_units in Y. destruct Y as [c Y]. apply had_keys in Y. destruct Y as [Y|[d [Y|[]]]]; auto. injection Y; auto. }
  assert (IE : forall s t, In (s, t) es <-> (In s n0 /\ In t n1) \/ (In s n1 /\ In t n2) \/ (In s n0 /\ In t n2)).
  { intros s t. unfold es. rewrite !in_app_iff, !in_prod_iff. tauto. }
  assert (A1' := A1). rewrite table_units in A1.
  assert (GE : forall a b, edge_type k5 a b = edge_type g a b) by (intros a b; assert (SA := sh_adj _ _ _ S); cbn [rw_graph] in SA; unfold edge_type; rewrite SA; auto).
  assert (SF := sh_fr _ _ _ S). cbn [rw_graph] in SF.
  assert (W5 := sh_wf _ _ _ S). cbn [rw_graph] in W5.
  destruct (add_units_other _ _ _ W5 UD A1) as [W1 [F1 E1]].
  split; auto. split; [eapply same_frame_trans; eauto|]. split.
  - intros a b Hh Hw. rewrite E1, GE; auto. intros s t et Y. destruct (UK s t et Y) as [Y'|Y']; [apply Hh; apply IE; auto|]. injection Y' as -> ->. auto.
  - intros a b Ha Hb Nab.
    destruct (prod_split n0 n1 a b D0 D1 Ha Hb) as [l1 [l2 [PE [X1 X2]]]].
    assert (C1' : cnt (a, b) tab = (0, 1)%nat).
    { unfold tab, es. rewrite PE, <- app_assoc. simpl app. apply cnt_had_once; auto.
      - rewrite !in_app_iff, !in_prod_iff. intros [Y|[[_ Y]|[_ Y]]]; auto; apply N2 in Y; apply N1 in Hb; tauto.
      - unfold cnt. cbn [etab_get]. rewrite ekeq_neq; auto. intros Y. injection Y as -> ->. apply N0 in Ha. destruct Ha as [[Ha _] _]. apply Ha, NL. }
    destruct (units_split tab (a, b) (proj1 TL) C1') as [t1 [t2 [US HT]]]. cbn [fst snd] in US. rewrite US in A1.
    eapply add_units_one; [exact W5|intros s t et Y; apply (UD s t et); rewrite US; exact Y| |rewrite GE; auto|exact A1].
    intros s t et Y. apply in_app_iff in Y.
    assert (Y' : exists c, (In (s, t, c) t1 \/ In (s, t, c) t2)) by (destruct Y as [Y|Y]; apply in_units in Y; destruct Y as [c Y]; exists c; auto).
    destruct Y' as [c Y']. destruct (HT _ _ Y') as [Dst It]. apply pair_hit_iff. split; intros [-> ->]; [auto|].
    apply had_keys in It. destruct It as [It|[d [It|[]]]].
    + apply IE in It. apply N0 in Ha. apply N1 in Hb. rewrite !N0, !N1, !N2 in It. tauto.
    + injection It as <- <- _. apply N1 in Hb. tauto.
Qed.

Lemma iso_removed : forall g g', zxok g -> remove_isolated_vertices g = Ok g' -> exists rem s, removed rem (with_scalar s g) g' /\
  (forall u w, In u rem -> edge_type g u w <> None -> In w rem) /\ (forall u x y, In u rem -> edge_type g u x <> None -> edge_type g u y <> None -> x = y).
Proof.
  intros g g' Z H. unfold remove_isolated_vertices in H. inv_bind H. destruct a as [rem g1]. assert (W := zx_wf g Z).
  assert (INV : iso_inv nonzero g [] rem g1).
  { apply (isolated_fold nonzero g Z (proj1 good_nonzero) (iso_good nonzero anyph g good_nonzero Z (fun _ _ => I)) (vertices g) [] g); auto.
    - apply wf_nd; auto.
    - exists [], (gscalar g), CNum.C1. repeat split; try (constructor; fail); try (simpl; tauto).
      + destruct g; reflexivity.
      + apply good_nonzero.
      + simpl. ring. }
  destruct INV as [grp [s1 [k [R1 [G1 [ND [CP [HV _]]]]]]]].
  assert (W1 : wfg g1) by (subst g1; destruct W; constructor; auto).
  exists rem, s1. split; [rewrite <- G1; apply remove_vertices_spec; auto; subst g1; exact (zx_noloop g Z)|]. split.
  - intros u w Hu E1. subst rem. eapply iso_closed; eauto.
  - intros u x y Hu Ex Ey. subst rem. apply in_flat_map in Hu. destruct Hu as [c [Hc Hu]]. apply neighbors_spec in Ex. apply neighbors_spec in Ey.
    destruct (CP c Hc) as [[a [-> N]]|[a [b [-> [D [Na Nb]]]]]].
    + destruct Hu as [<-|[]]. rewrite N in Ex. destruct Ex.
    + destruct Hu as [<-|[<-|[]]]; [rewrite Na in *|rewrite Nb in *]; simpl in *; destruct Ex as [<-|[]], Ey as [<-|[]]; auto.
Qed.

(** ** The stored gadgets *)
(** each stored hub is in the graph, has its leaf and another neighbour, and is
    not next to another stored hub *)
Definition keys_in (g : graph) (gad : dict nat) : Prop := forall w l, dget w gad = Some l ->
  In w (vertices g) /\ vty g l = ZSP /\ (forall u, edge_type g l u <> None <-> u = w) /\ (exists u, u <> l /\ edge_type g w u <> None) /\
  forall w', dmem w' gad = true -> edge_type g w w' = None.
Definition kept (gad : dict nat) (k : nat) : Prop := dmem k gad = true \/ exists w, dget w gad = Some k.
Definition kinc (g g' : graph) (k : nat) : Prop := forall u, edge_type g' k u <> None <-> edge_type g k u <> None.
Lemma kinc_trans : forall a b c k, kinc a b k -> kinc b c k -> kinc a c k.
Proof. intros a b c k A B u. specialize (A u). specialize (B u). tauto. Qed.
Lemma dmem_get : forall A (d : dict A) k, dmem k d = true <-> exists v, dget k d = Some v.
Proof. intros. unfold dmem. destruct (dget k d); split; eauto; try discriminate. intros [v Hv]. discriminate. Qed.
Lemma keys_kinc : forall g g' gad, keys_in g gad -> (forall k, kept gad k -> In k (vertices g) -> In k (vertices g') /\ vty g' k = vty g k /\ kinc g g' k) -> wfg g -> keys_in g' gad.
Proof.
  intros g g' gad K H W w l D. destruct (K w l D) as [A1 [A2 [A3 [[u [A4 A5]] A6]]]].
  assert (Il : In l (vertices g)) by (apply (edge_type_in_l g l w); apply A3; auto).
  assert (Kw : kept gad w) by (left; apply dmem_get; eauto). destruct (H w Kw A1) as [B1 [B2 B3]].
  assert (Kl : kept gad l) by (right; eauto). destruct (H l Kl Il) as [C1' [C2' C3']].
  split; auto. split; [congruence|]. split; [intros x; rewrite (C3' x); auto|]. split; [exists u; split; auto; apply B3; auto|].
  intros w' Dw. specialize (A6 w' Dw). destruct (edge_type g' w w') eqn:E; auto. exfalso. apply (proj1 (B3 w')); congruence.
Qed.
(** none of them is on the frontier *)
Lemma key_front : forall g qm fr gad k, gok g -> frok g qm fr -> gadok g gad -> keys_in g gad -> kept gad k -> ~ In k fr.
Proof.
  intros g qm fr gad k G F GD K H Hk. destruct (fk_v _ _ _ F k Hk) as [q [_ [Lq [_ E]]]]. destruct (gk_out g G q Lq) as [_ T]. fold (outv g q) in T.
  destruct H as [H|[w Hw]].
  - assert (H' := H). apply dmem_get in H'. destruct H' as [l Hl]. destruct (K k l Hl) as [Ik _]. destruct (GD k H Ik) as [_ [_ Y]]. assert (Y' := Y _ E). congruence.
  - destruct (K w k Hw) as [Iw [_ [A _]]]. apply A in E. destruct (GD w) as [Tw _]; auto; [apply dmem_get; eauto|]. congruence.
Qed.
Lemma key_z : forall g gad k, gadok g gad -> keys_in g gad -> kept gad k -> In k (vertices g) /\ vty g k = ZSP.
Proof.
  intros g gad k GD K [H|[w Hw]].
  - assert (H' := H). apply dmem_get in H'. destruct H' as [l Hl]. destruct (K k l Hl) as [Ik _]. destruct (GD k H Ik); auto.
  - destruct (K w k Hw) as [_ [T [A _]]]. split; auto. apply (edge_type_in_l g k w). apply A. auto.
Qed.

(** *** a pivot *)
Lemma pivot_keys : forall so g w l v o ro g' gad, so_ok so -> zxok g -> pv_ok g ((w, v), ([], [o])) -> vty g o = BOUNDARY -> keys_in g gad -> gadok g gad -> NoDup (dkeys gad) ->
  dget w gad = Some l -> ~ kept gad v -> pivot so [((w, v), ([], [o]))] g = Ok ro -> apply_rw ro = Ok g' -> keys_in g' (ddel w gad).
Proof.
  intros so g w l v o ro g' gad SO Z OK To K GD ND Dw Nv H1 H2. assert (W := zx_wf g Z). assert (NL := zx_noloop g Z).
  assert (OKs : forall m, In m [((w, v), ([], [o]))] -> pv_ok g m) by (intros m [<-|[]]; auto).
  assert (FP : ForallOrdPairs (pv_far g) [((w, v), ([], [o]))]) by (repeat constructor).
  destruct (pivot_shape so g _ SO Z OKs FP) as [ro' [E [S RE]]]. rewrite H1 in E. injection E as <-.
  unfold apply_rw in H2. inv_bind H2. rename a into g1. inv_bind H2. rename a into g2. inv_bind H2. rename a into g3.
  assert (RC : rw_check ro = true).
  { unfold pivot in H1. inv_bind H1. destruct a as [[[? ?] ?] ?]. injection H1 as <-. reflexivity. }
  rewrite RC in H2.
  destruct (pivot_one_edges so g w v o ro g1 SO Z OK To H1 E) as [n0 [n1 [n2 [N2 [N0 [N1 [W1 [F1 [EO EN]]]]]]]]].
  assert (Z3 : zxok g3) by exact (proj1 (proj1 (pivot_core so anyph g _ ro g1 g2 g3 SO (proj1 (proj2 good_nonzero)) Z (fun _ _ => I) OKs FP H1 E E0 E1))).
  rewrite (sh_rem _ _ _ S) in E1. rewrite RE in E0. cbn [flat_map pv_rem pv_reme app] in E0, E1.
  destruct OK as [Dwv [Tw [Tv [Ewv _]]]].
  assert (Dvo : fst (mkedge v o) <> snd (mkedge v o)) by (unfold mkedge; destruct (Nat.ltb v o); simpl; intros Y; subst; congruence).
  destruct (remove_edges_spec [mkedge v o] g1 g2 W1) as [W2 [F2 [_ [_ T2]]]]; auto.
  { intros s t [Y|[]]. rewrite Y in Dvo. auto. }
  assert (R3 := remove_vertices_spec [v] g2 g3 W2 E1).
  destruct (iso_removed g3 g' Z3 H2) as [rem [sc [R' [CL ONE]]]].
  (* edges of g3 away from v *)
  assert (E3 : forall a b, a <> v -> b <> v -> edge_type g3 a b = edge_type g1 a b).
  { intros a b Da Db. rewrite (rm_edge _ _ _ R3), T2. destruct (mem a [v]) eqn:Ma; [apply mem_spec in Ma; destruct Ma as [Ma|[]]; congruence|].
    destruct (mem b [v]) eqn:Mb; [apply mem_spec in Mb; destruct Mb as [Mb|[]]; congruence|]. cbn [orb existsb].
    replace (pair_hit (fst (mkedge v o)) (snd (mkedge v o)) a b) with false; auto. symmetry. apply pair_hit_iff. unfold mkedge. destruct (Nat.ltb v o); simpl; tauto. }
  assert (DW : forall h, dmem h (ddel w gad) = true -> dmem h gad = true /\ h <> w) by (intros h; apply ddel_mem; auto).
  assert (Kw : dmem w gad = true) by (apply dmem_get; eauto).
  (* hubs other than w are not next to w *)
  assert (HW : forall h, dmem h gad = true -> edge_type g w h = None) by (intros h Hh; destruct (K w l Dw) as [_ [_ [_ [_ Y]]]]; auto).
  assert (Hn : forall h, dmem h gad = true -> ~ In h n0 /\ ~ In h n2).
  { intros h Hh. rewrite N0, N2, (HW h Hh). tauto. }
  assert (LN : forall h lh, dget h gad = Some lh -> h <> w -> ~ In lh n0 /\ ~ In lh n1 /\ ~ In lh n2).
  { intros h lh Dh Dhw. destruct (K h lh Dh) as [_ [_ [Y _]]]. assert (X1 : edge_type g w lh = None).
    { destruct (edge_type g w lh) eqn:X; auto. exfalso. apply Dhw. symmetry. apply Y. rewrite (wf_sym g W). congruence. }
    assert (X2 : edge_type g v lh = None).
    { destruct (edge_type g v lh) eqn:X; auto. exfalso. apply Nv. left. apply dmem_get. exists lh. rewrite <- Dh. f_equal. apply Y. rewrite (wf_sym g W). congruence. }
    rewrite N0, N1, N2, X1, X2. tauto. }
  assert (LE : forall h lh u, dget h gad = Some lh -> h <> w -> u <> v -> edge_type g3 lh u = edge_type g lh u).
  { intros h lh u Dh Dhw Du. destruct (LN h lh Dh Dhw) as [M0 [M1 M2]]. rewrite E3; auto.
    - apply EO.
      + intros s t Y. apply pair_hit_iff. split; intros [-> X]; tauto.
      + apply pair_hit_iff. destruct (K h lh Dh) as [_ [Tl [Y _]]]. split; intros [-> X]; [|congruence]. subst u.
        assert (edge_type g w h = None) by (apply HW; apply dmem_get; eauto). apply (proj2 (Y h)); auto.
    - intros X. apply Nv. right. subst lh. eauto. }
  assert (Lv : forall h lh, dget h gad = Some lh -> lh <> v) by (intros h lh Dh X; apply Nv; right; subst; eauto).
  assert (Hv : forall h, dmem h gad = true -> h <> v) by (intros h Dh X; apply Nv; left; subst; auto).
  assert (TWO : forall h lh, dget h gad = Some lh -> h <> w -> exists u, u <> lh /\ edge_type g3 h u <> None).
  { intros h lh Dh Dhw. assert (Mh : dmem h gad = true) by (apply dmem_get; eauto). destruct (Hn h Mh) as [M0 M2]. destruct (K h lh Dh) as [_ [_ [Y [[u [Y1 Y2]] _]]]].
    destruct (edge_type g v h) eqn:Ev.
    - assert (Ih : In h n1) by (apply N1; rewrite HW by auto; split; [split; [congruence|split; auto; intros ->; destruct (GD o Mh) as [X _]; [apply (K _ _ Dh)|congruence]]|tauto]).
      destruct (K w l Dw) as [_ [_ [X1 _]]]. assert (Elw : edge_type g l w <> None) by (apply X1; auto).
      assert (Il : In l n0).
      { apply N0. split; [split; [rewrite (wf_sym g W); auto|apply (Lv w); auto]|]. intros [X2 _]. apply Dwv. symmetry. apply X1. rewrite (wf_sym g W). auto. }
      exists l. split; [intros ->; apply Dhw; apply X1; apply Y; auto|]. rewrite (wf_sym g3 (zx_wf _ Z3)), E3; auto; [|apply (Lv w); auto].
      rewrite EN; auto; [discriminate|]. destruct (edge_type g l h) eqn:X; auto. exfalso. apply Dhw. apply X1. congruence.
    - exists u. split; auto. assert (Du : u <> v) by (intros ->; rewrite (wf_sym g W) in Y2; congruence). rewrite E3; auto.
      rewrite EO; auto.
      + intros s t X. apply pair_hit_iff. assert (~ In h n1) by (rewrite N1, Ev; tauto). split; intros [-> X']; tauto.
      + apply pair_hit_iff. split; intros [X X']; [congruence|]. rewrite X in Mh. destruct (GD o Mh) as [Y' _]; [rewrite <- X; apply (K _ _ Dh)|congruence]. }
  assert (SV : forall h lh, dget h gad = Some lh -> h <> w -> ~ In h rem /\ ~ In lh rem).
  { intros h lh Dh Dhw. destruct (TWO h lh Dh Dhw) as [u [U1 U2]]. assert (Mh : dmem h gad = true) by (apply dmem_get; eauto).
    assert (Elh : edge_type g3 lh h <> None) by (rewrite (LE h lh h Dh Dhw) by auto; destruct (K h lh Dh) as [_ [_ [Y _]]]; apply Y; auto).
    assert (X : ~ In h rem) by (intros X; apply U1; apply (ONE h u lh X U2); rewrite (wf_sym g3 (zx_wf _ Z3)); auto).
    split; auto. intros Y. apply X. apply (CL lh h Y Elh). }
  assert (E' : forall a b, edge_type g' a b = if mem a rem || mem b rem then None else edge_type g3 a b) by (intros; rewrite (rm_edge _ _ _ R'); reflexivity).
  intros h lh Dh. assert (Mh' : dmem h (ddel w gad) = true) by (apply dmem_get; eauto). destruct (DW h Mh') as [Mh Dhw].
  assert (Dh' : dget h gad = Some lh) by (rewrite dget_ddel in Dh by auto; destruct (Nat.eqb_spec h w); [congruence|auto]).
  destruct (SV h lh Dh' Dhw) as [Sh Sl]. destruct (K h lh Dh') as [Ih [Tl [Yl [Yu Yk]]]].
  assert (VV : vertices g2 = vertices g) by (destruct F1 as [X1 _]; destruct F2 as [X2 _]; congruence).
  assert (TY : forall x, vty g2 x = vty g x) by (intros; rewrite (same_frame_vty _ _ _ F2), (same_frame_vty _ _ _ F1); auto).
  assert (IN' : forall x, In x (vertices g) -> x <> v -> ~ In x rem -> In x (vertices g') /\ vty g' x = vty g x).
  { intros x Hx Dx Sx. split.
    - rewrite (rm_vs _ _ _ R'). apply filter_In. split; [|apply negb_true_iff, mem_false; auto]. change (vertices (with_scalar sc g3)) with (vertices g3). rewrite (rm_vs _ _ _ R3). apply filter_In.
      rewrite VV. split; auto. apply negb_true_iff, mem_false. simpl. intros [Y|[]]. congruence.
    - rewrite (rm_ty _ _ _ R') by auto. change (vty (with_scalar sc g3) x) with (vty g3 x). rewrite (rm_ty _ _ _ R3); [auto|]. simpl. intros [Y|[]]. congruence. }
  assert (ML : mem lh rem = false) by (apply mem_false; auto). assert (MH : mem h rem = false) by (apply mem_false; auto).
  assert (Il : In lh (vertices g)) by (apply (edge_type_in_l g lh h); apply Yl; auto).
  destruct (TWO h lh Dh' Dhw) as [u [U1 U2]].
  split; [apply IN'; auto|]. split; [rewrite (proj2 (IN' lh Il (Lv h lh Dh') Sl)); auto|]. split; [|split].
  - intros x. rewrite E', ML. cbn [orb]. destruct (Nat.eq_dec x v) as [->|Dx].
    + split; [|intros ->; exfalso; apply (Hv h); auto]. destruct (mem v rem); [congruence|]. rewrite (rm_edge _ _ _ R3). cbn [mem existsb]. rewrite Nat.eqb_refl, orb_true_r. congruence.
    + destruct (mem x rem) eqn:Mx.
      * split; [congruence|]. intros ->. congruence.
      * rewrite (LE h lh x Dh' Dhw Dx). apply Yl.
  - exists u. split; auto. rewrite E', MH. cbn [orb]. destruct (mem u rem) eqn:Mu; auto. exfalso. apply Sh. apply (CL u h); [apply mem_spec; auto|]. rewrite (wf_sym g3 (zx_wf _ Z3)). auto.
  - intros h' Mh2. destruct (DW h' Mh2) as [Mh3 Dh2]. rewrite E'. destruct (mem h rem || mem h' rem); auto. rewrite E3 by auto. destruct (Hn h Mh) as [M0 M2]. destruct (Hn h' Mh3) as [M0' M2'].
    rewrite EO; [apply Yk; auto| |].
    + intros s t X. apply pair_hit_iff. split; intros [-> ->]; tauto.
    + apply pair_hit_iff. split; intros [X X']; congruence.
Qed.

(** *** the other steps of a round *)
Lemma kinc_refl : forall g k, kinc g g k.
Proof. intros g k u. tauto. Qed.
Lemma kinc_rm : forall s t g g' k, wfg g -> remove_edge s t g = Ok g' -> k <> s -> k <> t -> wfg g' /\ same_frame g g' /\ kinc g g' k.
Proof.
  intros s t g g' k W H Ds Dt. destruct (Nat.eq_dec s t) as [->|D]; [exfalso; eapply remove_edge_ss; eauto|].
  destruct (remove_edge_spec _ _ _ _ W D H) as [W' [F [_ [_ [_ [_ [_ T]]]]]]]. split; auto. split; auto. intros u. rewrite T.
  replace (pair_hit s t k u) with false; [tauto|]. symmetry. apply pair_hit_iff. tauto.
Qed.
Lemma kinc_add : forall s t et g g' k, wfg g -> s <> t -> add_edge s t et g = Ok g' -> k <> s -> k <> t -> wfg g' /\ same_frame g g' /\ kinc g g' k.
Proof.
  intros s t et g g' k W D H Ds Dt. destruct (add_edge_spec _ _ _ _ _ W D H) as [W' [F [_ [_ [T _]]]]]. split; auto. split; auto. intros u. rewrite T; [tauto| |]; congruence.
Qed.
Lemma clean_one_kinc : forall qm l g gs g' gs', wfg g -> foldM (clean_one qm) l (g, gs) = Ok (g', gs') -> wfg g' /\ forall k, kinc g g' k.
Proof.
  intros qm l. induction l as [|v l IH]; intros g gs g' gs' W H; cbn [foldM] in H.
  - injection H as <- <-. split; auto. intros; apply kinc_refl.
  - inv_bind H. destruct a as [g1 gs1]. unfold clean_one in E. inv_bind E. inv_bind E. rename a0 into b. inv_bind E. rename a0 into et. apply of_opt_some in E2. inv_bind E. destruct a0 as [g2 gs2].
    assert (X : wfg g2 /\ forall k, kinc g g2 k).
    { destruct et.
      - injection E3 as <- <-. split; auto. intros; apply kinc_refl.
      - inv_bind E3. injection E3 as <- <-. destruct (set_edge_type_spec _ _ _ _ _ W E4) as [W2 [_ [_ [_ [_ [_ T]]]]]]. split; auto. intros k u. rewrite T.
        destruct (pair_hit v b k u) eqn:P; [|tauto]. apply pair_hit_true in P. destruct P as [[-> ->]|[-> ->]]; [|rewrite (wf_sym g W)]; rewrite E2; split; congruence. }
    destruct X as [W2 K2]. inv_bind E. rename a0 into p. apply of_opt_some in E4.
    assert (X : wfg g1 /\ forall k, kinc g2 g1 k).
    { destruct (qeqb p 0%Qc); injection E as <- <-; split; auto; try (intros; apply kinc_refl).
      - apply set_phase_wfg; auto. apply (wf_ph g2 W2). eapply dget_some_key; eauto.
      - intros k u. reflexivity. }
    destruct X as [W1 K1]. destruct (IH _ _ _ _ W1 H) as [W' K']. split; auto. intros k. eapply kinc_trans; [eapply kinc_trans; [apply K2|apply K1]|apply K'].
Qed.
Lemma cz_nbr_kinc : forall qm fr v l g cz g' cz', wfg g -> In v fr -> foldM (cz_nbr qm fr v) l (g, cz) = Ok (g', cz') -> wfg g' /\ forall k, ~ In k fr -> kinc g g' k.
Proof.
  intros qm fr v l. induction l as [|w l IH]; intros g cz g' cz' W Hv H; cbn [foldM] in H.
  - injection H as <- <-. split; auto. intros; apply kinc_refl.
  - inv_bind H. destruct a as [g1 cz1]. unfold cz_nbr in E. destruct (nmem w fr) eqn:Mw.
    + apply nmem_spec in Mw. do 5 (inv_bind E). injection E as <- <-. 
      match goal with X : remove_edge v w g = Ok ?k |- _ => rename X into ER; rename k into g1 end.
      assert (W1 : wfg g1) by (destruct (Nat.eq_dec v w) as [Y|D]; [rewrite Y in ER; exfalso; eapply remove_edge_ss; eauto|]; destruct (remove_edge_spec _ _ _ _ W D ER); auto).
      destruct (IH _ _ _ _ W1 Hv H) as [W' K']. split; auto. intros k Hk. eapply kinc_trans; [|apply K'; auto]. apply (kinc_rm v w g g1 k); auto; intros ->; auto.
    + injection E as <- <-. apply (IH _ _ _ _ W Hv H).
Qed.
Lemma cz_one_kinc : forall qm fr l g cz g' cz', wfg g -> incl l fr -> foldM (cz_one qm fr) l (g, cz) = Ok (g', cz') -> wfg g' /\ forall k, ~ In k fr -> kinc g g' k.
Proof.
  intros qm fr l. induction l as [|v l IH]; intros g cz g' cz' W Hl H; cbn [foldM] in H.
  - injection H as <- <-. split; auto. intros; apply kinc_refl.
  - inv_bind H. destruct a as [g1 cz1]. unfold cz_one in E. inv_bind E. destruct (cz_nbr_kinc qm fr v _ _ _ _ _ W (Hl v (or_introl eq_refl)) E) as [W1 K1].
    destruct (IH _ _ _ _ W1 (fun x Hx => Hl x (or_intror Hx)) H) as [W' K']. split; auto. intros k Hk. eapply kinc_trans; [apply K1|apply K']; auto.
Qed.
Lemma clean_kinc : forall opt s g g' gs, wfg g -> clean_frontier opt s g = Ok (g', gs) -> wfg g' /\ forall k, ~ In k (x_fr s) -> kinc g g' k.
Proof.
  intros opt s g g' gs W H. unfold clean_frontier in H. inv_bind H. destruct a as [g1 gs1]. inv_bind H. destruct a as [g2 cz]. inv_bind H. destruct a as [cz1 gs2]. injection H as <- <-.
  destruct (clean_one_kinc _ _ _ _ _ _ W E) as [W1 K1]. destruct (cz_one_kinc _ _ _ _ _ _ _ W1 (incl_refl _) E0) as [W2 K2]. split; auto. intros k Hk. eapply kinc_trans; [apply K1|apply K2; auto].
Qed.

Lemma nf_strict : forall gad l g fr ns g' fr' ns', wfg g -> (forall k, dmem k gad = true -> In k (vertices g)) -> foldM (nf_one false gad) l (g, fr, ns) = Ok (g', fr', ns') ->
  foldM (nf_one true gad) l (g, fr, ns) = Ok (g', fr', ns') /\ wfg g' /\ (forall k, In k (vertices g) -> In k (vertices g') /\ vty g' k = vty g k) /\ ginputs g' = ginputs g /\
  forall k, In k (vertices g) -> ~ In k l -> ~ In k (ginputs g) -> kinc g g' k.
Proof.
  intros gad l. induction l as [|v l IH]; intros g fr ns g' fr' ns' W HK H; cbn [foldM] in *.
  - injection H as <- <- <-. (do 4 (split; auto)); intros; apply kinc_refl.
  - inv_bind H. destruct a as [[g1 fr1] ns1].
    assert (X : nf_one true gad (g, fr, ns) v = Ok (g1, fr1, ns1) /\ wfg g1 /\ (forall k, In k (vertices g) -> In k (vertices g1) /\ vty g1 k = vty g k) /\ ginputs g1 = ginputs g /\
      forall k, In k (vertices g) -> k <> v -> ~ In k (ginputs g) -> kinc g g1 k).
    { unfold nf_one in *. inv_bind E. rewrite E0. cbn [bind]. apply neighbors_r_inv in E0. destruct E0 as [Iv ->].
      destruct (filter (fun w => nmem w (ginputs g)) (filter (fun w => negb (nmem w (goutputs g))) (neighbors g v))) as [|b r] eqn:FE.
      { injection E as <- <- <-. (do 4 (split; auto)); intros; apply kinc_refl. }
      assert (Hb : In b (b :: r)) by (simpl; auto). rewrite <- FE in Hb. apply filter_In in Hb. destruct Hb as [Hb1 Hb2]. apply nmem_spec in Hb2. apply filter_In in Hb1. destruct Hb1 as [Hb1 _]. apply neighbors_spec in Hb1.
      destruct (Nat.eqb _ 1). { inv_bind E. rewrite E0. injection E as <- <- <-. (do 4 (split; auto)); intros; apply kinc_refl. }
      inv_bind E. rewrite E0. cbn [bind]. inv_bind E. rewrite E1. cbn [bind]. destruct (add_vertex ZSP a (a0 + 1)%Qc (Some 0%Qc) g) as [k1 w] eqn:EA.
      destruct (add_vertex_spec _ _ _ _ _ _ _ W EA) as [Ew [WA [VA [ETA [_ [TA [_ [IA [OA _]]]]]]]]].
      assert (Fw : ~ In w (vertices g)) by (rewrite Ew; apply fresh_not_in; auto).
      assert (Dm : dmem w gad = false) by (destruct (dmem w gad) eqn:Y; auto; exfalso; auto). rewrite Dm. cbn [andb] in *.
      inv_bind E. rewrite E2. cbn [bind]. inv_bind E. rewrite E3. cbn [bind]. inv_bind E. rewrite E4. cbn [bind]. inv_bind E. rewrite E5. cbn [bind]. inv_bind E. rewrite E6. cbn [bind]. split; auto.
      injection E as <- _ _.
      assert (Ib : In b (vertices g)) by (destruct (edge_type g v b) eqn:Y; [eapply edge_r; eauto|congruence]).
      assert (Dvb : v <> b) by (intros Y; rewrite Y in E3; eapply remove_edge_ss; eauto).
      assert (Dvw : v <> w) by congruence. assert (Dwb : w <> b) by congruence.
      destruct (remove_edge_spec _ _ _ _ WA Dvb E3) as [W2 [F2 _]]. destruct (add_edge_spec _ _ _ _ _ W2 Dvw E4) as [W3 [F3 _]]. destruct (add_edge_spec _ _ _ _ _ W3 Dwb E5) as [W4 [F4 _]].
      assert (FF := same_frame_trans _ _ _ F2 (same_frame_trans _ _ _ F3 F4)).
      split; auto. split; [|split].
      - intros k Hk. split; [destruct FF as [-> _]; rewrite VA; apply in_app_iff; auto|]. rewrite (same_frame_vty _ _ _ FF), TA. destruct (Nat.eqb_spec k w); auto. congruence.
      - destruct FF as [_ [_ [-> _]]]. auto.
      - intros k Hk Dk Nk. assert (Dkb : k <> b) by congruence. assert (Dkw : k <> w) by congruence.
        assert (KA : kinc g k1 k) by (intros u; rewrite ETA; tauto). eapply kinc_trans; [exact KA|]. eapply kinc_trans; [apply (kinc_rm _ _ _ _ k WA E3); auto|].
        eapply kinc_trans; [apply (kinc_add _ _ _ _ _ k W2 Dvw E4); auto|]. apply (kinc_add _ _ _ _ _ k W3 Dwb E5); auto. }
    destruct X as [X1 [W1 [V1 [I1 K1]]]]. rewrite X1. cbn [bind].
    destruct (IH g1 fr1 ns1 g' fr' ns' W1) as [X2 [W' [V' [I' K']]]]; auto; [intros k Hk; apply V1; auto|].
    split; auto. split; auto. split; [|split].
    + intros k Hk. destruct (V1 k Hk) as [A1 A2]. destruct (V' k A1) as [B1 B2]. split; auto. congruence.
    + congruence.
    + intros k Hk Nk Ni. eapply kinc_trans; [apply K1; auto; intros ->; apply Nk; simpl; auto|]. apply K'; [apply V1; auto|intros Y; apply Nk; simpl; auto|rewrite I1; auto].
Qed.

Lemma conn_kinc : forall m nb fr l g g', wfg g -> (forall w, In w nb -> ~ In w fr) -> foldM (conn_one m nb fr) l g = Ok g' ->
  wfg g' /\ same_frame g g' /\ forall k, ~ In k nb -> ~ In k fr -> kinc g g' k.
Proof.
  intros m nb fr l. induction l as [|[i j] l IH]; intros g g' W D H; cbn [foldM] in H.
  - injection H as <-. split; auto. split; [apply same_frame_refl|intros; apply kinc_refl].
  - inv_bind H. rename a into g1. unfold conn_one in E. inv_bind E. rename a into r. apply of_opt_some in E0. apply nth_error_In in E0. inv_bind E. rename a into w. apply of_opt_some in E1. apply nth_error_In in E1.
    assert (Drw : r <> w) by (intros ->; apply (D w); auto).
    assert (X : wfg g1 /\ same_frame g g1 /\ forall k, ~ In k nb -> ~ In k fr -> kinc g g1 k).
    { assert (R : wfg g /\ same_frame g g /\ forall k, ~ In k nb -> ~ In k fr -> kinc g g k) by (split; auto; split; [apply same_frame_refl|intros; apply kinc_refl]).
      destruct (get m i j), (connected g r w); try (injection E as <-; exact R).
      - destruct (add_edge_spec _ _ _ _ _ W Drw E) as [W1 [F1 _]]. split; auto. split; auto. intros k K1 K2. apply (kinc_add _ _ _ _ _ k W Drw E); congruence.
      - destruct (remove_edge_spec _ _ _ _ W Drw E) as [W1 [F1 _]]. split; auto. split; auto. intros k K1 K2. apply (kinc_rm _ _ _ _ k W E); congruence. }
    destruct X as [W1 [F1 K1]]. destruct (IH _ _ W1 D H) as [W' [F' K']]. split; auto. split; [eapply same_frame_trans; eauto|]. intros k A B. eapply kinc_trans; [apply K1|apply K']; auto.
Qed.
Lemma good_in : forall m nb fr l gv gv', foldM (good_one m nb fr) l gv = Ok gv' -> (forall v w, In (v, w) gv -> In v fr /\ In w nb) -> forall v w, In (v, w) gv' -> In v fr /\ In w nb.
Proof.
  intros m nb fr l. induction l as [|i l IH]; intros gv gv' H HG; cbn [foldM] in H; [injection H as <-; auto|].
  inv_bind H. apply (IH _ _ H). unfold good_one in E. destruct (Nat.eqb _ 1); [|injection E as <-; auto].
  inv_bind E. apply of_opt_some in E0. apply nth_error_In in E0. destruct (filter _ _) as [|j r]; [discriminate|]. inv_bind E. apply of_opt_some in E1. apply nth_error_In in E1. injection E as <-.
  intros v w Hvw. clear - HG E0 E1 Hvw. induction gv as [|[x y] gv IHg]; simpl in Hvw.
  - destruct Hvw as [Y|[]]. injection Y as <- <-. auto.
  - destruct (Nat.eqb_spec a0 x) as [Ex|_].
    + destruct Hvw as [Y|Y]; [injection Y as <- <-; subst; auto|apply HG; simpl; auto].
    + destruct Hvw as [Y|Y]; [injection Y as <- <-; apply HG; simpl; auto|apply IHg; auto; intros; apply HG; simpl; auto].
Qed.
Lemma take_kinc : forall outs nb gv g qm fr hads g' qm' fr' hads', wfg g -> (forall w, In w nb -> ~ In w outs) -> (forall v w, In (v, w) gv -> In w nb) ->
  foldM (take_one outs) gv (g, qm, fr, hads) = Ok (g', qm', fr', hads') -> wfg g' /\ (forall k, vty g k <> BOUNDARY -> In k (vertices g) -> ~ In k nb -> ~ In k outs ->
    (forall v w, In (v, w) gv -> k <> v /\ edge_type g k v = None) -> In k (vertices g') /\ vty g' k = vty g k /\ kinc g g' k).
Proof.
  intros outs nb gv. induction gv as [|[v w] gv IH]; intros g qm fr hads g' qm' fr' hads' W D HG H; cbn [foldM] in H.
  - injection H as <- <- <- <-. split; auto. intros k _ Hk _ _ _. split; auto. split; auto. apply kinc_refl.
  - inv_bind H. destruct a as [[[g1 qm1] fr1] hads1]. unfold take_one in E. inv_bind E. inv_bind E. rename a0 into b. inv_bind E. rename a0 into k1. inv_bind E. rename a0 into k2. inv_bind E. injection E as <- <- <- <-.
    assert (Ib : In b outs).
    { unfold out_of in E1. inv_bind E1. destruct (filter (fun w => nmem w outs) _) as [|b' r] eqn:FE; [discriminate|]. injection E1 as <-. assert (Y : In b' (b' :: r)) by (simpl; auto). rewrite <- FE in Y. apply filter_In in Y. destruct Y as [_ Y]. apply nmem_spec in Y. auto. }
    assert (Iw : In w nb) by (apply (HG v w); simpl; auto). assert (Dwb : w <> b) by (intros ->; apply (D b); auto).
    assert (R := remove_vertices_spec _ _ _ W E2). assert (W1 := rm_wf _ _ _ R). destruct (add_edge_spec _ _ _ _ _ W1 Dwb E3) as [W2 [F2 _]].
    destruct (IH _ _ _ _ _ _ _ _ W2 D (fun v w Y => HG v w (or_intror Y)) H) as [W' K']. split; auto.
    intros k Tk Ik Nb No Hk. destruct (Hk v w (or_introl eq_refl)) as [Dk Ek]. assert (Nv : ~ In k [v]) by (simpl; intros [Y|[]]; congruence).
    assert (V2 : In k (vertices k2)) by (destruct F2 as [-> _]; rewrite (rm_vs _ _ _ R); apply filter_In; split; auto; apply negb_true_iff, mem_false; auto).
    assert (T2 : vty k2 k = vty g k) by (rewrite (same_frame_vty _ _ _ F2), (rm_ty _ _ _ R); auto).
    assert (K2 : kinc g k2 k).
    { eapply kinc_trans with (b := k1); [|apply (kinc_add _ _ _ _ _ k W1 Dwb E3); intros ->; auto].
      intros u. rewrite (rm_edge _ _ _ R). replace (mem k [v]) with false by (symmetry; apply mem_false; auto). cbn [orb].
      destruct (mem u [v]) eqn:Mu; [|tauto]. apply mem_spec in Mu. destruct Mu as [<-|[]]. rewrite Ek. tauto. }
    destruct (K' k) as [A1 [A2 A3]]; auto; [congruence| |].
    { intros v' w' Y. destruct (Hk v' w' (or_intror Y)) as [B1 B2]. split; auto. destruct (edge_type k2 k v') eqn:Z; auto. exfalso. apply (proj1 (K2 v')); congruence. }
    split; auto. split; [congruence|]. eapply kinc_trans; eauto.
Qed.

(** *** one pivot of remove_gadget, and the loop *)
Lemma front_pv : forall g w v o, gok g -> inv_map g -> vty g w = ZSP -> is_pauli (phase g w) = true ->
  (forall u, edge_type g w u <> None -> vty g u = ZSP) -> vty g v = ZSP -> is_pauli (phase g v) = true -> edge_type g w v <> None ->
  In o (goutputs g) -> edge_type g v o <> None -> (forall u, edge_type g v u <> None -> ~ In u (ginputs g)) ->
  filter (fun x => nmem x (goutputs g)) (neighbors g v) = [o] /\ pv_ok g ((w, v), ([], [o])).
Proof.
  intros g w v o G M Tw Pw Hw Tv Pv Ewv Io Eo Ni. assert (W := gk_wf g G). destruct (gk_outs g G o Io) as [Vo To].
  assert (Z := zi_zx _ (gk_z _ G)). assert (NL := zx_noloop g Z). split.
  { apply filter_one; [apply neighbors_nd; auto|]. intros x. rewrite neighbors_spec, nmem_spec. split; [intros [X1 X2]; apply (one_outs g G M v); auto|intros ->; auto]. }
  assert (Hh : forall a b, vty g a = ZSP -> vty g b = ZSP -> edge_type g a b <> None -> edge_type g a b = Some HADAMARD).
  { intros a b A1 A2 A3. destruct (edge_type g a b) as [e|] eqn:E; [|congruence]. f_equal. eapply (proj2 (gk_gl _ G)); eauto. }
  assert (Dwo : edge_type g w o = None) by (destruct (edge_type g w o) eqn:E; auto; assert (vty g o = ZSP) by (apply Hw; congruence); congruence).
  assert (ZV : forall n, In n (neighbors g v) -> ~ In n [o] -> vty g n = ZSP).
  { intros n Hn No. apply neighbors_spec in Hn. assert (In n (vertices g)) by (destruct (edge_type g v n) eqn:Y; [eapply edge_r; eauto|congruence]).
    destruct (proj1 (gk_gl _ G) n) as [T|T]; auto. exfalso.
    destruct (zi_io _ (gk_z _ G) n H T) as [Y|Y]; [apply (Ni n); auto|]. apply No. left. apply (one_outs g G M v); auto. }
  assert (ZW : forall n, In n (neighbors g w) -> vty g n = ZSP) by (intros n Hn; apply Hw, neighbors_spec; auto).
  split; [intros ->; apply Ewv, NL|]. split; auto. split; auto. split; auto. split; auto. split; auto. split; [|split; [|left; auto]].
  - split; auto. intros n Hn _ _. split; auto. apply Hh; auto. apply neighbors_spec; auto.
  - split; [right; exists o; split; auto; split; [intros ->; congruence|auto]|].
    intros n Hn _ No. split; auto. apply Hh; auto. apply neighbors_spec; auto.
Qed.
Lemma rg_one_keys : forall so g0 g s r w g' s' r', so_ok so -> NoDup (dkeys (x_gad s)) -> rginv g0 g s -> keys_in g (x_gad s) ->
  rg_one so (g, s, r) w = Ok (g', s', r') -> keys_in g' (x_gad s').
Proof.
  intros so g0 g [qm fr gs gad] r w g' s' r' SO NG I K H. unfold rg_one in H. cbn [x_qm x_fr x_gs x_gad] in *.
  destruct (dmem w gad) eqn:Dw; cbn [negb] in H; [|injection H as <- <- <-; auto].
  inv_bind H. apply neighbors_r_inv in E. destruct E as [Iw ->].
  destruct (filter (fun v => nmem v fr) (neighbors g w)) as [|v l] eqn:FE; [injection H as <- <- <-; auto|].
  assert (Hv : In v (filter (fun v => nmem v fr) (neighbors g w))) by (rewrite FE; simpl; auto). clear FE.
  apply filter_In in Hv. rewrite neighbors_spec, nmem_spec in Hv. destruct Hv as [Ewv Hv].
  inv_bind H. apply neighbors_r_inv in E. destruct E as [Iv ->]. inv_bind H. inv_bind H. inv_bind H. inv_bind H. injection H as <- <- <-. cbn [x_gad].
  destruct I as [[G M X F GD] RP]. cbn [x_qm x_fr x_gs x_gad] in *.
  destruct (GD w Dw Iw) as [Tw [Pw Zw]]. destruct (RP v Hv) as [Pv Nv]. destruct (fk_v _ _ _ F v Hv) as [q' [Q [Lq [Tv Ev]]]].
  assert (Io : In (outv g q') (goutputs g)) by (apply nth_In; auto).
  destruct (front_pv g w v (outv g q') G M Tw Pw Zw Tv Pv Ewv Io Ev Nv) as [FO OK]. rewrite FO in E.
  apply dmem_get in Dw. destruct Dw as [lw Dw].
  eapply (pivot_keys so g w lw v (outv g q')); eauto; [apply (zi_zx _ (gk_z _ G))|apply (gk_out g G q' Lq)|].
  intros Y. apply (key_front g qm fr gad v G F GD K Y Hv).
Qed.
Lemma rg_keys : forall so g0 ns g s r g' s' r', so_ok so -> NoDup (dkeys (x_gad s)) -> rginv g0 g s -> keys_in g (x_gad s) ->
  foldM (rg_one so) ns (g, s, r) = Ok (g', s', r') -> keys_in g' (x_gad s').
Proof.
  intros so g0. induction ns as [|w ns IH]; intros g s r g' s' r' SO NG I K H; cbn [foldM] in H; [injection H as <- <- <-; auto|].
  inv_bind H. destruct a as [[g1 s1] r1]. assert (K1 := rg_one_keys so g0 g s r w g1 s1 r1 SO NG I K E).
  destruct (rg_one_ok so g0 g s r w g1 s1 r1 SO NG I E) as [[-> [-> [-> _]]]|[I1 [-> N1]]]; eapply IH; eauto.
Qed.
(** *** apply_cnots *)
Lemma apply_cnots_keys : forall cs m nb ns s g g' s', gok g -> gadok g (x_gad s) -> fready g (x_qm s) (x_fr s) ns -> Permutation nb ns ->
  (forall w, In w ns -> dmem w (x_gad s) = false) -> keys_in g (x_gad s) -> apply_cnots cs m nb s g = Ok (g', s') -> keys_in g' (x_gad s').
Proof.
  intros cs m nb ns s g g' s' G GD FY P NG K H. rewrite (apply_cnots_gad _ _ _ _ _ _ _ H). destruct s as [qm fr gs gad]. cbn [x_qm x_fr x_gs x_gad] in *.
  assert (W := gk_wf g G). assert (FO := fc_f _ _ _ (fy_f _ _ _ _ FY)).
  assert (Pb : forall w, In w nb -> In w ns) by (intros w; apply Permutation_in; auto).
  unfold apply_cnots in H. cbn [x_qm x_fr x_gs x_gad] in H. inv_bind H. destruct a as [m1 cn]. inv_bind H. rename a into g1.
  assert (D : forall w, In w nb -> ~ In w fr) by (intros w Hw; apply (fy_z _ _ _ _ FY w); auto).
  assert (X : wfg g1 /\ same_frame g g1 /\ forall k, ~ In k nb -> ~ In k fr -> kinc g g1 k).
  { destruct cs; [injection E0 as <-; split; auto; split; [apply same_frame_refl|intros; apply kinc_refl]|]. eapply conn_kinc; eauto. }
  destruct X as [W1 [F1 K1]]. inv_bind H. rename a into gv. destruct gv as [|p0 l0]; [discriminate|]. set (gv := p0 :: l0) in *. clearbody gv.
  inv_bind H. destruct a as [[[g2 qm2] fr2] hads]. injection H as <- _.
  assert (GV := good_in _ _ _ _ _ _ E1 (fun v w (Y : In (v, w) []) => match Y with end)).
  assert (OE : goutputs g1 = goutputs g) by apply F1.
  destruct (take_kinc (goutputs g1) nb gv g1 qm fr [] g2 qm2 fr2 hads W1) as [W2 K2]; auto.
  { intros w Hw Y. rewrite OE in Y. destruct (gk_outs g G w Y) as [_ T]. destruct (fy_z _ _ _ _ FY w (Pb w Hw)) as [T' _]. congruence. }
  { intros v w Y. apply (GV v w Y). }
  eapply keys_kinc; [exact K| |auto]. intros k Kk Ik. destruct (key_z g gad k GD K Kk) as [_ Tk]. assert (Nf := key_front g qm fr gad k G FO GD K Kk).
  assert (NE : forall v, In v fr -> edge_type g k v = None).
  { intros v Hv. destruct (edge_type g k v) eqn:Ekv; auto. exfalso. destruct Kk as [Kk|[h Kh]].
    - destruct (fy_d _ _ _ _ FY v k Hv) as [Y|Y]; [rewrite (wf_sym g W); congruence| |].
      + rewrite NG in Kk; auto; discriminate.
      + destruct (gk_outs g G k Y). congruence.
    - destruct (K h k Kh) as [_ [_ [Y _]]]. assert (v = h) by (apply Y; congruence). subst v.
      apply (key_front g qm fr gad h G FO GD K); auto. left. apply dmem_get. eauto. }
  assert (Nn : ~ In k nb).
  { intros Y. destruct (fy_a _ _ _ _ FY k (Pb k Y)) as [v [Hv Ev]]. apply Ev. rewrite (wf_sym g W). auto. }
  assert (KK := K1 k Nn Nf).
  destruct (K2 k) as [A1 [A2 A3]]; auto.
  - rewrite (same_frame_vty _ _ _ F1). congruence.
  - destruct F1 as [-> _]. auto.
  - rewrite OE. intros Y. destruct (gk_outs g G k Y). congruence.
  - intros v w Y. destruct (GV v w Y) as [Hv _]. split; [intros ->; auto|]. destruct (edge_type g1 k v) eqn:Z; auto. exfalso.
    apply (proj1 (KK v)); [congruence|apply NE; auto].
  - split; auto. split; [rewrite A2, (same_frame_vty _ _ _ F1); auto|]. eapply kinc_trans; eauto.
Qed.
(** *** a round *)
Record xinv3 (g0 g : graph) (s : xst) : Prop := mkx3 { x3_x : xinv2 g0 g s; x3_k : keys_in g (x_gad s) }.
Lemma round_strict : forall opt g0 g s c s' b g', choice_ok g c -> xinv3 g0 g s -> round false opt s c g = Ok ((s', b), g') ->
  round true opt s c g = Ok ((s', b), g') /\ xinv3 g0 g' s'.
Proof.
  intros opt g0 g [qm fr gs gad] c s' b g' CO [X2 K] H.
  assert (HH : round true opt (mkX qm fr gs gad) c g = Ok ((s', b), g') /\ keys_in g' (x_gad s')).
  2:{ destruct HH as [HH1 HH2]. split; auto. constructor; auto. eapply round_ok; eauto. }
  destruct CO as [CO1 [CO2 CO3]]. destruct X2 as [[G M X F GD] NG]. unfold round in *. cbn [x_qm x_fr x_gs x_gad] in *.
  inv_bind H. destruct a as [g1 gs1]. rewrite E. cbn [bind]. destruct (clean_kinc _ _ _ _ _ (gk_wf g G) E) as [W1 K1]. cbn [x_fr] in K1.
  destruct (clean_frontier_ok opt (mkX qm fr gs gad) g g1 gs1 G M F E) as [new [-> [X1 [G1 [S1 [Cl FF]]]]]]. cbn [x_qm x_fr x_gs x_gad] in *.
  assert (M1 := ext_inv g g1 new G1 X1 M). assert (F1 := frok_soft _ _ _ _ G G1 S1 F). assert (GD1 := gadok_soft _ _ _ S1 GD).
  assert (KI1 : keys_in g1 gad).
  { eapply keys_kinc; [exact K| |apply (gk_wf g G)]. intros k Kk Ik. destruct S1 as [SF _]. split; [destruct SF as [-> _]; auto|]. split; [apply same_frame_vty; auto|].
    apply K1. apply (key_front g qm fr gad k); auto. }
  inv_bind H. destruct a as [[g2 fr2] nset].
  destruct (nf_strict gad fr g1 fr [] g2 fr2 nset W1) as [EQ [W2 [V2 [I2 K2]]]]; auto.
  { intros k Hk. apply dmem_get in Hk. destruct Hk as [l Hl]. apply (KI1 k l Hl). }
  unfold neighbors_of_frontier. rewrite EQ. cbn [bind].
  assert (KI2 : keys_in g2 gad).
  { eapply keys_kinc; [exact KI1| |auto]. intros k Kk Ik. destruct (V2 k Ik). split; auto. split; auto. apply K2; auto.
    - apply (key_front g1 qm fr gad k); auto.
    - intros Y. destruct (gk_ins g1 G1 k Y). destruct (key_z g1 gad k GD1 KI1 Kk). congruence. }
  assert (FC : fclean g1 qm fr) by (constructor; auto).
  destruct (neighbors_of_frontier_ok qm gad fr g1 g2 fr2 nset G1 M1 FC GD1 EQ) as [G2 [X2 [M2 [GD2 FY]]]].
  assert (X02 : ext g0 g2 (gs ++ new)).
  { rewrite <- (app_nil_r (gs ++ new)). eapply ext_trans; [eapply ext_trans; eauto|exact X2]. }
  split; [exact H|].
  destruct fr2 as [|v0 fr2'].
  { injection H as <- <- <-. exact KI2. }
  set (fr2 := v0 :: fr2') in *. clearbody fr2. set (s2 := mkX qm fr2 (gs ++ new) gad) in *.
  assert (RG : rginv g0 g2 s2) by (apply (fready_rg g0 g2 s2 nset); auto).
  inv_bind H. destruct a as [[g3 s3] rm].
  destruct (remove_gadget_loop (ch_so c) g0 (ch_ord c nset) g2 s2 false g3 s3 rm CO1 NG RG E1) as [RG3 [N3 K3]].
  assert (KI3 := rg_keys (ch_so c) g0 (ch_ord c nset) g2 s2 false g3 s3 rm CO1 NG RG KI2 E1).
  destruct rm.
  { injection H as <- <- <-. exact KI3. }
  destruct (K3 eq_refl) as [-> [-> [_ KN]]]. clear K3 RG3 N3.
  assert (NGD : forall w, In w nset -> dmem w gad = false).
  { intros w Hw. destruct (dmem w gad) eqn:Dw; auto. exfalso. destruct (fy_a _ _ _ _ FY w Hw) as [v [Hv Ev]]. apply Ev.
    rewrite (wf_sym g2 (gk_wf g2 G2)). apply (KN w); auto. eapply Permutation_in; [symmetry; apply CO2|auto]. }
  inv_bind H. destruct a as [g4 s4]. injection H as <- <- <-.
  destruct (forallb _ _) in E2.
  - destruct (ch_pick c (ch_ord c nset) (GflowModel.bi_adj g2 (ch_ord c nset) fr2)) as [nb cs] eqn:EP.
    destruct (CO3 (ch_ord c nset) (GflowModel.bi_adj g2 (ch_ord c nset) fr2)) as [Y1 Y2]. rewrite EP in Y1, Y2. cbn [fst snd] in Y1, Y2.
    eapply (apply_cnots_keys cs _ nb nset s2); [exact G2|exact GD2|exact FY| |exact NGD|exact KI2|exact E2]. eapply perm_trans; [exact Y1|apply CO2].
  - eapply (apply_cnots_keys [] _ _ nset s2); [exact G2|exact GD2|exact FY|apply CO2|exact NGD|exact KI2|exact E2].
Qed.
Lemma rounds_strict : forall opt g0 s g s' g', run (ploop (fun s => pchoose choice_ok (round false opt s)) s) g (Ok (s', g')) -> xinv3 g0 g s ->
  run (ploop (fun s => pchoose choice_ok (round true opt s)) s) g (Ok (s', g')).
Proof.
  intros opt g0 s g s' g' H. cbn [run ploop] in *. remember (Ok (s', g')) as r eqn:Er. revert s' g' Er.
  induction H as [a g e R|a g a1 g1 R|a g a1 g1 r R R' IH]; intros s' g' Er I; [discriminate| |].
  - destruct R as [c [CO R]]. symmetry in R. destruct (round_strict _ _ _ _ _ _ _ _ CO I R) as [Y _]. eapply LR_stop. exists c. split; auto.
  - destruct R as [c [CO R]]. symmetry in R. destruct (round_strict _ _ _ _ _ _ _ _ CO I R) as [Y I']. eapply LR_go; eauto. exists c. split; auto.
Qed.

(** ** The start *)
(** no two spiders that carry a spider of degree one are connected *)
Definition hubs_sep (g : graph) : Prop := forall v n v' n', vty g v = ZSP -> neighbors g v = [n] -> vty g v' = ZSP -> neighbors g v' = [n'] -> edge_type g n n' = None.
Lemma init_get : forall g l gad w x, dget w (fold_left (gadget_init g) l gad) = Some x -> dget w gad = Some x \/
  (In x l /\ neighbors g x = [w] /\ ~ In x (ginputs g) /\ ~ In x (goutputs g)).
Proof.
  intros g l. induction l as [|v l IH]; intros gad w x H; simpl in H; auto.
  destruct (IH _ _ _ H) as [Y|[Y1 Y2]]; [|right; simpl; auto]. unfold gadget_init in Y.
  destruct (neighbors g v) as [|n [|]] eqn:EN; auto. destruct (nmem v (ginputs g) || nmem v (goutputs g)) eqn:B; auto.
  rewrite dget_dset in Y. destruct (Nat.eqb_spec w n) as [Ew|]; auto. injection Y as <-. subst w. right.
  apply orb_false_iff in B. rewrite <- !not_true_iff_false, !nmem_spec in B. simpl. tauto.
Qed.
Lemma init_keys : forall g, gok g -> hubs_ok g -> hubs_sep g -> keys_in g (fold_left (gadget_init g) (vertices g) []).
Proof.
  intros g G H HS. assert (W := gk_wf g G).
  assert (L : forall w x, dget w (fold_left (gadget_init g) (vertices g) []) = Some x -> vty g x = ZSP /\ neighbors g x = [w]).
  { intros w x D. destruct (init_get _ _ _ _ _ D) as [Y|[Y1 [Y2 [Y3 Y4]]]]; [discriminate|]. split; auto.
    destruct (proj1 (gk_gl _ G) x Y1) as [T|T]; auto. destruct (zi_io _ (gk_z _ G) x Y1 T); contradiction. }
  intros w x D. destruct (L w x D) as [T N]. destruct (H x w T N) as [Tw _].
  assert (NX : forall u, edge_type g x u <> None <-> u = w) by (intros u; rewrite <- neighbors_spec, N; simpl; split; [intros [Y|[]]; auto|auto]).
  assert (Ex : edge_type g w x <> None) by (rewrite (wf_sym g W); apply NX; auto).
  split; [apply (edge_type_in_l g w x); auto|]. split; auto. split; auto. split.
  - destruct (neighbors g w) as [|a [|b r]] eqn:Nw.
    + apply neighbors_spec in Ex. rewrite Nw in Ex. destruct Ex.
    + assert (a = x) by (apply neighbors_spec in Ex; rewrite Nw in Ex; destruct Ex as [Y|[]]; auto). subst a.
      exfalso. apply Ex. apply (HS x w w x); auto.
    + assert (ND := neighbors_nd g w W). rewrite Nw in ND. inversion ND; subst.
      assert (Ha : In a (neighbors g w)) by (rewrite Nw; simpl; auto). assert (Hb : In b (neighbors g w)) by (rewrite Nw; simpl; auto).
      destruct (Nat.eq_dec a x) as [->|]; [exists b; split; [intros ->; apply H2; simpl; auto|apply neighbors_spec; auto]|exists a; split; auto; apply neighbors_spec; auto].
  - intros w' D'. apply dmem_get in D'. destruct D' as [x' D']. destruct (L w' x' D') as [T' N']. apply (HS x w x' w'); auto.
Qed.

(** ** extract_circuit as it is *)
Lemma extract_code_ok : forall opt up g c g', gok g -> inv_map g -> hubs_ok g -> hubs_sep g -> run (extract_circuit false opt up) g (Ok (c, g')) ->
  nin g = nout g /\ cqubits c = nout g /\ Forall (gate_in (nout g)) (cgates c) /\
  exists z sg, z <> C0 /\ qperm (nout g) sg /\ (up = false -> forall q, sg q = q) /\
    forall i y, val g i y = z * cden (cgates c) (basis (nout g) (fun q => i (sg q))) y.
Proof.
  intros opt up g c g' G M HB HS H. apply (extract_ok opt up g c g'); auto. unfold extract_circuit in *. cbn [run pbind] in *.
  destruct H as [[e [H X]]|[s [g1 [H1 H]]]]; [discriminate X|]. right. exists s, g1. split; auto.
  destruct H as [[e [H X]]|[s2 [g2 [H2 H]]]]; [discriminate X|]. right. exists s2, g2. split; auto.
  cbn [run pdo] in H1. symmetry in H1. inv_bind H1. injection H1 as <- <-. eapply (rounds_strict opt g); eauto.
  constructor; [apply extract_init_ok; auto|]. unfold extract_init in E. inv_bind E. destruct a0. injection E as <-. cbn [x_gad]. apply init_keys; auto.
Qed.
