(** to_graph_like: fusion and the assembled statement. *)
From Coq Require Import Reals ZArith QArith Qcanon List Bool Arith Lia Permutation FunctionalExtensionality.
From Verif Require Import LinModel LinProofs CNum Base ScalarModel ScalarProofs GraphModel GraphSem SumLemmas GraphProofs GraphOps RulesModel RuleLemmas
  SpiderProofs IsoProofs IdProofs LcompProofs PivotProofs PivotMatch GrowProofs StoreProofs SimpModel ColorProofs SimpProofs PairProofs RuleShape TermProofs InvProofs RoundProofs
  BfixProofs TotalProofs GrowTotal Decide RunEx ZXFacts IsoExact RedFacts
  TidyModel TidySub TidyProofs TidyLoop.
Import ListNotations.
Open Scope nat_scope.

(** ** Fusion does not touch wires between boundaries *)
Lemma table_bb : forall us g g', wfg g -> (forall s t e, In (s, t, e) us -> s <> t /\ vty g s <> BOUNDARY) -> foldM add_u us g = Ok g' ->
  wfg g' /\ (forall u, vty g' u = vty g u) /\ forall b c, vty g b = BOUNDARY -> vty g c = BOUNDARY -> edge_type g' b c = edge_type g b c.
Proof.
  induction us as [|[[s t] e] us IH]; intros g g' W H E; cbn [foldM] in E.
  - injection E as <-. auto.
  - inv_bind E. cbn [add_u] in E0. destruct (H s t e (or_introl eq_refl)) as [D T].
    destruct (add_edge_spec _ _ _ _ _ W D E0) as [W1 [F [_ [_ [ET _]]]]].
    assert (V : forall u, vty a u = vty g u) by (intros; apply same_frame_vty; auto).
    destruct (IH a g' W1) as [W2 [V2 E2]]; auto.
    { intros s' t' e' X. rewrite V. apply (H s' t' e'). simpl; auto. }
    split; auto. split; [intros; rewrite V2; auto|]. intros b c Tb Tc. rewrite E2 by (rewrite V; auto). apply ET; intros X; injection X; intros; subst; contradiction.
Qed.

Definition keysP (P : nat -> Prop) (tab : etab) : Prop := forall e, In e (map fst tab) -> P (fst e).
Lemma keysP_set : forall P e c tab, keysP P tab -> P (fst e) -> keysP P (etab_set e c tab).
Proof. intros P e c tab H He f. rewrite etab_set_keys. destruct (etab_get e tab); auto. rewrite in_app_iff. simpl. intros [X|[<-|[]]]; auto. Qed.
Lemma keysP_add : forall P e et tab, keysP P tab -> P (fst e) -> keysP P (etab_add e et tab).
Proof. intros. rewrite etab_add_set. apply keysP_set; auto. Qed.
Lemma spider_edges_keys : forall P g v0 v1 tab, keysP P tab -> P v0 -> keysP P (spider_edges g v0 v1 tab).
Proof.
  intros P g v0 v1 tab H Hv. unfold spider_edges. revert tab H. induction (incident_edges g v1) as [|[s t] l IH]; intros tab H; auto.
  cbn [fold_left]. apply IH. destruct (edge_type g s t); auto. apply keysP_add; auto.
Qed.
Lemma spider_keys : forall g ms o, wfg g -> (forall m, In m ms -> spider_ok g m) -> spider ms g = Ok o ->
  keysP (fun s => vty g s <> BOUNDARY) (rw_etab o) /\ (forall u, vty (rw_graph o) u = vty g u) /\ rw_edges o = [] /\ rw_check o = true.
Proof.
  intros g ms o W HO H. unfold spider in H. inv_bind H. destruct a as [[g' tab'] rem']. injection H as <-. cbn [rw_graph rw_etab rw_edges rw_check].
  set (P := fun st : graph * etab * list nat => (grindex (fst (fst st)) = grindex g /\ forall u, vty (fst (fst st)) u = vty g u) /\ keysP (fun s => vty g s <> BOUNDARY) (snd (fst st))).
  assert (X : P (g', tab', rem')).
  { refine (StoreProofs.foldM_inv _ _ spider_one P ms (g, [], []) _ _ _ E); unfold P.
    - split; auto. intros e [].
    - intros [[h tab] rem] m [[h2 tab2] rem2] [[R V] K] Hm Es. cbn [fst snd] in *. unfold spider_one in Es.
      replace (if qeqb (row h (fst m)) 0%Qc then (snd m, fst m) else (fst m, snd m)) with (sk g m) in Es by (unfold sk, row; rewrite R; reflexivity).
      assert (OK := spider_ok_sk g m W (HO m Hm)). destruct (sk g m) as [v0 v1].
      destruct (etab_get _ _) as [[? ?]|]; [|discriminate]. injection Es as <- <- _. split; [split; [exact R|exact V]|].
      assert (Q : vty g v0 <> BOUNDARY). { destruct OK as [_ [_ [_ X]]]. cbn [fst] in X. intros Y. rewrite Y in X. discriminate. }
      apply keysP_set; auto. apply spider_edges_keys; auto. }
  unfold P in X. cbn [fst snd] in X. tauto.
Qed.
Lemma in_units : forall tab s t e, In (s, t, e) (units tab) -> In (s, t) (map fst tab).
Proof.
  intros tab s t e H. unfold units in H. apply in_flat_map in H. destruct H as [[[a b] [ns nh]] [I1 I2]].
  apply in_app_iff in I2. apply in_map_iff. exists ((a, b), (ns, nh)).
  destruct I2 as [X|X]; apply repeat_spec in X; injection X as -> -> _; auto.
Qed.
Lemma removed_bb : forall vs g g', removed vs g g' -> bb_plain g -> bb_plain g'.
Proof.
  intros vs g g' R H b c Tb Tc E. rewrite (rm_edge _ _ _ R) in E. destruct (mem b vs || mem c vs) eqn:M; [discriminate|].
  apply orb_false_iff in M. destruct M as [Mb Mc]. apply mem_false in Mb. apply mem_false in Mc.
  apply (H b c); auto; [rewrite <- (rm_ty _ _ _ R)|rewrite <- (rm_ty _ _ _ R)]; auto.
Qed.
Lemma spider_bb : forall g ms o g', zxok g -> (forall m, In m ms -> spider_ok g m) -> ForallOrdPairs (far g) ms ->
  spider ms g = Ok o -> apply_rw o = Ok g' -> bb_plain g -> bb_plain g'.
Proof.
  intros g ms o g' Z HO HF E A BB. assert (W := zx_wf g Z).
  destruct (spider_shape g ms Z HO HF) as [o' [E' S]]. rewrite E in E'. injection E' as <-.
  destruct (spider_keys g ms o W HO E) as [K [V [RE RC]]]. unfold apply_rw in A. rewrite RE, RC in A. inv_bind A. inv_bind A. inv_bind A.
  rewrite table_units in E0. cbn in E1. injection E1 as <-.
  destruct (fun H => table_bb (units (rw_etab o)) (rw_graph o) a (sh_wf _ _ _ S) H E0) as [W1 [V1 B1]].
  { intros s t e X. rewrite V. split; [eapply units_tabL; [apply (sh_tab _ _ _ S)|eauto]|]. apply (K (s, t)). eapply in_units; eauto. }
  assert (BB1 : bb_plain a).
  { intros b c Tb Tc. rewrite V1, V in Tb, Tc. rewrite B1 by (rewrite V; auto). unfold edge_type. rewrite (sh_adj _ _ _ S). apply (BB b c); auto. }
  assert (R2 := remove_vertices_spec _ _ _ W1 E2). assert (BB2 := removed_bb _ _ _ R2 BB1).
  unfold remove_isolated_vertices in A. inv_bind A. destruct a0 as [rem g1].
  destruct (isolated_fold_same _ _ _ E1) as [s Hs]. cbn [snd] in Hs. subst g1.
  assert (R3 := remove_vertices_spec _ _ _ (on_scalar_wfg (fun _ => s) a1 (rm_wf _ _ _ R2)) A).
  apply (removed_bb _ _ _ R3). exact BB2.
Qed.

(** ** Fusion until nothing matches *)
Definition pre (g : graph) : Prop := zinv g /\ noX g /\ bb_plain g.
Theorem spider_done : tot pre (spider_simp AllC) (fun _ _ g' => pre g' /\ glike g').
Proof.
  apply (tot_loop _ _ (fun _ => pre) (fun _ g' => pre g' /\ glike g')). intros i g r [Z [NX BB]] R.
  assert (ZX := zi_zx g Z). assert (W := zx_wf g ZX).
  assert (ONCE : forall c, ok_edges AllC g c -> exists b g', simp_once (fun g => Ok (match_spider_parallel c None g, g)) spider g = Ok (b, g') /\ pre g' /\ (b = false -> glike g')).
  { intros c Oc. destruct (spider_tonce AllC g c Z Oc) as [b [g' [E [Z' B]]]]. exists b, g'. split; auto.
    assert (HC : forall e, In e c -> In e (edges g)) by (intros e He; exact (cand_ok_in _ _ _ _ _ Oc He)).
    assert (HO : forall m, In m (match_spider_parallel c None g) -> spider_ok g m) by (intros m Hm; apply match_spider_in in Hm; tauto).
    assert (HF : ForallOrdPairs (far g) (match_spider_parallel c None g)) by (apply match_spider_far; auto).
    unfold simp_once in E. cbn [bind] in E. split.
    - split; [auto|split; [eapply bfix_noX; eauto|]]. destruct (match_spider_parallel c None g) as [|m ms]; [injection E as _ <-; auto|].
      inv_bind E. inv_bind E. injection E as _ <-. eapply (spider_bb g (m :: ms)); eauto.
    - intros ->. destruct (match_spider_parallel c None g) as [|m ms] eqn:M; [|inv_bind E; inv_bind E; discriminate].
      injection E as <-. eapply glike_of_nil; [apply ZX|apply ZX|apply ZX|exact NX|exact Oc|exact M]. }
  destruct R as [[e [[c [Oc E]] ->]]|[b [g1 [[c [Oc E]] R]]]].
  - destruct (ONCE c Oc) as [b [g' [E' _]]]. congruence.
  - destruct (ONCE c Oc) as [b' [g' [E' [H1 H2]]]]. rewrite E' in E. injection E as -> ->. exists (if b' then i + 1 else i, b'), g'.
    split; [exact R|]. cbn [fst snd]. destruct b'; auto.
Qed.

(** ** Graph-like diagrams *)
(** Z spiders joined by Hadamard edges, without self-loops; strict: moreover
    every boundary has exactly one neighbour, a spider, and no spider has two
    boundaries as neighbours *)
Definition graph_like (strict : bool) (g : graph) : Prop :=
  (forall v, In v (vertices g) -> vty g v = ZSP \/ vty g v = BOUNDARY) /\
  (forall u v e, edge_type g u v = Some e -> vty g u = ZSP -> vty g v = ZSP -> u <> v -> e = HADAMARD) /\
  (forall v, edge_type g v v = None) /\
  (strict = true ->
    (forall b, In b (vertices g) -> vty g b = BOUNDARY -> exists z, vty g z = ZSP /\ forall w, edge_type g b w <> None <-> w = z) /\
    (forall z b c, vty g z = ZSP -> vty g b = BOUNDARY -> vty g c = BOUNDARY -> edge_type g z b <> None -> edge_type g z c <> None -> b = c)).

Lemma in_pairs : forall l a b, In a l -> In b l -> a <> b -> In (a, b) (pairs l) \/ In (b, a) (pairs l).
Proof.
  induction l as [|c l IH]; simpl; intros a b Ha Hb D; [contradiction|]. rewrite !in_app_iff, !in_map_iff.
  destruct Ha as [->|Ha], Hb as [->|Hb]; try contradiction.
  - left. left. exists b. auto.
  - right. left. exists a. auto.
  - destruct (IH a b); auto.
Qed.
Lemma pairs_in : forall l a b, In (a, b) (pairs l) -> In a l /\ In b l.
Proof.
  induction l as [|c l IH]; simpl; intros a b H; [contradiction|]. apply in_app_iff in H. destruct H as [H|H].
  - apply in_map_iff in H. destruct H as [d [X Y]]. injection X as <- <-. auto.
  - apply IH in H. tauto.
Qed.
Lemma connected_edge : forall g u v, connected g u v = true <-> edge_type g u v <> None.
Proof. intros. unfold connected. destruct (edge_type g u v); split; congruence. Qed.
Lemma pairs_neq : forall l a b, NoDup l -> In (a, b) (pairs l) -> a <> b.
Proof.
  induction l as [|c l IH]; simpl; intros a b N H; [contradiction|]. inversion N; subst. apply in_app_iff in H. destruct H as [H|H].
  - apply in_map_iff in H. destruct H as [d [X Y]]. injection X as <- <-. intros <-. contradiction.
  - apply IH in H; auto.
Qed.
Lemma le_one : forall l : list nat, NoDup l -> length l <= 1 <-> forall a b, In a l -> In b l -> a = b.
Proof.
  intros [|a [|b l]] N; simpl; split; intros H; try lia.
  exfalso. inversion N; subst. apply H2. left. symmetry. apply H; auto.
Qed.
Definition strictb (g : graph) : bool :=
  if negb (forallb (fun b => Nat.eqb (vertex_degree g b) 1
         && match neighbors g b with n :: _ => vtype_eqb (vty g n) ZSP | [] => false end)
         (filter (fun v => vtype_eqb (vty g v) BOUNDARY) (vertices g))) then false else
    forallb (fun z => Nat.leb (length (filter (fun n => vtype_eqb (vty g n) BOUNDARY) (neighbors g z))) 1)
      (filter (fun v => vtype_eqb (vty g v) ZSP) (vertices g)).
Lemma strictb_iff : forall g, wfg g -> strictb g = true <->
    (forall b, In b (vertices g) -> vty g b = BOUNDARY -> exists z, vty g z = ZSP /\ forall w, edge_type g b w <> None <-> w = z) /\
    (forall z b c, vty g z = ZSP -> vty g b = BOUNDARY -> vty g c = BOUNDARY -> edge_type g z b <> None -> edge_type g z c <> None -> b = c).
Proof.
  intros g W. unfold strictb.
  match goal with |- (if negb ?a then _ else ?b) = true <-> ?A /\ ?B => assert (HA : a = true <-> A); [|assert (HB : b = true <-> B)] end.
  - rewrite forallb_forall. split.
    + intros H b Ib Tb. assert (X := H b). rewrite filter_In in X. specialize (X (conj Ib (proj2 (vtype_eqb_eq _ _) Tb))).
      apply andb_true_iff in X. destruct X as [X Y]. apply Nat.eqb_eq in X. unfold vertex_degree in X.
      destruct (neighbors g b) as [|n [|? ?]] eqn:N; try discriminate. apply vtype_eqb_eq in Y. exists n. split; auto.
      intros w. rewrite <- neighbors_spec, N. simpl. intuition.
    + intros H b Hb. apply filter_In in Hb. destruct Hb as [Ib Tb]. apply vtype_eqb_eq in Tb. destruct (H b Ib Tb) as [z [Tz Hz]].
      unfold vertex_degree. rewrite (bdeg_nbrs g b z W Hz). simpl. apply vtype_eqb_eq. auto.
  - rewrite forallb_forall. split.
    + intros H z b c Tz Tb Tc Eb Ec. assert (X := H z). rewrite filter_In in X. destruct (edge_type g z b) as [e|] eqn:E; [|congruence].
      specialize (X (conj (edge_in_l _ _ _ _ E) (proj2 (vtype_eqb_eq _ _) Tz))). apply Nat.leb_le in X.
      rewrite le_one in X by (apply NoDup_filter, neighbors_nd; auto).
      apply X; apply nbrs_bdry; split; auto; congruence.
    + intros H z Hz. apply filter_In in Hz. destruct Hz as [Iz Tz]. apply vtype_eqb_eq in Tz. apply Nat.leb_le.
      apply le_one; [apply NoDup_filter, neighbors_nd; auto|]. intros b c Hb Hc. apply nbrs_bdry in Hb, Hc. apply (H z); tauto.
  - destruct (forallb _ (filter (fun v => vtype_eqb (vty g v) BOUNDARY) (vertices g))); cbn [negb].
    + rewrite HB. tauto.
    + split; [discriminate|]. intros [X _]. apply HA in X. discriminate.
Qed.
Lemma is_graph_like_iff : forall strict g, wfg g -> is_graph_like strict g = true <-> graph_like strict g.
Proof.
  intros strict g W. unfold is_graph_like, graph_like. fold (strictb g). rewrite <- strictb_iff by auto.
  match goal with |- (if negb ?a then _ else if negb ?b then _ else if ?c then _ else _) = true <-> ?A /\ ?B /\ ?C /\ ?D =>
    assert (HA : a = true <-> A); [|assert (HB : b = true <-> B); [|assert (HC : c = false <-> C)]] end.
  - rewrite forallb_forall. split; intros H v Hv; specialize (H v Hv); rewrite orb_true_iff, !vtype_eqb_eq in *; auto.
  - rewrite forallb_forall. split.
    + intros H u v e E Tu Tv D. assert (Iu : In u (vertices g)) by (eapply edge_in_l; eauto). assert (Iv : In v (vertices g)) by (eapply edge_in_r; eauto).
      assert (X : forall a b, In (a, b) (pairs (vertices g)) -> edge_type g a b = Some e -> vty g a = ZSP -> vty g b = ZSP -> e = HADAMARD).
      { intros a b Hab Eab Ta Tb. specialize (H _ Hab). cbn in H. rewrite (proj2 (connected_edge g a b)) in H by congruence. rewrite Ta, Tb, Eab in H. destruct e; auto; discriminate. }
      destruct (in_pairs _ u v Iu Iv D) as [P|P]; [apply (X u v)|apply (X v u)]; auto. rewrite wf_sym; auto.
    + intros H [a b] Hab. destruct (connected g a b) eqn:X; auto. cbn [negb]. apply connected_edge in X. destruct (edge_type g a b) as [e|] eqn:E; [|congruence].
      apply negb_true_iff. destruct (vtype_eqb (vty g a) ZSP) eqn:Ta; auto. destruct (vtype_eqb (vty g b) ZSP) eqn:Tb; auto. apply vtype_eqb_eq in Ta. apply vtype_eqb_eq in Tb. cbn [andb].
      rewrite (H a b e); auto. eapply pairs_neq; eauto. apply W.
  - split.
    + intros H v. destruct (edge_type g v v) eqn:E; auto. exfalso. assert (Iv : In v (vertices g)) by (eapply edge_in_l; eauto).
      assert (X : existsb (fun v => connected g v v) (vertices g) = true) by (apply existsb_exists; exists v; split; auto; apply connected_edge; congruence). congruence.
    + intros H. destruct (existsb _ _) eqn:X; auto. apply existsb_exists in X. destruct X as [v [_ X]]. apply connected_edge in X. rewrite H in X. congruence.
  - destruct (forallb _ (vertices g)); cbn [negb]; [|split; [discriminate|]; intros [X _]; apply HA in X; discriminate].
    destruct (forallb _ (pairs (vertices g))); cbn [negb]; [|split; [discriminate|]; intros [_ [X _]]; apply HB in X; discriminate].
    destruct (existsb _ _); [split; [discriminate|]; intros [_ [_ [X _]]]; apply HC in X; discriminate|].
    destruct strict; intuition.
Qed.

(** ** The loops after fusion *)
Theorem tidy_ok : forall g, zinv g -> glike g -> bb_plain g -> exists h, tidy g = Ok h /\ kept g h /\ graph_like true h.
Proof.
  intros g Z G BB. unfold tidy.
  destruct (bnds_ok (filter (fun v => vtype_eqb (vty g v) BOUNDARY) (vertices g)) g Z G BB) as [h [A [K N]]].
  { intros b Hb. apply filter_In in Hb. rewrite vtype_eqb_eq in Hb. auto. }
  rewrite A. cbn [bind].
  assert (AN : allnear h).
  { intros b Ib Tb. assert (Ig := kp_nob _ _ K b Ib Tb). destruct (kp_old _ _ K b Ig) as [_ T]. apply N; auto; [congruence|].
    left. apply filter_In. split; auto. apply vtype_eqb_eq. congruence. }
  destruct (spiders_tidy_ok (vertices h) h (kp_z _ _ K) (kp_gl _ _ K) AN) as [k [A2 [K2 [AN2 O]]]]; auto.
  rewrite A2. cbn [bind].
  assert (GL : graph_like true k).
  { assert (Zk := kp_z _ _ K2). assert (W := zx_wf _ (zi_zx _ Zk)). destruct (kp_gl _ _ K2) as [G1 G2]. split; [|split; [|split]].
    - intros v Hv. destruct (G1 v Hv); auto.
    - intros u v e E Tu Tv _. apply (G2 u v); auto.
    - apply (zx_noloop _ (zi_zx _ Zk)).
    - intros _. split.
      + intros b Ib Tb. destruct (AN2 b Ib Tb) as [u [Tu Eu]]. exists u. split; auto.
        destruct (zi_deg _ Zk b Ib Tb) as [w Hw]. apply Hw in Eu. subst w. auto.
      + intros z b c Tz Tb Tc Eb Ec. destruct (edge_type k z b) as [e|] eqn:E; [|congruence].
        apply (O z); auto; try congruence. eapply edge_in_l; eauto. }
  exists k. replace (is_graph_like true k) with true. 2:{ symmetry. apply is_graph_like_iff; auto. apply (zi_zx _ (kp_z _ _ K2)). }
  split; auto. split; auto. eapply kept_trans; eauto.
Qed.

(** ** to_graph_like *)
Lemma kept_map : forall g h, kept g h -> same_map g h.
Proof. intros g h K. destruct (kp_if _ _ K) as [A [B _]]. split; auto. split; auto. apply K. Qed.
Lemma to_gh_pre : forall g, zinv g -> bb_plain g -> exists g', to_gh g = Ok g' /\ pre g' /\ same_map g g' /\ (allph quarter g -> allph quarter g').
Proof.
  intros g Z BB. destruct (to_gh_ok g (zx_wf g (zi_zx g Z)) (zx_noloop g (zi_zx g Z))) as [g1 [E RC]]. exists g1. split; auto.
  destruct (to_gh_sound g (zi_zx g Z)) as [g1' [E' [_ [S [_ [VS PH]]]]]]. rewrite E in E'. injection E' as <-.
  destruct (to_gh_tot g (Ok (tt, g1)) Z) as [u [g2 [X [Z2 NX]]]]. { simpl. rewrite E. reflexivity. } injection X as <- <-.
  split; [|split; auto].
  - split; auto. split; auto. intros b c Tb Tc. rewrite (rc_et _ _ _ RC). rewrite (rc_ty _ _ _ RC) in Tb, Tc.
    assert (TB : forall v, (if iXv g v then toggle_vertex (vty g v) else vty g v) = BOUNDARY -> iXv g v = false /\ vty g v = BOUNDARY).
    { intros v. destruct (iXv g v) eqn:X; auto. intros H. apply iXv_zx in X. destruct (vty g v); discriminate. }
    destruct (TB b Tb) as [Xb Tb']. destruct (TB c Tc) as [Xc Tc']. rewrite Xb, Xc. cbn [xorb].
    destruct (edge_type g b c) as [e|] eqn:Eg; cbn; [|discriminate]. rewrite <- Eg. intros X. apply (BB b c); auto.
  - intros Q v Hv. unfold phase. rewrite PH. apply Q. congruence.
Qed.

Definition tidied (g g' : graph) : Prop := zinv g' /\ graph_like true g' /\ map_kept g g'.
Theorem to_graph_like_ok : forall g, zinv g -> bb_plain g ->
  halts to_graph_like g /\ (exists r, run to_graph_like g r) /\ forall r, run to_graph_like g r -> exists g', r = Ok (tt, g') /\ tidied g g'.
Proof.
  intros g Z BB. destruct (to_gh_pre g Z BB) as [g1 [E1 [P1 [S1 Q1]]]].
  assert (H : halts to_graph_like g).
  { split; [exact I|]. intros a h R. split; [|intros; exact I]. simpl in R. rewrite E1 in R. injection R as _ <-. apply spider_simp_halts. apply P1. }
  split; auto. split.
  { assert (L : live to_graph_like); [|auto]. apply live_bind; [apply live_do|intros]. apply live_bind; [apply spider_live|intros; apply live_do]. }
  intros r [[e [R _]]|[u [h [R1 R2]]]].
  { simpl in R. rewrite E1 in R. discriminate. }
  simpl in R1. rewrite E1 in R1. injection R1 as _ ->.
  destruct R2 as [[e [R _]]|[n [g2 [R2 R3]]]].
  { destruct (spider_done g1 _ P1 R) as [? [? [? _]]]. discriminate. }
  destruct (spider_done g1 _ P1 R2) as [n' [g2' [X [[Z2 [NX2 BB2]] GL2]]]]. injection X as <- <-.
  destruct (spider_kept AllC g1 n g2 (zi_zx _ (proj1 P1)) R2) as [_ MK].
  destruct (tidy_ok g2 Z2 GL2 BB2) as [g3 [E3 [K3 G3]]]. simpl in R3. rewrite E3 in R3. cbn [bind] in R3.
  exists g3. split; auto. split; [apply K3|]. split; auto.
  assert (S3 := kept_map _ _ K3). destruct S1 as [I1 [O1 S1]], S3 as [I3 [O3 S3]]. destruct MK as [[I2 [O2 [k [Hk S2]]]] MK]. split.
  - split; [congruence|]. split; [congruence|]. exists k. split; auto. intros b. rewrite S3, S2, S1. auto.
  - intros Q. destruct (MK (Q1 Q)) as [_ [_ S2']]. split; [congruence|]. split; [congruence|]. intros b. rewrite S3, S2', S1. auto.
Qed.

(** ** Executing it *)
Definition exec_tidy (g : graph) : option (unit * graph) := match tidy g with Ok h => Some (tt, h) | Err _ => None end.
Definition exec_to_graph_like (f : nat) (g : graph) : option (unit * graph) :=
  obind (exec_gh g) (fun _ g => obind (exec_spider f g) (fun _ g => exec_tidy g)).
Lemma exec_to_graph_like_run : forall f g u g', exec_to_graph_like f g = Some (u, g') -> run to_graph_like g (Ok (u, g')).
Proof.
  intros f. unfold exec_to_graph_like, to_graph_like. apply obind_run; [apply exec_gh_run|]. intros _. apply obind_run; [apply exec_spider_run|]. intros n g u g' H.
  unfold exec_tidy in H. simpl. destruct (tidy g) as [h|]; [|discriminate]. injection H as <- <-. reflexivity.
Qed.

(** ** A Hadamard wire from input to output loses its Hadamard *)
Definition ex_hwire : graph := mkgraph [(BOUNDARY, 0%Qc); (BOUNDARY, 0%Qc)] [(0,1,HADAMARD)] [0] [1].
Definition only1 : assignment := fun v => Nat.eqb v 1.
Theorem to_graph_like_hwire_refuted : exists g g', zinv g /\ run to_graph_like g (Ok (tt, g')) /\ ~ same_upto g g'.
Proof.
  assert (E : exists g', exec_to_graph_like 3 ex_hwire = Some (tt, g') /\ sem g' only1 = C0).
  { eexists. split; [vm_compute; reflexivity|]. unfold sem, internal. cbn [vertices gty gscalar dkeys map fst filter vty isB dget Nat.eqb]. unfold_sem.
    change {| this := 0; canon := Qred_involutive 0 |} with 0%Qc. rewrite ?cexp_0. ring. }
  destruct E as [g' [E S]]. exists ex_hwire, g'. split; [apply zinvb_ok; vm_compute; reflexivity|].
  split; [eapply exec_to_graph_like_run; exact E|]. intros [_ [_ [k [Hk H]]]]. specialize (H only1). rewrite S in H.
  assert (V : (sem ex_hwire only1 * sq2p 1 = C1)%C).
  { unfold sem. replace (internal ex_hwire) with (@nil nat) by reflexivity. unfold_sem. unfold to_number. simpl. rewrite ?cexp_0, ?sq2p_0.
    transitivity (sq2p (-1) * sq2p 1)%C; [ring|]. rewrite <- sq2p_add. apply sq2p_0. }
  apply Hk. transitivity (k * (sem ex_hwire only1 * sq2p 1))%C; [rewrite V; ring|]. transitivity ((k * sem ex_hwire only1) * sq2p 1)%C; [ring|]. rewrite <- H. ring.
Qed.
