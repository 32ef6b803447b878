(** Splitting a phase off a Z spider onto fresh vertices keeps the linear map. *)
From Coq Require Import Reals ZArith QArith Qcanon List Bool Arith Lia Permutation FinFun.
From Verif Require Import CNum Base ScalarModel ScalarProofs GraphModel GraphSem SumLemmas GraphProofs GraphOps
  RulesModel RuleLemmas SpiderProofs IsoProofs IdProofs LcompProofs PivotProofs.
Import ListNotations.
Open Scope C_scope.

Lemma fresh_not_in : forall g, wfg g -> ~ In (gvindex g) (vertices g).
Proof. intros g W H. apply (wf_fresh g W) in H. lia. Qed.

Lemma dkeys_dset_iff : forall V (d : dict V) k v u, In u (dkeys (dset k v d)) <-> u = k \/ In u (dkeys d).
Proof.
  intros. destruct (in_dec Nat.eq_dec k (dkeys d)) as [I|I].
  - rewrite dkeys_dset_in by auto. split; auto. intros [->|]; auto.
  - rewrite dkeys_dset_notin by auto. rewrite in_app_iff. simpl. intuition.
Qed.
Lemma dkeys_dset_nd : forall V (d : dict V) k v, NoDup (dkeys d) -> NoDup (dkeys (dset k v d)).
Proof.
  intros. destruct (in_dec Nat.eq_dec k (dkeys d)) as [I|I].
  - rewrite dkeys_dset_in by auto. auto.
  - rewrite dkeys_dset_notin by auto. apply nodup_app; auto; [constructor; [simpl; tauto|constructor]|].
    intros a Ha [<-|[]]. contradiction.
Qed.

Lemma add_vertex_spec : forall t q r p g g' v, wfg g -> add_vertex t q r (Some p) g = (g', v) ->
  v = gvindex g /\ wfg g' /\ vertices g' = vertices g ++ [v] /\
  (forall u w, edge_type g' u w = edge_type g u w) /\ (forall u, neighbors g' u = neighbors g u) /\
  (forall u, vty g' u = if Nat.eqb u v then t else vty g u) /\
  (forall u, phase g' u = if Nat.eqb u v then qmod2 p else phase g u) /\
  ginputs g' = ginputs g /\ goutputs g' = goutputs g /\ gscalar g' = gscalar g.
Proof.
  intros t q r p g g' v W H. unfold add_vertex in H. cbn [add_vertices fst seq fold_left] in H.
  set (n := gvindex g) in *.
  assert (F : ~ In n (vertices g)) by (apply fresh_not_in; auto).
  assert (FA : ~ In n (dkeys (gadj g))) by exact F.
  assert (FT : ~ In n (dkeys (gty g))) by (rewrite (wf_ty g W); exact F).
  assert (FP : ~ In n (dkeys (gphase g))) by (rewrite (wf_ph g W); exact F).
  injection H as H <-. split; auto.
  assert (A : gadj g' = dset n [] (gadj g)) by (subst g'; destruct (qeqb p 0%Qc); reflexivity).
  assert (T : gty g' = dset n t (dset n BOUNDARY (gty g))) by (subst g'; destruct (qeqb p 0%Qc); reflexivity).
  assert (PH : forall u, phase g' u = if Nat.eqb u n then qmod2 p else phase g u).
  { intros u. unfold phase. destruct (qeqb p 0%Qc) eqn:E; subst g'; cbn [gphase set_phase set_row set_qubit set_type with_phase with_rindex with_qindex with_ty with_vindex add_one_vertex with_adj].
    - rewrite dget_dset. apply qeqb_eq in E. subst p. destruct (Nat.eqb u n); rewrite ?qmod2_0; auto.
    - rewrite !dget_dset. destruct (Nat.eqb u n); auto. }
  assert (PK : (forall u, In u (dkeys (gphase g')) <-> u = n \/ In u (dkeys (gphase g))) /\ NoDup (dkeys (gphase g'))).
  { destruct (qeqb p 0%Qc) eqn:E; subst g'; cbn [gphase set_phase set_row set_qubit set_type with_phase with_rindex with_qindex with_ty with_vindex add_one_vertex with_adj].
    - split; [intros; apply dkeys_dset_iff|apply dkeys_dset_nd; apply W].
    - split; [intros; rewrite !dkeys_dset_iff; tauto|do 2 apply dkeys_dset_nd; apply W]. }
  assert (VI : gvindex g' = (n + 1)%nat) by (subst g'; destruct (qeqb p 0%Qc); reflexivity).
  assert (V : vertices g' = vertices g ++ [n]) by (unfold vertices; rewrite A; apply dkeys_dset_notin; auto).
  assert (EN : forall w, edge_type g n w = None) by (intros; unfold edge_type; rewrite (proj2 (dget_none n (gadj g)) FA); auto).
  assert (ET : forall u w, edge_type g' u w = edge_type g u w).
  { intros u w. unfold edge_type. rewrite A, dget_dset. destruct (Nat.eqb_spec u n); auto.
    subst. rewrite (proj2 (dget_none n (gadj g)) FA). reflexivity. }
  split; [|split; [exact V|split; [exact ET|]]].
  - constructor.
    + rewrite V. apply nodup_app; [apply W|constructor; [simpl; tauto|constructor]|]. intros a Ha [<-|[]]; contradiction.
    + intros u d. rewrite A. rewrite dget_dset. destruct (Nat.eqb u n) eqn:E.
      * intros [= <-]. constructor.
      * apply W.
    + intros. rewrite !ET. apply W.
    + intros u. rewrite T, V, in_app_iff, !dkeys_dset_iff, (wf_ty g W). simpl. intuition.
    + rewrite T. do 2 apply dkeys_dset_nd. apply W.
    + intros u. rewrite (proj1 PK), V, in_app_iff, (wf_ph g W). simpl. intuition.
    + apply PK.
    + intros u. rewrite V, in_app_iff, VI. intros [Hu|[<-|[]]]; [apply (wf_fresh g W) in Hu; fold n in Hu|]; lia.
  - split; [|split; [|split; [exact PH|]]].
    + intros u. unfold neighbors. rewrite A, dget_dset. destruct (Nat.eqb_spec u n); auto.
      subst. rewrite (proj2 (dget_none n (gadj g)) FA). reflexivity.
    + intros u. unfold vty. rewrite T, !dget_dset. destruct (Nat.eqb u n); auto.
    + subst g'; destruct (qeqb p 0%Qc); auto.
Qed.

(** [grown g g' mv]: g' is g plus fresh Z vertices without edges; for every
    (w, a :: l) in mv the phase of w moved to the fresh vertex a *)
Record grown (g g' : graph) (mv : list (nat * list nat)) : Prop := mkgrown {
  gr_wf : wfg g';
  gr_vs : vertices g' = vertices g ++ flat_map snd mv;
  gr_in : ginputs g' = ginputs g;
  gr_out : goutputs g' = goutputs g;
  gr_sc : gscalar g' = gscalar g;
  gr_et : forall u v, edge_type g' u v = edge_type g u v;
  gr_nb : forall v, neighbors g' v = neighbors g v;
  gr_ty : forall u, In u (vertices g) -> vty g' u = vty g u;
  gr_tn : forall u, In u (flat_map snd mv) -> vty g' u = ZSP;
  gr_ph : forall u, In u (vertices g) -> ~ In u (map fst mv) -> phase g' u = phase g u;
  gr_mv : forall w ns, In (w, ns) mv -> In w (vertices g) /\ vty g w = ZSP /\ phase g' w = 0%Qc /\
    exists a l, ns = a :: l /\ phase g' a = phase g w /\ forall u, In u l -> phase g' u = 0%Qc;
  gr_nd : NoDup (map fst mv)
}.

Lemma grown_refl : forall g, wfg g -> grown g g [].
Proof.
  intros g W. constructor; auto; simpl; try tauto; try constructor. rewrite app_nil_r. reflexivity.
Qed.

Lemma grown_newv : forall g g' mv u, wfg g -> grown g g' mv -> In u (flat_map snd mv) -> ~ In u (vertices g).
Proof.
  intros g g' mv u W G Hu Hv. assert (N := wf_nd _ (gr_wf _ _ _ G)). rewrite (gr_vs _ _ _ G) in N.
  apply nodup_app_inv in N. destruct N as [_ [_ N]]. apply (N u); auto.
Qed.
Lemma grown_nd : forall g g' mv, grown g g' mv -> NoDup (flat_map snd mv).
Proof.
  intros g g' mv G. assert (N := wf_nd _ (gr_wf _ _ _ G)). rewrite (gr_vs _ _ _ G) in N.
  apply nodup_app_inv in N. tauto.
Qed.
Lemma nodup_snoc : forall A (l : list A) a, NoDup l -> ~ In a l -> NoDup (l ++ [a]).
Proof. intros. apply nodup_app; auto; [constructor; [simpl; tauto|constructor]|]. intros b Hb [<-|[]]; contradiction. Qed.

Lemma grown_set_qubit : forall g g' mv v q, grown g g' mv -> grown g (set_qubit v q g') mv.
Proof. intros g g' mv v q [A1 A2 A3 A4 A5 A6 A7 A8 A9 A10 A11 A12]. constructor; auto. destruct A1. constructor; auto. Qed.

Lemma grown_one : forall g gc mv w q r p g1 a, wfg g -> allph in02 g -> grown g gc mv -> In w (vertices g) -> vty g w = ZSP ->
  ~ In w (map fst mv) -> p = phase gc w -> add_vertex ZSP q r (Some p) gc = (g1, a) ->
  grown g (set_phase w 0%Qc g1) (mv ++ [(w, [a])]).
Proof.
  intros g gc mv w q r p g1 a W IP G Hw Tw Nw -> E.
  destruct (add_vertex_spec _ _ _ _ _ _ _ (gr_wf _ _ _ G) E) as [Ea [W1 [V1 [E1 [N1 [T1 [P1 [I1 [O1 S1]]]]]]]]].
  assert (Fa : ~ In a (vertices gc)) by (rewrite Ea; apply fresh_not_in, G).
  rewrite (gr_vs _ _ _ G), in_app_iff in Fa.
  assert (Nwa : w <> a) by (intros ->; tauto).
  assert (Hw1 : In w (vertices g1)) by (rewrite V1, (gr_vs _ _ _ G), !in_app_iff; auto).
  assert (PH : forall u, phase (set_phase w 0%Qc g1) u = if Nat.eqb u w then 0%Qc else if Nat.eqb u a then phase g w else phase gc u).
  { intros u. rewrite phase_set_phase, P1, qmod2_0. rewrite (gr_ph _ _ _ G w) by auto.
    rewrite (qmod2_id (phase g w)) by (apply IP; auto). reflexivity. }
  constructor; auto.
  - apply set_phase_wfg; auto.
  - change (vertices g1 = vertices g ++ flat_map snd (mv ++ [(w,[a])])).
    rewrite V1, (gr_vs _ _ _ G), flat_map_app. simpl. rewrite app_assoc. reflexivity.
  - cbn. rewrite I1. apply G.
  - cbn. rewrite O1. apply G.
  - cbn. rewrite S1. apply G.
  - intros. change (edge_type g1 u v = edge_type g u v). rewrite E1. apply G.
  - intros. change (neighbors g1 v = neighbors g v). rewrite N1. apply G.
  - intros u Hu. change (vty g1 u = vty g u). rewrite T1. destruct (Nat.eqb_spec u a); [subst; tauto|]. apply G; auto.
  - intros u Hu. change (vty g1 u = ZSP). rewrite T1. destruct (Nat.eqb_spec u a); auto.
    rewrite flat_map_app, in_app_iff in Hu. destruct Hu as [Hu|[<-|[]]]; [apply G; auto|congruence].
  - intros u Hu Hn. rewrite map_app, in_app_iff in Hn. simpl in Hn. rewrite PH.
    destruct (Nat.eqb_spec u w); [subst; tauto|]. destruct (Nat.eqb_spec u a); [subst; tauto|]. apply G; auto.
  - intros u ns Hu. rewrite in_app_iff in Hu. destruct Hu as [Hu|[[= <- <-]|[]]].
    + destruct (gr_mv _ _ _ G u ns Hu) as [M1 [M2 [M3 [b [l [M4 [M5 M6]]]]]]].
      assert (In u (map fst mv)) by (apply in_map_iff; exists (u,ns); auto).
      assert (X : forall z, In z ns -> z <> w /\ z <> a).
      { intros z Hz. assert (In z (flat_map snd mv)) by (apply in_flat_map; exists (u,ns); auto). split; [|intros ->; tauto].
        intros ->. apply (grown_newv g gc mv w); auto. }
      split; auto. split; auto. rewrite PH. split.
      { destruct (Nat.eqb_spec u w); auto. destruct (Nat.eqb_spec u a); [subst; tauto|auto]. }
      exists b, l. split; auto. subst ns. split.
      { rewrite PH. destruct (X b) as [X1 X2]; [simpl; auto|]. apply Nat.eqb_neq in X1, X2. rewrite X1, X2. auto. }
      intros z Hz. rewrite PH. destruct (X z) as [X1 X2]; [simpl; auto|]. apply Nat.eqb_neq in X1, X2. rewrite X1, X2. auto.
    + split; auto. split; auto. rewrite PH, Nat.eqb_refl. split; auto. exists a, []. split; auto. split; [|simpl; tauto].
      rewrite PH, Nat.eqb_refl. destruct (Nat.eqb_spec a w); [congruence|auto].
  - rewrite map_app. apply nodup_snoc; auto. apply G.
Qed.

Lemma grown_two : forall g gc mv w q r p g1 a q' r' g2 c, wfg g -> allph in02 g -> grown g gc mv -> In w (vertices g) -> vty g w = ZSP ->
  ~ In w (map fst mv) -> p = phase gc w -> add_vertex ZSP q r (Some p) gc = (g1, a) ->
  add_vertex ZSP q' r' (Some 0%Qc) g1 = (g2, c) ->
  grown g (set_phase w 0%Qc g2) (mv ++ [(w, [a; c])]).
Proof.
  intros g gc mv w q r p g1 a q' r' g2 c W IP G Hw Tw Nw -> E E'.
  destruct (add_vertex_spec _ _ _ _ _ _ _ (gr_wf _ _ _ G) E) as [Ea [W1 [V1 [E1 [N1 [T1 [P1 [I1 [O1 S1]]]]]]]]].
  destruct (add_vertex_spec _ _ _ _ _ _ _ W1 E') as [Ec [W2 [V2 [E2 [N2 [T2 [P2 [I2 [O2 S2]]]]]]]]].
  assert (Fa : ~ In a (vertices gc)) by (rewrite Ea; apply fresh_not_in, G).
  assert (Fc : ~ In c (vertices g1)) by (rewrite Ec; apply fresh_not_in, W1).
  rewrite V1, in_app_iff in Fc.
  rewrite (gr_vs _ _ _ G), in_app_iff in Fa, Fc.
  assert (Nwa : w <> a) by (intros ->; tauto).
  assert (Nwc : w <> c) by (intros ->; tauto).
  assert (Nac : a <> c) by (intros ->; simpl in Fc; tauto).
  assert (Hw1 : In w (vertices g2)) by (rewrite V2, V1, (gr_vs _ _ _ G), !in_app_iff; auto).
  assert (PH : forall u, phase (set_phase w 0%Qc g2) u = if Nat.eqb u w then 0%Qc else if Nat.eqb u c then 0%Qc else if Nat.eqb u a then phase g w else phase gc u).
  { intros u. rewrite phase_set_phase, P2, P1, qmod2_0. rewrite (gr_ph _ _ _ G w) by auto.
    rewrite (qmod2_id (phase g w)) by (apply IP; auto). reflexivity. }
  constructor; auto.
  - apply set_phase_wfg; auto.
  - change (vertices g2 = vertices g ++ flat_map snd (mv ++ [(w,[a;c])])).
    rewrite V2, V1, (gr_vs _ _ _ G), flat_map_app. simpl. rewrite <- !app_assoc. reflexivity.
  - cbn. rewrite I2, I1. apply G.
  - cbn. rewrite O2, O1. apply G.
  - cbn. rewrite S2, S1. apply G.
  - intros. change (edge_type g2 u v = edge_type g u v). rewrite E2, E1. apply G.
  - intros. change (neighbors g2 v = neighbors g v). rewrite N2, N1. apply G.
  - intros u Hu. change (vty g2 u = vty g u). rewrite T2, T1. destruct (Nat.eqb_spec u c); [subst; tauto|]. destruct (Nat.eqb_spec u a); [subst; tauto|]. apply G; auto.
  - intros u Hu. change (vty g2 u = ZSP). rewrite T2, T1. destruct (Nat.eqb_spec u c); auto. destruct (Nat.eqb_spec u a); auto.
    rewrite flat_map_app, in_app_iff in Hu. destruct Hu as [Hu|[<-|[<-|[]]]]; [apply G; auto|congruence|congruence].
  - intros u Hu Hn. rewrite map_app, in_app_iff in Hn. simpl in Hn. rewrite PH.
    destruct (Nat.eqb_spec u w); [subst; tauto|]. destruct (Nat.eqb_spec u c); [subst; tauto|]. destruct (Nat.eqb_spec u a); [subst; tauto|]. apply G; auto.
  - intros u ns Hu. rewrite in_app_iff in Hu. destruct Hu as [Hu|[[= <- <-]|[]]].
    + destruct (gr_mv _ _ _ G u ns Hu) as [M1 [M2 [M3 [b [l [M4 [M5 M6]]]]]]].
      assert (In u (map fst mv)) by (apply in_map_iff; exists (u,ns); auto).
      assert (X : forall z, In z ns -> z <> w /\ z <> a /\ z <> c).
      { intros z Hz. assert (In z (flat_map snd mv)) by (apply in_flat_map; exists (u,ns); auto). split; [|split; intros ->; tauto].
        intros ->. apply (grown_newv g gc mv w); auto. }
      split; auto. split; auto. rewrite PH. split.
      { destruct (Nat.eqb_spec u w); auto. destruct (Nat.eqb_spec u c); [subst; tauto|]. destruct (Nat.eqb_spec u a); [subst; tauto|auto]. }
      exists b, l. split; auto. subst ns. split.
      { rewrite PH. destruct (X b) as [X1 [X2 X3]]; [simpl; auto|]. apply Nat.eqb_neq in X1, X2, X3. rewrite X1, X2, X3. auto. }
      intros z Hz. rewrite PH. destruct (X z) as [X1 [X2 X3]]; [simpl; auto|]. apply Nat.eqb_neq in X1, X2, X3. rewrite X1, X2, X3. auto.
    + split; auto. split; auto. rewrite PH, Nat.eqb_refl. split; auto. exists a, [c]. split; auto. split.
      * rewrite PH, Nat.eqb_refl. destruct (Nat.eqb_spec a w); [congruence|]. destruct (Nat.eqb_spec a c); [congruence|auto].
      * intros u [<-|[]]. rewrite PH, Nat.eqb_refl. destruct (Nat.eqb c w); auto.
  - rewrite map_app. apply nodup_snoc; auto. apply G.
Qed.

Lemma add_edges_spec : forall es et g g', wfg g -> add_edges es et g = Ok g' ->
  wfg g' /\ same_frame g g' /\ gphase g' = gphase g /\ gscalar g' = gscalar g /\
  (forall s t, In (s,t) es -> In s (vertices g) /\ In t (vertices g)) /\
  forall u v, edge_type g' u v = if existsb (fun e => pair_hit (fst e) (snd e) u v) es then Some et else edge_type g u v.
Proof.
  unfold add_edges. induction es as [|[s t] es IH]; intros et g g' W H.
  - injection H as <-. split; auto. split; [apply same_frame_refl|]. simpl. tauto.
  - cbn [foldM] in H. inv_bind H.
    apply set_edge_type_spec in E; [|apply wfg_nedges; auto]. destruct E as [A1 [A2 [A3 [A4 [A5 [A6 A7]]]]]].
    apply IH in H; auto. destruct H as [B1 [B2 [B3 [B4 [B5 B6]]]]].
    split; auto. split; [|split; [|split; [|split]]].
    2:{ rewrite B3, A3. reflexivity. }
    2:{ rewrite B4, A4. reflexivity. }
    + eapply same_frame_trans; [|exact B2]. exact A2.
    + destruct A2 as [VV _]. change (vertices (with_nedges (gnedges g + 1) g)) with (vertices g) in *.
      intros s' t' [[= <- <-]|X]; auto. rewrite VV in B5. apply B5 in X. auto.
    + intros u v. rewrite B6, A7. cbn [existsb fst snd]. destruct (pair_hit s t u v); simpl; auto.
      destruct (existsb _ es); auto.
Qed.

(** adding the edges: the linear map is unchanged *)
Lemma grow_sound : forall g g1 mv g2, zxok g -> grown g g1 mv -> wfg g2 -> same_frame g1 g2 ->
  gphase g2 = gphase g1 -> gscalar g2 = gscalar g1 -> noloop g2 ->
  (forall u v, In u (vertices g) -> In v (vertices g) -> edge_type g2 u v = edge_type g u v) ->
  ForallOrdPairs (apart g2 snd) mv ->
  (forall w ns x, In (w,ns) mv -> sumv ns (loc g2 ns (vertices g)) x = ephase (phase g w) (x w)) ->
  zxok g2 /\ same_map g g2.
Proof.
  intros g g1 mv g2 ZX G W2 F PH SC NL2 HE AP HL.
  assert (W := zx_wf g ZX).
  assert (V2 : vertices g2 = vertices g ++ flat_map snd mv) by (rewrite (proj1 F); apply G).
  assert (P2 : forall u, phase g2 u = phase g1 u) by (intros; unfold phase; rewrite PH; reflexivity).
  assert (T2 : forall u, vty g2 u = vty g1 u) by (intros; apply same_frame_vty; auto).
  assert (TC : forall u, In u (vertices g) -> isB g2 u = isB g u) by (intros; unfold isB; rewrite T2, (gr_ty _ _ _ G) by auto; reflexivity).
  assert (NDm : NoDup (flat_map snd mv)) by (apply (grown_nd g g1); auto).
  split.
  - constructor; auto.
    + intros v Hv. rewrite V2, in_app_iff in Hv. rewrite T2. destruct Hv as [Hv|Hv].
      * rewrite (gr_ty _ _ _ G); auto. apply ZX; auto.
      * rewrite (gr_tn _ _ _ G); auto. discriminate.
    + intros v Hv. rewrite V2, in_app_iff in Hv. rewrite P2. destruct Hv as [Hv|Hv].
      * destruct (in_dec Nat.eq_dec v (map fst mv)) as [I|I].
        -- apply in_map_iff in I. destruct I as [[w ns] [<- I]]. simpl fst. destruct (gr_mv _ _ _ G _ _ I) as [_ [_ [-> _]]]. split; [discriminate|reflexivity].
        -- rewrite (gr_ph _ _ _ G); auto. apply ZX; auto.
      * apply in_flat_map in Hv. destruct Hv as [[w ns] [I Hv]]. destruct (gr_mv _ _ _ G _ _ I) as [M1 [_ [_ [a [l [M4 [M5 M6]]]]]]].
        simpl in Hv. subst ns. destruct Hv as [<-|Hv]; [rewrite M5; apply ZX; auto|rewrite M6 by auto; split; [discriminate|reflexivity]].
    + intros v Hv. destruct F as [F1 [F2 [F3 [F4 _]]]]. rewrite F3, F4, (gr_in _ _ _ G), (gr_out _ _ _ G) in Hv.
      destruct (zx_io g ZX v Hv) as [X Y]. split; [rewrite V2, in_app_iff; auto|]. rewrite TC; auto.
  - split; [|split].
    + destruct F as [_ [_ [-> _]]]. apply G.
    + destruct F as [_ [_ [_ [-> _]]]]. apply G.
    + assert (PV : Permutation (vertices g2) (flat_map snd mv ++ vertices g)) by (rewrite V2; apply Permutation_app_comm).
      apply (sem_regroup g g2 [] (flat_map snd mv) (vertices g)); auto.
      * intros v [].
      * intros v Hv. unfold isB. rewrite T2, (gr_tn _ _ _ G); auto.
      * intros x. cbn [sumv app]. rewrite batch_sum; auto.
        2:{ eapply Permutation_NoDup; [exact PV|apply W2]. }
        rewrite (cprod_ext _ _ (fun m : nat * list nat => ephase (phase g (fst m)) (x (fst m)))) by (intros [w ns] Hm; apply HL; auto).
        unfold integL. rewrite SC, (gr_sc _ _ _ G).
        rewrite (pprod_ext _ (fun u v => ew g2 u v (x u) (x v)) (fun u v => ew g u v (x u) (x v))).
        2:{ intros u v Hu Hv. unfold ew, isX. rewrite !T2, !(gr_ty _ _ _ G), HE by auto. reflexivity. }
        assert (X : cprod (fun v => pw g v (x v)) (vertices g) =
          cprod (fun v => pw g2 v (x v)) (vertices g) * cprod (fun w => ephase (phase g w) (x w)) (map fst mv)).
        { assert (PM : Permutation (vertices g) (keep (map fst mv) g ++ map fst mv)).
          { eapply perm_trans; [apply (vertices_split g (map fst mv)); auto|apply Permutation_app_comm].
            - apply G.
            - intros v Hv. apply in_map_iff in Hv. destruct Hv as [[w ns] [<- I]]. apply (gr_mv _ _ _ G _ _ I). }
          rewrite !(cprod_perm _ _ _ _ PM), !cprod_app.
          rewrite (cprod_1 _ (fun v => pw g2 v (x v)) (map fst mv)).
          2:{ intros v Hv. apply in_map_iff in Hv. destruct Hv as [[w ns] [<- I]]. destruct (gr_mv _ _ _ G _ _ I) as [_ [_ [M _]]].
              unfold pw. simpl fst. rewrite P2, M. destruct (isB g2 w); auto. destruct (x w); auto. apply (ephase_0 true). }
          rewrite (cprod_ext _ (fun v => pw g2 v (x v)) (fun v => pw g v (x v))).
          2:{ intros v Hv. apply in_keep in Hv. unfold pw. rewrite TC, P2, (gr_ph _ _ _ G) by tauto. reflexivity. }
          rewrite (cprod_ext _ (fun v => pw g v (x v)) (fun w => ephase (phase g w) (x w)) (map fst mv)).
          2:{ intros v Hv. apply in_map_iff in Hv. destruct Hv as [[w ns] [<- I]]. destruct (gr_mv _ _ _ G _ _ I) as [_ [M _]].
              unfold pw, isB. simpl fst. rewrite M. reflexivity. }
          ring. }
        rewrite X. clear X. rewrite cprod_map. ring.
Qed.

Lemma hit_in : forall (es : list edge) u v, existsb (fun e => pair_hit (fst e) (snd e) u v) es = true <-> In (u,v) es \/ In (v,u) es.
Proof.
  intros es u v. rewrite existsb_exists. split.
  - intros [[s t] [H1 H2]]. apply pair_hit_true in H2. simpl in H2. destruct H2 as [[-> ->]|[-> ->]]; auto.
  - intros [H|H]; [exists (u,v)|exists (v,u)]; (split; [auto|]); simpl; [apply pair_hit_st|rewrite pair_hit_sym; apply pair_hit_st].
Qed.
Lemma nodup_flat_uniq : forall A (f : A -> list nat) l m m' u, NoDup (flat_map f l) -> In m l -> In m' l ->
  In u (f m) -> In u (f m') -> m = m'.
Proof.
  induction l as [|a l IH]; simpl; intros m m' u ND Hm Hm' Hu Hu'; [contradiction|].
  destruct (nodup_app_inv _ _ _ ND) as [N1 [N2 N3]].
  destruct Hm as [<-|Hm], Hm' as [<-|Hm']; auto.
  - exfalso. apply (N3 u); auto. apply in_flat_map. eauto.
  - exfalso. apply (N3 u); auto. apply in_flat_map. eauto.
  - eapply IH; eauto.
Qed.
Lemma FOP_nodup : forall A (l : list A), NoDup l -> ForallOrdPairs (fun a b => a <> b) l.
Proof.
  induction 1; constructor; auto. rewrite Forall_forall. intros b Hb ->. contradiction.
Qed.

Definition gel (m : nat * list nat) : edge := (hd 0%nat (snd m), fst m).

Lemma grow_gadget : forall g g1 mv g2, zxok g -> grown g g1 mv -> (forall m, In m mv -> exists a, snd m = [a]) ->
  add_edges (map gel mv) SIMPLE g1 = Ok g2 ->
  zxok g2 /\ same_map g g2 /\ same_frame g1 g2 /\ gphase g2 = gphase g1 /\
  (forall u v, In u (vertices g) -> In v (vertices g) -> edge_type g2 u v = edge_type g u v) /\
  (forall w a u, In (w,[a]) mv -> edge_type g2 a u = if Nat.eqb u w then Some SIMPLE else None).
Proof.
  intros g g1 mv g2 ZX G HS H. assert (W := zx_wf g ZX).
  destruct (add_edges_spec _ _ _ _ (gr_wf _ _ _ G) H) as [W2 [F [PH [SC [HV HE]]]]].
  assert (ND := grown_nd _ _ _ G).
  assert (NEW : forall w a, In (w,[a]) mv -> In w (vertices g) /\ ~ In a (vertices g)).
  { intros w a Hm. split; [apply (gr_mv _ _ _ G _ _ Hm)|]. apply (grown_newv g g1 mv); auto. apply in_flat_map. exists (w,[a]); simpl; auto. }
  assert (IN : forall u v, In (u,v) (map gel mv) <-> In (v,[u]) mv).
  { intros u v. rewrite in_map_iff. split.
    - intros [[w ns] [X Y]]. destruct (HS _ Y) as [a Ha]. simpl in Ha. subst ns. unfold gel in X. simpl in X. injection X as <- <-. auto.
    - intros X. exists (v,[u]). auto. }
  assert (E1 : forall u v, In u (vertices g) -> In v (vertices g) -> edge_type g2 u v = edge_type g u v).
  { intros u v Hu Hv. rewrite HE. destruct (existsb _ _) eqn:X; [|apply G]. apply hit_in in X. rewrite !IN in X. exfalso.
    destruct X as [X|X]; apply NEW in X; tauto. }
  assert (E2 : forall w a u, In (w,[a]) mv -> edge_type g2 a u = if Nat.eqb u w then Some SIMPLE else None).
  { intros w a u Hm. rewrite HE. destruct (NEW _ _ Hm) as [N1 N2]. destruct (existsb _ _) eqn:X.
    - apply hit_in in X. rewrite !IN in X. destruct X as [X|X].
      + assert ((w,[a]) = (u,[a])) by (apply (nodup_flat_uniq _ snd mv _ _ a ND); simpl; auto). injection H0 as <-. rewrite Nat.eqb_refl. auto.
      + exfalso. apply N2. apply (NEW _ _ X).
    - destruct (Nat.eqb_spec u w) as [->|].
      + exfalso. rewrite <- not_true_iff_false, hit_in, !IN in X. tauto.
      + destruct (edge_type g1 a u) eqn:Y; auto. rewrite (gr_et _ _ _ G) in Y. exfalso. apply N2. apply (edge_in_l g a u e); auto. }
  assert (NL2 : noloop g2).
  { intros v. rewrite HE. destruct (existsb _ _) eqn:X.
    - apply hit_in in X. rewrite !IN in X. exfalso. destruct X as [X|X]; apply NEW in X; tauto.
    - rewrite (gr_et _ _ _ G). apply ZX. }
  destruct (grow_sound g g1 mv g2) as [Z S]; auto.
  - eapply ForallOrdPairs_imp; [|apply FOP_nodup, (NoDup_map_inv fst), G]. intros [w ns] [w' ns'] Hm Hm' N u v Hu Hv.
    destruct (HS _ Hm) as [a Ha], (HS _ Hm') as [b Hb]. simpl in *. subst. destruct Hu as [<-|[]], Hv as [<-|[]].
    rewrite (E2 w a b) by auto. destruct (Nat.eqb_spec b w); auto. subst. exfalso. apply (proj2 (NEW _ _ Hm')). apply (NEW _ _ Hm).
  - intros w ns x Hm. destruct (HS _ Hm) as [a Ha]. simpl in Ha. subst ns. destruct (NEW _ _ Hm) as [N1 N2].
    destruct (gr_mv _ _ _ G _ _ Hm) as [_ [Tw [_ [a' [l [M4 [M5 M6]]]]]]]. injection M4 as <- <-.
    assert (Ta : vty g2 a = ZSP).
    { rewrite (same_frame_vty g1) by auto. apply G. apply in_flat_map. exists (w,[a]); simpl; auto. }
    assert (Tw2 : vty g2 w = ZSP) by (rewrite (same_frame_vty g1) by auto; rewrite (gr_ty _ _ _ G); auto).
    assert (NB : neighbors g2 a = [w]).
    { apply Permutation_length_1_inv. apply nodup_same_perm; [constructor; [simpl; tauto|constructor]|apply neighbors_nd; auto|].
      intros u. rewrite neighbors_spec, (E2 w a u Hm). simpl. destruct (Nat.eqb_spec u w); intuition congruence. }
    rewrite loc_single; auto; [|apply wf_nd; auto|].
    2:{ intros u. rewrite NB. intros [<-|[]]; auto. }
    rewrite NB. cbn [cprod]. unfold pw, ew, isB, isX. rewrite Ta, Tw2, (E2 w a w Hm), Nat.eqb_refl. cbn [vtype_eqb xorb tog option_map wt].
    assert (phase g2 a = phase g w) by (unfold phase at 1; rewrite PH; exact M5). rewrite H0.
    unfold ephase. destruct (x w); unfold dlt; simpl; ring.
  - auto 10.
Qed.

Definition bel (m : nat * list nat) : list edge := [(fst m, nth 1 (snd m) 0%nat); (nth 0 (snd m) 0%nat, nth 1 (snd m) 0%nat)].

Lemma grow_boundary : forall g g1 mv g2, zxok g -> grown g g1 mv -> (forall m, In m mv -> exists a c, snd m = [a;c]) ->
  add_edges (flat_map bel mv) HADAMARD g1 = Ok g2 ->
  zxok g2 /\ same_map g g2 /\ same_frame g1 g2 /\ gphase g2 = gphase g1 /\
  (forall u v, In u (vertices g) -> In v (vertices g) -> edge_type g2 u v = edge_type g u v) /\
  (forall w a c u, In (w,[a;c]) mv -> edge_type g2 a u = if Nat.eqb u c then Some HADAMARD else None) /\
  (forall w a c u, In (w,[a;c]) mv -> edge_type g2 c u = if Nat.eqb u a || Nat.eqb u w then Some HADAMARD else None).
Proof.
  intros g g1 mv g2 ZX G HS H. assert (W := zx_wf g ZX).
  destruct (add_edges_spec _ _ _ _ (gr_wf _ _ _ G) H) as [W2 [F [PH [SC [HV HE]]]]].
  assert (ND := grown_nd _ _ _ G).
  assert (NEW : forall w a c, In (w,[a;c]) mv -> In w (vertices g) /\ ~ In a (vertices g) /\ ~ In c (vertices g) /\ a <> c).
  { intros w a c Hm. split; [apply (gr_mv _ _ _ G _ _ Hm)|].
    split; [apply (grown_newv g g1 mv); auto; apply in_flat_map; exists (w,[a;c]); simpl; auto|].
    split; [apply (grown_newv g g1 mv); auto; apply in_flat_map; exists (w,[a;c]); simpl; auto|].
    intros ->. apply in_split in Hm. destruct Hm as [l1 [l2 ->]]. rewrite flat_map_app in ND. simpl in ND.
    apply nodup_app_inv in ND. destruct ND as [_ [ND _]]. inversion ND. subst. simpl in *. tauto. }
  assert (IN : forall u v, In (u,v) (flat_map bel mv) <-> (exists a, In (u,[a;v]) mv) \/ exists w, In (w,[u;v]) mv).
  { intros u v. rewrite in_flat_map. split.
    - intros [[w ns] [Y X]]. destruct (HS _ Y) as [a [c Ha]]. simpl in Ha. subst ns. simpl in X.
      destruct X as [X|[X|[]]]; injection X as <- <-; eauto.
    - intros [[a X]|[w X]]; eexists; (split; [exact X|]); simpl; auto. }
  assert (U : forall w a c w' a' c' z, In (w,[a;c]) mv -> In (w',[a';c']) mv -> (z = a \/ z = c) -> (z = a' \/ z = c') -> w = w' /\ a = a' /\ c = c').
  { intros w a c w' a' c' z X Y Z1 Z2.
    assert ((w,[a;c]) = (w',[a';c'])) by (apply (nodup_flat_uniq _ snd mv _ _ z ND); simpl; auto; intuition). injection H0 as <- <- <-. auto. }
  assert (E1 : forall u v, In u (vertices g) -> In v (vertices g) -> edge_type g2 u v = edge_type g u v).
  { intros u v Hu Hv. rewrite HE. destruct (existsb _ _) eqn:X; [|apply G]. apply hit_in in X. rewrite !IN in X. exfalso.
    destruct X as [[[a X]|[w X]]|[[a X]|[w X]]]; apply NEW in X; tauto. }
  assert (E2 : forall w a c u, In (w,[a;c]) mv -> edge_type g2 a u = if Nat.eqb u c then Some HADAMARD else None).
  { intros w a c u Hm. rewrite HE. destruct (NEW _ _ _ Hm) as [N1 [N2 [N3 N4]]]. destruct (existsb _ _) eqn:X.
    - apply hit_in in X. rewrite !IN in X. destruct X as [[[b X]|[w' X]]|[[b X]|[w' X]]].
      + exfalso. apply N2. apply (NEW _ _ _ X).
      + destruct (U _ _ _ _ _ _ a Hm X) as [<- [_ <-]]; auto. rewrite Nat.eqb_refl; auto.
      + destruct (U _ _ _ _ _ _ a Hm X) as [<- [-> ->]]; auto. congruence.
      + destruct (U _ _ _ _ _ _ a Hm X) as [<- [-> ->]]; auto. congruence.
    - destruct (Nat.eqb_spec u c) as [->|].
      + exfalso. rewrite <- not_true_iff_false, hit_in, !IN in X. apply X. eauto.
      + destruct (edge_type g1 a u) eqn:Y; auto. rewrite (gr_et _ _ _ G) in Y. exfalso. apply N2. apply (edge_in_l g a u e); auto. }
  assert (E3 : forall w a c u, In (w,[a;c]) mv -> edge_type g2 c u = if Nat.eqb u a || Nat.eqb u w then Some HADAMARD else None).
  { intros w a c u Hm. rewrite HE. destruct (NEW _ _ _ Hm) as [N1 [N2 [N3 N4]]]. destruct (existsb _ _) eqn:X.
    - apply hit_in in X. rewrite !IN in X. destruct X as [[[b X]|[w' X]]|[[b X]|[w' X]]].
      + exfalso. apply N3. apply (NEW _ _ _ X).
      + destruct (U _ _ _ _ _ _ c Hm X) as [<- [-> ->]]; auto. congruence.
      + destruct (U _ _ _ _ _ _ c Hm X) as [<- [_ _]]; auto. rewrite Nat.eqb_refl, orb_true_r; auto.
      + destruct (U _ _ _ _ _ _ c Hm X) as [_ [-> _]]; auto. rewrite Nat.eqb_refl; auto.
    - destruct (Nat.eqb_spec u a) as [->|]; [|destruct (Nat.eqb_spec u w) as [->|]].
      + exfalso. rewrite <- not_true_iff_false, hit_in, !IN in X. apply X. eauto.
      + exfalso. rewrite <- not_true_iff_false, hit_in, !IN in X. apply X. eauto.
      + simpl. destruct (edge_type g1 c u) eqn:Y; auto. rewrite (gr_et _ _ _ G) in Y. exfalso. apply N3. apply (edge_in_l g c u e); auto. }
  assert (NL2 : noloop g2).
  { intros v. rewrite HE. destruct (existsb _ _) eqn:X.
    - apply hit_in in X. rewrite !IN in X. exfalso. destruct X as [[[a X]|[w X]]|[[a X]|[w X]]]; assert (Y := X); apply NEW in X; intuition.
    - rewrite (gr_et _ _ _ G). apply ZX. }
  destruct (grow_sound g g1 mv g2) as [Z S]; auto.
  - eapply ForallOrdPairs_imp; [|apply FOP_nodup, (NoDup_map_inv fst), G]. intros [w ns] [w' ns'] Hm Hm' N u v Hu Hv.
    destruct (HS _ Hm) as [a [c Ha]], (HS _ Hm') as [a' [c' Hb]]. simpl in Ha, Hb. subst.
    assert (V : v = a' \/ v = c') by (simpl in Hv; intuition).
    assert (V1 : v <> a /\ v <> c).
    { split; intros X; assert (Y : v = a \/ v = c) by auto; destruct (U _ _ _ _ _ _ v Hm Hm' Y V) as [-> [-> ->]]; congruence. }
    assert (V2 : v <> w).
    { intros ->. destruct (NEW _ _ _ Hm) as [X1 _]. destruct (NEW _ _ _ Hm') as [_ [X2 [X3 _]]]. destruct V as [->| ->]; contradiction. }
    destruct V1 as [V1 V1']. apply Nat.eqb_neq in V1, V1', V2. simpl in Hu. destruct Hu as [<-|[<-|[]]].
    + rewrite (E2 _ _ _ _ Hm), V1'. auto.
    + rewrite (E3 _ _ _ _ Hm), V1, V2. auto.
  - intros w ns x Hm. destruct (HS _ Hm) as [a [c Ha]]. simpl in Ha. subst ns. destruct (NEW _ _ _ Hm) as [N1 [N2 [N3 N4]]].
    destruct (gr_mv _ _ _ G _ _ Hm) as [_ [Tw [_ [a' [l [M4 [M5 M6]]]]]]]. injection M4 as <- <-.
    assert (Ta : vty g2 a = ZSP).
    { rewrite (same_frame_vty g1) by auto. apply G. apply in_flat_map. exists (w,[a;c]); simpl; auto. }
    assert (Tc : vty g2 c = ZSP).
    { rewrite (same_frame_vty g1) by auto. apply G. apply in_flat_map. exists (w,[a;c]); simpl; auto. }
    assert (Tw2 : vty g2 w = ZSP) by (rewrite (same_frame_vty g1) by auto; rewrite (gr_ty _ _ _ G); auto).
    assert (Pa : phase g2 a = phase g w) by (unfold phase at 1; rewrite PH; exact M5).
    assert (Pc : phase g2 c = 0%Qc) by (unfold phase at 1; rewrite PH; apply (M6 c); simpl; auto).
    assert (LL : forall y, loc g2 [a;c] (vertices g) y = ephase (phase g w) (y a) * (sq2p (-1) * sgn (y a && y c)) * (sq2p (-1) * sgn (y c && y w))).
    { intros y. unfold loc. cbn [cprod pprod].
      rewrite (cprod_1 _ (fun v => ew g2 a v (y a) (y v))).
      2:{ intros v Hv. apply ew_none. rewrite (E2 _ _ _ _ Hm). destruct (Nat.eqb_spec v c); auto. subst; contradiction. }
      rewrite (cprod_nbrs g2 c (vertices g) [w] (fun v => ew g2 c v (y c) (y v))).
      - cbn [cprod]. unfold pw, ew, isB, isX. rewrite Ta, Tc, Tw2, Pa, Pc, (E2 w a c c Hm), (E3 w a c w Hm), !Nat.eqb_refl, orb_true_r. 
        cbn [vtype_eqb xorb tog option_map wt]. rewrite ephase_0. ring.
      - apply W.
      - constructor; [simpl; tauto|constructor].
      - intros u. rewrite (E3 _ _ _ _ Hm). simpl. destruct (Nat.eqb_spec u w).
        + subst. rewrite orb_true_r. intuition congruence.
        + destruct (Nat.eqb_spec u a); simpl; intuition congruence.
      - intros u Hu. apply ew_none; auto. }
    cbn [sumv]. rewrite !LL. rewrite !upd_same. rewrite !(upd_other _ c _ a), !upd_same by auto.
    rewrite !(upd_other _ c _ w), !(upd_other _ a _ w) by (intros ->; contradiction).
    assert (SS : sq2p (-1) * sq2p (-1) * (C1 + C1) = C1).
    { exact sq2p_m1_sq. }
    unfold ephase. destruct (x w); cbn [andb]; unfold sgn.
    + transitivity (sq2p (-1) * sq2p (-1) * (C1 + C1) * cexp (phase g w)); [ring|rewrite SS; ring].
    + transitivity (sq2p (-1) * sq2p (-1) * (C1 + C1)); [ring|rewrite SS; ring].
  - auto 10.
Qed.
