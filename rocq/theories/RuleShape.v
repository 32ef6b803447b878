(** The outcome of a rewrite on valid, pairwise non-interacting matches: no
    exception, the graph store unchanged up to phases and scalar, an edge table
    over the surviving vertices, and the list of removed vertices. *)
From Coq Require Import Reals ZArith QArith Qcanon List Bool Arith Lia Permutation.
From Verif Require Import CNum Base ScalarModel ScalarProofs GraphModel GraphSem SumLemmas GraphProofs GraphOps
  RulesModel RuleLemmas SpiderProofs IsoProofs IdProofs LcompProofs PivotProofs GrowProofs PivotMatch GadgetProofs
  SimpModel ColorProofs SimpProofs.
Import ListNotations.
Open Scope nat_scope.

Record shape (g : graph) (rem : list nat) (o : rwout) : Prop := mkShape {
  sh_wf : wfg (rw_graph o);
  sh_fr : same_frame g (rw_graph o);
  sh_adj : gadj (rw_graph o) = gadj g;
  sh_tab : tabL (keep rem g) (rw_etab o);
  sh_rem : rw_verts o = rem;
  sh_nd : NoDup rem;
  sh_in : forall v, In v rem -> In v (vertices g) /\ vty g v <> BOUNDARY;
  sh_edges : forall s t, In (s, t) (rw_edges o) -> s <> t /\ (In s rem \/ In t rem)
}.

Section S.
Local Ltac pre := intros g ms ZX HO HF; assert (W := zx_wf g ZX); assert (NL := zx_noloop g ZX).

Theorem spider_shape : forall g ms, zxok g -> (forall m, In m ms -> spider_ok g m) -> ForallOrdPairs (far g) ms ->
  exists o, spider ms g = Ok o /\ shape g (map (fun m => snd (sk g m)) ms) o.
Proof.
  pre.
  set (rem := map (fun m => snd (sk g m)) ms).
  assert (HS : forall m, In m ms -> spider_ok g (sk g m)) by (intros; apply spider_ok_sk; auto).
  assert (EI : forall m, In m ms -> In (fst (sk g m)) (vertices g) /\ In (snd (sk g m)) (vertices g)).
  { intros m Hm. destruct (HS m Hm) as [_ [X _]].
    split; [apply (edge_type_in_l g (fst (sk g m)) (snd (sk g m)))|apply (edge_type_in_l g (snd (sk g m)) (fst (sk g m)))]; auto; [congruence|].
    rewrite (wf_sym g W). congruence. }
  assert (HF' : forall m m', In m ms -> In m' ms -> m = m' \/ far g (sk g m) (sk g m') \/ far g (sk g m') (sk g m)).
  { intros m m' Hm Hm'. destruct (FOP_in _ _ _ m m' HF Hm Hm') as [?|[?|?]]; auto using far_sk. }
  assert (NR : NoDup rem).
  { apply nodup_map_fop with (R := far g); auto. intros a b _ _ F.
    apply (far_sk g a b F); auto. }
  assert (KR : forall m, In m ms -> ~ In (fst (sk g m)) rem /\ forall u, In u (neighbors g (snd (sk g m))) -> ~ In u rem).
  { intros m Hm. split.
    - intros X. apply in_map_iff in X. destruct X as [m' [X1 X2]].
      destruct (HF' m m' Hm X2) as [<-|[F|F]].
      + destruct (HS m Hm) as [Y _]. congruence.
      + destruct (F (fst (sk g m)) (snd (sk g m'))); auto.
      + destruct (F (snd (sk g m')) (fst (sk g m))); auto.
    - intros u Hu X. apply neighbors_spec in Hu. apply in_map_iff in X. destruct X as [m' [X1 X2]]. subst u.
      destruct (HF' m m' Hm X2) as [<-|[F|F]].
      + rewrite NL in Hu. congruence.
      + destruct (F (snd (sk g m)) (snd (sk g m'))); auto.
      + destruct (F (snd (sk g m')) (snd (sk g m))) as [_ Y]; auto. rewrite (wf_sym g W) in Y. auto. }
  destruct (spider_fold g (keep rem g) ms W NL (keep_nd rem g W) HO HF) with (g1 := g) (tab := @nil (edge * (nat * nat))) (rem := @nil nat)
    as [g' [tab' [X1 [X2 [X3 [X4 [X5 [X6 X7]]]]]]]]; auto.
  { intros m Hm. destruct (KR m Hm) as [K1 K2]. destruct (EI m Hm) as [V1 V2].
    split; [apply in_keep; auto|]. split; auto. intros u Hu. apply in_keep. split; [|auto].
    apply (neighbors_in g (snd (sk g m))); auto. }
  { apply same_frame_refl. }
  { apply tabL_nil. }
  unfold spider. rewrite X1. cbn [bind]. eexists. split; [reflexivity|]. fold rem. constructor; cbn [rw_graph rw_etab rw_verts rw_edges]; auto.
  - intros v Hv. apply in_map_iff in Hv. destruct Hv as [m [<- Hm]]. split; [apply EI; auto|].
    destruct (HS m Hm) as [_ [_ [X Y]]]. intros Z. rewrite X, Z in Y. discriminate.
  - intros s t [].
Qed.

Theorem ids_shape : forall g ms, zxok g -> (forall m, In m ms -> id_ok g m) ->
  ForallOrdPairs (fun m m' => vfar g (idv m) (idv m')) ms ->
  exists o, remove_ids ms g = Ok o /\ shape g (map idv ms) o.
Proof.
  pre.
  set (rem := map idv ms).
  assert (NR : NoDup rem).
  { apply nodup_map_fop with (R := fun m m' => vfar g (idv m) (idv m')); auto. intros a b _ _ F. apply F. }
  assert (KR : forall m u, In m ms -> In u (neighbors g (idv m)) -> In u (keep rem g)).
  { intros m u Hm Hu. apply in_keep. split; [eapply neighbors_in; eauto|]. intros X.
    apply neighbors_spec in Hu. apply in_map_iff in X. destruct X as [m' [X1 X2]]. subst u.
    destruct (FOP_in _ _ _ m m' HF Hm X2) as [<-|[F|F]].
    - rewrite NL in Hu. congruence.
    - destruct F. contradiction.
    - destruct F as [_ F]. rewrite (wf_sym g W) in F. contradiction. }
  destruct (ids_fold g (keep rem g) ms [] []) as [tab' [X1 [X2 X3]]]; [apply tabL_nil| |].
  { intros v v0 v1 et Hm. destruct (HO _ Hm) as [_ [_ [_ [A _]]]].
    assert (N := neighbors_nd g v W). rewrite A in N. inversion N; subst. split.
    - intros ->. simpl in *; tauto.
    - split; apply (KR (v,v0,v1,et)); auto; unfold idv; simpl; rewrite A; simpl; auto. }
  unfold remove_ids. rewrite X1. eexists. split; [reflexivity|]. fold rem. constructor; cbn [rw_graph rw_etab rw_verts rw_edges]; auto.
  - apply same_frame_refl.
  - intros v Hv. apply in_map_iff in Hv. destruct Hv as [[[[v' v0] v1] et] [<- Hm]].
    destruct (HO _ Hm) as [A [_ [B _]]]. unfold idv; simpl. split; auto.
    destruct (vty g v'); auto; discriminate.
  - intros s t [].
Qed.

Theorem lcomp_shape : forall g ms, zxok g -> (forall m, In m ms -> lc_ok g m) ->
  ForallOrdPairs (fun m m' => vfar g (fst m) (fst m')) ms ->
  exists o, lcomp ms g = Ok o /\ shape g (map fst ms) o.
Proof.
  pre.
  set (rem := map fst ms).
  assert (NR : NoDup rem).
  { apply nodup_map_fop with (R := fun m m' => vfar g (fst m) (fst m')); auto. intros a b _ _ F. apply F. }
  assert (KR : forall m u, In m ms -> In u (neighbors g (fst m)) -> In u (keep rem g)).
  { intros m u Hm Hu. apply in_keep. split; [eapply neighbors_in; eauto|]. intros X.
    apply neighbors_spec in Hu. apply in_map_iff in X. destruct X as [m' [X1 X2]]. subst u.
    destruct (FOP_in _ _ _ m m' HF Hm X2) as [<-|[F|F]].
    - rewrite NL in Hu. congruence.
    - destruct F. contradiction.
    - destruct F as [_ F]. rewrite (wf_sym g W) in F. contradiction. }
  destruct (lcomp_fold g (keep rem g) ms W NL (keep_nd rem g W) HO HF KR g [] []) as [g' [tab' [X1 [X2 [X3 [X4 [X5 [X6 X7]]]]]]]]; auto.
  { apply same_frame_refl. }
  { apply tabL_nil. }
  { intros e. reflexivity. }
  unfold lcomp. rewrite X1. eexists. split; [reflexivity|]. fold rem. constructor; cbn [rw_graph rw_etab rw_verts rw_edges]; auto.
  - intros v Hv. apply in_map_iff in Hv. destruct Hv as [[v' vn] [<- Hm]].
    destruct (HO _ Hm) as [A [B _]]. simpl. split; auto. rewrite B. discriminate.
  - intros s t [].
Qed.

Theorem pivot_shape : forall so g ms, so_ok so -> zxok g -> (forall m, In m ms -> pv_ok g m) -> ForallOrdPairs (pv_far g) ms ->
  exists o, pivot so ms g = Ok o /\ shape g (flat_map pv_rem ms) o /\ rw_edges o = flat_map pv_reme ms.
Proof.
  intros so g ms SO ZX HO HF; assert (W := zx_wf g ZX); assert (NL := zx_noloop g ZX).
  set (A := flat_map pv_vs ms). set (rem := flat_map pv_rem ms). set (kp := flat_map pv_kp ms).
  set (core := keep A g). set (L := keep rem g).
  assert (PP : forall m, In m ms -> Permutation (pv_vs m) (pv_rem m ++ pv_kp m)).
  { intros [[v0 v1] [b0 b1]] _. unfold pv_vs. cbn [fst snd pv_rem pv_kp].
    destruct b0, b1; cbn [app]; try apply Permutation_refl; apply perm_swap. }
  assert (VS : forall m v, In v (pv_vs m) <-> v = fst (fst m) \/ v = snd (fst m)).
  { intros m v. unfold pv_vs. simpl. intuition. }
  assert (NDA : NoDup A).
  { apply nodup_flat_map with (R := pv_far g); auto.
    - intros [[v0 v1] bb] Hm. specialize (HO _ Hm). destruct bb. destruct HO as [X _]. unfold pv_vs. simpl.
      constructor; [|constructor; [simpl; tauto|constructor]]. simpl. intuition.
    - intros a b u _ _ F Ha Hb. apply VS in Ha, Hb. destruct (F u u Ha Hb) as [X _]. congruence. }
  assert (PA : Permutation A (rem ++ kp)).
  { eapply perm_trans; [apply flat_map_perm_ext; exact PP|]. apply flat_map_app_perm. }
  assert (IA : forall v, In v A <-> In v rem \/ In v kp).
  { intros v. rewrite <- in_app_iff. split; apply Permutation_in; [|apply Permutation_sym]; auto. }
  assert (NRK : NoDup (rem ++ kp)) by (eapply Permutation_NoDup; eauto).
  destruct (nodup_app_inv _ _ _ NRK) as [NR [NK DRK]].
  assert (AV : forall v, In v A -> In v (vertices g) /\ vty g v <> BOUNDARY).
  { intros v Hv. apply in_flat_map in Hv. destruct Hv as [[[v0 v1] [b0 b1]] [Hm Hv]].
    destruct (HO _ Hm) as [_ [T0 [T1 [E _]]]]. apply VS in Hv. cbn [fst snd] in Hv. destruct Hv as [->| ->].
    - split; [apply (edge_type_in_l g v0 v1); congruence|congruence].
    - split; [apply (edge_type_in_l g v1 v0); rewrite (wf_sym g W); congruence|congruence]. }
  assert (CL : forall u, In u core -> In u L).
  { intros u Hu. apply in_keep in Hu. apply in_keep. rewrite IA in Hu. tauto. }
  assert (FF : forall m m' v u, In m ms -> In m' ms -> In v (pv_vs m) -> In u (pv_vs m') -> edge_type g v u <> None -> In u (pv_vs m)).
  { intros m m' v u Hm Hm' Hv Hu E. destruct (FOP_in _ _ _ m m' HF Hm Hm') as [<-|[F|F]]; auto.
    - apply VS in Hv, Hu. destruct (F v u Hv Hu) as [_ X]. contradiction.
    - apply VS in Hv, Hu. destruct (F u v Hu Hv) as [_ X]. rewrite (wf_sym g W) in X. contradiction. }
  assert (HM : forall m, In m ms -> pv_ok g m /\ (forall v, In v (pv_vs m) -> ~ In v core) /\
    (forall v u, In v (pv_vs m) -> In u (neighbors g v) -> ~ In u (pv_vs m) -> In u core) /\
    (forall v, In v (pv_kp m) -> In v L)).
  { intros m Hm. split; [auto|]. split; [|split].
    - intros v Hv X. apply in_keep in X. apply X. apply in_flat_map. eauto.
    - intros v u Hv Hu Hn. apply in_keep. split; [apply (neighbors_in g v); auto|].
      intros X. apply in_flat_map in X. destruct X as [m' [Hm' X]]. apply Hn. apply (FF m m' v u); auto. apply neighbors_spec; auto.
    - intros v Hv. assert (K : In v kp) by (apply in_flat_map; eauto). apply in_keep. split; [apply AV, IA; auto|].
      intros X. apply (DRK v); auto. }
  destruct (pivot_fold so g core L ms SO W NL (keep_nd A g W) (keep_nd rem g W) CL HM g [] [] []) as
    [g' [tab' [X1 [X2 [X3 [X4 [X5 [X6 [X7 X8]]]]]]]]]; auto.
  { apply same_frame_refl. }
  { apply tabL_nil. }
  unfold pivot. rewrite X1. cbn [bind]. eexists. split; [reflexivity|]. cbn [app]. fold rem. split; [|reflexivity].
  constructor; cbn [rw_graph rw_etab rw_verts rw_edges]; auto.
  - intros v Hv. apply AV, IA. auto.
  - intros s t Hst. apply in_flat_map in Hst. destruct Hst as [m [Hm Hst]].
    assert (Hr : forall v, In v (pv_rem m) -> In v rem) by (intros; apply in_flat_map; eauto).
    destruct m as [[v0 v1] [b0 b1]]. destruct (HO _ Hm) as [_ [_ [_ [_ [_ [_ [[S0 _] [[S1 _] S9]]]]]]]].
    destruct S9 as [->| ->].
    + destruct S1 as [->|[u [-> [Y1 [Y2 Y3]]]]]; [destruct Hst|]. cbn [pv_reme pv_rem] in *. destruct Hst as [Hst|[]].
      assert (v1 <> u) by (intros ->; rewrite NL in Y2; auto).
      unfold mkedge in Hst. destruct (Nat.ltb _ _); injection Hst as <- <-; split; auto; [left|right]; apply Hr; simpl; auto.
    + destruct S0 as [->|[u [-> [Y1 [Y2 Y3]]]]]; [destruct Hst|]. cbn [pv_reme pv_rem] in *. destruct Hst as [Hst|[]].
      assert (v0 <> u) by (intros ->; rewrite NL in Y2; auto).
      unfold mkedge in Hst. destruct (Nat.ltb _ _); injection Hst as <- <-; split; auto; [left|right]; apply Hr; simpl; auto.
Qed.
End S.
