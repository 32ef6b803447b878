(** Soundness of spider fusion (whole step) and identity removal. *)
From Coq Require Import Reals ZArith QArith Qcanon List Bool Arith Lia Permutation Ring.
From Verif Require Import CNum Base ScalarModel ScalarProofs GraphModel GraphSem SumLemmas GraphProofs GraphOps RulesModel RuleLemmas SpiderProofs IsoProofs.
Import ListNotations.
Open Scope nat_scope.
Open Scope C_scope.

Theorem spider_step_matches : forall K P g ms o g', good K P -> zxok g -> allph P g ->
  (forall m, In m ms -> spider_ok g m) -> ForallOrdPairs (far g) ms ->
  spider ms g = Ok o -> apply_rw o = Ok g' -> step_k K g g' /\ allph P g'.
Proof.
  intros K P g ms o g' G ZX AP HO HF H E. eapply apply_rw_sound; eauto.
  intros g1 g2 g3 E1 E2 E3. apply (spider_core P g ms o g1 g2 g3); auto. apply G.
Qed.

Theorem spider_step : forall K P g cands num o g', good K P -> zxok g -> allph P g ->
  (forall e, In e cands -> In e (edges g)) ->
  spider (match_spider_parallel cands num g) g = Ok o -> apply_rw o = Ok g' -> step_k K g g' /\ allph P g'.
Proof.
  intros K P g cands num o g' G ZX AP HC H E.
  eapply spider_step_matches; eauto.
  - intros m Hm. apply match_spider_in in Hm. tauto.
  - apply match_spider_far; auto. apply zx_wf; auto.
Qed.

(** One summed vertex whose neighbours all remain. *)
Lemma loc_single : forall g v rest x, wfg g -> NoDup rest -> ~ In v rest -> noloop g ->
  (forall u, In u (neighbors g v) -> In u rest) ->
  sumv [v] (loc g [v] rest) x =
    pw g v false * cprod (fun u => ew g v u false (x u)) (neighbors g v)
  + pw g v true * cprod (fun u => ew g v u true (x u)) (neighbors g v).
Proof.
  intros g v rest x W N Nv NL Hr.
  assert (L : forall b, loc g [v] rest (upd x v b) = pw g v b *
     cprod (fun u => ew g v u b (x u)) (neighbors g v)).
  { intros b. unfold loc. simpl. rewrite upd_same.
    rewrite <- (cprod_nbrs g v rest (neighbors g v) (fun u => ew g v u b (x u))); auto.
    - rewrite (cprod_ext _ (fun u => ew g v u b (upd x v b u)) (fun u => ew g v u b (x u))).
      + ring.
      + intros a Ha. rewrite upd_other; auto. intros ->; auto.
    - apply neighbors_nd; auto.
    - intros u. rewrite neighbors_spec. split; [|tauto]. intros. split; auto. apply Hr. apply neighbors_spec; auto.
    - intros u Hv. apply ew_none; auto. }
  simpl sumv. rewrite !L. reflexivity.
Qed.

(** ** identity removal *)
Definition idm := (nat * nat * nat * etype)%type.
Definition idv (m : idm) : nat := fst (fst (fst m)).
Definition id_ok (g : graph) (m : idm) : Prop :=
  let '(v, v0, v1, et) := m in
  In v (vertices g) /\ phase g v = 0%Qc /\ vertex_is_zx (vty g v) = true /\ neighbors g v = [v0; v1] /\
  exists a b, edge_type g v v0 = Some a /\ edge_type g v v1 = Some b /\
  et = if etype_eqb a b then SIMPLE else HADAMARD.
Definition vfar (g : graph) (v w : nat) : Prop := v <> w /\ edge_type g v w = None.

Lemma match_ids_in : forall g num cands i disc m, (forall v, In v cands -> In v (vertices g)) ->
  In m (match_ids_loop g num i cands disc) -> In (idv m) cands /\ ~ In (idv m) disc /\ id_ok g m.
Proof.
  induction cands as [|c cands IH]; simpl; intros i disc m HC H; [contradiction|].
  destruct (lim_reached num i); [contradiction|].
  assert (D : forall j d, In m (match_ids_loop g num j cands d) ->
     (forall x, In x disc -> In x d) -> (c = idv m \/ In (idv m) cands) /\ ~ In (idv m) disc /\ id_ok g m).
  { intros j d Hj Hd. apply IH in Hj; auto. destruct Hj as [A [B Q]]. split; auto. }
  destruct (nmem c disc) eqn:M; [eapply D; eauto|].
  destruct (qeqb (phase g c) 0%Qc) eqn:Ph; simpl in H; [|eapply D; eauto].
  destruct (vertex_is_zx (vty g c)) eqn:Z; simpl in H; [|eapply D; eauto].
  destruct (neighbors g c) as [|v0 [|v1 [|v2 l]]] eqn:Nb; try (eapply D; eauto; fail).
  destruct H as [<-|H].
  - simpl. split; auto. split; [apply nmem_false; auto|]. split; [auto|]. split; [apply qeqb_eq; auto|].
    split; auto. split; auto.
    assert (A : edge_type g c v0 <> None) by (apply neighbors_spec; rewrite Nb; simpl; auto).
    assert (B : edge_type g c v1 <> None) by (apply neighbors_spec; rewrite Nb; simpl; auto).
    destruct (edge_type g c v0) as [a|]; [|congruence]. destruct (edge_type g c v1) as [b|]; [|congruence].
    exists a, b. repeat split.
  - eapply D; eauto. intros; apply in_app_iff; auto.
Qed.

Lemma match_ids_far : forall g num cands i disc, (forall v, In v cands -> In v (vertices g)) -> NoDup cands ->
  ForallOrdPairs (fun m m' => vfar g (idv m) (idv m')) (match_ids_loop g num i cands disc).
Proof.
  intros g num cands. induction cands as [|c cands IH]; simpl; intros i disc H ND; [constructor|].
  inversion ND; subst.
  destruct (lim_reached num i); [constructor|].
  destruct (nmem c disc); [apply IH; auto|].
  match goal with |- ForallOrdPairs _ (if ?b then _ else _) => destruct b end; [apply IH; auto|].
  destruct (neighbors g c) as [|v0 [|v1 [|v2 l]]] eqn:Nb; try (apply IH; auto; fail).
  constructor; [|apply IH; auto]. rewrite Forall_forall. intros m Hm.
  apply match_ids_in in Hm; auto. destruct Hm as [A [B _]]. unfold idv at 1; simpl. split.
  - intros ->. contradiction.
  - destruct (edge_type g c (idv m)) eqn:E; auto. exfalso. apply B. apply in_app_iff. right.
    rewrite <- Nb. apply neighbors_spec. congruence.
Qed.

Lemma wt_id : forall a b x y,
  wt (Some a) false x * wt (Some b) false y + wt (Some a) true x * wt (Some b) true y
  = wt (Some (if etype_eqb a b then SIMPLE else HADAMARD)) x y.
Proof.
  assert (S : sq2p (-1) * sq2p (-1) * (C1 + C1) = C1).
  { rewrite <- sq2p_2, <- !sq2p_add. reflexivity. }
  intros a b x y. destruct a, b, x, y; simpl; unfold dlt, sgn; simpl; try ring.
  all: etransitivity; [|exact S]; ring.
Qed.

Lemma ids_fold : forall g rest ms tab rem, tabL rest tab ->
  (forall v v0 v1 et, In (v,v0,v1,et) ms -> v0 <> v1 /\ In v0 rest /\ In v1 rest) ->
  exists tab', fold_left (fun (st : etab * list nat) m =>
      let '(tab, rem) := st in
      let '(v, v0, v1, et) := m in
      (etab_add (v0, v1) et tab, rem ++ [v])) ms (tab, rem) = (tab', rem ++ map idv ms) /\
    tabL rest tab' /\
    forall x, tabw g tab' x = tabw g tab x * cprod (fun m : idm => let '(v, v0, v1, et) := m in nw g et v0 v1 x) ms.
Proof.
  intros g rest ms. induction ms as [|[[[v v0] v1] et] ms IH]; intros tab rem T H; simpl.
  - exists tab. rewrite app_nil_r. split; auto. split; auto. intros; ring.
  - destruct (H v v0 v1 et (or_introl eq_refl)) as [A [B D]].
    destruct (IH (etab_add (v0,v1) et tab) (rem ++ [v])) as [tab' [E1 [E2 E3]]].
    + apply tabL_add; auto.
    + intros; eapply H; simpl; eauto.
    + exists tab'. rewrite E1, <- app_assoc. split; auto. split; auto.
      intros x. rewrite E3, tabw_add by apply T. ring.
Qed.

Theorem ids_core : forall P g ms o g1 g2 g3, pcl P -> zxok g -> allph P g ->
  (forall m, In m ms -> id_ok g m) -> ForallOrdPairs (fun m m' => vfar g (idv m) (idv m')) ms ->
  remove_ids ms g = Ok o ->
  add_edge_table (rw_etab o) (rw_graph o) = Ok g1 -> remove_edges (rw_edges o) g1 = Ok g2 ->
  remove_vertices (rw_verts o) g2 = Ok g3 -> step_ok g g3 /\ allph P g3.
Proof.
  intros P g ms o g1 g2 g3 PC ZX AP HO HF H E1 E2 E3.
  assert (W := zx_wf g ZX). assert (NL := zx_noloop g ZX).
  set (rem := map idv ms).
  assert (NR : NoDup rem).
  { apply nodup_map_fop with (R := fun m m' => vfar g (idv m) (idv m')); auto. intros a b _ _ F. apply F. }
  assert (KR : forall m u, In m ms -> In u (neighbors g (idv m)) -> In u (keep rem g)).
  { intros m u Hm Hu. apply in_keep. split; [eapply neighbors_in; eauto|]. intros X.
    apply neighbors_spec in Hu. apply in_map_iff in X. destruct X as [m' [X1 X2]]. subst u.
    destruct (FOP_in _ _ _ m m' HF Hm X2) as [<-|[F|F]].
    - rewrite NL in Hu. congruence.
    - destruct F. contradiction.
    - destruct F as [_ F]. rewrite (wf_sym g W) in F. contradiction. }
  assert (RB : forall v, In v rem -> In v (vertices g) /\ isB g v = false).
  { intros v Hv. apply in_map_iff in Hv. destruct Hv as [[[[v' v0] v1] et] [<- Hm]].
    destruct (HO _ Hm) as [A [_ [B _]]]. unfold idv; simpl. split; auto.
    unfold isB. destruct (vty g v'); auto; discriminate. }
  destruct (ids_fold g (keep rem g) ms [] []) as [tab' [X1 [X2 X3]]]; [apply tabL_nil| |].
  { intros v v0 v1 et Hm. destruct (HO _ Hm) as [_ [_ [_ [A _]]]].
    assert (N := neighbors_nd g v W). rewrite A in N. inversion N; subst. split.
    - intros ->. simpl in *; tauto.
    - split; apply (KR (v,v0,v1,et)); auto; unfold idv; simpl; rewrite A; simpl; auto. }
  unfold remove_ids in H. rewrite X1 in H. injection H as <-. simpl in E1, E2, E3. injection E2 as <-.
  simpl in X1. fold rem in X1, E3.
  split.
  - apply (batch_sound g rem g tab' g1 g3); auto.
    + apply same_frame_refl.
    + exact (zx_ph g ZX).
    + intros x. rewrite X3. unfold rem at 1 2. rewrite <- flat_map_single. rewrite batch_sum.
      * rewrite (cprod_ext _ (fun m => sumv [idv m] (loc g [idv m] (keep rem g)) x)
           (fun m : idm => let '(v, v0, v1, et) := m in nw g et v0 v1 x) ms); [unfold tabw; cbn [cprod map]; ring|].
        intros m Hm. rewrite loc_single; auto.
        -- assert (M := HO m Hm). destruct m as [[[v v0] v1] et]. unfold idv; cbn [fst].
           destruct M as [M1 [M2 [M3 [M4 [a [b [M5 [M6 M7]]]]]]]].
           destruct (RB v) as [_ Bv]; [apply in_map_iff; exists (v,v0,v1,et); auto|].
           unfold pw. rewrite Bv, M2, M4. cbn [cprod]. unfold ephase. rewrite cexp_0.
           unfold ew. rewrite M5, M6. cbn [option_map]. rewrite !Cmult_1_l, !Cmult_1_r, wt_id.
           unfold nw. f_equal. f_equal. subst et.
           destruct (isX g v), (isX g v0), (isX g v1), a, b; reflexivity.
        -- apply keep_nd; auto.
        -- rewrite in_keep. intros [_ Y]. apply Y. apply in_map_iff. eauto.
        -- intros u Hu. eapply KR; eauto.
      * rewrite flat_map_single. fold rem. apply nodup_app; auto; [apply keep_nd; auto|].
        intros v Hv Hk. apply in_keep in Hk. tauto.
      * eapply ForallOrdPairs_imp; [|exact HF]. intros a b _ _ F u w [<-|[]] [<-|[]]. apply F.
  - exact (batch_allph P _ rem tab' g g1 g3 PC (keep_nd rem g W) W AP X2 E1 E3).
Qed.

Theorem ids_step_matches : forall K P g ms o g', good K P -> zxok g -> allph P g ->
  (forall m, In m ms -> id_ok g m) -> ForallOrdPairs (fun m m' => vfar g (idv m) (idv m')) ms ->
  remove_ids ms g = Ok o -> apply_rw o = Ok g' -> step_k K g g' /\ allph P g'.
Proof.
  intros K P g ms o g' G ZX AP HO HF H E. eapply apply_rw_sound; eauto.
  intros g1 g2 g3 E1 E2 E3. apply (ids_core P g ms o g1 g2 g3); auto. apply G.
Qed.
Theorem ids_step : forall K P g cands num o g', good K P -> zxok g -> allph P g ->
  (forall v, In v cands -> In v (vertices g)) -> NoDup cands ->
  remove_ids (match_ids_parallel cands num g) g = Ok o -> apply_rw o = Ok g' -> step_k K g g' /\ allph P g'.
Proof.
  intros K P g cands num o g' G ZX AP HC ND H E.
  eapply ids_step_matches; eauto.
  - intros m Hm. apply match_ids_in in Hm; tauto.
  - apply match_ids_far; auto.
Qed.
