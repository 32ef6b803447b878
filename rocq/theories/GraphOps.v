(** Removing vertices, adding edge tables, and the generic soundness argument
    for a batch of rewrites. *)
From Coq Require Import Reals ZArith QArith Qcanon List Bool Arith Lia Permutation Ring.
From Verif Require Import CNum Base ScalarModel ScalarProofs GraphModel GraphSem SumLemmas GraphProofs.
Import ListNotations.
Open Scope C_scope.

Definition mem (v : nat) (l : list nat) : bool := existsb (Nat.eqb v) l.
Lemma mem_spec : forall v l, mem v l = true <-> In v l.
Proof.
  intros. unfold mem. rewrite existsb_exists. split.
  - intros [y [H E]]. apply Nat.eqb_eq in E. subst; auto.
  - intros. exists v. rewrite Nat.eqb_refl. auto.
Qed.
Lemma mem_false : forall v l, mem v l = false <-> ~ In v l.
Proof. intros. rewrite <- mem_spec. destruct (mem v l); split; congruence. Qed.

Lemma remove_edge_ss : forall s g g', wfg g -> remove_edge s s g <> Ok g'.
Proof.
  intros s g g' W H. unfold remove_edge in H. inv_bind H. inv_bind H.
  destruct (adj_del_spec _ _ _ _ (wf_inner g W) E) as [_ [_ [_ [N A]]]].
  destruct (adj_del_spec _ _ _ _ N E0) as [_ [X _]].
  apply X. rewrite A, Nat.eqb_refl. reflexivity.
Qed.

Lemma remove_nbrs_spec : forall v vs g g1, wfg g ->
  foldM (fun g v1 =>
      let* a1 := adj_del v v1 (gadj g) in
      let* a2 := adj_del v1 v a1 in
      Ok (with_adj a2 (with_nedges (gnedges g - 1)%Z g))) vs g = Ok g1 ->
  wfg g1 /\ same_frame g g1 /\ gphase g1 = gphase g /\ gscalar g1 = gscalar g /\
  forall u w, edge_type g1 u w =
    if (Nat.eqb u v && mem w vs) || (Nat.eqb w v && mem u vs) then None else edge_type g u w.
Proof.
  induction vs as [|a vs IH]; intros g g1 W H; simpl in H.
  - inversion H; subst. split; [auto|]. split; [apply same_frame_refl|]. split; [auto|]. split; [auto|].
    intros. simpl. rewrite !andb_false_r. reflexivity.
  - apply bind_ok in H. destruct H as [g0 [E0 H]].
    change (remove_edge v a g = Ok g0) in E0.
    destruct (Nat.eq_dec v a) as [->|Hne]; [exfalso; eapply remove_edge_ss; eauto|].
    destruct (remove_edge_spec _ _ _ _ W Hne E0) as [W0 [F0 [P0 [S0 [_ [_ [_ T0]]]]]]].
    destruct (IH g0 g1 W0 H) as [W1 [F1 [P1 [S1 T1]]]].
    split; [auto|]. split; [eapply same_frame_trans; eauto|]. split; [congruence|]. split; [congruence|].
    intros. rewrite T1, T0. unfold pair_hit. simpl.
    destruct (Nat.eqb_spec u v), (Nat.eqb_spec w a), (Nat.eqb_spec w v), (Nat.eqb_spec u a); subst; simpl;
      try congruence; auto;
      repeat rewrite ?orb_true_r, ?orb_false_r; auto; destruct (mem _ vs); auto; destruct (mem _ vs); auto.
Qed.

(** everything observable about removing the vertices vs *)
Record removed (vs : list nat) (g g' : graph) : Prop := mkremoved {
  rm_wf : wfg g';
  rm_vs : vertices g' = filter (fun u => negb (mem u vs)) (vertices g);
  rm_edge : forall u w, edge_type g' u w = if mem u vs || mem w vs then None else edge_type g u w;
  rm_ty : forall u, ~ In u vs -> vty g' u = vty g u;
  rm_phase : forall u, ~ In u vs -> phase g' u = phase g u;
  rm_row : forall u, ~ In u vs -> row g' u = row g u;
  rm_qubit : forall u, ~ In u vs -> qubit g' u = qubit g u;
  rm_scalar : gscalar g' = gscalar g;
  rm_inputs : ginputs g' = filter (fun u => negb (mem u vs)) (ginputs g);
  rm_outputs : goutputs g' = filter (fun u => negb (mem u vs)) (goutputs g);
  rm_in : forall v, In v vs -> In v (vertices g)
}.

Lemma filter_true : forall A (f : A -> bool) l, (forall a, In a l -> f a = true) -> filter f l = l.
Proof. induction l; simpl; intros; auto. rewrite H by auto. f_equal; auto. Qed.
Lemma filter_filter : forall A (f h : A -> bool) l, filter f (filter h l) = filter (fun a => h a && f a) l.
Proof. induction l; simpl; auto. destruct (h a); simpl; [destruct (f a)|]; rewrite IHl; reflexivity. Qed.

Lemma remove_one_vertex_spec : forall v g g', wfg g -> remove_one_vertex v g = Ok g' -> removed [v] g g'.
Proof.
  intros v g g' W H. unfold remove_one_vertex in H. inv_bind H. rename a into vs.
  apply neighbors_r_inv in E. destruct E as [Hv ->].
  apply bind_ok in H. destruct H as [g1 [E1 H]].
  destruct (remove_nbrs_spec v _ _ _ W E1) as [W1 [F1 [P1 [S1 T1]]]].
  destruct (negb (dmem v (gty g1))) eqn:Ety; [discriminate|].
  destruct (negb (dmem v (gphase g1))) eqn:Eph; [discriminate|].
  inversion H; subst g'; clear H.
  assert (vertices g1 = vertices g) as HV by apply F1.
  assert (NoDup (dkeys (gadj g1))) as ND by apply (wf_nd g1 W1).
  assert (forall u w, (if Nat.eqb u v then None else edge_type g1 u w) = if mem u [v] || mem w [v] then None else edge_type g u w) as HE.
  { intros u w. unfold mem; simpl. rewrite !orb_false_r. destruct (Nat.eqb_spec u v); simpl; auto.
    rewrite T1. apply Nat.eqb_neq in n. rewrite n. simpl.
    destruct (Nat.eqb_spec w v); simpl; auto. subst.
    destruct (mem u (neighbors g v)) eqn:Em; auto.
    apply mem_false in Em. rewrite neighbors_spec in Em. rewrite (wf_sym g W u v). destruct (edge_type g v u); auto.
    exfalso; apply Em; discriminate. }
  match goal with |- removed _ _ ?G => set (g' := G) end.
  assert (forall u w, edge_type g' u w = if Nat.eqb u v then None else edge_type g1 u w) as HE1.
  { intros. unfold edge_type, g'; simpl. rewrite dget_ddel by auto. destruct (Nat.eqb u v); reflexivity. }
  assert (vertices g' = filter (fun u => negb (mem u [v])) (vertices g)) as HVs.
  { rewrite <- HV. unfold vertices, g'; simpl. rewrite dkeys_ddel by auto. apply filter_ext.
    intros. rewrite orb_false_r, Nat.eqb_sym. reflexivity. }
  assert (forall u, In u (vertices g') <-> u <> v /\ In u (vertices g)) as HVin.
  { intros. rewrite HVs, filter_In. simpl. rewrite orb_false_r, negb_true_iff, Nat.eqb_neq. tauto. }
  constructor; auto.
  - constructor.
    + rewrite HVs. apply NoDup_filter, W.
    + intros u d Hd. unfold g' in Hd; simpl in Hd. rewrite dget_ddel in Hd by auto.
      destruct (Nat.eqb u v); [discriminate|]. eapply (wf_inner g1); eauto.
    + intros. rewrite !HE1, !HE, (wf_sym g W u v0). rewrite orb_comm. reflexivity.
    + intros u. rewrite HVin. unfold g'; simpl. rewrite dkeys_ddel by apply (wf_ndty g1 W1).
      rewrite filter_In, (wf_ty g1 W1), HV, negb_true_iff, Nat.eqb_neq. intuition.
    + unfold g'; simpl. apply nodup_ddel, (wf_ndty g1 W1).
    + intros u. rewrite HVin. unfold g'; simpl. rewrite dkeys_ddel by apply (wf_ndph g1 W1).
      rewrite filter_In, (wf_ph g1 W1), HV, negb_true_iff, Nat.eqb_neq. intuition.
    + unfold g'; simpl. apply nodup_ddel, (wf_ndph g1 W1).
    + intros u Hu. apply HVin in Hu. apply (wf_fresh g1 W1). rewrite HV. tauto.
  - intros. rewrite HE1. apply HE.
  - intros u Hu. simpl in Hu. unfold vty, g'; simpl. rewrite dget_ddel_neq by (intro; subst; tauto).
    destruct F1 as [_ [-> _]]. reflexivity.
  - intros u Hu. simpl in Hu. unfold phase, g'; simpl. rewrite dget_ddel_neq by (intro; subst; tauto).
    rewrite P1. reflexivity.
  - intros u Hu. simpl in Hu. unfold row, g'; simpl. rewrite dget_ddel_neq by (intro; subst; tauto).
    destruct F1 as [_ [_ [_ [_ [_ [_ ->]]]]]]. reflexivity.
  - intros u Hu. simpl in Hu. unfold qubit, g'; simpl. rewrite dget_ddel_neq by (intro; subst; tauto).
    destruct F1 as [_ [_ [_ [_ [_ [-> _]]]]]]. reflexivity.
  - unfold g'; simpl. destruct F1 as [_ [_ [-> _]]]. apply filter_ext. intros; rewrite orb_false_r; reflexivity.
  - unfold g'; simpl. destruct F1 as [_ [_ [_ [-> _]]]]. apply filter_ext. intros; rewrite orb_false_r; reflexivity.
  - intros u [->|[]]. auto.
Qed.

Lemma removed_trans : forall vs ws g g1 g2, removed vs g g1 -> removed ws g1 g2 -> removed (vs ++ ws) g g2.
Proof.
  intros vs ws g g1 g2 R1 R2.
  assert (forall u, mem u (vs ++ ws) = mem u vs || mem u ws) as HM.
  { intros. unfold mem. apply existsb_app. }
  constructor.
  - apply R2.
  - rewrite (rm_vs _ _ _ R2), (rm_vs _ _ _ R1), filter_filter. apply filter_ext. intros. rewrite HM, negb_orb. reflexivity.
  - intros. rewrite (rm_edge _ _ _ R2), (rm_edge _ _ _ R1), !HM.
    destruct (mem u vs), (mem w vs), (mem u ws), (mem w ws); reflexivity.
  - intros u Hu. rewrite in_app_iff in Hu. rewrite (rm_ty _ _ _ R2), (rm_ty _ _ _ R1); tauto.
  - intros u Hu. rewrite in_app_iff in Hu. rewrite (rm_phase _ _ _ R2), (rm_phase _ _ _ R1); tauto.
  - intros u Hu. rewrite in_app_iff in Hu. rewrite (rm_row _ _ _ R2), (rm_row _ _ _ R1); tauto.
  - intros u Hu. rewrite in_app_iff in Hu. rewrite (rm_qubit _ _ _ R2), (rm_qubit _ _ _ R1); tauto.
  - rewrite (rm_scalar _ _ _ R2), (rm_scalar _ _ _ R1). reflexivity.
  - rewrite (rm_inputs _ _ _ R2), (rm_inputs _ _ _ R1), filter_filter. apply filter_ext. intros. rewrite HM, negb_orb. reflexivity.
  - rewrite (rm_outputs _ _ _ R2), (rm_outputs _ _ _ R1), filter_filter. apply filter_ext. intros. rewrite HM, negb_orb. reflexivity.
  - intros v Hv. apply in_app_iff in Hv. destruct Hv as [Hv|Hv]; [apply (rm_in _ _ _ R1); auto|].
    apply (rm_in _ _ _ R2) in Hv. rewrite (rm_vs _ _ _ R1), filter_In in Hv. tauto.
Qed.

Lemma removed_nil : forall g, wfg g -> removed [] g g.
Proof.
  intros g W. constructor; auto; try (symmetry; apply filter_true; reflexivity). intros v [].
Qed.

Lemma remove_fold_spec : forall vs g g', wfg g ->
  foldM (fun g v => remove_one_vertex v g) vs g = Ok g' -> removed vs g g'.
Proof.
  induction vs as [|v vs IH]; intros g g' W H; simpl in H.
  - inversion H; subst. apply removed_nil; auto.
  - apply bind_ok in H. destruct H as [g1 [E1 H]].
    pose proof (remove_one_vertex_spec v g g1 W E1) as R1.
    change (v :: vs) with ([v] ++ vs). eapply removed_trans; eauto. apply IH; auto. apply R1.
Qed.

Lemma list_max_ge : forall l v, In v l -> (v <= list_max l)%nat.
Proof.
  intros. pose proof (proj1 (list_max_le l (list_max l)) (le_n _)) as F.
  rewrite Forall_forall in F. auto.
Qed.

Lemma remove_vertices_spec : forall vs g g', wfg g -> remove_vertices vs g = Ok g' -> removed vs g g'.
Proof.
  intros vs g g' W H. unfold remove_vertices in H. apply bind_ok in H. destruct H as [g1 [E1 H]].
  inversion H; subst; clear H. pose proof (remove_fold_spec vs g g1 W E1) as R.
  constructor; try apply R. destruct (rm_wf _ _ _ R). constructor; auto.
  intros v Hv. simpl in *. pose proof (list_max_ge _ _ Hv). unfold vertices in *; simpl in *. lia.
Qed.

(** ** Progress of removal *)
Lemma remove_nbrs_ok : forall v vs g, wfg g -> NoDup vs -> ~ In v vs -> (forall w, In w vs -> edge_type g v w <> None) ->
  exists g1, foldM (fun g v1 =>
      let* a1 := adj_del v v1 (gadj g) in
      let* a2 := adj_del v1 v a1 in
      Ok (with_adj a2 (with_nedges (gnedges g - 1)%Z g))) vs g = Ok g1.
Proof.
  induction vs as [|a vs IH]; intros g W ND Hv Hall; simpl.
  - eauto.
  - assert (v <> a) as Hne by (intro; subst; simpl in Hv; tauto).
    destruct (edge_type g v a) as [e|] eqn:Ee; [|exfalso; apply (Hall a); simpl; auto].
    destruct (remove_edge_ok v a g e W Hne Ee) as [g0 E0].
    pose proof E0 as E0'. unfold remove_edge in E0'. rewrite E0'. simpl.
    destruct (remove_edge_spec _ _ _ _ W Hne E0) as [W0 [F0 [P0 [S0 [_ [_ [_ T0]]]]]]].
    inversion ND; subst. apply IH; auto.
    + simpl in Hv; tauto.
    + intros w Hw. rewrite T0, pair_hit_false. apply Hall; simpl; auto.
      * intro E; inversion E; subst; auto.
      * intro E; inversion E; subst. simpl in Hv; tauto.
Qed.

Lemma remove_one_vertex_ok : forall v g, wfg g -> noloop g -> In v (vertices g) ->
  exists g', remove_one_vertex v g = Ok g'.
Proof.
  intros v g W NL Hv. unfold remove_one_vertex. rewrite neighbors_r_ok by auto. cbn [bind].
  destruct (remove_nbrs_ok v (neighbors g v) g W) as [g1 E1].
  - apply neighbors_nd; auto.
  - rewrite neighbors_spec, NL. auto.
  - intros w Hw. apply neighbors_spec; auto.
  - rewrite E1. cbn [bind]. destruct (remove_nbrs_spec _ _ _ _ W E1) as [W1 [F1 _]].
    assert (In v (vertices g1)) as Hv1 by (destruct F1 as [-> _]; auto).
    assert (dmem v (gty g1) = true) as -> by (apply dmem_keys, (wf_ty g1 W1); auto).
    assert (dmem v (gphase g1) = true) as -> by (apply dmem_keys, (wf_ph g1 W1); auto).
    simpl. eauto.
Qed.

Lemma removed_noloop : forall vs g g', removed vs g g' -> noloop g -> noloop g'.
Proof. intros vs g g' R NL v. rewrite (rm_edge _ _ _ R), NL. destruct (_ || _); reflexivity. Qed.

Lemma remove_vertices_ok : forall vs g, wfg g -> noloop g -> NoDup vs -> (forall v, In v vs -> In v (vertices g)) ->
  exists g', remove_vertices vs g = Ok g'.
Proof.
  intros vs g W NL ND Hin. unfold remove_vertices.
  assert (exists g1, foldM (fun g v => remove_one_vertex v g) vs g = Ok g1) as [g1 ->].
  { revert g W NL ND Hin. induction vs as [|v vs IH]; intros; simpl; eauto.
    destruct (remove_one_vertex_ok v g W NL) as [g0 E0]; [apply Hin; simpl; auto|]. rewrite E0. cbn [bind].
    pose proof (remove_one_vertex_spec _ _ _ W E0) as R. inversion ND; subst.
    apply IH; auto. { apply R. } { eapply removed_noloop; eauto. }
    intros u Hu. rewrite (rm_vs _ _ _ R), filter_In. split; [apply Hin; simpl; auto|].
    apply negb_true_iff, mem_false. intros [->|[]]; auto. }
  simpl. eauto.
Qed.

(** the part of the diagram not touched by the removal *)
Lemma integL_removed : forall vs g g' L x, removed vs g g' -> (forall u, In u L -> ~ In u vs) ->
  integL L g' x = integL L g x.
Proof.
  intros vs g g' L x R HL. unfold integL. rewrite (rm_scalar _ _ _ R).
  assert (forall u, In u L -> isX g' u = isX g u) as HX by (intros; unfold isX; rewrite (rm_ty _ _ _ R); auto).
  assert (forall u, In u L -> isB g' u = isB g u) as HB by (intros; unfold isB; rewrite (rm_ty _ _ _ R); auto).
  f_equal; [f_equal|].
  - apply cprod_ext. intros. unfold pw. rewrite HB, (rm_phase _ _ _ R); auto.
  - apply pprod_ext. intros. unfold ew. rewrite !HX, (rm_edge _ _ _ R) by auto.
    rewrite (proj2 (mem_false u vs)), (proj2 (mem_false v vs)) by auto. reflexivity.
Qed.

(** ** Edge tables *)
Fixpoint cpow (c : C) (n : nat) : C := match n with O => C1 | S n => c * cpow c n end.

Definition entw (g : graph) (e : (nat*nat)*(nat*nat)) (x : assignment) : C :=
  let '((s,t),(ns,nh)) := e in cpow (nw g SIMPLE s t x) ns * cpow (nw g HADAMARD s t x) nh.
Definition tabw (g : graph) (tab : etab) (x : assignment) : C := cprod (fun e => entw g e x) tab.

Definition tab_ok (L : list nat) (tab : etab) : Prop :=
  forall s t ns nh, In ((s,t),(ns,nh)) tab -> (ns = O /\ nh = O) \/ (s <> t /\ In s L /\ In t L).

Lemma tabw_frame : forall g g' tab x, same_frame g g' -> tabw g' tab x = tabw g tab x.
Proof.
  intros. unfold tabw. apply cprod_ext. intros [[s t] [ns nh]] _. simpl.
  rewrite !(nw_frame g g'); auto.
Qed.

(** effect of a sequence of edge additions inside L *)
Definition edge_effect (L : list nat) (g g' : graph) (c : assignment -> C) : Prop :=
  wfg g' /\ same_frame g g' /\
  (forall u v, ~ In u L \/ ~ In v L \/ u = v -> edge_type g' u v = edge_type g u v) /\
  (forall u, ~ In u L -> phase g' u = phase g u) /\
  (forall x, integL L g' x = integL L g x * c x).

Lemma edge_effect_refl : forall L g, wfg g -> edge_effect L g g (fun _ => C1).
Proof.
  intros. split; [auto|]. split; [apply same_frame_refl|]. split; [auto|]. split; [auto|]. intros; ring.
Qed.
Lemma edge_effect_trans : forall L g1 g2 g3 c1 c2, edge_effect L g1 g2 c1 -> edge_effect L g2 g3 c2 ->
  edge_effect L g1 g3 (fun x => c1 x * c2 x).
Proof.
  intros L g1 g2 g3 c1 c2 [W1 [F1 [E1 [P1 I1]]]] [W2 [F2 [E2 [P2 I2]]]].
  split; [auto|]. split; [eapply same_frame_trans; eauto|].
  split. { intros. rewrite E2, E1; auto. }
  split. { intros. rewrite P2, P1; auto. }
  intros. rewrite I2, I1. ring.
Qed.
Lemma edge_effect_ext : forall L g g' c c', edge_effect L g g' c -> (forall x, c x = c' x) -> edge_effect L g g' c'.
Proof. intros L g g' c c' [W [F [E [P I]]]] H. repeat (split; [auto|]). intros. rewrite I, H. reflexivity. Qed.

Lemma add_edge_effect : forall L s t et g g', NoDup L -> wfg g -> s <> t -> In s L -> In t L ->
  add_edge s t et g = Ok g' -> edge_effect L g g' (nw g et s t).
Proof.
  intros L s t et g g' ND W Hne Hs Ht H.
  destruct (add_edge_spec _ _ _ _ _ W Hne H) as [W1 [F1 [_ [_ [E1 [P1 I1]]]]]].
  split; [auto|]. split; [auto|]. split.
  - intros u v Huv. apply E1; intro E; inversion E; subst; intuition congruence.
  - split; [|intros; apply I1; auto]. intros. apply P1. intro; subst; auto.
Qed.

Lemma iter_edge_effect : forall n L s t et g g', NoDup L -> wfg g -> s <> t -> In s L -> In t L ->
  iterM n (add_edge s t et) g = Ok g' -> edge_effect L g g' (fun x => cpow (nw g et s t x) n).
Proof.
  induction n; intros L s t et g g' ND W Hne Hs Ht H; simpl in H.
  - inversion H; subst. apply edge_effect_refl; auto.
  - apply bind_ok in H. destruct H as [g1 [E1 H]].
    pose proof (add_edge_effect L s t et g g1 ND W Hne Hs Ht E1) as X1.
    pose proof (IHn L s t et g1 g' ND (proj1 X1) Hne Hs Ht H) as X2.
    eapply edge_effect_ext; [eapply edge_effect_trans; eauto|].
    intros x. simpl. rewrite (nw_frame g g1); auto. apply X1.
Qed.

Lemma add_edge_table_effect : forall L tab g g', NoDup L -> wfg g -> tab_ok L tab ->
  add_edge_table tab g = Ok g' -> edge_effect L g g' (tabw g tab).
Proof.
  intros L tab. induction tab as [|[[s t] [ns nh]] tab IH]; intros g g' ND W HT H; unfold add_edge_table in H; cbn [foldM] in H.
  - inversion H; subst. apply edge_effect_refl; auto.
  - apply bind_ok in H. destruct H as [g1 [E1 H]].
    assert (edge_effect L g g1 (entw g ((s,t),(ns,nh)))) as X1.
    { apply bind_ok in E1. destruct E1 as [g0 [E0 E1]].
      destruct (HT s t ns nh) as [[-> ->]|[Hne [Hs Ht]]]; [simpl; auto| |].
      - simpl in *. inversion E0; subst. inversion E1; subst.
        eapply edge_effect_ext; [apply edge_effect_refl; auto|]. intros; simpl; ring.
      - pose proof (iter_edge_effect _ L _ _ _ _ _ ND W Hne Hs Ht E0) as Y0.
        pose proof (iter_edge_effect _ L _ _ _ _ _ ND (proj1 Y0) Hne Hs Ht E1) as Y1.
        eapply edge_effect_ext; [eapply edge_effect_trans; eauto|].
        intros x. simpl. f_equal. rewrite (nw_frame g g0); auto. apply Y0. }
    assert (edge_effect L g1 g' (tabw g1 tab)) as X2.
    { apply IH; auto. { apply X1. } intros a b c d Hin. apply (HT a b c d). simpl; auto. }
    eapply edge_effect_ext; [eapply edge_effect_trans; eauto|].
    intros x. cbv beta. rewrite (tabw_frame g g1) by apply X1. reflexivity.
Qed.

(** ** Sums over removed vertices *)
Lemma filter_split_perm : forall (f : nat -> bool) l, Permutation l (filter f l ++ filter (fun a => negb (f a)) l).
Proof.
  induction l; simpl; auto. destruct (f a); simpl.
  - constructor; auto.
  - rewrite IHl at 1. apply Permutation_middle.
Qed.

Lemma nodup_same_perm : forall (l1 l2 : list nat), NoDup l1 -> NoDup l2 -> (forall a, In a l1 <-> In a l2) -> Permutation l1 l2.
Proof. intros. apply NoDup_Permutation; auto. Qed.

Lemma vertices_split : forall g rem, wfg g -> NoDup rem -> (forall v, In v rem -> In v (vertices g)) ->
  Permutation (vertices g) (rem ++ filter (fun u => negb (mem u rem)) (vertices g)).
Proof.
  intros g rem W ND Hin. rewrite (filter_split_perm (fun u => mem u rem) (vertices g)) at 1.
  apply Permutation_app_tail. apply nodup_same_perm; auto.
  - apply NoDup_filter, W.
  - intros. rewrite filter_In, mem_spec. split; [tauto|]. intros; split; auto.
Qed.

Lemma integL_perm : forall g L1 L2 x, wfg g -> Permutation L1 L2 -> integL L1 g x = integL L2 g x.
Proof.
  intros. unfold integL. rewrite (cprod_perm _ _ _ _ H0).
  rewrite (pprod_perm _ L1 L2); auto. intros. apply ew_sym; auto.
Qed.

Lemma integL_app : forall g L1 L2 x,
  integL (L1 ++ L2) g x = integL L2 g x *
    (cprod (fun v => pw g v (x v)) L1 * pprod (fun u v => ew g u v (x u) (x v)) L1
     * cprod (fun u => cprod (fun v => ew g u v (x u) (x v)) L2) L1).
Proof. intros. unfold integL. rewrite cprod_app, pprod_app. ring. Qed.

Lemma integL_indep : forall g L v b x, ~ In v L -> integL L g (upd x v b) = integL L g x.
Proof.
  intros. unfold integL. f_equal; [f_equal|].
  - apply cprod_ext. intros. rewrite upd_other; auto. intro; subst; auto.
  - apply pprod_ext. intros. rewrite !upd_other; auto; intro; subst; auto.
Qed.

(** The generic step: vertices [rem] are summed out of g, and g' is a diagram
    on the remaining vertices whose integrand equals that sum. *)
Lemma sem_sum_out : forall g g' rem, wfg g -> NoDup rem ->
  (forall v, In v rem -> In v (vertices g) /\ isB g v = false) ->
  vertices g' = filter (fun u => negb (mem u rem)) (vertices g) ->
  (forall u, In u (vertices g') -> isB g' u = isB g u) ->
  (forall x, sumv rem (integL (vertices g) g) x = integL (vertices g') g' x) ->
  forall b, sem g' b = sem g b.
Proof.
  intros g g' rem W ND Hrem HV HB Hsum b. unfold sem.
  assert (internal g' = filter (fun u => negb (mem u rem)) (internal g)) as HI.
  { unfold internal. rewrite HV, !filter_filter.
    assert (forall u, In u (vertices g) -> negb (mem u rem) && negb (isB g' u) = negb (isB g u) && negb (mem u rem)) as E.
    { intros u Hu. destruct (mem u rem) eqn:Em; simpl; [rewrite andb_false_r; reflexivity|].
      rewrite andb_true_r. rewrite HB; auto. rewrite HV, filter_In, Em. auto. }
    clear -E. induction (vertices g); simpl; auto. rewrite E by (simpl; auto).
    destruct (_ && _); [f_equal|]; apply IHl; intros; apply E; simpl; auto. }
  assert (Permutation (internal g) (internal g' ++ rem)) as P.
  { rewrite HI. rewrite (filter_split_perm (fun u => negb (mem u rem)) (internal g)) at 1.
    apply Permutation_app_head. apply nodup_same_perm; auto.
    - apply NoDup_filter, NoDup_filter, W.
    - intros a. rewrite filter_In, negb_involutive, mem_spec. unfold internal. rewrite filter_In.
      split; [tauto|]. intros Ha. destruct (Hrem a Ha) as [A1 A2]. rewrite A2. auto. }
  rewrite (sumv_perm _ _ P) by (apply NoDup_filter, W).
  rewrite sumv_app. apply sumv_ext. intros; symmetry; auto.
Qed.

(** factorisation over a batch of matches *)
Lemma sumv_groups : forall A (vs : A -> list nat) (h : A -> assignment -> C) ms x,
  NoDup (flat_map vs ms) ->
  (forall m y w c, In m ms -> In w (flat_map vs ms) -> ~ In w (vs m) -> h m (upd y w c) = h m y) ->
  sumv (flat_map vs ms) (fun y => cprod (fun m => h m y) ms) x = cprod (fun m => sumv (vs m) (h m) x) ms.
Proof.
  intros A vs h ms. induction ms as [|m ms IH]; intros x ND Hind; simpl; auto.
  simpl in ND. rewrite sumv_app.
  assert (forall w, In w (flat_map vs ms) -> ~ In w (vs m)) as Hdis.
  { intros w H1 H2. apply in_split in H2. destruct H2 as [l1 [l2 E]]. rewrite E in ND.
    rewrite <- app_assoc in ND. simpl in ND. apply NoDup_remove_2 in ND. apply ND.
    rewrite in_app_iff. right. rewrite in_app_iff. auto. }
  assert (forall w m', In m' ms -> In w (vs m) -> ~ In w (vs m')) as Hdis2.
  { intros w m' Hm' Hw Hw'. apply (Hdis w); auto. apply in_flat_map. eauto. }
  rewrite (sumv_ext (vs m) _ (fun y => cprod (fun m0 => sumv (vs m0) (h m0) y) ms * h m y)).
  - rewrite (sumv_mult_indep (vs m) (fun y => cprod (fun m0 => sumv (vs m0) (h m0) y) ms)); [ring|].
    intros y w c Hw. apply cprod_ext. intros m' Hm'. apply sumv_upd.
    + apply Hdis2; auto.
    + intros. apply Hind; simpl; auto. rewrite in_app_iff; auto.
  - intros y. rewrite (sumv_mult_indep (flat_map vs ms) (h m)).
    + rewrite IH; [ring| |].
      * clear -ND. induction (vs m); simpl in *; auto. inversion ND; auto.
      * intros. apply Hind; simpl; auto. rewrite in_app_iff; auto.
    + intros z w c Hw. apply Hind; simpl; auto. rewrite in_app_iff; auto.
Qed.
