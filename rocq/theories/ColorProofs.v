(** Colour changes: to_gh and to_rg preserve the diagram and never raise. *)
From Coq Require Import Reals ZArith QArith Qcanon List Bool Arith Lia Permutation.
From Verif Require Import CNum Base ScalarModel ScalarProofs GraphModel GraphSem SumLemmas GraphProofs GraphOps
  RulesModel RuleLemmas SpiderProofs SimpModel.
Import ListNotations.
Open Scope C_scope.

Definition incd (v w : nat) : nat * nat := if Nat.ltb v w then (v, w) else (w, v).
Lemma incd_hit : forall v w a b, pair_hit (fst (incd v w)) (snd (incd v w)) a b = pair_hit v w a b.
Proof.
  intros. unfold incd. destruct (Nat.ltb v w); [reflexivity|]. cbn [fst snd]. unfold pair_hit. apply orb_comm.
Qed.

(** toggling the edges from v to a duplicate-free list of neighbours *)
Lemma toggle_list : forall v ns g, wfg g -> NoDup ns -> (forall w, In w ns -> edge_type g v w <> None) ->
  exists g', toggle_edges (map (incd v) ns) g = Ok g' /\ wfg g' /\ same_frame g g' /\ gphase g' = gphase g /\ gscalar g' = gscalar g /\
  forall a b, edge_type g' a b = if existsb (fun w => pair_hit v w a b) ns then option_map toggle_edge (edge_type g a b) else edge_type g a b.
Proof.
  intros v ns. induction ns as [|w ns IH]; intros g W ND H.
  - exists g. split; [reflexivity|]. split; auto. split; [apply same_frame_refl|]. auto.
  - inversion ND; subst. unfold toggle_edges. cbn [map foldM].
    assert (EW := H w (or_introl eq_refl)).
    destruct (edge_type g v w) as [e|] eqn:E; [|congruence].
    assert (E' : edge_type g (fst (incd v w)) (snd (incd v w)) = Some e).
    { unfold incd. destruct (Nat.ltb v w); cbn [fst snd]; auto. rewrite (wf_sym g W); auto. }
    destruct (incd v w) as [s t] eqn:I. cbn [fst snd] in E'. rewrite E'. cbn [of_opt bind].
    assert (I1 := edge_in_l _ _ _ _ E'). assert (I2 := edge_in_r _ _ _ _ W E').
    destruct (set_edge_type_ok s t (toggle_edge e) g I1 I2) as [g1 E1]. rewrite E1. cbn [bind].
    destruct (set_edge_type_spec _ _ _ _ _ W E1) as [W1 [F1 [P1 [S1 [_ [_ ET1]]]]]].
    assert (HIT : forall a b, pair_hit s t a b = pair_hit v w a b).
    { intros. rewrite <- (incd_hit v w). rewrite I. reflexivity. }
    destruct (IH g1 W1 H3) as [g' [E2 [W2 [F2 [P2 [S2 ET2]]]]]].
    { intros u Hu. rewrite ET1, HIT. destruct (pair_hit v w v u); [discriminate|]. apply H; simpl; auto. }
    exists g'. split; [exact E2|]. split; auto. split; [eapply same_frame_trans; eauto|]. split; [congruence|]. split; [congruence|].
    intros a b. rewrite ET2. cbn [existsb]. rewrite !ET1, HIT.
    destruct (pair_hit v w a b) eqn:HV; cbn [orb]; auto.
    replace (existsb (fun w0 => pair_hit v w0 a b) ns) with false.
    + assert (edge_type g a b = Some e) as ->; [|reflexivity].
      apply pair_hit_true in HV. destruct HV as [[-> ->]|[-> ->]]; auto. rewrite (wf_sym g W); auto.
    + symmetry. apply not_true_iff_false. intros X. apply existsb_exists in X. destruct X as [w' [Hw X]].
      apply pair_hit_true in X. apply pair_hit_true in HV.
      assert (w' = w) by (destruct X as [[? ?]|[? ?]], HV as [[? ?]|[? ?]]; subst; congruence). subst; contradiction.
Qed.

Lemma set_type_wfg : forall v t g, wfg g -> In v (vertices g) -> wfg (set_type v t g).
Proof.
  intros v t g [A B C D E F G H] Hv.
  assert (K : dkeys (dset v t (gty g)) = dkeys (gty g)) by (apply dkeys_dset_in; apply D; auto).
  constructor; auto; unfold set_type, with_ty; cbn [gty]; rewrite ?K; auto.
Qed.
Lemma vty_set_type : forall v t g u, vty (set_type v t g) u = if Nat.eqb u v then t else vty g u.
Proof. intros. unfold vty, set_type. simpl. rewrite dget_dset. destruct (Nat.eqb u v); reflexivity. Qed.

(** what recolouring a set of vertices means *)
Record recol (S : nat -> bool) (g g' : graph) : Prop := mkrecol {
  rc_wf : wfg g';
  rc_vs : vertices g' = vertices g;
  rc_in : ginputs g' = ginputs g;
  rc_out : goutputs g' = goutputs g;
  rc_ph : gphase g' = gphase g;
  rc_sc : gscalar g' = gscalar g;
  rc_ri : grindex g' = grindex g;
  rc_ty : forall v, vty g' v = if S v then toggle_vertex (vty g v) else vty g v;
  rc_et : forall u v, edge_type g' u v = option_map (tog (xorb (S u) (S v))) (edge_type g u v)
}.

Lemma recol_one : forall v g, wfg g -> noloop g -> In v (vertices g) -> vertex_is_zx (vty g v) = true ->
  exists g', toggle_edges (incident_edges g v) (set_type v (toggle_vertex (vty g v)) g) = Ok g' /\
  recol (Nat.eqb v) g g'.
Proof.
  intros v g W NL Hv Z. set (g1 := set_type v (toggle_vertex (vty g v)) g).
  assert (W1 : wfg g1) by (apply set_type_wfg; auto).
  destruct (toggle_list v (neighbors g v) g1 W1) as [g' [E [W2 [F2 [P2 [S2 ET]]]]]].
  - apply neighbors_nd; auto.
  - intros w Hw. apply neighbors_spec in Hw. exact Hw.
  - exists g'. split; [exact E|]. constructor; auto; try apply F2.
    + intros u. rewrite (same_frame_vty g1 g' u F2). unfold g1. rewrite vty_set_type, (Nat.eqb_sym v u).
      destruct (Nat.eqb_spec u v); subst; auto.
    + intros a b. rewrite ET. change (edge_type g1 a b) with (edge_type g a b).
      destruct (edge_type g a b) as [e|] eqn:EE; [|destruct (existsb _ _); reflexivity]. cbn [option_map].
      assert (EX : existsb (fun w => pair_hit v w a b) (neighbors g v) = xorb (Nat.eqb v a) (Nat.eqb v b)).
      { destruct (Nat.eqb_spec v a), (Nat.eqb_spec v b); subst; cbn [xorb].
        - rewrite NL in EE. discriminate.
        - apply existsb_exists. exists b. split; [apply neighbors_spec; congruence|apply pair_hit_st].
        - apply existsb_exists. exists a. split; [apply neighbors_spec; rewrite (wf_sym g W); congruence|].
          rewrite pair_hit_sym. apply pair_hit_st.
        - apply not_true_iff_false. intros X. apply existsb_exists in X. destruct X as [w [_ X]]. apply pair_hit_true in X. intuition. }
      rewrite EX. unfold tog. destruct (xorb _ _); reflexivity.
Qed.

Lemma recol_refl : forall g, wfg g -> recol (fun _ => false) g g.
Proof. intros. constructor; auto. intros. destruct (edge_type g u v); reflexivity. Qed.

Lemma tog_tog : forall a b e, tog a (tog b e) = tog (xorb a b) e.
Proof. intros [] [] []; reflexivity. Qed.
Lemma toggle_toggle : forall t, toggle_vertex (toggle_vertex t) = t.
Proof. intros []; reflexivity. Qed.

Lemma recol_trans : forall S T g1 g2 g3, recol S g1 g2 -> recol T g2 g3 -> recol (fun v => xorb (S v) (T v)) g1 g3.
Proof.
  intros S T g1 g2 g3 [A1 A2 A3 A4 A5 A6 A7 A8 A9] [B1 B2 B3 B4 B5 B6 B7 B8 B9]. constructor; try congruence.
  - intros v. rewrite B8, A8. destruct (S v), (T v); cbn [xorb]; auto. apply toggle_toggle.
  - intros u v. rewrite B9, A9. destruct (edge_type g1 u v); cbn [option_map]; auto. rewrite tog_tog.
    f_equal. f_equal. destruct (S u), (S v), (T u), (T v); reflexivity.
Qed.

Lemma toggle_isB : forall t, vtype_eqb (toggle_vertex t) BOUNDARY = vtype_eqb t BOUNDARY.
Proof. intros []; reflexivity. Qed.

Lemma recol_sem : forall S g g', recol S g g' -> (forall v, S v = true -> vertex_is_zx (vty g v) = true) -> same_map g g'.
Proof.
  intros S g g' R HS. destruct R as [A1 A2 A3 A4 A5 A6 A7 A8 A9]. split; [|split]; auto.
  assert (IB : forall v, isB g' v = isB g v).
  { intros v. unfold isB. rewrite A8. destruct (S v); auto. apply toggle_isB. }
  assert (EW : forall u v a b, ew g' u v a b = ew g u v a b).
  { intros u v a b. unfold ew. rewrite A9. destruct (edge_type g u v); auto. cbn [option_map]. rewrite tog_tog. f_equal. f_equal. f_equal.
    assert (IX : forall w, isX g' w = xorb (S w) (isX g w)).
    { intros w. unfold isX. rewrite A8. destruct (S w) eqn:E; auto; [|destruct (vtype_eqb _ _); reflexivity].
      apply HS in E. destruct (vty g w); try discriminate; reflexivity. }
    rewrite !IX. destruct (S u), (S v), (isX g u), (isX g v); reflexivity. }
  intros b. unfold sem. replace (internal g') with (internal g).
  - rewrite A2. apply sumv_ext. intros x. unfold integL. rewrite A6. f_equal; [f_equal|].
    + apply cprod_ext. intros v _. unfold pw. rewrite IB. unfold phase. rewrite A5. reflexivity.
    + apply pprod_ext. intros; apply EW.
  - unfold internal. rewrite A2. apply filter_ext. intros v. rewrite IB. reflexivity.
Qed.

Lemma recol_noloop : forall S g g', recol S g g' -> noloop g -> noloop g'.
Proof. intros S g g' R N v. rewrite (rc_et _ _ _ R), N. reflexivity. Qed.

Lemma recol_zxok : forall S g g', recol S g g' -> (forall v, S v = true -> vertex_is_zx (vty g v) = true) -> zxok g -> zxok g'.
Proof.
  intros S g g' R HS [W N Z P IO]. assert (R0 := R). destruct R as [A1 A2 A3 A4 A5 A6 A7 A8 A9]. constructor; auto.
  - eapply recol_noloop; eauto.
  - intros v Hv. rewrite A2 in Hv. rewrite A8. specialize (Z v Hv). destruct (S v); auto.
    destruct (vty g v); try discriminate. congruence.
  - intros v Hv. rewrite A2 in Hv. unfold phase. rewrite A5. apply P; auto.
  - intros v Hv. rewrite A3, A4 in Hv. destruct (IO v Hv) as [I B]. rewrite A2. split; auto. unfold isB in *. rewrite A8.
    destruct (S v); auto. rewrite toggle_isB; auto.
Qed.

(** both passes: recolour a sublist of the vertices *)
Lemma to_rg_fold : forall select vs g, wfg g -> noloop g -> (forall v, In v vs -> In v (vertices g)) ->
  exists g' S, foldM (to_rg_one select) vs g = Ok g' /\ recol S g g' /\ forall v, S v = true -> vertex_is_zx (vty g v) = true.
Proof.
  intros select vs. induction vs as [|v vs IH]; intros g W NL H.
  - exists g, (fun _ => false). split; [reflexivity|]. split; [apply recol_refl; auto|discriminate].
  - cbn [foldM].
    assert (ST : exists g1 S, to_rg_one select g v = Ok g1 /\ recol S g g1 /\ forall v, S v = true -> vertex_is_zx (vty g v) = true).
    { unfold to_rg_one. destruct (select g v).
      - rewrite vtype_r_ok by (auto; apply H; simpl; auto). cbn [bind].
        destruct (vertex_is_zx (vty g v)) eqn:Z.
        + destruct (recol_one v g W NL (H v (or_introl eq_refl)) Z) as [g1 [E R]].
          exists g1, (Nat.eqb v). split; auto. split; auto. intros u Hu. apply Nat.eqb_eq in Hu. subst; auto.
        + exists g, (fun _ => false). split; auto. split; [apply recol_refl; auto|discriminate].
      - exists g, (fun _ => false). split; auto. split; [apply recol_refl; auto|discriminate]. }
    destruct ST as [g1 [S [E [R HS]]]]. rewrite E. cbn [bind].
    destruct (IH g1) as [g' [T [E2 [R2 HT]]]].
    + apply R.
    + eapply recol_noloop; eauto.
    + intros u Hu. rewrite (rc_vs _ _ _ R). apply H; simpl; auto.
    + exists g', (fun v => xorb (S v) (T v)). split; auto. split; [eapply recol_trans; eauto|].
      intros u Hu. destruct (S u) eqn:ES; auto. rewrite xorb_false_l in Hu. apply HT in Hu.
      rewrite (rc_ty _ _ _ R), ES in Hu. auto.
Qed.

Lemma to_gh_rg : forall vs g, wfg g -> noloop g -> (forall v, In v vs -> In v (vertices g)) ->
  foldM to_gh_one vs g = foldM (to_rg_one (fun g v => vtype_eqb (vty g v) XSP)) vs g.
Proof.
  induction vs as [|v vs IH]; intros g W NL H; [reflexivity|]. cbn [foldM].
  assert (Hv := H v (or_introl eq_refl)).
  assert (E : to_gh_one g v = to_rg_one (fun g v => vtype_eqb (vty g v) XSP) g v).
  { unfold to_gh_one, to_rg_one. rewrite vtype_r_ok by auto. cbn [bind]. destruct (vty g v); reflexivity. }
  rewrite E. destruct (to_rg_one _ g v) eqn:E1; [|reflexivity]. cbn [bind]. apply IH.
  - destruct (to_rg_fold (fun g v => vtype_eqb (vty g v) XSP) [v] g W NL) as [g' [S [E2 [R _]]]]; [intros u [<-|[]]; auto|].
    cbn [foldM] in E2. rewrite E1 in E2. injection E2 as ->. apply R.
  - destruct (to_rg_fold (fun g v => vtype_eqb (vty g v) XSP) [v] g W NL) as [g' [S [E2 [R _]]]]; [intros u [<-|[]]; auto|].
    cbn [foldM] in E2. rewrite E1 in E2. injection E2 as ->. eapply recol_noloop; eauto.
  - destruct (to_rg_fold (fun g v => vtype_eqb (vty g v) XSP) [v] g W NL) as [g' [S [E2 [R _]]]]; [intros u [<-|[]]; auto|].
    cbn [foldM] in E2. rewrite E1 in E2. injection E2 as ->. intros u Hu. rewrite (rc_vs _ _ _ R). apply H; simpl; auto.
Qed.

(** the set recoloured by to_gh is exactly the X spiders *)
Lemma to_gh_fold : forall vs g, wfg g -> noloop g -> NoDup vs -> (forall v, In v vs -> In v (vertices g)) ->
  exists g', foldM to_gh_one vs g = Ok g' /\ recol (fun v => nmem v vs && vtype_eqb (vty g v) XSP) g g'.
Proof.
  induction vs as [|v vs IH]; intros g W NL ND H.
  - exists g. split; [reflexivity|]. apply recol_refl; auto.
  - inversion ND; subst. cbn [foldM]. unfold to_gh_one at 1. rewrite vtype_r_ok by (auto; apply H; simpl; auto). cbn [bind].
    destruct (vtype_eqb (vty g v) XSP) eqn:X.
    + assert (T : vty g v = XSP) by (destruct (vty g v); try discriminate; auto).
      destruct (recol_one v g W NL (H v (or_introl eq_refl))) as [g1 [E R]]; [rewrite T; reflexivity|].
      rewrite T in E. change (toggle_vertex XSP) with ZSP in E. rewrite E. cbn [bind].
      destruct (IH g1) as [g' [E2 R2]]; auto.
      * apply R.
      * eapply recol_noloop; eauto.
      * intros u Hu. rewrite (rc_vs _ _ _ R). apply H; simpl; auto.
      * exists g'. split; auto. assert (RT := recol_trans _ _ _ _ _ R R2).
        assert (EQ : forall u, xorb (Nat.eqb v u) (nmem u vs && vtype_eqb (vty g1 u) XSP) = (nmem u (v :: vs) && vtype_eqb (vty g u) XSP)).
        { intros u. rewrite (rc_ty _ _ _ R). unfold nmem at 2. cbn [existsb]. rewrite (Nat.eqb_sym u v). destruct (Nat.eqb_spec v u) as [<-|D]; cbn [orb xorb andb].
          - replace (nmem v vs) with false by (symmetry; apply nmem_false; auto). rewrite X. reflexivity.
          - fold (nmem u vs). destruct (nmem u vs && vtype_eqb (vty g u) XSP); reflexivity. }
        destruct RT as [A1 A2 A3 A4 A5 A6 A7 A8 A9]. constructor; auto.
        -- intros u. rewrite A8, EQ. reflexivity.
        -- intros a b. rewrite A9, !EQ. reflexivity.
    + destruct (IH g) as [g' [E2 R2]]; auto.
      * intros u Hu. apply H; simpl; auto.
      * exists g'. split; auto.
        assert (EQ : forall u, (nmem u vs && vtype_eqb (vty g u) XSP) = (nmem u (v :: vs) && vtype_eqb (vty g u) XSP)).
        { intros u. unfold nmem at 2. cbn [existsb]. destruct (Nat.eqb_spec u v) as [->|D]; cbn [orb andb]; [rewrite X, andb_false_r; reflexivity|reflexivity]. }
        destruct R2 as [A1 A2 A3 A4 A5 A6 A7 A8 A9]. constructor; auto.
        -- intros u. rewrite A8, EQ. reflexivity.
        -- intros a b. rewrite A9, !EQ. reflexivity.
Qed.

Definition iXv (g : graph) (v : nat) : bool := nmem v (vertices g) && vtype_eqb (vty g v) XSP.
Theorem to_gh_ok : forall g, wfg g -> noloop g -> exists g', to_gh g = Ok g' /\ recol (iXv g) g g'.
Proof. intros g W NL. apply to_gh_fold; auto. apply W. Qed.
Lemma iXv_zx : forall g v, iXv g v = true -> vertex_is_zx (vty g v) = true.
Proof. intros g v H. unfold iXv in H. apply andb_true_iff in H. destruct H as [_ H]. destruct (vty g v); try discriminate; reflexivity. Qed.
Theorem to_gh_sound : forall g, zxok g -> exists g', to_gh g = Ok g' /\ zxok g' /\ same_map g g' /\
  (forall v, In v (vertices g') -> vty g' v <> XSP) /\ vertices g' = vertices g /\ gphase g' = gphase g.
Proof.
  intros g ZX. destruct (to_gh_ok g (zx_wf g ZX) (zx_noloop g ZX)) as [g' [E R]]. exists g'. split; auto.
  split; [eapply recol_zxok; eauto using iXv_zx|]. split; [eapply recol_sem; eauto using iXv_zx|].
  split; [|split; apply R]. intros v Hv. rewrite (rc_ty _ _ _ R). rewrite (rc_vs _ _ _ R) in Hv. unfold iXv.
  replace (nmem v (vertices g)) with true by (symmetry; apply nmem_spec; auto).
  destruct (vty g v); simpl; discriminate.
Qed.
Theorem to_rg_sound : forall select g, zxok g -> exists g', to_rg select g = Ok g' /\ zxok g' /\ same_map g g' /\
  vertices g' = vertices g /\ gphase g' = gphase g.
Proof.
  intros select g ZX. destruct (to_rg_fold select (vertices g) g (zx_wf g ZX) (zx_noloop g ZX)) as [g' [S [E [R HS]]]]; auto.
  exists g'. split; auto. split; [eapply recol_zxok; eauto|]. split; [eapply recol_sem; eauto|]. split; apply R.
Qed.
