(** basicrules.color_change and color_change_diagram *)
From Coq Require Import Reals ZArith QArith Qcanon List Bool Arith Lia Permutation.
From Verif Require Import CNum Base ScalarModel ScalarProofs GraphModel GraphSem SumLemmas GraphProofs GraphOps
  RulesModel RuleLemmas SpiderProofs SimpModel ColorProofs InvProofs BasicRulesModel.
Import ListNotations.
Open Scope nat_scope.
Open Scope C_scope.

(** Specification: a Hadamard gate on the wire of the boundary vertex v, and on
    the wires of a list of boundary vertices. *)
Definition hap (v : nat) (F : assignment -> C) (x : assignment) : C :=
  sq2p (-1) * (F (upd x v false) + sgn (x v) * F (upd x v true)).
Definition had_all (vs : list nat) (F : assignment -> C) : assignment -> C := fold_left (fun F v => hap v F) vs F.
Definition bnd (g : graph) : list nat := filter (isB g) (vertices g).

Lemma half : sq2p (-1) * sq2p (-1) * (C1 + C1) = C1.
Proof. rewrite <- sq2p_2, <- !sq2p_add. reflexivity. Qed.
Lemma hap_ext : forall v F G x, (forall y, F y = G y) -> hap v F x = hap v G x.
Proof. intros. unfold hap. rewrite !H. auto. Qed.
Lemma had_all_ext : forall vs F G x, (forall y, F y = G y) -> had_all vs F x = had_all vs G x.
Proof. unfold had_all. induction vs as [|v vs IH]; intros F G x H; cbn [fold_left]; auto. apply IH. intros; apply hap_ext; auto. Qed.
Lemma had_all_snoc : forall vs v F x, had_all (vs ++ [v]) F x = hap v (had_all vs F) x.
Proof. intros. unfold had_all. rewrite fold_left_app. auto. Qed.
Lemma had_all_app : forall l1 l2 F x, had_all (l1 ++ l2) F x = had_all l2 (had_all l1 F) x.
Proof. intros. unfold had_all. rewrite fold_left_app. auto. Qed.
Lemma hap_comm : forall u v F x, hap u (hap v F) x = hap v (hap u F) x.
Proof.
  intros u v F x. destruct (Nat.eq_dec u v) as [->|N]; auto. unfold hap. rewrite !(upd_other _ u _ v) by auto. rewrite !(upd_other _ v _ u) by auto.
  rewrite (upd_comm x u v false false), (upd_comm x u v false true), (upd_comm x u v true false), (upd_comm x u v true true) by auto. ring.
Qed.
Lemma hap_hap : forall v F x, hap v (hap v F) x = F x.
Proof.
  intros. unfold hap. rewrite !upd_same, !upd_shadow. transitivity (sq2p (-1) * sq2p (-1) * (C1 + C1) * F x); [|rewrite half; ring].
  rewrite <- (upd_id x v) at 6. destruct (x v); unfold sgn; ring.
Qed.
Lemma had_all_hap : forall vs v F x, had_all vs (hap v F) x = hap v (had_all vs F) x.
Proof.
  unfold had_all. induction vs as [|u vs IH]; intros v F x; cbn [fold_left]; auto. rewrite <- IH. apply (had_all_ext vs). intros; apply hap_comm.
Qed.
Lemma had_all_perm : forall l1 l2 F x, Permutation l1 l2 -> had_all l1 F x = had_all l2 F x.
Proof.
  intros l1 l2 F x P. revert F x. induction P as [|a l1 l2 P IH|a b l|l1 l2 l3 P1 IH1 P2 IH2]; intros F x; auto.
  - unfold had_all in *. cbn [fold_left]. apply IH.
  - unfold had_all. cbn [fold_left]. apply (had_all_ext l). intros; apply hap_comm.
  - rewrite IH1. auto.
Qed.
Lemma had_all_invol : forall l F x, had_all l (had_all l F) x = F x.
Proof.
  induction l as [|v l IH]; intros F x; auto. unfold had_all in *. cbn [fold_left].
  etransitivity; [apply (had_all_ext l _ (hap v (had_all l (hap v F))))|].
  { intros; auto. }
  change (had_all l (hap v (had_all l (hap v F))) x = F x).
  rewrite had_all_hap. rewrite (hap_ext v _ (hap v F)); [apply hap_hap|]. intros; apply IH.
Qed.

(** *** one boundary *)
Lemma wt_toggle : forall e a c, wt (Some (toggle_edge e)) a c = sq2p (-1) * (wt (Some e) false c + sgn a * wt (Some e) true c).
Proof.
  intros [] a c; cbn [toggle_edge wt].
  - destruct a, c; unfold dlt, sgn; cbn; ring.
  - destruct a, c; unfold dlt, sgn; cbn; try ring.
    + etransitivity; [symmetry; apply half|ring].
    + etransitivity; [symmetry; apply half|ring].
Qed.
Lemma sumv_upd_in : forall l F x v c, ~ In v l -> sumv l F (upd x v c) = sumv l (fun y => F (upd y v c)) x.
Proof.
  induction l as [|a l IH]; intros F x v c N; cbn [sumv]; auto.
  assert (v <> a) by (intros ->; apply N; left; auto).
  assert (~ In v l) by (intros I; apply N; right; auto).
  rewrite (upd_comm x v a c false), (upd_comm x v a c true) by auto. rewrite (IH F (upd x a false)), (IH F (upd x a true)) by auto. auto.
Qed.

Lemma bnd_step : forall v g, wfg g -> noloop g -> In v (vertices g) -> vty g v = BOUNDARY ->
  (exists u, forall w, edge_type g v w <> None <-> w = u) ->
  exists g', toggle_edges (incident_edges g v) g = Ok g' /\ recol (Nat.eqb v) g g' /\ forall x, sem g' x = hap v (sem g) x.
Proof.
  intros v g W NL Hv B [w Hw].
  destruct (toggle_list v (neighbors g v) g W) as [g' [E [W2 [F2 [P2 [S2 ET]]]]]].
  - apply neighbors_nd; auto.
  - intros u Hu. apply neighbors_spec in Hu. auto.
  - assert (NB : neighbors g v = [w]).
    { assert (ND := neighbors_nd g v W). assert (I : forall u, In u (neighbors g v) <-> u = w) by (intros; rewrite neighbors_spec; apply Hw).
      destruct (neighbors g v) as [|a [|b l]].
      - exfalso. apply (proj2 (I w) eq_refl).
      - f_equal. apply I. left; auto.
      - exfalso. inversion ND as [|? ? N1 N2]; subst. apply N1. left. assert (a = w) by (apply I; left; auto). assert (b = w) by (apply I; right; left; auto). congruence. }
    assert (Nwv : w <> v) by (intros ->; apply (proj2 (Hw v) eq_refl); apply NL).
    rewrite NB in ET. cbn [existsb] in ET.
    assert (RC : recol (Nat.eqb v) g g').
    { constructor; auto; try apply F2.
      - intros u. rewrite (same_frame_vty g g' u F2). destruct (Nat.eqb_spec v u) as [<-|N]; auto. rewrite B. auto.
      - intros a b. rewrite ET, orb_false_r. destruct (edge_type g a b) as [e|] eqn:EE; [|destruct (pair_hit _ _ _ _); reflexivity]. cbn [option_map].
        replace (pair_hit v w a b) with (xorb (Nat.eqb v a) (Nat.eqb v b)); [unfold tog; destruct (xorb _ _); auto|].
        unfold pair_hit. destruct (Nat.eqb_spec v a) as [<-|Na], (Nat.eqb_spec v b) as [<-|Nb]; cbn [xorb].
        + rewrite NL in EE. discriminate.
        + assert (b = w) by (apply Hw; congruence). subst b. rewrite !Nat.eqb_refl. auto.
        + assert (a = w) by (apply Hw; rewrite (wf_sym g W); congruence). subst a. rewrite !Nat.eqb_refl.
          rewrite (proj2 (Nat.eqb_neq w v)) by auto. auto.
        + rewrite (proj2 (Nat.eqb_neq a v)), (proj2 (Nat.eqb_neq b v)) by auto. rewrite andb_false_r. auto. }
    exists g'. split; [exact E|]. split; auto. intros x.
    assert (VS : vertices g' = vertices g) by apply F2.
    assert (IB : forall u, isB g' u = isB g u) by (intros; apply same_frame_isB; auto).
    assert (IN : internal g' = internal g) by (apply same_frame_internal; auto).
    destruct (in_perm_front v (vertices g) Hv) as [core P].
    assert (NDc : NoDup (v :: core)) by (eapply Permutation_NoDup; [exact P|apply W]). inversion NDc as [|? ? Nv NC]; subst.
    assert (Iw : In w core).
    { assert (I : In w (v :: core)) by (eapply Permutation_in; [exact P|]; destruct (edge_type g v w) eqn:EW; [eapply edge_in_r; eauto|destruct (proj2 (Hw w) eq_refl); auto]).
      destruct I as [->|I]; auto. congruence. }
    assert (INT : forall h, wfg h -> vertices h = vertices g -> isB h v = true -> (forall u, edge_type h v u <> None <-> u = w) -> forall y, integL (vertices h) h y = integL core h y * ew h v w (y v) (y w)).
    { intros h Wh Vh Bh Eh y. rewrite Vh. rewrite (integL_perm _ _ _ _ Wh P). change (v :: core) with ([v] ++ core). rewrite integL_app. f_equal. cbn [cprod pprod]. unfold pw. rewrite Bh.
      rewrite (cprod_nbrs h v core [w] (fun u => ew h v u (y v) (y u))); auto.
      - cbn [cprod]. ring.
      - constructor; [auto|constructor].
      - intros u. split; [intros [<-|[]]; split; auto; apply Eh; auto|intros [_ Hu]; left; symmetry; apply Eh; auto].
      - intros u Hu. apply ew_none; auto. }
    assert (Bv : isB g v = true) by (unfold isB; rewrite B; auto).
    assert (Nint : ~ In v (internal g)) by (unfold internal; rewrite filter_In, Bv; intros [_ Q]; discriminate).
    assert (CORE : forall y, integL core g' y = integL core g y).
    { intros y. apply integL_ext; auto.
      - intros u _. split; [apply same_frame_vty; auto|]. unfold phase. rewrite P2. auto.
      - intros a b Ha Hb. rewrite (rc_et _ _ _ RC). rewrite (proj2 (Nat.eqb_neq v a)), (proj2 (Nat.eqb_neq v b)) by (intros <-; auto). cbn [xorb]. destruct (edge_type g a b); auto. }
    assert (EV : exists e, edge_type g v w = Some e) by (destruct (edge_type g v w) as [e|] eqn:EW; eauto; destruct (proj2 (Hw w) eq_refl); auto).
    destruct EV as [e EV].
    unfold hap, sem. rewrite IN, !sumv_upd_in by auto.
    rewrite <- (sumv_scal (internal g) (sgn (x v))), <- sumv_plus, <- sumv_scal. apply sumv_ext_on. intros y Hy.
    rewrite !(INT g) by auto. rewrite (INT g'); auto.
    + rewrite CORE, !integL_indep by auto. rewrite !upd_same, !(upd_other y v _ w) by auto. rewrite (Hy v) by auto.
      assert (TG : ew g' v w (x v) (y w) = sq2p (-1) * (ew g v w false (y w) + sgn (x v) * ew g v w true (y w))).
      { unfold ew. rewrite (rc_et _ _ _ RC), EV, Nat.eqb_refl, (proj2 (Nat.eqb_neq v w)) by auto. cbn [xorb option_map].
        rewrite <- wt_toggle. f_equal. f_equal. rewrite !(same_frame_isX g g') by auto. destruct (isX g v), (isX g w), e; auto. }
      rewrite TG. ring.
    + rewrite IB; auto.
    + intros u. rewrite (rc_et _ _ _ RC). rewrite <- (Hw u). destruct (edge_type g v u); cbn; split; congruence.
Qed.

Lemma recol_edges : forall S g g' u v, recol S g g' -> (edge_type g' u v <> None <-> edge_type g u v <> None).
Proof. intros S g g' u v H. rewrite (rc_et _ _ _ H). destruct (edge_type g u v); cbn; split; congruence. Qed.
Lemma recol_bdeg : forall S g g', recol S g g' -> bdeg g -> bdeg g'.
Proof.
  intros S g g' H B b Hb Tb. rewrite (rc_vs _ _ _ H) in Hb. assert (T : vty g b = BOUNDARY).
  { rewrite (rc_ty _ _ _ H) in Tb. destruct (S b); auto. destruct (vty g b); cbn in Tb; congruence. }
  destruct (B b Hb T) as [u Hu]. exists u. intros w. rewrite <- (Hu w). apply (recol_edges S); auto.
Qed.
Lemma recol_isB : forall S g g' v, recol S g g' -> isB g' v = isB g v.
Proof. intros S g g' v H. unfold isB. rewrite (rc_ty _ _ _ H). destruct (S v); auto. apply toggle_isB. Qed.
Lemma recol_ext : forall S T g g', (forall v, S v = T v) -> recol S g g' -> recol T g g'.
Proof.
  intros S T g g' E [A1 A2 A3 A4 A5 A6 A7 A8 A9]. constructor; auto; intros; rewrite <- ?E; auto.
Qed.

Lemma color_fold : forall vs g, zxok g -> bdeg g -> NoDup vs -> (forall v, In v vs -> In v (vertices g)) ->
  exists g', foldM color_step vs g = Ok g' /\ recol (fun v => nmem v vs) g g' /\ zxok g' /\ bdeg g' /\
  forall x, sem g' x = had_all (filter (isB g) vs) (sem g) x.
Proof.
  induction vs as [|v vs IH]; intros g ZX BD ND H.
  - exists g. split; [reflexivity|]. split; [apply recol_refl; apply ZX|]. auto.
  - inversion ND as [|? ? N1 N2]; subst. assert (W := zx_wf g ZX). assert (NL := zx_noloop g ZX). assert (Hv := H v (or_introl eq_refl)).
    assert (ST : exists g1, color_step g v = Ok g1 /\ recol (Nat.eqb v) g g1 /\ zxok g1 /\ bdeg g1 /\ forall x, sem g1 x = if isB g v then hap v (sem g) x else sem g x).
    { unfold color_step. rewrite vtype_r_ok by auto. cbn [bind]. unfold isB at 1. destruct (vtype_eqb (vty g v) BOUNDARY) eqn:TB.
      - apply vtype_eqb_eq in TB. destruct (bnd_step v g W NL Hv TB (BD v Hv TB)) as [g1 [E [RC S1]]].
        rewrite neighbors_r_ok by auto. cbn [bind].
        assert (L1 : length (neighbors g v) = 1%nat).
        { destruct (BD v Hv TB) as [u Hu]. assert (NN := neighbors_nd g v W). assert (I : forall a, In a (neighbors g v) <-> a = u) by (intros; rewrite neighbors_spec; apply Hu).
          destruct (neighbors g v) as [|a [|b l]]; auto; [destruct (proj2 (I u) eq_refl)|]. exfalso. inversion NN as [|? ? M1 M2]; subst. apply M1. left.
          rewrite (proj1 (I a)), (proj1 (I b)); auto; [right; left; auto|left; auto]. }
        rewrite L1. cbn [Nat.eqb negb]. exists g1. split; auto. split; auto. split; [|split; auto; eapply recol_bdeg; eauto].
        destruct ZX as [Z1 Z2 Z3 Z4 Z5]. constructor.
        + apply RC.
        + eapply recol_noloop; eauto.
        + intros u Hu. rewrite (rc_vs _ _ _ RC) in Hu. rewrite (rc_ty _ _ _ RC). destruct (Nat.eqb_spec v u) as [<-|]; [rewrite TB; discriminate|apply Z3; auto].
        + intros u Hu. rewrite (rc_vs _ _ _ RC) in Hu. unfold phase. rewrite (rc_ph _ _ _ RC). apply Z4; auto.
        + intros u Hu. rewrite (rc_in _ _ _ RC), (rc_out _ _ _ RC) in Hu. rewrite (rc_vs _ _ _ RC), (recol_isB _ _ _ _ RC). auto.
      - unfold check_color_change, color_change. rewrite vtype_r_ok by auto. cbn [bind].
        assert (Z : vertex_is_zx (vty g v) = true) by (assert (Z := zx_zx g ZX v Hv); destruct (vty g v); auto; try discriminate; congruence).
        rewrite Z. cbn [negb]. destruct (recol_one v g W NL Hv Z) as [g1 [E RC]].
        change (incident_edges (set_type v (toggle_vertex (vty g v)) g) v) with (incident_edges g v). rewrite E. cbn [bind snd].
        assert (HS : forall u, Nat.eqb v u = true -> vertex_is_zx (vty g u) = true) by (intros u Hu; apply Nat.eqb_eq in Hu; subst; auto).
        exists g1. split; auto. split; auto. split; [eapply recol_zxok; eauto|]. split; [eapply recol_bdeg; eauto|].
        intros x. apply (recol_sem _ _ _ RC HS). }
    destruct ST as [g1 [E [RC [ZX1 [BD1 S1]]]]]. cbn [foldM]. rewrite E. cbn [bind].
    destruct (IH g1) as [g' [E2 [RC2 [ZX2 [BD2 S2]]]]]; auto.
    { intros u Hu. rewrite (rc_vs _ _ _ RC). apply H. right; auto. }
    exists g'. split; auto. split; [|split; auto; split; auto].
    + eapply recol_ext; [|eapply recol_trans; eauto]. intros u. cbn beta. unfold nmem at 2. cbn [existsb]. rewrite (Nat.eqb_sym u v). destruct (Nat.eqb_spec v u) as [<-|]; cbn [orb xorb].
      * fold (nmem v vs). rewrite (proj2 (nmem_false v vs) N1). auto.
      * fold (nmem u vs). destruct (nmem u vs); auto.
    + intros x. rewrite S2. cbn [filter].
      rewrite (filter_ext (isB g1) (isB g)) by (intros; eapply recol_isB; eauto).
      destruct (isB g v); [|apply had_all_ext; auto]. unfold had_all. cbn [fold_left]. apply (had_all_ext (filter (isB g) vs)). auto.
Qed.

Theorem color_diagram_ok : forall g, zxok g -> bdeg g -> exists g', color_change_diagram g = Ok g' /\ zxok g' /\ bdeg g' /\
  vertices g' = vertices g /\ ginputs g' = ginputs g /\ goutputs g' = goutputs g /\ gphase g' = gphase g /\ gscalar g' = gscalar g /\
  (forall v, In v (vertices g) -> vty g' v = toggle_vertex (vty g v)) /\ (forall u v, edge_type g' u v = edge_type g u v) /\
  forall x, sem g' x = had_all (bnd g) (sem g) x.
Proof.
  intros g ZX BD. destruct (color_fold (vertices g) g ZX BD) as [g' [E [RC [ZX2 [BD2 S2]]]]]; auto; [apply ZX|].
  exists g'. do 8 (split; [first [exact E|exact ZX2|exact BD2|apply RC]|]). split; [|split; auto].
  - intros v Hv. rewrite (rc_ty _ _ _ RC). rewrite (proj2 (nmem_spec v (vertices g)) Hv). auto.
  - intros u v. rewrite (rc_et _ _ _ RC). destruct (edge_type g u v) as [e|] eqn:EE; auto. cbn [option_map].
    rewrite (proj2 (nmem_spec u _) (edge_in_l _ _ _ _ EE)), (proj2 (nmem_spec v _) (edge_in_r _ _ _ _ (zx_wf g ZX) EE)). auto.
Qed.

Theorem color_change_ok : forall v g, zxok g -> bdeg g -> In v (vertices g) -> exists g', color_change v g = Ok (vertex_is_zx (vty g v), g') /\ zxok g' /\ bdeg g' /\ same_map g g'.
Proof.
  intros v g ZX BD Hv. unfold color_change. rewrite vtype_r_ok by (auto; apply ZX). cbn [bind]. destruct (vertex_is_zx (vty g v)) eqn:Z; cbn [negb].
  - destruct (recol_one v g (zx_wf g ZX) (zx_noloop g ZX) Hv Z) as [g1 [E RC]].
    change (incident_edges (set_type v (toggle_vertex (vty g v)) g) v) with (incident_edges g v). rewrite E. cbn [bind].
    assert (HS : forall u, Nat.eqb v u = true -> vertex_is_zx (vty g u) = true) by (intros u Hu; apply Nat.eqb_eq in Hu; subst; auto).
    exists g1. split; auto. split; [eapply recol_zxok; eauto|]. split; [eapply recol_bdeg; eauto|]. eapply recol_sem; eauto.
  - exists g. split; auto. split; auto. split; auto. repeat split; auto.
Qed.
