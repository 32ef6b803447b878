(** basicrules.pi_commute_Z and pi_commute_X *)
From Coq Require Import Reals ZArith QArith Qcanon List Bool Arith Lia Permutation.
From Verif Require Import CNum Base ScalarModel ScalarProofs GraphModel GraphSem SumLemmas GraphProofs GraphOps
  RulesModel RuleLemmas SpiderProofs IdProofs SimpModel ColorProofs InvProofs BasicRulesModel BasicColor BasicFuse.
Import ListNotations.
Open Scope nat_scope.
Open Scope C_scope.

(** every leg of v can take up a pi: it goes to a Z spider by a Hadamard edge or to an X spider by a plain one *)
Definition pi_legs (g : graph) (v : nat) : Prop := forall w, edge_type g v w <> None ->
  (vty g w = ZSP /\ edge_type g v w = Some HADAMARD) \/ (vty g w = XSP /\ edge_type g v w = Some SIMPLE).

Lemma pi_fold : forall v ns g h, wfg h -> (forall u w, edge_type h u w = edge_type g u w) -> (forall u, vty h u = vty g u) -> (forall w, In w ns -> In w (vertices h)) ->
  pi_legs g v -> (forall w, In w ns -> edge_type g v w <> None) -> foldM (pi_step v) ns h = Ok (add_phases ns 1%Qc h).
Proof.
  induction ns as [|w ns IH]; intros g h W HE HT HV HL HN; [reflexivity|]. cbn [foldM]. unfold pi_step at 1.
  assert (E := HN w (or_introl eq_refl)). destruct (HL w E) as [[T ET]|[T ET]]; rewrite HE, ET; cbn [of_opt bind]; rewrite vtype_r_ok by (auto; apply HV; left; auto); cbn [bind]; rewrite HT, T; cbn [vtype_eqb etype_eqb andb orb bind].
  - apply (IH g); auto; [apply add_to_phase_wfg; auto; apply HV; left; auto|intros; apply HV; right; auto|intros; apply HN; right; auto].
  - apply (IH g); auto; [apply add_to_phase_wfg; auto; apply HV; left; auto|intros; apply HV; right; auto|intros; apply HN; right; auto].
Qed.
Lemma cprod_sgn2 : forall (x : assignment) l, cprod (fun w => sgn (x w)) l * cprod (fun w => sgn (x w)) l = C1.
Proof. induction l as [|a l IH]; cbn [cprod]; [ring|]. transitivity (sgn (x a) * sgn (x a) * (cprod (fun w => sgn (x w)) l * cprod (fun w => sgn (x w)) l)); [ring|]. rewrite IH. destruct (x a); unfold sgn; ring. Qed.

Theorem pi_Z_ok : forall v g, zxok g -> bdeg g -> In v (vertices g) -> vty g v = ZSP -> pi_legs g v ->
  exists g', pi_commute_Z v g = Ok (true, g') /\ zxok g' /\ bdeg g' /\ ginputs g' = ginputs g /\ goutputs g' = goutputs g /\
  vertices g' = vertices g /\ (forall u, vty g' u = vty g u) /\ (forall u w, edge_type g' u w = edge_type g u w) /\
  forall b, sem g b = cexp (phase g v) * sem g' b.
Proof.
  intros v g ZX BD Hv T HL. assert (W := zx_wf g ZX). assert (NL := zx_noloop g ZX). unfold pi_commute_Z, check_pi_commute_Z.
  rewrite vtype_r_ok by auto. cbn [bind]. rewrite T. cbn [vtype_eqb negb].
  set (h := set_phase v (- phase g v)%Qc g). assert (Wh : wfg h) by (apply set_phase_wfg; auto).
  rewrite neighbors_r_ok by auto. cbn [bind]. change (neighbors h v) with (neighbors g v). set (ns := neighbors g v).
  rewrite (pi_fold v ns g h) by (auto; intros w Hw; try (apply (neighbors_in g v); auto); apply neighbors_spec in Hw; auto). cbn [bind].
  set (g' := add_phases ns 1%Qc h). exists g'. split; auto.
  assert (NSB : forall w, In w ns -> isB g w = false).
  { intros w Hw. apply neighbors_spec in Hw. unfold isB. destruct (HL w Hw) as [[-> _]|[-> _]]; auto. }
  set (L := [v] ++ keep [v] g).
  assert (PV : Permutation (vertices g) L).
  { apply vertices_split; auto; [constructor; [intros []|constructor]|intros u [<-|[]]; auto]. }
  assert (NDL : NoDup L) by (eapply Permutation_NoDup; [exact PV|apply W]).
  destruct (add_phases_spec L ns 1%Qc h Wh NDL) as [W' [F' [A' [S' [P' I']]]]].
  { intros w Hw. assert (Iw : In w (vertices g)) by (apply (neighbors_in g v); auto). split; [eapply Permutation_in; [exact PV|exact Iw]|]. split; [exact Iw|]. apply NSB; auto. }
  fold g' in W', F', A', S', P', I'.
  assert (F : same_frame g g') by (eapply same_frame_trans; [apply set_phase_frame|exact F']).
  assert (ET : forall u w, edge_type g' u w = edge_type g u w) by (intros; unfold edge_type; rewrite A'; auto).
  assert (VT : forall u, vty g' u = vty g u) by (intros; apply same_frame_vty; auto).
  split; [|split; [|split; [apply F|split; [apply F|split; [apply F|split; [exact VT|split; [exact ET|]]]]]]].
  - apply (frame_zxok g); auto.
    + intros u. rewrite ET. apply NL.
    + apply allph_add_phases; [apply in02_closed| |left; apply quarter_1|].
      * intros w Hw. apply (neighbors_in g v); auto.
      * apply allph_set_phase; [apply qmod2_range|exact (zx_ph g ZX)].
  - intros b Hb Tb. rewrite (proj1 F) in Hb. rewrite VT in Tb. destruct (BD b Hb Tb) as [u Hu]. exists u. intros w. rewrite ET. apply Hu.
  - intros b.
    assert (Bv : isB g v = false) by (unfold isB; rewrite T; auto).
    rewrite (sem_split g [v] (keep [v] g) b W PV) by (intros u [<-|[]]; auto).
    rewrite (sem_split g' [v] (keep [v] g) b W') by ((rewrite (proj1 F); exact PV) || (intros u [<-|[]]; rewrite (same_frame_isB g g') by auto; auto)).
    rewrite <- sumv_scal. rewrite (filter_ext (fun u => negb (isB g' u)) (fun u => negb (isB g u))) by (intros; rewrite (same_frame_isB g g') by auto; auto).
    apply sumv_ext. intros x. rewrite one_sum by apply keep_no.
    assert (X : sumv [v] (integL ([v] ++ keep [v] g) g') x = integL (keep [v] g) g x * cprod (fun w => sgn (x w)) ns * sumv [v] (loc h [v] (keep [v] g)) x).
    { rewrite (sumv_ext _ _ (fun y => cprod (fun w => sgn (y w)) ns * integL ([v] ++ keep [v] g) h y)).
      - rewrite sumv_mult_indep.
        + rewrite one_sum by apply keep_no. unfold h at 1. rewrite (integL_set_phase_out _ v _ g) by apply keep_no. ring.
        + intros y u c [<-|[]]. apply cprod_ext. intros w Hw. rewrite upd_other; auto. intros ->. apply neighbors_spec in Hw. apply Hw, NL.
      - intros y. fold L. rewrite I'. rewrite (cprod_ext _ (fun w => ephase 1%Qc (y w)) (fun w => sgn (y w))) by (intros; apply ephase_1). ring. }
    rewrite X. clear X.
    rewrite loc_single by (auto using keep_nd, keep_no, nbr_keep).
    rewrite (loc_single h) by (auto using keep_nd, keep_no; change (neighbors h v) with (neighbors g v); auto using nbr_keep).
    change (neighbors h v) with ns. fold ns. change (ew h) with (ew g).
    assert (EW : forall c w, In w ns -> ew g v w c (x w) = sq2p (-1) * sgn (c && x w)).
    { intros c w Hw. apply neighbors_spec in Hw. unfold ew, isX. rewrite T. destruct (HL w Hw) as [[TW EWT]|[TW EWT]]; rewrite EWT, TW; reflexivity. }
    assert (E1 : cprod (fun u => ew g v u true (x u)) ns = cprod (fun u => ew g v u false (x u)) ns * cprod (fun w => sgn (x w)) ns).
    { rewrite <- cprod_mult. apply cprod_ext. intros w Hw. rewrite !EW by auto. cbn [andb]. unfold sgn at 2. ring. }
    rewrite E1. unfold pw. change (isB h v) with (isB g v). rewrite Bv. unfold h. rewrite phase_set_phase, Nat.eqb_refl, !ephase_mod2. unfold ephase.
    assert (S2 := cprod_sgn2 x ns). assert (CC : cexp (phase g v) * cexp (- phase g v)%Qc = C1) by (rewrite <- cexp_add; replace (phase g v + - phase g v)%Qc with 0%Qc by ring; apply cexp_0).
    set (K := cprod (fun w => sgn (x w)) ns) in *. set (E0 := cprod (fun u => ew g v u false (x u)) ns).
    transitivity (integL (keep [v] g) g x * (cexp (phase g v) * K * E0 + cexp (phase g v) * cexp (- phase g v)%Qc * (K * K) * E0)); [rewrite CC, S2|]; ring.
Qed.

Lemma hap_scal : forall v c F x, hap v (fun y => c * F y) x = c * hap v F x.
Proof. intros. unfold hap. ring. Qed.
Lemma had_all_scal : forall vs c F x, had_all vs (fun y => c * F y) x = c * had_all vs F x.
Proof.
  unfold had_all. induction vs as [|v vs IH]; intros c F x; cbn [fold_left]; auto. rewrite <- IH. apply (had_all_ext vs). intros. apply hap_scal.
Qed.
Lemma bnd_same : forall g g', vertices g' = vertices g -> (forall v, In v (vertices g) -> isB g' v = isB g v) -> bnd g' = bnd g.
Proof. intros g g' V T. unfold bnd. rewrite V. apply filter_ext_in. auto. Qed.

Definition pi_legs_X (g : graph) (v : nat) : Prop := forall w, edge_type g v w <> None ->
  (vty g w = XSP /\ edge_type g v w = Some HADAMARD) \/ (vty g w = ZSP /\ edge_type g v w = Some SIMPLE).
Theorem pi_X_ok : forall v g, zxok g -> bdeg g -> In v (vertices g) -> vty g v = XSP -> pi_legs_X g v ->
  exists g', pi_commute_X v g = Ok (true, g') /\ zxok g' /\ bdeg g' /\ ginputs g' = ginputs g /\ goutputs g' = goutputs g /\
  forall b, sem g b = cexp (phase g v) * sem g' b.
Proof.
  intros v g ZX BD Hv T HL. unfold pi_commute_X.
  destruct (color_diagram_ok g ZX BD) as [g1 [E1 [Z1 [B1 [V1 [I1 [O1 [P1 [S1 [T1 [ET1 M1]]]]]]]]]]]. rewrite E1. cbn [bind].
  destruct (pi_Z_ok v g1 Z1 B1) as [g2 [E2 [Z2 [B2 [I2 [O2 [V2 [T2 [ET2 M2]]]]]]]]].
  { rewrite V1; auto. }
  { rewrite T1, T by auto. auto. }
  { intros w Hw. rewrite ET1 in *. assert (Iw : In w (vertices g)) by (destruct (edge_type g v w) eqn:Q; [eapply edge_in_r; eauto; apply ZX|congruence]).
    rewrite T1 by auto. destruct (HL w Hw) as [[-> ->]|[-> ->]]; auto. }
  rewrite E2. cbn [bind].
  destruct (color_diagram_ok g2 Z2 B2) as [g3 [E3 [Z3 [B3 [V3 [I3 [O3 [P3 [S3 [T3 [ET3 M3]]]]]]]]]]]. rewrite E3. cbn [bind].
  exists g3. split; auto. split; auto. split; auto. split; [congruence|]. split; [congruence|]. intros b.
  assert (BB : bnd g2 = bnd g).
  { apply bnd_same; [congruence|]. intros u Hu. unfold isB. rewrite T2, T1 by auto. apply toggle_isB. }
  rewrite M3, BB, <- had_all_scal. unfold phase at 1. rewrite <- P1. fold (phase g1 v).
  rewrite (had_all_ext _ _ (had_all (bnd g) (sem g))); [symmetry; apply had_all_invol|]. intros y. rewrite <- M1. symmetry. apply M2.
Qed.
