(** mbqc.py: apply_pauli puts the Pauli on the output when the output hangs on a plain wire. *)
From Coq Require Import Reals ZArith QArith Qcanon List Bool Arith Lia Lra Permutation Ring.
From Verif Require Import CNum Base ScalarModel ScalarProofs GraphModel GraphSem SumLemmas GraphProofs GraphOps RulesModel RuleLemmas
  SpiderProofs IsoProofs IdProofs LcompProofs PivotProofs PivotMatch GrowProofs StoreProofs InvProofs BfixProofs TotalProofs AmpProofs ZXFacts.
From Verif Require ExtractNbrs BasicColor ColorProofs BackRound.
From Verif Require Import CongModel CongProofs MbqcModel MbqcProofs.
Import ListNotations.
Open Scope nat_scope.

Lemma at_pos_same : forall pos g g' u, qubit g' u = qubit g u -> row g' u = row g u -> at_pos pos g' u = at_pos pos g u.
Proof. intros pos g g' u H1 H2. unfold at_pos. rewrite H1, H2. reflexivity. Qed.
Lemma pauli_run : forall pos t g v g1, wfg g -> here pos g v -> pauli1 pos t (goutputs g) (g, false) v = Ok (g1, true) ->
  (forall u, In u (vertices g) -> u <> v -> qubit g1 u = qubit g u /\ row g1 u = row g u) -> apply_pauli pos t 1 g = Ok g1.
Proof.
  intros pos t g v g1 W H R Q. unfold apply_pauli. change (qeqb 1 0) with false. change (qeqb 1 1) with true. cbn [negb].
  rewrite (fold_one _ (pauli1 pos t (goutputs g)) (fun s => fst s = g) (fun s => fst s = g1) (vertices g) v (g, false)); auto; try exact (wf_nd g W); try exact (proj1 H).
  - rewrite R. reflexivity.
  - intros [h f] u Hu D E. cbn [fst] in E. subst h. unfold pauli1. rewrite (here_at pos g v u H Hu), (proj2 (Nat.eqb_neq u v)) by auto. auto.
  - intros [h f] u Hu D E. cbn [fst] in E. subst h. unfold pauli1. destruct (Q u Hu D) as [Q1 Q2]. rewrite (at_pos_same pos g g1 u Q1 Q2), (here_at pos g v u H Hu), (proj2 (Nat.eqb_neq u v)) by auto. auto.
  - intros s1 E. rewrite R in E. injection E as <-. reflexivity.
Qed.
Lemma pauli_found : forall pos (t : vtype) g v, here pos g v -> In v (goutputs g) -> at_pos pos g v = true /\ existsb (Nat.eqb v) (goutputs g) = true.
Proof. intros pos t g v H O. split; [rewrite (here_at pos g v v H (proj1 H)), Nat.eqb_refl; auto|apply memb_in; auto]. Qed.

(** the weight of the only wire of a boundary vertex *)
Lemma one_wire : forall g v w, wfg g -> noloop g -> In v (vertices g) -> vty g v = BOUNDARY -> neighbors g v = [w] ->
  w <> v /\ In w (vertices g) /\ forall y, integL (vertices g) g y = (integL (keep [v] g) g y * ew g v w (y v) (y w))%C.
Proof.
  intros g v w W NL Hv Bv NW. assert (Iw : In w (neighbors g v)) by (rewrite NW; left; auto).
  split; [intros ->; apply neighbors_spec in Iw; apply Iw, NL|]. split; [eapply neighbors_in; eauto|].
  intros y. assert (PG := vertices_split g v W Hv). rewrite (integL_perm _ _ _ _ W PG). cbn [app]. rewrite (meas_loc g v ZSP 0%Qc [] W Hv (NL v)) by auto.
  rewrite NW. cbn [cprod map]. unfold pw, isB. rewrite Bv. cbn [vtype_eqb]. ring.
Qed.
Lemma eph_sgn : forall b, ephase 1 b = sgn b.
Proof. intros []; unfold ephase, sgn; [apply cexp_1|reflexivity]. Qed.
Lemma v_not_internal : forall g v, vty g v = BOUNDARY -> ~ In v (internal g).
Proof. intros g v B X. unfold internal in X. apply filter_In in X. unfold isB in X. rewrite B in X. destruct X. discriminate. Qed.
Lemma add_to_phase_pos : forall w p g u, qubit (add_to_phase w p g) u = qubit g u /\ row (add_to_phase w p g) u = row g u.
Proof. intros. split; reflexivity. Qed.

(** Z on a Z spider *)
Lemma pauli_zz : forall pos g v w, wfg g -> noloop g -> here pos g v -> vty g v = BOUNDARY -> In v (goutputs g) -> neighbors g v = [w] -> edge_type g v w = Some SIMPLE -> vty g w = ZSP ->
  exists g', apply_pauli pos ZSP 1 g = Ok g' /\ wfg g' /\ noloop g' /\ ginputs g' = ginputs g /\ goutputs g' = goutputs g /\ forall b, sem g' b = (sgn (b v) * sem g b)%C.
Proof.
  intros pos g v w W NL H Bv O NW E Tw. destruct (one_wire g v w W NL (proj1 H) Bv NW) as [D [Iw X]]. destruct (pauli_found pos ZSP g v H O) as [A1 A2].
  exists (add_to_phase w 1%Qc g). split.
  { apply pauli_run with (v := v); auto. unfold pauli1. rewrite A1, A2, NW, Tw. reflexivity. }
  split; [apply add_to_phase_wfg; auto|]. split; [exact NL|]. split; [reflexivity|]. split; [reflexivity|]. intros b.
  unfold sem. change (internal (add_to_phase w 1%Qc g)) with (internal g). change (vertices (add_to_phase w 1%Qc g)) with (vertices g).
  rewrite (sumv_ext _ _ (fun y => sgn (y v) * integL (vertices g) g y)%C).
  - rewrite (sumv_mult_indep _ (fun y => sgn (y v))); auto. intros y u c Hu. rewrite upd_other; auto. intros ->. apply (v_not_internal g u Bv); auto.
  - intros y. rewrite integL_add_to_phase; [|apply W|auto|unfold isB; rewrite Tw; auto]. rewrite X, eph_sgn. unfold ew, isX. rewrite E, Tw, Bv. cbn [vtype_eqb xorb option_map tog wt]. unfold dlt. destruct (y v), (y w); cbn [Bool.eqb]; ring.
Qed.
(** X on an X spider *)
Lemma pauli_xx : forall pos g v w, wfg g -> noloop g -> here pos g v -> vty g v = BOUNDARY -> In v (goutputs g) -> neighbors g v = [w] -> edge_type g v w = Some SIMPLE -> vty g w = XSP ->
  exists g', apply_pauli pos XSP 1 g = Ok g' /\ wfg g' /\ noloop g' /\ ginputs g' = ginputs g /\ goutputs g' = goutputs g /\ forall b, sem g' b = sem g (upd b v (negb (b v))).
Proof.
  intros pos g v w W NL H Bv O NW E Tw. destruct (one_wire g v w W NL (proj1 H) Bv NW) as [D [Iw X]]. destruct (pauli_found pos XSP g v H O) as [A1 A2].
  exists (add_to_phase w 1%Qc g). split.
  { apply pauli_run with (v := v); auto. unfold pauli1. rewrite A1, A2, NW, Tw. reflexivity. }
  split; [apply add_to_phase_wfg; auto|]. split; [exact NL|]. split; [reflexivity|]. split; [reflexivity|]. intros b.
  assert (NI := v_not_internal g v Bv). unfold sem. change (internal (add_to_phase w 1%Qc g)) with (internal g). change (vertices (add_to_phase w 1%Qc g)) with (vertices g).
  rewrite BasicColor.sumv_upd_in by auto. apply sumv_ext_on. intros y Hy. rewrite <- (Hy v NI).
  assert (Nc : ~ In v (keep [v] g)) by (rewrite in_keep; simpl; tauto).
  rewrite integL_add_to_phase; [|apply W|auto|unfold isB; rewrite Tw; auto]. rewrite !X, integL_indep, eph_sgn by auto. rewrite upd_same, upd_other by auto. unfold ew, isX. rewrite E, Tw, Bv. cbn [vtype_eqb xorb option_map tog toggle_edge wt].
  unfold sgn. destruct (y v), (y w); cbn [andb negb]; ring.
Qed.
(** Z on an X spider with one further plain wire to a Z spider *)
Lemma pauli_zx : forall pos g v w w1, wfg g -> noloop g -> here pos g v -> vty g v = BOUNDARY -> In v (goutputs g) -> neighbors g v = [w] -> edge_type g v w = Some SIMPLE -> vty g w = XSP ->
  filter (fun n => negb (Nat.eqb n v)) (neighbors g w) = [w1] -> vty g w1 = ZSP -> edge_type g w w1 = Some SIMPLE ->
  exists g', apply_pauli pos ZSP 1 g = Ok g' /\ wfg g' /\ noloop g' /\ ginputs g' = ginputs g /\ goutputs g' = goutputs g /\ forall b, sem g' b = (cexp (- phase g w)%Qc * sgn (b v) * sem g b)%C.
Proof.
  intros pos g v w w1 W NL H Bv O NW E Tw F T1 E1. destruct (one_wire g v w W NL (proj1 H) Bv NW) as [D [Iw _]]. destruct (pauli_found pos ZSP g v H O) as [A1 A2].
  set (p := phase g w). set (g1 := set_phase w (- p)%Qc g). set (g' := add_to_phase w1 1%Qc g1). exists g'. split.
  { apply pauli_run with (v := v); auto. unfold pauli1. rewrite A1, A2, NW, Tw. cbn [vtype_eqb]. rewrite F, T1. reflexivity. }
  assert (Q1 : In w1 (neighbors g w) /\ w1 <> v). { assert (X : In w1 (filter (fun n => negb (Nat.eqb n v)) (neighbors g w))) by (rewrite F; left; auto). apply filter_In in X. destruct X as [X1 X2]. split; auto. intros ->. rewrite Nat.eqb_refl in X2. discriminate. }
  destruct Q1 as [N1 D1]. assert (I1 : In w1 (vertices g)) by (eapply neighbors_in; eauto). assert (D2 : w1 <> w) by (intros ->; congruence).
  assert (W1 : wfg g1) by (apply set_phase_wf; auto). assert (W' : wfg g') by (apply add_to_phase_wfg; auto).
  split; auto. split; [exact NL|]. split; [reflexivity|]. split; [reflexivity|]. intros b.
  assert (PG : Permutation (vertices g) ([w] ++ keep [w] g)) by (apply vertices_split; auto).
  assert (Nc : ~ In w (keep [w] g)) by (rewrite in_keep; simpl; tauto).
  rewrite (sem_split g' [w] (keep [w] g)); [|auto|exact PG|intros u [<-|[]]; change (isB g' w) with (isB g w); unfold isB; rewrite Tw; auto].
  rewrite (sem_split g [w] (keep [w] g)); [|auto|exact PG|intros u [<-|[]]; unfold isB; rewrite Tw; auto].
  change (filter (fun v0 => negb (isB g' v0)) (keep [w] g)) with (filter (fun v0 => negb (isB g v0)) (keep [w] g)).
  rewrite <- (sumv_mult_indep _ (fun y => cexp (- p)%Qc * sgn (y v))%C).
  2:{ intros y u c Hu. rewrite upd_other; auto. intros ->. apply filter_In in Hu. unfold isB in Hu. rewrite Bv in Hu. destruct Hu. discriminate. }
  apply sumv_ext. intros y. cbn [sumv app].
  assert (ND : NoDup (w :: keep [w] g)) by (eapply Permutation_NoDup; [exact PG|apply W]).
  assert (Ivw : In v (neighbors g w)) by (apply neighbors_spec; rewrite (wf_sym g W), E; discriminate).
  assert (IG : forall c, integL (w :: keep [w] g) g (upd y w c) = (integL (keep [w] g) g y * (ephase p c * (sq2p (-1) * sgn (c && y v)) * (sq2p (-1) * sgn (c && y w1))))%C).
  { intros c. change (w :: keep [w] g) with ([w] ++ keep [w] g). rewrite integL_app. fold (loc g [w] (keep [w] g) (upd y w c)). rewrite (loc_one g w (keep [w] g) [v; w1]); auto.
    - rewrite integL_indep by auto. cbn [cprod map]. rewrite upd_same, !upd_other by auto. unfold pw, isB, ew, isX. rewrite (wf_sym g W w v), E, E1, Tw, T1, Bv. cbn [vtype_eqb xorb option_map tog toggle_edge wt]. fold p. ring.
    - apply keep_nd; auto.
    - constructor; [intros [X|[]]; auto|]. constructor; [auto|constructor].
    - intros u. rewrite in_keep, <- neighbors_spec. simpl. split.
      + intros [<-|[<-|[]]]; (split; [split; [auto|intros [X|[]]; auto]|auto]). apply H.
      + intros [_ X]. destruct (Nat.eq_dec u v) as [->|Du]; auto. assert (Y : In u (filter (fun n => negb (Nat.eqb n v)) (neighbors g w))) by (apply filter_In; split; auto; rewrite (proj2 (Nat.eqb_neq u v)); auto). rewrite F in Y. destruct Y as [->|[]]; auto. }
  assert (IH : forall z, integL (w :: keep [w] g) g' z = (integL (w :: keep [w] g) g z * ephase (- p - p)%Qc (z w) * ephase 1 (z w1))%C).
  { intros z. unfold g'. rewrite integL_add_to_phase; [|auto|right; rewrite in_keep; simpl; split; auto; intros [X|[]]; auto|change (isB g1 w1) with (isB g w1); unfold isB; rewrite T1; auto].
    unfold g1. rewrite integL_set_phase; [|auto|left; auto|unfold isB; rewrite Tw; auto]. reflexivity. }
  rewrite !IH, !IG. rewrite !upd_same, !upd_other by auto. assert (Hp := cexp_opp_r p). replace (- p - p)%Qc with (- p + - p)%Qc by ring.
  unfold ephase. rewrite cexp_add, cexp_1. unfold sgn. set (Z := integL (keep [w] g) g y). revert Hp. generalize (cexp p) (cexp (- p)%Qc) (sq2p (-1)). intros e f h Hp.
  destruct (y v), (y w1); cbn [andb].
  - transitivity (Z * h * h * (- C1 - f * (e * f)))%C; [ring|]. transitivity (- (Z * h * h * (f + (e * f))))%C; [rewrite Hp; ring|ring].
  - transitivity (Z * h * h * (C1 - f * (e * f)))%C; [ring|]. transitivity (Z * h * h * ((e * f) - f))%C; [rewrite Hp; ring|ring].
  - transitivity (Z * h * h * (- C1 + f * (e * f)))%C; [ring|]. transitivity (Z * h * h * (f - (e * f)))%C; [rewrite Hp; ring|ring].
  - transitivity (Z * h * h * (C1 + f * (e * f)))%C; [ring|]. transitivity (Z * h * h * (f + (e * f)))%C; [rewrite Hp; ring|ring].
Qed.
(** X on a Z spider or on a bare wire: a new X spider with pi on the output wire *)
Lemma newe : forall s t et g, wfg g -> noloop g -> s <> t -> In s (vertices g) -> In t (vertices g) -> edge_type g s t = None ->
  exists g', add_edge s t et g = Ok g' /\ wfg g' /\ noloop g' /\ same_frame g g' /\
    (forall u v, edge_type g' u v = if pair_hit s t u v then Some et else edge_type g u v) /\
    forall x, integL (vertices g) g' x = (integL (vertices g) g x * nw g et s t x)%C.
Proof.
  intros s t et g W NL D Is It E. destruct (add_edge_ok s t et g W D Is It (or_introl E)) as [g' A]. destruct (ExtractNbrs.fresh_edge _ _ _ _ _ W D E A) as [W' [F [P [S [_ [_ H]]]]]].
  exists g'. split; auto. split; auto. split; [eapply noloop_pair; eauto|]. split; auto. split; auto.
  intros x. apply edge_diff; auto using wf_nd.
Qed.
Lemma pauli_xz : forall pos g v w, wfg g -> noloop g -> here pos g v -> vty g v = BOUNDARY -> In v (goutputs g) -> neighbors g v = [w] -> edge_type g v w = Some SIMPLE -> vty g w = ZSP \/ vty g w = BOUNDARY ->
  exists g', apply_pauli pos XSP 1 g = Ok g' /\ wfg g' /\ noloop g' /\ ginputs g' = ginputs g /\ goutputs g' = goutputs g /\ forall b, sem g' b = sem g (upd b v (negb (b v))).
Proof.
  intros pos g v w W NL H Bv O NW E Tw. assert (Hv := proj1 H). destruct (one_wire g v w W NL Hv Bv NW) as [D [Iw X]]. destruct (pauli_found pos XSP g v H O) as [A1 A2].
  assert (D' : v <> w) by auto.
  destruct (remove_edge_ok v w g SIMPLE W D' E) as [g1 R1]. destruct (remove_edge_spec _ _ _ _ W D' R1) as [W1 [F1 [P1 [S1 [_ [_ [_ E1]]]]]]].
  assert (VT1 : forall u, vty g1 u = vty g u) by (intros; apply same_frame_vty; auto). assert (V1 : vertices g1 = vertices g) by apply F1.
  destruct (add_vertex XSP (grid_q pos + frac 2 5)%Qc (grid_r pos - frac 2 5)%Qc (Some 1%Qc) g1) as [g2 c] eqn:R2.
  assert (X2 := fun x => integL_add_vertex _ _ _ _ _ _ _ x W1 R2). assert (PO := BackRound.add_vertex_pos _ _ _ _ _ _ _ R2).
  destruct (add_vertex_spec _ _ _ _ _ _ _ W1 R2) as [Ec [W2 [V2 [E2 [_ [T2 [P2 [I2 [O2 S2]]]]]]]]].
  assert (Fc : ~ In c (vertices g)) by (rewrite <- V1; apply vertices_pv_fresh; auto). rewrite V1 in V2.
  assert (Dwc : w <> c) by (intros ->; auto). assert (Dvc : v <> c) by (intros ->; auto).
  assert (En : forall u, edge_type g2 c u = None) by (intros u; rewrite E2; assert (Q : ~ In c (vertices g1)) by (rewrite V1; auto); exact (proj1 (edge_none_out g1 c u W1 Q))).
  assert (Tc : vty g2 c = XSP) by (rewrite T2, Nat.eqb_refl; auto).
  assert (To : forall u, u <> c -> vty g2 u = vty g u) by (intros u Du; rewrite T2, (proj2 (Nat.eqb_neq u c)) by auto; apply VT1).
  assert (NL2 : noloop g2). { intros u. rewrite E2, E1, pair_hit_false by (intros Q; injection Q; intros; congruence). apply NL. }
  destruct (newe w c SIMPLE g2 W2 NL2 Dwc) as [g3 [R3 [W3 [NL3 [F3 [E3 X3]]]]]]; [rewrite V2, in_app_iff; auto|rewrite V2, in_app_iff; simpl; auto|rewrite (wf_sym g2 W2); apply En|].
  assert (VT3 : forall u, vty g3 u = vty g2 u) by (intros; apply same_frame_vty; auto). assert (V3 : vertices g3 = vertices g2) by apply F3.
  destruct (newe c v SIMPLE g3 W3 NL3) as [g4 [R4 [W4 [NL4 [F4 [E4 X4]]]]]]; [auto|rewrite V3, V2, in_app_iff; simpl; auto|rewrite V3, V2, in_app_iff; auto|rewrite E3, pair_hit_false by (intros Q; injection Q; intros; congruence); apply En|].
  assert (VT4 : forall u, vty g4 u = vty g2 u) by (intros; rewrite <- VT3; apply same_frame_vty; auto). assert (V4 : vertices g4 = vertices g ++ [c]) by (rewrite <- V2, <- V3; apply F4).
  exists g4. split.
  { apply pauli_run with (v := v); auto.
    - unfold pauli1. rewrite A1, A2, NW. replace (vtype_eqb XSP (vty g w)) with false by (destruct Tw as [-> | ->]; auto). cbn [vtype_eqb]. rewrite R1. cbn [bind]. rewrite R2, R3. cbn [bind]. rewrite R4. reflexivity.
    - intros u Hu _. assert (Du : u <> c) by (intros ->; auto). destruct (PO u) as [Q1 Q2]. rewrite (proj2 (Nat.eqb_neq u c)) in Q1, Q2 by auto.
      destruct F1 as [_ [_ [_ [_ [_ [Fq1 Fr1]]]]]]. destruct F3 as [_ [_ [_ [_ [_ [Fq3 Fr3]]]]]]. destruct F4 as [_ [_ [_ [_ [_ [Fq4 Fr4]]]]]].
      unfold qubit, row. rewrite Fq4, Fq3, Fr4, Fr3, Q1, Q2, Fq1, Fr1. auto. }
  split; auto. split; auto.
  split; [destruct F4 as [_ [_ [-> _]]]; destruct F3 as [_ [_ [-> _]]]; rewrite I2; apply F1|]. split; [destruct F4 as [_ [_ [_ [-> _]]]]; destruct F3 as [_ [_ [_ [-> _]]]]; rewrite O2; apply F1|].
  intros b. assert (NI := v_not_internal g v Bv).
  rewrite (sem_split g4 [c] (vertices g)); [|auto|rewrite V4; apply Permutation_app_comm|intros u [<-|[]]; unfold isB; rewrite VT4, Tc; auto].
  replace (filter (fun u => negb (isB g4 u)) (vertices g)) with (internal g).
  2:{ unfold internal. apply filter_ext_in. intros u Hu. unfold isB. rewrite VT4, To; auto. intros ->. auto. }
  unfold sem. rewrite BasicColor.sumv_upd_in by auto. apply sumv_ext_on. intros y Hy. rewrite <- (Hy v NI). cbn [sumv app].
  assert (Nc : ~ In v (keep [v] g)) by (rewrite in_keep; simpl; tauto).
  assert (IG1 : forall z, integL (vertices g) g z = (integL (vertices g) g1 z * dlt (z v) (z w))%C).
  { intros z. rewrite (edge_diff (vertices g) g1 g v w SIMPLE z); auto using wf_nd.
    - unfold nw, isX. rewrite !VT1, Bv. destruct Tw as [-> | ->]; reflexivity.
    - unfold same_frame in *. intuition congruence.
    - rewrite E1, pair_hit_st. auto.
    - intros u u'. rewrite E1. destruct (pair_hit v w u u') eqn:Hh; auto. destruct (pair_hit_true _ _ _ _ Hh) as [[-> ->]|[-> ->]]; auto. rewrite (wf_sym g W); auto. }
  assert (IV : forall z s, integL (vertices g) g1 (upd z v s) = integL (vertices g) g1 z).
  { assert (K1 : keep [v] g1 = keep [v] g) by (unfold keep; rewrite V1; auto).
    assert (Q : forall z, integL (vertices g) g1 z = integL (keep [v] g) g1 z).
    { intros z. assert (PG : Permutation (vertices g) ([v] ++ keep [v] g)) by (apply vertices_split; auto). rewrite (integL_perm _ _ _ _ W1 PG), integL_app. fold (loc g1 [v] (keep [v] g) z).
      rewrite (loc_one g1 v (keep [v] g) []); auto; [|apply keep_nd; auto|constructor|].
      - cbn [cprod map]. unfold pw, isB. rewrite VT1, Bv. cbn [vtype_eqb]. ring.
      - intros u. split; [intros []|]. intros [_ Q]. apply Q. rewrite E1. destruct (pair_hit v w v u) eqn:Hh; auto. destruct (edge_type g v u) eqn:Eu; auto. exfalso.
        assert (Iu : In u (neighbors g v)) by (apply neighbors_spec; rewrite Eu; discriminate). rewrite NW in Iu. destruct Iu as [<-|[]]. rewrite pair_hit_st in Hh. discriminate. }
    intros z s. rewrite !Q. apply integL_indep; auto. }
  assert (IE : forall a, integL (c :: vertices g) g4 (upd y c a) = (integL (vertices g) g1 y * ephase 1 a * (sq2p (-1) * sgn (y w && a)) * (sq2p (-1) * sgn (a && y v)))%C).
  { intros a. assert (PM : Permutation (c :: vertices g) (vertices g3)) by (rewrite V3, V2; change (c :: vertices g) with ([c] ++ vertices g); apply Permutation_app_comm).
    rewrite (integL_perm _ _ _ _ W4 PM), X4, V3, X3, X2, V1. rewrite integL_indep by auto. cbn [vtype_eqb]. unfold nw, isX. rewrite !VT3, Tc, !To, Bv by auto. rewrite upd_same, !upd_other by auto.
    destruct Tw as [-> | ->]; cbn [vtype_eqb xorb tog toggle_edge wt option_map]; reflexivity. }
  rewrite !IE, IG1, IV, upd_same, upd_other by auto. rewrite !eph_sgn. set (Z := integL (vertices g) g1 y). assert (Hh := sq2p_half). unfold sgn, dlt.
  destruct (y v), (y w); cbn [andb negb Bool.eqb]; try ring.
  - transitivity (Z * (sq2p (-1) * sq2p (-1) * (C1 + C1)))%C; [ring|rewrite Hh; ring].
  - transitivity (Z * (sq2p (-1) * sq2p (-1) * (C1 + C1)))%C; [ring|rewrite Hh; ring].
Qed.
(** Z on a bare wire is refused *)
Lemma pauli_bare : forall pos g v w, wfg g -> here pos g v -> In v (goutputs g) -> neighbors g v = [w] -> vty g w = BOUNDARY -> neighbors g w = [v] -> apply_pauli pos ZSP 1 g = Err ValueError.
Proof.
  intros pos g v w W H O NW Tw NW2. destruct (pauli_found pos ZSP g v H O) as [A1 A2].
  assert (R : pauli1 pos ZSP (goutputs g) (g, false) v = Err ValueError) by (unfold pauli1; rewrite A1, A2, NW, Tw, NW2; cbn [vtype_eqb filter]; rewrite Nat.eqb_refl; reflexivity).
  unfold apply_pauli. change (qeqb 1 0) with false. change (qeqb 1 1) with true. cbn [negb].
  rewrite (fold_one _ (pauli1 pos ZSP (goutputs g)) (fun s => fst s = g) (fun s => False) (vertices g) v (g, false)); auto; try exact (wf_nd g W); try exact (proj1 H).
  - rewrite R. reflexivity.
  - intros [h f] u Hu D E. cbn [fst] in E. subst h. unfold pauli1. rewrite (here_at pos g v u H Hu), (proj2 (Nat.eqb_neq u v)) by auto. auto.
  - intros s u _ _ [].
  - intros s1 E. rewrite R in E. discriminate.
Qed.
(** the phase 0 does nothing, any other phase than 0 and 1 is refused, and so is a place without a vertex or with a measured one *)
Lemma pauli_phase : forall pos t p g, (p = 0%Qc -> apply_pauli pos t p g = Ok g) /\ (p <> 0%Qc -> p <> 1%Qc -> apply_pauli pos t p g = Err ValueError).
Proof.
  intros pos t p g. unfold apply_pauli. split; [intros ->; reflexivity|]. intros H0 H1. destruct (qeqb_spec p 0%Qc); [contradiction|]. destruct (qeqb_spec p 1%Qc); [contradiction|]. reflexivity.
Qed.
Lemma pauli_nowhere : forall pos t g, (forall u, In u (vertices g) -> ~ lies pos g u) -> apply_pauli pos t 1 g = Err ValueError.
Proof.
  intros pos t g H. unfold apply_pauli. change (qeqb 1 0) with false. change (qeqb 1 1) with true. cbn [negb]. rewrite fold_none; auto.
  intros u Hu. unfold pauli1. destruct (at_pos pos g u) eqn:A; auto. apply at_pos_iff in A. exfalso. exact (H u Hu A).
Qed.
Lemma pauli_measured : forall pos t g v, wfg g -> here pos g v -> ~ In v (goutputs g) -> apply_pauli pos t 1 g = Err ValueError.
Proof.
  intros pos t g v W H O. assert (O' : existsb (Nat.eqb v) (goutputs g) = false) by (destruct (existsb (Nat.eqb v) (goutputs g)) eqn:E; auto; apply memb_in in E; contradiction).
  assert (R : pauli1 pos t (goutputs g) (g, false) v = Err ValueError) by (unfold pauli1; rewrite (here_at pos g v v H (proj1 H)), Nat.eqb_refl, O'; auto).
  unfold apply_pauli. change (qeqb 1 0) with false. change (qeqb 1 1) with true. cbn [negb].
  rewrite (fold_one _ (pauli1 pos t (goutputs g)) (fun s => fst s = g) (fun s => False) (vertices g) v (g, false)); auto; try exact (wf_nd g W); try exact (proj1 H).
  - rewrite R. reflexivity.
  - intros [h f] u Hu D E. cbn [fst] in E. subst h. unfold pauli1. rewrite (here_at pos g v u H Hu), (proj2 (Nat.eqb_neq u v)) by auto. auto.
  - intros s u _ _ [].
  - intros s1 E. rewrite R in E. discriminate.
Qed.
