(** congruences.py: the moves of the local search keep the map. *)
From Coq Require Import Reals ZArith QArith Qcanon List Bool Arith Lia Lra Permutation Ring.
From Verif Require Import CNum Base ScalarModel ScalarProofs GraphModel GraphSem SumLemmas GraphProofs GraphOps RulesModel RuleLemmas
  SpiderProofs IsoProofs IdProofs LcompProofs PivotProofs PivotMatch GrowProofs StoreProofs InvProofs BfixProofs TotalProofs AmpProofs ZXFacts.
From Verif Require ExtractNbrs UnfuseProofs.
From Verif Require Import CongModel.
Import ListNotations.
Open Scope nat_scope.

(** ** Edges *)
Lemma gedge_cases : forall s t, gedge s t = (s, t) \/ gedge s t = (t, s).
Proof. intros. unfold gedge. destruct (Nat.ltb s t); auto. Qed.
Lemma pair_hit_swap : forall s t u v, pair_hit t s u v = pair_hit s t u v.
Proof. intros. unfold pair_hit. apply orb_comm. Qed.
Lemma add_e_fresh : forall s t et g, wfg g -> s <> t -> In s (vertices g) -> In t (vertices g) -> edge_type g s t = None ->
  exists g', add_e s t et g = Ok g' /\ wfg g' /\ same_frame g g' /\ gphase g' = gphase g /\ gscalar g' = gscalar g /\
    forall u v, edge_type g' u v = if pair_hit s t u v then Some et else edge_type g u v.
Proof.
  intros s t et g W D Is It E. unfold add_e. destruct (gedge_cases s t) as [->| ->].
  - destruct (add_edge_ok s t et g W D Is It (or_introl E)) as [g' A]. exists g'. split; auto. destruct (ExtractNbrs.fresh_edge _ _ _ _ _ W D E A) as [H1 [H2 [H3 [H4 [_ [_ H5]]]]]]. auto.
  - assert (E' : edge_type g t s = None) by (rewrite (wf_sym g W); auto). assert (D' : t <> s) by auto.
    destruct (add_edge_ok t s et g W D' It Is (or_introl E')) as [g' A]. exists g'. split; auto. destruct (ExtractNbrs.fresh_edge _ _ _ _ _ W D' E' A) as [H1 [H2 [H3 [H4 [_ [_ H5]]]]]].
    do 4 (split; [solve [auto]|]). intros u v. rewrite H5, pair_hit_swap. auto.
Qed.
Lemma rem_e_ok : forall s t et g, wfg g -> s <> t -> edge_type g s t = Some et ->
  exists g', rem_e s t g = Ok g' /\ wfg g' /\ same_frame g g' /\ gphase g' = gphase g /\ gscalar g' = gscalar g /\
    forall u v, edge_type g' u v = if pair_hit s t u v then None else edge_type g u v.
Proof.
  intros s t et g W D E. unfold rem_e. destruct (gedge_cases s t) as [->| ->].
  - destruct (remove_edge_ok s t g et W D E) as [g' A]. exists g'. split; auto. destruct (remove_edge_spec _ _ _ _ W D A) as [H1 [H2 [H3 [H4 [_ [_ [_ H5]]]]]]]. auto.
  - assert (E' : edge_type g t s = Some et) by (rewrite (wf_sym g W); auto). assert (D' : t <> s) by auto.
    destruct (remove_edge_ok t s g et W D' E') as [g' A]. exists g'. split; auto. destruct (remove_edge_spec _ _ _ _ W D' A) as [H1 [H2 [H3 [H4 [_ [_ [_ H5]]]]]]].
    do 4 (split; [solve [auto]|]). intros u v. rewrite H5, pair_hit_swap. auto.
Qed.
Lemma edge_diff : forall L g g' s t et x, wfg g -> wfg g' -> NoDup L -> In s L -> In t L -> s <> t -> same_frame g g' -> gphase g' = gphase g -> gscalar g' = gscalar g ->
  edge_type g s t = None -> (forall u v, edge_type g' u v = if pair_hit s t u v then Some et else edge_type g u v) ->
  (integL L g' x = integL L g x * nw g et s t x)%C.
Proof.
  intros L g g' s t et x W W' ND Is It D F P S E H. unfold integL. rewrite S.
  assert (VT : forall u, vty g' u = vty g u) by (intros; apply same_frame_vty; auto).
  assert (X1 : cprod (fun v => pw g' v (x v)) L = cprod (fun v => pw g v (x v)) L).
  { apply cprod_ext. intros v _. unfold pw, isB, phase. rewrite VT, P. reflexivity. }
  rewrite X1.
  destruct (pprod_change2 (fun u v => ew g u v (x u) (x v)) (fun u v => ew g' u v (x u) (x v)) L s t ND Is It D) as [R0 [A B]].
  - intros u v. apply ew_sym; auto.
  - intros u v. apply ew_sym; auto.
  - intros u v _ _ _ N1 N2. unfold ew, isX. rewrite H, pair_hit_false by auto. rewrite !VT. reflexivity.
  - rewrite A, B. unfold ew. rewrite E, H, pair_hit_st. unfold nw, isX. rewrite !VT. cbn [option_map wt]. ring.
Qed.

(** ** Toggling *)
Lemma toggle_ok : forall s t g, wfg g -> glike g -> s <> t -> In s (vertices g) -> In t (vertices g) -> vty g s = ZSP -> vty g t = ZSP ->
  exists g' k, toggle_conn s t g = Ok g' /\ k <> C0 /\ wfg g' /\ glike g' /\ same_frame g g' /\ gphase g' = gphase g /\
    (forall u v, pair_hit s t u v = false -> edge_type g' u v = edge_type g u v) /\
    forall L x, NoDup L -> In s L -> In t L -> integL L g' x = (k * sgn (x s && x t) * integL L g x)%C.
Proof.
  intros s t g W GL D Is It Ts Tt. unfold toggle_conn, connected.
  destruct (edge_type g s t) as [e|] eqn:E.
  - assert (e = HADAMARD) by (apply (proj2 GL s t); auto). subst e.
    destruct (rem_e_ok s t HADAMARD g W D E) as [g' [A [W' [F [P [S H]]]]]].
    assert (VT : forall u, vty g' u = vty g u) by (intros; apply same_frame_vty; auto).
    exists g', (sq2p 1). split; auto. split; [apply sq2p_neq0|]. split; auto. split.
    { split; [intros v Hv; rewrite VT; apply GL; rewrite <- (proj1 F); auto|]. intros u v e Ee. rewrite !VT. rewrite H in Ee. destruct (pair_hit s t u v); [discriminate|]. apply GL; auto. }
    split; auto. split; auto. split; [intros u v Hh; rewrite H, Hh; auto|]. intros L x ND IsL ItL.
    assert (F' : same_frame g' g) by (unfold same_frame in *; intuition congruence).
    assert (X := edge_diff L g' g s t HADAMARD x W' W ND IsL ItL D F' (eq_sym P) (eq_sym S)).
    rewrite X.
    + rewrite nw_had_z by (rewrite VT; auto). destruct (x s && x t); unfold sgn.
      * transitivity ((sq2p 1 * sq2p (-1)) * integL L g' x)%C; [rewrite <- sq2p_add; replace (1 + -1)%Z with 0%Z by lia; rewrite sq2p_0; ring|ring].
      * transitivity ((sq2p 1 * sq2p (-1)) * integL L g' x)%C; [rewrite <- sq2p_add; replace (1 + -1)%Z with 0%Z by lia; rewrite sq2p_0; ring|ring].
    + rewrite H, pair_hit_st. auto.
    + intros u v. rewrite H. destruct (pair_hit s t u v) eqn:Hh; auto. destruct (pair_hit_true _ _ _ _ Hh) as [[-> ->]|[-> ->]]; auto. rewrite (wf_sym g W); auto.
  - destruct (add_e_fresh s t HADAMARD g W D Is It E) as [g' [A [W' [F [P [S H]]]]]].
    assert (VT : forall u, vty g' u = vty g u) by (intros; apply same_frame_vty; auto).
    exists g', (sq2p (-1)). split; auto. split; [apply sq2p_neq0|]. split; auto. split.
    { split; [intros v Hv; rewrite VT; apply GL; rewrite <- (proj1 F); auto|]. intros u v e Ee. rewrite !VT. rewrite H in Ee. destruct (pair_hit s t u v); [congruence|]. apply GL; auto. }
    split; auto. split; auto. split; [intros u v Hh; rewrite H, Hh; auto|]. intros L x ND IsL ItL.
    rewrite (edge_diff L g g' s t HADAMARD x) by auto. rewrite nw_had_z by auto. ring.
Qed.
Lemma toggle_all_ok : forall es g, wfg g -> glike g ->
  (forall s t, In (s, t) es -> s <> t /\ In s (vertices g) /\ In t (vertices g) /\ vty g s = ZSP /\ vty g t = ZSP) ->
  exists g' k, toggle_all es g = Ok g' /\ k <> C0 /\ wfg g' /\ glike g' /\ same_frame g g' /\ gphase g' = gphase g /\
    (forall u v, ~ In (u, v) es -> ~ In (v, u) es -> edge_type g' u v = edge_type g u v) /\
    forall L x, NoDup L -> (forall s t, In (s, t) es -> In s L /\ In t L) -> integL L g' x = (k * cprod (fun e : edge => sgn (x (fst e) && x (snd e))) es * integL L g x)%C.
Proof.
  induction es as [|[s t] es IH]; intros g W GL H.
  - exists g, C1. split; auto. split; [exact C1_neq_C0|]. split; auto. split; auto. split; [apply same_frame_refl|]. split; auto. split; auto. intros L x _ _. cbn [cprod map]. ring.
  - destruct (H s t (or_introl eq_refl)) as [D [Is [It [Ts Tt]]]].
    destruct (toggle_ok s t g W GL D Is It Ts Tt) as [g1 [k1 [E1 [K1 [W1 [GL1 [F1 [P1 [U1 X1]]]]]]]]].
    assert (V1 : vertices g1 = vertices g) by apply F1.
    assert (VT : forall u, vty g1 u = vty g u) by (intros; apply same_frame_vty; auto).
    destruct (IH g1 W1 GL1) as [g2 [k2 [E2 [K2 [W2 [GL2 [F2 [P2 [U2 X2]]]]]]]]].
    { intros a b Hab. rewrite V1, !VT. apply H. right; auto. }
    exists g2, (k2 * k1)%C. split; [cbn [toggle_all foldM fst snd]; rewrite E1; exact E2|]. split; [apply Cmult_neq0; auto|]. split; auto. split; auto.
    split; [eapply same_frame_trans; eauto|]. split; [congruence|]. split.
    + intros u v N1 N2. rewrite U2 by (intros X; first [apply N1; right; exact X|apply N2; right; exact X]). apply U1. apply pair_hit_false; intros X; [apply N1; left; auto|apply N2; left; injection X as -> ->; auto].
    + intros L x ND HL. destruct (HL s t (or_introl eq_refl)) as [HsL HtL]. rewrite X2, X1 by (auto; intros a b Hab; apply HL; right; auto). cbn [cprod map fst snd]. ring.
Qed.

(** ** Phases and new vertices *)
Lemma set_phase_add : forall v q g, set_phase v q g = add_to_phase v (q - phase g v)%Qc g.
Proof. intros. unfold set_phase, add_to_phase. replace (phase g v + (q - phase g v))%Qc with q by ring. reflexivity. Qed.
Lemma set_phase_wf : forall v q g, wfg g -> In v (vertices g) -> wfg (set_phase v q g).
Proof. intros. rewrite set_phase_add. apply add_to_phase_wfg; auto. Qed.
Lemma integL_set_phase : forall L v q g x, NoDup L -> In v L -> isB g v = false ->
  (integL L (set_phase v q g) x = integL L g x * ephase (q - phase g v)%Qc (x v))%C.
Proof. intros. rewrite set_phase_add. apply integL_add_to_phase; auto. Qed.

(** What the moves need of the diagram: no loops, Z vertices and boundaries,
    Hadamard wires between the Z vertices. *)
Definition gok (g : graph) : Prop := wfg g /\ noloop g /\ glike g.
Lemma noloop_pair : forall g g' s t et, s <> t -> noloop g -> (forall u v, edge_type g' u v = if pair_hit s t u v then et else edge_type g u v) -> noloop g'.
Proof. intros g g' s t et D NL H v. rewrite H, pair_hit_false by (intros X; injection X; intros; congruence). apply NL. Qed.
Lemma glike_add : forall g g' s t et, glike g -> same_frame g g' -> (vty g s = ZSP -> vty g t = ZSP -> et = HADAMARD) ->
  (forall u v, edge_type g' u v = if pair_hit s t u v then Some et else edge_type g u v) -> glike g'.
Proof.
  intros g g' s t et [G1 G2] F HE H. assert (VT : forall u, vty g' u = vty g u) by (intros; apply same_frame_vty; auto). split.
  - intros v Hv. rewrite VT. apply G1. rewrite <- (proj1 F). auto.
  - intros u v e Ee. rewrite !VT, H in *. destruct (pair_hit s t u v) eqn:Hh; [|apply G2; auto]. injection Ee as <-. destruct (pair_hit_true _ _ _ _ Hh) as [[-> ->]|[-> ->]]; auto.
Qed.
(** a new Z vertex *)
Lemma newz : forall q r p g g' v, gok g -> add_vertex ZSP q r (Some p) g = (g', v) ->
  gok g' /\ ~ In v (vertices g) /\ vertices g' = vertices g ++ [v] /\ (forall a b, edge_type g' a b = edge_type g a b) /\ (forall w, edge_type g' v w = None) /\
  vty g' v = ZSP /\ (forall w, w <> v -> vty g' w = vty g w) /\ phase g' v = qmod2 p /\ (forall w, w <> v -> phase g' w = phase g w) /\
  ginputs g' = ginputs g /\ goutputs g' = goutputs g /\ (forall w, neighbors g' w = neighbors g w) /\
  forall x, integL (vertices g') g' x = (integL (vertices g) g x * ephase p (x v))%C.
Proof.
  intros q r p g g' v [W [NL [G1 G2]]] A. assert (HI := fun x => integL_add_vertex _ _ _ _ _ _ _ x W A).
  destruct (add_vertex_spec _ _ _ _ _ _ _ W A) as [Ev [W' [V [ET [NB [T [P [I0 [O0 S]]]]]]]]].
  assert (Fv : ~ In v (vertices g)) by (apply vertices_pv_fresh; auto).
  assert (To : forall w, w <> v -> vty g' w = vty g w) by (intros w X; rewrite T, (proj2 (Nat.eqb_neq w v)) by auto; auto).
  assert (Tv : vty g' v = ZSP) by (rewrite T, Nat.eqb_refl; auto).
  assert (En : forall w, edge_type g' v w = None) by (intros w; rewrite ET; exact (proj1 (edge_none_out g v w W Fv))).
  assert (Pv : phase g' v = qmod2 p) by (rewrite P, Nat.eqb_refl; auto).
  assert (Po : forall w, w <> v -> phase g' w = phase g w) by (intros w X; rewrite P, (proj2 (Nat.eqb_neq w v)) by auto; auto).
  split; [|exact (conj Fv (conj V (conj ET (conj En (conj Tv (conj To (conj Pv (conj Po (conj I0 (conj O0 (conj NB HI)))))))))))].
  split; auto. split; [intros w; rewrite ET; apply NL|]. split.
  - intros w Hw. rewrite V, in_app_iff in Hw. destruct (Nat.eq_dec w v) as [->|D]; [auto|]. rewrite To by auto. apply G1. destruct Hw as [Hw|[->|[]]]; [auto|congruence].
  - intros a b e Ee. rewrite ET in Ee. assert (a <> v) by (intros ->; apply Fv; eapply edge_in_l; eauto). assert (b <> v) by (intros ->; apply Fv; eapply edge_in_r; eauto). rewrite !To by auto. eapply G2; eauto.
Qed.
(** a new Hadamard wire between two Z vertices *)
Lemma newh : forall s t g, gok g -> s <> t -> In s (vertices g) -> In t (vertices g) -> vty g s = ZSP -> vty g t = ZSP -> edge_type g s t = None ->
  exists g', add_e s t HADAMARD g = Ok g' /\ gok g' /\ same_frame g g' /\ gphase g' = gphase g /\
    (forall u v, edge_type g' u v = if pair_hit s t u v then Some HADAMARD else edge_type g u v) /\
    forall x, integL (vertices g) g' x = (integL (vertices g) g x * (sq2p (-1) * sgn (x s && x t)))%C.
Proof.
  intros s t g [W [NL GL]] D Is It Ts Tt E. destruct (add_e_fresh s t HADAMARD g W D Is It E) as [g' [A [W' [F [P [S H]]]]]].
  exists g'. split; auto. split; [split; auto; split; [eapply noloop_pair; eauto|eapply glike_add; eauto]|]. split; auto. split; auto. split; auto.
  intros x. rewrite (edge_diff _ g g' s t HADAMARD) by (auto using wf_nd). rewrite nw_had_z by auto. reflexivity.
Qed.
Lemma gok_set_phase : forall v q g, gok g -> In v (vertices g) -> gok (set_phase v q g).
Proof. intros v q g [W [NL GL]] H. split; [apply set_phase_wf; auto|]. split; [exact NL|exact GL]. Qed.
Lemma eph_add : forall p q b, (ephase p b * ephase q b = ephase (p + q)%Qc b)%C.
Proof. intros p q []; unfold ephase; [rewrite cexp_add; ring|ring]. Qed.
Lemma eph_0 : forall p b, p = 0%Qc -> ephase p b = C1.
Proof. intros p [] ->; unfold ephase; [apply cexp_0|reflexivity]. Qed.
Lemma eph_mod : forall p b, ephase (qmod2 p) b = ephase p b.
Proof. intros p []; unfold ephase; [apply cexp_qmod2|reflexivity]. Qed.
Lemma sq2p_half : (sq2p (-1) * sq2p (-1) * (C1 + C1) = C1)%C.
Proof. rewrite <- sq2p_add. rewrite <- sq2p_2, <- sq2p_add. apply sq2p_0. Qed.

Lemma lc_cong2_ok : forall v g, gok g -> In v (vertices g) -> vty g v = ZSP ->
  exists g', lc_cong2 v g = Ok g' /\ gok g' /\ ginputs g' = ginputs g /\ goutputs g' = goutputs g /\ forall b, sem g' b = sem g b.
Proof.
  intros v g G Hv Tv. unfold lc_cong2. destruct (negb _ && negb _); [|exists g; auto].
  set (p := phase g v).
  destruct (add_vertex ZSP _ _ (Some (p + frac 1 2)%Qc) g) as [g1 v1] eqn:A1. destruct (newz _ _ _ _ _ _ G A1) as [G1 [N1 [V1 [E1 [E1n [T1 [T1o [P1 [P1o [I1 [O1 [_ X1]]]]]]]]]]]].
  destruct (add_vertex ZSP _ _ (Some 0%Qc) g1) as [g2 v2] eqn:A2. destruct (newz _ _ _ _ _ _ G1 A2) as [G2 [N2 [V2 [E2 [E2n [T2 [T2o [P2 [P2o [I2 [O2 [_ X2]]]]]]]]]]]].
  rewrite V1, in_app_iff in N2. assert (D1 : v <> v1) by (intros ->; auto). assert (D2 : v <> v2) by (intros ->; auto). assert (D12 : v1 <> v2) by (intros ->; apply N2; simpl; auto).
  assert (VV : vertices g2 = vertices g ++ [v1; v2]) by (rewrite V2, V1, <- app_assoc; auto).
  assert (Tv2 : vty g2 v = ZSP) by (rewrite T2o, T1o by auto; auto). assert (Tv1 : vty g2 v1 = ZSP) by (rewrite T2o by auto; auto).
  destruct (newh v1 v2 g2 G2 D12) as [g3 [A3 [G3 [F3 [P3 [E3 X3]]]]]]; auto; try (rewrite VV, in_app_iff; simpl; auto; fail).
  { rewrite (wf_sym g2 (proj1 G2)). apply E2n. }
  assert (VT3 : forall u, vty g3 u = vty g2 u) by (intros; apply same_frame_vty; auto). assert (V3 : vertices g3 = vertices g2) by apply F3.
  destruct (newh v2 v g3 G3) as [g4 [A4 [G4 [F4 [P4 [E4 X4]]]]]]; try (rewrite VT3); auto; try (rewrite V3, VV, in_app_iff; simpl; auto; fail).
  { rewrite E3, pair_hit_false by (intros X; injection X; intros; congruence). apply E2n. }
  assert (VT4 : forall u, vty g4 u = vty g2 u) by (intros; rewrite <- VT3; apply same_frame_vty; auto). assert (V4 : vertices g4 = vertices g2) by (rewrite <- V3; apply F4).
  rewrite A3. cbn [bind]. rewrite A4. cbn [bind]. exists (set_phase v (frac (-1) 2) g4).
  assert (Hv4 : In v (vertices g4)) by (rewrite V4, VV, in_app_iff; auto). assert (PV : phase g4 v = p) by (unfold phase in *; rewrite P4, P3; fold (phase g2 v); unfold phase; transitivity (phase g1 v); [apply (P2o v D2)|apply (P1o v D1)]).
  split; auto. split; [apply gok_set_phase; auto|]. split; [cbn [set_phase ginputs with_phase]; destruct F4 as [_ [_ [-> _]]]; destruct F3 as [_ [_ [-> _]]]; congruence|].
  split; [cbn [set_phase goutputs with_phase]; destruct F4 as [_ [_ [_ [-> _]]]]; destruct F3 as [_ [_ [_ [-> _]]]]; congruence|].
  set (g5 := set_phase v _ g4). assert (W5 : wfg g5) by (apply (gok_set_phase v _ g4 G4 Hv4)).
  assert (V5 : vertices g5 = vertices g ++ [v1; v2]) by (rewrite <- VV, <- V4; reflexivity).
  assert (X5 : forall x, integL (vertices g5) g5 x = (integL (vertices g) g x * ephase p (x v1) * ephase (frac 1 2) (x v1) * ephase (frac 1 2) (x v) * ephase (- p)%Qc (x v) * ephase 1 (x v) * (sq2p (-1) * sgn (x v1 && x v2)) * (sq2p (-1) * sgn (x v2 && x v)))%C).
  { intros x. unfold g5 at 2. rewrite integL_set_phase; [|apply W5|exact Hv4|unfold isB; rewrite VT4, Tv2; auto].
    change (vertices g5) with (vertices g4). rewrite V4 at 1. rewrite V3 in X4. rewrite X4, X3. rewrite X2, X1, PV.
    rewrite (eph_0 0%Qc) by auto. replace (frac (-1) 2 - p)%Qc with (frac (-1) 2 + - p)%Qc by ring. rewrite <- !eph_add.
    replace (ephase (frac (-1) 2) (x v)) with (ephase (frac 1 2) (x v) * ephase 1 (x v))%C; [ring|].
    rewrite eph_add. transitivity (ephase (qmod2 (frac (-1) 2)) (x v)); [|apply eph_mod]. f_equal. }
  apply (sem_regroup g g5 [] [v1;v2] (vertices g)); auto; try (apply G).
  - rewrite V5. apply Permutation_app_comm.
  - intros w [].
  - intros w [<-|[<-|[]]]; unfold isB; cbn [g5]; change (vty g5) with (vty g4); rewrite VT4; [rewrite Tv1|rewrite T2]; auto.
  - intros w Hw. unfold isB. change (vty g5 w) with (vty g4 w). rewrite VT4, T2o, T1o; auto; intros ->; auto. 
  - intros x. cbn [app sumv].
    assert (PM : Permutation (v1 :: v2 :: vertices g) (vertices g5)) by (rewrite V5; change (v1 :: v2 :: vertices g) with ([v1;v2] ++ vertices g); apply Permutation_app_comm).
    assert (IE : forall a b, integL (v1 :: v2 :: vertices g) g5 (upd (upd x v1 a) v2 b) = (integL (vertices g) g x * ephase p a * ephase (frac 1 2) a * ephase (frac 1 2) (x v) * ephase (- p)%Qc (x v) * ephase 1 (x v) * (sq2p (-1) * sgn (a && b)) * (sq2p (-1) * sgn (b && x v)))%C).
    { intros a b. rewrite (integL_perm _ _ _ _ W5 PM), X5. rewrite !upd_same. rewrite (upd_other _ v2 b v1) by auto. rewrite upd_same. rewrite (upd_other _ v2 b v), (upd_other _ v1 a v) by auto.
      rewrite !integL_indep by auto. reflexivity. }
    rewrite !IE. set (Z := integL (vertices g) g x). assert (Hp := cexp_opp_r p). assert (Hh := sq2p_half).
    unfold ephase, sgn. rewrite cexp_half, cexp_1. assert (Hii := Ci_sq).
    destruct (x v); cbn [andb].
    + symmetry. transitivity (Z * (cexp p * cexp (- p)%Qc) * (Ci * Ci) * (- C1) * (sq2p (-1) * sq2p (-1) * (C1 + C1)))%C; [ring|]. rewrite Hp, Hh, Hii. ring.
    + symmetry. transitivity (Z * (sq2p (-1) * sq2p (-1) * (C1 + C1)))%C; [ring|]. rewrite Hh. ring.
Qed.

(** ** Local complementation *)
Lemma same_adj_edges : forall g g', gadj g' = gadj g -> forall u v, edge_type g' u v = edge_type g u v.
Proof. intros g g' H u v. unfold edge_type. rewrite H. reflexivity. Qed.
Lemma gok_add_phases : forall vs a g, gok g -> (forall v, In v vs -> In v (vertices g) /\ vty g v = ZSP) ->
  gok (add_phases vs a g) /\ same_frame g (add_phases vs a g) /\ (forall u v, edge_type (add_phases vs a g) u v = edge_type g u v) /\
  (forall u, ~ In u vs -> phase (add_phases vs a g) u = phase g u) /\
  forall x, integL (vertices g) (add_phases vs a g) x = (integL (vertices g) g x * cprod (fun v => ephase a (x v)) vs)%C.
Proof.
  intros vs a g [W [NL GL]] H. destruct (add_phases_spec (vertices g) vs a g W (wf_nd g W)) as [W' [F [A [S [P X]]]]].
  { intros v Hv. destruct (H v Hv) as [H1 H2]. split; auto. split; auto. unfold isB. rewrite H2. auto. }
  assert (E := same_adj_edges _ _ A). assert (VT : forall u, vty (add_phases vs a g) u = vty g u) by (intros; apply same_frame_vty; auto).
  split; [|auto]. split; auto. split; [intros v; rewrite E; apply NL|]. split.
  - intros v Hv. rewrite VT. apply GL. rewrite <- (proj1 F). auto.
  - intros u v e Ee. rewrite E in Ee. rewrite !VT. eapply (proj2 GL); eauto.
Qed.
Lemma vertices_split : forall g v, wfg g -> In v (vertices g) -> Permutation (vertices g) ([v] ++ keep [v] g).
Proof.
  intros g v W H. apply nodup_same_perm; [apply W| |].
  - constructor; [rewrite in_keep; simpl; tauto|]. apply NoDup_filter. apply W.
  - intros w. simpl. rewrite in_keep. simpl. destruct (Nat.eq_dec v w); [subst; tauto|intuition congruence].
Qed.
Lemma ephase_half : forall b, ephase (- frac 3 2)%Qc b = ephase (frac 1 2) b.
Proof. intros []; unfold ephase; auto. rewrite cexp_opp, cexp_3half, cexp_half. cring. Qed.

Lemma lc_cong_ok : forall v g, gok g -> In v (vertices g) -> vty g v = ZSP -> (forall n, In n (neighbors g v) -> vty g n = ZSP) ->
  exists g', lc_cong v g = Ok g' /\ gok g' /\ same_upto g g'.
Proof.
  intros v g G Hv Tv HN. assert (G' := G). destruct G' as [W [NL GL]]. unfold lc_cong.
  rewrite filter_true by (intros n Hn; rewrite HN by auto; reflexivity). set (ns := neighbors g v) in *. set (p := phase g v).
  assert (NDn : NoDup ns) by (apply neighbors_nd; auto).
  assert (Vn : forall n, In n ns -> In n (vertices g)) by (intros n Hn; eapply neighbors_in; eauto).
  assert (Nv : ~ In v ns) by (intros X; apply neighbors_spec in X; apply X, NL).
  assert (HE : forall n, In n ns -> edge_type g v n = Some HADAMARD).
  { intros n Hn. assert (X := Hn). apply neighbors_some in X. destruct X as [e Ee]. rewrite Ee. f_equal. apply (proj2 GL v n); auto. }
  destruct (toggle_all_ok (combinations ns) g W GL) as [g1 [k [A1 [K1 [W1 [GL1 [F1 [P1 [U1 X1]]]]]]]]].
  { intros s t Hst. destruct (LcompProofs.in_pairs ns s t NDn Hst) as [D [Is It]]. auto 10. }
  rewrite A1. cbn [bind].
  assert (VT1 : forall u, vty g1 u = vty g u) by (intros; apply same_frame_vty; auto). assert (V1 : vertices g1 = vertices g) by apply F1.
  assert (G1 : gok g1).
  { split; auto. split; auto. intros u. rewrite U1; [apply NL| |]; intros X; apply (LcompProofs.in_pairs ns u u NDn) in X; tauto. }
  destruct (gok_add_phases ns (frac 1 2) g1 G1) as [G2 [F2 [E2 [P2 X2]]]]. { intros n Hn. rewrite V1, VT1. auto. }
  set (g2 := add_phases ns (frac 1 2) g1) in *.
  assert (VT2 : forall u, vty g2 u = vty g u) by (intros; rewrite <- VT1; apply same_frame_vty; auto). assert (V2 : vertices g2 = vertices g) by (rewrite <- V1; apply F2).
  assert (PV2 : phase g2 v = p) by (rewrite P2 by auto; unfold phase; rewrite P1; auto). rewrite PV2.
  destruct (add_vertex ZSP _ _ _ g2) as [g3 nv] eqn:A3. destruct (newz _ _ _ _ _ _ G2 A3) as [G3 [N3 [V3 [E3 [E3n [T3 [T3o [P3 [P3o [I3 [O3 [_ X3]]]]]]]]]]]].
  assert (Dv : v <> nv) by (intros <-; apply N3; rewrite V2; auto). rewrite V2 in V3, N3, X3.
  assert (Hv3 : In v (vertices g3)) by (rewrite V3, in_app_iff; auto).
  set (g4 := set_phase v (frac 1 2) g3). assert (G4 : gok g4) by (apply gok_set_phase; auto).
  assert (Tv4 : vty g4 v = ZSP) by (change (vty g4 v) with (vty g3 v); rewrite T3o, VT2; auto).
  destruct (newh v nv g4 G4 Dv) as [g5 [A5 [G5 [F5 [P5 [E5 X5]]]]]]; auto.
  { change (vertices g4) with (vertices g3). rewrite V3, in_app_iff. simpl. auto. }
  { rewrite (wf_sym g4 (proj1 G4)). apply E3n. }
  exists g5. split; auto. split; auto.
  assert (V5 : vertices g5 = vertices g ++ [nv]) by (rewrite <- V3; exact (proj1 F5)).
  assert (VT5 : forall u, vty g5 u = vty g3 u) by (intros u; change (vty g3 u) with (vty g4 u); apply same_frame_vty; auto).
  split; [|split].
  { destruct F5 as [_ [_ [-> _]]]. change (ginputs g4) with (ginputs g3). rewrite I3. destruct F2 as [_ [_ [-> _]]]. apply F1. }
  { destruct F5 as [_ [_ [_ [-> _]]]]. change (goutputs g4) with (goutputs g3). rewrite O3. destruct F2 as [_ [_ [_ [-> _]]]]. apply F1. }
  set (core := keep [v] g).
  assert (PG : Permutation (vertices g) ([v] ++ core)) by (apply vertices_split; auto).
  assert (Nc : ~ In v core /\ ~ In nv core). { unfold core. rewrite !in_keep. simpl. tauto. }
  assert (P5' : Permutation (vertices g5) ([nv; v] ++ core)).
  { rewrite V5. eapply Permutation_trans; [apply Permutation_app_comm|]. simpl. constructor. exact PG. }
  assert (NDc : NoDup core) by (apply NoDup_filter; apply W).
  assert (Nb : forall u, In u ns <-> In u core /\ edge_type g v u <> None).
  { intros u. unfold core, ns. rewrite in_keep, neighbors_spec. simpl. split; [|tauto]. intros X. split; auto. split; [apply Vn, neighbors_spec; auto|]. intros [<-|[]]. apply X, NL. }
  set (K0 := (k * sq2p (-1) * (C1 + Ci))%C).
  assert (HK : K0 <> C0). { unfold K0. apply Cmult_neq0; [apply Cmult_neq0; [auto|apply sq2p_neq0]|]. intros X. apply (f_equal fst) in X. cbn in X. lra. }
  exists K0. split; auto.
  apply (sem_regroup_k K0 g g5 [v] [nv; v] core); auto; try (apply G5).
  - intros w [<-|[]]. unfold isB. rewrite Tv. auto.
  - intros w [<-|[<-|[]]]; unfold isB; rewrite VT5; [rewrite T3|rewrite T3o, VT2, Tv by auto]; auto.
  - intros w Hw. unfold isB. rewrite VT5, T3o, VT2; auto. intros ->. tauto.
  - intros x. cbn [app sumv].
    set (Pn := parity x ns). set (R0 := integL core g x). set (s0 := sq2p (- Z.of_nat (length ns))).
    assert (Nn : ~ In nv ns) by (intros X; apply N3; auto).
    assert (IC : forall y, integL (vertices g) g y = (integL core g y * ephase p (y v) * (s0 * sgn (y v && parity y ns)))%C).
    { intros y. rewrite (integL_perm _ _ _ _ W PG), integL_app. fold (loc g [v] core y).
      rewrite (loc_one g v core ns) by auto.
      rewrite (cprod_h g v (y v) y ns) by auto. unfold pw, isB. rewrite Tv. fold p. cbn [vtype_eqb]. fold s0. ring. }
    assert (IG : forall b, integL (v :: core) g (upd x v b) = (R0 * ephase p b * (s0 * sgn (b && Pn)))%C).
    { intros b. rewrite <- (integL_perm _ _ _ _ W PG), IC, integL_indep, upd_same, parity_upd by tauto. reflexivity. }
    assert (IH : forall b a, integL (nv :: v :: core) g5 (upd (upd x nv b) v a) =
      (k * R0 * s0 * sq2p (-1) * ephase p a * sgn (a && Pn) * ephase (frac 1 2) Pn * ephase p b * ephase (frac 1 2) b * ephase (frac 1 2) a * ephase (- p)%Qc a * sgn (a && b))%C).
    { intros b a. set (y := upd (upd x nv b) v a).
      assert (Yv : y v = a) by apply upd_same. assert (Yn : y nv = b) by (unfold y; rewrite upd_other by auto; apply upd_same).
      assert (YP : parity y ns = Pn) by (unfold y; rewrite !parity_upd by auto; reflexivity).
      rewrite <- (integL_perm _ _ _ _ (proj1 G5) P5').
      replace (vertices g5) with (vertices g4) by (symmetry; apply F5). rewrite X5. unfold g4 at 2. rewrite integL_set_phase; [|apply G4|exact Hv3|unfold isB; change (vty g4 v) with (vty g3 v) in Tv4; rewrite Tv4; auto].
      change (vertices g4) with (vertices g3). rewrite X3. rewrite V1 in X2. rewrite X2, X1, IC by (auto using wf_nd; intros s t Hst; apply (LcompProofs.in_pairs ns s t NDn) in Hst; destruct Hst as [_ [Q1 Q2]]; auto). rewrite P3o, PV2 by auto.
      rewrite Yv, Yn, YP. replace (integL core g y) with R0 by (unfold y; rewrite !integL_indep by tauto; reflexivity).
      assert (LC := lcomp_list (frac 3 2) y ns (or_intror eq_refl)). rewrite YP, ephase_half in LC.
      rewrite (cprod_ext _ _ (fun u => ephase (frac 1 2) (y u))) in LC by (intros; apply ephase_half).
      change (combinations ns) with (pairs ns). rewrite (cprod_pairs (fun s t => sgn (y s && y t)) ns).
      replace (frac 1 2 - p)%Qc with (frac 1 2 + - p)%Qc by ring. rewrite <- !eph_add. rewrite <- LC. ring. }
    rewrite !IH, !IG. unfold K0. assert (Hp := cexp_opp_r p). assert (Hii := Ci_sq).
    unfold ephase, sgn. rewrite cexp_half. clearbody s0 R0. revert Hp Hii.
    generalize (cexp p) (cexp (- p)%Qc) Ci (sq2p (-1)). intros E0 F0 i0 h0 Hp Hii.
    destruct Pn; cbn [andb].
    + transitivity (k * R0 * s0 * h0 * (i0 + (i0 * i0) * E0 - (i0 * i0) * (E0 * F0) + E0 * i0 * (i0 * i0) * (E0 * F0)))%C; [ring|]. rewrite Hp, Hii. ring.
    + transitivity (k * R0 * s0 * h0 * (C1 + E0 * i0 + i0 * (E0 * F0) - E0 * (E0 * F0) * (i0 * i0)))%C; [ring|]. rewrite Hp, Hii. ring.
Qed.
