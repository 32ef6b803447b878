(** Soundness of the pivot simplifiers: the matches found by the matchers meet
    the hypotheses of [pivot_core]. *)
From Coq Require Import Reals ZArith QArith Qcanon List Bool Arith Lia Permutation FinFun.
From Verif Require Import CNum Base ScalarModel ScalarProofs GraphModel GraphSem SumLemmas GraphProofs GraphOps
  RulesModel RuleLemmas SpiderProofs IsoProofs IdProofs LcompProofs PivotProofs GrowProofs.
Import ListNotations.
Open Scope C_scope.

Lemma pivot_scan_spec : forall g v ns bs, NoDup ns -> pivot_scan g v ns = Some bs ->
  NoDup bs /\ (forall b, In b bs -> In b ns /\ vty g b = BOUNDARY) /\
  (forall n, In n ns -> vty g n = BOUNDARY -> In n bs) /\
  forall n, In n ns -> ~ In n bs -> edge_type g v n = Some HADAMARD /\ vty g n = ZSP.
Proof.
  intros g v ns. induction ns as [|n ns IH]; simpl; intros bs ND H.
  - injection H as <-. repeat split; try constructor; simpl; tauto.
  - inversion ND; subst.
    destruct (vtype_eqb (vty g n) ZSP && _) eqn:E1.
    + apply andb_true_iff in E1. destruct E1 as [E1 E2]. apply vtype_eqb_eq in E1.
      destruct (IH bs) as [A [B [D F]]]; auto.
      repeat split; auto.
      * right; apply B; auto.
      * apply B; auto.
      * intros u [<-|Hu] T; [congruence|auto].
      * destruct H0 as [<-|H0]; [|apply F; auto]. destruct (edge_type g v n) as [[|]|]; congruence.
      * destruct H0 as [<-|H0]; [|apply F; auto]. auto.
    + destruct (vtype_eqb (vty g n) BOUNDARY) eqn:E2; [|discriminate]. apply vtype_eqb_eq in E2.
      destruct (pivot_scan g v ns) as [bs'|]; [|discriminate]. injection H as <-.
      destruct (IH bs') as [A [B [D F]]]; auto.
      repeat split.
      * constructor; auto. intros X. apply B in X. tauto.
      * destruct H as [<-|H]; [left; auto|right; apply B; auto].
      * destruct H as [<-|H]; [auto|apply B; auto].
      * intros u [<-|Hu] T; simpl; auto.
      * destruct H as [<-|H]; [simpl in H0; tauto|apply F; simpl in H0; tauto].
      * destruct H as [<-|H]; [simpl in H0; tauto|apply F; simpl in H0; tauto].
Qed.

Lemma match_pivot_in : forall g num cands i disc m, wfg g -> noloop g ->
  (forall e, In e cands -> In e (edges g)) ->
  In m (match_pivot_loop g num i cands disc) -> In (fst m) cands /\ ~ In (fst m) disc /\ pv_ok g m.
Proof.
  intros g num cands. induction cands as [|c cands IH]; simpl; intros i disc m W NL HC H; [contradiction|].
  destruct c as [v0 v1]. destruct (lim_reached num i); [contradiction|].
  assert (D : forall i d, In m (match_pivot_loop g num i cands d) ->
     (forall x, In x disc -> In x d) -> ((v0,v1) = fst m \/ In (fst m) cands) /\ ~ In (fst m) disc /\ pv_ok g m).
  { intros j d Hj Hd. apply IH in Hj; auto. destruct Hj as [A [B Q]]. split; auto. }
  destruct (emem (v0,v1) disc) eqn:M; [eapply D; eauto|].
  destruct (edge_type g v0 v1) as [[|]|] eqn:E; try (eapply D; eauto; fail).
  destruct (vtype_eqb (vty g v0) ZSP && vtype_eqb (vty g v1) ZSP) eqn:T; cbn [negb] in H; [|eapply D; eauto].
  destruct (is_pauli (phase g v0) && is_pauli (phase g v1)) eqn:P; cbn [negb] in H; [|eapply D; eauto].
  destruct (pivot_scan g v0 (neighbors g v0)) as [b0|] eqn:S0; [|eapply D; eauto].
  destruct (pivot_scan g v1 (neighbors g v1)) as [b1|] eqn:S1; [|eapply D; eauto].
  destruct (Nat.ltb 1 (length b0 + length b1)) eqn:L; [eapply D; eauto|].
  destruct H as [<-|H]; [|eapply D; eauto; intros; rewrite in_app_iff; auto].
  simpl fst. split; auto. split; [apply emem_false; auto|].
  apply andb_true_iff in T, P. destruct T as [T0 T1], P as [P0 P1]. apply vtype_eqb_eq in T0, T1.
  apply Nat.ltb_ge in L.
  destruct (pivot_scan_spec _ _ _ _ (neighbors_nd g v0 W) S0) as [A1 [A2 [A3 A4]]].
  destruct (pivot_scan_spec _ _ _ _ (neighbors_nd g v1 W) S1) as [B1 [B2 [B3 B4]]].
  assert (N : v0 <> v1) by (intros ->; rewrite NL in E; discriminate).
  split; auto. split; auto. split; auto. split; auto. split; auto. split; auto.
  assert (C01 : b0 = [] \/ b1 = []) by (destruct b0, b1; simpl in L; auto; lia).
  split; [|split; auto].
  - split.
    + destruct b0 as [|u [|]]; auto; [|simpl in L; lia]. right. exists u.
      assert (b1 = []) by (destruct C01; congruence). subst b1.
      destruct (A2 u) as [X Y]; [simpl; auto|]. split; auto. split; [congruence|]. split; [apply neighbors_spec; auto|].
      destruct (edge_type g v1 u) eqn:E'; auto. exfalso. apply (B3 u); auto. apply neighbors_spec. congruence.
    + intros n Hn Hne Hb. apply A4; auto.
  - split.
    + destruct b1 as [|u [|]]; auto; [|simpl in L; lia]. right. exists u.
      assert (b0 = []) by (destruct C01; congruence). subst b0.
      destruct (B2 u) as [X Y]; [simpl; auto|]. split; auto. split; [congruence|]. split; [apply neighbors_spec; auto|].
      destruct (edge_type g v0 u) eqn:E'; auto. exfalso. apply (A3 u); auto. apply neighbors_spec. congruence.
    + intros n Hn Hne Hb. apply B4; auto.
Qed.

Lemma match_pivot_far : forall g num cands i disc, wfg g -> noloop g ->
  (forall e, In e cands -> In e (edges g)) ->
  ForallOrdPairs (pv_far g) (match_pivot_loop g num i cands disc).
Proof.
  intros g num cands. induction cands as [|c cands IH]; simpl; intros i disc W NL H; [constructor|].
  destruct c as [v0 v1]. destruct (lim_reached num i); [constructor|].
  destruct (emem (v0,v1) disc); [apply IH; auto|].
  destruct (edge_type g v0 v1) as [[|]|] eqn:E; try (apply IH; auto; fail).
  repeat match goal with |- ForallOrdPairs _ (if ?b then _ else _) => destruct b; [apply IH; auto|] end.
  destruct (pivot_scan g v0 (neighbors g v0)) as [b0|] eqn:S0; [|apply IH; auto].
  destruct (pivot_scan g v1 (neighbors g v1)) as [b1|] eqn:S1; [|apply IH; auto].
  destruct (Nat.ltb 1 (length b0 + length b1)); [apply IH; auto|].
  constructor; [|apply IH; auto]. rewrite Forall_forall. intros m Hm.
  apply match_pivot_in in Hm; auto. destruct Hm as [A [B Q]]. destruct m as [[u0 u1] bb]. simpl fst in *.
  assert (I := H _ (or_intror A)). apply in_edges in I; auto. destruct I as [I1 I2].
  unfold pv_far. simpl fst. apply far_discard; auto; [congruence|].
  intros X. apply B. rewrite !in_app_iff in *. tauto.
Qed.

(** pivot_simp with any order of the candidate set and any set iteration order *)
Theorem pivot_step : forall so K P g cands num o g', so_ok so -> good K P -> zxok g -> allph P g ->
  (forall e, In e cands -> In e (edges g)) ->
  pivot so (match_pivot_parallel cands num g) g = Ok o -> apply_rw o = Ok g' -> step_k K g g' /\ allph P g'.
Proof.
  intros so K P g cands num o g' SO G ZX AP HC H E. eapply pivot_step_matches; eauto.
  - intros m Hm. apply match_pivot_in in Hm; try tauto; [apply zx_wf|apply zx_noloop]; auto.
  - apply match_pivot_far; auto; [apply zx_wf|apply zx_noloop]; auto.
Qed.

(** ** pivot_gadget *)
(** Graph-like diagrams: boundaries and Z spiders, Z spiders joined by Hadamard edges only. *)
Definition glike (g : graph) : Prop :=
  (forall v, In v (vertices g) -> vty g v = ZSP \/ vty g v = BOUNDARY) /\
  forall u v e, edge_type g u v = Some e -> vty g u = ZSP -> vty g v = ZSP -> e = HADAMARD.

Definition gm_ok (g : graph) (m : pmatch) : Prop :=
  let '(v0, w) := fst m in
  edge_type g v0 w <> None /\ vty g v0 = ZSP /\ vty g w = ZSP /\ is_pauli (phase g v0) = true /\
  (forall n, In n (neighbors g v0) -> vty g n = ZSP) /\ (forall n, In n (neighbors g w) -> vty g n = ZSP) /\
  exists a, snd m = ([], [a]).
Definition gmv (m : pmatch) : nat * list nat := (snd (fst m), snd (snd m)).
Definition from (cands disc : list edge) (p : edge) : Prop :=
  exists e, In e cands /\ ~ In e disc /\ (p = e \/ p = (snd e, fst e)).

Lemma gadget_scan_spec : forall g first e ns d, gadget_scan g first e ns = Some d ->
  forall n, In n ns -> vty g n = ZSP /\ forall f, In f (incident_edges g n) -> In f d.
Proof.
  intros g first e ns. induction ns as [|n ns IH]; simpl; intros d H u Hu; [contradiction|].
  destruct (vtype_eqb (vty g n) ZSP) eqn:T; cbn [negb] in H; [|discriminate]. apply vtype_eqb_eq in T.
  destruct (first && _); [discriminate|].
  destruct (gadget_scan g first e ns) as [l|]; [|discriminate]. injection H as <-.
  destruct Hu as [<-|Hu]; [split; auto; intros; apply in_app_iff; auto|].
  destruct (IH l eq_refl u Hu) as [A B]. split; auto. intros; apply in_app_iff; auto.
Qed.
Lemma far_swap_l : forall g a b m, far g (a,b) m -> far g (b,a) m.
Proof. unfold far. simpl. intros. apply H; auto; tauto. Qed.
Lemma far_swap_r : forall g a b m, far g m (a,b) -> far g m (b,a).
Proof. unfold far. simpl. intros. apply H; auto; tauto. Qed.

Lemma mpg_loop : forall g num cands i disc el gc mv0 ms el' gc', wfg g -> noloop g -> allph in02 g ->
  (forall e, In e cands -> In e (edges g)) -> grown g gc mv0 ->
  (forall w e, In w (map fst mv0) -> In e cands -> fst e = w \/ snd e = w -> In e disc) ->
  match_pivot_gadget_loop num i cands disc el gc = Ok (ms, el', gc') ->
  grown g gc' (mv0 ++ map gmv ms) /\ el' = el ++ map gel (map gmv ms) /\
  (forall m, In m ms -> gm_ok g m /\ from cands disc (fst m)) /\ ForallOrdPairs (pv_far g) ms.
Proof.
  intros g num cands. induction cands as [|e cands IH]; intros i disc el gc mv0 ms el' gc' W NL IP HC G HD H.
  - injection H as <- <- <-. simpl. rewrite !app_nil_r. split; auto. split; auto. split; [tauto|constructor].
  - cbn [match_pivot_gadget_loop] in H.
    destruct (lim_reached num i).
    { injection H as <- <- <-. simpl. rewrite !app_nil_r. split; auto. split; auto. split; [tauto|constructor]. }
    assert (REC : forall j, match_pivot_gadget_loop num j cands disc el gc = Ok (ms, el', gc') ->
      grown g gc' (mv0 ++ map gmv ms) /\ el' = el ++ map gel (map gmv ms) /\
      (forall m, In m ms -> gm_ok g m /\ from (e :: cands) disc (fst m)) /\ ForallOrdPairs (pv_far g) ms).
    { intros j Hj. apply IH with (mv0 := mv0) in Hj; auto.
      - destruct Hj as [A [B [D F]]]. split; auto. split; auto. split; auto. intros m Hm. destruct (D m Hm) as [D1 [f [D2 [D3 D4]]]].
        split; auto. exists f. simpl; auto.
      - intros; apply HC; simpl; auto.
      - intros w f Hw Hf. apply HD; simpl; auto. }
    destruct (emem e disc) eqn:M; [eapply REC; eauto|]. apply emem_false in M.
    destruct e as [e0 e1].
    destruct (vtype_eqb (vty gc e0) ZSP && vtype_eqb (vty gc e1) ZSP) eqn:T; cbn [negb] in H; [|eapply REC; eauto].
    apply andb_true_iff in T. destruct T as [T0 T1]. apply vtype_eqb_eq in T0, T1.
    assert (IE := HC _ (or_introl eq_refl)). apply in_edges in IE; auto. destruct IE as [I1 I2].
    assert (V0 : In e0 (vertices g)) by (apply (edge_type_in_l g e0 e1); auto).
    assert (V1 : In e1 (vertices g)) by (apply (edge_type_in_l g e1 e0); rewrite (wf_sym g W); auto).
    rewrite (gr_ty _ _ _ G) in T0, T1 by auto.
    assert (P0 : phase gc e0 = phase g e0).
    { apply (gr_ph _ _ _ G); auto. intros X. apply M. apply (HD e0); simpl; auto. }
    assert (P1 : phase gc e1 = phase g e1).
    { apply (gr_ph _ _ _ G); auto. intros X. apply M. apply (HD e1); simpl; auto. }
    rewrite P0, P1 in H.
    destruct (if negb (is_pauli (phase g e0)) then _ else _) as [[[v0 v1] p1]|] eqn:SEL; [|eapply REC; eauto].
    assert (SW : ((v0,v1) = (e0,e1) \/ (v0,v1) = (e1,e0)) /\ p1 = phase gc v1 /\ is_pauli (phase g v0) = true).
    { destruct (is_pauli (phase g e0)) eqn:Q0; cbn [negb] in SEL; destruct (is_pauli (phase g e1)) eqn:Q1; try discriminate;
        injection SEL as <- <- <-; split; auto; split; congruence. }
    clear SEL T0 T1 P0 P1. destruct SW as [SW [EP PA]].
    assert (PR : edge_type g v0 v1 <> None /\ v0 <> v1 /\ In v0 (vertices g) /\ In v1 (vertices g)).
    { destruct SW as [[= -> ->]|[= -> ->]]; (split; [first [exact I2 | rewrite (wf_sym g W); exact I2]|split; [lia|split; assumption]]). }
    destruct PR as [ED [NV [IV0 IV1]]].
    destruct (Nat.eqb (length (neighbors gc v1)) 1); [eapply REC; eauto|].
    destruct (gadget_scan gc true (e0,e1) (neighbors gc v0)) as [d0|] eqn:S0; [|eapply REC; eauto].
    destruct (gadget_scan gc false (e0,e1) (neighbors gc v1)) as [d1|] eqn:S1; [|eapply REC; eauto].
    inv_bind H. rename E into ER.
    destruct (add_vertex ZSP (Qcz (-2)) a (Some p1) gc) as [g1 v] eqn:AV.
    inv_bind H. destruct a0 as [[ms' el1] g2]. injection H as <- <- <-.
    assert (SC0 := gadget_scan_spec _ _ _ _ _ S0). assert (SC1 := gadget_scan_spec _ _ _ _ _ S1).
    assert (INC : forall n, incident_edges gc n = incident_edges g n) by (intros; unfold incident_edges; rewrite (gr_nb _ _ _ G); auto).
    rewrite (gr_nb _ _ _ G) in SC0, SC1.
    assert (TZ0 : forall n, In n (neighbors g v0) -> vty g n = ZSP).
    { intros n Hn. rewrite <- (gr_ty _ _ _ G) by (apply (neighbors_in g v0); auto). apply SC0; auto. }
    assert (TZ1 : forall n, In n (neighbors g v1) -> vty g n = ZSP).
    { intros n Hn. rewrite <- (gr_ty _ _ _ G) by (apply (neighbors_in g v1); auto). apply SC1; auto. }
    assert (Tv1 : vty g v1 = ZSP) by (apply TZ0; apply neighbors_spec; auto).
    assert (Tv0 : vty g v0 = ZSP) by (apply TZ1; apply neighbors_spec; rewrite (wf_sym g W); auto).
    assert (Nv1 : ~ In v1 (map fst mv0)).
    { intros X. apply M. apply (HD v1); simpl; auto. destruct SW as [[= -> ->]|[= -> ->]]; auto. }
    assert (DIS : forall u0 u1, (u0 < u1)%nat -> edge_type g u0 u1 <> None -> ~ In (u0,u1) (d0 ++ d1) -> far g (v0,v1) (u0,u1)).
    { intros u0 u1 L0 L1 L2. apply far_discard; auto. intros X. apply L2. rewrite in_app_iff in *.
      destruct X as [X|X]; apply in_flat_map in X; destruct X as [n [X1 X2]]; [left; apply (SC0 n)|right; apply (SC1 n)]; auto; rewrite INC; auto. }
    assert (G1 : grown g (set_qubit v0 (Qcz (-1)) (set_phase v1 0%Qc g1)) (mv0 ++ [(v1,[v])])).
    { apply grown_set_qubit. eapply grown_one; eauto. }
    apply IH with (mv0 := mv0 ++ [(v1,[v])]) in E; auto.
    + destruct E as [A1 [A2 [A3 A4]]]. cbn [map].
      assert (gmv (v0, v1, ([], [v])) = (v1,[v])) by reflexivity. rewrite H.
      split; [rewrite <- app_assoc in A1; exact A1|]. split; [rewrite A2, <- app_assoc; reflexivity|].
      split.
      * intros m [<-|Hm].
        -- split; [|exists (e0,e1); simpl; split; auto; split; auto; destruct SW; auto].
           split; auto. split; auto. split; auto. split; auto. split; auto. split; auto. exists v; auto.
        -- destruct (A3 m Hm) as [B1 [f [B2 [B3 B4]]]]. split; auto. exists f. simpl. split; auto. split; auto.
           intros X. apply B3. rewrite in_app_iff; auto.
      * constructor; auto. rewrite Forall_forall. intros m Hm. destruct (A3 m Hm) as [B1 [[f0 f1] [B2 [B3 B4]]]].
        assert (IF := HC _ (or_intror B2)). apply in_edges in IF; auto. destruct IF as [F1 F2].
        assert (FF : far g (v0,v1) (f0,f1)).
        { apply DIS; auto. intros X. apply B3. rewrite !in_app_iff in *. tauto. }
        unfold pv_far. simpl fst. destruct B4 as [->| ->]; auto. simpl. apply far_swap_r; auto.
    + intros; apply HC; simpl; auto.
    + intros w f Hw Hf Hi. rewrite map_app, in_app_iff in Hw. rewrite in_app_iff. destruct Hw as [Hw|[<-|[]]].
      * left. apply (HD w); simpl; auto.
      * right. assert (IF := HC _ (or_intror Hf)). destruct f as [f0 f1]. apply in_edges in IF; auto. destruct IF as [F1 F2]. simpl in Hi.
        rewrite in_app_iff. left. apply (SC0 v1). { apply neighbors_spec; auto. } rewrite INC.
        destruct Hi as [<-|<-]; [apply incident_in; auto|apply incident_in_r; auto].
Qed.

Lemma grown_allph : forall (P : Qc -> Prop) g g1 g2 mv, P 0%Qc -> grown g g1 mv -> same_frame g1 g2 -> gphase g2 = gphase g1 -> allph P g -> allph P g2.
Proof.
  intros P g g1 g2 mv P0 G F PH AP v Hv. rewrite (proj1 F), (gr_vs _ _ _ G), in_app_iff in Hv.
  unfold phase. rewrite PH. fold (phase g1 v). destruct Hv as [Hv|Hv].
  - destruct (in_dec Nat.eq_dec v (map fst mv)) as [I|I].
    + apply in_map_iff in I. destruct I as [[w ns] [<- I]]. simpl fst. destruct (gr_mv _ _ _ G _ _ I) as [_ [_ [-> _]]]. auto.
    + rewrite (gr_ph _ _ _ G); auto.
  - apply in_flat_map in Hv. destruct Hv as [[w ns] [I Hv]]. destruct (gr_mv _ _ _ G _ _ I) as [M1 [_ [_ [a [l [M4 [M5 M6]]]]]]].
    simpl in Hv. subst ns. destruct Hv as [<-|Hv]; [rewrite M5; auto|rewrite M6 by auto; auto].
Qed.

(** the matches of match_pivot_gadget are valid pivots of the graph it returns *)
Lemma match_pivot_gadget_ok : forall g cands num ms g2, zxok g -> glike g ->
  (forall e, In e cands -> In e (edges g)) -> match_pivot_gadget cands num g = Ok (ms, g2) ->
  step_ok g g2 /\ (forall P : Qc -> Prop, P 0%Qc -> allph P g -> allph P g2) /\ (forall m, In m ms -> pv_ok g2 m) /\ ForallOrdPairs (pv_far g2) ms.
Proof.
  intros g cands num ms g2 ZX GL HC H. assert (W := zx_wf g ZX). assert (NL := zx_noloop g ZX).
  unfold match_pivot_gadget in H. inv_bind H. destruct a as [[ms' el'] g1]. inv_bind H. injection H as -> ->.
  apply mpg_loop with (g := g) (mv0 := []) in E; auto; [|exact (zx_ph g ZX)|apply grown_refl; auto].
  destruct E as [G [EL [OK FAR]]]. simpl in G, EL. subst el'. set (mv := map gmv ms) in *.
  assert (SG : forall m, In m mv -> exists a, snd m = [a]).
  { intros m Hm. apply in_map_iff in Hm. destruct Hm as [[[v0 w] bb] [<- Hm]]. destruct (OK _ Hm) as [[_ [_ [_ [_ [_ [_ [a A]]]]]]] _].
    simpl in A. subst bb. exists a. reflexivity. }
  destruct (grow_gadget g g1 mv g2 ZX G SG E0) as [Z2 [SM [F [PH [E1 E2]]]]].
  assert (P2 : forall u, phase g2 u = phase g1 u) by (intros; unfold phase; rewrite PH; reflexivity).
  assert (T2 : forall u, In u (vertices g) -> vty g2 u = vty g u) by (intros; rewrite (same_frame_vty g1 g2) by auto; apply G; auto).
  assert (W2 := zx_wf g2 Z2).
  assert (SM2 : forall m v0 w a, In m ms -> m = ((v0,w),([],[a])) -> In (w,[a]) mv) by (intros m v0 w a Hm ->; apply in_map_iff; eexists; split; [|exact Hm]; reflexivity).
  split; [split; auto|]. split; [intros P P0 AP; apply (grown_allph P g g1 g2 mv); auto|]. split.
  - intros m Hm. destruct (OK m Hm) as [O1 _]. destruct m as [[v0 w] bb]. destruct O1 as [O1 [O2 [O3 [O4 [O5 [O6 [a O7]]]]]]].
    simpl in O7. subst bb. assert (MV := SM2 _ _ _ _ Hm eq_refl).
    assert (Iv : In v0 (vertices g)) by (apply (edge_type_in_l g v0 w); auto).
    assert (Iw : In w (vertices g)) by (apply (edge_type_in_l g w v0); rewrite (wf_sym g W); auto).
    assert (Nvw : v0 <> w) by (intros ->; rewrite NL in O1; auto).
    assert (Na : ~ In a (vertices g)) by (apply (grown_newv g g1 mv); auto; apply in_flat_map; exists (w,[a]); simpl; auto).
    (* v0 keeps its phase *)
    assert (NM : ~ In v0 (map fst mv)).
    { intros X. apply in_map_iff in X. destruct X as [mm [X1 X]]. apply in_map_iff in X. destruct X as [m' [X2 X]]. subst mm. simpl in X1.
      destruct (FOP_in _ _ _ _ _ FAR Hm X) as [X3|[X3|X3]].
      - subst m'. simpl in X1. congruence.
      - destruct (X3 v0 (snd (fst m'))) as [X4 _]; simpl; auto.
      - destruct (X3 (snd (fst m')) v0) as [X4 _]; simpl; auto. }
    assert (NBN : forall u n, In u (vertices g) -> edge_type g2 u n <> None -> In n (vertices g) \/ exists b, In (u,[b]) mv /\ n = b).
    { intros u n Hu Hn. assert (Hn' : In n (vertices g2)) by (apply (edge_type_in_l g2 n u); rewrite (wf_sym g2 W2); auto).
      rewrite (proj1 F), (gr_vs _ _ _ G), in_app_iff in Hn'. destruct Hn' as [Hn'|Hn']; auto. right.
      apply in_flat_map in Hn'. destruct Hn' as [[w' ns] [X1 X2]]. destruct (SG _ X1) as [b Hb]. simpl in *. subst ns. destruct X2 as [<-|[]].
      exists b. rewrite (wf_sym g2 W2), (E2 _ _ _ X1) in Hn. destruct (Nat.eqb_spec u w'); [subst; auto|congruence]. }
    assert (HAD : forall u n, In u (vertices g) -> In n (vertices g) -> vty g u = ZSP -> vty g n = ZSP -> edge_type g2 u n <> None -> edge_type g2 u n = Some HADAMARD).
    { intros u n Hu Hn Tu Tn E. rewrite E1 in * by auto. destruct (edge_type g u n) eqn:EE; [|congruence].
      f_equal. apply (proj2 GL u n); auto. }
    unfold pv_ok. split; auto. split; [rewrite T2; auto|]. split; [rewrite T2; auto|].
    split; [apply HAD; auto; rewrite E1; auto|].
    split; [rewrite P2, (gr_ph _ _ _ G); auto|].
    split; [rewrite P2; destruct (gr_mv _ _ _ G _ _ MV) as [_ [_ [-> _]]]; reflexivity|].
    split; [|split; auto].
    + split; auto. intros n Hn Hne _. apply neighbors_spec in Hn.
      destruct (NBN v0 n Iv Hn) as [X|[b [X _]]]; [|exfalso; apply NM; apply in_map_iff; exists (v0,[b]); auto].
      assert (vty g n = ZSP) by (apply O5; apply neighbors_spec; rewrite <- E1; auto).
      split; [apply HAD; auto|rewrite T2; auto].
    + split.
      * right. exists a. split; auto. split; [intros ->; contradiction|]. rewrite (wf_sym g2 W2 w), (wf_sym g2 W2 v0), !(E2 _ _ _ MV), Nat.eqb_refl.
        split; [discriminate|]. destruct (Nat.eqb_spec v0 w); congruence.
      * intros n Hn Hne Hb. apply neighbors_spec in Hn. destruct (NBN w n Iw Hn) as [X|[b [X ->]]].
        -- assert (vty g n = ZSP) by (apply O6; apply neighbors_spec; rewrite <- E1; auto).
           split; [apply HAD; auto|rewrite T2; auto].
        -- exfalso. apply Hb. left. assert (N := gr_nd _ _ _ G).
           assert ((w,[a]) = (w,[b])).
           { assert (U : forall l : list (nat * list nat), NoDup (map fst l) -> forall p q, In p l -> In q l -> fst p = fst q -> p = q).
             { clear. induction l as [|c l IH]; simpl; intros N p q Hp Hq E; [contradiction|]. inversion N; subst.
               destruct Hp as [<-|Hp], Hq as [<-|Hq]; auto.
               - exfalso. apply H1. rewrite E. apply in_map; auto.
               - exfalso. apply H1. rewrite <- E. apply in_map; auto. }
             apply (U mv); auto. }
           congruence.
  - eapply ForallOrdPairs_imp; [|exact FAR]. intros m m' Hm Hm' X a b Ha Hb. destruct (X a b Ha Hb) as [X1 X2]. split; auto.
    assert (IV : forall m, In m ms -> forall u, u = fst (fst m) \/ u = snd (fst m) -> In u (vertices g)).
    { clear -OK W. intros m Hm u Hu. destruct (OK m Hm) as [O1 _]. destruct m as [[v0 w] bb]. destruct O1 as [O1 _]. simpl in Hu.
      destruct Hu as [->| ->]; [apply (edge_type_in_l g v0 w)|apply (edge_type_in_l g w v0); rewrite (wf_sym g W)]; auto. }
    rewrite E1; eauto.
Qed.

(** pivot_gadget_simp: one round *)
Theorem pivot_gadget_step : forall so K P g cands num ms g1 o g', so_ok so -> good K P -> zxok g -> glike g -> allph P g ->
  (forall e, In e cands -> In e (edges g)) ->
  match_pivot_gadget cands num g = Ok (ms, g1) ->
  pivot so ms g1 = Ok o -> apply_rw o = Ok g' -> step_k K g g' /\ allph P g'.
Proof.
  intros so K P g cands num ms g1 o g' SO GD ZX GL AP HC HM H E.
  destruct (match_pivot_gadget_ok g cands num ms g1 ZX GL HC HM) as [S [A [OK FAR]]].
  assert (AP1 : allph P g1) by (apply A; auto; apply GD).
  destruct (pivot_step_matches so K P g1 ms o g') as [S2 AP2]; auto; [apply S|].
  split; auto. eapply step_k_trans; [apply GD|apply step_ok_k; [apply GD|exact S]|exact S2].
Qed.

(** ** pivot_boundary *)
Definition bgood (g : graph) (n b : nat) : Prop :=
  vty g b = BOUNDARY /\ In b (neighbors g n) /\ forall u, In u (neighbors g n) -> u <> b -> vty g u = ZSP.

Lemma boundary_scan_spec : forall g consumed ns wb r, boundary_scan g consumed ns wb = Some r ->
  (forall n, In n ns -> vty g n = ZSP /\ ~ In n consumed) /\
  (r = wb \/ exists n b, r = Some (n, b) /\ In n ns /\ bgood g n b).
Proof.
  intros g consumed ns. induction ns as [|n ns IH]; simpl; intros wb r H.
  - injection H as <-. split; [tauto|auto].
  - destruct (vtype_eqb (vty g n) ZSP) eqn:T; cbn [negb] in H; [|discriminate]. apply vtype_eqb_eq in T.
    destruct (Nat.eqb (length (neighbors g n)) 1); [discriminate|].
    destruct (nmem n consumed) eqn:C; [discriminate|]. apply nmem_false in C.
    destruct (nmem 0 consumed); [discriminate|].
    assert (D : forall wb', boundary_scan g consumed ns wb' = Some r -> (wb' = wb \/ exists b, wb' = Some (n,b) /\ bgood g n b) ->
      (forall n0, n = n0 \/ In n0 ns -> vty g n0 = ZSP /\ ~ In n0 consumed) /\
      (r = wb \/ exists n0 b, r = Some (n0, b) /\ (n = n0 \/ In n0 ns) /\ bgood g n0 b)).
    { intros wb' Hs Hw. apply IH in Hs. destruct Hs as [A B]. split; [intros u [<-|Hu]; auto|].
      destruct B as [->|[m [b [B1 [B2 B3]]]]]; [|right; exists m, b; auto].
      destruct Hw as [->|[b [-> Hb]]]; auto. right. exists n, b; auto. }
    destruct (filter (fun b => vtype_eqb (vty g b) BOUNDARY) (neighbors g n)) as [|b [|]] eqn:FB; try (eapply D; eauto; fail).
    destruct (existsb _ (neighbors g n)) eqn:EX; [eapply D; eauto|].
    assert (BG : bgood g n b).
    { assert (X : In b (filter (fun b => vtype_eqb (vty g b) BOUNDARY) (neighbors g n))) by (rewrite FB; simpl; auto).
      apply filter_In in X. destruct X as [X1 X2]. apply vtype_eqb_eq in X2. split; auto. split; auto.
      intros u Hu Hne. rewrite <- not_true_iff_false, existsb_exists in EX.
      destruct (vtype_eqb (vty g u) ZSP) eqn:Z; [apply vtype_eqb_eq; auto|]. exfalso. apply EX. exists u. split; auto. rewrite Z.
      destruct (vtype_eqb (vty g u) BOUNDARY) eqn:B; auto.
      assert (In u (filter (fun b => vtype_eqb (vty g b) BOUNDARY) (neighbors g n))) by (apply filter_In; auto).
      rewrite FB in H0. destruct H0 as [->|[]]. congruence. }
    eapply D; [exact H|]. destruct (negb _ && _); [right; exists b|]; auto.
    + split; auto. destruct n; auto.
    + destruct wb as [[[|k] b']|]; auto; right; exists b; auto.
Qed.

Definition bm_ok (g : graph) (m : pmatch) : Prop :=
  let '((v, w), (b0, b1)) := m in
  b0 = [] /\ exists b, b1 = [b] /\ edge_type g v w <> None /\ vty g v = ZSP /\ is_pauli (phase g v) = true /\
  (forall n, In n (neighbors g v) -> vty g n = ZSP) /\ bgood g w b.

Lemma mpb_loop : forall g num cands i disc consumed el gc mv0 ms el' gc', wfg g -> noloop g -> allph in02 g ->
  (forall v, In v cands -> In v (vertices g)) -> NoDup cands -> grown g gc mv0 ->
  (forall w, In w (map fst mv0) -> In w disc /\ In w consumed) ->
  match_pivot_boundary_loop num i cands disc consumed el gc = Ok (ms, el', gc') ->
  exists mv, grown g gc' (mv0 ++ mv) /\ el' = el ++ flat_map bel mv /\ map fst mv = map (fun m => snd (fst m)) ms /\
  (forall m, In m mv -> exists a c, snd m = [a;c]) /\
  (forall m, In m ms -> bm_ok g m /\ In (fst (fst m)) cands /\ ~ In (fst (fst m)) disc /\ ~ In (snd (fst m)) consumed) /\
  ForallOrdPairs (pv_far g) ms.
Proof.
  intros g num cands. induction cands as [|v cands IH]; intros i disc consumed el gc mv0 ms el' gc' W NL IP HC ND G HD H.
  - injection H as <- <- <-. exists []. simpl. rewrite !app_nil_r. split; auto. split; auto. split; auto. split; [tauto|]. split; [tauto|constructor].
  - cbn [match_pivot_boundary_loop] in H. inversion ND as [|? ? N1 N2]; subst.
    destruct (lim_reached num i).
    { injection H as <- <- <-. exists []. simpl. rewrite !app_nil_r. split; auto. split; auto. split; auto. split; [tauto|]. split; [tauto|constructor]. }
    assert (REC : match_pivot_boundary_loop num i cands disc consumed el gc = Ok (ms, el', gc') ->
      exists mv, grown g gc' (mv0 ++ mv) /\ el' = el ++ flat_map bel mv /\ map fst mv = map (fun m => snd (fst m)) ms /\
      (forall m, In m mv -> exists a c, snd m = [a;c]) /\
      (forall m, In m ms -> bm_ok g m /\ In (fst (fst m)) (v :: cands) /\ ~ In (fst (fst m)) disc /\ ~ In (snd (fst m)) consumed) /\
      ForallOrdPairs (pv_far g) ms).
    { intros Hj. apply IH with (mv0 := mv0) in Hj; auto.
      - destruct Hj as [mv [A1 [A2 [A3 [A4 [A5 A6]]]]]]. exists mv. do 4 (split; auto). split; auto. intros m Hm. destruct (A5 m Hm) as [D1 [D2 D3]].
        split; auto. split; simpl; auto.
      - intros; apply HC; simpl; auto. }
    destruct (nmem v disc) eqn:M; [eapply REC; eauto|]. apply nmem_false in M.
    assert (Iv : In v (vertices g)) by (apply HC; simpl; auto).
    destruct (negb (vtype_eqb (vty gc v) ZSP) || negb (is_pauli (phase gc v))) eqn:T; [eapply REC; eauto|].
    apply orb_false_iff in T. destruct T as [T P]. apply negb_false_iff in T, P. apply vtype_eqb_eq in T.
    rewrite (gr_ty _ _ _ G) in T by auto.
    rewrite (gr_ph _ _ _ G) in P; auto. 2:{ intros X. apply M. apply HD; auto. }
    destruct (boundary_scan gc consumed (neighbors gc v) None) as [[[w bound]|]|] eqn:BS; try (eapply REC; eauto; fail).
    destruct (boundary_scan_spec _ _ _ _ _ BS) as [S1 S2]. rewrite (gr_nb _ _ _ G) in S1, S2.
    destruct S2 as [S2|[w' [b' [S2 [S3 S4]]]]]; [discriminate|]. injection S2 as <- <-.
    assert (Iw : In w (vertices g)) by (apply (neighbors_in g v); auto).
    assert (Evw : edge_type g v w <> None) by (apply neighbors_spec; auto).
    assert (TN : forall n, In n (neighbors g v) -> vty g n = ZSP).
    { intros n Hn. rewrite <- (gr_ty _ _ _ G) by (apply (neighbors_in g v); auto). apply S1; auto. }
    assert (BG : bgood g w bound).
    { destruct S4 as [B1 [B2 B3]]. rewrite (gr_nb _ _ _ G) in B2, B3. 
      assert (TT : forall u, In u (neighbors g w) -> vty gc u = vty g u) by (intros; apply (gr_ty _ _ _ G), (neighbors_in g w); auto).
      split; [rewrite <- TT; auto|]. split; auto. intros u Hu Hne. rewrite <- TT; auto. }
    inv_bind H. clear E.
    destruct (add_vertex ZSP (Qcz (-2)) _ (Some (phase gc w)) gc) as [g1 v1] eqn:A1.
    destruct (row_r g1 w) as [r2|]; [|discriminate]. cbn [bind] in H.
    destruct (add_vertex ZSP (Qcz (-1)) _ (Some 0%Qc) g1) as [g2 v2] eqn:A2.
    inv_bind H. destruct a0 as [[ms' el1] g3]. injection H as <- <- <-.
    assert (Nw : ~ In w (map fst mv0)).
    { intros X. apply (S1 w); auto. apply HD; auto. }
    assert (G1 : grown g (set_phase w 0%Qc g2) (mv0 ++ [(w,[v1;v2])])) by (eapply grown_two; eauto).
    rewrite !(gr_nb _ _ _ G1) in E.
    apply IH with (mv0 := mv0 ++ [(w,[v1;v2])]) in E; auto.
    + destruct E as [mv [B1 [B2 [B3 [B4 [B5 B6]]]]]]. exists ((w,[v1;v2]) :: mv).
      split; [rewrite <- app_assoc in B1; exact B1|]. split; [rewrite B2, <- app_assoc; reflexivity|].
      split; [simpl; rewrite B3; reflexivity|]. split.
      { intros m [<-|Hm]; simpl; eauto. }
      assert (HM : forall m, In m ms' -> bm_ok g m /\ In (fst (fst m)) cands /\
         ~ In (fst (fst m)) (disc ++ neighbors g v ++ neighbors g w) /\ ~ In (snd (fst m)) (consumed ++ neighbors g v ++ neighbors g w)) by exact B5.
      split.
      * intros m [<-|Hm].
        -- split; [|simpl; split; auto; split; auto; apply S1; auto]. split; auto. exists bound.
           split; auto.
        -- destruct (HM m Hm) as [X1 [X2 [X3 X4]]]. split; auto. split; [simpl; auto|]. rewrite in_app_iff in X3, X4. tauto.
      * constructor; auto. rewrite Forall_forall. intros m Hm. destruct (HM m Hm) as [X1 [X2 [X3 X4]]].
        rewrite !in_app_iff, !neighbors_spec in X3, X4.
        assert (Q : forall x y, ~ (edge_type g x y <> None) -> edge_type g x y = None) by (intros x y; destruct (edge_type g x y); auto; intros X; exfalso; apply X; discriminate).
        intros a1 b1 Ha Hb. simpl in Ha. destruct Ha as [->| ->], Hb as [->| ->]; (split; [|apply Q; tauto]).
        -- intros X. rewrite <- X in *. contradiction.
        -- intros X. rewrite <- X in *. apply X4. right. right. rewrite (wf_sym g W). auto.
        -- intros X. rewrite <- X in *. apply X3. auto.
        -- intros X. rewrite <- X in *. apply X4. auto.
    + intros; apply HC; simpl; auto.
    + intros u Hu. rewrite map_app, in_app_iff in Hu. rewrite !in_app_iff. destruct Hu as [Hu|[<-|[]]].
      * apply HD in Hu. tauto.
      * auto.
Qed.

Lemma fst_uniq : forall (l : list (nat * list nat)), NoDup (map fst l) -> forall p q, In p l -> In q l -> fst p = fst q -> p = q.
Proof.
  induction l as [|c l IH]; simpl; intros N p q Hp Hq E; [contradiction|]. inversion N; subst.
  destruct Hp as [<-|Hp], Hq as [<-|Hq]; auto.
  - exfalso. apply H1. rewrite E. apply in_map; auto.
  - exfalso. apply H1. rewrite <- E. apply in_map; auto.
Qed.

Lemma match_pivot_boundary_ok : forall g cands num ms g2, zxok g -> glike g ->
  (forall v, In v cands -> In v (vertices g)) -> NoDup cands -> match_pivot_boundary cands num g = Ok (ms, g2) ->
  step_ok g g2 /\ (forall P : Qc -> Prop, P 0%Qc -> allph P g -> allph P g2) /\ (forall m, In m ms -> pv_ok g2 m) /\ ForallOrdPairs (pv_far g2) ms.
Proof.
  intros g cands num ms g2 ZX GL HC ND H. assert (W := zx_wf g ZX). assert (NL := zx_noloop g ZX).
  unfold match_pivot_boundary in H. inv_bind H. destruct a as [[ms' el'] g1]. inv_bind H. injection H as -> ->.
  apply mpb_loop with (g := g) (mv0 := []) in E; auto; [|exact (zx_ph g ZX)|apply grown_refl; auto].
  destruct E as [mv [G [EL [MF [SG [OK FAR]]]]]]. simpl in G, EL. subst el'.
  destruct (grow_boundary g g1 mv g2 ZX G SG E0) as [Z2 [SM [F [PH [E1 [E2 E3]]]]]].
  assert (P2 : forall u, phase g2 u = phase g1 u) by (intros; unfold phase; rewrite PH; reflexivity).
  assert (T2 : forall u, In u (vertices g) -> vty g2 u = vty g u) by (intros; rewrite (same_frame_vty g1 g2) by auto; apply G; auto).
  assert (W2 := zx_wf g2 Z2).
  split; [split; auto|]. split; [intros P P0 AP; apply (grown_allph P g g1 g2 mv); auto|]. split.
  - intros m Hm. destruct (OK m Hm) as [O1 _]. destruct m as [[v w] [b0 b1]]. destruct O1 as [-> [b [-> [O1 [O2 [O4 [O5 [B1 [B2 B3]]]]]]]]].
    assert (Iv : In v (vertices g)) by (apply (edge_type_in_l g v w); auto).
    assert (Iw : In w (vertices g)) by (apply (edge_type_in_l g w v); rewrite (wf_sym g W); auto).
    assert (Nvw : v <> w) by (intros ->; rewrite NL in O1; auto).
    assert (O3 : vty g w = ZSP) by (apply O5, neighbors_spec; auto).
    assert (Ib : In b (vertices g)) by (apply (neighbors_in g w); auto).
    assert (MW : In w (map fst mv)) by (rewrite MF; apply in_map_iff; exists (v,w,([],[b])); auto).
    assert (NM : ~ In v (map fst mv)).
    { intros X. rewrite MF in X. apply in_map_iff in X. destruct X as [m' [X1 X]].
      destruct (FOP_in _ _ _ _ _ FAR Hm X) as [X3|[X3|X3]].
      - subst m'. simpl in X1. congruence.
      - destruct (X3 v (snd (fst m'))) as [X4 _]; simpl; auto.
      - destruct (X3 (snd (fst m')) v) as [X4 _]; simpl; auto. }
    assert (NBN : forall u n, In u (vertices g) -> edge_type g2 u n <> None -> In n (vertices g) \/
       (In u (map fst mv) /\ edge_type g2 u n = Some HADAMARD /\ vty g2 n = ZSP)).
    { intros u n Hu Hn. assert (Hn' : In n (vertices g2)) by (apply (edge_type_in_l g2 n u); rewrite (wf_sym g2 W2); auto).
      rewrite (proj1 F), (gr_vs _ _ _ G), in_app_iff in Hn'. destruct Hn' as [Hn'|Hn']; auto. right.
      assert (NN := grown_newv g g1 mv). assert (TN := gr_tn _ _ _ G n Hn').
      apply in_flat_map in Hn'. destruct Hn' as [[w' ns] [X1 X2]]. destruct (SG _ X1) as [a [c Hb]]. simpl in *. subst ns.
      assert (Na : ~ In a (vertices g)) by (apply NN; auto; apply in_flat_map; exists (w',[a;c]); simpl; auto).
      assert (Nc : ~ In c (vertices g)) by (apply NN; auto; apply in_flat_map; exists (w',[a;c]); simpl; auto).
      rewrite (wf_sym g2 W2) in *. destruct X2 as [<-|[<-|[]]].
      - rewrite (E2 _ _ _ _ X1) in Hn. destruct (Nat.eqb_spec u c); [subst; contradiction|congruence].
      - rewrite (E3 _ _ _ _ X1) in *. destruct (Nat.eqb_spec u a); [subst; contradiction|]. destruct (Nat.eqb_spec u w'); simpl in *; [|congruence].
        subst. split; [apply in_map_iff; exists (w',[a;c]); auto|]. split; auto. rewrite (same_frame_vty g1 g2); auto. }
    assert (HAD : forall u n, In u (vertices g) -> In n (vertices g) -> vty g u = ZSP -> vty g n = ZSP -> edge_type g2 u n <> None -> edge_type g2 u n = Some HADAMARD).
    { intros u n Hu Hn Tu Tn E. rewrite E1 in * by auto. destruct (edge_type g u n) eqn:EE; [|congruence].
      f_equal. apply (proj2 GL u n); auto. }
    unfold pv_ok. split; auto. split; [rewrite T2; auto|]. split; [rewrite T2; auto|].
    split; [apply HAD; auto; rewrite E1; auto|].
    split; [rewrite P2, (gr_ph _ _ _ G); auto|].
    split. { apply in_map_iff in MW. destruct MW as [[w' ns] [MW1 MW2]]. simpl in MW1. subst w'. rewrite P2. destruct (gr_mv _ _ _ G _ _ MW2) as [_ [_ [-> _]]]. reflexivity. }
    split; [|split; auto].
    + split; auto. intros n Hn Hne _. apply neighbors_spec in Hn.
      destruct (NBN v n Iv Hn) as [X|[X _]]; [|contradiction].
      assert (vty g n = ZSP) by (apply O5; apply neighbors_spec; rewrite <- E1; auto).
      split; [apply HAD; auto|rewrite T2; auto].
    + split.
      * right. exists b. split; auto. split; [congruence|]. rewrite !E1 by auto.
        split; [apply neighbors_spec; auto|]. destruct (edge_type g v b) eqn:X; auto.
        assert (vty g b = ZSP) by (apply O5, neighbors_spec; congruence). congruence.
      * intros n Hn Hne Hb. apply neighbors_spec in Hn. destruct (NBN w n Iw Hn) as [X|[_ X]]; [|tauto].
        assert (vty g n = ZSP) by (apply B3; [apply neighbors_spec; rewrite <- E1; auto|simpl in Hb; intuition]).
        split; [apply HAD; auto|rewrite T2; auto].
  - eapply ForallOrdPairs_imp; [|exact FAR]. intros m m' Hm Hm' X a b Ha Hb. destruct (X a b Ha Hb) as [X1 X2]. split; auto.
    assert (IV : forall m, In m ms -> forall u, u = fst (fst m) \/ u = snd (fst m) -> In u (vertices g)).
    { clear -OK W. intros m Hm u Hu. destruct (OK m Hm) as [O1 _]. destruct m as [[v0 w] [b0 b1]]. destruct O1 as [_ [b [_ [O1 _]]]]. simpl in Hu.
      destruct Hu as [->| ->]; [apply (edge_type_in_l g v0 w)|apply (edge_type_in_l g w v0); rewrite (wf_sym g W)]; auto. }
    rewrite E1; eauto.
Qed.

(** pivot_boundary_simp: one round *)
Theorem pivot_boundary_step : forall so K P g cands num ms g1 o g', so_ok so -> good K P -> zxok g -> glike g -> allph P g ->
  (forall v, In v cands -> In v (vertices g)) -> NoDup cands ->
  match_pivot_boundary cands num g = Ok (ms, g1) ->
  pivot so ms g1 = Ok o -> apply_rw o = Ok g' -> step_k K g g' /\ allph P g'.
Proof.
  intros so K P g cands num ms g1 o g' SO GD ZX GL AP HC ND HM H E.
  destruct (match_pivot_boundary_ok g cands num ms g1 ZX GL HC ND HM) as [S [A [OK FAR]]].
  assert (AP1 : allph P g1) by (apply A; auto; apply GD).
  destruct (pivot_step_matches so K P g1 ms o g') as [S2 AP2]; auto; [apply S|].
  split; auto. eapply step_k_trans; [apply GD|apply step_ok_k; [apply GD|exact S]|exact S2].
Qed.
