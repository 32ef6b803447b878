(** gadget_extract.py: gadgetize keeps the map exactly and leaves no non-Clifford phase on a Z spider
    with more than one neighbour. *)
From Coq Require Import Reals ZArith QArith Qcanon List Bool Arith Lia Lra Permutation Ring.
From Verif Require Import CNum Base ScalarModel ScalarProofs GraphModel GraphSem SumLemmas GraphProofs GraphOps RulesModel RuleLemmas
  SpiderProofs IsoProofs IdProofs LcompProofs PivotProofs PivotMatch GrowProofs StoreProofs InvProofs BfixProofs TotalProofs AmpProofs ZXFacts.
From Verif Require ExtractNbrs.
From Verif Require Import CongModel CongProofs GadgetizeModel.
Import ListNotations.
Open Scope nat_scope.

Lemma nbrs_none : forall g v, wfg g -> (forall w, edge_type g v w = None) -> neighbors g v = [].
Proof. intros g v W H. destruct (neighbors g v) as [|a l] eqn:E; auto. exfalso. assert (X : In a (neighbors g v)) by (rewrite E; left; auto). apply neighbors_spec in X. auto. Qed.
(** a new Z vertex in any diagram *)
Lemma newz_any : forall q r g g' v, wfg g -> add_vertex ZSP q r None g = (g', v) ->
  wfg g' /\ ~ In v (vertices g) /\ vertices g' = vertices g ++ [v] /\ (forall a b, edge_type g' a b = edge_type g a b) /\ (forall w, edge_type g' v w = None) /\
  vty g' v = ZSP /\ (forall w, w <> v -> vty g' w = vty g w) /\ phase g' v = 0%Qc /\ (forall w, w <> v -> phase g' w = phase g w) /\
  ginputs g' = ginputs g /\ goutputs g' = goutputs g /\ forall x, integL (vertices g') g' x = integL (vertices g) g x.
Proof.
  intros q r g g' v W A. change (add_vertex ZSP q r (Some 0%Qc) g = (g', v)) in A. assert (HI := fun x => integL_add_vertex _ _ _ _ _ _ _ x W A).
  destruct (add_vertex_spec _ _ _ _ _ _ _ W A) as [Ev [W' [V [ET [NB [T [P [I0 [O0 S]]]]]]]]].
  assert (Fv : ~ In v (vertices g)) by (apply vertices_pv_fresh; auto).
  split; auto. split; auto. split; auto. split; auto. split; [intros w; rewrite ET; exact (proj1 (edge_none_out g v w W Fv))|].
  split; [rewrite T, Nat.eqb_refl; auto|]. split; [intros w X; rewrite T, (proj2 (Nat.eqb_neq w v)) by auto; auto|].
  split; [rewrite P, Nat.eqb_refl; reflexivity|]. split; [intros w X; rewrite P, (proj2 (Nat.eqb_neq w v)) by auto; auto|].
  split; auto. split; auto. intros x. rewrite HI. cbn [vtype_eqb]. rewrite eph_0 by auto. ring.
Qed.
Lemma newh_any : forall s t g, wfg g -> s <> t -> In s (vertices g) -> In t (vertices g) -> vty g s = ZSP -> vty g t = ZSP -> edge_type g s t = None ->
  exists g', add_edge s t HADAMARD g = Ok g' /\ wfg g' /\ same_frame g g' /\ gphase g' = gphase g /\
    (forall u v, edge_type g' u v = if pair_hit s t u v then Some HADAMARD else edge_type g u v) /\
    forall x, integL (vertices g) g' x = (integL (vertices g) g x * (sq2p (-1) * sgn (x s && x t)))%C.
Proof.
  intros s t g W D Is It Ts Tt E. destruct (add_edge_ok s t HADAMARD g W D Is It (or_introl E)) as [g' A]. destruct (ExtractNbrs.fresh_edge _ _ _ _ _ W D E A) as [W' [F [P [S [_ [_ H]]]]]].
  exists g'. split; auto. split; auto. split; auto. split; auto. split; auto.
  intros x. rewrite (edge_diff _ g g' s t HADAMARD) by (auto using wf_nd). rewrite nw_had_z by auto. reflexivity.
Qed.

(** A Z vertex with more than one neighbour carries a multiple of pi/2. *)
Definition settled (g : graph) (v : nat) : Prop := vty g v = ZSP -> 1 < length (neighbors g v) -> (qden (phase g v) <= 2)%Z.

Lemma gadgetize1_ok : forall v g, wfg g -> noloop g -> In v (vertices g) ->
  exists g', gadgetize1 g v = Ok g' /\ wfg g' /\ noloop g' /\ ginputs g' = ginputs g /\ goutputs g' = goutputs g /\ (forall b, sem g' b = sem g b) /\
    settled g' v /\ incl (vertices g) (vertices g') /\ (forall w, In w (vertices g') -> In w (vertices g) \/ settled g' w) /\
    (forall w, In w (vertices g) -> vty g' w = vty g w /\ (w <> v -> phase g' w = phase g w /\ forall u, edge_type g' w u = edge_type g w u)).
Proof.
  intros v g W NL Hv. unfold gadgetize1.
  destruct (vtype_eqb (vty g v) ZSP && Nat.ltb 1 (length (neighbors g v)) && negb (is_clifford g v)) eqn:C.
  2:{ exists g. repeat (split; [solve [auto]|]). split; [|split; [intros w X; exact X|split; [auto|auto]]]. intros T L. rewrite T in C. cbn [vtype_eqb andb] in C.
      apply Nat.ltb_lt in L. rewrite L in C. cbn [andb] in C. apply negb_false_iff in C. unfold is_clifford in C. apply Z.leb_le in C. auto. }
  assert (Tv : vty g v = ZSP) by (destruct (vty g v); auto; discriminate C). clear C. set (p := phase g v).
  destruct (add_vertex ZSP (Qcz (-1)) _ None g) as [g1 v1] eqn:A1. destruct (newz_any _ _ _ _ _ W A1) as [W1 [N1 [V1 [E1 [E1n [T1 [T1o [P1 [P1o [I1 [O1 X1]]]]]]]]]]].
  destruct (add_vertex ZSP (Qcz (-2)) _ None g1) as [g2 v2] eqn:A2. destruct (newz_any _ _ _ _ _ W1 A2) as [W2 [N2 [V2 [E2 [E2n [T2 [T2o [P2 [P2o [I2 [O2 X2]]]]]]]]]]].
  rewrite V1, in_app_iff in N2. assert (D1 : v <> v1) by (intros ->; auto). assert (D2 : v <> v2) by (intros ->; auto). assert (D12 : v1 <> v2) by (intros ->; apply N2; simpl; auto).
  assert (VV : vertices g2 = vertices g ++ [v1; v2]) by (rewrite V2, V1, <- app_assoc; auto).
  assert (Tv2 : vty g2 v = ZSP) by (rewrite T2o, T1o by auto; auto). assert (Tv1 : vty g2 v1 = ZSP) by (rewrite T2o by auto; auto).
  assert (E2v1 : forall w, edge_type g2 v1 w = None) by (intros w; rewrite E2; apply E1n).
  destruct (newh_any v v1 g2 W2 D1) as [g3 [A3 [W3 [F3 [P3 [E3 X3]]]]]]; auto; try (rewrite VV, in_app_iff; simpl; auto; fail).
  { rewrite (wf_sym g2 W2). apply E2v1. }
  assert (VT3 : forall u, vty g3 u = vty g2 u) by (intros; apply same_frame_vty; auto). assert (V3 : vertices g3 = vertices g2) by apply F3.
  destruct (newh_any v1 v2 g3 W3) as [g4 [A4 [W4 [F4 [P4 [E4 X4]]]]]]; try (rewrite VT3); auto; try (rewrite V3, VV, in_app_iff; simpl; auto; fail).
  { rewrite E3, pair_hit_false by (intros X; injection X; intros; congruence). apply E2v1. }
  assert (VT4 : forall u, vty g4 u = vty g2 u) by (intros; rewrite <- VT3; apply same_frame_vty; auto). assert (V4 : vertices g4 = vertices g2) by (rewrite <- V3; apply F4).
  rewrite A3. cbn [bind]. rewrite A4. cbn [bind].
  assert (PH : forall w, phase g4 w = phase g2 w) by (intros w; unfold phase; rewrite P4, P3; auto).
  assert (PV : phase g4 v = p) by (rewrite PH, P2o, P1o; auto). rewrite PV.
  set (g5 := set_phase v2 p g4). set (g6 := set_phase v 0%Qc g5). exists g6. split; auto.
  assert (Hv4 : In v (vertices g4)) by (rewrite V4, VV, in_app_iff; auto). assert (H24 : In v2 (vertices g4)) by (rewrite V4, VV, in_app_iff; simpl; auto).
  assert (W5 : wfg g5) by (apply set_phase_wf; auto). assert (W6 : wfg g6) by (apply set_phase_wf; auto).
  assert (E6 : forall u w, edge_type g6 u w = if pair_hit v1 v2 u w then Some HADAMARD else if pair_hit v v1 u w then Some HADAMARD else edge_type g u w).
  { intros u w. change (edge_type g6 u w) with (edge_type g4 u w). rewrite E4, E3, E2, E1. auto. }
  assert (VT6 : forall u, vty g6 u = vty g2 u) by exact VT4.
  assert (Pset : forall a q h w, phase (set_phase a q h) w = if Nat.eqb w a then qmod2 q else phase h w).
  { intros a q h w. unfold phase, set_phase. cbn [gphase with_phase]. destruct (Nat.eqb w a) eqn:Ew; [apply Nat.eqb_eq in Ew; subst; rewrite dget_dset_eq; auto|apply Nat.eqb_neq in Ew; rewrite dget_dset_neq; auto]. }
  assert (P6 : forall w, phase g6 w = if Nat.eqb w v then 0%Qc else if Nat.eqb w v2 then qmod2 p else phase g2 w).
  { intros w. unfold g6, g5. rewrite !Pset, PH. destruct (Nat.eqb w v); auto. }
  assert (V6 : vertices g6 = vertices g ++ [v1; v2]) by (rewrite <- VV, <- V4; reflexivity).
  split; auto. split.
  { intros u. rewrite E6, !pair_hit_false by (intros X; injection X; intros; congruence). apply NL. }
  split; [change (ginputs g6) with (ginputs g4); destruct F4 as [_ [_ [-> _]]]; destruct F3 as [_ [_ [-> _]]]; congruence|].
  split; [change (goutputs g6) with (goutputs g4); destruct F4 as [_ [_ [_ [-> _]]]]; destruct F3 as [_ [_ [_ [-> _]]]]; congruence|].
  split; [|split; [|split; [|split]]].
  - assert (X6 : forall x, integL (vertices g6) g6 x = (integL (vertices g) g x * ephase p (x v2) * ephase (- p)%Qc (x v) * (sq2p (-1) * sgn (x v && x v1)) * (sq2p (-1) * sgn (x v1 && x v2)))%C).
    { intros x. unfold g6 at 2. rewrite integL_set_phase; [|apply W6|exact Hv4|unfold isB; change (vty g5 v) with (vty g4 v); rewrite VT4, Tv2; auto].
      unfold g5 at 1. rewrite integL_set_phase; [|apply W6|exact H24|unfold isB; rewrite VT4, T2; auto].
      replace (phase g5 v) with p by (unfold g5; rewrite Pset, (proj2 (Nat.eqb_neq v v2)) by auto; auto).
      rewrite PH, P2. change (vertices g6) with (vertices g4). rewrite V4 at 1. rewrite V3 in X4. rewrite X4, X3, X2, X1.
      replace (p - 0)%Qc with p by ring. replace (0 - p)%Qc with (- p)%Qc by ring. ring. }
    apply (sem_regroup g g6 [] [v1;v2] (vertices g)); auto.
    + rewrite V6. apply Permutation_app_comm.
    + intros w [].
    + intros w [<-|[<-|[]]]; unfold isB; rewrite VT6; [rewrite Tv1|rewrite T2]; auto.
    + intros w Hw. unfold isB. rewrite VT6, T2o, T1o; auto; intros ->; auto.
    + intros x. cbn [app sumv].
      assert (PM : Permutation (v1 :: v2 :: vertices g) (vertices g6)) by (rewrite V6; change (v1 :: v2 :: vertices g) with ([v1;v2] ++ vertices g); apply Permutation_app_comm).
      assert (IE : forall a b, integL (v1 :: v2 :: vertices g) g6 (upd (upd x v1 a) v2 b) = (integL (vertices g) g x * ephase p b * ephase (- p)%Qc (x v) * (sq2p (-1) * sgn (x v && a)) * (sq2p (-1) * sgn (a && b)))%C).
      { intros a b. rewrite (integL_perm _ _ _ _ W6 PM), X6. rewrite !upd_same. rewrite (upd_other _ v2 b v1) by auto. rewrite upd_same. rewrite (upd_other _ v2 b v), (upd_other _ v1 a v) by auto.
        rewrite !integL_indep by auto. reflexivity. }
      rewrite !IE. set (Z := integL (vertices g) g x). assert (Hp := cexp_opp_r p). assert (Hh := sq2p_half).
      unfold ephase, sgn. destruct (x v); cbn [andb].
      * symmetry. transitivity (Z * (cexp p * cexp (- p)%Qc) * (sq2p (-1) * sq2p (-1) * (C1 + C1)))%C; [ring|]. rewrite Hp, Hh. ring.
      * symmetry. transitivity (Z * (sq2p (-1) * sq2p (-1) * (C1 + C1)))%C; [ring|]. rewrite Hh. ring.
  - intros _ _. rewrite P6, Nat.eqb_refl. vm_compute; discriminate.
  - intros w Hw. rewrite V6, in_app_iff. auto.
  - intros w Hw. rewrite V6, in_app_iff in Hw. destruct Hw as [Hw|[<-|[<-|[]]]]; auto; right; intros _ L.
    + rewrite P6, (proj2 (Nat.eqb_neq v1 v)), (proj2 (Nat.eqb_neq v1 v2)) by auto. rewrite P2o, P1 by auto. vm_compute; discriminate.
    + exfalso. assert (I : incl (neighbors g6 v2) [v1]).
      { intros u Hu. apply neighbors_spec in Hu. destruct (Nat.eq_dec u v1) as [->|Du]; [left; auto|]. exfalso. apply Hu. rewrite E6, !pair_hit_false by (intros X; injection X; intros; congruence). rewrite <- E1, <- E2. apply E2n. }
      apply NoDup_incl_length in I; [simpl in I; lia|]. apply neighbors_nd; auto.
  - intros w Hw. assert (w <> v1 /\ w <> v2) as [Q1 Q2] by (split; intros ->; auto). split; [rewrite VT6, T2o, T1o; auto|]. intros Dw. split.
    + rewrite P6, (proj2 (Nat.eqb_neq w v)), (proj2 (Nat.eqb_neq w v2)) by auto. rewrite P2o, P1o; auto.
    + intros u. rewrite E6, !pair_hit_false by (intros X; injection X; intros; congruence). auto.
Qed.

Lemma gadgetize_loop : forall l g, wfg g -> noloop g -> incl l (vertices g) -> (forall w, In w (vertices g) -> In w l \/ settled g w) ->
  exists g', foldM gadgetize1 l g = Ok g' /\ wfg g' /\ noloop g' /\ ginputs g' = ginputs g /\ goutputs g' = goutputs g /\ (forall b, sem g' b = sem g b) /\ forall w, In w (vertices g') -> settled g' w.
Proof.
  induction l as [|v l IH]; intros g W NL I H.
  - exists g. repeat (split; [solve [auto]|]). intros w Hw. destruct (H w Hw) as [[]|]; auto.
  - destruct (gadgetize1_ok v g W NL (I v (or_introl eq_refl))) as [g1 [A [W1 [NL1 [I1 [O1 [S1 [Sv [Inc [New Old]]]]]]]]]].
    destruct (IH g1 W1 NL1) as [g2 [B [W2 [NL2 [I2 [O2 [S2 X2]]]]]]].
    + intros u Hu. apply Inc, I. right. auto.
    + intros w Hw. destruct (Nat.eq_dec w v) as [->|D]; auto. destruct (New w Hw) as [Hg|]; auto. destruct (H w Hg) as [[Q|Hl]|Hs]; [exfalso; auto|auto|]. right.
      destruct (Old w Hg) as [T0 R0]. destruct (R0 D) as [P0 E0]. intros Tw Lw. rewrite P0. apply Hs; [congruence|].
      apply Nat.lt_le_trans with (1 := Lw). apply NoDup_incl_length; [apply neighbors_nd; auto|]. intros u Hu. apply neighbors_spec. apply neighbors_spec in Hu. rewrite <- E0. auto.
    + exists g2. split; [cbn [foldM]; rewrite A; exact B|]. repeat (split; [solve [auto; congruence]|]). auto.
Qed.
Lemma gadgetize_ok : forall g, wfg g -> noloop g ->
  exists g', gadgetize g = Ok g' /\ wfg g' /\ noloop g' /\ ginputs g' = ginputs g /\ goutputs g' = goutputs g /\ (forall b, sem g' b = sem g b) /\
    forall w, In w (vertices g') -> vty g' w = ZSP -> 1 < length (neighbors g' w) -> (qden (phase g' w) <= 2)%Z.
Proof. intros g W NL. unfold gadgetize. apply gadgetize_loop; auto. intros w Hw; exact Hw. Qed.
(** a second run changes nothing *)
Lemma gadgetize_settled : forall l g, (forall w, In w l -> settled g w) -> foldM gadgetize1 l g = Ok g.
Proof.
  induction l as [|v l IH]; intros g H; auto. cbn [foldM]. assert (E : gadgetize1 g v = Ok g).
  { unfold gadgetize1. destruct (vtype_eqb (vty g v) ZSP) eqn:T; auto. destruct (Nat.ltb 1 (length (neighbors g v))) eqn:L; auto. cbn [andb].
    assert (X : is_clifford g v = true). { apply Z.leb_le. apply H; [left; auto| |apply Nat.ltb_lt; auto]. destruct (vty g v); auto; discriminate. }
    rewrite X. auto. }
  rewrite E. apply IH. intros w Hw. apply H. right. auto.
Qed.
Lemma gadgetize_again : forall g g', wfg g -> noloop g -> gadgetize g = Ok g' -> gadgetize g' = Ok g'.
Proof. intros g g' W NL E. destruct (gadgetize_ok g W NL) as [g1 [E1 [_ [_ [_ [_ [_ S]]]]]]]. rewrite E in E1. injection E1 as <-. apply gadgetize_settled. exact S. Qed.
