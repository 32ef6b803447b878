(** Soundness of local complementation (one batch). *)
From Coq Require Import Reals ZArith QArith Qcanon List Bool Arith Lia Permutation Ring.
From Verif Require Import CNum Base ScalarModel ScalarProofs GraphModel GraphSem SumLemmas GraphProofs GraphOps RulesModel RuleLemmas SpiderProofs IsoProofs IdProofs.
Import ListNotations.
Open Scope nat_scope.
Open Scope C_scope.

(** ** Hadamard-only additions to the edge table *)
Lemma had_fold : forall g L es tab, tabL L tab ->
  (forall s t, In (s,t) es -> s <> t /\ In s L /\ In t L /\ fst (cnt (s,t) tab) = O) ->
  let tab' := fold_left (fun tab e => etab_had e tab) es tab in
  tabL L tab' /\ (forall e, fst (cnt e tab') = fst (cnt e tab)) /\
  (forall e, ~ In e es -> cnt e tab' = cnt e tab) /\
  forall x, tabw g tab' x = tabw g tab x * cprod (fun e => nw g HADAMARD (fst e) (snd e) x) es.
Proof.
  intros g L es. induction es as [|[s t] es IH]; intros tab T H; cbn [fold_left].
  - split; auto. split; auto. split; auto. intros. cbn [cprod]. ring.
  - destruct (H s t (or_introl eq_refl)) as [A [B [D E]]].
    rewrite (etab_had_add (s,t) tab E).
    assert (FC : forall e, fst (cnt e (etab_add (s,t) HADAMARD tab)) = fst (cnt e tab)).
    { intros e. rewrite cnt_add. destruct (ekeq e (s,t)) eqn:X; auto. apply ekeq_eq in X. subst e. reflexivity. }
    destruct (IH (etab_add (s,t) HADAMARD tab)) as [I1 [I2 [I3 I4]]].
    + apply tabL_add; auto.
    + intros s' t' I'. destruct (H s' t' (or_intror I')) as [A' [B' [D' E']]]. rewrite FC. auto.
    + split; auto. split; [intros e; rewrite I2; apply FC|]. split.
      * intros e He. rewrite I3 by (simpl in He; tauto). rewrite cnt_add.
        destruct (ekeq e (s,t)) eqn:X; auto. apply ekeq_eq in X. subst e. simpl in He. tauto.
      * intros x. rewrite I4, tabw_add by apply T. cbn [cprod fst snd]. ring.
Qed.

Fixpoint pairs (l : list nat) : list edge :=
  match l with [] => [] | a :: l' => map (fun b => (a,b)) l' ++ pairs l' end.
Lemma lcomp_pairs_fold : forall l tab, lcomp_pairs l tab = fold_left (fun tab e => etab_had e tab) (pairs l) tab.
Proof.
  induction l as [|a l IH]; intros tab; simpl; auto.
  rewrite IH, fold_left_app. f_equal.
  clear IH. revert tab. induction l as [|b l0 IH0]; intros tab; simpl; auto.
Qed.
Lemma in_pairs : forall l s t, NoDup l -> In (s,t) (pairs l) -> s <> t /\ In s l /\ In t l.
Proof.
  induction l as [|a l IH]; simpl; intros s t N H; [contradiction|]. inversion N; subst.
  apply in_app_iff in H. destruct H as [H|H].
  - apply in_map_iff in H. destruct H as [b [E H]]. injection E as -> ->. repeat split; auto. intros ->; auto.
  - apply IH in H; auto. tauto.
Qed.
Lemma cprod_pairs : forall (f : nat -> nat -> C) l, cprod (fun e => f (fst e) (snd e)) (pairs l) = pprod f l.
Proof.
  induction l as [|a l IH]; simpl; [reflexivity|]. rewrite cprod_app, cprod_map, IH. reflexivity.
Qed.

(** ** The identity behind local complementation *)
Definition lphase (a : Qc) : Qc := if Z.eqb (qnum a) 1 then frac 1 4 else frac 7 4.
Definition parity (x : assignment) (l : list nat) : bool := fold_right (fun u b => xorb (x u) b) false l.

Lemma cprod_sgn : forall x l, cprod (fun u => sgn (x u)) l = sgn (parity x l).
Proof. induction l as [|u l IH]; simpl; [reflexivity|]. rewrite sgn_xorb. f_equal. exact IH. Qed.
Lemma cprod_sgn_and : forall b x l, cprod (fun u => sgn (b && x u)) l = sgn (b && parity x l).
Proof.
  intros [] x l; simpl; [apply cprod_sgn|]. apply cprod_1. intros; reflexivity.
Qed.
Lemma cprod_const : forall A (c : C) (l : list A), cprod (fun _ => c) l = cpow c (length l).
Proof. induction l; simpl; congruence. Qed.
Lemma cpow_sq2p : forall n m, cpow (sq2p n) m = sq2p (n * Z.of_nat m).
Proof.
  intros n m. induction m as [|m IH].
  - rewrite Z.mul_0_r. reflexivity.
  - simpl cpow. rewrite IH, <- sq2p_add. f_equal. lia.
Qed.

Lemma half_cases : forall a, qeqb a (frac 1 2) || qeqb a (frac 3 2) = true -> a = frac 1 2 \/ a = frac 3 2.
Proof. intros a H. apply orb_true_iff in H. rewrite !qeqb_eq in H. auto. Qed.

Lemma lcomp_list : forall a x l, a = frac 1 2 \/ a = frac 3 2 ->
  cprod (fun u => ephase (- a)%Qc (x u)) l * pprod (fun u v => sgn (x u && x v)) l = ephase (- a)%Qc (parity x l).
Proof.
  intros a x l Ha.
  assert (S : cexp (- a)%Qc * cexp (- a)%Qc = - C1).
  { rewrite cexp_opp. destruct Ha as [->| ->]; [rewrite cexp_half|rewrite cexp_3half]; cring. }
  induction l as [|u l IH]; simpl; [ring|].
  replace (ephase (- a)%Qc (x u) * cprod (fun u0 => ephase (- a)%Qc (x u0)) l *
    (cprod (fun v => sgn (x u && x v)) l * pprod (fun u0 v => sgn (x u0 && x v)) l))
   with (ephase (- a)%Qc (x u) * cprod (fun v => sgn (x u && x v)) l *
    (cprod (fun u0 => ephase (- a)%Qc (x u0)) l * pprod (fun u0 v => sgn (x u0 && x v)) l)) by ring.
  rewrite IH, cprod_sgn_and. fold (parity x l). destruct (x u), (parity x l); simpl; unfold sgn; try ring.
  transitivity (- (cexp (- a)%Qc * cexp (- a)%Qc)); [ring|rewrite S; ring].
Qed.

Lemma lcomp_identity : forall a x l, a = frac 1 2 \/ a = frac 3 2 ->
  C1 + cexp a * cprod (fun u => sgn (x u)) l =
  sq2p 1 * cexp (lphase a) * (cprod (fun u => ephase (- a)%Qc (x u)) l * pprod (fun u v => sgn (x u && x v)) l).
Proof.
  intros a x l Ha. rewrite cprod_sgn, lcomp_list by auto.
  assert (S : sq2p 1 * sq2p (-1) = C1) by (rewrite <- sq2p_add; reflexivity).
  destruct Ha as [->| ->].
  - change (lphase (frac 1 2)) with (frac 1 4). rewrite cexp_quarter, cexp_half.
    transitivity ((sq2p 1 * sq2p (-1)) * ((C1 + Ci) * ephase (- frac 1 2)%Qc (parity x l))); [|ring].
    rewrite S. destruct (parity x l); simpl; [rewrite cexp_opp, cexp_half|]; unfold sgn; cring.
  - change (lphase (frac 3 2)) with (frac 7 4). rewrite cexp_7quarter, cexp_3half.
    transitivity ((sq2p 1 * sq2p (-1)) * ((C1 - Ci) * ephase (- frac 3 2)%Qc (parity x l))); [|ring].
    rewrite S. destruct (parity x l); simpl; [rewrite cexp_opp, cexp_3half|]; unfold sgn; cring.
Qed.

(** ** Matches *)
Definition lc_ok (g : graph) (m : nat * list nat) : Prop :=
  let (v, vn) := m in
  In v (vertices g) /\ vty g v = ZSP /\ vn = neighbors g v /\
  (phase g v = frac 1 2 \/ phase g v = frac 3 2) /\
  (forall n, In n vn -> edge_type g v n = Some HADAMARD /\ vty g n = ZSP).

Lemma match_lcomp_in : forall g num cands disc m, (forall v, In v cands -> In v (vertices g)) ->
  In m (match_lcomp_loop g num cands disc) -> In (fst m) cands /\ ~ In (fst m) disc /\ lc_ok g m.
Proof.
  induction cands as [|c cands IH]; simpl; intros disc m HC H; [contradiction|].
  destruct (lim_zero num); [contradiction|].
  assert (D : forall d, In m (match_lcomp_loop g num cands d) ->
     (forall x, In x disc -> In x d) -> (c = fst m \/ In (fst m) cands) /\ ~ In (fst m) disc /\ lc_ok g m).
  { intros d Hj Hd. apply IH in Hj; auto. destruct Hj as [A [B Q]]. split; auto. }
  destruct (nmem c disc) eqn:M; [eapply D; eauto|].
  destruct (vtype_eqb (vty g c) ZSP) eqn:T; cbn [negb] in H; [|eapply D; eauto].
  destruct (qeqb (phase g c) (frac 1 2) || qeqb (phase g c) (frac 3 2)) eqn:Ph; cbn [negb] in H; [|eapply D; eauto].
  destruct (forallb (fun n => match edge_type g c n with Some HADAMARD => true | _ => false end) (neighbors g c)) eqn:F1; cbn [negb] in H; [|eapply D; eauto].
  destruct (forallb (fun n => vtype_eqb (vty g n) ZSP) (neighbors g c)) eqn:F2; cbn [negb] in H; [|eapply D; eauto].
  destruct H as [<-|H].
  - simpl. split; auto. split; [apply nmem_false; auto|]. split; [auto|]. split; [apply vtype_eqb_eq; auto|].
    split; auto. split; [apply half_cases; auto|].
    rewrite forallb_forall in F1, F2. intros n Hn. specialize (F1 n Hn). specialize (F2 n Hn).
    apply vtype_eqb_eq in F2. destruct (edge_type g c n) as [[|]|]; try discriminate. auto.
  - eapply D; eauto. intros; apply in_app_iff; auto.
Qed.

Lemma match_lcomp_far : forall g num cands disc, (forall v, In v cands -> In v (vertices g)) -> NoDup cands ->
  ForallOrdPairs (fun m m' => vfar g (fst m) (fst m')) (match_lcomp_loop g num cands disc).
Proof.
  intros g num cands. induction cands as [|c cands IH]; simpl; intros disc H ND; [constructor|].
  inversion ND; subst.
  destruct (lim_zero num); [constructor|].
  destruct (nmem c disc); [apply IH; auto|].
  repeat match goal with |- ForallOrdPairs _ (if ?b then _ else _) => destruct b; [apply IH; auto|] end.
  constructor; [|apply IH; auto]. rewrite Forall_forall. intros m Hm.
  apply match_lcomp_in in Hm; auto. destruct Hm as [A [B _]]. simpl. split.
  - intros ->. contradiction.
  - destruct (edge_type g c (fst m)) eqn:E; auto. exfalso. apply B. apply in_app_iff. right.
    apply neighbors_spec. congruence.
Qed.

(** effect of one match on the remaining vertices *)
Definition lc_eff (g : graph) (m : nat * list nat) (x : assignment) : C :=
  cexp (lphase (phase g (fst m))) * sq2p ((Z.of_nat (length (snd m)) - 2) * (Z.of_nat (length (snd m)) - 1) / 2)
  * cprod (fun u => ephase (- phase g (fst m))%Qc (x u)) (snd m)
  * pprod (fun u v => nw g HADAMARD u v x) (snd m).

Lemma nw_had_z : forall g u v x, vty g u = ZSP -> vty g v = ZSP ->
  nw g HADAMARD u v x = sq2p (-1) * sgn (x u && x v).
Proof. intros. unfold nw, isX. rewrite H, H0. reflexivity. Qed.
Lemma pprod_const : forall c l, pprod (fun _ _ => c) l = cpow c (length l * (length l - 1) / 2).
Proof.
  assert (PA : forall c n m, cpow c (n + m) = cpow c n * cpow c m) by (induction n; intros; simpl; [ring|rewrite IHn; ring]).
  induction l as [|a l IH]; [reflexivity|]. cbn [pprod]. rewrite cprod_const, IH, <- PA. f_equal.
  cbn [length]. set (n := length l).
  replace (S n * (S n - 1))%nat with (n * (n - 1) + n * 2)%nat by (destruct n; simpl; nia).
  rewrite Nat.div_add by lia. lia.
Qed.

Lemma lcomp_local : forall g m rest x, wfg g -> NoDup rest -> ~ In (fst m) rest -> noloop g -> lc_ok g m ->
  (forall u, In u (neighbors g (fst m)) -> In u rest) ->
  sumv [fst m] (loc g [fst m] rest) x = lc_eff g m x.
Proof.
  intros g [v vn] rest x W N Nv NL [H1 [H2 [H3 [H4 H5]]]] Hr. simpl fst in *.
  rewrite loc_single; auto. rewrite <- H3.
  assert (EW : forall b u, In u vn -> ew g v u b (x u) = sq2p (-1) * sgn (b && x u)).
  { intros b u Hu. destruct (H5 u Hu) as [A B]. unfold ew, isX. rewrite A, H2, B. reflexivity. }
  unfold pw. replace (isB g v) with false by (unfold isB; rewrite H2; reflexivity).
  unfold ephase at 1 2.
  rewrite (cprod_ext _ (fun u => ew g v u false (x u)) (fun u => sq2p (-1) * C1) vn) by (intros; rewrite EW by auto; reflexivity).
  rewrite (cprod_ext _ (fun u => ew g v u true (x u)) (fun u => sq2p (-1) * sgn (x u)) vn) by (intros; rewrite EW by auto; reflexivity).
  rewrite !cprod_mult, (cprod_1 _ (fun _ => C1)) by auto. rewrite cprod_const.
  unfold lc_eff. simpl fst. simpl snd.
  rewrite (pprod_ext vn (fun u v => nw g HADAMARD u v x) (fun u v => sq2p (-1) * sgn (x u && x v))).
  2:{ intros a b Ha Hb. apply nw_had_z; apply H5; auto. }
  rewrite pprod_mult, pprod_const, !cpow_sq2p.
  assert (ID := lcomp_identity (phase g v) x vn H4).
  transitivity (sq2p (-1 * Z.of_nat (length vn)) * (C1 + cexp (phase g v) * cprod (fun u => sgn (x u)) vn)); [ring|].
  rewrite ID. set (n := length vn).
  assert (PW : sq2p ((Z.of_nat n - 2) * (Z.of_nat n - 1) / 2) * sq2p (-1 * Z.of_nat (n * (n - 1) / 2)) = sq2p (-1 * Z.of_nat n) * sq2p 1).
  { rewrite <- !sq2p_add. f_equal.
    assert (E1 : Nat.even (n * (n-1)) = true).
    { rewrite Nat.even_mul. destruct (Nat.Even_or_Odd n) as [X|X].
      - apply Nat.even_spec in X. rewrite X. reflexivity.
      - apply orb_true_iff. right. destruct X as [k ->]. apply Nat.even_spec. exists k. lia. }
    apply Nat.even_spec in E1. destruct E1 as [k E1]. rewrite E1.
    replace (2 * k)%nat with (k * 2)%nat by lia. rewrite Nat.div_mul by lia.
    assert (Z.of_nat n * (Z.of_nat n - 1) = 2 * Z.of_nat k)%Z.
    { destruct (Nat.eq_dec n 0) as [Z0|]; [rewrite Z0 in *; lia|].
      replace (Z.of_nat n - 1)%Z with (Z.of_nat (n - 1)) by lia. rewrite <- Nat2Z.inj_mul, E1. lia. }
    replace ((Z.of_nat n - 2) * (Z.of_nat n - 1))%Z with ((Z.of_nat k - Z.of_nat n + 1) * 2)%Z by nia.
    rewrite Z.div_mul by lia. lia. }
  transitivity ((sq2p (-1 * Z.of_nat n) * sq2p 1) * (cexp (lphase (phase g v)) *
     (cprod (fun u => ephase (- phase g v)%Qc (x u)) vn * pprod (fun u v => sgn (x u && x v)) vn))); [ring|].
  rewrite <- PW. ring.
Qed.

Definition tabH (tab : etab) : Prop := forall e, fst (cnt e tab) = O.

Lemma lcomp_fold : forall g rest ms, wfg g -> noloop g -> NoDup rest ->
  (forall m, In m ms -> lc_ok g m) -> ForallOrdPairs (fun m m' => vfar g (fst m) (fst m')) ms ->
  (forall m u, In m ms -> In u (neighbors g (fst m)) -> In u rest) ->
  forall g1 tab rem, wfg g1 -> same_frame g g1 -> gadj g1 = gadj g -> tabL rest tab -> tabH tab ->
  (forall m, In m ms -> phase g1 (fst m) = phase g (fst m)) ->
  exists g' tab', fold_left lcomp_one ms (g1, tab, rem) = (g', tab', rem ++ map fst ms) /\
    wfg g' /\ same_frame g g' /\ gadj g' = gadj g /\ tabL rest tab' /\
    (forall P, pcl P -> allph P g1 -> allph P g') /\
    forall x, integL rest g' x * tabw g tab' x = integL rest g1 x * tabw g tab x * cprod (fun m => lc_eff g m x) ms.
Proof.
  intros g rest ms W NL ND. induction ms as [|m ms IH]; intros HO HF HR g1 tab rem W1 F1 A1 T1 TH P1.
  - exists g1, tab. simpl. rewrite app_nil_r. do 6 (split; [auto; fail|]). intros; ring.
  - inversion HF; subst. rewrite Forall_forall in H1.
    assert (OK := HO m (or_introl eq_refl)). assert (Pm := P1 m (or_introl eq_refl)).
    destruct m as [v vn]. simpl fst in *. destruct OK as [O1 [O2 [O3 [O4 O5]]]].
    cbn [fold_left]. unfold lcomp_one at 2.
    set (g2 := on_scalar (s_add_phase _) g1). set (g3 := on_scalar (s_add_power _) g2).
    change (fold_left (fun g0 u => add_to_phase u (- phase g1 v)%Qc g0) vn g3) with (add_phases vn (- phase g1 v)%Qc g3).
    assert (W3 : wfg g3) by (apply on_scalar_wfg, on_scalar_wfg; auto).
    assert (F3 : same_frame g g3).
    { eapply same_frame_trans; [exact F1|]. eapply same_frame_trans; apply on_scalar_frame. }
    assert (V3 : vertices g3 = vertices g) by (destruct F3 as [X _]; exact X).
    assert (R1 : forall u, In u vn -> In u rest) by (intros u Hu; apply (HR (v,vn)); simpl; auto; rewrite <- O3; auto).
    assert (HV : forall u, In u vn -> In u rest /\ In u (vertices g3) /\ isB g3 u = false).
    { intros u Hu. split; auto. split.
      - rewrite V3. rewrite O3 in Hu. eapply neighbors_in; eauto.
      - rewrite (same_frame_isB g g3); auto. unfold isB. rewrite (proj2 (O5 u Hu)). reflexivity. }
    destruct (add_phases_spec rest vn (- phase g1 v)%Qc g3 W3 ND HV) as [B1 [B2 [B3 [B4 [B5 B6]]]]].
    set (g4 := add_phases vn (- phase g1 v)%Qc g3) in *.
    assert (NV : NoDup vn) by (rewrite O3; apply neighbors_nd; auto).
    rewrite lcomp_pairs_fold.
    destruct (had_fold g rest (pairs vn) tab T1) as [D1 [D2 [D3 D4]]].
    { intros s t Hst. apply in_pairs in Hst; auto. destruct Hst as [X [Y Z]]. auto. }
    set (tab1 := fold_left _ (pairs vn) tab) in *.
    assert (F4 : same_frame g g4) by (eapply same_frame_trans; eauto).
    destruct (IH) with (g1 := g4) (tab := tab1) (rem := rem ++ [v]) as [g' [tab' [Y1 [Y2 [Y3 [Y4 [Y5 [Y6 Y7]]]]]]]]; auto.
    + intros m' Hm'. apply HO; simpl; auto.
    + intros m' u Hm'. apply HR; simpl; auto.
    + rewrite B3. exact A1.
    + intros e. rewrite D2. apply TH.
    + intros m' Hm'. rewrite B5.
      * exact (P1 m' (or_intror Hm')).
      * rewrite O3. rewrite neighbors_spec. intros X. destruct (H1 m' Hm') as [_ Y]. simpl in Y. contradiction.
    + exists g', tab'. split.
      { rewrite Y1, <- app_assoc. reflexivity. }
      do 4 (split; [auto; fail|]). split.
      { intros P PC AP. apply Y6; auto. unfold g4. apply allph_add_phases.
        - apply PC.
        - intros u Hu. apply HV; auto.
        - left. rewrite Pm. apply quarter_opp. destruct O4 as [->| ->]; [exists 2%Z|exists 6%Z]; apply Qc_is_canon; reflexivity.
        - apply (allph_frame P g2 g3); [apply on_scalar_frame|reflexivity|].
          apply (allph_frame P g1 g2); [apply on_scalar_frame|reflexivity|]. auto. }
      intros x. rewrite Y7, B6, D4, (cprod_pairs (fun s t => nw g HADAMARD s t x)).
      unfold g3. rewrite integL_power. unfold g2. rewrite integL_sphase.
      cbn [cprod]. unfold lc_eff at 2. simpl fst; simpl snd. rewrite Pm. unfold lphase. ring.
Qed.

Theorem lcomp_core : forall P g ms o g1 g2 g3, pcl P -> zxok g -> allph P g ->
  (forall m, In m ms -> lc_ok g m) -> ForallOrdPairs (fun m m' => vfar g (fst m) (fst m')) ms ->
  lcomp ms g = Ok o ->
  add_edge_table (rw_etab o) (rw_graph o) = Ok g1 -> remove_edges (rw_edges o) g1 = Ok g2 ->
  remove_vertices (rw_verts o) g2 = Ok g3 -> step_ok g g3 /\ allph P g3.
Proof.
  intros P g ms o g1 g2 g3 PC ZX AP HO HF H E1 E2 E3.
  assert (W := zx_wf g ZX). assert (NL := zx_noloop g ZX).
  set (rem := map fst ms).
  assert (NR : NoDup rem).
  { apply nodup_map_fop with (R := fun m m' => vfar g (fst m) (fst m')); auto. intros a b _ _ F. apply F. }
  assert (KR : forall m u, In m ms -> In u (neighbors g (fst m)) -> In u (keep rem g)).
  { intros m u Hm Hu. apply in_keep. split; [eapply neighbors_in; eauto|]. intros X.
    apply neighbors_spec in Hu. apply in_map_iff in X. destruct X as [m' [X1 X2]]. subst u.
    destruct (FOP_in _ _ _ m m' HF Hm X2) as [<-|[F|F]].
    - rewrite NL in Hu. congruence.
    - destruct F. contradiction.
    - destruct F as [_ F]. rewrite (wf_sym g W) in F. contradiction. }
  assert (RB : forall v, In v rem -> In v (vertices g) /\ isB g v = false).
  { intros v Hv. apply in_map_iff in Hv. destruct Hv as [[v' vn] [<- Hm]].
    destruct (HO _ Hm) as [A [B _]]. simpl. split; auto. unfold isB. rewrite B. reflexivity. }
  destruct (lcomp_fold g (keep rem g) ms W NL (keep_nd rem g W) HO HF KR g [] []) as [g' [tab' [X1 [X2 [X3 [X4 [X5 [X6 X7]]]]]]]]; auto.
  { apply same_frame_refl. }
  { apply tabL_nil. }
  { intros e. reflexivity. }
  unfold lcomp in H. rewrite X1 in H. injection H as <-. simpl in E1, E2, E3. injection E2 as <-.
  fold rem in X1, E3.
  split.
  - apply (batch_sound g rem g' tab' g1 g3); auto.
    + apply X6; [exact pcl_in02|]. exact (zx_ph g ZX).
    + intros x. rewrite X7. unfold rem at 1 2. rewrite <- flat_map_single. rewrite batch_sum.
      * rewrite (cprod_ext _ (fun m => sumv [fst m] (loc g [fst m] (keep rem g)) x) (fun m => lc_eff g m x) ms);
          [unfold tabw; cbn [cprod map]; ring|].
        intros m Hm. apply lcomp_local; auto.
        -- apply keep_nd; auto.
        -- rewrite in_keep. intros [_ Y]. apply Y. apply in_map_iff. eauto.
        -- intros u Hu. eapply KR; eauto.
      * rewrite flat_map_single. fold rem. apply nodup_app; auto; [apply keep_nd; auto|].
        intros v Hv Hk. apply in_keep in Hk. tauto.
      * eapply ForallOrdPairs_imp; [|exact HF]. intros a b _ _ F u w [<-|[]] [<-|[]]. apply F.
  - exact (batch_allph P _ rem tab' g' g1 g3 PC (keep_nd rem g W) X2 (X6 P PC AP) X5 E1 E3).
Qed.

Theorem lcomp_step_matches : forall K P g ms o g', good K P -> zxok g -> allph P g ->
  (forall m, In m ms -> lc_ok g m) -> ForallOrdPairs (fun m m' => vfar g (fst m) (fst m')) ms ->
  lcomp ms g = Ok o -> apply_rw o = Ok g' -> step_k K g g' /\ allph P g'.
Proof.
  intros K P g ms o g' G ZX AP HO HF H E. eapply apply_rw_sound; eauto.
  intros g1 g2 g3 E1 E2 E3. apply (lcomp_core P g ms o g1 g2 g3); auto. apply G.
Qed.
Theorem lcomp_step : forall K P g cands num o g', good K P -> zxok g -> allph P g ->
  (forall v, In v cands -> In v (vertices g)) -> NoDup cands ->
  lcomp (match_lcomp_parallel cands num g) g = Ok o -> apply_rw o = Ok g' -> step_k K g g' /\ allph P g'.
Proof.
  intros K P g cands num o g' G ZX AP HC ND H E.
  eapply lcomp_step_matches; eauto.
  - intros m Hm. apply match_lcomp_in in Hm; tauto.
  - apply match_lcomp_far; auto.
Qed.
